(** * Proofs about the projection of one integer variable from literals, and with divisibility constraints. *)
From Coq Require Import QArith Qcanon Znumtheory ZArith Ring Lia.
From Verif Require Import Syntax Solver KTo1Model FormulaModel Lin MbpModel MbpLia.
Open Scope Z_scope.
Open Scope list_scope.

Lemma mapM_some {A B} (f : A -> option B) l ys : mapM f l = Some ys -> Forall2 (fun x y => f x = Some y) l ys.
Proof.
  revert ys. induction l as [|x l IH]; cbn; intros ys E; [injection E as <-; constructor|].
  destruct (f x) as [y|] eqn:Ef; [|discriminate]. destruct (mapM f l) as [ys'|]; [|discriminate]. injection E as <-. constructor; [exact Ef|]. apply IH. reflexivity.
Qed.
Lemma mapM_in {A B} (f : A -> option B) l ys y : mapM f l = Some ys -> In y ys -> exists x, In x l /\ f x = Some y.
Proof.
  intros E. apply mapM_some in E. induction E as [|x z l ys Ef _ IH]; intros []; [subst; exists x; split; [left; reflexivity|exact Ef]|].
  destruct (IH H) as [x' [H1 H2]]. exists x'. split; [right; exact H1|exact H2].
Qed.
Lemma mapM_in' {A B} (f : A -> option B) l ys x : mapM f l = Some ys -> In x l -> exists y, In y ys /\ f x = Some y.
Proof.
  intros E. apply mapM_some in E. induction E as [|z y l ys Ef _ IH]; intros []; [subst; exists y; split; [left; reflexivity|exact Ef]|].
  destruct (IH H) as [x' [H1 H2]]. exists x'. split; [right; exact H1|exact H2].
Qed.
Lemma in_lows p bs : In p (lows bs) <-> In (Low (fst p) (snd p)) bs.
Proof.
  unfold lows. rewrite in_flat_map. split.
  - intros [[s b|t a|t a] [H1 H2]]; cbn [In] in H2; try tauto; destruct H2 as [X|[]]; destruct X; exact H1.
  - intros H. exists (Low (fst p) (snd p)). split; [exact H|]. left. destruct p; reflexivity.
Qed.
Lemma in_ups p bs : In p (ups bs) <-> In (Up (fst p) (snd p)) bs.
Proof.
  unfold ups. rewrite in_flat_map. split.
  - intros [[s b|t a|t a] [H1 H2]]; cbn [In] in H2; try tauto; destruct H2 as [X|[]]; destruct X; exact H1.
  - intros H. exists (Up (fst p) (snd p)). split; [exact H|]. left. destruct p; reflexivity.
Qed.
Lemma in_eqls p bs : In p (eqls bs) <-> In (Eql (fst p) (snd p)) bs.
Proof.
  unfold eqls. rewrite in_flat_map. split.
  - intros [[s b|t a|t a] [H1 H2]]; cbn [In] in H2; try tauto; destruct H2 as [X|[]]; destruct X; exact H1.
  - intros H. exists (Eql (fst p) (snd p)). split; [exact H|]. left. destruct p; reflexivity.
Qed.
Lemma glb_ok m l : forall best others g os, 0 < snd best -> Forall (fun x => 0 < snd x) l -> Forall (fun x => 0 < snd x) others ->
  Forall (fun o => zev m (fst o) * snd best <= zev m (fst best) * snd o) others -> glb m best others l = (g, os) ->
  (forall x, In x (g :: os) <-> In x (best :: others ++ l)) /\ Forall (fun o => zev m (fst o) * snd g <= zev m (fst g) * snd o) os.
Proof.
  induction l as [|x l IH]; intros best others g os Pb Pl Po Ho E; cbn [glb] in E.
  - injection E as <- <-. rewrite app_nil_r. split; [tauto|exact Ho].
  - apply Forall_cons_iff in Pl as [Px Pl]. destruct (Z.ltb_spec (zev m (fst best) * snd x) (zev m (fst x) * snd best)) as [L|L].
    + destruct (IH x (others ++ [best]) g os Px Pl) as [H1 H2]; [apply Forall_app; auto|apply Forall_app; split|exact E|].
      * rewrite Forall_forall in *. intros o Ho'. specialize (Ho o Ho'). specialize (Po o Ho'). cbv beta in *. set (zb := zev m (fst best)) in *. set (zx := zev m (fst x)) in *. set (zo := zev m (fst o)) in *.
        apply (Zmult_le_reg_r _ _ (snd best)); [lia|]. transitivity (zb * snd o * snd x); [|].
        -- replace (zo * snd x * snd best) with (zo * snd best * snd x) by ring. apply Z.mul_le_mono_nonneg_r; lia.
        -- replace (zb * snd o * snd x) with (zb * snd x * snd o) by ring. replace (zx * snd o * snd best) with (zx * snd best * snd o) by ring. apply Z.mul_le_mono_nonneg_r; lia.
      * constructor; [lia|constructor].
      * split; [|exact H2]. intros y. rewrite H1. cbn [In]. rewrite !in_app_iff. cbn [In]. tauto.
    + destruct (IH best (others ++ [x]) g os Pb Pl) as [H1 H2]; [apply Forall_app; auto|apply Forall_app; split; [exact Ho|constructor; [lia|constructor]]|exact E|].
      split; [|exact H2]. intros y. rewrite H1. cbn [In]. rewrite !in_app_iff. cbn [In]. tauto.
Qed.

(** A common solution for bounds in one direction. *)
Lemma all_lows r bs : (forall b, In b bs -> 0 < bcoef b) -> (forall b, In b bs -> exists s k, b = Low s k) -> exists z, Forall (bsem r z) bs.
Proof.
  intros P L. assert (X : exists z, forall y, z <= y -> Forall (bsem r y) bs).
  { induction bs as [|b bs IH]; [exists 0; constructor|]. destruct IH as [z Hz]; [intros; apply P; right; auto|intros; apply L; right; auto|].
    destruct (L b (or_introl eq_refl)) as [s [k ->]]. pose proof (P _ (or_introl eq_refl)) as Pk. cbn [bcoef] in Pk. exists (Z.max z (ceil (zev r s) k)). intros y Hy. constructor; [|apply Hz; lia].
    cbn [bsem]. pose proof (ceil_ge (zev r s) k Pk). nia. }
  destruct X as [z Hz]. exists z. apply Hz. lia.
Qed.
Lemma all_ups r bs : (forall b, In b bs -> 0 < bcoef b) -> (forall b, In b bs -> exists s k, b = Up s k) -> exists z, Forall (bsem r z) bs.
Proof.
  intros P L. assert (X : exists z, forall y, y <= z -> Forall (bsem r y) bs).
  { induction bs as [|b bs IH]; [exists 0; constructor|]. destruct IH as [z Hz]; [intros; apply P; right; auto|intros; apply L; right; auto|].
    destruct (L b (or_introl eq_refl)) as [t [a ->]]. pose proof (P _ (or_introl eq_refl)) as Pa. cbn [bcoef] in Pa. exists (Z.min z (zev r t / a)). intros y Hy. constructor; [|apply Hz; lia].
    cbn [bsem]. pose proof (Z.mul_div_le (zev r t) a Pa). nia. }
  destruct X as [z Hz]. exists z. apply Hz. lia.
Qed.

Definition dgood (d : divc) : Prop := 0 < fst d /\ zleafs (snd d).
(** A variable of the literals or of the divisibility constraints. *)
Definition vin (u : var) (divs : list divc) (lits : list literal) : Prop :=
  (exists lt, In lt lits /\ In u (vars (fst lt))) \/ (exists d, In d divs /\ In u (zkeys (snd d))).
Record pstep (m : valuation) (v : var) (divs : list divc) (lits : list literal) (divs' : list divc) (lits' : list literal) : Prop := {
  ps_vars : forall u, vin u divs' lits' -> vin u divs lits /\ u <> v;
  ps_good : Forall dgood divs';
  ps_lits : Forall (lsem m) lits';
  ps_divs : Forall (dsem m) divs';
  ps_back : forall r, Forall (lsem r) lits' -> Forall (dsem r) divs' -> exists z, Forall (lsem (set_val r v (VInt z))) lits /\ Forall (dsem (set_val r v (VInt z))) divs }.

Lemma Forall_concat {A} (P : A -> Prop) ls : Forall P (concat ls) <-> Forall (Forall P) ls.
Proof. induction ls as [|l ls IH]; cbn; [split; constructor|]. rewrite Forall_app, Forall_cons_iff, IH. tauto. Qed.
Lemma Forall_map_iff {A B} (P : B -> Prop) (f : A -> B) l : Forall P (map f l) <-> Forall (fun x => P (f x)) l.
Proof. induction l; cbn; [split; constructor|]. rewrite !Forall_cons_iff, IHl. tauto. Qed.

Section Classic.
Variable shuffle : list literal -> list literal.
Hypothesis Hs : forall l x, In x (shuffle l) <-> In x l.

Lemma classic_ok m v divs lits divs' lits' :
  Forall dgood divs -> (forall d, In d divs -> ~ In v (zkeys (snd d))) -> Forall (lsem m) lits -> Forall (dsem m) divs ->
  classic shuffle m v divs lits = Some (divs', lits') -> pstep m v divs lits divs' lits'.
Proof.
  intros Gd Nd Ml Md. unfold classic. set (rest := filter (fun lt => negb (contains v lt)) lits).
  destruct (mapM (classify m v) (shuffle (filter (contains v) lits))) as [bs|] eqn:Eb; [|discriminate].
  assert (B : forall b, In b bs -> 0 < bcoef b /\ (forall u, In u (zkeys (bterm b)) -> u <> v /\ vin u divs lits /\ vsort u = SInt) /\ bsem m (zval m v) b).
  { intros b Hb. destruct (mapM_in _ _ _ _ Eb Hb) as [lt [H1 H2]]. apply Hs, filter_In in H1 as [H1 _]. apply classify_ok in H2 as [C1 [C2 [C3 _]]].
    split; [exact C1|]. split; [|apply C3; rewrite Forall_forall in Ml; apply Ml, H1]. intros u Hu. apply C2 in Hu as [X [Y Z]]. split; [exact X|]. split; [|exact Z]. left. eauto. }
  assert (Lift : forall r z, Forall (lsem r) rest -> Forall (dsem r) divs -> Forall (bsem r z) bs -> Forall (lsem (set_val r v (VInt z))) lits /\ Forall (dsem (set_val r v (VInt z))) divs).
  { intros r z Hr Hd Hb. rewrite Forall_forall in Hr, Hd, Hb. split; apply Forall_forall.
    - intros lt H. destruct (contains v lt) eqn:Ec.
      + assert (H' : In lt (shuffle (filter (contains v) lits))) by (apply Hs, filter_In; auto). destruct (mapM_in' _ _ _ _ Eb H') as [b [H1 H2]].
        apply classify_ok in H2 as [_ [_ [_ C4]]]. apply C4, Hb, H1.
      + apply lsem_set_other; [intros X; apply inb_true in X; unfold contains in Ec; congruence|]. apply Hr, filter_In. rewrite Ec. auto.
    - intros d H. unfold dsem. rewrite zev_set_other by (apply Nd, H). apply Hd, H. }
  assert (R1 : forall u lt, In lt rest -> In u (vars (fst lt)) -> vin u divs lits /\ u <> v).
  { intros u lt H1 H2. apply filter_In in H1 as [H1 H3]. split; [left; eauto|]. intros ->. apply negb_true_iff in H3. unfold contains in H3. apply inb_true in H2. congruence. }
  assert (R2 : Forall (lsem m) rest) by (rewrite Forall_forall in *; intros lt H; apply filter_In in H as [H _]; auto).
  assert (R3 : forall u d, In d divs -> In u (zkeys (snd d)) -> vin u divs lits /\ u <> v) by (intros u d H1 H2; split; [right; eauto|intros ->; apply (Nd d H1 H2)]).
  clear Eb.
  assert (BL : forall b, In b bs -> zleafs (bterm b)) by (intros b Hb u Hu; apply (B b Hb) in Hu as [_ [_ X]]; exact X).
  assert (BK : forall b u, In b bs -> In u (zkeys (bterm b)) -> vin u divs lits /\ u <> v) by (intros b u Hb Hu; apply (B b Hb) in Hu as [X [Y _]]; auto).
  (* the literal 0 <= k * x - j * y *)
  assert (Pr : forall b1 b2 k j, In b1 bs -> In b2 bs -> zleafs (zsub (zsc k (bterm b1)) (zsc j (bterm b2))) /\ forall w, In w (zkeys (zsub (zsc k (bterm b1)) (zsc j (bterm b2)))) -> vin w divs lits /\ w <> v).
  { intros b1 b2 k j H1 H2. split; intros w Hw; apply zk_sub in Hw as [Hw|Hw]; apply zk_sc in Hw; first [exact (BL _ H1 w Hw)|exact (BL _ H2 w Hw)|exact (BK _ w H1 Hw)|exact (BK _ w H2 Hw)]. }
  assert (Ev : forall r x y k j, zev r (zsub (zsc k x) (zsc j y)) = k * zev r x - j * zev r y) by (intros; rewrite zev_sub, !zev_sc; reflexivity).
  destruct (eqls bs) as [|[t a] es] eqn:Ee.
  - assert (NoE : forall t a, ~ In (Eql t a) bs) by (intros t a H; apply (in_eqls (t, a)) in H; rewrite Ee in H; destruct H).
    destruct (lows bs) as [|low0 low'] eqn:El.
    + intros E. injection E as <- <-. assert (NoL : forall t a, ~ In (Low t a) bs) by (intros t a H; apply (in_lows (t, a)) in H; rewrite El in H; destruct H). split; auto.
      * intros u [[lt [H1 H2]]|[d [H1 H2]]]; eauto.
      * intros r H1 H2. destruct (all_ups r bs) as [z Hz]; [intros b Hb; apply B, Hb| |exists z; apply Lift; auto].
        intros [s b|t a|t a] Hb; [destruct (NoL _ _ Hb)|eauto|destruct (NoE _ _ Hb)].
    + destruct (ups bs) as [|up0 up'] eqn:Eu.
      { intros E. injection E as <- <-. assert (NoU : forall t a, ~ In (Up t a) bs) by (intros t a H; apply (in_ups (t, a)) in H; rewrite Eu in H; destruct H). split; auto.
        * intros u [[lt [H1 H2]]|[d [H1 H2]]]; eauto.
        * intros r H1 H2. destruct (all_lows r bs) as [z Hz]; [intros b Hb; apply B, Hb| |exists z; apply Lift; auto].
          intros [s b|t a|t a] Hb; [eauto|destruct (NoU _ _ Hb)|destruct (NoE _ _ Hb)]. }
      destruct (glb m low0 [] low') as [g others] eqn:Eg. rewrite <- Eu.
      assert (PL : forall p, In p (lows bs) -> 0 < snd p) by (intros p H; apply in_lows in H; apply B in H as [H _]; exact H).
      destruct (glb_ok m low' low0 [] g others) as [G1 G2]; [apply PL; rewrite El; left; reflexivity|apply Forall_forall; intros p H; apply PL; rewrite El; right; exact H|constructor|constructor|exact Eg|].
      cbn [app] in G1. rewrite <- El in G1. assert (Hg : In (Low (fst g) (snd g)) bs) by (apply in_lows, G1; left; reflexivity).
      assert (Ho : forall o, In o others -> In (Low (fst o) (snd o)) bs) by (intros o H; apply in_lows, G1; right; exact H).
      assert (Hu : forall o, In o (ups bs) -> In (Up (fst o) (snd o)) bs) by (intros o H; apply in_ups, H).
      assert (Res : forall o, In o (ups bs) ->
        (forall lt u, In lt (fst (resolve m g o)) -> In u (vars (fst lt)) -> vin u divs lits /\ u <> v) /\
        (forall d, In d (snd (resolve m g o)) -> dgood d /\ forall u, In u (zkeys (snd d)) -> vin u divs lits /\ u <> v) /\
        Forall (lsem m) (fst (resolve m g o)) /\ Forall (dsem m) (snd (resolve m g o)) /\
        (forall r, Forall (lsem r) (fst (resolve m g o)) -> Forall (dsem r) (snd (resolve m g o)) -> snd o * ceil (zev r (fst g)) (snd g) <= zev r (fst o))).
      { intros o Hoo. specialize (Hu o Hoo). destruct (B _ Hg) as [Pg [_ Sg]]. destruct (B _ Hu) as [Po [_ So]]. cbn [bcoef bsem] in *. destruct g as [s b], o as [t a]. cbn [fst snd] in *.
        destruct (resolve m (s, b) (t, a)) as [ls ds] eqn:Er. cbn [fst snd].
        destruct (resolve_ok m s b t a (zval m v) ls ds Po Pg (BL _ Hg) (BL _ Hu) Er Sg So) as [H1 [H2 [H3 [H4 H5]]]].
        split; [intros lt u X Y; destruct (H1 lt u X Y) as [Z|Z]; [apply (BK _ u Hg Z)|apply (BK _ u Hu Z)]|].
        split; [intros d X; destruct (H2 d X) as [Y1 [Y2 Y3]]; split; [split; auto|]; intros u Z; destruct (Y3 u Z) as [W|W]; [apply (BK _ u Hg W)|apply (BK _ u Hu W)]|]. auto. }
      intros E. injection E as <- <-.
      set (L1 := concat (map (fun o => zle (zsub (zsc (snd o) (fst g)) (zsc (snd g) (fst o)))) others)).
      assert (SL1 : forall r, Forall (lsem r) L1 <-> Forall (fun o => snd g * zev r (fst o) <= snd o * zev r (fst g)) others).
      { intros r. unfold L1. rewrite Forall_concat, Forall_map_iff, !Forall_forall. split; intros H o Hoo; specialize (H o Hoo); destruct (Pr _ _ (snd o) (snd g) Hg (Ho o Hoo)) as [P1 _]; cbn [bterm] in P1; rewrite (zle_ok r _ P1), Ev in *; lia. }
      split.
      * intros u [[lt [H1 H2]]|[d [H1 H2]]].
        -- apply in_app_iff in H1 as [H1|H1]; [|apply in_app_iff in H1 as [H1|H1]].
           ++ apply in_concat in H1 as [l [H1 H3]]. apply in_map_iff in H1 as [o [<- H1]]. eapply zle_lit_vars in H3; [|exact H2]. destruct (Pr _ _ (snd o) (snd g) Hg (Ho o H1)) as [_ P2]. apply P2, H3.
           ++ apply in_concat in H1 as [l [H1 H3]]. apply in_map_iff in H1 as [p [<- H1]]. apply in_map_iff in H1 as [o [<- H1]]. apply (proj1 (Res o H1) lt u H3 H2).
           ++ apply (R1 u lt H1 H2).
        -- apply in_app_iff in H1 as [H1|H1]; [apply (R3 u d H1 H2)|]. apply in_concat in H1 as [l [H1 H3]]. apply in_map_iff in H1 as [p [<- H1]]. apply in_map_iff in H1 as [o [<- H1]].
           apply (proj1 (proj2 (Res o H1)) d H3), H2.
      * apply Forall_app. split; [exact Gd|]. apply Forall_forall. intros d H1. apply in_concat in H1 as [l [H1 H3]]. apply in_map_iff in H1 as [p [<- H1]]. apply in_map_iff in H1 as [o [<- H1]].
        apply (proj1 (proj2 (Res o H1)) d H3).
      * apply Forall_app. split; [|apply Forall_app; split; [|exact R2]].
        -- apply SL1. rewrite Forall_forall in *. intros o H. specialize (G2 o H). cbv beta in G2. lia.
        -- apply Forall_concat, Forall_map_iff, Forall_map_iff. apply Forall_forall. intros o H. apply (Res o H).
      * apply Forall_app. split; [exact Md|]. apply Forall_concat, Forall_map_iff, Forall_map_iff. apply Forall_forall. intros o H. apply (Res o H).
      * intros r Hl Hd. apply Forall_app in Hl as [H1 H2]. apply Forall_app in H2 as [H2 H3]. apply Forall_app in Hd as [D1 D2].
        exists (ceil (zev r (fst g)) (snd g)). apply Lift; [exact H3|exact D1|]. apply (proj1 (SL1 r)) in H1. rewrite Forall_forall in H1.
        apply (proj1 (Forall_concat _ _)), (proj1 (Forall_map_iff _ _ _)), (proj1 (Forall_map_iff _ _ _)) in H2. apply (proj1 (Forall_concat _ _)), (proj1 (Forall_map_iff _ _ _)), (proj1 (Forall_map_iff _ _ _)) in D2.
        rewrite Forall_forall in H2, D2. destruct (B _ Hg) as [Pg _]. cbn [bcoef] in Pg. pose proof (ceil_ge (zev r (fst g)) (snd g) Pg) as Cg. set (z := ceil (zev r (fst g)) (snd g)) in *.
        apply Forall_forall. intros [s b|t a|t a] Hb; cbn [bsem].
        -- assert (Hx : In (s, b) (g :: others)) by (apply G1, in_lows; exact Hb). destruct Hx as [->|Hx]; [exact Cg|]. specialize (H1 _ Hx). cbn [fst snd] in H1. destruct (B _ Hb) as [Pb _]. cbn [bcoef] in Pb.
           apply (Zmult_le_reg_r _ _ (snd g)); [lia|]. transitivity (b * zev r (fst g)); [lia|]. replace (b * z * snd g) with (b * (snd g * z)) by ring. apply Z.mul_le_mono_nonneg_l; lia.
        -- assert (Hx : In (t, a) (ups bs)) by (apply in_ups; exact Hb). apply (Res _ Hx); [apply H2, Hx|apply D2, Hx].
        -- destruct (NoE _ _ Hb).
  - intros E. injection E as <- <-. assert (Ht : In (Eql t a) bs) by (apply (in_eqls (t, a)); rewrite Ee; left; reflexivity).
    assert (Hes : forall o, In o es -> In (Eql (fst o) (snd o)) bs) by (intros o H; apply in_eqls; rewrite Ee; right; exact H).
    assert (Hlo : forall o, In o (lows bs) -> In (Low (fst o) (snd o)) bs) by (intros o H; apply in_lows, H).
    assert (Hup : forall o, In o (ups bs) -> In (Up (fst o) (snd o)) bs) by (intros o H; apply in_ups, H).
    destruct (B _ Ht) as [Pa [_ Sa]]. cbn [bcoef bsem] in Pa, Sa.
    set (L1 := concat (map (fun o => zeq (zsub (zsc a (fst o)) (zsc (snd o) t))) es)).
    set (L2 := concat (map (fun o => zle (zsub (zsc (snd o) t) (zsc a (fst o)))) (lows bs))).
    set (L3 := concat (map (fun o => zle (zsub (zsc a (fst o)) (zsc (snd o) t))) (ups bs))).
    assert (S1 : forall r, Forall (lsem r) L1 <-> Forall (fun o => a * zev r (fst o) = snd o * zev r t) es).
    { intros r. unfold L1. rewrite Forall_concat, Forall_map_iff, !Forall_forall. split; intros H o Hoo; specialize (H o Hoo); destruct (Pr _ _ a (snd o) (Hes o Hoo) Ht) as [P1 _]; cbn [bterm] in P1; rewrite (zeq_ok r _ P1), Ev in *; lia. }
    assert (S2 : forall r, Forall (lsem r) L2 <-> Forall (fun o => a * zev r (fst o) <= snd o * zev r t) (lows bs)).
    { intros r. unfold L2. rewrite Forall_concat, Forall_map_iff, !Forall_forall. split; intros H o Hoo; specialize (H o Hoo); destruct (Pr _ _ (snd o) a Ht (Hlo o Hoo)) as [P1 _]; cbn [bterm] in P1; rewrite (zle_ok r _ P1), Ev in *; lia. }
    assert (S3 : forall r, Forall (lsem r) L3 <-> Forall (fun o => snd o * zev r t <= a * zev r (fst o)) (ups bs)).
    { intros r. unfold L3. rewrite Forall_concat, Forall_map_iff, !Forall_forall. split; intros H o Hoo; specialize (H o Hoo); destruct (Pr _ _ a (snd o) (Hup o Hoo) Ht) as [P1 _]; cbn [bterm] in P1; rewrite (zle_ok r _ P1), Ev in *; lia. }
    split.
    + intros u [[lt [H1 H2]]|[d [H1 H2]]].
      * apply in_app_iff in H1 as [H1|H1]; [|apply in_app_iff in H1 as [H1|H1]; [|apply in_app_iff in H1 as [H1|H1]]].
        -- apply in_concat in H1 as [l [H1 H3]]. apply in_map_iff in H1 as [o [<- H1]]. eapply zeq_lit_vars in H3; [|exact H2]. destruct (Pr _ _ a (snd o) (Hes o H1) Ht) as [_ P2]. apply P2, H3.
        -- apply in_concat in H1 as [l [H1 H3]]. apply in_map_iff in H1 as [o [<- H1]]. eapply zle_lit_vars in H3; [|exact H2]. destruct (Pr _ _ (snd o) a Ht (Hlo o H1)) as [_ P2]. apply P2, H3.
        -- apply in_concat in H1 as [l [H1 H3]]. apply in_map_iff in H1 as [o [<- H1]]. eapply zle_lit_vars in H3; [|exact H2]. destruct (Pr _ _ a (snd o) (Hup o H1) Ht) as [_ P2]. apply P2, H3.
        -- apply (R1 u lt H1 H2).
      * apply in_app_iff in H1 as [H1|H1]; [apply (R3 u d H1 H2)|]. destruct (a =? 1); [destruct H1|]; destruct H1 as [<-|[]]. apply (BK _ u Ht H2).
    + apply Forall_app. split; [exact Gd|]. destruct (a =? 1); [constructor|]. constructor; [split; [exact Pa|apply (BL _ Ht)]|constructor].
    + apply Forall_app. split; [|apply Forall_app; split; [|apply Forall_app; split; [|exact R2]]].
      * apply S1. apply Forall_forall. intros o H. destruct (B _ (Hes o H)) as [_ [_ X]]. cbn [bsem] in X. rewrite <- X, <- Sa. ring.
      * apply S2. apply Forall_forall. intros o H. destruct (B _ (Hlo o H)) as [_ [_ X]]. cbn [bsem] in X. rewrite <- Sa. replace (snd o * (a * zval m v)) with (a * (snd o * zval m v)) by ring. apply Z.mul_le_mono_nonneg_l; lia.
      * apply S3. apply Forall_forall. intros o H. destruct (B _ (Hup o H)) as [_ [_ X]]. cbn [bsem] in X. rewrite <- Sa. replace (snd o * (a * zval m v)) with (a * (snd o * zval m v)) by ring. apply Z.mul_le_mono_nonneg_l; lia.
    + apply Forall_app. split; [exact Md|]. destruct (a =? 1); [constructor|]. constructor; [|constructor]. unfold dsem. cbn [fst snd]. rewrite <- Sa. apply Z.divide_factor_l.
    + intros r Hl Hd. apply Forall_app in Hl as [H1 H2]. apply Forall_app in H2 as [H2 H3]. apply Forall_app in H3 as [H3 H4]. apply Forall_app in Hd as [D1 D2].
      assert (Dv : (a | zev r t)). { destruct (Z.eqb_spec a 1) as [->|]; [apply Z.divide_1_l|]. apply Forall_inv in D2. exact D2. }
      destruct Dv as [z Hz]. exists z. apply Lift; [exact H4|exact D1|]. apply (proj1 (S1 r)) in H1. apply (proj1 (S2 r)) in H2. apply (proj1 (S3 r)) in H3. rewrite Forall_forall in H1, H2, H3.
      apply Forall_forall. intros [s b|t' b|t' b] Hb; cbn [bsem].
      * assert (Hx : In (s, b) (lows bs)) by (apply in_lows; exact Hb). specialize (H2 _ Hx). cbn [fst snd] in H2. rewrite Hz in H2. apply (Zmult_le_reg_r _ _ a); [lia|]. lia.
      * assert (Hx : In (t', b) (ups bs)) by (apply in_ups; exact Hb). specialize (H3 _ Hx). cbn [fst snd] in H3. rewrite Hz in H3. apply (Zmult_le_reg_r _ _ a); [lia|]. lia.
      * assert (Hx : In (t', b) ((t, a) :: es)) by (rewrite <- Ee; apply in_eqls; exact Hb). destruct Hx as [Ex|Hx]; [injection Ex as <- <-; lia|]. specialize (H1 _ Hx). cbn [fst snd] in H1. rewrite Hz in H1.
        apply (Z.mul_cancel_r _ _ a); [lia|]. lia.
Qed.

Lemma lcm_fold ds : forall acc, 0 < acc -> Forall (fun x => 0 < fst x) ds ->
  0 < fold_left (fun acc (x : divc) => Z.lcm acc (fst x)) ds acc /\ (acc | fold_left (fun acc (x : divc) => Z.lcm acc (fst x)) ds acc) /\
  Forall (fun x => (fst x | fold_left (fun acc (x : divc) => Z.lcm acc (fst x)) ds acc)) ds.
Proof.
  induction ds as [|x ds IH]; intros acc Pa Pd; cbn [fold_left]; [split; [exact Pa|split; [apply Z.divide_refl|constructor]]|].
  apply Forall_cons_iff in Pd as [Px Pd].
  assert (Pl : 0 < Z.lcm acc (fst x)). { pose proof (Z.lcm_nonneg acc (fst x)). assert (Z.lcm acc (fst x) <> 0) by (rewrite Z.lcm_eq_0; lia). lia. }
  destruct (IH _ Pl Pd) as [H1 [H2 H3]]. split; [exact H1|]. split; [eapply Z.divide_trans; [apply Z.divide_lcm_l|exact H2]|].
  constructor; [eapply Z.divide_trans; [apply Z.divide_lcm_r|exact H2]|exact H3].
Qed.
Lemma zev_put r v u l : zev r (zput v u l) = zco v l * u + zev r (zdrop v l).
Proof. unfold zput. rewrite zev_pl, zev_c. reflexivity. Qed.
Lemma zk_put w v u l : In w (zkeys (zput v u l)) -> In w (zkeys l) /\ w <> v.
Proof. unfold zput. intros H. apply zk_pl in H as [H|H]; [destruct (zk_c _ _ H)|apply zk_drop, H]. Qed.
Lemma zval_coerce r v : coerce SInt (r v) = VInt (zval r v).
Proof. unfold zval, xval. destruct (coerce SInt (r v)) eqn:Ec; try reflexivity; pose proof (coerce_sort SInt (r v)) as X; rewrite Ec in X; discriminate. Qed.
Lemma eval_split r u d : eval r (mkPlus [mkInt u; mkTimes [mkInt d; Var tmp_var]]) = VInt (u + d * zval r tmp_var).
Proof.
  assert (E : coerce SInt (r tmp_var) = VInt (zval r tmp_var)).
  { unfold zval, xval. destruct (coerce SInt (r tmp_var)) eqn:Ec; try reflexivity; pose proof (coerce_sort SInt (r tmp_var)) as X; rewrite Ec in X; discriminate. }
  cbn [eval map interp fold1 fold_left mkPlus mkTimes mkInt tmp_var vsort]. fold tmp_var. rewrite E. reflexivity.
Qed.

Lemma process_div_ok m v divs lits divs' lits' : vsort v = SInt -> v <> tmp_var -> ~ vin tmp_var divs lits ->
  Forall dgood divs -> Forall (lsem m) lits -> Forall (dsem m) divs ->
  process_div shuffle m v divs lits = Some (divs', lits') -> pstep m v divs lits divs' lits'.
Proof.
  intros Sv Nt Ntv Gd Ml Md. unfold process_div.
  destruct (filter (fun d => zhas v (snd d)) divs) as [|d0 ds] eqn:Ef.
  - intros E. apply (classic_ok m v divs lits divs' lits' Gd); auto. intros d H K. apply inb_true in K.
    assert (X : In d (filter (fun d => zhas v (snd d)) divs)) by (apply filter_In; split; [exact H|exact K]). rewrite Ef in X. destruct X.
  - set (d := fold_left (fun acc (x : divc) => Z.lcm acc (fst x)) ds (fst d0)). set (u := zval m v mod d).
    assert (In0 : forall x, In x (d0 :: ds) <-> In x divs /\ zhas v (snd x) = true) by (intros x; rewrite <- Ef, filter_In; tauto).
    assert (G : forall x, In x divs -> dgood x) by (rewrite Forall_forall in Gd; exact Gd).
    destruct (lcm_fold ds (fst d0)) as [Pd [Dd0 Dds]]; [apply (G d0), In0; left; reflexivity|apply Forall_forall; intros x H; apply (G x), In0; right; exact H|]. fold d in Pd, Dd0, Dds.
    assert (Dd : forall x, In x (d0 :: ds) -> (fst x | d)) by (intros x [<-|H]; [exact Dd0|rewrite Forall_forall in Dds; apply Dds, H]).
    pose proof (Z.div_mod (zval m v) d ltac:(lia)) as Dm. fold u in Dm.
    set (q := (zval m v - u) / d). assert (Eq : zval m v = u + d * q).
    { unfold q. replace (zval m v - u) with (zval m v / d * d) by lia. rewrite Z.div_mul by lia. lia. }
    set (sb := [(v, mkPlus [mkInt u; mkTimes [mkInt d; Var tmp_var]])]). set (m' := set_val m tmp_var (VInt q)).
    set (divs1 := map (fun x => (fst x, zput v u (snd x))) (d0 :: ds) ++ filter (fun x => negb (zhas v (snd x))) divs).
    set (lits1 := map (fun lt => (zcanon (subst sb (fst lt)), snd lt)) lits).
    assert (Ws : well_sorted sb). { intros w t H. apply lookup_in in H as [H|[]]. injection H as <- <-. intros r. rewrite eval_split, Sv. reflexivity. }
    assert (Nl : forall lt, In lt lits -> ~ In tmp_var (vars (fst lt))) by (intros lt H1 H2; apply Ntv; left; eauto).
    assert (Ndv : forall x, In x divs -> ~ In tmp_var (zkeys (snd x))) by (intros x H1 H2; apply Ntv; right; eauto).
    assert (Sub : forall r z lt, In lt lits -> (lsem (set_val r tmp_var (VInt z)) (zcanon (subst sb (fst lt)), snd lt) <-> lsem (set_val r v (VInt (u + d * z))) lt)).
    { intros r z [t sg] H. cbn [fst snd]. rewrite lsem_canon.
      assert (X : holds (set_val r tmp_var (VInt z)) (subst sb t) <-> holds (set_val r v (VInt (u + d * z))) t).
      { rewrite holds_subst by exact Ws. apply holds_agree. intros w Hw. unfold upd, sb. cbn [lookup]. destruct (var_eqb_spec w v) as [->|N1]; [rewrite eval_split, zval_set, var_eqb_refl; unfold set_val; rewrite var_eqb_refl; reflexivity|].
        unfold set_val. destruct (var_eqb_spec w v); [contradiction|]. destruct (var_eqb_spec w tmp_var) as [->|]; [destruct (Nl _ H Hw)|reflexivity]. }
      destruct sg; rewrite ?lsem_pos, ?lsem_neg, X; tauto. }
    assert (Same : forall lt, In lt lits -> (lsem (set_val m v (VInt (u + d * q))) lt <-> lsem m lt)).
    { intros lt _. unfold lsem, holds, holdsb. rewrite (eval_ext (set_val m v (VInt (u + d * q))) m); [tauto|]. intros w _. unfold set_val. destruct (var_eqb_spec w v) as [->|]; [|reflexivity].
      rewrite <- Eq, Sv, zval_coerce. reflexivity. }
    intros E. apply classic_ok in E.
    + destruct E as [P1 P2 P3 P4 P5].
      assert (Q : forall w, vin w divs1 lits1 -> w <> tmp_var -> vin w divs lits /\ w <> v).
      { intros w [[lt [H1 H2]]|[x [H1 H2]]] Nw.
        - apply in_map_iff in H1 as [lt0 [<- H1]]. cbn [fst] in H2. apply zcanon_ok in H2. apply in_vars_subst in H2 as [y [Hy H2]]. unfold sb in H2. cbn [lookup] in H2.
          destruct (var_eqb_spec y v) as [->|N1]; [cbn in H2; destruct H2 as [<-|[]]; congruence|]. subst w. split; [left; eauto|exact N1].
        - apply in_app_iff in H1 as [H1|H1].
          + apply in_map_iff in H1 as [x0 [<- H1]]. cbn [snd] in H2. apply zk_put in H2 as [H2 H3]. split; [|exact H3]. right. exists x0. split; [apply In0, H1|exact H2].
          + apply filter_In in H1 as [H1 H3]. split; [right; eauto|]. intros ->. apply negb_true_iff in H3. apply inb_true in H2. unfold zhas, has in H3. congruence. }
      assert (Nv' : forall w, vin w divs' lits' -> w <> tmp_var) by (intros w H; apply (P1 w H)).
      split.
      * intros w H. apply Q; [apply (P1 w H)|apply Nv', H].
      * exact P2.
      * rewrite Forall_forall in *. intros lt H. apply (proj1 (lsem_set_other m tmp_var (VInt q) lt (fun X => Nv' tmp_var (or_introl (ex_intro _ lt (conj H X))) eq_refl))). apply P3, H.
      * rewrite Forall_forall in *. intros x H. specialize (P4 x H). unfold dsem in *. unfold m' in P4. rewrite zev_set_other in P4; [exact P4|]. intros X. apply (Nv' tmp_var); [right; eauto|reflexivity].
      * intros r H1 H2. destruct (P5 r H1 H2) as [z [Z1 Z2]]. exists (u + d * z). rewrite Forall_forall in Z1, Z2. split; apply Forall_forall.
        -- intros lt H. apply (Sub r z lt H). apply Z1. unfold lits1. apply in_map_iff. exists lt. auto.
        -- intros x H. unfold dsem. destruct (zhas v (snd x)) eqn:Eh.
           ++ assert (Hx : In x (d0 :: ds)) by (apply In0; auto).
              assert (Hz : In (fst x, zput v u (snd x)) divs1) by (apply in_app_iff; left; apply in_map_iff; exists x; auto).
              apply Z2 in Hz. unfold dsem in Hz. cbn [fst snd] in Hz. rewrite zev_put in Hz. rewrite zev_set_other in Hz by (intros X; apply zk_drop in X as [X _]; apply (Ndv x H X)).
              rewrite zev_set. replace (zco v (snd x) * (u + d * z) + zev r (zdrop v (snd x))) with (zco v (snd x) * u + zev r (zdrop v (snd x)) + zco v (snd x) * z * d) by ring.
              apply Z.divide_add_r; [exact Hz|]. apply Z.divide_mul_r, Dd, Hx.
           ++ assert (Hz : In x divs1) by (apply in_app_iff; right; apply filter_In; rewrite Eh; auto).
              apply Z2 in Hz. unfold dsem in Hz. rewrite zev_set_other in Hz by (apply Ndv, H). rewrite zev_set_other by (apply has_false, Eh). exact Hz.
    + apply Forall_forall. intros x H. apply in_app_iff in H as [H|H].
      * apply in_map_iff in H as [x0 [<- H]]. apply In0 in H as [H _]. destruct (G x0 H) as [G1 G2]. split; [exact G1|]. intros w Hw. cbn [snd] in Hw. apply zk_put in Hw as [Hw _]. apply G2, Hw.
      * apply filter_In in H as [H _]. apply G, H.
    + intros x H K. apply in_app_iff in H as [H|H].
      * apply in_map_iff in H as [x0 [<- H]]. apply In0 in H as [H _]. cbn [snd] in K. apply zk_put in K as [K _]. apply (Ndv _ H K).
      * apply filter_In in H as [H _]. apply (Ndv _ H K).
    + apply Forall_forall. intros lt H. apply in_map_iff in H as [lt0 [<- H]]. apply Sub; [exact H|]. apply Same; [exact H|]. rewrite Forall_forall in Ml. apply Ml, H.
    + rewrite Forall_forall in Md. apply Forall_forall. intros x H. apply in_app_iff in H as [H|H].
      * apply in_map_iff in H as [x0 [<- H]]. pose proof (Dd x0 H) as Dx. apply In0 in H as [H _]. specialize (Md x0 H). unfold dsem in *. cbn [fst snd]. rewrite zev_put.
        rewrite zev_set_other by (intros X; apply zk_drop in X as [X _]; apply (Ndv x0 H X)). rewrite (zev_split m v), Eq in Md. change (fst x0 | zco v (snd x0) * u + zev m (zdrop v (snd x0))).
        replace (zco v (snd x0) * u + zev m (zdrop v (snd x0))) with (zco v (snd x0) * (u + d * q) + zev m (zdrop v (snd x0)) - zco v (snd x0) * q * d) by ring.
        apply Z.divide_sub_r; [exact Md|]. apply Z.divide_mul_r, Dx.
      * apply filter_In in H as [H _]. unfold dsem. rewrite zev_set_other by (apply Ndv, H). apply (Md x H).
Qed.

Lemma int_loop_ok m vs : forall divs lits divs' lits', ~ In tmp_var vs -> ~ vin tmp_var divs lits ->
  Forall dgood divs -> Forall (lsem m) lits -> Forall (dsem m) divs -> int_loop shuffle m vs divs lits = Some (divs', lits') ->
  (forall u, vin u divs' lits' -> vin u divs lits /\ ~ In u vs) /\ Forall dgood divs' /\ Forall (lsem m) lits' /\ Forall (dsem m) divs' /\
  (forall r, Forall (lsem r) lits' -> Forall (dsem r) divs' -> exists r', (forall u, ~ In u vs -> r u = r' u) /\ Forall (lsem r') lits /\ Forall (dsem r') divs).
Proof.
  induction vs as [|v vs IH]; intros divs lits divs' lits' Nt Nv Gd Ml Md E; cbn [int_loop] in E.
  - injection E as <- <-. split; [auto|]. split; [exact Gd|]. split; [exact Ml|]. split; [exact Md|]. intros r H1 H2. exists r. auto.
  - destruct (sort_eqb_spec (vsort v) SInt) as [Sv|]; [|discriminate].
    assert (S : forall d l, (match divs with [] => classic shuffle m v divs lits | _ => process_div shuffle m v divs lits end) = Some (d, l) -> pstep m v divs lits d l).
    { intros d l X. destruct divs as [|x divs]; [apply classic_ok in X; auto|]. apply process_div_ok in X; auto. intros ->. apply Nt. left. reflexivity. }
    destruct (match divs with [] => _ | _ => _ end) as [[d l]|]; [|discriminate]. destruct (S d l eq_refl) as [P1 P2 P3 P4 P5].
    destruct (IH d l divs' lits') as [Q1 [Q2 [Q3 [Q4 Q5]]]]; auto; [intros X; apply Nt; right; exact X|intros X; apply P1 in X as [X _]; contradiction|].
    split; [|split; [exact Q2|split; [exact Q3|split; [exact Q4|]]]].
    + intros u H. apply Q1 in H as [H1 H2]. apply P1 in H1 as [H1 H3]. split; [exact H1|]. intros [->|X]; [congruence|contradiction].
    + intros r H1 H2. destruct (Q5 r H1 H2) as [r1 [A1 [A2 A3]]]. destruct (P5 r1 A2 A3) as [z [Z1 Z2]]. exists (set_val r1 v (VInt z)). split; [|auto].
      intros u Hu. unfold set_val. destruct (var_eqb_spec u v) as [->|]; [exfalso; apply Hu; left; reflexivity|]. apply A1. intros X. apply Hu. right. exact X.
Qed.

Lemma to_div_ok lt d : to_div lt = Some d -> is_div_lit lt = true -> dgood d /\ (forall u, In u (zkeys (snd d)) -> In u (vars (fst lt))) /\ (forall r, lsem r lt <-> dsem r d).
Proof.
  destruct lt as [t sg]. unfold to_div, is_div_lit. cbn [fst snd]. intros E B.
  assert (X : exists a k l, (t = App FEq [App FMod [a; Const (VInt k)]; Const (VInt 0)] \/ t = App FEq [Const (VInt 0); App FMod [a; Const (VInt k)]]) /\ 0 < k /\ zparse a = Some l /\ d = (k, l) /\ sg = true).
  { destruct t as [v|c|f ts]; try discriminate. destruct f; try discriminate. destruct ts as [|a [|b [|? ?]]]; try discriminate. apply andb_true_iff in B as [-> _].
    assert (Fin : forall a k, (if 0 <? k then option_map (pair k) (zparse a) else None) = Some d -> 0 < k /\ exists l, zparse a = Some l /\ d = (k, l)).
    { intros a' k X. destruct (Z.ltb_spec 0 k); [|discriminate]. destruct (zparse a') as [l|]; [|discriminate]. injection X as <-. eauto. }
    destruct a as [v|c|f ts]; try discriminate.
    - destruct c as [|z|]; try discriminate. destruct z; try discriminate. destruct b as [|?|f ts]; try discriminate. destruct f; try discriminate. destruct ts as [|a ts]; try discriminate. destruct ts as [|b ts]; try discriminate.
      destruct b as [|c|]; try discriminate. destruct c as [|k|]; try discriminate. destruct ts; try discriminate. apply Fin in E as [Pk [l [El ->]]]. exists a, k, l. auto 7.
    - destruct f; try discriminate. destruct ts as [|a ts]; try discriminate. destruct ts as [|b' ts]; try discriminate. destruct b' as [|c|]; try discriminate. destruct c as [|k|]; try discriminate. destruct ts; try discriminate.
      destruct b as [|c|]; try discriminate. destruct c as [|z|]; try discriminate. destruct z; try discriminate. apply Fin in E as [Pk [l [El ->]]]. exists a, k, l. auto 7. }
  destruct X as [a [k [l [Ht [Pk [El [-> ->]]]]]]]. apply zparse_ok in El as [A1 [A2 A3]]. split; [split; [exact Pk|exact A3]|]. split.
  - intros u Hu. apply A2 in Hu. cbn [snd] in Hu. destruct Ht as [-> | ->]; cbn [vars map concat]; rewrite ?in_app_iff; tauto.
  - intros r. rewrite lsem_pos. unfold dsem. cbn [fst snd]. rewrite <- Z.mod_divide by lia.
    assert (M : eval r (App FMod [a; Const (VInt k)]) = VInt (zev r l mod k)) by (cbn [eval map interp]; rewrite A1; cbn [interp]; unfold smt_mod; rewrite (Z.abs_eq k) by lia; reflexivity).
    destruct Ht as [-> | ->].
    + change (holds r (mkEq (App FMod [a; Const (VInt k)]) (mkInt 0)) <-> zev r l mod k = 0). rewrite holds_eq, M. cbn [mkInt eval]. split; [intros H; injection H as H; exact H|intros ->; reflexivity].
    + change (holds r (mkEq (mkInt 0) (App FMod [a; Const (VInt k)])) <-> zev r l mod k = 0). rewrite holds_eq, M. cbn [mkInt eval]. split; [intros H; injection H as H; congruence|intros ->; reflexivity].
Qed.
Lemma div_lit_ok r d : dgood d -> (lsem r (div_lit d) <-> dsem r d).
Proof.
  intros [Pk Lf]. unfold div_lit, dsem. rewrite lsem_pos, holds_eq, <- Z.mod_divide by lia. cbn [eval map interp mkInt]. rewrite zterm_ok by exact Lf. cbn [interp]. unfold smt_mod. rewrite (Z.abs_eq (fst d)) by lia.
  split; [intros H; injection H as H; exact H|intros ->; reflexivity].
Qed.
Lemma div_lit_vars u d : In u (vars (fst (div_lit d))) -> In u (zkeys (snd d)).
Proof.
  unfold div_lit, zterm, mkEq, mkPlus. cbn [fst vars map concat mkInt]. rewrite ?app_nil_r, ?in_app_iff. intros H. apply zsum_vars. cbn in H. tauto.
Qed.
Lemma project_ints_ok m vs lits lits' : ~ In tmp_var vs -> (forall lt, In lt lits -> ~ In tmp_var (vars (fst lt))) -> Forall (lsem m) lits -> project_ints shuffle m vs lits = Some lits' ->
  (forall lt u, In lt lits' -> In u (vars (fst lt)) -> ~ In u vs /\ exists lt0, In lt0 lits /\ In u (vars (fst lt0))) /\ Forall (lsem m) lits' /\
  (forall r, Forall (lsem r) lits' -> exists r', (forall u, ~ In u vs -> r u = r' u) /\ Forall (lsem r') lits).
Proof.
  intros Nt Nl Ml. unfold project_ints. destruct (mapM to_div (filter is_div_lit lits)) as [divs|] eqn:Ed; [|discriminate].
  set (rest := filter (fun lt => negb (is_div_lit lt)) lits). destruct (int_loop shuffle m vs divs rest) as [[divs' l']|] eqn:El; [|discriminate]. intros E. injection E as <-.
  assert (D : forall d, In d divs -> exists lt, In lt lits /\ dgood d /\ (forall u, In u (zkeys (snd d)) -> In u (vars (fst lt))) /\ (forall r, lsem r lt <-> dsem r d)).
  { intros d H. destruct (mapM_in _ _ _ _ Ed H) as [lt [H1 H2]]. apply filter_In in H1 as [H1 H3]. exists lt. split; [exact H1|]. apply to_div_ok; auto. }
  assert (V : forall u, vin u divs rest -> exists lt, In lt lits /\ In u (vars (fst lt))).
  { intros u [[lt [H1 H2]]|[d [H1 H2]]]; [apply filter_In in H1 as [H1 _]; eauto|]. destruct (D d H1) as [lt [H3 [_ [H4 _]]]]. eauto. }
  rewrite Forall_forall in Ml.
  destruct (int_loop_ok m vs divs rest divs' l') as [Q1 [Q2 [Q3 [Q4 Q5]]]]; auto.
  - intros X. apply V in X as [lt [X Y]]. apply (Nl lt X Y).
  - apply Forall_forall. intros d H. destruct (D d H) as [lt [_ [H2 _]]]. exact H2.
  - apply Forall_forall. intros lt H. apply filter_In in H as [H _]. auto.
  - apply Forall_forall. intros d H. destruct (D d H) as [lt [H1 [_ [_ H2]]]]. apply H2, Ml, H1.
  - split; [|split].
    + intros lt u H Hu. assert (X : vin u divs' l').
      { apply in_app_iff in H as [H|H]; [left; eauto|]. apply in_map_iff in H as [d [<- H]]. right. exists d. split; [exact H|apply div_lit_vars, Hu]. }
      apply Q1 in X as [X Y]. split; [exact Y|]. apply V, X.
    + apply Forall_app. split; [exact Q3|]. apply Forall_map_iff. rewrite Forall_forall in *. intros d H. apply div_lit_ok; auto.
    + intros r H. apply Forall_app in H as [H1 H2]. apply (proj1 (Forall_map_iff _ _ _)) in H2. destruct (Q5 r H1) as [r' [A1 [A2 A3]]].
      * rewrite Forall_forall in *. intros d H. apply div_lit_ok; auto.
      * exists r'. split; [exact A1|]. rewrite Forall_forall in *. intros lt H. destruct (is_div_lit lt) eqn:Eb.
        -- assert (X : In lt (filter is_div_lit lits)) by (apply filter_In; auto). destruct (mapM_in' _ _ _ _ Ed X) as [d [Y1 Y2]]. apply to_div_ok in Y2 as [_ [_ Y2]]; [|exact Eb]. apply Y2, A3, Y1.
        -- apply A2. apply filter_In. rewrite Eb. auto.
Qed.
End Classic.
