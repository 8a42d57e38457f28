(** * Proofs about the projection of integer variables. *)
From Coq Require Import QArith Qcanon Znumtheory ZArith Ring Lia.
From Verif Require Import Syntax Solver KTo1Model FormulaModel Lin MbpModel.
Open Scope Z_scope.
Open Scope list_scope.

Notation zkeys l := (keys Z (lco l)).
Definition zleafs (l : zl) : Prop := forall v, In v (zkeys l) -> vsort v = SInt.
Lemma Zeqb_reflect a b : reflect (a = b) (a =? b). Proof. apply Z.eqb_spec. Qed.
Lemma zev_pl r a b : zev r (zpl a b) = zev r a + zev r b. Proof. unfold zev, zpl. eapply (lev_add Z 0 1); [apply InitialRing.Zth|apply Z.eqb_spec]. Qed.
Lemma zev_sc r k a : zev r (zsc k a) = k * zev r a. Proof. unfold zev, zsc. eapply (lev_scale Z 0 1); [apply InitialRing.Zth|apply Z.eqb_spec]. Qed.
Lemma zev_neg r a : zev r (zneg a) = - zev r a. Proof. unfold zev, zneg. eapply (lev_neg Z 0 1); [apply InitialRing.Zth|apply Z.eqb_spec]. Qed.
Lemma zev_sub r a b : zev r (zsub a b) = zev r a - zev r b. Proof. unfold zev, zsub. eapply (lev_sub Z 0 1); [apply InitialRing.Zth|apply Z.eqb_spec]. Qed.
Lemma zev_c r k : zev r (zc k) = k. Proof. unfold zev, zc. eapply (lev_const Z 0 1). apply InitialRing.Zth. Qed.
Lemma zev_split r v l : zev r l = zco v l * zval r v + zev r (zdrop v l). Proof. unfold zev, zco, zdrop. eapply (lev_split Z 0 1). apply InitialRing.Zth. Qed.
Lemma zev_ext r r' l : (forall v, In v (zkeys l) -> zval r v = zval r' v) -> zev r l = zev r' l.
Proof. unfold zev. apply lev_ext. Qed.
Lemma zk_pl u a b : In u (zkeys (zpl a b)) -> In u (zkeys a) \/ In u (zkeys b). Proof. apply keys_add. Qed.
Lemma zk_sc u k a : In u (zkeys (zsc k a)) -> In u (zkeys a). Proof. apply keys_scale. Qed.
Lemma zk_neg u a : In u (zkeys (zneg a)) -> In u (zkeys a). Proof. apply keys_neg. Qed.
Lemma zk_sub u a b : In u (zkeys (zsub a b)) -> In u (zkeys a) \/ In u (zkeys b). Proof. apply keys_sub. Qed.
Lemma zk_c u k : ~ In u (zkeys (zc k)). Proof. apply keys_const. Qed.
Lemma zk_drop u v l : In u (zkeys (zdrop v l)) -> In u (zkeys l) /\ u <> v. Proof. apply keys_drop. Qed.

Lemma zproj_inj c k : zproj c = Some k -> c = VInt k. Proof. destruct c; cbn; congruence. Qed.
Lemma zinj_all c : sort_of c = SInt -> exists k, c = VInt k. Proof. destruct c; try discriminate. eauto. Qed.
Lemma zparse_ok t l : zparse t = Some l -> (forall r, eval r t = VInt (zev r l)) /\ (forall v, In v (zkeys l) -> In v (vars t)) /\ zleafs l.
Proof.
  intros E. apply (parse_ok Z 0 1 Z.add Z.mul Z.sub Z.opp Z.eqb InitialRing.Zth Z.eqb_spec SInt VInt zproj zproj_inj (fun a b => eq_refl) (fun a b => eq_refl) zinj_all asz (fun k => eq_refl) t l E).
Qed.
Lemma zsum_ok r l : zleafs l -> eval r (zsum l) = VInt (zev r l - lcst l).
Proof.
  intros H. unfold zsum. rewrite (eval_sum Z 0 1 Z.add Z.mul Z.sub Z.opp InitialRing.Zth SInt VInt (fun a b => eq_refl) (fun a b => eq_refl) zinj_all asz (fun k => eq_refl) r (lco l) H).
  f_equal. unfold zev, lev, zval. ring.
Qed.
Lemma zsum_vars v l : In v (vars (zsum l)) -> In v (zkeys l). Proof. apply vars_sum. Qed.
Lemma zterm_ok r l : zleafs l -> eval r (zterm l) = VInt (zev r l).
Proof. intros H. unfold zterm, mkPlus, mkInt. cbn [eval map interp fold1 fold_left]. rewrite zsum_ok by exact H. cbn [vadd]. f_equal. ring. Qed.
Lemma zle_term_ok r l : zleafs l -> (holds r (zle_term l) <-> 0 <= zev r l).
Proof.
  intros H. unfold holds, holdsb, zle_term, mkLeq, mkInt. cbn [eval map interp]. rewrite zsum_ok by exact H. cbn [vleq asb]. rewrite Z.leb_le. lia.
Qed.
Lemma zeq_term_ok r l : zleafs l -> (holds r (zeq_term l) <-> zev r l = 0).
Proof.
  intros H. unfold zeq_term. rewrite holds_eq. rewrite zsum_ok by exact H. cbn [mkInt eval]. split; [intros E; injection E as E|intros E; f_equal]; lia.
Qed.
Lemma zatom_ok t e l : zatom t = Some (e, l) -> (forall r, holds r t <-> if e then zev r l = 0 else 0 <= zev r l) /\ (forall v, In v (zkeys l) -> In v (vars t)) /\ zleafs l.
Proof.
  unfold zatom. intros E.
  assert (X : exists f a b, t = App f [a; b] /\ ((f = FEq /\ exists x y, zparse a = Some x /\ zparse b = Some y /\ e = true /\ l = zsub x y) \/ (f = FLeq /\ exists x y, zparse a = Some x /\ zparse b = Some y /\ e = false /\ l = zsub y x))).
  { destruct t as [v|c|f ts]; try discriminate. destruct f; try discriminate; destruct ts as [|a [|b [|? ?]]]; try discriminate; [exists FEq|exists FLeq]; exists a, b; (split; [reflexivity|]); [left|right]; (split; [reflexivity|]);
    (destruct (zparse a) as [x|]; [|discriminate]); (destruct (zparse b) as [y|]; [|discriminate]); injection E as <- <-; exists x, y; auto. }
  destruct X as [f [a [b [-> [[-> [x [y [Ea [Eb [-> ->]]]]]]|[-> [x [y [Ea [Eb [-> ->]]]]]]]]]]];
  apply zparse_ok in Ea as [A1 [A2 A3]]; apply zparse_ok in Eb as [B1 [B2 B3]]; (split; [|split]).
  - intros r. fold (mkEq a b). rewrite holds_eq, A1, B1, zev_sub. split; [intros H; injection H as H|intros H; f_equal]; lia.
  - intros v H. apply zk_sub in H. unfold mkEq. apply in_vars_app. destruct H as [H|H]; [exists a|exists b]; cbn; auto.
  - intros v H. apply zk_sub in H as [H|H]; auto.
  - intros r. unfold holds, holdsb. cbn [eval map interp]. rewrite A1, B1, zev_sub. cbn [vleq asb]. rewrite Z.leb_le. lia.
  - intros v H. apply zk_sub in H. apply in_vars_app. destruct H as [H|H]; [exists b|exists a]; cbn; auto.
  - intros v H. apply zk_sub in H as [H|H]; auto.
Qed.
Lemma zle_vars v l : In v (vars (zle_term l)) -> In v (zkeys l).
Proof. unfold zle_term, mkLeq. intros H. apply in_vars_app in H as [t [[<-|[<-|[]]] H]]; [destruct H|apply zsum_vars, H]. Qed.
Lemma zeq_vars v l : In v (vars (zeq_term l)) -> In v (zkeys l).
Proof. unfold zeq_term, mkEq. intros H. apply in_vars_app in H as [t [[<-|[<-|[]]] H]]; [destruct H|apply zsum_vars, H]. Qed.
Lemma zcanon_ok t : (forall r, holds r (zcanon t) <-> holds r t) /\ (forall v, In v (vars (zcanon t)) -> In v (vars t)).
Proof.
  unfold zcanon. destruct (zatom t) as [[e l]|] eqn:E; [|split; [tauto|auto]]. apply zatom_ok in E as [H1 [H2 H3]]. destruct e; split.
  - intros r. rewrite zeq_term_ok by exact H3. rewrite (H1 r). tauto.
  - intros v H. apply H2, zeq_vars, H.
  - intros r. rewrite zle_term_ok by exact H3. rewrite (H1 r). tauto.
  - intros v H. apply H2, zle_vars, H.
Qed.

Definition lsem (r : valuation) (lt : literal) : Prop := holds r (lit_term lt).
Lemma lsem_pos r t : lsem r (t, true) <-> holds r t. Proof. unfold lsem, lit_term. cbn. tauto. Qed.
Lemma lsem_neg r t : lsem r (t, false) <-> ~ holds r t. Proof. unfold lsem, lit_term. cbn [fst snd]. apply holds_not. Qed.
Lemma lsem_canon r t b : lsem r (zcanon t, b) <-> lsem r (t, b).
Proof. destruct b; rewrite ?lsem_pos, ?lsem_neg, (proj1 (zcanon_ok t) r); tauto. Qed.
Lemma zle_ok r l : zleafs l -> (Forall (lsem r) (zle l) <-> 0 <= zev r l).
Proof.
  intros H. unfold zle. destruct (is_const l && (0 <=? lcst l)) eqn:E.
  - split; [intros _|constructor]. apply andb_true_iff in E as [E1 E2]. apply Z.leb_le in E2. unfold is_const in E1. unfold zev, lev. destruct (lco l); [cbn [evs]; lia|discriminate].
  - rewrite <- (zle_term_ok r l H). split; [intros F; apply Forall_inv in F; apply (proj1 (lsem_pos _ _)), F|intros F; constructor; [apply lsem_pos, F|constructor]].
Qed.
Lemma zeq_ok r l : zleafs l -> (Forall (lsem r) (zeq l) <-> zev r l = 0).
Proof.
  intros H. unfold zeq. destruct (is_const l && (0 =? lcst l)) eqn:E.
  - split; [intros _|constructor]. apply andb_true_iff in E as [E1 E2]. apply Z.eqb_eq in E2. unfold is_const in E1. unfold zev, lev. destruct (lco l); [cbn [evs]; lia|discriminate].
  - rewrite <- (zeq_term_ok r l H). split; [intros F; apply Forall_inv in F; apply (proj1 (lsem_pos _ _)), F|intros F; constructor; [apply lsem_pos, F|constructor]].
Qed.
Lemma zle_lit_vars l lt v : In lt (zle l) -> In v (vars (fst lt)) -> In v (zkeys l).
Proof. unfold zle. destruct (_ && _); [intros []|]. intros [<-|[]]. apply zle_vars. Qed.
Lemma zeq_lit_vars l lt v : In lt (zeq l) -> In v (vars (fst lt)) -> In v (zkeys l).
Proof. unfold zeq. destruct (_ && _); [intros []|]. intros [<-|[]]. apply zeq_vars. Qed.

Lemma zval_set r v z u : zval (set_val r v (VInt z)) u = if var_eqb u v then z else zval r u.
Proof. unfold zval, xval, set_val. destruct (var_eqb_spec u v); reflexivity. Qed.
Lemma zev_set_other r v z l : ~ In v (zkeys l) -> zev (set_val r v (VInt z)) l = zev r l.
Proof. intros H. apply zev_ext. intros u Hu. rewrite zval_set. destruct (var_eqb_spec u v) as [->|]; [contradiction|reflexivity]. Qed.
Lemma zdrop_not v l : ~ In v (zkeys (zdrop v l)). Proof. intros H. apply zk_drop in H as [_ H]. congruence. Qed.
Lemma zev_set r v z l : zev (set_val r v (VInt z)) l = zco v l * z + zev r (zdrop v l).
Proof. rewrite (zev_split _ v), zval_set, var_eqb_refl, zev_set_other by apply zdrop_not. reflexivity. Qed.
Lemma holds_set_other r v x t : ~ In v (vars t) -> (holds (set_val r v x) t <-> holds r t).
Proof. intros H. apply holds_agree. intros u Hu. unfold set_val. destruct (var_eqb_spec u v) as [->|]; [contradiction|reflexivity]. Qed.
Lemma lsem_vars lt v : In v (vars (lit_term lt)) <-> In v (vars (fst lt)).
Proof. destruct lt as [t [|]]; unfold lit_term; cbn [fst snd]; [tauto|]. unfold mkNot. rewrite in_vars_app. split; [intros [x [[<-|[]] H]]; exact H|intros H; exists t; split; [left; reflexivity|exact H]]. Qed.
Lemma lsem_set_other r v x lt : ~ In v (vars (fst lt)) -> (lsem (set_val r v x) lt <-> lsem r lt).
Proof. intros H. apply holds_set_other. rewrite lsem_vars. exact H. Qed.

(** ** Bounds *)
Definition bterm (b : bound) : zl := match b with Low s _ => s | Up t _ => t | Eql t _ => t end.
Definition bcoef (b : bound) : Z := match b with Low _ k => k | Up _ k => k | Eql _ k => k end.
Definition bsem (r : valuation) (x : Z) (b : bound) : Prop :=
  match b with Low s k => zev r s <= k * x | Up t a => a * x <= zev r t | Eql t a => a * x = zev r t end.
Lemma classify_ok m v lt b : classify m v lt = Some b ->
  0 < bcoef b /\ (forall u, In u (zkeys (bterm b)) -> u <> v /\ In u (vars (fst lt)) /\ vsort u = SInt) /\
  (lsem m lt -> bsem m (zval m v) b) /\ (forall r z, bsem r z b -> lsem (set_val r v (VInt z)) lt).
Proof.
  destruct lt as [t sg]. unfold classify. cbn [fst snd]. destruct (zatom t) as [[e l]|] eqn:Ea; [|discriminate]. apply zatom_ok in Ea as [A1 [A2 A3]].
  assert (D : forall u l', (forall w, In w (zkeys l') -> In w (zkeys l)) -> In u (zkeys (zdrop v l')) -> u <> v /\ In u (vars t) /\ vsort u = SInt).
  { intros u l' Hl H. apply zk_drop in H as [H1 H2]. apply Hl in H1. split; [exact H2|]. split; [apply A2, H1|apply A3, H1]. }
  destruct e.
  - destruct (Z.eqb_spec (zco v l) 0) as [|Nz]; [discriminate|]. specialize (fun u => D u l (fun w H => H)).
    assert (S : forall r, zev r l = zco v l * zval r v + zev r (zdrop v l)) by (intros r; apply zev_split).
    destruct sg.
    + destruct (Z.ltb_spec (zco v l) 0) as [Lt|Ge]; intros E; injection E as <-; cbn [bcoef bterm bsem]; (split; [lia|]); (split; [intros u Hu; try apply zk_neg in Hu; apply D, Hu|]); (split; [|]);
      try (intros H; apply (proj1 (lsem_pos _ _)), A1 in H; rewrite S in H; rewrite ?zev_neg; lia);
      intros r z H; apply lsem_pos, A1; rewrite zev_set; rewrite ?zev_neg in H; lia.
    + destruct (Z.ltb_spec 0 (zev m l)) as [Pv|Nv]; destruct (Z.ltb_spec 0 (zco v l)) as [Pk|Nk]; intros E; injection E as <-; cbn [bcoef bterm bsem]; (split; [lia|]);
      (split; [intros u Hu; first [apply zk_sub in Hu as [Hu|Hu]|apply zk_pl in Hu as [Hu|Hu]]; [destruct (zk_c _ _ Hu)|apply D, Hu]|]); (split; [|]);
      try (intros H; apply (proj1 (lsem_neg _ _)) in H; rewrite A1, S in H; rewrite S in *; rewrite ?zev_sub, ?zev_pl, ?zev_c; lia);
      intros r z H; apply lsem_neg; rewrite A1, zev_set; rewrite ?zev_sub, ?zev_pl, ?zev_c in H; lia.
  - set (l' := if sg then l else zsub (zc (-1)) l).
    assert (K : forall w, In w (zkeys l') -> In w (zkeys l)). { intros w H. unfold l' in H. destruct sg; [exact H|]. apply zk_sub in H as [H|H]; [destruct (zk_c _ _ H)|exact H]. }
    assert (Sem : forall r, lsem r (t, sg) <-> 0 <= zev r l').
    { intros r. unfold l'. destruct sg; [rewrite lsem_pos; apply A1|]. rewrite lsem_neg, A1, zev_sub, zev_c. lia. }
    destruct (Z.eqb_spec (zco v l') 0) as [|Nz]; [discriminate|]. specialize (fun u => D u l' K).
    destruct (Z.ltb_spec 0 (zco v l')) as [Pk|Nk]; intros E; injection E as <-; cbn [bcoef bterm bsem]; (split; [lia|]); (split; [intros u Hu; try apply zk_neg in Hu; apply D, Hu|]); (split; [|]);
      try (intros H; apply (proj1 (Sem _)) in H; rewrite (zev_split _ v) in H; rewrite ?zev_neg; lia);
      intros r z H; apply Sem; rewrite zev_set; rewrite ?zev_neg in H; lia.
Qed.

(** ** Resolution *)
Definition dsem (r : valuation) (d : divc) : Prop := (fst d | zev r (snd d)).
Definition ceil (s b : Z) : Z := - ((- s) / b).
Lemma ceil_ge s b : 0 < b -> s <= b * ceil s b. Proof. intros H. unfold ceil. pose proof (Z.mul_div_le (- s) b H). lia. Qed.
Lemma ceil_least s b z : 0 < b -> s <= b * z -> ceil s b <= z.
Proof. intros H L. unfold ceil. assert (- z <= (- s) / b) by (apply Z.div_le_lower_bound; lia). lia. Qed.
Lemma ceil_lt s b : 0 < b -> b * ceil s b <= s + (b - 1).
Proof. intros H. unfold ceil. pose proof (Z.mul_succ_div_gt (- s) b H). lia. Qed.
Lemma resolve_ok m s b t a x ls ds : 0 < a -> 0 < b -> zleafs s -> zleafs t -> resolve m (s, b) (t, a) = (ls, ds) ->
  zev m s <= b * x -> a * x <= zev m t ->
  (forall lt u, In lt ls -> In u (vars (fst lt)) -> In u (zkeys s) \/ In u (zkeys t)) /\
  (forall d, In d ds -> 0 < fst d /\ zleafs (snd d) /\ forall u, In u (zkeys (snd d)) -> In u (zkeys s) \/ In u (zkeys t)) /\
  Forall (lsem m) ls /\ Forall (dsem m) ds /\
  (forall r, Forall (lsem r) ls -> Forall (dsem r) ds -> a * ceil (zev r s) b <= zev r t).
Proof.
  intros Pa Pb Ls Lt E M1 M2. unfold resolve in E.
  assert (L1 : zleafs (zsc a s)) by (intros u H; apply zk_sc in H; auto). assert (L2 : zleafs (zsc b t)) by (intros u H; apply zk_sc in H; auto).
  assert (Kv : forall lt u l, (forall w, In w (zkeys l) -> In w (zkeys s) \/ In w (zkeys t)) -> In lt (zle l) -> In u (vars (fst lt)) -> In u (zkeys s) \/ In u (zkeys t)).
  { intros lt u l Hl H1 H2. apply Hl. eapply zle_lit_vars; eauto. }
  assert (K1 : forall w, In w (zkeys (zsub (zsc b t) (zsc a s))) -> In w (zkeys s) \/ In w (zkeys t)).
  { intros w H. apply zk_sub in H as [H|H]; apply zk_sc in H; auto. }
  assert (L3 : zleafs (zsub (zsc b t) (zsc a s))) by (intros w H; apply K1 in H as [H|H]; auto).
  destruct (Z.leb_spec ((a - 1) * (b - 1)) (b * zev m t - a * zev m s)) as [C1|C1].
  - injection E as <- <-. set (l := zsub (zsc b t) (zpl (zsc a s) (zc ((a - 1) * (b - 1))))).
    assert (Kl : forall w, In w (zkeys l) -> In w (zkeys s) \/ In w (zkeys t)).
    { intros w H. unfold l in H. apply zk_sub in H as [H|H]; [apply zk_sc in H; auto|]. apply zk_pl in H as [H|H]; [apply zk_sc in H; auto|destruct (zk_c _ _ H)]. }
    assert (Ll : zleafs l) by (intros w H; apply Kl in H as [H|H]; auto).
    assert (El : forall r, zev r l = b * zev r t - (a * zev r s + (a - 1) * (b - 1))) by (intros r; unfold l; rewrite zev_sub, zev_pl, !zev_sc, zev_c; reflexivity).
    split; [intros lt u; apply Kv, Kl|]. split; [intros d []|]. split; [apply (zle_ok m l Ll); rewrite El; lia|]. split; [constructor|].
    intros r H _. apply (proj1 (zle_ok r l Ll)) in H. rewrite El in H. pose proof (ceil_lt (zev r s) b Pb) as C.
    assert (X : a * (b * ceil (zev r s) b) <= a * (zev r s + (b - 1))) by (apply Z.mul_le_mono_nonneg_l; lia).
    assert (Y : b * (a * ceil (zev r s) b) < b * (zev r t + 1)) by nia. apply Z.mul_lt_mono_pos_l in Y; lia.
  - assert (First : forall r, Forall (lsem r) (zle (zsub (zsc b t) (zsc a s))) <-> a * zev r s <= b * zev r t).
    { intros r. rewrite (zle_ok r _ L3), zev_sub, !zev_sc. lia. }
    destruct (Z.leb_spec b a) as [C2|C2]; injection E as <- <-.
    + set (d := (- zev m s) mod b). pose proof (Z.mod_pos_bound (- zev m s) b Pb) as Bd. fold d in Bd. pose proof (Z.div_mod (- zev m s) b ltac:(lia)) as Dm. fold d in Dm.
      set (md := zpl s (zc d)). assert (Em : forall r, zev r md = zev r s + d) by (intros r; unfold md; rewrite zev_pl, zev_c; reflexivity).
      assert (Km : forall w, In w (zkeys md) -> In w (zkeys s)) by (intros w H; unfold md in H; apply zk_pl in H as [H|H]; [exact H|destruct (zk_c _ _ H)]).
      assert (K2 : forall w, In w (zkeys (zsub (zsc b t) (zsc a md))) -> In w (zkeys s) \/ In w (zkeys t)) by (intros w H; apply zk_sub in H as [H|H]; apply zk_sc in H; auto).
      assert (L4 : zleafs (zsub (zsc b t) (zsc a md))) by (intros w H; apply K2 in H as [H|H]; auto).
      assert (Second : forall r, Forall (lsem r) (if d =? 0 then [] else zle (zsub (zsc b t) (zsc a md))) <-> (d <> 0 -> a * (zev r s + d) <= b * zev r t)).
      { intros r. destruct (Z.eqb_spec d 0) as [Z0|Nz]; [split; [intros _ N; contradiction|constructor]|]. rewrite (zle_ok r _ L4), zev_sub, !zev_sc, Em. split; [intros H _; lia|intros H; specialize (H Nz); lia]. }
      assert (Dv : zev m s + d = b * (- ((- zev m s) / b))) by lia.
      assert (Ml : zev m s + d <= b * x).
      { rewrite Dv. apply Z.mul_le_mono_nonneg_l; [lia|]. apply (ceil_least (zev m s) b x Pb M1). }
      split; [|split; [|split; [|split]]].
      * intros lt u H. apply in_app_iff in H as [H|H]; [apply (Kv _ _ _ K1 H)|]. destruct (d =? 0); [destruct H|]. apply (Kv _ _ _ K2 H).
      * intros e [<-|[]]. cbn [fst snd]. split; [exact Pb|]. split; [intros w H; apply Km in H; auto|]. intros u H. left. apply Km, H.
      * apply Forall_app. split; [apply First; nia|]. apply Second. intros _. nia.
      * constructor; [|constructor]. unfold dsem. cbn [fst snd]. rewrite Em, Dv. apply Z.divide_factor_l.
      * intros r H Hd. apply Forall_app in H as [H1 H2]. apply (proj1 (First r)) in H1. pose proof (proj1 (Second r) H2) as H2'. apply Forall_inv in Hd. unfold dsem in Hd. cbn [fst snd] in Hd. rewrite Em in Hd.
        destruct Hd as [q Hq]. assert (Cq : ceil (zev r s) b <= q) by (apply ceil_least; lia).
        assert (X : a * (zev r s + d) <= b * zev r t) by (destruct (Z.eq_dec d 0) as [D0|D0]; [rewrite D0; lia|apply H2', D0]). rewrite Hq in X.
        assert (Y : b * (a * q) <= b * zev r t) by lia. apply Z.mul_le_mono_pos_l in Y; [|lia]. nia.
    + set (d := zev m t mod a). pose proof (Z.mod_pos_bound (zev m t) a Pa) as Bd. fold d in Bd. pose proof (Z.div_mod (zev m t) a ltac:(lia)) as Dm. fold d in Dm.
      set (md := zsub t (zc d)). assert (Em : forall r, zev r md = zev r t - d) by (intros r; unfold md; rewrite zev_sub, zev_c; reflexivity).
      assert (Km : forall w, In w (zkeys md) -> In w (zkeys t)) by (intros w H; unfold md in H; apply zk_sub in H as [H|H]; [exact H|destruct (zk_c _ _ H)]).
      assert (K2 : forall w, In w (zkeys (zsub (zsc b md) (zsc a s))) -> In w (zkeys s) \/ In w (zkeys t)) by (intros w H; apply zk_sub in H as [H|H]; apply zk_sc in H; auto).
      assert (L4 : zleafs (zsub (zsc b md) (zsc a s))) by (intros w H; apply K2 in H as [H|H]; auto).
      assert (Second : forall r, Forall (lsem r) (if d =? 0 then [] else zle (zsub (zsc b md) (zsc a s))) <-> (d <> 0 -> a * zev r s <= b * (zev r t - d))).
      { intros r. destruct (Z.eqb_spec d 0) as [Z0|Nz]; [split; [intros _ N; contradiction|constructor]|]. rewrite (zle_ok r _ L4), zev_sub, !zev_sc, Em. split; [intros H _; lia|intros H; specialize (H Nz); lia]. }
      assert (Ml : a * x <= zev m t - d).
      { replace (zev m t - d) with (a * (zev m t / a)) by lia. apply Z.mul_le_mono_nonneg_l; [lia|]. apply Z.div_le_lower_bound; lia. }
      split; [|split; [|split; [|split]]].
      * intros lt u H. apply in_app_iff in H as [H|H]; [apply (Kv _ _ _ K1 H)|]. destruct (d =? 0); [destruct H|]. apply (Kv _ _ _ K2 H).
      * intros e [<-|[]]. cbn [fst snd]. split; [exact Pa|]. split; [intros w H; apply Km in H; auto|]. intros u H. right. apply Km, H.
      * apply Forall_app. split; [apply First; nia|]. apply Second. intros _. nia.
      * constructor; [|constructor]. unfold dsem. cbn [fst snd]. rewrite Em. replace (zev m t - d) with (a * (zev m t / a)) by lia. apply Z.divide_factor_l.
      * intros r H Hd. apply Forall_app in H as [H1 H2]. apply (proj1 (First r)) in H1. pose proof (proj1 (Second r) H2) as H2'. apply Forall_inv in Hd. unfold dsem in Hd. cbn [fst snd] in Hd. rewrite Em in Hd.
        destruct Hd as [q Hq]. assert (X : a * zev r s <= b * (zev r t - d)) by (destruct (Z.eq_dec d 0) as [D0|D0]; [rewrite D0; lia|apply H2', D0]).
        rewrite Hq in X. assert (Y : a * zev r s <= a * (b * q)) by lia. apply Z.mul_le_mono_pos_l in Y; [|lia].
        assert (Cq : ceil (zev r s) b <= q) by (apply ceil_least; lia). nia.
Qed.
