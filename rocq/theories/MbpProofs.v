(** * Proofs about [project], [keepOnly]. *)
From Coq Require Import QArith Qcanon.
From Verif Require Import Syntax Solver KTo1Model DarModel FormulaModel FormulaProofs FormulaProofs2 Lin MbpModel MbpLia MbpClassic MbpLra.
Open Scope list_scope.

Lemma rseq_vars (f : term -> res term) l l' v : Forall (fun t => forall t', f t = Ok t' -> In v (vars t') -> In v (vars t)) l -> rseq (map f l) = Ok l' ->
  (exists t, In t l' /\ In v (vars t)) -> exists t, In t l /\ In v (vars t).
Proof.
  intros F E. apply rseq_map in E. intros [t [H1 H2]]. induction E as [|x y l l' Hf E IH]; [destruct H1|]. apply Forall_cons_iff in F as [F1 F2]. destruct H1 as [->|H1].
  - exists x. split; [left; reflexivity|eauto].
  - destruct (IH F2 H1) as [z [Z1 Z2]]. exists z. split; [right; exact Z1|exact Z2].
Qed.
Lemma negate_vars v t : forall t', nnf_negate t = Ok t' -> In v (vars t') -> In v (vars t).
Proof.
  assert (N : forall t0 t', (if is_atom t0 then Ok (mkNot t0) else Throw) = Ok t' -> In v (vars t') -> In v (vars t0)).
  { intros x t' E. destruct (is_atom x); [|discriminate]. injection E as <-. unfold mkNot. intros H. apply in_vars_app in H as [y [[<-|[]] H]]. exact H. }
  induction t as [w|c|f ts IH] using term_ind'; intros t' E; [exact (N _ t' E)|exact (N _ t' E)|]. destruct f; try (match goal with |- _ -> In v (vars ?x) => exact (N x t' E) end).
  - cbn [nnf_negate] in E. destruct (rseq (map nnf_negate ts)) as [l'|] eqn:El; [|discriminate]. injection E as <-. intros H. apply in_vars_app in H. apply in_vars_app. exact (rseq_vars _ _ _ v IH El H).
  - cbn [nnf_negate] in E. destruct (rseq (map nnf_negate ts)) as [l'|] eqn:El; [|discriminate]. injection E as <-. intros H. apply in_vars_app in H. apply in_vars_app. exact (rseq_vars _ _ _ v IH El H).
  - cbn [nnf_negate] in E. destruct ts as [|a ts]; [discriminate|]. injection E as <-. intros H. apply in_vars_app. exists a. split; [left; reflexivity|exact H].
Qed.
Lemma nnf_vars v t : forall t', nnf t = Ok t' -> In v (vars t') -> In v (vars t).
Proof.
  induction t as [w|c|f ts IH] using term_ind'; intros t' E.
  - cbn [nnf] in E. destruct (is_atom _); [|discriminate]. injection E as <-. auto.
  - cbn [nnf] in E. destruct (is_atom _); [|discriminate]. injection E as <-. auto.
  - cbn [nnf] in E. destruct (is_atom _) eqn:Ea; [injection E as <-; auto|]. destruct f; try discriminate.
    + destruct (rseq (map nnf ts)) as [l'|] eqn:El; [|discriminate]. injection E as <-. intros H. apply in_vars_app in H. apply in_vars_app. exact (rseq_vars _ _ _ v IH El H).
    + destruct (rseq (map nnf ts)) as [l'|] eqn:El; [|discriminate]. injection E as <-. intros H. apply in_vars_app in H. apply in_vars_app. exact (rseq_vars _ _ _ v IH El H).
    + destruct ts as [|a ts]; [discriminate|]. destruct (nnf a) as [a'|] eqn:Ex; [|discriminate]. cbn [bind] in E. intros H. apply (negate_vars v _ _ E) in H. apply in_vars_app. exists a. split; [left; reflexivity|]. apply (Forall_inv IH a' Ex H).
    + destruct ts as [|a [|b ts]]; try discriminate. destruct (nnf a) as [a'|] eqn:Ex; [|discriminate]. destruct (nnf b) as [b'|] eqn:Ey; [|discriminate]. cbn [bind] in E.
      destruct (nnf_negate a') as [na|] eqn:Na; [|discriminate]. destruct (nnf_negate b') as [nb|] eqn:Nb; [|discriminate]. cbn [bind] in E. injection E as <-.
      apply Forall_cons_iff in IH as [IHa IH]. apply Forall_cons_iff in IH as [IHb _]. specialize (IHa a' Ex). specialize (IHb b' Ey). pose proof (negate_vars v _ _ Na). pose proof (negate_vars v _ _ Nb).
      cbn [mkAnd mkOr vars map concat]. rewrite ?app_nil_r, ?in_app_iff. tauto.
Qed.

Lemma implicant_ok m elim t : forall ls, implicant m elim t = Some ls -> holds m t ->
  (forall u, lvin u ls -> In u (vars t)) /\ Forall (lsem m) ls /\ (forall r, Forall (lsem r) ls -> holds r t).
Proof.
  assert (One : forall t, holds m t -> (forall u, lvin u [(t, true)] -> In u (vars t)) /\ Forall (lsem m) [(t, true)] /\ (forall r, Forall (lsem r) [(t, true)] -> holds r t)).
  { intros x Hx. split; [intros u [lt [[<-|[]] H]]; exact H|]. split; [constructor; [apply lsem_pos, Hx|constructor]|]. intros r H. apply Forall_inv in H. apply (proj1 (lsem_pos _ _)), H. }
  induction t as [w|c|f ts IH] using term_ind'; intros ls E M; cbn [implicant] in E.
  - destruct (is_atom _); [injection E as <-; apply One, M|discriminate].
  - destruct (is_atom _); [injection E as <-; apply One, M|discriminate].
  - destruct (is_atom (App f ts)) eqn:Ea; [injection E as <-; apply One, M|]. destruct f; try discriminate.
    + destruct (mapM (implicant m elim) ts) as [lss|] eqn:Em; [|discriminate]. injection E as <-. change (App FAnd ts) with (mkAnd ts) in M. rewrite holds_and in M. rewrite Forall_forall in M, IH. split; [|split].
      * intros u [lt [H1 H2]]. apply in_concat in H1 as [l [H1 H3]]. destruct (mapM_in _ _ _ _ Em H1) as [x [X1 X2]]. apply in_vars_app. exists x. split; [exact X1|]. apply (IH x X1 l X2 (M x X1)). exists lt. auto.
      * apply Forall_concat, Forall_forall. intros l H1. destruct (mapM_in _ _ _ _ Em H1) as [x [X1 X2]]. apply (IH x X1 l X2 (M x X1)).
      * intros r H. change (App FAnd ts) with (mkAnd ts). apply holds_and, Forall_forall. intros x X1. destruct (mapM_in' _ _ _ _ Em X1) as [l [H1 X2]]. apply (IH x X1 l X2 (M x X1)).
        apply (proj1 (Forall_concat _ _)) in H. rewrite Forall_forall in H. apply H, H1.
    + destruct (interesting elim (App FOr ts)); cbn [negb] in E; [|injection E as <-; apply One, M].
      clear M Ea. enough (X : exists x, In x ts /\ (forall u, lvin u ls -> In u (vars x)) /\ Forall (lsem m) ls /\ (forall r, Forall (lsem r) ls -> holds r x)).
      { destruct X as [x [X1 [X2 [X3 X4]]]]. split; [intros u H; apply in_vars_app; exists x; split; [exact X1|apply X2, H]|]. split; [exact X3|]. intros r H. change (App FOr ts) with (mkOr ts). apply holds_or, Exists_exists. exists x. auto. }
      induction ts as [|x ts IHt]; [discriminate|]. apply Forall_cons_iff in IH as [IHx IH]. destruct (holdsb m x) eqn:Ex.
      * exists x. split; [left; reflexivity|]. apply IHx; [exact E|exact Ex].
      * destruct (IHt IH E) as [y [Y1 Y2]]. exists y. split; [right; exact Y1|exact Y2].
    + destruct ts as [|a [|? ?]]; try discriminate. destruct (is_atom a); [|discriminate]. injection E as <-. change (App FNot [a]) with (mkNot a) in *. rewrite holds_not in M. split; [|split].
      * intros u [lt [[<-|[]] H]]. cbn [fst] in H. unfold mkNot. apply in_vars_app. exists a. split; [left; reflexivity|exact H].
      * constructor; [apply lsem_neg, M|constructor].
      * intros r H. apply Forall_inv in H. apply holds_not. apply (proj1 (lsem_neg _ _)), H.
Qed.

Lemma interesting_in elim t : interesting elim t = true <-> exists v, In v elim /\ In v (vars t).
Proof.
  unfold interesting. rewrite existsb_exists. split; intros [v [H1 H2]]; exists v; [apply inb_true in H2|apply inb_true in H1]; auto.
Qed.
Lemma and_lits r ls : holds r (mkAnd (map lit_term ls)) <-> Forall (lsem r) ls.
Proof. rewrite holds_and, Forall_map_iff. reflexivity. Qed.
Lemma lookup_consts (m : valuation) bs v : lookup v (map (fun v => (v, Const (coerce SBool (m v)))) bs) = if inb v bs then Some (Const (coerce SBool (m v))) else None.
Proof.
  induction bs as [|b bs IH]; [reflexivity|]. cbn [map lookup]. rewrite IH. destruct (var_eqb_spec v b) as [->|N].
  - destruct (inb_spec b (b :: bs)) as [|X]; [reflexivity|]. exfalso. apply X. left. reflexivity.
  - destruct (inb_spec v bs) as [H|H], (inb_spec v (b :: bs)) as [K|K]; try reflexivity; exfalso; [apply K; right; exact H|]. destruct K as [K|K]; [congruence|contradiction].
Qed.

Section Project.
Variable lia : bool.
Variable shuffle : list literal -> list literal.
Variable same : ql -> ql -> bool.
Hypothesis Hs : forall l x, In x (shuffle l) <-> In x l.
Hypothesis Hsame : forall a b, same a b = true -> a = b.

Lemma project_ok fla elim m g : project lia shuffle same fla elim m = Some g -> holds m fla -> (lia = true -> ~ In tmp_var elim /\ ~ In tmp_var (vars fla)) ->
  (forall v, In v (vars g) -> In v (vars fla) /\ ~ In v elim) /\ holds m g /\
  (forall r, holds r g -> exists r', (forall v, ~ In v elim -> r v = r' v) /\ holds r' fla).
Proof.
  intros E M T. unfold project in E. set (bools := filter (fun v => sort_eqb (vsort v) SBool) elim) in *. set (nums := filter (fun v => negb (sort_eqb (vsort v) SBool)) elim) in *.
  set (s := map (fun v => (v, Const (coerce SBool (m v)))) bools) in *. set (fla' := subst s fla) in *.
  assert (Hb : forall v, In v bools <-> In v elim /\ vsort v = SBool). { intros v. unfold bools. rewrite filter_In. destruct (sort_eqb_spec (vsort v) SBool); intuition congruence. }
  assert (Hn : forall v, In v nums <-> In v elim /\ vsort v <> SBool). { intros v. unfold nums. rewrite filter_In. destruct (sort_eqb_spec (vsort v) SBool); cbn; intuition congruence. }
  assert (He : forall v, In v elim -> In v bools \/ In v nums). { intros v H. rewrite Hb, Hn. destruct (sort_eqb_spec (vsort v) SBool); tauto. }
  assert (Ws : well_sorted s). { intros v u H. unfold s in H. rewrite lookup_consts in H. destruct (inb_spec v bools) as [X|X]; [|discriminate]. injection H as <-. intros r. apply Hb in X as [_ ->]. cbn [eval]. apply coerce_sort. }
  assert (Vf : forall v, In v (vars fla') -> In v (vars fla) /\ ~ In v bools).
  { intros v H. apply in_vars_subst in H as [w [Hw H]]. unfold s in H. rewrite lookup_consts in H. destruct (inb_spec w bools) as [X|X]; [destruct H|]. subst w. auto. }
  assert (Mf : holds m fla').
  { apply holds_subst; [exact Ws|]. unfold holds, holdsb in *. rewrite (eval_ext _ m); [exact M|]. intros v Hv. unfold upd, s. rewrite lookup_consts. destruct (inb_spec v bools) as [X|X]; [|reflexivity].
    apply Hb in X as [_ ->]. cbn [eval]. apply coerce_id, coerce_sort. }
  assert (Back : forall r r1, (forall v, ~ In v nums -> r v = r1 v) -> holds r1 fla' -> exists r', (forall v, ~ In v elim -> r v = r' v) /\ holds r' fla).
  { intros r r1 A H. exists (upd r1 s). split; [|apply holds_subst; assumption]. intros v Hv. unfold upd, s. rewrite lookup_consts. destruct (inb_spec v bools) as [X|X]; [apply Hb in X as [X _]; contradiction|].
    apply A. intros X2. apply Hn in X2 as [X2 _]. contradiction. }
  destruct nums as [|n0 ns] eqn:En.
  { injection E as <-. split; [|split].
    - intros v H. apply Vf in H as [H1 H2]. split; [exact H1|]. intros X. apply He in X as [X|[]]. contradiction.
    - exact Mf.
    - intros r H. apply (Back r r); auto. }
  rewrite <- En in *. clear En n0 ns. destruct (is_bool fla') eqn:Eb; cbn [negb] in E; [|discriminate]. destruct (nnf fla') as [f|] eqn:Ef; [|discriminate].
  destruct (nnf_ok fla' Eb f Ef) as [_ [_ F]]. destruct (implicant m nums f) as [lits|] eqn:El; [|discriminate].
  destruct (implicant_ok m nums f lits El (proj2 (F m) Mf)) as [I1 [I2 I3]].
  set (withv := filter (fun lt => interesting nums (fst lt)) lits) in *. set (without := filter (fun lt => negb (interesting nums (fst lt))) lits) in *.
  assert (Vl : forall u, lvin u lits -> In u (vars fla) /\ ~ In u bools) by (intros u H; apply Vf, (nnf_vars u fla' f Ef), I1, H).
  assert (W1 : forall u, lvin u withv -> lvin u lits) by (intros u [lt [H1 H2]]; apply filter_In in H1 as [H1 _]; exists lt; auto).
  assert (W2 : forall u, lvin u without -> lvin u lits /\ ~ In u nums).
  { intros u [lt [H1 H2]]. apply filter_In in H1 as [H1 H3]. split; [exists lt; auto|]. intros X. apply negb_true_iff in H3. rewrite (proj2 (interesting_in nums (fst lt))) in H3; [discriminate|]. eauto. }
  assert (Res : exists out, (forall u, lvin u out -> lvin u withv /\ ~ In u nums) /\ Forall (lsem m) out /\
      (forall r, Forall (lsem r) out -> exists r', (forall u, ~ In u nums -> r u = r' u) /\ Forall (lsem r') withv) /\ g = mkAnd (map lit_term (simplify_literals Conj (out ++ without)))).
  { assert (Mw : Forall (lsem m) withv) by (rewrite Forall_forall in *; intros lt H; apply filter_In in H as [H _]; auto). destruct lia.
    - destruct (T eq_refl) as [T1 T2]. set (wz := map (fun lt => (zcanon (fst lt), snd lt)) withv) in *. destruct (project_ints shuffle m nums wz) as [out|] eqn:Eo; [|discriminate]. injection E as <-. exists out.
      assert (Vz : forall u, lvin u wz -> lvin u withv) by (intros u [lt [H1 H2]]; apply in_map_iff in H1 as [lt0 [<- H1]]; cbn [fst] in H2; apply zcanon_ok in H2; exists lt0; auto).
      assert (Sz : forall r, Forall (lsem r) wz <-> Forall (lsem r) withv). { intros r. unfold wz. rewrite Forall_map_iff, !Forall_forall. split; intros H [t b] Hl; specialize (H _ Hl); cbn [fst snd] in *; apply lsem_canon; exact H. }
      destruct (project_ints_ok shuffle Hs m nums wz out) as [P1 [P2 P3]].
      + intros X. apply Hn in X as [X _]. contradiction.
      + intros lt H1 H2. apply T2. apply (Vl tmp_var), W1, Vz. exists lt. auto.
      + apply Sz, Mw.
      + exact Eo.
      + split; [|split; [exact P2|split; [|reflexivity]]].
        * intros u [lt [H1 H2]]. destruct (P1 lt u H1 H2) as [Q1 [lt0 [Q2 Q3]]]. split; [apply Vz; exists lt0; auto|exact Q1].
        * intros r H. destruct (P3 r H) as [r' [R1 R2]]. exists r'. split; [exact R1|apply Sz, R2].
    - set (wz := map (fun lt => (qcanon (fst lt), snd lt)) withv) in *. destruct (real_loop shuffle same m nums wz) as [out|] eqn:Eo; [|discriminate]. injection E as <-. exists out.
      assert (Vz : forall u, lvin u wz -> lvin u withv) by (intros u [lt [H1 H2]]; apply in_map_iff in H1 as [lt0 [<- H1]]; cbn [fst] in H2; apply qcanon_ok in H2; exists lt0; auto).
      assert (Sz : forall r, Forall (lsem r) wz <-> Forall (lsem r) withv). { intros r. unfold wz. rewrite Forall_map_iff, !Forall_forall. split; intros H [t b] Hl; specialize (H _ Hl); cbn [fst snd] in *; apply lsem_qcanon; exact H. }
      destruct (real_loop_ok shuffle same Hs Hsame m nums wz out) as [P1 [P2 P3]]; [apply Sz, Mw|exact Eo|].
      split; [|split; [exact P2|split; [|reflexivity]]].
      + intros u H. apply P1 in H as [H1 H2]. split; [apply Vz, H1|exact H2].
      + intros r H. destruct (P3 r H) as [r' [R1 R2]]. exists r'. split; [exact R1|apply Sz, R2]. }
  destruct Res as [out [O1 [O2 [O3 ->]]]]. split; [|split].
  - intros v H. unfold mkAnd in H. apply in_vars_app in H as [t [Ht Hv]]. apply in_map_iff in Ht as [lt [<- Hlt]]. apply lsem_vars in Hv.
    assert (X : lvin v (out ++ without)) by (apply simplify_vars; exists lt; auto). apply lvin_app in X.
    assert (Y : lvin v lits /\ ~ In v nums) by (destruct X as [X|X]; [apply O1 in X as [X1 X2]; split; [apply W1, X1|exact X2]|apply W2, X]). destruct Y as [Y1 Y2].
    apply Vl in Y1 as [Y1 Y3]. split; [exact Y1|]. intros X'. apply He in X' as [X'|X']; contradiction.
  - apply and_lits, simplify_lsem, Forall_app. split; [exact O2|]. rewrite Forall_forall in *. intros lt H. apply filter_In in H as [H _]. auto.
  - intros r H. apply (proj1 (and_lits r _)), (proj1 (simplify_lsem r _)), Forall_app in H as [H1 H2]. destruct (O3 r H1) as [r1 [R1 R2]]. apply (Back r r1 R1). apply F. apply I3.
    rewrite Forall_forall in *. intros lt Hlt. destruct (interesting nums (fst lt)) eqn:Ei; [apply R2, filter_In; auto|].
    assert (Hw : In lt without) by (apply filter_In; rewrite Ei; auto). specialize (H2 lt Hw). unfold lsem in *. apply (holds_agree r r1); [|exact H2].
    intros u Hu. apply R1. apply (W2 u). exists lt. split; [exact Hw|]. apply lsem_vars, Hu.
Qed.
Lemma keep_only_ok fla keep m g : keep_only lia shuffle same fla keep m = Some g -> holds m fla -> (lia = true -> ~ In tmp_var (vars fla)) -> is_mbp fla keep m g.
Proof.
  intros E M T. unfold keep_only in E. set (elim := filter (fun v => negb (inb v keep)) (nodup var_dec (vars fla))) in *.
  assert (He : forall v, In v elim <-> In v (vars fla) /\ ~ In v keep). { intros v. unfold elim. rewrite filter_In, nodup_In. destruct (inb_spec v keep); cbn; intuition congruence. }
  destruct (project_ok fla elim m g E M) as [P1 [P2 P3]]; [intros L; split; [rewrite He; intros [X _]; exact (T L X)|exact (T L)]|]. split.
  - intros v H. apply P1 in H as [H1 H2]. destruct (inb_spec v keep) as [|N]; [assumption|]. exfalso. apply H2, He. auto.
  - auto.
  - intros r H. destruct (P3 r H) as [r' [R1 R2]]. exists r'. split; [|exact R2]. intros v Hv. apply R1. rewrite He. tauto.
Qed.
End Project.
