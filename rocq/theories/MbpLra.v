(** * Proofs about the projection of real variables. *)
From Coq Require Import QArith Qcanon Ring Lqa.
From Verif Require Import Syntax Solver KTo1Model FormulaModel FormulaProofs2 Lin MbpModel MbpLia MbpClassic.
Open Scope Qc_scope.
Open Scope list_scope.

(** Linear arithmetic over [Qc]. *)
Lemma this_plus a b : (this (a + b) == this a + this b)%Q. Proof. apply Qred_correct. Qed.
Lemma this_opp a : (this (- a) == - this a)%Q. Proof. apply Qred_correct. Qed.
Lemma this_mult a b : (this (a * b) == this a * this b)%Q. Proof. apply Qred_correct. Qed.
Lemma this_minus a b : (this (a - b) == this a - this b)%Q. Proof. unfold Qcminus. rewrite this_plus, this_opp. reflexivity. Qed.
Lemma this_eq a b : a = b <-> (this a == this b)%Q. Proof. split; [intros ->; reflexivity|apply Qc_is_canon]. Qed.
Ltac qc_hyp H := first [rewrite this_eq in H | unfold Qcle, Qclt in H]; rewrite ?this_plus, ?this_opp, ?this_mult, ?this_minus in H; change (this 0) with (0#1)%Q in *; change (this 1) with (1#1)%Q in *.
Ltac qc := repeat match goal with
  | H : @eq Qc _ _ |- _ => rewrite this_eq in H
  | H : ~ @eq Qc _ _ |- _ => rewrite this_eq in H end;
  unfold Qcle, Qclt in *; try (apply this_eq); rewrite ?this_plus, ?this_opp, ?this_mult, ?this_minus in *; change (this 0) with (0#1)%Q in *; change (this 1) with (1#1)%Q in *; lra.

Lemma qeqb_spec a b : reflect (a = b) (qeqb a b). Proof. unfold qeqb. destruct (Qc_eq_dec a b); constructor; auto. Qed.
Lemma qltb_spec a b : reflect (a < b) (qltb a b).
Proof. unfold qltb. destruct (Qclt_le_dec a b) as [H|H]; constructor; [exact H|apply Qcle_not_lt, H]. Qed.
Lemma qleb_spec a b : reflect (a <= b) (qleb a b).
Proof. unfold qleb. destruct (Qclt_le_dec b a) as [H|H]; constructor; [apply Qclt_not_le, H|exact H]. Qed.

Notation qkeys l := (keys Qc (lco l)).
Definition qleafs (l : ql) : Prop := forall v, In v (qkeys l) -> vsort v = SReal.
Lemma qev_pl r a b : qev r (qpl a b) = qev r a + qev r b. Proof. unfold qev, qpl. eapply (lev_add Qc 0 1); [apply Qcrt|apply qeqb_spec]. Qed.
Lemma qev_sc r k a : qev r (qsc k a) = k * qev r a. Proof. unfold qev, qsc. eapply (lev_scale Qc 0 1); [apply Qcrt|apply qeqb_spec]. Qed.
Lemma qev_neg r a : qev r (qneg a) = - qev r a. Proof. unfold qev, qneg. eapply (lev_neg Qc 0 1); [apply Qcrt|apply qeqb_spec]. Qed.
Lemma qev_sub r a b : qev r (qsub a b) = qev r a - qev r b. Proof. unfold qev, qsub. eapply (lev_sub Qc 0 1); [apply Qcrt|apply qeqb_spec]. Qed.
Lemma qev_split r v l : qev r l = qco v l * qval r v + qev r (qdrop v l). Proof. unfold qev, qco, qdrop. eapply (lev_split Qc 0 1). apply Qcrt. Qed.
Lemma qev_ext r r' l : (forall v, In v (qkeys l) -> qval r v = qval r' v) -> qev r l = qev r' l. Proof. unfold qev. apply lev_ext. Qed.
Lemma qk_sc u k a : In u (qkeys (qsc k a)) -> In u (qkeys a). Proof. apply keys_scale. Qed.
Lemma qk_neg u a : In u (qkeys (qneg a)) -> In u (qkeys a). Proof. apply keys_neg. Qed.
Lemma qk_sub u a b : In u (qkeys (qsub a b)) -> In u (qkeys a) \/ In u (qkeys b). Proof. apply keys_sub. Qed.
Lemma qk_drop u v l : In u (qkeys (qdrop v l)) -> In u (qkeys l) /\ u <> v. Proof. apply keys_drop. Qed.
Lemma qproj_inj c k : qproj c = Some k -> c = VReal k. Proof. destruct c; cbn; congruence. Qed.
Lemma qinj_all c : sort_of c = SReal -> exists k, c = VReal k. Proof. destruct c; try discriminate. eauto. Qed.
Lemma qparse_ok t l : qparse t = Some l -> (forall r, eval r t = VReal (qev r l)) /\ (forall v, In v (qkeys l) -> In v (vars t)) /\ qleafs l.
Proof.
  intros E. apply (parse_ok Qc 0 1 Qcplus Qcmult Qcminus Qcopp qeqb Qcrt qeqb_spec SReal VReal qproj qproj_inj (fun a b => eq_refl) (fun a b => eq_refl) qinj_all asq (fun k => eq_refl) t l E).
Qed.
Lemma qsum_ok r l : qleafs l -> eval r (qsum l) = VReal (qev r l - lcst l).
Proof.
  intros H. unfold qsum. rewrite (eval_sum Qc 0 1 Qcplus Qcmult Qcminus Qcopp Qcrt SReal VReal (fun a b => eq_refl) (fun a b => eq_refl) qinj_all asq (fun k => eq_refl) r (lco l) H).
  f_equal. unfold qev, lev, qval. ring.
Qed.
Lemma qsum_vars v l : In v (vars (qsum l)) -> In v (qkeys l). Proof. apply vars_sum. Qed.
Lemma qterm_ok r l : qleafs l -> eval r (qterm l) = VReal (qev r l).
Proof. intros H. unfold qterm, mkPlus. cbn [eval map interp fold1 fold_left]. rewrite qsum_ok by exact H. cbn [vadd]. f_equal. cbn [asq]. ring. Qed.
Lemma qterm_vars v l : In v (vars (qterm l)) -> In v (qkeys l).
Proof. unfold qterm, mkPlus. cbn [vars map concat]. rewrite ?app_nil_r, ?in_app_iff. intros H. apply qsum_vars. cbn in H. tauto. Qed.
Lemma vreal_eq a b : VReal a = VReal b <-> a = b. Proof. split; [intros H; exact (f_equal asq H)|intros ->; reflexivity]. Qed.
Lemma vleq_real a b : vleq (VReal a) (VReal b) = true <-> a <= b. Proof. rewrite vleq_asq. reflexivity. Qed.
Lemma qle_term_ok r l : qleafs l -> (holds r (qle_term l) <-> 0 <= qev r l).
Proof.
  intros H. unfold holds, holdsb, qle_term, mkLeq. cbn [eval map interp]. rewrite qsum_ok by exact H. cbn [asb]. rewrite vleq_real. split; intros X; qc.
Qed.
Lemma qeq_term_ok r l : qleafs l -> (holds r (qeq_term l) <-> qev r l = 0).
Proof.
  intros H. unfold qeq_term. rewrite holds_eq. rewrite qsum_ok by exact H. cbn [eval]. rewrite vreal_eq. split; intros E; qc.
Qed.
Lemma qle_vars v l : In v (vars (qle_term l)) -> In v (qkeys l).
Proof. unfold qle_term, mkLeq. intros H. apply in_vars_app in H as [t [[<-|[<-|[]]] H]]; [destruct H|apply qsum_vars, H]. Qed.
Lemma qeq_vars v l : In v (vars (qeq_term l)) -> In v (qkeys l).
Proof. unfold qeq_term, mkEq. intros H. apply in_vars_app in H as [t [[<-|[<-|[]]] H]]; [destruct H|apply qsum_vars, H]. Qed.
Lemma qatom_ok t e l : qatom t = Some (e, l) -> (forall r, holds r t <-> if e then qev r l = 0 else 0 <= qev r l) /\ (forall v, In v (qkeys l) -> In v (vars t)) /\ qleafs l.
Proof.
  unfold qatom. intros E.
  assert (X : exists f a b, t = App f [a; b] /\ ((f = FEq /\ exists x y, qparse a = Some x /\ qparse b = Some y /\ e = true /\ l = qsub x y) \/ (f = FLeq /\ exists x y, qparse a = Some x /\ qparse b = Some y /\ e = false /\ l = qsub y x))).
  { destruct t as [v|c|f ts]; try discriminate. destruct f; try discriminate; destruct ts as [|a [|b [|? ?]]]; try discriminate; [exists FEq|exists FLeq]; exists a, b; (split; [reflexivity|]); [left|right]; (split; [reflexivity|]);
    (destruct (qparse a) as [x|]; [|discriminate]); (destruct (qparse b) as [y|]; [|discriminate]); injection E as <- <-; exists x, y; auto. }
  destruct X as [f [a [b [-> [[-> [x [y [Ea [Eb [-> ->]]]]]]|[-> [x [y [Ea [Eb [-> ->]]]]]]]]]]];
  apply qparse_ok in Ea as [A1 [A2 A3]]; apply qparse_ok in Eb as [B1 [B2 B3]]; (split; [|split]).
  - intros r. fold (mkEq a b). rewrite holds_eq, A1, B1, qev_sub, vreal_eq. split; intros H; qc.
  - intros v H. apply qk_sub in H. unfold mkEq. apply in_vars_app. destruct H as [H|H]; [exists a|exists b]; cbn; auto.
  - intros v H. apply qk_sub in H as [H|H]; auto.
  - intros r. unfold holds, holdsb. cbn [eval map interp]. rewrite A1, B1, qev_sub. cbn [asb]. rewrite vleq_real. split; intros H; qc.
  - intros v H. apply qk_sub in H. apply in_vars_app. destruct H as [H|H]; [exists b|exists a]; cbn; auto.
  - intros v H. apply qk_sub in H as [H|H]; auto.
Qed.
Lemma qcanon_ok t : (forall r, holds r (qcanon t) <-> holds r t) /\ (forall v, In v (vars (qcanon t)) -> In v (vars t)).
Proof.
  unfold qcanon. destruct (qatom t) as [[e l]|] eqn:E; [|split; [tauto|auto]]. apply qatom_ok in E as [H1 [H2 H3]]. destruct e; split.
  - intros r. rewrite qeq_term_ok by exact H3. rewrite (H1 r). tauto.
  - intros v H. apply H2, qeq_vars, H.
  - intros r. rewrite qle_term_ok by exact H3. rewrite (H1 r). tauto.
  - intros v H. apply H2, qle_vars, H.
Qed.
Lemma lsem_qcanon r t b : lsem r (qcanon t, b) <-> lsem r (t, b).
Proof. destruct b; rewrite ?lsem_pos, ?lsem_neg, (proj1 (qcanon_ok t) r); tauto. Qed.
Lemma sub_leafs a b : qleafs a -> qleafs b -> qleafs (qsub a b). Proof. intros A B v H. apply qk_sub in H as [H|H]; auto. Qed.
Lemma const_ev r (l : ql) : is_const l = true -> qev r l = lcst l.
Proof. unfold is_const, qev, lev. destruct (lco l); [|discriminate]. intros _. cbn [evs]. ring. Qed.
Lemma nle a b : ~ a <= b <-> b < a. Proof. split; [apply Qcnot_le_lt|apply Qclt_not_le]. Qed.
Lemma qle_ok r a b : qleafs a -> qleafs b -> (Forall (lsem r) (qle a b) <-> qev r a <= qev r b).
Proof.
  intros A B. unfold qle. pose proof (sub_leafs b a B A) as L. destruct (is_const (qsub b a) && qleb 0 (lcst (qsub b a))) eqn:E.
  - split; [intros _|constructor]. apply andb_true_iff in E as [E1 E2]. destruct (qleb_spec 0 (lcst (qsub b a))) as [X|]; [|discriminate]. rewrite <- (const_ev r _ E1), qev_sub in X. qc.
  - assert (X : lsem r (qle_term (qsub b a), true) <-> qev r a <= qev r b) by (rewrite lsem_pos, (qle_term_ok r _ L), qev_sub; split; intros; qc).
    rewrite <- X. split; [intros F; apply Forall_inv in F; exact F|intros F; constructor; [exact F|constructor]].
Qed.
Lemma qlt_ok r a b : qleafs a -> qleafs b -> (Forall (lsem r) (qlt a b) <-> qev r a < qev r b).
Proof.
  intros A B. unfold qlt. pose proof (sub_leafs a b A B) as L. destruct (is_const (qsub a b) && qltb (lcst (qsub a b)) 0) eqn:E.
  - split; [intros _|constructor]. apply andb_true_iff in E as [E1 E2]. destruct (qltb_spec (lcst (qsub a b)) 0) as [X|]; [|discriminate]. rewrite <- (const_ev r _ E1), qev_sub in X. qc.
  - assert (X : lsem r (qle_term (qsub a b), false) <-> qev r a < qev r b) by (rewrite lsem_neg, (qle_term_ok r _ L), nle, qev_sub; split; intros; qc).
    rewrite <- X. split; [intros F; apply Forall_inv in F; exact F|intros F; constructor; [exact F|constructor]].
Qed.
Lemma qle_lit_vars a b lt v : In lt (qle a b) -> In v (vars (fst lt)) -> In v (qkeys a) \/ In v (qkeys b).
Proof. unfold qle. destruct (_ && _); [intros []|]. intros [<-|[]] H. apply qle_vars, qk_sub in H. tauto. Qed.
Lemma qlt_lit_vars a b lt v : In lt (qlt a b) -> In v (vars (fst lt)) -> In v (qkeys a) \/ In v (qkeys b).
Proof. unfold qlt. destruct (_ && _); [intros []|]. intros [<-|[]] H. apply qle_vars, qk_sub in H. tauto. Qed.

Lemma qval_set r v z u : qval (set_val r v (VReal z)) u = if var_eqb u v then z else qval r u.
Proof. unfold qval, xval, set_val. destruct (var_eqb_spec u v); reflexivity. Qed.
Lemma qev_set_other r v z l : ~ In v (qkeys l) -> qev (set_val r v (VReal z)) l = qev r l.
Proof. intros H. apply qev_ext. intros u Hu. rewrite qval_set. destruct (var_eqb_spec u v) as [->|]; [contradiction|reflexivity]. Qed.
Lemma qdrop_not v l : ~ In v (qkeys (qdrop v l)). Proof. intros H. apply qk_drop in H as [_ H]. congruence. Qed.
Lemma qev_set r v z l : qev (set_val r v (VReal z)) l = qco v l * z + qev r (qdrop v l).
Proof. rewrite (qev_split _ v), qval_set, var_eqb_refl, qev_set_other by apply qdrop_not. reflexivity. Qed.
Lemma qval_coerce r v : coerce SReal (r v) = VReal (qval r v).
Proof. unfold qval, xval. destruct (coerce SReal (r v)) eqn:Ec; try reflexivity; pose proof (coerce_sort SReal (r v)) as X; rewrite Ec in X; discriminate. Qed.

(** ** Bounds *)
Definition rsem (r : valuation) (x : Qc) (b : rbound) : Prop :=
  if rb_low b then (if rb_strict b then qev r (rb_val b) < x else qev r (rb_val b) <= x)
  else (if rb_strict b then x < qev r (rb_val b) else x <= qev r (rb_val b)).
Lemma mul_pos k d : 0 < k -> (0 <= k * d <-> 0 <= d).
Proof.
  intros P. split; intros H.
  - apply (Qcmult_lt_0_le_reg_r _ _ k P). replace (0 * k) with 0 by ring. replace (d * k) with (k * d) by ring. exact H.
  - replace 0 with (0 * d) by ring. apply Qcmult_le_compat_r; [apply Qclt_le_weak, P|exact H].
Qed.
Lemma to_rbound_ok v lt b : to_rbound v lt = Some b ->
  (forall u, In u (qkeys (rb_val b)) -> u <> v /\ In u (vars (fst lt)) /\ vsort u = SReal) /\
  (forall r, lsem r lt <-> rsem r (qval r v) b) /\ (forall r z, rsem r z b <-> lsem (set_val r v (VReal z)) lt).
Proof.
  destruct lt as [t sg]. unfold to_rbound. cbn [fst snd]. destruct (qatom t) as [[e l]|] eqn:Ea; [|discriminate]. destruct e; [discriminate|]. apply qatom_ok in Ea as [A1 [A2 A3]].
  destruct (qeqb_spec (qco v l) 0) as [|Nz]; [discriminate|]. intros E. injection E as <-. cbn [rb_val rb_low rb_strict].
  split; [intros u Hu; apply qk_sc, qk_drop in Hu as [H1 H2]; split; [exact H2|]; split; [apply A2, H1|apply A3, H1]|].
  set (k := qco v l) in *. set (b := qsc (- / k) (qdrop v l)).
  assert (M : forall x D B, B = - / k * D -> ((0 <= k * x + D) <-> (if qltb k 0 then x <= B else B <= x))).
  { intros x D B HB. assert (HD : D = - k * B) by (rewrite HB; field; exact Nz). rewrite HD. destruct (qltb_spec k 0) as [Lt|Ge].
    - replace (k * x + - k * B) with ((- k) * (B - x)) by ring. rewrite mul_pos by qc. split; intros; qc.
    - assert (P : 0 < k) by (destruct (Qclt_le_dec 0 k) as [P|P]; [exact P|]; apply Qcle_lt_or_eq in P as [P|P]; [contradiction|congruence]).
      replace (k * x + - k * B) with (k * (x - B)) by ring. rewrite mul_pos by exact P. split; intros; qc. }
  assert (Sem : forall r r' x, holds r' t <-> 0 <= k * x + qev r (qdrop v l) -> (lsem r' (t, sg) <-> rsem r x {| rb_low := xorb sg (qltb k 0); rb_val := b; rb_strict := negb sg |})).
  { intros r r' x H. unfold rsem. cbn [rb_val rb_low rb_strict].
    rewrite (M x (qev r (qdrop v l)) (qev r b)) in H by (unfold b; apply qev_sc).
    destruct sg; rewrite ?lsem_pos, ?lsem_neg, H; cbn [negb xorb]; destruct (qltb k 0); cbn [negb]; rewrite ?nle; tauto. }
  split; [intros r; apply Sem; rewrite A1, (qev_split r v); tauto|]. intros r z. symmetry. apply Sem. rewrite A1, qev_set. tauto.
Qed.

(** ** Solving a system of bounds *)
Definition compat (r : valuation) (l u : rbound) : Prop :=
  if rb_strict u || rb_strict l then qev r (rb_val l) < qev r (rb_val u) else qev r (rb_val l) <= qev r (rb_val u).
Definition above (r : valuation) (c b : rbound) : Prop :=
  qev r (rb_val b) < qev r (rb_val c) \/ (qev r (rb_val b) = qev r (rb_val c) /\ (rb_strict b = true -> rb_strict c = true)).
Definition below (r : valuation) (c b : rbound) : Prop :=
  qev r (rb_val c) < qev r (rb_val b) \/ (qev r (rb_val b) = qev r (rb_val c) /\ (rb_strict b = true -> rb_strict c = true)).
Lemma lt_trans' a b c : a < b -> b < c -> a < c. Proof. intros; qc. Qed.
Lemma above_trans r a b c : above r a b -> above r b c -> above r a c.
Proof. unfold above. intros [H1|[H1 H2]] [H3|[H3 H4]]; [left; qc|left; qc|left; qc|right]. split; [congruence|auto]. Qed.
Lemma below_trans r a b c : below r a b -> below r b c -> below r a c.
Proof. unfold below. intros [H1|[H1 H2]] [H3|[H3 H4]]; [left; qc|left; qc|left; qc|right]. split; [congruence|auto]. Qed.
Lemma above_total r a b : above r a b \/ above r b a.
Proof.
  unfold above. destruct (Qclt_le_dec (qev r (rb_val a)) (qev r (rb_val b))) as [H|H]; [auto|]. apply Qcle_lt_or_eq in H as [H|H]; [auto|].
  destruct (rb_strict a), (rb_strict b); rewrite H; intuition congruence.
Qed.
Lemma below_total r a b : below r a b \/ below r b a.
Proof.
  unfold below. destruct (Qclt_le_dec (qev r (rb_val a)) (qev r (rb_val b))) as [H|H]; [auto|]. apply Qcle_lt_or_eq in H as [H|H]; [auto|].
  destruct (rb_strict a), (rb_strict b); rewrite H; intuition congruence.
Qed.
Lemma extreme (R : rbound -> rbound -> Prop) : (forall a b c, R a b -> R b c -> R a c) -> (forall a b, R a b \/ R b a) ->
  forall b bs, exists c, In c (b :: bs) /\ forall x, In x (b :: bs) -> R c x.
Proof.
  intros T O b bs. induction bs as [|x bs IH].
  - exists b. split; [left; reflexivity|]. intros x [<-|[]]. destruct (O b b); auto.
  - destruct IH as [c [H1 H2]]. destruct (O c x) as [H|H].
    + exists c. split; [destruct H1 as [<-|H1]; [left; reflexivity|right; right; exact H1]|]. intros y [<-|[<-|Hy]]; [apply H2; left; reflexivity|exact H|apply H2; right; exact Hy].
    + exists x. split; [right; left; reflexivity|]. intros y [<-|[<-|Hy]]; [apply (T _ c); [exact H|apply H2; left; reflexivity]|destruct (O x x); auto|apply (T _ c); [exact H|apply H2; right; exact Hy]].
Qed.
Lemma above_rsem r c b x : rb_low b = true -> rb_low c = true -> above r c b -> rsem r x c -> rsem r x b.
Proof.
  unfold rsem, above. intros -> ->. intros [H|[H1 H2]].
  - destruct (rb_strict b), (rb_strict c); intros; qc.
  - rewrite H1. destruct (rb_strict b); [rewrite H2 by reflexivity; auto|]. destruct (rb_strict c); intros; qc.
Qed.
Lemma below_rsem r c b x : rb_low b = false -> rb_low c = false -> below r c b -> rsem r x c -> rsem r x b.
Proof.
  unfold rsem, below. intros -> ->. intros [H|[H1 H2]].
  - destruct (rb_strict b), (rb_strict c); intros; qc.
  - rewrite H1. destruct (rb_strict b); [rewrite H2 by reflexivity; auto|]. destruct (rb_strict c); intros; qc.
Qed.
Lemma half_between a b : a < b -> exists x, a < x /\ x < b.
Proof.
  intros H. exists ((a + b) * Q2Qc (1#2)). assert (E : (this (Q2Qc (1#2)) == 1#2)%Q) by apply Qred_correct.
  split; unfold Qclt in *; rewrite this_mult, this_plus, E; lra.
Qed.
Lemma solve r bs : (forall l u, In l bs -> In u bs -> rb_low l = true -> rb_low u = false -> compat r l u) -> exists x, Forall (rsem r x) bs.
Proof.
  intros C. set (ls := filter rb_low bs). set (us := filter (fun b => negb (rb_low b)) bs).
  assert (HL : forall b, In b ls <-> In b bs /\ rb_low b = true) by (intros b; apply filter_In).
  assert (HU : forall b, In b us <-> In b bs /\ rb_low b = false) by (intros b; unfold us; rewrite filter_In, negb_true_iff; tauto).
  assert (Fin : forall x, (forall b, In b ls -> rsem r x b) -> (forall b, In b us -> rsem r x b) -> Forall (rsem r x) bs).
  { intros x A B. apply Forall_forall. intros b Hb. destruct (rb_low b) eqn:Eb; [apply A, HL; auto|apply B, HU; auto]. }
  destruct ls as [|l0 ls'] eqn:Els; [|destruct (extreme (above r) (above_trans r) (above_total r) l0 ls') as [c [C1 C2]]; rewrite <- Els in *; destruct (proj1 (HL c) C1) as [C3 C4]].
  - destruct us as [|u0 us'] eqn:Eus; [exists 0; apply Fin; intros b []|]. destruct (extreme (below r) (below_trans r) (below_total r) u0 us') as [d [D1 D2]]. rewrite <- Eus in *. destruct (proj1 (HU d) D1) as [D3 D4].
    exists (qev r (rb_val d) - 1). apply Fin; [intros b []|]. intros b Hb. apply (below_rsem r d b); [apply HU, Hb|exact D4|apply D2, Hb|]. unfold rsem. rewrite D4. destruct (rb_strict d); qc.
  - destruct us as [|u0 us'] eqn:Eus.
    + exists (qev r (rb_val c) + 1). apply Fin; [|intros b []]. intros b Hb. apply (above_rsem r c b); [apply HL, Hb|exact C4|apply C2, Hb|]. unfold rsem. rewrite C4. destruct (rb_strict c); qc.
    + destruct (extreme (below r) (below_trans r) (below_total r) u0 us') as [d [D1 D2]]. rewrite <- Eus in *. destruct (proj1 (HU d) D1) as [D3 D4].
      pose proof (C c d C3 D3 C4 D4) as K. unfold compat in K.
      assert (X : exists x, rsem r x c /\ rsem r x d).
      { unfold rsem. rewrite C4, D4. destruct (rb_strict d || rb_strict c) eqn:Es.
        - destruct (half_between _ _ K) as [x [X1 X2]]. exists x. destruct (rb_strict c), (rb_strict d); split; qc.
        - apply orb_false_iff in Es as [-> ->]. exists (qev r (rb_val c)). split; [apply Qcle_refl|exact K]. }
      destruct X as [x [X1 X2]]. exists x. apply Fin; intros b Hb.
      * apply (above_rsem r c b); [apply HL, Hb|exact C4|apply C2, Hb|exact X1].
      * apply (below_rsem r d b); [apply HU, Hb|exact D4|apply D2, Hb|exact X2].
Qed.
Lemma rsem_compat r x l u : rb_low l = true -> rb_low u = false -> rsem r x l -> rsem r x u -> compat r l u.
Proof. unfold rsem, compat. intros -> ->. destruct (rb_strict l), (rb_strict u); cbn [orb]; intros; qc. Qed.

(** ** [substituteBound] *)
Lemma subst_bound_lu r l u n : qleafs (rb_val l) -> qleafs (rb_val u) -> rb_low l = true -> rb_low u = false ->
  (subst_bound l u = Some n \/ subst_bound u l = Some n) -> (Forall (lsem r) n <-> compat r l u).
Proof.
  intros L1 L2 E1 E2 H. assert (X : n = if rb_strict u || rb_strict l then qlt (rb_val l) (rb_val u) else qle (rb_val l) (rb_val u)).
  { unfold subst_bound in H. rewrite E1, E2 in H. cbn in H. destruct H as [H|H]; injection H as <-; reflexivity. }
  rewrite X. unfold compat. destruct (rb_strict u || rb_strict l); [apply qlt_ok|apply qle_ok]; auto.
Qed.
Lemma subst_bound_ll r c b n : qleafs (rb_val c) -> qleafs (rb_val b) -> rb_low c = true -> rb_low b = true ->
  subst_bound c b = Some n -> (Forall (lsem r) n <-> above r c b).
Proof.
  intros L1 L2 E1 E2 H. unfold subst_bound in H. rewrite E1, E2 in H. cbn in H. injection H as <-. unfold above.
  destruct (rb_strict b) eqn:Sb, (rb_strict c) eqn:Sc; cbn [andb negb]; rewrite ?qle_ok, ?qlt_ok by auto; split; intros H;
    try (apply Qcle_lt_or_eq in H; tauto); try (destruct H as [H|[H1 H2]]; [qc|try discriminate (H2 eq_refl); qc]); tauto.
Qed.
Lemma subst_bound_vars a b n lt u : subst_bound a b = Some n -> In lt n -> In u (vars (fst lt)) -> In u (qkeys (rb_val a)) \/ In u (qkeys (rb_val b)).
Proof.
  unfold subst_bound. destruct (_ && _); [discriminate|]. destruct (rb_low a && rb_low b).
  - destruct (_ && _); intros E; injection E as <-; intros H1 H2; [apply (qlt_lit_vars _ _ _ _ H1) in H2|apply (qle_lit_vars _ _ _ _ H1) in H2]; tauto.
  - destruct (rb_low b); destruct (_ || _); intros E; injection E as <-; intros H1 H2; [apply (qlt_lit_vars _ _ _ _ H1) in H2|apply (qle_lit_vars _ _ _ _ H1) in H2|apply (qlt_lit_vars _ _ _ _ H1) in H2|apply (qle_lit_vars _ _ _ _ H1) in H2]; tauto.
Qed.
Lemma subst_bounds_ok r a bs n : subst_bounds a bs = Some n -> (Forall (lsem r) n <-> forall b x, In b bs -> subst_bound a b = Some x -> Forall (lsem r) x).
Proof.
  unfold subst_bounds. destruct (mapM (subst_bound a) bs) as [ns|] eqn:E; [|discriminate]. intros H. injection H as <-. rewrite Forall_concat. rewrite Forall_forall. split.
  - intros H b x Hb Hx. destruct (mapM_in' _ _ _ _ E Hb) as [y [Y1 Y2]]. apply H. congruence.
  - intros H x Hx. destruct (mapM_in _ _ _ _ E Hx) as [b [B1 B2]]. eapply H; eauto.
Qed.
Lemma subst_bounds_each a bs n b : subst_bounds a bs = Some n -> In b bs -> exists x, subst_bound a b = Some x.
Proof.
  unfold subst_bounds. destruct (mapM (subst_bound a) bs) as [ns|] eqn:E; [|discriminate]. intros _ Hb. destruct (mapM_in' _ _ _ _ E Hb) as [y [Y1 Y2]]. eauto.
Qed.
Lemma subst_bounds_vars a bs n lt u : subst_bounds a bs = Some n -> In lt n -> In u (vars (fst lt)) -> exists b, (b = a \/ In b bs) /\ In u (qkeys (rb_val b)).
Proof.
  unfold subst_bounds. destruct (mapM (subst_bound a) bs) as [ns|] eqn:E; [|discriminate]. intros X. injection X as <-. intros H1 H2. apply in_concat in H1 as [x [H1 H3]].
  destruct (mapM_in _ _ _ _ E H1) as [b [B1 B2]]. destruct (subst_bound_vars _ _ _ _ u B2 H3 H2) as [X|X]; eauto.
Qed.

(** ** The highest lower bound *)
Lemma highest_ok same m x us : (forall a b, same a b = true -> qev m a = qev m b) ->
  (forall u, In u us -> rb_low u = false /\ rsem m x u) ->
  forall l cur done, (forall b, In b (done ++ l) -> rb_low b = true /\ rsem m x b) -> In cur done -> (forall b, In b done -> above m cur b) ->
  In (highest same m us cur l) (done ++ l) /\ forall b, In b (done ++ l) -> above m (highest same m us cur l) b.
Proof.
  intros Hs Hu. induction l as [|b l IH]; intros cur done Hb Hc Ha; cbn [highest]; [rewrite app_nil_r; auto|].
  assert (App : done ++ b :: l = (done ++ [b]) ++ l) by (rewrite <- app_assoc; reflexivity).
  destruct (qltb (qev m (rb_val cur)) (qev m (rb_val b)) || (qeqb (qev m (rb_val cur)) (qev m (rb_val b)) && rb_strict b)) eqn:E1.
  - rewrite App. apply IH; [rewrite <- App; exact Hb|apply in_app_iff; right; left; reflexivity|].
    assert (X : above m b cur). { unfold above. apply orb_true_iff in E1 as [E1|E1]; [left; destruct (qltb_spec (qev m (rb_val cur)) (qev m (rb_val b))); [assumption|discriminate]|].
      apply andb_true_iff in E1 as [E1 E2]. destruct (qeqb_spec (qev m (rb_val cur)) (qev m (rb_val b))); [|discriminate]. right. auto. }
    intros y Hy. apply in_app_iff in Hy as [Hy|[<-|[]]]; [apply (above_trans m b cur y X), Ha, Hy|]. destruct (above_total m b b); auto.
  - apply orb_false_iff in E1 as [E1 E2]. destruct (qeqb_spec (qev m (rb_val cur)) (qev m (rb_val b))) as [Eq|Ne]; cbn [andb] in *.
    + destruct (existsb (fun u => same (rb_val u) (rb_val b)) us) eqn:E3.
      * split; [apply in_app_iff; right; left; reflexivity|]. apply existsb_exists in E3 as [u [U1 U2]]. apply Hs in U2. destruct (Hu u U1) as [U3 U4].
        intros y Hy. destruct (Hb y Hy) as [Y1 Y2]. pose proof (rsem_compat m x y u Y1 U3 Y2 U4) as K. unfold compat in K. rewrite U2 in K. unfold above. rewrite E2.
        destruct (rb_strict y) eqn:Sy; [rewrite orb_true_r in K; left; exact K|]. destruct (rb_strict u); cbn [orb] in K; [left; exact K|]. apply Qcle_lt_or_eq in K as [K|K]; [left; exact K|right; split; [exact K|discriminate]].
      * rewrite App. apply IH; [rewrite <- App; exact Hb|apply in_app_iff; left; exact Hc|]. intros y Hy. apply in_app_iff in Hy as [Hy|[<-|[]]]; [apply Ha, Hy|].
        right. split; [auto|]. rewrite E2. discriminate.
    + rewrite App. apply IH; [rewrite <- App; exact Hb|apply in_app_iff; left; exact Hc|]. intros y Hy. apply in_app_iff in Hy as [Hy|[<-|[]]]; [apply Ha, Hy|].
      left. destruct (qltb_spec (qev m (rb_val cur)) (qev m (rb_val b))) as [|N]; [discriminate|]. apply Qcnot_lt_le in N. apply Qcle_lt_or_eq in N as [N|N]; [exact N|congruence].
Qed.

(** ** The first loop *)
Definition lvin (u : var) (lits : list literal) : Prop := exists lt, In lt lits /\ In u (vars (fst lt)).
Lemma lvin_app u a b : lvin u (a ++ b) <-> lvin u a \/ lvin u b.
Proof. unfold lvin. split; [intros [lt [H1 H2]]; apply in_app_iff in H1 as [H1|H1]; eauto|intros [[lt [H1 H2]]|[lt [H1 H2]]]; exists lt; rewrite in_app_iff; auto]. Qed.
Lemma presolve_ok m v todo : forall seen e ls, presolve m v seen todo = Some (e, ls) ->
  (forall u, lvin u ls -> lvin u (seen ++ todo)) /\ (Forall (lsem m) (seen ++ todo) -> Forall (lsem m) ls) /\
  (forall r, Forall (lsem r) ls -> Forall (lsem r) (seen ++ todo)) /\
  (forall t, e = Some t -> qleafs t /\ (forall u, In u (qkeys t) -> lvin u (seen ++ todo) /\ u <> v) /\ (Forall (lsem m) (seen ++ todo) -> qval m v = qev m t)).
Proof.
  induction todo as [|lt todo IH]; intros seen e ls E; cbn [presolve] in E.
  - injection E as <- <-. rewrite app_nil_r. split; [auto|]. split; [auto|]. split; [auto|]. discriminate.
  - destruct (qatom (fst lt)) as [[[|] l]|] eqn:Ea; [| |discriminate].
    + destruct (qatom_ok _ _ _ Ea) as [A1 [A2 A3]]. destruct (qeqb_spec (qco v l) 0) as [|Nz]; [discriminate|]. destruct (snd lt) eqn:Es.
      * injection E as <- <-. split; [auto|]. split; [auto|]. split; [auto|]. intros t Et. injection Et as <-.
        split; [intros u Hu; apply qk_sc, qk_drop in Hu as [Hu _]; apply A3, Hu|].
        split; [intros u Hu; apply qk_sc, qk_drop in Hu as [Hu Nu]; split; [|exact Nu]; exists lt; split; [apply in_app_iff; right; left; reflexivity|apply A2, Hu]|].
        intros M. apply Forall_app in M as [_ M]. apply Forall_inv in M. destruct lt as [t sg]. cbn [fst snd] in *. subst sg. apply (proj1 (lsem_pos _ _)), A1 in M. rewrite (qev_split m v) in M. rewrite qev_sc.
        set (k := qco v l) in *. set (D := qev m (qdrop v l)) in *. assert (HD : D = - (k * qval m v)) by qc. rewrite HD. field. exact Nz.
      * set (lt' := (qle_term (if qltb (qev m l) 0 then l else qneg l), false)) in *.
        assert (Lf : qleafs (if qltb (qev m l) 0 then l else qneg l)) by (destruct (qltb _ _); [exact A3|]; intros u Hu; apply qk_neg in Hu; apply A3, Hu).
        assert (Sem : forall r, lsem r lt' <-> (if qltb (qev m l) 0 then qev r l < 0 else 0 < qev r l)).
        { intros r. unfold lt'. rewrite lsem_neg, (qle_term_ok r _ Lf), nle. destruct (qltb _ _); [tauto|]. rewrite qev_neg. split; intros; qc. }
        assert (Old : forall r, lsem r lt <-> qev r l <> 0) by (intros r; destruct lt as [t sg]; cbn [fst snd] in *; subst sg; rewrite lsem_neg, A1; tauto).
        destruct (IH _ _ _ E) as [I1 [I2 [I3 I4]]].
        assert (V : forall u, lvin u ((seen ++ [lt']) ++ todo) -> lvin u (seen ++ lt :: todo)).
        { intros u Hu. rewrite <- app_assoc in Hu. apply lvin_app in Hu as [Hu|Hu]; apply lvin_app; [left; exact Hu|right]. destruct Hu as [x [[<-|H1] H2]]; [|exists x; split; [right; exact H1|exact H2]].
          exists lt. split; [left; reflexivity|]. unfold lt' in H2. cbn [fst] in H2. apply qle_vars in H2. apply A2. destruct (qltb _ _); [exact H2|apply qk_neg, H2]. }
        assert (Mm : Forall (lsem m) (seen ++ lt :: todo) -> Forall (lsem m) ((seen ++ [lt']) ++ todo)).
        { intros M. apply Forall_app in M as [M1 M2]. apply Forall_cons_iff in M2 as [M2 M3]. rewrite <- app_assoc. apply Forall_app. split; [exact M1|]. constructor; [|exact M3].
          apply Sem. apply Old in M2. destruct (qltb_spec (qev m l) 0) as [|N]; [assumption|]. apply Qcnot_lt_le in N. apply Qcle_lt_or_eq in N as [N|N]; [exact N|congruence]. }
        split; [intros u Hu; apply V, I1, Hu|]. split; [intros M; apply I2, Mm, M|]. split.
        -- intros r Hr. apply I3 in Hr. rewrite <- app_assoc in Hr. apply Forall_app in Hr as [R1 R2]. apply Forall_cons_iff in R2 as [R2 R3]. apply Forall_app. split; [exact R1|]. constructor; [|exact R3].
           apply Old. apply (proj1 (Sem r)) in R2. intros Z. rewrite Z in R2. destruct (qltb _ _); exact (Qclt_not_le _ _ R2 (Qcle_refl 0)).
        -- intros t Et. destruct (I4 t Et) as [T1 [T2 T3]]. split; [exact T1|]. split; [intros u Hu; destruct (T2 u Hu) as [X Y]; split; [apply V, X|exact Y]|]. intros M. apply T3, Mm, M.
    + assert (App : seen ++ lt :: todo = (seen ++ [lt]) ++ todo) by (rewrite <- app_assoc; reflexivity). rewrite App. apply IH, E.
Qed.

Lemma simplify_vars ls u : lvin u (simplify_literals Conj ls) -> lvin u ls.
Proof.
  unfold simplify_literals.
  assert (U : forall k c b e, In e (update_bound Conj k c b) -> (fst e = k \/ In e b \/ exists e', In e' b /\ fst e' = fst e)).
  { intros k c b. induction b as [|[k' c'] b IH]; intros e; cbn [update_bound]; [intros [<-|[]]; auto|]. destruct (lit_eqb k k').
    - intros [<-|H]; [right; right; exists (k', c'); split; [left; reflexivity|reflexivity]|right; left; right; exact H].
    - intros [<-|H]; [right; left; left; reflexivity|]. apply IH in H as [H|[H|[e' [H1 H2]]]]; [auto|right; left; right; exact H|]. right; right. exists e'. split; [right; exact H1|exact H2]. }
  assert (C : forall l tmp b, (lvin u (fst (collect_bounds Conj l tmp b)) -> lvin u (tmp ++ l) \/ exists e, In e b /\ In u (vars (fst (fst e)))) /\
                              (forall e, In e (snd (collect_bounds Conj l tmp b)) -> In u (vars (fst (fst e))) -> lvin u l \/ exists e, In e b /\ In u (vars (fst (fst e))))).
  { induction l as [|x l IH]; intros tmp b; cbn [collect_bounds]; [cbn [fst snd]; split; [rewrite app_nil_r; auto|intros e H1 H2; right; eauto]|].
    destruct (leq_parts (fst x)) as [[c t]|] eqn:El.
    - apply leq_parts_some in El. assert (V : In u (vars t) -> In u (vars (fst x))) by (intros H; rewrite El; unfold mkLeq; apply in_vars_app; exists t; split; [right; left; reflexivity|exact H]).
      assert (B : (exists e, In e (update_bound Conj (t, snd x) c b) /\ In u (vars (fst (fst e)))) -> In u (vars (fst x)) \/ exists e, In e b /\ In u (vars (fst (fst e)))).
      { intros [e [H1 H2]]. apply U in H1 as [H1|[H1|[e' [H1 H3]]]]; [rewrite H1 in H2; left; apply V, H2|right; eauto|]. right. exists e'. rewrite H3. auto. }
      destruct (IH tmp (update_bound Conj (t, snd x) c b)) as [I1 I2]. split.
      + intros H. apply I1 in H as [H|H]; [left; apply lvin_app in H as [H|[y [H1 H2]]]; apply lvin_app; [auto|right; exists y; split; [right; exact H1|exact H2]]|].
        apply B in H as [H|H]; [left; apply lvin_app; right; exists x; split; [left; reflexivity|exact H]|auto].
      + intros e H1 H2. apply (I2 e H1) in H2 as [[y [Y1 Y2]]|H]; [left; exists y; split; [right; exact Y1|exact Y2]|]. apply B in H as [H|H]; [left; exists x; split; [left; reflexivity|exact H]|auto].
    - destruct (IH (tmp ++ [x]) b) as [I1 I2]. split.
      + intros H. apply I1 in H as [H|H]; [|auto]. rewrite <- app_assoc in H. auto.
      + intros e H1 H2. apply (I2 e H1) in H2 as [[y [Y1 Y2]]|H]; [left; exists y; split; [right; exact Y1|exact Y2]|auto]. }
  destruct (C ls [] []) as [C1 C2]. destruct (collect_bounds Conj ls [] []) as [tmp b] eqn:Ec. cbn [fst snd app] in *. destruct (Nat.ltb _ _); [|auto]. intros H. apply lvin_app in H as [H|[x [H1 H2]]].
  - apply C1 in H as [H|[e [[] _]]]. exact H.
  - apply in_map_iff in H1 as [e [<- H1]]. cbn [fst] in H2. unfold mkLeq in H2. apply in_vars_app in H2 as [t [[<-|[<-|[]]] H2]]; [destruct H2|]. apply (C2 e H1) in H2 as [H2|[e' [[] _]]]. exact H2.
Qed.
Lemma simplify_lsem r ls : Forall (lsem r) (simplify_literals Conj ls) <-> Forall (lsem r) ls.
Proof.
  assert (X : forall l, Forall (lsem r) l <-> forallb (goodl Conj r) l = true).
  { intros l. rewrite forallb_forall, Forall_forall. assert (Y : forall x, lsem r x <-> goodl Conj r x = true) by (intros [t []]; reflexivity). split; intros H x Hx; apply Y, H, Hx. }
  rewrite !X, simplify_literals_good. tauto.
Qed.
Lemma trivially_ok r lt : trivially_true lt = true -> lsem r lt.
Proof.
  unfold trivially_true. destruct lt as [t sg]. cbn [fst snd]. destruct (qatom t) as [[e l]|] eqn:Ea; [|discriminate]. apply qatom_ok in Ea as [A1 [A2 A3]]. intros H. apply andb_true_iff in H as [H1 H2].
  apply eqb_prop in H2. specialize (A1 r). rewrite (const_ev r l H1) in A1.
  assert (B : holds r t <-> (if e then qeqb (lcst l) 0 else qleb 0 (lcst l)) = true).
  { rewrite A1. destruct e; [destruct (qeqb_spec (lcst l) 0)|destruct (qleb_spec 0 (lcst l))]; split; intros; congruence || tauto. }
  rewrite H2 in B. destruct sg; rewrite ?lsem_pos, ?lsem_neg, B; [reflexivity|discriminate].
Qed.

Section Real.
Variable shuffle : list literal -> list literal.
Variable same : ql -> ql -> bool.
Hypothesis Hs : forall l x, In x (shuffle l) <-> In x l.
Hypothesis Hsame : forall a b, same a b = true -> a = b.

Lemma project_real_ok m v lits lits' : vsort v = SReal -> Forall (lsem m) lits -> project_real shuffle same m v lits = Some lits' ->
  (forall u, lvin u lits' -> lvin u lits /\ u <> v) /\ Forall (lsem m) lits' /\
  (forall r, Forall (lsem r) lits' -> exists z, Forall (lsem (set_val r v (VReal z))) lits).
Proof.
  intros Sv Ml. unfold project_real. set (rest := filter (fun lt => negb (contains v lt)) lits). set (withv := shuffle (filter (contains v) lits)).
  assert (R1 : forall u, lvin u rest -> lvin u lits /\ u <> v).
  { intros u [lt [H1 H2]]. apply filter_In in H1 as [H1 H3]. split; [exists lt; auto|]. intros ->. apply negb_true_iff in H3. unfold contains in H3. apply inb_true in H2. congruence. }
  assert (R2 : Forall (lsem m) rest) by (rewrite Forall_forall in *; intros lt H; apply filter_In in H as [H _]; auto).
  assert (W1 : forall u, lvin u withv -> lvin u lits) by (intros u [lt [H1 H2]]; apply Hs, filter_In in H1 as [H1 _]; exists lt; auto).
  assert (W2 : Forall (lsem m) withv) by (rewrite Forall_forall in *; intros lt H; apply Hs, filter_In in H as [H _]; auto).
  assert (Lift : forall r z, Forall (lsem r) rest -> Forall (lsem (set_val r v (VReal z))) withv -> Forall (lsem (set_val r v (VReal z))) lits).
  { intros r z Hr Hw. rewrite Forall_forall in *. intros lt H. destruct (contains v lt) eqn:Ec; [apply Hw, Hs, filter_In; auto|].
    apply lsem_set_other; [intros X; apply inb_true in X; unfold contains in Ec; congruence|]. apply Hr, filter_In. rewrite Ec. auto. }
  destruct (presolve m v [] withv) as [[e ls]|] eqn:Ep; [|discriminate]. destruct (presolve_ok m v withv [] e ls Ep) as [P1 [P2 [P3 P4]]]. cbn [app] in *.
  destruct e as [t|].
  - destruct (P4 t eq_refl) as [T1 [T2 T3]]. specialize (T3 W2). intros E. injection E as <-.
    assert (Ws : well_sorted [(v, qterm t)]). { intros w x H. apply lookup_in in H as [H|[]]. injection H as <- <-. intros r. rewrite qterm_ok by exact T1. rewrite Sv. reflexivity. }
    set (sub := map (fun lt => (qcanon (subst [(v, qterm t)] (fst lt)), snd lt)) ls).
    assert (Sub : forall r lt, lsem r (qcanon (subst [(v, qterm t)] (fst lt)), snd lt) <-> lsem (set_val r v (VReal (qev r t))) lt).
    { intros r [x sg]. cbn [fst snd]. rewrite lsem_qcanon.
      assert (X : holds r (subst [(v, qterm t)] x) <-> holds (set_val r v (VReal (qev r t))) x).
      { rewrite holds_subst by exact Ws. apply holds_agree. intros w Hw. unfold upd, set_val. cbn [lookup]. destruct (var_eqb_spec w v) as [->|]; [apply qterm_ok, T1|reflexivity]. }
      destruct sg; rewrite ?lsem_pos, ?lsem_neg, X; tauto. }
    assert (Flt : forall r, Forall (lsem r) (filter (fun lt => negb (trivially_true lt)) (sub ++ rest)) <-> Forall (lsem r) (sub ++ rest)).
    { intros r. rewrite !Forall_forall. split; intros H lt Hlt; [|apply filter_In in Hlt as [Hlt _]; auto]. destruct (trivially_true lt) eqn:Et; [apply trivially_ok, Et|]. apply H, filter_In. rewrite Et. auto. }
    split; [|split].
    + intros u [lt [H1 H2]]. apply filter_In in H1 as [H1 _]. apply in_app_iff in H1 as [H1|H1]; [|apply R1; exists lt; auto]. apply in_map_iff in H1 as [lt0 [<- H1]]. cbn [fst] in H2. apply qcanon_ok in H2.
      apply in_vars_subst in H2 as [y [Hy H2]]. cbn [lookup] in H2. destruct (var_eqb_spec y v) as [->|N].
      * apply qterm_vars in H2. destruct (T2 u H2) as [X Y]. split; [apply W1, X|exact Y].
      * subst u. split; [|exact N]. apply W1, P1. exists lt0. auto.
    + apply Flt. apply Forall_app. split; [|exact R2]. apply Forall_map_iff. specialize (P2 W2). rewrite Forall_forall in *. intros lt H. apply Sub. specialize (P2 lt H).
      unfold lsem, holds, holdsb in *. rewrite (eval_ext _ m); [exact P2|]. intros w _. unfold set_val. destruct (var_eqb_spec w v) as [->|]; [|reflexivity]. rewrite <- T3, Sv, qval_coerce. reflexivity.
    + intros r H. apply (proj1 (Flt r)), Forall_app in H as [H1 H2]. exists (qev r t). apply Lift; [exact H2|]. apply P3. apply (proj1 (Forall_map_iff _ _ _)) in H1. rewrite Forall_forall in *. intros lt Hlt. apply Sub, H1, Hlt.
  - specialize (P2 W2). clear P4. destruct (mapM (to_rbound v) ls) as [bs|] eqn:Eb; [|discriminate].
    assert (B : forall b, In b bs -> qleafs (rb_val b) /\ (forall u, In u (qkeys (rb_val b)) -> lvin u lits /\ u <> v) /\ rsem m (qval m v) b).
    { intros b Hb. destruct (mapM_in _ _ _ _ Eb Hb) as [lt [H1 H2]]. apply to_rbound_ok in H2 as [C1 [C2 _]]. split; [intros u Hu; apply C1 in Hu as [_ [_ Hu]]; exact Hu|].
      split; [intros u Hu; apply C1 in Hu as [X [Y _]]; split; [apply W1, P1; exists lt; auto|exact X]|]. apply C2. rewrite Forall_forall in P2. apply P2, H1. }
    assert (Lift2 : forall r z, Forall (lsem r) rest -> Forall (rsem r z) bs -> Forall (lsem (set_val r v (VReal z))) lits).
    { intros r z Hr Hb. apply Lift; [exact Hr|]. apply P3. rewrite Forall_forall in *. intros lt Hlt. destruct (mapM_in' _ _ _ _ Eb Hlt) as [b [B1 B2]]. apply to_rbound_ok in B2 as [_ [_ C3]]. apply C3, Hb, B1. }
    assert (HL : forall b, In b (filter rb_low bs) <-> In b bs /\ rb_low b = true) by (intros b; apply filter_In).
    assert (HU : forall b, In b (filter (fun b => negb (rb_low b)) bs) <-> In b bs /\ rb_low b = false) by (intros b; rewrite filter_In, negb_true_iff; tauto).
    assert (Easy : (forall l u, In l bs -> In u bs -> rb_low l = true -> rb_low u = false -> False) ->
        (forall u, lvin u rest -> lvin u lits /\ u <> v) /\ Forall (lsem m) rest /\ (forall r, Forall (lsem r) rest -> exists z, Forall (lsem (set_val r v (VReal z))) lits)).
    { intros N. split; [exact R1|]. split; [exact R2|]. intros r Hr. destruct (solve r bs) as [x Hx]; [intros l u A1 A2 A3 A4; destruct (N l u A1 A2 A3 A4)|]. exists x. apply Lift2; auto. }
    destruct (filter rb_low bs) as [|l0 lr] eqn:El; [intros E; injection E as <-; apply Easy; intros l u A1 _ A3 _; apply (proj2 (HL l)); auto|].
    destruct (filter (fun b => negb (rb_low b)) bs) as [|u0 ur] eqn:Eu; [intros E; injection E as <-; apply Easy; intros l u _ A2 _ A4; apply (proj2 (HU u)); auto|].
    set (new := match ur with [] => _ | _ => _ end).
    assert (New : forall n, new = Some n -> (forall u, lvin u n -> lvin u lits /\ u <> v) /\ Forall (lsem m) n /\
      (forall r, Forall (lsem r) n -> forall l u, In l bs -> In u bs -> rb_low l = true -> rb_low u = false -> compat r l u)).
    { assert (Hl0 : In l0 bs /\ rb_low l0 = true) by (apply HL; left; reflexivity). assert (Hu0 : In u0 bs /\ rb_low u0 = false) by (apply HU; left; reflexivity).
      assert (Single : forall a l n, In a bs -> (forall b, In b l -> In b bs) -> (forall b, In b l -> rb_low b = negb (rb_low a)) -> (forall b, In b bs -> rb_low b = rb_low a -> b = a) -> (forall b, In b bs -> rb_low b = negb (rb_low a) -> In b l) ->
        subst_bounds a l = Some n -> (forall u, lvin u n -> lvin u lits /\ u <> v) /\ Forall (lsem m) n /\
        (forall r, Forall (lsem r) n -> forall l u, In l bs -> In u bs -> rb_low l = true -> rb_low u = false -> compat r l u)).
      { intros a l n Ha Hl Hsd Hone Hall E. split; [|split].
        - intros u [lt [H1 H2]]. destruct (subst_bounds_vars _ _ _ _ _ E H1 H2) as [b [[->|H3] H4]]; [apply (B a Ha), H4|apply (B b (Hl b H3)), H4].
        - apply (proj2 (subst_bounds_ok m a l n E)). intros b x Hb Hx. specialize (Hsd b Hb). specialize (Hl b Hb). destruct (B a Ha) as [A1 [_ A2]]. destruct (B b Hl) as [B1 [_ B2]]. destruct (rb_low a) eqn:La; cbn [negb] in Hsd.
          + apply (subst_bound_lu m a b); auto. apply (rsem_compat m (qval m v)); auto.
          + apply (subst_bound_lu m b a); auto. apply (rsem_compat m (qval m v)); auto.
        - intros r Hr p q Hp Hq Lp Lq. destruct (B p Hp) as [L1 _]. destruct (B q Hq) as [L2 _]. destruct (rb_low a) eqn:La; cbn [negb] in *.
          + assert (p = a) by (apply Hone; auto). subst p. pose proof (Hall q Hq Lq) as Hql. destruct (subst_bounds_each _ _ _ q E Hql) as [x Hx]. apply (subst_bound_lu r a q x); auto. apply (proj1 (subst_bounds_ok r a l n E) Hr q x Hql Hx).
          + assert (q = a) by (apply Hone; auto). subst q. pose proof (Hall p Hp Lp) as Hpl. destruct (subst_bounds_each _ _ _ p E Hpl) as [x Hx]. apply (subst_bound_lu r p a x); auto. apply (proj1 (subst_bounds_ok r a l n E) Hr p x Hpl Hx). }
      intros n. unfold new. destruct ur as [|u1 ur']; [|destruct lr as [|l1 lr']].
      - intros E. apply (Single u0 (l0 :: lr) n); auto; [apply Hu0|intros b Hb; apply (proj1 (HL b)), Hb|intros b Hb; apply HL in Hb as [_ ->]; destruct Hu0 as [_ ->]; reflexivity| |].
        + intros b Hb Lb. destruct Hu0 as [_ Lu]. rewrite Lu in Lb. destruct (proj2 (HU b) (conj Hb Lb)) as [->|[]]. reflexivity.
        + intros b Hb Lb. destruct Hu0 as [_ Lu]. rewrite Lu in Lb. apply HL. auto.
      - intros E. apply (Single l0 (u0 :: u1 :: ur') n); auto; [apply Hl0|intros b Hb; apply (proj1 (HU b)), Hb|intros b Hb; apply HU in Hb as [_ ->]; destruct Hl0 as [_ ->]; reflexivity| |].
        + intros b Hb Lb. destruct Hl0 as [_ Lu]. rewrite Lu in Lb. destruct (proj2 (HL b) (conj Hb Lb)) as [->|[]]. reflexivity.
        + intros b Hb Lb. destruct Hl0 as [_ Lu]. rewrite Lu in Lb. apply HU. auto.
      - intros E. set (c := highest same m (u0 :: u1 :: ur') l0 (l1 :: lr')) in *.
        destruct (highest_ok same m (qval m v) (u0 :: u1 :: ur')) with (l := l1 :: lr') (cur := l0) (done := [l0]) as [G1 G2].
        + intros a b X. apply Hsame in X. congruence.
        + intros b Hb. apply HU in Hb as [H1 H2]. split; [exact H2|]. apply (B b H1).
        + intros b Hb. apply (proj1 (HL b)) in Hb as [H1 H2]. split; [exact H2|]. apply (B b H1).
        + left. reflexivity.
        + intros b [<-|[]]. destruct (above_total m l0 l0); auto.
        + fold c in G1, G2. apply (proj1 (HL c)) in G1 as [G1 Lc]. assert (G2' : forall b, In b bs -> rb_low b = true -> above m c b) by (intros b H1 H2; apply G2; apply (proj2 (HL b)); auto).
          destruct (B c G1) as [Cl [Cv Cs]]. split; [|split].
          * intros u [lt [H1 H2]]. destruct (subst_bounds_vars _ _ _ _ _ E H1 H2) as [b [[->|H3] H4]]; [apply Cv, H4|apply (B b H3), H4].
          * apply (proj2 (subst_bounds_ok m c bs n E)). intros b x Hb Hx. destruct (B b Hb) as [B1 [_ B2]]. destruct (rb_low b) eqn:Lb.
            -- apply (subst_bound_ll m c b); auto.
            -- apply (subst_bound_lu m c b); auto. apply (rsem_compat m (qval m v)); auto.
          * intros r Hr p q Hp Hq Lp Lq. destruct (B p Hp) as [L1 _]. destruct (B q Hq) as [L2 _].
            destruct (subst_bounds_each _ _ _ p E Hp) as [x Hx]. destruct (subst_bounds_each _ _ _ q E Hq) as [y Hy].
            assert (X : above r c p) by (apply (subst_bound_ll r c p x); auto; apply (proj1 (subst_bounds_ok r c bs n E) Hr p x Hp Hx)).
            assert (Y : compat r c q) by (apply (subst_bound_lu r c q y); auto; apply (proj1 (subst_bounds_ok r c bs n E) Hr q y Hq Hy)).
            unfold above in X. unfold compat in *. destruct (rb_strict q), (rb_strict p), (rb_strict c); cbn [orb] in *; destruct X as [X|[X1 X2]]; try (exfalso; discriminate (X2 eq_refl)); try rewrite X1; try exact Y; qc. }
    destruct new as [n|]; [|discriminate]. intros E. injection E as <-. destruct (New n eq_refl) as [N1 [N2 N3]]. split; [|split].
    + intros u H. apply simplify_vars, lvin_app in H as [H|H]; auto.
    + apply simplify_lsem, Forall_app. auto.
    + intros r H. apply (proj1 (simplify_lsem r _)), Forall_app in H as [H1 H2]. destruct (solve r bs) as [x Hx]; [apply N3, H1|]. exists x. apply Lift2; auto.
Qed.

Lemma real_loop_ok m vs : forall lits lits', Forall (lsem m) lits -> real_loop shuffle same m vs lits = Some lits' ->
  (forall u, lvin u lits' -> lvin u lits /\ ~ In u vs) /\ Forall (lsem m) lits' /\
  (forall r, Forall (lsem r) lits' -> exists r', (forall u, ~ In u vs -> r u = r' u) /\ Forall (lsem r') lits).
Proof.
  induction vs as [|v vs IH]; intros lits lits' Ml E; cbn [real_loop] in E.
  - injection E as <-. split; [auto|]. split; [exact Ml|]. intros r H. exists r. auto.
  - destruct (sort_eqb_spec (vsort v) SReal) as [Sv|]; [|discriminate]. destruct (project_real shuffle same m v lits) as [l|] eqn:Ep; [|discriminate].
    destruct (project_real_ok m v lits l Sv Ml Ep) as [P1 [P2 P3]]. destruct (IH l lits' P2 E) as [Q1 [Q2 Q3]]. split; [|split; [exact Q2|]].
    + intros u H. apply Q1 in H as [H1 H2]. apply P1 in H1 as [H1 H3]. split; [exact H1|]. intros [->|X]; [congruence|contradiction].
    + intros r H. destruct (Q3 r H) as [r1 [A1 A2]]. destruct (P3 r1 A2) as [z Hz]. exists (set_val r1 v (VReal z)). split; [|exact Hz].
      intros u Hu. unfold set_val. destruct (var_eqb_spec u v) as [->|]; [exfalso; apply Hu; left; reflexivity|]. apply A1. intros X. apply Hu. right. exact X.
Qed.
End Real.
