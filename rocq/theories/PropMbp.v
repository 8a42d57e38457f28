(** * C25, C26: model-based projection and quantifier elimination. *)
From Coq Require Import QArith Qcanon ZArith Lia.
From Verif Require Import Syntax Solver KTo1Model DarModel FormulaModel NontermProofs Lin MbpModel MbpProofs QeProofs ExTac BoolOracle.
Open Scope Z_scope.
Open Scope list_scope.

(** The order in which [std::partition] leaves literals is not known: any reordering (even with repetitions) is allowed. *)
Definition reorders (shuffle : list literal -> list literal) : Prop := forall l x, In x (shuffle l) <-> In x l.

(** C25.  [ModelBasedProjection::keepOnly], for Boolean variables with all integer ([lia = true]) or all real variables:
    whenever it returns for a model [m] of [fla], the result mentions only kept variables, holds in [m], and every
    valuation satisfying it can be changed on variables that are not kept so that it satisfies [fla].
    The integer case needs that the input does not use the reserved name [MBP_LIA_tmp]. *)
Theorem C25_keep_only :
  forall lia shuffle same, reorders shuffle -> (forall a b, same a b = true -> a = b) ->
  forall fla keep m g, (lia = true -> ~ In tmp_var (vars fla)) -> holds m fla ->
  keep_only lia shuffle same fla keep m = Some g ->
  (forall v, In v (vars g) -> In v keep) /\ holds m g /\
  (forall r, holds r g -> exists r', (forall v, In v keep -> r v = r' v) /\ holds r' fla).
Proof. intros lia shuffle same Hs Hm fla keep m g T M E. destruct (keep_only_ok lia shuffle same Hs Hm fla keep m g E M T) as [A B C]. auto. Qed.
Print Assumptions C25_keep_only.

(** C25 for [project]: the variables to eliminate are given. *)
Theorem C25_project :
  forall lia shuffle same, reorders shuffle -> (forall a b, same a b = true -> a = b) ->
  forall fla elim m g, (lia = true -> ~ In tmp_var elim /\ ~ In tmp_var (vars fla)) -> holds m fla ->
  project lia shuffle same fla elim m = Some g ->
  (forall v, In v (vars g) -> In v (vars fla) /\ ~ In v elim) /\ holds m g /\
  (forall r, holds r g -> exists r', (forall v, ~ In v elim -> r v = r' v) /\ holds r' fla).
Proof. intros lia shuffle same Hs Hm fla elim m g T M E. exact (project_ok lia shuffle same Hs Hm fla elim m g E M T). Qed.
Print Assumptions C25_project.

(** C26.  [QuantifierElimination::eliminate]: if it returns, the result is equivalent to the existential quantification
    over the eliminated variables, and does not mention them. *)
Theorem C26_eliminate :
  forall check simp lia shuffle same, check_ok check -> simp_ok simp -> reorders shuffle -> (forall a b, same a b = true -> a = b) ->
  forall fuel fla elim g, (lia = true -> ~ In tmp_var elim /\ ~ In tmp_var (vars fla)) ->
  qe_eliminate check simp lia shuffle same fuel fla elim = QeDone g ->
  (forall v, In v (vars g) -> In v (vars fla) /\ ~ In v elim) /\
  (forall r, holds r g <-> exists r', (forall v, ~ In v elim -> r v = r' v) /\ holds r' fla).
Proof.
  intros check simp lia shuffle same Hc Hp Hs Hm fuel fla elim g T E. destruct (qe_eliminate_ok check Hc simp Hp lia shuffle same Hs Hm fuel fla elim g T E) as [A B]. auto.
Qed.
Print Assumptions C26_eliminate.
Theorem C26_keep_only :
  forall check simp lia shuffle same, check_ok check -> simp_ok simp -> reorders shuffle -> (forall a b, same a b = true -> a = b) ->
  forall fuel fla keep g, (lia = true -> ~ In tmp_var (vars fla)) ->
  qe_keep_only check simp lia shuffle same fuel fla keep = QeDone g -> is_projection fla keep g.
Proof. intros check simp lia shuffle same Hc Hp Hs Hm. exact (qe_keep_ok check Hc simp Hp lia shuffle same Hs Hm). Qed.
Print Assumptions C26_keep_only.

(** The loop ends: for every formula there is a number of iterations, independent of the models that the solver finds,
    after which it has returned or thrown. *)
Theorem C26_terminates :
  forall check simp lia shuffle same, check_ok check -> reorders shuffle -> (forall a b, same a b = true -> a = b) ->
  forall fla elim, (lia = true -> ~ In tmp_var elim /\ ~ In tmp_var (vars fla)) ->
  exists N, forall fuel, (N <= fuel)%nat -> qe_eliminate check simp lia shuffle same fuel fla elim <> QeFuel.
Proof. intros check simp lia shuffle same Hc Hs Hm fla elim T. exact (qe_ends check Hc simp lia shuffle same Hs Hm fla elim T). Qed.
Print Assumptions C26_terminates.
(** ... and the set of projections of one formula is finite. *)
Theorem C25_finite :
  forall lia shuffle same fla elim, exists l, forall m, In (project lia shuffle same fla elim m) l.
Proof. intros. apply fin_project. Qed.
Print Assumptions C25_finite.

(** ** Examples *)
Module Ex.
Definition vx := mkVar "x" TBase SInt. Definition vy := mkVar "y" TBase SInt. Definition vz := mkVar "z" TBase SInt.
Definition vb := mkVar "b" TBase SBool. Definition vc := mkVar "c" TBase SBool.
Definition ti (n : Z) (v : var) : term := mkTimes [mkInt n; Var v].
(** y <= 2x, 3x <= z, x divisible by 4, b \/ x <> 0 *)
Definition f1 : term := mkAnd [mkLeq (Var vy) (ti 2 vx); mkLeq (ti 3 vx) (Var vz); mkEq (App FMod [Var vx; mkInt 4]) (mkInt 0); mkOr [Var vb; mkNot (mkEq (Var vx) (mkInt 0))]].
Definition m1 : valuation := fun v => if var_eqb v vx then VInt 4 else if var_eqb v vy then VInt 7 else if var_eqb v vz then VInt 13 else VBool false.
Definition no_same : ql -> ql -> bool := fun _ _ => false.
Lemma no_same_ok : forall a b, no_same a b = true -> a = b. Proof. discriminate. Qed.
Lemma id_reorders : reorders (fun l => l). Proof. intros l x. tauto. Qed.
Definition g1 : term := match keep_only true (fun l => l) no_same f1 [vy; vz] m1 with Some g => g | None => tt_true end.
Lemma run1 : keep_only true (fun l => l) no_same f1 [vy; vz] m1 = Some g1. Proof. vm_compute. reflexivity. Qed.
Lemma example1 : holds m1 f1 /\ (forall v, In v (vars g1) -> In v [vy; vz]) /\ holds m1 g1 /\ ~ holds (fun _ => VInt 1) g1.
Proof.
  split; [vm_compute; reflexivity|]. destruct (C25_keep_only true (fun l => l) no_same id_reorders no_same_ok f1 [vy; vz] m1 g1) as [A [B _]].
  - intros _ H. vm_compute in H. repeat (destruct H as [H|H]; [discriminate|]). destruct H.
  - vm_compute. reflexivity.
  - exact run1.
  - split; [exact A|]. split; [exact B|]. vm_compute. discriminate.
Qed.
(** Real variables: a < u, a <= v, w < a, eliminate a. *)
Definition ra := mkVar "a" TBase SReal. Definition ru := mkVar "u" TBase SReal. Definition rv := mkVar "v" TBase SReal. Definition rw := mkVar "w" TBase SReal.
Definition f2 : term := mkAnd [mkNot (mkLeq (Var ru) (Var ra)); mkLeq (Var ra) (Var rv); mkNot (mkLeq (Var ra) (Var rw)); mkLeq (mkTimes [Const (VReal (Q2Qc (1#2))); Var rw]) (Var ra)].
Definition m2 : valuation := fun v => if var_eqb v ra then VReal (Q2Qc 1) else if var_eqb v rw then VReal 0%Qc else VReal (Q2Qc 3).
Definition g2 : term := match keep_only false (fun l => l) no_same f2 [ru; rv; rw] m2 with Some g => g | None => tt_true end.
Lemma run2 : keep_only false (fun l => l) no_same f2 [ru; rv; rw] m2 = Some g2. Proof. vm_compute. reflexivity. Qed.
Lemma example2 : holds m2 f2 /\ holds m2 g2 /\ ~ holds (fun _ => VReal 0%Qc) g2.
Proof.
  split; [vm_compute; reflexivity|]. destruct (C25_keep_only false (fun l => l) no_same id_reorders no_same_ok f2 [ru; rv; rw] m2 g2) as [A [B _]].
  - discriminate.
  - vm_compute. reflexivity.
  - exact run2.
  - split; [exact B|]. vm_compute. discriminate.
Qed.

(** Elimination of x from (b /\ y <= x /\ x <= z) \/ (not b /\ x = 0 /\ y = 5): two rounds. *)
Definition f3 : term := mkOr [mkAnd [Var vb; mkLeq (Var vy) (Var vx); mkLeq (Var vx) (Var vz)]; mkAnd [mkNot (Var vb); mkEq (Var vx) (mkInt 0); mkEq (Var vy) (mkInt 5)]].
Definition mA : valuation := fun v => if var_eqb v vb then VBool true else VInt 0.
Definition mB : valuation := fun v => if var_eqb v vb then VBool false else if var_eqb v vy then VInt 5 else VInt 0.
Definition p1 : term := match project true (fun l => l) no_same f3 [vx] mA with Some g => g | None => tt_true end.
Definition p2 : term := match project true (fun l => l) no_same f3 [vx] mB with Some g => g | None => tt_true end.
Definition tbl : list (list term * answer) := [([f3], SAT mA); ([f3; mkNot p1], SAT mB); ([f3; mkNot p1; mkNot p2], UNSAT)].
Lemma tbl_ok : check_ok (table_check tbl).
Proof.
  unfold tbl. apply table_check_ok. apply Forall_cons; [prove_sat|]. apply Forall_cons; [prove_sat|]. apply Forall_cons; [|apply Forall_nil].
  match goal with |- good_answer (?l, UNSAT) => let l' := eval vm_compute in l in change (unsat l') end.
  intros r H. split_forall. unfold holds, holdsb in *. cbn in *. unfold smt_mod in *.
  repeat (ev_step; cbn in *; try discriminate). all: cbn in *; try discriminate.
  all: repeat match goal with H : context [Z.eqb ?a ?b] |- _ => destruct (Z.eqb_spec a b); cbn in *; try discriminate | H : context [Z.leb ?a ?b] |- _ => destruct (Z.leb_spec a b); cbn in *; try discriminate end.
  all: try lia.
  all: destruct z, z0; lia.
Qed.
Definition g3 : term := match qe_eliminate (table_check tbl) (fun t => t) true (fun l => l) no_same 5 f3 [vx] with QeDone g => g | _ => tt_true end.
Lemma run3 : qe_eliminate (table_check tbl) (fun t => t) true (fun l => l) no_same 5 f3 [vx] = QeDone g3. Proof. vm_compute. reflexivity. Qed.
Lemma example3 : (forall v, In v (vars g3) -> In v (vars f3) /\ ~ In v [vx]) /\ holds mA g3 /\ holds mB g3 /\ ~ holds (fun v => if var_eqb v vb then VBool true else if var_eqb v vy then VInt 2 else VInt 1) g3.
Proof.
  destruct (C26_eliminate (table_check tbl) (fun t => t) true (fun l => l) no_same tbl_ok (fun t => conj (fun r => iff_refl _) (fun v H => H)) id_reorders no_same_ok 5%nat f3 [vx] g3) as [A B].
  - intros _. split; intros H; vm_compute in H; repeat (destruct H as [H|H]; [discriminate|]); destruct H.
  - exact run3.
  - split; [exact A|]. split; [vm_compute; reflexivity|]. split; vm_compute; [reflexivity|discriminate].
Qed.

(** Without the condition on the reserved variable the claim is false: v even, v <= T <= v, projected on T =
    [MBP_LIA_tmp], becomes true. *)
Definition f4 : term := mkAnd [mkEq (App FMod [Var vx; mkInt 2]) (mkInt 0); mkLeq (Var vx) (Var tmp_var); mkLeq (Var tmp_var) (Var vx)].
Definition m4 : valuation := fun _ => VInt 0.
End Ex.
Theorem C25_tmp_refuted :
  exists fla keep m g, holds m fla /\ keep_only true (fun l => l) Ex.no_same fla keep m = Some g /\
    exists r, holds r g /\ forall r', (forall v, In v keep -> r v = r' v) -> ~ holds r' fla.
Proof.
  exists Ex.f4, [tmp_var], Ex.m4, (match keep_only true (fun l => l) Ex.no_same Ex.f4 [tmp_var] Ex.m4 with Some g => g | None => tt_false end).
  split; [vm_compute; reflexivity|]. split; [vm_compute; reflexivity|]. exists (fun _ => VInt 1). split; [vm_compute; reflexivity|].
  intros r' A H. specialize (A tmp_var (or_introl eq_refl)). unfold Ex.f4 in H. rewrite holds_and in H. apply Forall_cons_iff in H as [H1 H]. apply Forall_cons_iff in H as [H2 H]. apply Forall_cons_iff in H as [H3 _].
  apply holds_eq in H1. unfold holds, holdsb in *. cbn in H1, H2, H3. rewrite <- A in *. destruct (coerce_SInt (r' Ex.vx)) as [z Ez]. rewrite Ez in *. cbn in *. unfold smt_mod in H1.
  injection H1 as H1. change (coerce SInt (VInt 1)) with (VInt 1) in *. cbn in H2, H3. change (z mod 2 = 0) in H1. apply Z.leb_le in H2, H3. assert (z = 1) by lia. subst z. discriminate.
Qed.
Print Assumptions C25_tmp_refuted.
