(** * C22, C23, C24: normal forms, trivial quantifier elimination, junctions. *)
From Coq Require Import QArith Qcanon.
From Verif Require Import Syntax Solver KTo1Model DarModel FormulaModel FormulaProofs FormulaProofs2 FormulaProofs3 ExTac.
Open Scope Z_scope.

(** C22.  [toNNF]: whenever it returns, the result is equivalent and negations occur only on atoms
    ([is_nnf]).  The input is a formula ([is_bool]: well-sorted and of sort Bool). *)
Theorem C22_nnf :
  forall t t', is_bool t = true -> nnf t = Ok t' -> is_nnf t' = true /\ forall r, holds r t' <-> holds r t.
Proof. intros t t' Hb E. destruct (nnf_ok t Hb t' E) as [A [_ C]]. auto. Qed.
Print Assumptions C22_nnf.

(** It returns on every formula made of atoms, and, or, not and Boolean equality. *)
Theorem C22_nnf_total :
  forall t, supported t = true -> is_bool t = true -> exists t', nnf t = Ok t'.
Proof. exact nnf_total. Qed.
Print Assumptions C22_nnf_total.

(** C22.  [toDNF]: an equivalent disjunction of conjunctions of literals. *)
Theorem C22_dnf :
  forall t t', is_bool t = true -> to_dnf t = Ok t' -> is_dnf t' = true /\ forall r, holds r t' <-> holds r t.
Proof. exact dnf_ok. Qed.
Print Assumptions C22_dnf.
Theorem C22_dnf_total :
  forall t, supported t = true -> is_bool t = true -> exists t', to_dnf t = Ok t'.
Proof. exact dnf_total. Qed.
Print Assumptions C22_dnf_total.

(** C22.  Top-level juncts ([getTopLevelConjuncts] / [getTopLevelDisjuncts]): the loop terminates, the
    junction of the result is equivalent to the input, and no junct is itself such a junction. *)
Theorem C22_top_level_juncts :
  forall j t, exists out, top_juncts j t = Some out /\ (forall r, holds r (mkJunction j out) <-> holds r t) /\
    (forall l, In (mkJunction j l) out -> False).
Proof.
  intros j t. destruct (top_juncts_ok j t) as [out [E H]]. exists out. split; [exact E|]. split; [exact H|].
  intros l Hl. unfold top_juncts in E.
  pose proof (juncts_shape _ j [purify t] [] [] out (fun a (h : In a []) => match h with end) E _ Hl) as X. destruct j; discriminate.
Qed.
Print Assumptions C22_top_level_juncts.

(** C23.  Trivial quantifier elimination: for every partial assignment to the kept variables, the
    result can be completed to a solution iff the input can; no variables are introduced. *)
Theorem C23_trivial_qe :
  forall retrieve keep fractional fuel fla g, retrieve_ok retrieve ->
    try_eliminate retrieve keep fractional fuel fla = Some g ->
    (forall v, In v (vars g) -> In v (vars fla)) /\
    forall r, (exists r', (forall v, keep v = true -> r' v = r v) /\ holds r' fla) <->
              (exists r', (forall v, keep v = true -> r' v = r v) /\ holds r' g).
Proof. exact try_eliminate_ok. Qed.
Print Assumptions C23_trivial_qe.

(** If no eliminated variable is left, the result is the existential quantification itself. *)
Theorem C23_exact_when_complete :
  forall retrieve keep fractional fuel fla g, retrieve_ok retrieve ->
    try_eliminate retrieve keep fractional fuel fla = Some g ->
    (forall v, In v (vars g) -> keep v = true) ->
    forall r, holds r g <-> exists r', (forall v, keep v = true -> r' v = r v) /\ holds r' fla.
Proof.
  intros retrieve keep fr fuel fla g Hret E Hv r.
  destruct (try_eliminate_ok retrieve keep fr fuel fla g Hret E) as [_ H]. rewrite (H r). split.
  - intros Hr. exists r. auto.
  - intros [r' [Ha Hr]]. revert Hr. apply holds_agree. intros v Hin. symmetry. apply Ha, Hv, Hin.
Qed.
Print Assumptions C23_exact_when_complete.

(** The extraction loop terminates: its rounds are bounded by the number of variables. *)
Theorem C23_terminates :
  forall retrieve keep fractional fla, retrieve_ok retrieve ->
    exists g, try_eliminate retrieve keep fractional (S (length (vars fla))) fla = Some g.
Proof.
  intros retrieve keep fr fla Hret.
  destruct (extract_loop_total retrieve Hret (S (length (vars fla))) fla []) as [[sub simp] E].
  { unfold nvars. apply Nat.lt_succ_r. apply NoDup_incl_length; [apply NoDup_nodup|]. intros v Hv. apply nodup_In in Hv. exact Hv. }
  unfold try_eliminate. rewrite E. destruct (process_keys keep fr (close sub) [] []). eauto.
Qed.
Print Assumptions C23_terminates.

(** C24.  Simplifying a conjunction (disjunction) of bounds does not change its meaning, and does not
    make it longer. *)
Theorem C24_simplify :
  forall j t r, holds r (simplify_junction j t) <-> holds r t.
Proof. exact simplify_junction_ok. Qed.
Print Assumptions C24_simplify.
Theorem C24_simplify_no_longer :
  forall j ls, (length (simplify_literals j ls) <= length ls)%nat.
Proof. exact simplify_literals_len. Qed.
Print Assumptions C24_simplify_no_longer.

Module ExFormula.
Definition x := mkVar "x" TBase SInt.
Definition y := mkVar "y" TBase SInt.
Definition z := mkVar "z" TBase SInt.
Definition p := mkVar "p" TBase SBool.
Definition f1 := mkNot (mkOr [mkEq (Var p) (mkLeq (mkInt 0) (Var x)); mkNot (mkLeq (mkInt 1) (Var x))]).
Example C22_nonvacuous :
  is_bool f1 = true /\ supported f1 = true /\
  (exists t, nnf f1 = Ok t /\ t <> f1) /\ (exists t, to_dnf f1 = Ok t /\ t <> f1).
Proof. vm_compute. repeat split; eexists; (split; [reflexivity|discriminate]). Qed.
(** The unsupported case is an exception, not a wrong result. *)
Example C22_ite_throws : nnf (mkIte (Var p) (Var p) (Var p)) = Throw.
Proof. reflexivity. Qed.

Definition fla := mkAnd [mkEq (Var x) (mkPlus [Var y; mkInt 1]); mkEq (Var z) (Var y); mkLeq (mkInt 0) (Var y)].
Definition ns : submap := [(x, mkPlus [Var y; mkInt 1]); (z, Var y)].
Definition ret : retrieve_fn := fun t => if term_eqb t fla then (None, ns) else (None, []).
Lemma ret_ok : retrieve_ok ret.
Proof.
  intros t. unfold ret. destruct (term_eqb_spec t fla) as [->|N]; cbn [fst snd].
  - constructor; try discriminate.
    + apply well_sorted_intro. intros k u [E|[E|[]]] r; inversion E; subst; cbn.
      * destruct (coerce_SInt (r y)) as [a ->]. reflexivity.
      * apply coerce_sort.
    + repeat constructor; simpl; intuition discriminate.
    + intros k [<-|[<-|[]]]; vm_compute; auto.
    + intros k u v [E|[E|[]]] Hv; inversion E; subst; destruct Hv as [<-|[]]; vm_compute; split; intuition discriminate.
    + intros r k u Hr Hin. unfold fla in Hr. apply holds_and3 in Hr as [H1 [H2 _]]. apply holds_eq in H1, H2.
      destruct Hin as [E|[E|[]]]; inversion E; subst; assumption.
  - constructor; simpl; try tauto; try discriminate; try (constructor; fail).
Qed.
Definition keep v := var_eqb v x.
Example C23_nonvacuous :
  exists g, try_eliminate ret keep (fun _ => false) 4 fla = Some g /\
    (forall v, In v (vars g) -> v = x) /\ holds (fun _ => VInt 5) g /\ ~ holds (fun _ => VInt 0) g.
Proof.
  eexists. split; [vm_compute; reflexivity|]. split; [|split; [vm_compute; reflexivity|vm_compute; discriminate]].
  intros v Hv. cbn in Hv. repeat (destruct Hv as [<-|Hv]; [reflexivity|]). destruct Hv.
Qed.

Definition jt := mkAnd [mkLeq (mkInt 3) (Var x); mkLeq (mkInt 5) (Var x); mkNot (mkLeq (mkInt 9) (Var x)); Var p; mkNot (mkLeq (mkInt 8) (Var x))].
Example C24_nonvacuous :
  simplify_junction Conj jt = mkAnd [Var p; mkLeq (mkInt 5) (Var x); mkNot (mkLeq (mkInt 8) (Var x))].
Proof. vm_compute. reflexivity. Qed.
End ExFormula.
