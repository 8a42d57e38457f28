(** * C70: preprocessing for termination analysis keeps exactly the infinite runs. *)
From Verif Require Import Syntax Solver TransSys Graph GraphOps GraphOpsProofs ValidatorModel FormulaModel GraphSem SimpleTransModel ListLemmas MergeModel MergeProofs ChainProofs ElimModel InlineModel InlineProofs InlineStep BoolOracle PipelineModel PipelineProofs ChcSystem KTo1Model Names LinearModel LinearProofs NormModel NormProofs NormRun PropNorm PropInline PropPipeline TermRuns TermChain TermElim TermInline TermStages.
Open Scope list_scope.
Open Scope nat_scope.

(** ** Specification *)
(** One step of a system of clauses with at most one body predicate each: an instance of a clause whose constraint holds leads from
    the instance of the body predicate (or from the artificial start, for a clause without one) to the instance of the head. *)
Definition cstep (cs : list clause) (a b : fact) : Prop := exists c, In c cs /\ clause_infers c [a] b.
(** The system can run forever: there is an infinite sequence of steps from the start. *)
Definition clauses_run_forever (cs : list clause) : Prop := endless (cstep cs) (entry, []).
(** Clauses of a transition system: one body predicate or none, and no clause derives [false]. *)
Definition linear_clauses (cs : list clause) : Prop := forall c, In c cs -> length (cbody c) <= 1 /\ asym (chead c) <> exit.

(** [endless] is what it should be: an infinite sequence. *)
Theorem C70_endless_is_infinite : forall (A : Type) (R : A -> A -> Prop) (f : nat -> A), (forall n, R (f n) (f (S n))) -> endless R (f 0).
Proof. intros A R f H. apply (endless_coind R (fun a => exists n, a = f n)); [|eauto]. intros a [n ->]. exists (f (S n)). eauto. Qed.
Theorem C70_endless_has_prefixes : forall (A : Type) (R : A -> A -> Prop) a, endless R a ->
  forall n, exists l, length l = S n /\ hd_error l = Some a /\ forall i x y, nth_error l i = Some x -> nth_error l (S i) = Some y -> R x y.
Proof.
  intros A R a E n. revert a E. induction n as [|n IH]; intros a E.
  - exists [a]. split; [reflexivity|]. split; [reflexivity|]. intros [|[|i]] x y H1 H2; discriminate.
  - destruct (endless_inv R a E) as [b [S1 E1]]. destruct (IH b E1) as [l [L1 [L2 L3]]]. exists (a :: l). split; [cbn; congruence|]. split; [reflexivity|].
    intros [|i] x y H1 H2; [|apply (L3 i); assumption]. cbn in H1, H2. injection H1 as <-. destruct l; [discriminate|]. cbn in H2, L2. congruence.
Qed.

Section Clauses.
Variable sig : sym -> list sort.
Variable cs : list clause.
Hypothesis Sentry : sig entry = [].
Hypothesis Sexit : sig exit = [].
Hypothesis C : forall c, In c cs -> clause_ok sig c.
Hypothesis L : linear_clauses cs.
Let g := build_graph cs.
Lemma built_linear : linear g.
Proof.
  split; intros e He; destruct (bg_edge sig cs Sentry Sexit C e He) as [c [q [lo [hi [Hc [_ E]]]]]]; destruct (L c Hc) as [L1 L2].
  - rewrite (eo_from _ _ _ _ _ _ E). unfold from_of. destruct (cbody c) as [|a [|b l]]; cbn in *; eauto. lia.
  - rewrite (eo_to _ _ _ _ _ _ E). exact L2.
Qed.
Lemma built_steps a b : gstep g a b <-> cstep cs a b.
Proof.
  split.
  - intros [e [He F]]. destruct (bg_edge sig cs Sentry Sexit C e He) as [c [q [lo [hi [Hc [_ E]]]]]]. exists c. split; [exact Hc|].
    apply (edge_infers sig cs Sentry Sexit C c e q lo hi E), F.
  - intros [c [Hc F]]. apply In_nth_error in Hc as [k Hk]. destruct (proj2 (C29_clauses sig cs Sentry Sexit C) k c Hk) as [e [q [H1 [_ [_ [H2 _]]]]]].
    exists e. split; [apply nth_error_In in H1; exact H1|]. apply H2, F.
Qed.
Lemma built_runs : runs_forever g <-> clauses_run_forever cs.
Proof. split; apply endless_mono; intros a b H; apply built_steps, H. Qed.
End Clauses.

(** C70.  Let a system of clauses be given as the termination front end builds them (at most one body predicate, none derives [false],
    well-typed, no reserved names).  If the normalization and the nine transformations of the front end end, for any oracles
    meeting their specification, then the resulting graph can run forever from its entry iff the clauses can. *)
Theorem C70_termination_preprocessing :
  forall (o : tools) sig cs g', tools_ok o -> sig entry = [] -> sig exit = [] -> (forall c, In c cs -> clause_ok sig c) -> linear_clauses cs ->
    fresh_rewriting (t_rewrite o) (build_graph cs) -> term_run o term_stages (build_graph cs) = Some g' ->
    (clauses_run_forever cs <-> runs_forever g') /\ wf_graph g' /\ linear g'.
Proof.
  intros o sig cs g' O Se Sx C L FR E. destruct (C29_normalization sig cs Se Sx C) as [W [A _]].
  pose proof (term_pipeline_ok o O _ g' W (C35_versioned _ A) (built_linear sig cs Se Sx C L) FR E) as [K1 K2 K3 K4]. split; [|auto].
  rewrite <- K4. symmetry. exact (built_runs sig cs Se Sx C).
Qed.
Print Assumptions C70_termination_preprocessing.
(** The same for graphs, stage by stage. *)
Theorem C70_stages :
  forall (o : tools) s g t, tools_ok o -> wf_graph g -> unbased g -> linear g -> (s = Common Simplify -> fresh_rewriting (t_rewrite o) g) ->
    s <> Common Unreachable -> term_transform o s g = Some t -> (runs_forever g <-> runs_forever (tr_graph t)) /\ wf_graph (tr_graph t) /\ linear (tr_graph t).
Proof. intros o s g t O W U L F N E. destruct (term_stage_ok o O s g t W U L F N E). auto. Qed.
Print Assumptions C70_stages.

(** ** Example *)
Module ExTermFront.
Definition x := mkVar "x" TBase SInt. Definition y := mkVar "y" TBase SInt.
Definition sig (p : sym) : list sort := if Nat.ltb 1 p && Nat.ltb p 7 then [SInt] else [].
Definition at_ (p : sym) (v : var) := mkAtom p [Var v].
(** [lock = false]: E(x); E(x) -> P(x); P(x), x > 0 -> Q(y), y = x + 1; Q(x) -> P(x); and a part that is not reached, R(x) -> S(x), S(x) -> R(x).
    Otherwise the step from Q does not exist and the system stops. *)
Definition sys (lock : bool) : list clause :=
  [mkClause (at_ 2 x) tt_true []; mkClause (at_ 3 x) tt_true [at_ 2 x];
   mkClause (at_ 4 y) (mkAnd [mkLt (mkInt 0) (Var x); mkEq (Var y) (mkPlus [Var x; mkInt 1])]) [at_ 3 x]] ++
  (if lock then [] else [mkClause (at_ 3 x) tt_true [at_ 4 x]]) ++
  [mkClause (at_ 6 x) tt_true [at_ 5 x]; mkClause (at_ 5 x) tt_true [at_ 6 x]].
Lemma names v : In v [x; y] -> ~ reserved v.
Proof. intros [<-|[<-|[]]] [n [s [E|[i E]]]]; discriminate E. Qed.
Lemma sys_ok lock c : In c (sys lock) -> clause_ok sig c.
Proof.
  intros H. assert (V : forall v, In v (clause_vars c) -> In v [x; y]).
  { destruct lock; cbn in H; repeat (destruct H as [<-|H]; [cbn; intros v Hv; tauto|]); destruct H. }
  destruct lock; cbn in H; repeat (destruct H as [<-|H]; [constructor; [| | |intros v Hv; apply names, V, Hv]; try discriminate;
    intros a Ha; cbn in Ha; repeat (destruct Ha as [<-|Ha]; [try reflexivity; split; discriminate|]); destruct Ha|]); destruct H.
Qed.
Lemma sys_linear lock : linear_clauses (sys lock).
Proof. intros c H. destruct lock; cbn in H; repeat (destruct H as [<-|H]; [cbn; split; [lia|discriminate]|]); destruct H. Qed.
Definition result (lock : bool) : option hgraph := term_run ExPipeline.tools0 term_stages (build_graph (sys lock)).
Example shape : option_map (fun g => map (fun e => (efrom e, eto e)) (gedges g)) (result false) = Some [([entry], 3); ([3], 3)].
Proof. vm_compute. reflexivity. Qed.
Example shape_lock : option_map (fun g => map (fun e => (efrom e, eto e)) (gedges g)) (result true) = Some [].
Proof. vm_compute. reflexivity. Qed.
Lemma fresh lock : fresh_rewriting (t_rewrite ExPipeline.tools0) (build_graph (sys lock)).
Proof. destruct (C29_normalization sig (sys lock) eq_refl eq_refl (sys_ok lock)) as [_ [A _]]. apply ExPipeline.id_fresh, C35_versioned, A. Qed.
Lemma kept lock g' : result lock = Some g' -> (clauses_run_forever (sys lock) <-> runs_forever g') /\ wf_graph g' /\ linear g'.
Proof. intros E. exact (C70_termination_preprocessing _ sig (sys lock) g' ExPipeline.tools0_ok eq_refl eq_refl (sys_ok lock) (sys_linear lock) (fresh lock) E). Qed.
(** The hypotheses are met by a system that runs forever and by one that does not; the answer is read off the small graph for the latter. *)
Definition val (i j : Z) : valuation := fun v => if var_eqb v x then VInt i else VInt j.
Example forever : clauses_run_forever (sys false) /\ exists g', result false = Some g' /\ runs_forever g'.
Proof.
  assert (H : clauses_run_forever (sys false)).
  { apply (endless_coind (cstep (sys false)) (fun a => a = (entry, []) \/ exists i, (0 < i)%Z /\ (a = (2, [VInt i]) \/ a = (3, [VInt i]) \/ a = (4, [VInt i])))); [|auto].
    intros a [->|[i [Hi [->|[->| ->]]]]].
    - exists (2, [VInt 1]). split; [|right; exists 1%Z; split; [lia|auto]]. exists (mkClause (at_ 2 x) tt_true []). split; [left; reflexivity|]. exists (val 1 1). repeat split.
    - exists (3, [VInt i]). split; [|right; exists i; auto]. exists (mkClause (at_ 3 x) tt_true [at_ 2 x]). split; [right; left; reflexivity|]. exists (val i 1). repeat split.
    - exists (4, [VInt (i + 1)]). split; [|right; exists (i + 1)%Z; split; [lia|auto]]. exists (nth 2 (sys false) (mkClause (at_ 2 x) tt_true [])). split; [right; right; left; reflexivity|].
      exists (val i (i + 1)). split; [|split; reflexivity]. unfold holds. cbn. change (negb (Z.leb i 0) && (value_eqb (VInt (i + 1)) (VInt (i + 1)) && true) = true). rewrite (proj2 (Z.leb_gt i 0) Hi), value_eqb_refl. reflexivity.
    - exists (3, [VInt i]). split; [|right; exists i; auto]. exists (mkClause (at_ 3 x) tt_true [at_ 4 x]). split; [right; right; right; left; reflexivity|]. exists (val i 1). repeat split. }
  split; [exact H|]. destruct (result false) as [g'|] eqn:E; [|exfalso; revert E; vm_compute; discriminate]. exists g'. split; [reflexivity|]. apply (kept false g' E), H.
Qed.
Example stops : ~ clauses_run_forever (sys true).
Proof.
  destruct (result true) as [g'|] eqn:E; [|exfalso; revert E; vm_compute; discriminate]. destruct (kept true g' E) as [K _]. rewrite K. clear K.
  pose proof shape_lock as S. rewrite E in S. cbn [option_map] in S. injection S as S. intros H.
  destruct (endless_inv _ _ H) as [b [[e [He _]] _]]. apply (in_map (fun e => (efrom e, eto e))) in He. rewrite S in He. destruct He.
Qed.
End ExTermFront.
