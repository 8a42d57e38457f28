(** * Infinite runs of a graph, and the transformations of the termination front end.

    The preprocessing of src/termination/Frontend.cc:468-478 must keep the infinite runs, not only the derivability of [false]. *)
From Verif Require Import Syntax Solver TransSys Graph GraphOps GraphOpsProofs ValidatorModel FormulaModel GraphSem SimpleTransModel UnreachProofs UnreachProofs2 SimpleTransProofs SimpleTransProofs2 SimplifierProofs ListLemmas MergeModel MergeProofs ChainProofs ChainStep ChainBack ElimModel PairProofs PairLabel ElimProofs ElimLoop InlineModel InlineProofs InlineStep PipelineModel PipelineProofs.
From Coq Require Import Relation_Operators.
Open Scope list_scope.
Open Scope nat_scope.

(** ** Specification *)
(** An infinite run of a relation. *)
CoInductive endless {A : Type} (R : A -> A -> Prop) (a : A) : Prop :=
| endless_step (b : A) : R a b -> endless R b -> endless R a.
(** One step of a graph whose edges have one source each: an inference. *)
Definition gstep (g : hgraph) (a b : fact) : Prop := exists e, In e (gedges g) /\ follows g e [a] b.
(** An infinite run from the entry. *)
Definition runs_forever (g : hgraph) : Prop := endless (gstep g) (entry, []).

(** ** Infinite runs in general *)
Lemma endless_inv {A} (R : A -> A -> Prop) a : endless R a -> exists b, R a b /\ endless R b.
Proof. intros [b H E]. eauto. Qed.
Lemma endless_coind {A} (R : A -> A -> Prop) (X : A -> Prop) : (forall a, X a -> exists b, R a b /\ X b) -> forall a, X a -> endless R a.
Proof. intros H. cofix C. intros a Ha. destruct (H a Ha) as [b [Rb Xb]]. exact (endless_step R a b Rb (C b Xb)). Qed.
Lemma endless_path {A} (R R' : A -> A -> Prop) : (forall a b, R' a b -> clos_trans_1n A R a b) -> forall a, endless R' a -> endless R a.
Proof.
  intros H a E. apply (endless_coind R (fun m => exists c, (m = c \/ clos_trans_1n A R m c) /\ endless R' c)); [|eauto].
  intros m [c [[->|P] Ec]].
  - destruct (endless_inv _ _ Ec) as [d [P Ed]]. apply H in P. inversion P as [y S1|y z S1 S2]; subst.
    + exists d. split; [exact S1|]. exists d. auto.
    + exists y. split; [exact S1|]. exists d. auto.
  - inversion P as [y S1|y z S1 S2]; subst.
    + exists c. split; [exact S1|]. exists c. auto.
    + exists y. split; [exact S1|]. exists c. auto.
Qed.
Lemma endless_mono {A} (R R' : A -> A -> Prop) : (forall a b, R' a b -> R a b) -> forall a, endless R' a -> endless R a.
Proof. intros H. apply endless_path. intros a b S. apply t1n_step, H, S. Qed.
Lemma clos_1n_app {A} (R : A -> A -> Prop) a b c : clos_trans_1n A R a b -> clos_trans_1n A R b c -> clos_trans_1n A R a c.
Proof. induction 1 as [x y H|x y z H _ IH]; intros P; [eapply t1n_trans; eassumption|]. eapply t1n_trans; [exact H|auto]. Qed.

(** ** Linear graphs *)
(** All edges have one source, none derives [false] (src/termination/Frontend.cc:273-326 builds such clauses). *)
Record linear (g : hgraph) : Prop := {
  ln_single : forall e, In e (gedges g) -> exists p, efrom e = [p];
  ln_noexit : forall e, In e (gedges g) -> eto e <> exit
}.
Lemma linear_sub g g' : linear g -> (forall e, In e (gedges g') -> In e (gedges g)) -> linear g'.
Proof. intros [A B] S. split; auto. Qed.
Lemma gstep_dfact g a b : gstep g a b -> dfact g a -> dfact g b.
Proof. intros [e [He F]] D. apply (dfact_follows g e [a] b He F). auto. Qed.
Lemma gstep_pv g h a b e : gpv h = gpv g -> In e (gedges h) -> follows g e [a] b -> gstep h a b.
Proof. intros E He F. exists e. split; [exact He|]. apply (follows_pv g h _ _ _ E), F. Qed.
Lemma follows_from g e a b : follows g e [a] b -> efrom e = [fst a] /\ fst b = eto e.
Proof. intros F. apply follows_prems in F as [A B]. cbn [map] in A. auto. Qed.

(** What a transformation for the termination analysis has to do. *)
Record keeps_runs (g g' : hgraph) : Prop := {
  kr_wf : wf_graph g';
  kr_linear : linear g';
  kr_unbased : unbased g';
  kr_runs : runs_forever g <-> runs_forever g'
}.
Lemma keeps_trans a b c : keeps_runs a b -> keeps_runs b c -> keeps_runs a c.
Proof. intros [_ _ _ A] [B1 B2 B3 B4]. split; auto. rewrite A. exact B4. Qed.

(** ** ConstraintSimplifier *)
Theorem simplify_runs elim rw g : elim_ok elim -> rewrite_ok rw -> wf_graph g -> unbased g -> linear g -> fresh_rewriting rw g ->
  (runs_forever g <-> runs_forever (tr_graph (simplify_constraints elim rw g))) /\ linear (tr_graph (simplify_constraints elim rw g)).
Proof.
  intros He Hr W U L [F1 F2 F3]. set (g' := tr_graph _).
  assert (SE := simplify_edges elim rw g). assert (SF := simplify_follows elim rw He Hr g U F1).
  cbv zeta in SE, SF. fold g' in SE, SF. split; [split|split].
  - apply endless_mono. intros a b [e [H F]]. exists (simplify_edge elim rw g e). split; [apply SE; eauto|exact (proj1 (SF e _ _ H) F)].
  - apply endless_mono. intros a b [e' [H F]]. apply SE in H as [e [H ->]]. exists e. split; [exact H|exact (proj2 (SF e _ _ H) F)].
  - intros e' H. apply SE in H as [e [H ->]]. apply (ln_single g L e H).
  - intros e' H. apply SE in H as [e [H ->]]. apply (ln_noexit g L e H).
Qed.

(** ** Removal of edges *)
(** If the steps of reachable facts survive, so do the infinite runs. *)
Lemma sub_runs g g' : gpv g' = gpv g -> (forall e, In e (gedges g') -> In e (gedges g)) ->
  (forall e a b, In e (gedges g) -> follows g e [a] b -> dfact g a -> endless (gstep g) b -> In e (gedges g')) ->
  (runs_forever g <-> runs_forever g').
Proof.
  intros PV S K. split.
  - intros E. apply (endless_coind (gstep g') (fun a => dfact g a /\ endless (gstep g) a)); [|split; [constructor|exact E]].
    intros a [D Ea]. destruct (endless_inv _ _ Ea) as [b [[e [He F]] Eb]]. exists b. split; [|split; [|exact Eb]].
    + apply (gstep_pv g g' a b e PV); [apply (K e a b); assumption|exact F].
    + apply (gstep_dfact g a b); [exists e; auto|exact D].
  - apply endless_mono. intros a b [e [He F]]. apply (gstep_pv g' g a b e); auto.
Qed.
(** FalseClauseRemoval. *)
Theorem false_runs g : runs_forever g <-> runs_forever (tr_graph (remove_false g)).
Proof.
  apply sub_runs; [reflexivity|intros e He; apply filter_In in He; tauto|]. intros e a b He [r [Hl _]] _ _.
  apply filter_In. split; [exact He|]. destruct (term_eqb_spec (efla e) tt_false) as [X|_]; [|reflexivity]. rewrite X in Hl. destruct (holds_false r Hl).
Qed.
(** RemoveForwardUnreachableNodes. *)
Lemma no_runs_entry g : (forall e, In e (gedges g) -> ~ In entry (efrom e)) -> ~ runs_forever g.
Proof. intros N E. apply endless_inv in E as [b [[e [He F]] _]]. apply follows_from in F as [F _]. apply (N e He). rewrite F. left. reflexivity. Qed.
Theorem forward_runs g t : wf_graph g -> linear g -> remove_forward_unreachable g = Some t -> (runs_forever g <-> runs_forever (tr_graph t)).
Proof.
  intros W L H. unfold remove_forward_unreachable in H. destruct (out_edges g entry) as [|i is_] eqn:Eo.
  - injection H as <-. cbn [tr_graph]. split; intros X; exfalso; revert X; apply no_runs_entry.
    + apply no_outgoing; [exact W|exact Eo].
    + intros e [].
  - destruct (forward_ok g (wf_ids g W)) as [fu [Ef Fo]]. rewrite Ef in H. injection H as <-. cbn [tr_graph].
    apply sub_runs; [apply delete_nodes_pv|intros e He; apply delete_nodes_edges in He; tauto|]. intros e a b He F D _.
    apply delete_nodes_edges. split; [exact He|]. destruct (follows_from _ _ _ _ F) as [Fe Fb].
    assert (Dn : forall f, dfact g f -> ~ In (fst f) fu).
    { apply dfact_ind; [apply (fw_entry g fu Fo)|]. intros x ps f Hx Fx _ HP Hin. destruct (follows_prems _ _ _ _ Fx) as [E1 E2].
      rewrite E2 in Hin. destruct (fw_closed g fu Fo x Hx) as [s [S1 S2]]; [destruct (ln_single g L x Hx) as [p ->]; discriminate|exact Hin|].
      rewrite <- E1 in S1. apply in_map_iff in S1 as [q [<- Q]]. rewrite Forall_forall in HP. exact (HP q Q S2). }
    assert (Db := Dn b (gstep_dfact g a b (ex_intro _ e (conj He F)) D)). rewrite Fb in Db. pose proof (Dn a D) as Da.
    intros m Hm. rewrite Fe. split; [intros <-; exact (Db Hm)|]. intros [<-|[]]. exact (Da Hm).
Qed.
