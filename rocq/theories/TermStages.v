(** * The preprocessing of the termination front end (C70). *)
From Verif Require Import Syntax Solver TransSys Graph GraphOps GraphOpsProofs ValidatorModel FormulaModel GraphSem SimpleTransModel UnreachProofs UnreachProofs2 SimpleTransProofs SimpleTransProofs2 SimplifierProofs ListLemmas MergeModel MergeProofs ChainProofs ChainStep ChainBack ElimModel PairProofs PairLabel ElimProofs ElimLoop InlineModel InlineProofs InlineStep PipelineModel PipelineProofs TermRuns TermChain TermElim TermInline.
Open Scope list_scope.
Open Scope nat_scope.

(** ** Model *)
(** The transformers of the termination front end; [RemoveForwardUnreachableNodes] is not part of the other pipelines. *)
Inductive term_stage := Common (s : stage) | ForwardUnreachable.
Definition term_transform (o : tools) (s : term_stage) (g : hgraph) : option trans :=
  match s with Common s => transform o s g | ForwardUnreachable => remove_forward_unreachable g end.
(** The list of stages (src/termination/Frontend.cc:468-477). *)
Definition term_stages : list term_stage :=
  [Common Simplify; Common Chains; ForwardUnreachable; Common (SimpleNodes 0); Common (Inline 1); Common FalseClauses; Common MultiEdges; Common Chains; Common TrivialEdges].
(** [TransformationPipeline::transform] (src/transformers/TransformationPipeline.cc:11-20) without the back translators, which
    src/termination/Frontend.cc:478 drops. *)
Fixpoint term_run (o : tools) (ss : list term_stage) (g : hgraph) : option hgraph :=
  match ss with
  | [] => Some g
  | s :: ss' => match term_transform o s g with Some t => term_run o ss' (tr_graph t) | None => None end
  end.

(** ** The other stages *)
Lemma merge_runs g : wf_graph g -> linear g -> (runs_forever g <-> runs_forever (merge_multi g)) /\ linear (merge_multi g).
Proof.
  intros W L. split; [split|].
  - apply endless_mono. intros a b [e [He F]]. destruct (merge_follows g e _ _ He F) as [e' [He' F']]. exists e'. auto.
  - apply endless_mono. intros a b [e [He F]]. destruct (merge_follows_inv g W e _ _ He F) as [e' [He' F']]. exists e'. auto.
  - split; intros e He; destruct (merged_from g W e He) as [x [Hx [Fx [Tx _]]]].
    + rewrite <- Fx. apply (ln_single g L x Hx).
    + rewrite <- Tx. apply (ln_noexit g L x Hx).
Qed.
Lemma prune_id check g : linear g -> tr_graph (prune_trivial check g) = g.
Proof.
  intros L. unfold prune_trivial. destruct (filter is_direct (gedges g)) as [|e l] eqn:E; [reflexivity|]. exfalso.
  assert (H : In e (filter is_direct (gedges g))) by (rewrite E; left; reflexivity). apply filter_In in H as [H1 H2].
  unfold is_direct in H2. apply andb_true_iff in H2 as [H2 _]. apply Nat.eqb_eq in H2. exact (ln_noexit g L e H1 H2).
Qed.
Lemma forward_sub g t : remove_forward_unreachable g = Some t -> forall e, In e (gedges (tr_graph t)) -> In e (gedges g).
Proof.
  unfold remove_forward_unreachable. destruct (out_edges g entry) as [|i l]; [intros H; injection H as <-; intros e []|].
  destruct (forward_unreachable g) as [fu|]; [|discriminate]. intros H. injection H as <-. cbn [tr_graph]. intros e He. apply delete_nodes_edges in He. tauto.
Qed.
Section Stages.
Variable o : tools.
Hypothesis O : tools_ok o.
Theorem term_stage_ok s g t : wf_graph g -> unbased g -> linear g -> (s = Common Simplify -> fresh_rewriting (t_rewrite o) g) ->
  (s <> Common Unreachable) -> term_transform o s g = Some t -> keeps_runs g (tr_graph t).
Proof.
  intros W U L FR NU E.
  assert (B : wf_graph (tr_graph t) /\ unbased (tr_graph t)).
  { destruct s as [s|]; cbn [term_transform] in E.
    - destruct (stage_sound o O s g t W U) as [S _]; [intros ->; apply FR; reflexivity|exact E|]. split; apply S.
    - destruct (remove_forward_unreachable_ok g W) as [t' [E' [A _]]]. rewrite E in E'. injection E' as <-. split; [exact A|].
      apply (unbased_sub g _ U). apply (forward_sub g t E). }
  destruct B as [W' U']. assert (R : (runs_forever g <-> runs_forever (tr_graph t)) /\ linear (tr_graph t)); [|destruct R; split; assumption].
  destruct s as [s|]; cbn [term_transform] in E; [destruct s; cbn [transform] in E|].
  - injection E as <-. apply simplify_runs; auto; apply O.
  - unfold summarize in E. destruct (summarize_loop (t_elim o) (t_vertices o) (S (length (gedges g))) g) as [[g' cs]|] eqn:EL; [|discriminate]. injection E as <-.
    apply (summarize_runs _ (to_elim o O) _ _ g g' cs W L EL).
  - congruence.
  - unfold eliminate in E. destruct (eliminate_loop _ _ _ _ g _) as [[g' cs]|] eqn:EL; [|discriminate]. injection E as <-.
    refine (eliminate_runs _ (to_elim o O) _ _ _ _ g _ g' cs W L _ EL); [intros h v W1 N1 N2 H; apply simple_pred_ok; assumption|].
    intros v Hv. apply filter_In in Hv as [_ Hv]. apply negb_true_iff, orb_false_iff in Hv as [A B]. apply Nat.eqb_neq in A, B. auto.
  - unfold eliminate in E. destruct (eliminate_loop _ _ _ _ g _) as [[g' cs]|] eqn:EL; [|discriminate]. injection E as <-.
    refine (eliminate_runs _ (to_elim o O) _ _ _ _ g _ g' cs W L _ EL); [intros h v W1 N1 N2 H; apply better_pred_ok; assumption|].
    intros v Hv. apply filter_In in Hv as [_ Hv]. apply negb_true_iff, orb_false_iff in Hv as [A B]. apply Nat.eqb_neq in A, B. auto.
  - unfold inline_edges in E. destruct (inline_loop (t_elim o) (t_fresh o n) (t_ifuel o) g) as [[g' l']|] eqn:EL; [|discriminate]. cbn in E. injection E as <-.
    apply (inline_runs _ (to_elim o O) _ _ (to_check o O) _ (to_itp o O) _ g g' l' W U L EL).
  - injection E as <-. split; [apply false_runs|]. apply (linear_sub g _ L). intros e He. apply filter_In in He. tauto.
  - injection E as <-. apply merge_runs; assumption.
  - injection E as <-. rewrite (prune_id _ g L). split; [tauto|exact L].
  - split; [apply forward_runs; assumption|]. apply (linear_sub g _ L), (forward_sub g t E).
Qed.
Lemma term_run_ok ss : forall g g', Forall (fun s => s <> Common Unreachable /\ s <> Common Simplify) ss -> wf_graph g -> unbased g -> linear g -> term_run o ss g = Some g' ->
  keeps_runs g g'.
Proof.
  induction ss as [|s ss IH]; intros g g' F W U L E; cbn [term_run] in E; [injection E as <-; split; auto; tauto|].
  inversion F as [|? ? [F1 F2] F3]; subst. destruct (term_transform o s g) as [t|] eqn:Et; [|discriminate].
  pose proof (term_stage_ok s g t W U L (fun X => False_ind _ (F2 X)) F1 Et) as K. apply (keeps_trans g (tr_graph t) g' K). apply IH; auto; apply K.
Qed.
Theorem term_pipeline_ok g g' : wf_graph g -> unbased g -> linear g -> fresh_rewriting (t_rewrite o) g -> term_run o term_stages g = Some g' -> keeps_runs g g'.
Proof.
  intros W U L FR E. unfold term_stages in E. cbn [term_run] in E. destruct (term_transform o (Common Simplify) g) as [t|] eqn:Et; [|discriminate].
  pose proof (term_stage_ok (Common Simplify) g t W U L (fun _ => FR) ltac:(discriminate) Et) as K. apply (keeps_trans g (tr_graph t) g' K).
  apply (term_run_ok (tl term_stages)); [|apply K|apply K|apply K|exact E]. repeat (constructor; [split; discriminate|]). constructor.
Qed.
End Stages.
