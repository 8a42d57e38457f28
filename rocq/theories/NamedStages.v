(** * The transformations do not bring in new kinds of names. *)
From Verif Require Import Syntax Solver TransSys Graph GraphOps GraphOpsProofs ValidatorModel FormulaModel GraphSem Names SimpleTransModel UnreachProofs UnreachProofs2 SimpleTransProofs SimpleTransProofs2 SimplifierProofs ListLemmas MergeModel MergeProofs ChainProofs ChainStep ChainBack ElimModel PairProofs PairLabel ElimProofs ElimLoop InlineModel InlineProofs InlineStep PipelineModel PipelineProofs LinearModel LinearProofs Retag RetagStages TermRuns TermStages.
Open Scope list_scope.
Open Scope nat_scope.

(** A property of names that golem's own names have. *)
Section Named.
Variable N : string -> Prop.
Hypothesis Ng : forall k s, N (vbase (gaux k s)).
Record named (g : hgraph) : Prop := {
  nm_pv : forall p b, In b (gpv g p) -> N (vbase b);
  nm_label : forall e v, In e (gedges g) -> In v (vars (efla e)) -> N (vbase v)
}.
Lemma nm_own g e v : named g -> In v (own_vars g e) -> N (vbase v).
Proof. intros T H. apply own_has_version in H as [p [_ [b [Hb [[i ->]| ->]]]]]; cbn; apply (nm_pv g T p b Hb). Qed.
Lemma named_add g h : named g -> gpv h = gpv g ->
  (forall e, In e (gedges h) -> In e (gedges g) \/ forall v, In v (vars (efla e)) -> ~ In v (own_vars g e) -> N (vbase v)) -> named h.
Proof.
  intros T E S. split; rewrite ?E; [apply (nm_pv g T)|]. intros e v He Hv. destruct (S e He) as [H|H]; [apply (nm_label g T e v H Hv)|].
  destruct (in_dec var_dec v (own_vars g e)) as [I|I]; [apply (nm_own g e v T I)|apply H; auto].
Qed.
Lemma named_sub g h : named g -> gpv h = gpv g -> (forall e, In e (gedges h) -> In e (gedges g)) -> named h.
Proof. intros T E S. apply (named_add g h T E). auto. Qed.
(** Names the rewriting introduces. *)
Definition named_rewriting (rw : term -> term) (g : hgraph) : Prop := forall e v, In e (gedges g) -> In v (vars (rw (efla e))) -> vtag v = TBase -> N (vbase v).

Section S.
Variable o : tools.
Hypothesis O : tools_ok o.
Lemma named_simplify g : named g -> named_rewriting (t_rewrite o) g -> named (tr_graph (simplify_constraints (t_elim o) (t_rewrite o) g)).
Proof.
  intros T R. apply (named_add g _ T); [reflexivity|]. intros e' He. right. apply simplify_edges in He as [e [He ->]]. intros v Hv NN. cbn [simplify_edge efla] in Hv.
  destruct (simplified_var (t_elim o) (t_rewrite o) (to_elim o O) (to_rewrite o O) g e v He Hv) as [[H1 _]|[b [H1 [H2 ->]]]]; [exact (nm_label g T e v He H1)|].
  unfold version_local. rewrite H2. exact (R e b He H1 H2).
Qed.
Lemma named_chains vs : forall fuel g g' cs, wf_graph g -> named g -> summarize_loop (t_elim o) vs fuel g = Some (g', cs) -> named g'.
Proof.
  induction fuel as [|fuel IH]; intros g g' cs W T H; [discriminate|]. cbn [summarize_loop] in H.
  destruct (find (is_trivial g) (vs g)) as [v|] eqn:Ev; [|injection H as <- <-; exact T].
  apply find_some in Ev as [_ Tv]. destruct (trivial_chain g v) as [ids|] eqn:Ec; [|discriminate].
  destruct (trivial_chain_ok g W v ids Tv Ec) as [c [-> [Em CF]]]. rewrite Em in H.
  destruct (contract_chain (t_elim o) g c) as [g1 se] eqn:EC. destruct (summarize_loop (t_elim o) vs fuel g1) as [[g2 cs2]|] eqn:EL; [|discriminate].
  cbn in H. injection H as <- <-. assert (Eg1 : g1 = fst (contract_chain (t_elim o) g c)) by (rewrite EC; reflexivity).
  pose proof (to_elim o O) as Helim.
  assert (W1 : wf_graph g1) by (rewrite Eg1; destruct CF as [CT|FC]; [apply contract_wf; assumption|apply circle_wf; assumption]).
  apply (IH g1 g2 cs2 W1) with (2 := EL). rewrite Eg1. destruct CF as [CT|FC].
  - apply (named_add g _ T); [apply pv_contract|]. intros e He. apply (kept_inv (t_elim o) g c CT) in He as [->|[He _]]; [|auto]. right. intros u Hu NN.
    rewrite (se_eq (t_elim o) g c) in Hu. cbn [efla] in Hu. destruct (label_var (t_elim o) Helim g W c CT u Hu) as [A|[[e [He [A B]]]|[m [_ A]]]].
    + destruct (NN A).
    + destruct CT as [C1 C2]. refine (nm_label g T e u _ A). apply (co_in g c C1 e He).
    + apply in_map_iff in A as [b [<- Hb]]. cbn. apply (nm_pv g T m b Hb).
  - apply (named_sub g _ T); [apply circle_pv|]. intros e He. apply (circle_edges (t_elim o) g c FC) in He. tauto.
Qed.
Lemma named_pair fresh g e1 e2 g1 e : named g -> merge_pair (t_elim o) fresh g e1 e2 = (g1, e) -> named g1 /\ gpv g1 = gpv g.
Proof.
  intros T E. assert (X : exists from to fla, (g1, e) = added g from to fla).
  { unfold merge_pair in E. unfold added. destruct (_ && _); [unfold merge_chain in E|]; rewrite <- E; eauto. }
  destruct X as [from [to [fla X]]].
  destruct (added_eq g from to fla) as [Eg _]. rewrite <- X in Eg. cbn [fst snd] in Eg. assert (PV : gpv g1 = gpv g) by (rewrite Eg; reflexivity). split; [|exact PV].
  apply (named_add g g1 T PV). intros x Hx. rewrite Eg in Hx. cbn [gedges] in Hx. apply in_app_iff in Hx as [Hx|[<-|[]]]; [auto|]. right. intros u Hu NN.
  pose proof (added_vars g from to fla u) as V. rewrite <- X in V. cbn [snd] in V. destruct (V Hu) as [Ow|[k [s [_ [_ ->]]]]]; [destruct (NN Ow)|apply Ng].
Qed.
Lemma named_pairs fresh l : forall g g' rs, named g -> merge_pairs (t_elim o) fresh g l = (g', rs) -> named g' /\ gpv g' = gpv g.
Proof.
  induction l as [|[e1 e2] l IH]; intros g g' rs T E; cbn [merge_pairs] in E; [injection E as <- <-; auto|].
  destruct (merge_pair (t_elim o) fresh g e1 e2) as [g1 e] eqn:E1. destruct (merge_pairs (t_elim o) fresh g1 l) as [g2 rs2] eqn:E2. injection E as <- <-.
  destruct (named_pair fresh g e1 e2 g1 e T E1) as [T1 P1]. destruct (IH g1 g2 rs2 T1 E2) as [T2 P2]. split; [exact T2|congruence].
Qed.
Lemma named_elim fresh pred : forall fuel g vs g' cs, named g -> eliminate_loop (t_elim o) fresh pred fuel g vs = Some (g', cs) -> named g'.
Proof.
  induction fuel as [|f IH]; intros g vs g' cs T E; [discriminate|]. cbn [eliminate_loop] in E.
  destruct (find_node pred g vs) as [[v|]|]; [|injection E as <- <-; exact T|discriminate].
  destruct (contract_vertex (t_elim o) fresh g v) as [[g1 c]|] eqn:E1; [|discriminate].
  destruct (eliminate_loop (t_elim o) fresh pred f g1 (remove_first v vs)) as [[g2 cs2]|] eqn:E2; [|discriminate]. injection E as <- <-.
  apply (IH g1 _ g2 cs2) with (2 := E2). unfold contract_vertex in E1.
  destruct (map_opt (hfind g) (in_edges g v)) as [ins|]; [|discriminate]. destruct (map_opt (hfind g) (out_edges g v)) as [outs|]; [|discriminate].
  destruct (_ || _); [discriminate|]. destruct (merge_pairs (t_elim o) fresh g (list_prod ins outs)) as [h rs] eqn:E3. injection E1 as <- _.
  destruct (named_pairs fresh _ g h rs T E3) as [T2 P2]. apply (named_sub h _ T2); [reflexivity|]. intros x Hx. unfold delete_node in Hx. cbn [gedges] in Hx. apply filter_In in Hx. tauto.
Qed.
Lemma named_inline_one fresh g e g' x : named g -> inline_one (t_elim o) fresh g e = Some (g', x) -> named g'.
Proof.
  intros T H. unfold inline_one in H. destruct (efrom e) as [|s [|]]; try discriminate. destruct (Nat.eqb s entry); [discriminate|].
  destruct (feasible g (incoming_of g s) e) as [|p [|]]; try discriminate.
  - injection H as <- _. apply (named_sub g _ T); [reflexivity|]. intros y Hy. apply delete_edges in Hy. tauto.
  - destruct (efrom p) as [|q [|]]; try discriminate. destruct (Nat.eqb q (eto p)); [discriminate|].
    unfold inline_edge in H. destruct (merge_pair (t_elim o) fresh g p e) as [g1 a] eqn:Em. injection H as <- _.
    destruct (named_pair fresh g p e g1 a T Em) as [T1 P1]. apply (named_sub g1 _ T1); [reflexivity|]. intros y Hy. apply delete_edges in Hy. tauto.
Qed.
Lemma named_pass fresh : forall es g g' l, named g -> inline_pass (t_elim o) fresh g es = (g', l) -> named g'.
Proof.
  induction es as [|e es IH]; intros g g' l T H; cbn [inline_pass] in H; [injection H as <- <-; exact T|].
  destruct (inline_one (t_elim o) fresh g e) as [[g1 x]|] eqn:E1; [|exact (IH g g' l T H)].
  destruct (inline_pass (t_elim o) fresh g1 es) as [g2 l2] eqn:E2. injection H as <- <-. exact (IH g1 g2 l2 (named_inline_one fresh g e g1 x T E1) E2).
Qed.
Lemma named_inline fresh : forall fuel g g' l, named g -> inline_loop (t_elim o) fresh fuel g = Some (g', l) -> named g'.
Proof.
  induction fuel as [|fuel IH]; intros g g' l T H; [discriminate|]. cbn [inline_loop] in H.
  destruct (inline_pass (t_elim o) fresh g (gedges g)) as [g1 l1] eqn:E1. pose proof (named_pass fresh _ g g1 l1 T E1) as T1.
  destruct l1 as [|x l1]; [injection H as <- <-; exact T1|]. destruct (inline_loop (t_elim o) fresh fuel g1) as [[g2 l2]|] eqn:E2; [|discriminate]. injection H as <- <-.
  exact (IH g1 g2 l2 T1 E2).
Qed.
Lemma named_merge g : wf_graph g -> named g -> named (merge_multi g).
Proof.
  intros W T. apply (named_add g _ T); [reflexivity|]. intros e' He. right. intros v Hv NN.
  destruct (merged_vars g W e' v He Hv) as [e [H1 [H2 [H3 [H4 _]]]]]. exact (nm_label g T e v H1 H4).
Qed.
Lemma named_prune g : wf_graph g -> named g -> named (tr_graph (prune_trivial (t_check o) g)).
Proof.
  intros W T. unfold prune_trivial. destruct (filter is_direct (gedges g)) as [|e0 l0] eqn:E; [exact T|]. rewrite <- E.
  assert (L : forall es, (forall e, In e es -> In e (gedges g) /\ is_direct e = true) -> named (tr_graph (prune_loop (t_check o) g es))).
  { induction es as [|e es IH]; intros S; cbn [prune_loop].
    - apply (named_sub g _ T); [reflexivity|]. intros x Hx. apply filter_In in Hx. tauto.
    - destruct (t_check o [efla e]); cbn [tr_graph].
      + split; cbn [gpv gedges]; [intros p b []|]. intros x v [<-|[]] Hv. cbn [efla] in Hv. destruct (S e (or_introl eq_refl)) as [S1 S2]. exact (nm_label g T e v S1 Hv).
      + apply IH. intros x Hx. apply S. right. exact Hx.
      + exact T. }
  apply L. intros e He. apply filter_In in He. tauto.
Qed.
Theorem named_stage s g t : wf_graph g -> named g -> (s = Simplify -> named_rewriting (t_rewrite o) g) -> transform o s g = Some t -> named (tr_graph t).
Proof.
  intros W T R E. destruct s; cbn [transform] in E.
  - injection E as <-. apply named_simplify; auto.
  - unfold summarize in E. destruct (summarize_loop _ _ _ g) as [[g' cs]|] eqn:EL; [|discriminate]. injection E as <-. exact (named_chains _ _ g g' cs W T EL).
  - unfold remove_unreachable in E. destruct (in_edges g exit); [injection E as <-; split; [intros p b []|intros e v []]|].
    destruct (out_edges g entry); [injection E as <-; split; [intros p b []|intros e v []]|].
    destruct (backward_unreachable g) as [bu|]; [|discriminate]. destruct (forward_unreachable (delete_nodes bu g)) as [fu|]; [|discriminate].
    injection E as <-. cbn [tr_graph]. apply (named_sub g _ T); [rewrite !(proj1 (delete_nodes_pv _ _)); reflexivity|]. intros e He. apply delete_nodes_edges in He as [He _]. apply delete_nodes_edges in He as [He _]. exact He.
  - unfold eliminate in E. destruct (eliminate_loop _ _ _ _ g _) as [[g' cs]|] eqn:EL; [|discriminate]. injection E as <-. exact (named_elim _ _ _ g _ g' cs T EL).
  - unfold eliminate in E. destruct (eliminate_loop _ _ _ _ g _) as [[g' cs]|] eqn:EL; [|discriminate]. injection E as <-. exact (named_elim _ _ _ g _ g' cs T EL).
  - unfold inline_edges in E. destruct (inline_loop (t_elim o) (t_fresh o n) (t_ifuel o) g) as [[g' l']|] eqn:EL; [|discriminate]. cbn in E. injection E as <-.
    exact (named_inline _ _ g g' l' T EL).
  - injection E as <-. apply (named_sub g _ T); [reflexivity|]. intros e He. apply filter_In in He. tauto.
  - injection E as <-. apply named_merge; assumption.
  - injection E as <-. apply named_prune; assumption.
Qed.
(** The preprocessing of the termination front end. *)
Lemma named_term_stage s g t : wf_graph g -> named g -> (s = Common Simplify -> named_rewriting (t_rewrite o) g) -> term_transform o s g = Some t -> named (tr_graph t).
Proof.
  intros W T R E. destruct s as [s|]; cbn [term_transform] in E; [apply (named_stage s g t W T); auto; intros ->; auto|].
  unfold remove_forward_unreachable in E. destruct (out_edges g entry); [injection E as <-; split; [intros p b []|intros e v []]|].
  destruct (forward_unreachable g) as [fu|]; [|discriminate]. injection E as <-. cbn [tr_graph].
  apply (named_sub g _ T); [apply (proj1 (delete_nodes_pv _ _))|]. intros e He. apply delete_nodes_edges in He. tauto.
Qed.
End S.

End Named.

(** ** The preprocessing of the termination front end as a whole *)
Section Run.
Variable N : string -> Prop.
Hypothesis Ng : forall k s, N (vbase (gaux k s)).
Variable o : tools.
Hypothesis O : tools_ok o.
Lemma term_names_run ss : forall g g', Forall (fun s => s <> Common Unreachable /\ s <> Common Simplify) ss -> wf_graph g -> unbased g -> linear g -> tidy g -> named N g ->
  term_run o ss g = Some g' -> tidy g' /\ named N g'.
Proof.
  induction ss as [|s ss IH]; intros g g' F W U L T M E; cbn [term_run] in E; [injection E as <-; auto|].
  inversion F as [|? ? [F1 F2] F3]; subst. destruct (term_transform o s g) as [t|] eqn:Et; [|discriminate].
  pose proof (term_stage_ok o O s g t W U L (fun X => False_ind _ (F2 X)) F1 Et) as K.
  apply (IH (tr_graph t) g' F3); [apply K|apply K|apply K| | |exact E].
  - exact (tidy_term_stage o O s g t W T (fun X => False_ind _ (F2 X)) Et).
  - exact (named_term_stage N Ng o O s g t W M (fun X => False_ind _ (F2 X)) Et).
Qed.
Theorem term_names g g' : wf_graph g -> unbased g -> linear g -> fresh_rewriting (t_rewrite o) g -> tidy_rewriting (t_rewrite o) g -> named_rewriting N (t_rewrite o) g ->
  tidy g -> named N g -> term_run o term_stages g = Some g' -> tidy g' /\ named N g'.
Proof.
  intros W U L FR TR NR T M E. unfold term_stages in E. cbn [term_run] in E. destruct (term_transform o (Common Simplify) g) as [t|] eqn:Et; [|discriminate].
  pose proof (term_stage_ok o O (Common Simplify) g t W U L (fun _ => FR) ltac:(discriminate) Et) as K.
  apply (term_names_run (tl term_stages) (tr_graph t) g'); [|apply K|apply K|apply K| | |exact E].
  - repeat (constructor; [split; discriminate|]). constructor.
  - exact (tidy_term_stage o O (Common Simplify) g t W T (fun _ => TR) Et).
  - exact (named_term_stage N Ng o O (Common Simplify) g t W M (fun _ => NR) Et).
Qed.
End Run.
