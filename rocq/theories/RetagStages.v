(** * The transformations keep graphs tidy. *)
From Verif Require Import Syntax Solver TransSys Graph GraphOps GraphOpsProofs ValidatorModel FormulaModel GraphSem Names SimpleTransModel UnreachProofs UnreachProofs2 SimpleTransProofs SimpleTransProofs2 SimplifierProofs ListLemmas MergeModel MergeProofs ChainProofs ChainStep ChainBack ElimModel PairProofs PairLabel ElimProofs ElimLoop InlineModel InlineProofs InlineStep PipelineModel PipelineProofs LinearModel LinearProofs Retag TermStages.
Open Scope list_scope.
Open Scope nat_scope.

Lemma own_pv g h e : gpv h = gpv g -> own_vars h e = own_vars g e.
Proof. intros E. unfold own_vars, src_vars, tgt_vars. rewrite E. reflexivity. Qed.
Lemma fine_pv g h v : gpv h = gpv g -> aux_fine g v -> aux_fine h v.
Proof. intros E. unfold aux_fine. rewrite E. auto. Qed.
(** New edges whose labels have fine auxiliary variables. *)
Lemma tidy_add g h : tidy g -> gpv h = gpv g ->
  (forall e, In e (gedges h) -> In e (gedges g) \/ forall v, In v (vars (efla e)) -> ~ In v (own_vars g e) -> aux_fine g v) -> tidy h.
Proof.
  intros [T1 T2 T3] E S. split; rewrite ?E; auto. intros e v He Hv N. rewrite (own_pv g h e E) in N. apply (fine_pv g h v E). destruct (S e He) as [H|H]; [apply (T3 e); auto|apply H; auto].
Qed.
Lemma tidy_sub g h : tidy g -> gpv h = gpv g -> (forall e, In e (gedges h) -> In e (gedges g)) -> tidy h.
Proof. intros T E S. apply (tidy_add g h T E). auto. Qed.
Lemma tidy_gaux g k s : tidy g -> aux_fine g (gaux k s).
Proof. intros T. left. split; [reflexivity|]. split; [apply gaux_plain|]. intros p b Hb. apply (td_gaux g T p b k s Hb). Qed.
(** Names the rewriting introduces. *)
Definition tidy_rewriting (rw : term -> term) (g : hgraph) : Prop := forall e v, In e (gedges g) -> In v (vars (rw (efla e))) -> vtag v = TBase ->
  plain (vbase v) = true /\ forall p b, In b (gpv g p) -> vbase b <> vbase v.

Section S.
Variable o : tools.
Hypothesis O : tools_ok o.
Lemma tidy_simplify g : tidy g -> tidy_rewriting (t_rewrite o) g -> tidy (tr_graph (simplify_constraints (t_elim o) (t_rewrite o) g)).
Proof.
  intros T R. apply (tidy_add g _ T); [reflexivity|]. intros e' He. right. apply simplify_edges in He as [e [He ->]]. intros v Hv N. cbn [simplify_edge efla] in Hv.
  destruct (simplified_var (t_elim o) (t_rewrite o) (to_elim o O) (to_rewrite o O) g e v He Hv) as [[H1 _]|[b [H1 [H2 ->]]]]; [exact (td_aux g T e v He H1 N)|].
  destruct (R e b He H1 H2) as [P1 P2]. left. unfold version_local. rewrite H2. cbn. auto.
Qed.
Lemma tidy_chains vs : forall fuel g g' cs, wf_graph g -> tidy g -> summarize_loop (t_elim o) vs fuel g = Some (g', cs) -> tidy g'.
Proof.
  induction fuel as [|fuel IH]; intros g g' cs W T H; [discriminate|]. cbn [summarize_loop] in H.
  destruct (find (is_trivial g) (vs g)) as [v|] eqn:Ev; [|injection H as <- <-; exact T].
  apply find_some in Ev as [_ Tv]. destruct (trivial_chain g v) as [ids|] eqn:Ec; [|discriminate].
  destruct (trivial_chain_ok g W v ids Tv Ec) as [c [-> [Em CF]]]. rewrite Em in H.
  destruct (contract_chain (t_elim o) g c) as [g1 se] eqn:EC. destruct (summarize_loop (t_elim o) vs fuel g1) as [[g2 cs2]|] eqn:EL; [|discriminate].
  cbn in H. injection H as <- <-. assert (Eg1 : g1 = fst (contract_chain (t_elim o) g c)) by (rewrite EC; reflexivity).
  pose proof (to_elim o O) as Helim.
  assert (W1 : wf_graph g1) by (rewrite Eg1; destruct CF as [CT|FC]; [apply contract_wf; assumption|apply circle_wf; assumption]).
  apply (IH g1 g2 cs2 W1) with (2 := EL). rewrite Eg1. destruct CF as [CT|FC].
  - apply (tidy_add g _ T); [apply pv_contract|]. intros e He. apply (kept_inv (t_elim o) g c CT) in He as [->|[He _]]; [|auto]. right. intros u Hu N.
    rewrite (se_eq (t_elim o) g c) in Hu. cbn [efla] in Hu. destruct (label_var (t_elim o) Helim g W c CT u Hu) as [A|[[e [He [A B]]]|[m [_ A]]]].
    + destruct (N A).
    + destruct CT as [C1 C2]. refine (td_aux g T e u _ A B). apply (co_in g c C1 e He).
    + right. apply in_map_iff in A as [b [<- Hb]]. cbn. split; [reflexivity|]. apply (td_plain g T m b Hb).
  - apply (tidy_sub g _ T); [apply circle_pv|]. intros e He. apply (circle_edges (t_elim o) g c FC) in He. tauto.
Qed.
Lemma tidy_pair fresh g e1 e2 g1 e : tidy g -> merge_pair (t_elim o) fresh g e1 e2 = (g1, e) -> tidy g1 /\ gpv g1 = gpv g.
Proof.
  intros T E. assert (X : exists from to fla, (g1, e) = added g from to fla).
  { unfold merge_pair in E. unfold added. destruct (_ && _); [unfold merge_chain in E|]; rewrite <- E; eauto. }
  destruct X as [from [to [fla X]]].
  destruct (added_eq g from to fla) as [Eg _]. rewrite <- X in Eg. cbn [fst snd] in Eg. assert (PV : gpv g1 = gpv g) by (rewrite Eg; reflexivity). split; [|exact PV].
  apply (tidy_add g g1 T PV). intros x Hx. rewrite Eg in Hx. cbn [gedges] in Hx. apply in_app_iff in Hx as [Hx|[<-|[]]]; [auto|]. right. intros u Hu N.
  pose proof (added_vars g from to fla u) as V. rewrite <- X in V. cbn [snd] in V. destruct (V Hu) as [Ow|[k [s [_ [_ ->]]]]]; [destruct (N Ow)|apply tidy_gaux, T].
Qed.
Lemma tidy_pairs fresh l : forall g g' rs, tidy g -> merge_pairs (t_elim o) fresh g l = (g', rs) -> tidy g' /\ gpv g' = gpv g.
Proof.
  induction l as [|[e1 e2] l IH]; intros g g' rs T E; cbn [merge_pairs] in E; [injection E as <- <-; auto|].
  destruct (merge_pair (t_elim o) fresh g e1 e2) as [g1 e] eqn:E1. destruct (merge_pairs (t_elim o) fresh g1 l) as [g2 rs2] eqn:E2. injection E as <- <-.
  destruct (tidy_pair fresh g e1 e2 g1 e T E1) as [T1 P1]. destruct (IH g1 g2 rs2 T1 E2) as [T2 P2]. split; [exact T2|congruence].
Qed.
Lemma tidy_elim fresh pred : forall fuel g vs g' cs, tidy g -> eliminate_loop (t_elim o) fresh pred fuel g vs = Some (g', cs) -> tidy g'.
Proof.
  induction fuel as [|f IH]; intros g vs g' cs T E; [discriminate|]. cbn [eliminate_loop] in E.
  destruct (find_node pred g vs) as [[v|]|]; [|injection E as <- <-; exact T|discriminate].
  destruct (contract_vertex (t_elim o) fresh g v) as [[g1 c]|] eqn:E1; [|discriminate].
  destruct (eliminate_loop (t_elim o) fresh pred f g1 (remove_first v vs)) as [[g2 cs2]|] eqn:E2; [|discriminate]. injection E as <- <-.
  apply (IH g1 _ g2 cs2) with (2 := E2). unfold contract_vertex in E1.
  destruct (map_opt (hfind g) (in_edges g v)) as [ins|]; [|discriminate]. destruct (map_opt (hfind g) (out_edges g v)) as [outs|]; [|discriminate].
  destruct (_ || _); [discriminate|]. destruct (merge_pairs (t_elim o) fresh g (list_prod ins outs)) as [h rs] eqn:E3. injection E1 as <- _.
  destruct (tidy_pairs fresh _ g h rs T E3) as [T2 P2]. apply (tidy_sub h _ T2); [reflexivity|]. intros x Hx. unfold delete_node in Hx. cbn [gedges] in Hx. apply filter_In in Hx. tauto.
Qed.
Lemma tidy_inline_one fresh g e g' x : tidy g -> inline_one (t_elim o) fresh g e = Some (g', x) -> tidy g'.
Proof.
  intros T H. unfold inline_one in H. destruct (efrom e) as [|s [|]]; try discriminate. destruct (Nat.eqb s entry); [discriminate|].
  destruct (feasible g (incoming_of g s) e) as [|p [|]]; try discriminate.
  - injection H as <- _. apply (tidy_sub g _ T); [reflexivity|]. intros y Hy. apply delete_edges in Hy. tauto.
  - destruct (efrom p) as [|q [|]]; try discriminate. destruct (Nat.eqb q (eto p)); [discriminate|].
    unfold inline_edge in H. destruct (merge_pair (t_elim o) fresh g p e) as [g1 a] eqn:Em. injection H as <- _.
    destruct (tidy_pair fresh g p e g1 a T Em) as [T1 P1]. apply (tidy_sub g1 _ T1); [reflexivity|]. intros y Hy. apply delete_edges in Hy. tauto.
Qed.
Lemma tidy_pass fresh : forall es g g' l, tidy g -> inline_pass (t_elim o) fresh g es = (g', l) -> tidy g'.
Proof.
  induction es as [|e es IH]; intros g g' l T H; cbn [inline_pass] in H; [injection H as <- <-; exact T|].
  destruct (inline_one (t_elim o) fresh g e) as [[g1 x]|] eqn:E1; [|exact (IH g g' l T H)].
  destruct (inline_pass (t_elim o) fresh g1 es) as [g2 l2] eqn:E2. injection H as <- <-. exact (IH g1 g2 l2 (tidy_inline_one fresh g e g1 x T E1) E2).
Qed.
Lemma tidy_inline fresh : forall fuel g g' l, tidy g -> inline_loop (t_elim o) fresh fuel g = Some (g', l) -> tidy g'.
Proof.
  induction fuel as [|fuel IH]; intros g g' l T H; [discriminate|]. cbn [inline_loop] in H.
  destruct (inline_pass (t_elim o) fresh g (gedges g)) as [g1 l1] eqn:E1. pose proof (tidy_pass fresh _ g g1 l1 T E1) as T1.
  destruct l1 as [|x l1]; [injection H as <- <-; exact T1|]. destruct (inline_loop (t_elim o) fresh fuel g1) as [[g2 l2]|] eqn:E2; [|discriminate]. injection H as <- <-.
  exact (IH g1 g2 l2 T1 E2).
Qed.
Lemma tidy_merge g : wf_graph g -> tidy g -> tidy (merge_multi g).
Proof.
  intros W T. apply (tidy_add g _ T); [reflexivity|]. intros e' He. right. intros v Hv N.
  destruct (merged_vars g W e' v He Hv) as [e [H1 [H2 [H3 [H4 _]]]]]. apply (td_aux g T e v H1 H4). rewrite (own_vars_same g e e' H2 H3). exact N.
Qed.
Lemma tidy_prune g : wf_graph g -> tidy g -> tidy (tr_graph (prune_trivial (t_check o) g)).
Proof.
  intros W T. unfold prune_trivial. destruct (filter is_direct (gedges g)) as [|e0 l0] eqn:E; [exact T|]. rewrite <- E.
  assert (L : forall es, (forall e, In e es -> In e (gedges g) /\ is_direct e = true) -> tidy (tr_graph (prune_loop (t_check o) g es))).
  { induction es as [|e es IH]; intros S; cbn [prune_loop].
    - apply (tidy_sub g _ T); [reflexivity|]. intros x Hx. apply filter_In in Hx. tauto.
    - destruct (t_check o [efla e]); cbn [tr_graph].
      + split; cbn [gpv gedges]; [intros p b []|intros p b k s []|]. intros x v [<-|[]] Hv N. cbn [efla] in Hv. destruct (S e (or_introl eq_refl)) as [S1 S2].
        destruct (td_aux g T e v S1 Hv) as [[A1 [A2 _]]|A]; [|left; auto|right; auto]. intros X. apply own_has_version in X as [p [Hp [b [Hb _]]]].
        unfold is_direct in S2. apply andb_true_iff in S2 as [S2 S3]. apply Nat.eqb_eq in S2.
        assert (p = entry \/ p = exit) as [->| ->].
        { destruct Hp as [Hp| ->]; [left|right; exact S2]. destruct (efrom e) as [|q [|]]; try discriminate. destruct Hp as [<-|[]]. apply Nat.eqb_eq, S3. }
        * rewrite (rep_entry _ (wf_rep g W)) in Hb. destruct Hb.
        * rewrite (rep_exit _ (wf_rep g W)) in Hb. destruct Hb.
      + apply IH. intros x Hx. apply S. right. exact Hx.
      + exact T. }
  apply L. intros e He. apply filter_In in He. tauto.
Qed.
Theorem tidy_stage s g t : wf_graph g -> tidy g -> (s = Simplify -> tidy_rewriting (t_rewrite o) g) -> transform o s g = Some t -> tidy (tr_graph t).
Proof.
  intros W T R E. destruct s; cbn [transform] in E.
  - injection E as <-. apply tidy_simplify; auto.
  - unfold summarize in E. destruct (summarize_loop _ _ _ g) as [[g' cs]|] eqn:EL; [|discriminate]. injection E as <-. exact (tidy_chains _ _ g g' cs W T EL).
  - unfold remove_unreachable in E. destruct (in_edges g exit); [injection E as <-; split; [intros p b []|intros p b k s []|intros e v []]|].
    destruct (out_edges g entry); [injection E as <-; split; [intros p b []|intros p b k s []|intros e v []]|].
    destruct (backward_unreachable g) as [bu|]; [|discriminate]. destruct (forward_unreachable (delete_nodes bu g)) as [fu|]; [|discriminate].
    injection E as <-. cbn [tr_graph]. apply (tidy_sub g _ T); [rewrite !(proj1 (delete_nodes_pv _ _)); reflexivity|]. intros e He. apply delete_nodes_edges in He as [He _]. apply delete_nodes_edges in He as [He _]. exact He.
  - unfold eliminate in E. destruct (eliminate_loop _ _ _ _ g _) as [[g' cs]|] eqn:EL; [|discriminate]. injection E as <-. exact (tidy_elim _ _ _ g _ g' cs T EL).
  - unfold eliminate in E. destruct (eliminate_loop _ _ _ _ g _) as [[g' cs]|] eqn:EL; [|discriminate]. injection E as <-. exact (tidy_elim _ _ _ g _ g' cs T EL).
  - unfold inline_edges in E. destruct (inline_loop (t_elim o) (t_fresh o n) (t_ifuel o) g) as [[g' l']|] eqn:EL; [|discriminate]. cbn in E. injection E as <-.
    exact (tidy_inline _ _ g g' l' T EL).
  - injection E as <-. apply (tidy_sub g _ T); [reflexivity|]. intros e He. apply filter_In in He. tauto.
  - injection E as <-. apply tidy_merge; assumption.
  - injection E as <-. apply tidy_prune; assumption.
Qed.
Theorem tidy_run : forall ss g t, (forall s, In s ss -> s <> Simplify) -> wf_graph g -> unbased g -> tidy g -> run_stages o ss g = Some t -> tidy (tr_graph t).
Proof.
  induction ss as [|s ss IH]; intros g t NS W U T E; [apply run_nil in E as ->; exact T|].
  apply run_cons in E as [r [r2 [E1 [E2 [Eg _]]]]]. rewrite Eg.
  assert (NSs : s <> Simplify) by (apply NS; left; reflexivity).
  destruct (stage_sound o O s g r W U (fun X => False_ind _ (NSs X)) E1) as [[A B _ _] _].
  apply (IH (tr_graph r) r2); auto; [intros x Hx; apply NS; right; exact Hx|]. exact (tidy_stage s g r W T (fun X => False_ind _ (NSs X)) E1).
Qed.
Theorem tidy_default g t : wf_graph g -> unbased g -> tidy g -> fresh_rewriting (t_rewrite o) g -> tidy_rewriting (t_rewrite o) g ->
  run_stages o default_stages g = Some t -> tidy (tr_graph t).
Proof.
  intros W U T FR TR E. unfold default_stages in E. apply run_cons in E as [r [r2 [E1 [E2 [Eg _]]]]]. rewrite Eg.
  destruct (stage_sound o O Simplify g r W U (fun _ => FR) E1) as [[A B _ _] _]. apply (tidy_run (tl default_stages) (tr_graph r)); auto.
  - intros x Hx. cbn in Hx. repeat (destruct Hx as [<-|Hx]; [discriminate|]). destruct Hx.
  - exact (tidy_stage Simplify g r W T (fun _ => TR) E1).
Qed.
Theorem tidy_towards g t : wf_graph g -> unbased g -> tidy g -> run_stages o towards_stages g = Some t -> tidy (tr_graph t).
Proof.
  intros W U T E. apply (tidy_run towards_stages g t); auto. intros x Hx. cbn in Hx. repeat (destruct Hx as [<-|Hx]; [discriminate|]). destruct Hx.
Qed.
(** The preprocessing of the termination front end. *)
Lemma tidy_term_stage s g t : wf_graph g -> tidy g -> (s = Common Simplify -> tidy_rewriting (t_rewrite o) g) -> term_transform o s g = Some t -> tidy (tr_graph t).
Proof.
  intros W T R E. destruct s as [s|]; cbn [term_transform] in E; [apply (tidy_stage s g t W T); auto; intros ->; auto|].
  unfold remove_forward_unreachable in E. destruct (out_edges g entry); [injection E as <-; split; [intros p b []|intros p b k s []|intros e v []]|].
  destruct (forward_unreachable g) as [fu|]; [|discriminate]. injection E as <-. cbn [tr_graph].
  apply (tidy_sub g _ T); [apply (proj1 (delete_nodes_pv _ _))|]. intros e He. apply delete_nodes_edges in He. tauto.
Qed.
End S.
