(** * The preprocessing pipelines: every stage, and the whole. *)
From Verif Require Import Syntax Solver TransSys Graph GraphOps GraphOpsProofs ValidatorModel FormulaModel GraphSem SimpleTransModel UnreachProofs UnreachProofs2 SimpleTransProofs SimpleTransProofs2 SimplifierProofs ListLemmas MergeModel MergeProofs ChainProofs ChainStep ChainBack ChainTotal ElimModel PairProofs PairLabel ElimProofs ElimLoop InlineModel InlineProofs InlineStep PipelineModel.
Open Scope list_scope.
Open Scope nat_scope.

(** What is assumed about the libraries. *)
Record tools_ok (o : tools) : Prop := {
  to_elim : elim_ok (t_elim o);
  to_rewrite : rewrite_ok (t_rewrite o);
  to_simp : forall t, equiv (t_simp o t) t;
  to_check : check_ok (t_check o);
  to_itp : itp_ok (t_itp o);
  to_pitp : pitp_ok (t_pitp o);
  to_vertices : forall h v, In v (t_vertices o h) <-> vertex h v;
  to_nodup : forall h, NoDup (t_vertices o h)
}.
(** The names of the variables that OpenSMT's rewriters introduce are new: not used by the clause, different in different
    clauses, and not golem's own. *)
Record fresh_rewriting (rw : term -> term) (g : hgraph) : Prop := {
  fr_clause : forall e v, In e (gedges g) -> In v (vars (rw (efla e))) -> vtag v = TBase -> ~ In (version_local v) (vars (efla e));
  fr_other : forall e e2 v, In e (gedges g) -> In e2 (gedges g) -> eid e <> eid e2 ->
     In v (vars (rw (efla e))) -> vtag v = TBase -> ~ In v (vars (rw (efla e2))) /\ ~ In (version_local v) (vars (efla e2));
  fr_names : forall e v, In e (gedges g) -> In v (vars (rw (efla e))) -> vtag v = TBase ->
     (forall k s, gctr g <= k -> version_local v <> gaux k s) /\ (forall k s, version_local v <> auxg k s)
}.

(** What holds of every stage without conditions. *)
Record staged (g : hgraph) (t : trans) : Prop := {
  st_wf : wf_graph (tr_graph t);
  st_unbased : unbased (tr_graph t);
  st_verdict : derivable g exit [] <-> derivable (tr_graph t) exit [];
  st_error : forall d d', error_derivation (tr_graph t) d -> tr_invalid t d = Some d' -> error_derivation g d'
}.
(** The translation of solutions. *)
Definition valid_back (g : hgraph) (t : trans) : Prop :=
  forall w w', solution (tr_graph t) w -> only (tr_graph t) w -> tr_valid t w = Some w' -> solution g w' /\ only g w'.
Lemma correct_staged g t : correct g (tr_graph t) (tr_valid t) (tr_invalid t) -> wf_graph (tr_graph t) -> unbased (tr_graph t) -> staged g t /\ valid_back g t.
Proof. intros [A B C] W U. split; [split; assumption|exact B]. Qed.
Lemma staged_correct g t : staged g t -> valid_back g t -> correct g (tr_graph t) (tr_valid t) (tr_invalid t).
Proof. intros [A B C D] V. split; assumption. Qed.

Lemma unbased_sub g g' : unbased g -> (forall e, In e (gedges g') -> In e (gedges g)) -> unbased g'.
Proof. intros U S e v He. apply U, S, He. Qed.

Section S.
Variable o : tools.
Hypothesis O : tools_ok o.

(** ** Variables of the new labels *)
Lemma unbased_unreachable g t : unbased g -> remove_unreachable g = Some t -> unbased (tr_graph t).
Proof.
  intros U E. unfold remove_unreachable in E. destruct (in_edges g exit); [injection E as <-; intros e v []|].
  destruct (out_edges g entry); [injection E as <-; intros e v []|].
  destruct (backward_unreachable g) as [bu|]; [|discriminate]. destruct (forward_unreachable (delete_nodes bu g)) as [fu|]; [|discriminate].
  injection E as <-. cbn [tr_graph]. apply (unbased_sub g); [exact U|]. intros e He. apply delete_nodes_edges in He as [He _]. apply delete_nodes_edges in He as [He _]. exact He.
Qed.
Lemma vars_mkOr_in v l : In v (vars (mkOr l)) -> exists t, In t l /\ In v (vars t).
Proof. cbn [mkOr vars]. intros H. apply in_concat in H as [x [Hx H]]. apply in_map_iff in Hx as [t [<- Ht]]. exists t. auto. Qed.
Lemma unbased_merge g : unbased g -> unbased (merge_multi g).
Proof.
  intros U e v He Hv. unfold merge_multi in He. cbn [gedges] in He. apply in_concat in He as [l [Hl He]]. apply in_map_iff in Hl as [e0 [<- H0]].
  assert (B : forall x, In x (bucket g e0) -> In x (gedges g)) by (intros x Hx; apply filter_In in Hx; tauto).
  unfold merge_one in He. destruct (is_single e0); [|destruct He as [<-|[]]; exact (U _ _ H0 Hv)].
  destruct (bucket g e0) as [|b0 [|b1 b]]; try (destruct He as [<-|[]]; exact (U _ _ H0 Hv)).
  destruct (Nat.eqb (eid b0) (eid e0)); [|destruct He]. destruct He as [<-|[]]. unfold merged_edge in Hv. cbn [efla] in Hv.
  apply vars_mkOr_in in Hv as [t [Ht Hv]]. apply in_map_iff in Ht as [x [<- Hx]]. exact (U x v (B x Hx) Hv).
Qed.
Lemma vars_mkAnd_in v l : In v (vars (mkAnd l)) -> exists t, In t l /\ In v (vars t).
Proof. cbn [mkAnd vars]. intros H. apply in_concat in H as [x [Hx H]]. apply in_map_iff in Hx as [t [<- Ht]]. exists t. auto. Qed.
Lemma unbased_prune g : unbased g -> unbased (tr_graph (prune_trivial (t_check o) g)).
Proof.
  intros U. unfold prune_trivial. destruct (filter is_direct (gedges g)) as [|e0 l0] eqn:E; [exact U|]. rewrite <- E.
  assert (L : forall es, (forall e, In e es -> In e (gedges g)) -> unbased (tr_graph (prune_loop (t_check o) g es))).
  { induction es as [|e es IH]; intros S; cbn [prune_loop].
    - apply (unbased_sub g); [exact U|]. intros x Hx. apply filter_In in Hx. tauto.
    - destruct (t_check o [efla e]); cbn [tr_graph].
      + intros x v [<-|[]] Hv. exact (U e v (S e (or_introl eq_refl)) Hv).
      + apply IH. intros x Hx. apply S. right. exact Hx.
      + exact U. }
  apply L. intros e He. apply filter_In in He. tauto.
Qed.
Lemma tosrc_unbased g ms v : vtag v <> TBase -> vtag (vlookup (concat (map (to_source_map g) ms)) v) <> TBase.
Proof.
  intros N. set (m := concat _). destruct (in_dec var_dec v (map fst m)) as [I|I].
  - apply vlookup_in in I. unfold m in I. apply in_concat in I as [l [Hl I]]. apply in_map_iff in Hl as [p [<- _]]. apply to_source_map_in in I as [b [_ [_ E]]]. fold m in E. rewrite E. discriminate.
  - rewrite (vlookup_out m v I). exact N.
Qed.
Lemma chain_label_unbased g c : (forall e, In e c -> forall v, In v (vars (efla e)) -> vtag v <> TBase) ->
  forall v, In v (vars (chain_label (t_elim o) g c)) -> vtag v <> TBase.
Proof.
  intros U v Hv. unfold chain_label in Hv. apply (to_elim o O) in Hv. rewrite vars_rename in Hv. apply in_map_iff in Hv as [u [<- Hu]].
  apply tosrc_unbased. apply vars_mkAnd_in in Hu as [t [Ht Hu]]. apply in_map_iff in Ht as [e [<- He]]. exact (U e He u Hu).
Qed.
Lemma hfind_in_edges g i e : hfind g i = Some e -> In e (gedges g).
Proof. unfold hfind. intros H. apply find_some in H. tauto. Qed.
Lemma map_opt_in {A B} (f : A -> option B) l : forall r y, map_opt f l = Some r -> In y r -> exists x, In x l /\ f x = Some y.
Proof.
  induction l as [|x l IH]; intros r y H Hy; cbn [map_opt] in H; [injection H as <-; destruct Hy|].
  destruct (f x) as [z|] eqn:E; [|discriminate]. destruct (map_opt f l) as [zs|] eqn:E2; [|discriminate]. injection H as <-.
  destruct Hy as [<-|Hy]; [exists x; simpl; auto|]. destruct (IH zs y eq_refl Hy) as [u [Hu Eu]]. exists u. simpl; auto.
Qed.
Lemma unbased_chain vs : forall fuel g g' cs, unbased g -> summarize_loop (t_elim o) vs fuel g = Some (g', cs) -> unbased g'.
Proof.
  induction fuel as [|f IH]; intros g g' cs U E; [discriminate|]. cbn [summarize_loop] in E.
  destruct (find (is_trivial g) (vs g)) as [v|]; [|injection E as <- <-; exact U].
  destruct (trivial_chain g v) as [ids|]; [|discriminate]. destruct (map_opt (hfind g) ids) as [c|] eqn:Ec; [|discriminate].
  destruct (contract_chain (t_elim o) g c) as [g1 e1] eqn:E1. destruct (summarize_loop (t_elim o) vs f g1) as [[g2 cs2]|] eqn:E2; [|discriminate].
  injection E as <- <-. apply (IH g1 g2 cs2); [|exact E2]. unfold contract_chain, merge_chain, new_edge in E1. injection E1 as <- _.
  intros e u He Hu. apply delete_nodes_edges in He as [He _]. cbn [gedges] in He. apply in_app_iff in He as [He|[<-|[]]]; [exact (U e u He Hu)|].
  cbn [efla] in Hu. revert u Hu. apply chain_label_unbased. intros e He u. apply map_opt_in with (1 := Ec) in He as [i [_ Hi]]. apply U, (hfind_in_edges g i), Hi.
Qed.
Lemma own_unbased g e u : In u (own_vars g e) -> vtag u <> TBase.
Proof.
  unfold own_vars. rewrite in_app_iff, in_concat. intros [[l [Hl Hu]]|Hu].
  - apply in_map_iff in Hl as [pi [<- _]]. apply in_map_iff in Hu as [b [<- _]]. discriminate.
  - apply in_map_iff in Hu as [b [<- _]]. discriminate.
Qed.
Lemma merge_pair_edges fresh g e1 e2 g1 e : merge_pair (t_elim o) fresh g e1 e2 = (g1, e) ->
  gedges g1 = gedges g ++ [e] /\ forall u, In u (vars (efla e)) -> vtag u <> TBase.
Proof.
  intros E. assert (X : exists from to fla, (g1, e) = added g from to fla).
  { unfold merge_pair in E. unfold added. destruct (_ && _); [unfold merge_chain in E|]; rewrite <- E; eauto. }
  destruct X as [from [to [fla X]]].
  destruct (added_eq g from to fla) as [Eg _]. rewrite <- X in Eg. cbn [fst snd] in Eg. split; [rewrite Eg; reflexivity|].
  intros u Hu. pose proof (added_vars g from to fla u) as V. rewrite <- X in V. cbn [snd] in V. destruct (V Hu) as [Ow|[k [s [_ [_ ->]]]]]; [exact (own_unbased _ _ _ Ow)|discriminate].
Qed.
Lemma unbased_pairs fresh l : forall g g' rs, unbased g -> merge_pairs (t_elim o) fresh g l = (g', rs) -> unbased g'.
Proof.
  induction l as [|[e1 e2] l IH]; intros g g' rs U E; cbn [merge_pairs] in E; [injection E as <- <-; exact U|].
  destruct (merge_pair (t_elim o) fresh g e1 e2) as [g1 e] eqn:E1. destruct (merge_pairs (t_elim o) fresh g1 l) as [g2 rs2] eqn:E2. injection E as <- <-.
  apply (IH g1 g2 rs2); [|exact E2]. destruct (merge_pair_edges fresh g e1 e2 g1 e E1) as [Eg Ue].
  intros x u Hx Hu. rewrite Eg in Hx. apply in_app_iff in Hx as [Hx|[<-|[]]]; [exact (U x u Hx Hu)|exact (Ue u Hu)].
Qed.
Lemma unbased_elim fresh pred : forall fuel g vs g' cs, unbased g -> eliminate_loop (t_elim o) fresh pred fuel g vs = Some (g', cs) -> unbased g'.
Proof.
  induction fuel as [|f IH]; intros g vs g' cs U E; [discriminate|]. cbn [eliminate_loop] in E.
  destruct (find_node pred g vs) as [[v|]|]; [|injection E as <- <-; exact U|discriminate].
  destruct (contract_vertex (t_elim o) fresh g v) as [[g1 c]|] eqn:E1; [|discriminate].
  destruct (eliminate_loop (t_elim o) fresh pred f g1 (remove_first v vs)) as [[g2 cs2]|] eqn:E2; [|discriminate]. injection E as <- <-.
  apply (IH g1 _ g2 cs2) with (2 := E2). unfold contract_vertex in E1.
  destruct (map_opt (hfind g) (in_edges g v)) as [ins|]; [|discriminate]. destruct (map_opt (hfind g) (out_edges g v)) as [outs|]; [|discriminate].
  destruct (_ || _); [discriminate|]. destruct (merge_pairs (t_elim o) fresh g (list_prod ins outs)) as [h rs] eqn:E3. injection E1 as <- _.
  apply (unbased_sub h); [exact (unbased_pairs fresh _ g h rs U E3)|]. intros x Hx. unfold delete_node in Hx. cbn [gedges] in Hx. apply filter_In in Hx. tauto.
Qed.
Lemma simplify_unbased g : unbased (tr_graph (simplify_constraints (t_elim o) (t_rewrite o) g)).
Proof.
  intros e v He Hv. cbn in He. apply in_map_iff in He as [e0 [<- _]]. cbn [simplify_edge efla] in Hv. unfold simplify_label in Hv.
  rewrite vars_rename in Hv. apply in_map_iff in Hv as [u [<- _]]. unfold version_local. destruct (vtag u) eqn:T; cbn; try discriminate; rewrite T; discriminate.
Qed.

(** ** The stages *)
(** Conditions under which a stage also translates solutions. *)
Definition keeps_solutions (s : stage) (g : hgraph) : Prop :=
  match s with
  | Inline n => forall t l, inline_edges (t_check o) (t_itp o) (t_elim o) (t_fresh o n) (t_ifuel o) g = Some (t, l) ->
      Forall (fun x => private_edge g (removed_of x)) l
  | FalseClauses => forall p, vertex g p -> vertex (tr_graph (remove_false g)) p
  | _ => True
  end.
Lemma solution_defines g w p : solution g w -> vertex g p -> w p <> None.
Proof.
  intros [_ [d0 [E0 _]] [d1 [E1 _]] HE] [->|[->|[e [He [Hp|Hp]]]]]; [congruence|congruence| |].
  - destruct (HE e He) as [H _]. apply H, Hp.
  - subst p. destruct (HE e He) as [_ [dt [E _]]]. congruence.
Qed.
Theorem stage_sound s g t : wf_graph g -> unbased g -> (s = Simplify -> fresh_rewriting (t_rewrite o) g) -> transform o s g = Some t ->
  staged g t /\ (keeps_solutions s g -> valid_back g t).
Proof.
  intros W U FR E. destruct s; cbn [transform] in E; cbn [keeps_solutions].
  - injection E as <-. destruct (FR eq_refl) as [F1 F2 F3].
    destruct (correct_staged g (simplify_constraints (t_elim o) (t_rewrite o) g)) as [A B]; [| | |split; auto].
    + apply simplify_correct; auto; apply O.
    + apply simplify_wf; auto; apply O.
    + apply simplify_unbased.
  - pose proof (summarize_good _ (to_elim o O) _ (to_check o O) _ (to_pitp o O) _ _ g t W E) as [A B].
    destruct (correct_staged g t B A) as [C D]; [|split; auto].
    unfold summarize in E. destruct (summarize_loop (t_elim o) (t_vertices o) (S (length (gedges g))) g) as [[g' cs]|] eqn:EL; [|discriminate].
    injection E as <-. cbn [tr_graph]. exact (unbased_chain _ _ g g' cs U EL).
  - destruct (remove_unreachable_ok g W) as [t' [E' [A B]]]. rewrite E in E'. injection E' as <-.
    destruct (correct_staged g t B A (unbased_unreachable g t U E)) as [C D]. split; auto.
  - assert (PO : pred_ok simple_pred) by (intros h v W' N1 N2 H; apply simple_pred_ok; assumption).
    destruct (eliminate_good _ (to_elim o O) (t_fresh o n) _ (to_check o O) _ (to_itp o O) simple_pred PO (t_vertices o) (t_dfuel o) g t W E) as [A B].
    destruct (correct_staged g t B A) as [C D]; [|split; auto]. unfold eliminate in E.
    destruct (eliminate_loop _ _ _ _ g _) as [[g' cs]|] eqn:EL; [|discriminate]. injection E as <-. exact (unbased_elim _ _ _ g _ g' cs U EL).
  - assert (PO : pred_ok better_pred) by (intros h v W' N1 N2 H; apply better_pred_ok; assumption).
    destruct (eliminate_good _ (to_elim o O) (t_fresh o n) _ (to_check o O) _ (to_itp o O) better_pred PO (t_vertices o) (t_dfuel o) g t W E) as [A B].
    destruct (correct_staged g t B A) as [C D]; [|split; auto]. unfold eliminate in E.
    destruct (eliminate_loop _ _ _ _ g _) as [[g' cs]|] eqn:EL; [|discriminate]. injection E as <-. exact (unbased_elim _ _ _ g _ g' cs U EL).
  - destruct (inline_edges _ _ _ _ _ g) as [[t' l]|] eqn:EI; [|discriminate]. cbn in E. injection E as <-.
    unfold inline_edges in EI. destruct (inline_loop (t_elim o) (t_fresh o n) (t_ifuel o) g) as [[g' l']|] eqn:EL; [|discriminate]. injection EI as <- <-.
    destruct (inline_loop_ok _ (to_elim o O) (t_fresh o n) _ (to_check o O) _ (to_itp o O) _ g g' l' W U EL) as [A1 A2 A3 A4 A5 A6 A7].
    split; [split; assumption|]. intros P. specialize (P _ _ eq_refl). exact (A7 P).
  - injection E as <-. destruct (remove_false_ok g W) as [A [B [C D]]]. split.
    + split; [exact A| |apply B|].
      * apply (unbased_sub g); [exact U|]. intros e He. apply filter_In in He. tauto.
      * intros d d' Hd E. cbn in E. injection E as <-. apply D, Hd.
    + intros P w w' S Ow E. cbn in E. injection E as <-. split.
      * apply C; [exact S|]. intros p Vp. apply (solution_defines _ w p S), P, Vp.
      * intros p Hp. apply (vertex_filter _ g p (Ow p Hp)).
  - injection E as <-. destruct (merge_edges_ok g W (t_check o) (t_simp o) (to_check o O) (to_simp o O)) as [A B].
    destruct (correct_staged g (merge_edges (t_check o) (t_simp o) g) B A) as [C D]; [|split; auto]. cbn [merge_edges tr_graph]. apply unbased_merge, U.
  - injection E as <-. destruct (prune_trivial_ok g W (t_check o) (to_check o O)) as [A B].
    destruct (correct_staged g (prune_trivial (t_check o) g) B A (unbased_prune g U)) as [C D]. split; auto.
Qed.

(** ** Pipelines *)
(** The conditions on the intermediate graphs of a run. *)
Fixpoint faithful (ss : list stage) (g : hgraph) : Prop :=
  match ss with
  | [] => True
  | s :: ss' => keeps_solutions s g /\ match transform o s g with Some t => faithful ss' (tr_graph t) | None => True end
  end.
Lemma run_cons s ss g t : run_stages o (s :: ss) g = Some t -> exists r r2, transform o s g = Some r /\ run_stages o ss (tr_graph r) = Some r2 /\
  tr_graph t = tr_graph r2 /\ (forall w, tr_valid t w = match tr_valid r2 w with Some x => tr_valid r x | None => None end) /\
  (forall d, tr_invalid t d = match tr_invalid r2 d with Some x => tr_invalid r x | None => None end).
Proof.
  unfold run_stages, pipeline. cbn [map run_pipeline]. destruct (transform o s g) as [r|]; [|discriminate].
  destruct (run_pipeline (map (transform o) ss) (tr_graph r)) as [[g' bs]|] eqn:ER; [|discriminate]. intros E. injection E as <-.
  exists r. eexists. split; [reflexivity|]. rewrite ER. split; [reflexivity|]. cbn [tr_graph tr_valid tr_invalid map rev]. split; [reflexivity|].
  split; intros x; apply back_all_snoc.
Qed.
Lemma run_cons_some s ss g r : transform o s g = Some r -> (exists t, run_stages o ss (tr_graph r) = Some t) -> exists t, run_stages o (s :: ss) g = Some t.
Proof.
  intros E [t H]. unfold run_stages, pipeline in *. cbn [map run_pipeline]. rewrite E. destruct (run_pipeline (map (transform o) ss) (tr_graph r)) as [[g' bs]|]; [eauto|discriminate].
Qed.
Lemma run_nil g t : run_stages o [] g = Some t -> t = mkTrans g (back_all []) (back_all []).
Proof. unfold run_stages, pipeline. cbn. intros E. injection E as <-. reflexivity. Qed.

Theorem run_sound : forall ss g t, (forall s, In s ss -> s <> Simplify) -> wf_graph g -> unbased g -> run_stages o ss g = Some t ->
  staged g t /\ (faithful ss g -> valid_back g t).
Proof.
  induction ss as [|s ss IH]; intros g t NS W U E.
  - apply run_nil in E as ->. split; [split; auto; [reflexivity|]|intros _ w w' S Ow E; cbn in E; injection E as <-; auto].
    intros d d' D E. cbn in E. injection E as <-. exact D.
  - apply run_cons in E as [r [r2 [E1 [E2 [Eg [Ev Ei]]]]]].
    destruct (stage_sound s g r W U) as [S1 V1]; [intros X; destruct (NS s (or_introl eq_refl) X)|exact E1|].
    destruct (IH (tr_graph r) r2) as [S2 V2]; [intros x Hx; apply NS; right; exact Hx|apply S1|apply S1|exact E2|].
    destruct S1 as [A1 A2 A3 A4], S2 as [B1 B2 B3 B4]. split.
    + split; rewrite ?Eg; auto; [rewrite A3; exact B3|]. intros d d' D E. rewrite Ei in E. destruct (tr_invalid r2 d) as [x|] eqn:Ex; [|discriminate].
      apply (A4 x d'); [|exact E]. apply (B4 d x D Ex).
    + cbn [faithful]. rewrite E1. intros [F1 F2] w w' Sw Ow E. rewrite Eg in Sw, Ow. rewrite Ev in E. destruct (tr_valid r2 w) as [x|] eqn:Ex; [|discriminate].
      destruct (V2 F2 w x Sw Ow Ex) as [Sx Ox]. exact (V1 F1 x w' Sx Ox E).
Qed.
Theorem default_sound g t : wf_graph g -> unbased g -> fresh_rewriting (t_rewrite o) g -> run_stages o default_stages g = Some t ->
  staged g t /\ (faithful default_stages g -> valid_back g t).
Proof.
  intros W U FR E. unfold default_stages in E. apply run_cons in E as [r [r2 [E1 [E2 [Eg [Ev Ei]]]]]].
  destruct (stage_sound Simplify g r W U (fun _ => FR) E1) as [S1 V1].
  destruct (run_sound (tl default_stages) (tr_graph r) r2) as [S2 V2]; [|apply S1|apply S1|exact E2|].
  { intros x Hx. cbn in Hx. repeat (destruct Hx as [<-|Hx]; [discriminate|]). destruct Hx. }
  destruct S1 as [A1 A2 A3 A4], S2 as [B1 B2 B3 B4]. split.
  + split; rewrite ?Eg; auto; [rewrite A3; exact B3|]. intros d d' D E. rewrite Ei in E. destruct (tr_invalid r2 d) as [x|] eqn:Ex; [|discriminate].
    apply (A4 x d'); [|exact E]. apply (B4 d x D Ex).
  + unfold default_stages. cbn [faithful]. rewrite E1. intros [F1 F2] w w' Sw Ow E. rewrite Eg in Sw, Ow. rewrite Ev in E. destruct (tr_valid r2 w) as [x|] eqn:Ex; [|discriminate].
    destruct (V2 F2 w x Sw Ow Ex) as [Sx Ox]. exact (V1 I x w' Sx Ox E).
Qed.
End S.
