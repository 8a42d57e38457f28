(** * The preprocessing pipelines end, except possibly in the edge inlining. *)
From Verif Require Import Syntax Solver TransSys Graph GraphOps GraphOpsProofs ValidatorModel FormulaModel GraphSem SimpleTransModel UnreachProofs UnreachProofs2 SimpleTransProofs SimpleTransProofs2 SimplifierProofs ListLemmas MergeModel MergeProofs ChainProofs ChainStep ChainBack ChainTotal ElimModel PairProofs PairLabel ElimProofs ElimLoop InlineModel InlineProofs InlineStep PipelineModel PipelineProofs.
From Coq Require Import Lia.
Open Scope list_scope.
Open Scope nat_scope.

Section S.
Variable o : tools.
Hypothesis O : tools_ok o.

Lemma fed_nil g : gedges g = [] -> fed g.
Proof. intros E v [->|[->|[e [He _]]]] N1 N2; try congruence. rewrite E in He. destruct He. Qed.
Lemma fed_unreachable g t : wf_graph g -> remove_unreachable g = Some t -> fed (tr_graph t).
Proof.
  intros W E. unfold remove_unreachable in E. destruct (in_edges g exit); [injection E as <-; apply fed_nil; reflexivity|].
  destruct (out_edges g entry); [injection E as <-; apply fed_nil; reflexivity|].
  destruct (backward_ok g (wf_ids _ W)) as [bu [E1 HB]]. rewrite E1 in E.
  assert (W1 : wf_graph (delete_nodes bu g)) by (apply wf_delete_nodes, W).
  destruct (forward_ok (delete_nodes bu g) (wf_ids _ W1)) as [fu [E2 HF]]. rewrite E2 in E. injection E as <-. cbn [tr_graph].
  intros v V N1 N2. destruct V as [->|[->|[e [He Hv]]]]; try congruence. apply delete_nodes_edges in He as [He Hd].
  assert (V1 : vertex (delete_nodes bu g) v) by (right; right; exists e; split; [exact He|tauto]).
  assert (NF : ~ In v fu) by (intros Hf; destruct (Hd v Hf) as [A B]; destruct Hv as [Hv|Hv]; [exact (B Hv)|congruence]).
  destruct (fw_used _ _ HF v V1 NF) as [->|[e2 [H1 [H2 H3]]]]; [congruence|]. exists e2. split; [|exact H2].
  apply (edge2 g W bu fu HF e2 H1 H3).
Qed.
(** Every edge of the merged graph stands for an edge with the same ends, and conversely. *)
Lemma merge_multi_ends g e : NoDup (map eid (gedges g)) -> In e (gedges g) -> exists e2, In e2 (gedges (merge_multi g)) /\ eto e2 = eto e /\ efrom e2 = efrom e.
Proof.
  intros ND He. unfold merge_multi. cbn [gedges]. destruct (is_single e) eqn:Es.
  2:{ exists e. split; [|auto]. apply in_concat. exists (merge_one g e). split; [apply in_map, He|]. unfold merge_one. rewrite Es. left. reflexivity. }
  assert (B : In e (bucket g e)).
  { apply filter_In. split; [exact He|]. unfold same_bucket. rewrite Es, !Nat.eqb_refl. reflexivity. }
  destruct (bucket g e) as [|b0 [|b1 b]] eqn:Eb; [destruct B| |].
  - exists e. split; [|auto]. apply in_concat. exists (merge_one g e). split; [apply in_map, He|]. unfold merge_one. rewrite Es, Eb. left. reflexivity.
  - assert (B0 : In b0 (bucket g e)) by (rewrite Eb; left; reflexivity). apply filter_In in B0 as [H0 S0]. pose proof S0 as S0'.
    unfold same_bucket in S0. rewrite !andb_true_iff, !Nat.eqb_eq in S0. destruct S0 as [[[S1 S2] S3] S4].
    assert (BE : bucket g b0 = bucket g e).
    { unfold bucket. apply filter_ext. intros x. unfold same_bucket. rewrite S1, S2, S3, S4. reflexivity. }
    exists (merged_edge (bucket g e) b0). split.
    + apply in_concat. exists (merge_one g b0). split; [apply in_map, H0|]. unfold merge_one. rewrite S2, BE, Eb, Nat.eqb_refl. left. reflexivity.
    + cbn [merged_edge eto efrom]. split; [auto|]. unfold is_single in *. apply Nat.eqb_eq in S1, S2.
      destruct (efrom e) as [|x [|? ?]]; try discriminate. destruct (efrom b0) as [|y [|? ?]]; try discriminate. cbn in S3. congruence.
Qed.
Lemma merge_multi_from g e : In e (gedges (merge_multi g)) -> exists e0, In e0 (gedges g) /\ eto e = eto e0 /\ efrom e = efrom e0.
Proof.
  unfold merge_multi. cbn [gedges]. intros He. apply in_concat in He as [l [Hl He]]. apply in_map_iff in Hl as [e0 [<- H0]].
  unfold merge_one in He. destruct (is_single e0); [|destruct He as [<-|[]]; eauto].
  assert (B : forall x, In x (bucket g e0) -> In x (gedges g)) by (intros x Hx; apply filter_In in Hx; tauto).
  destruct (bucket g e0) as [|b0 [|b1 b]]; try (destruct He as [<-|[]]; eauto).
  destruct (Nat.eqb (eid b0) (eid e0)); [|destruct He]. destruct He as [<-|[]]. exists b0. split; [apply B; left; reflexivity|auto].
Qed.
Lemma fed_merge g : wf_graph g -> fed g -> fed (merge_multi g).
Proof.
  intros W F v V N1 N2. destruct V as [->|[->|[e [He Hv]]]]; try congruence. apply merge_multi_from in He as [e0 [H0 [E1 E2]]].
  destruct (F v) as [e3 [H3 E3]]; auto. { right; right. exists e0. rewrite <- E1, <- E2. auto. }
  destruct (merge_multi_ends g e3 (wf_ids _ W) H3) as [e2 [H2 [E4 _]]]. exists e2. split; [exact H2|congruence].
Qed.
Lemma fed_prune g : fed g -> fed (tr_graph (prune_trivial (t_check o) g)).
Proof.
  intros F. unfold prune_trivial. destruct (filter is_direct (gedges g)) as [|e0 l0] eqn:E; [exact F|]. rewrite <- E.
  assert (L : forall es, (forall e, In e es -> is_direct e = true) -> fed (tr_graph (prune_loop (t_check o) g es))).
  { induction es as [|e es IH]; intros D; cbn [prune_loop].
    - intros v V N1 N2. destruct V as [->|[->|[x [Hx Hv]]]]; try congruence. cbn [tr_graph filter_edges gedges] in Hx. apply filter_In in Hx as [Hx _].
      destruct (F v) as [e3 [H3 E3]]; auto. { right; right. eauto. }
      exists e3. split; [|exact E3]. apply filter_In. split; [exact H3|]. unfold is_direct. rewrite E3. apply Nat.eqb_neq in N2. rewrite N2. reflexivity.
    - specialize (D e (or_introl eq_refl)) as D0. destruct (t_check o [efla e]); cbn [tr_graph].
      + intros v V N1 N2. unfold is_direct in D0. apply andb_true_iff in D0 as [D1 D2]. apply Nat.eqb_eq in D1.
        destruct (efrom e) as [|p [|? ?]] eqn:Ef; try discriminate. apply Nat.eqb_eq in D2.
        destruct V as [->|[->|[x [[<-|[]] [Hv|Hv]]]]]; try congruence; cbn [efrom eto] in Hv; [destruct Hv as [<-|[]]|]; congruence.
      + apply IH. intros x Hx. apply D. right. exact Hx.
      + exact F. }
  apply L. intros e He. rewrite E in He. rewrite <- E in He. apply filter_In in He. tauto.
Qed.

(** A stage that is not the edge inlining ends. *)
Definition ready (s : stage) (g : hgraph) : Prop :=
  match s with
  | SimpleNodes _ | BetterNodes _ => fed g
  | Inline _ => False
  | _ => True
  end.
Lemma stage_total s g : wf_graph g -> ready s g -> exists t, transform o s g = Some t.
Proof.
  intros W R. destruct s; cbn [transform ready] in *; eauto.
  - unfold summarize. destruct (summarize_loop (t_elim o) (t_vertices o) (S (length (gedges g))) g) as [[g' cs]|] eqn:E; [eauto|].
    exfalso. revert E. apply summarize_loop_total; [apply O|intros h v; apply O|exact W|lia].
  - destruct (remove_unreachable_ok g W) as [t [E _]]. eauto.
  - apply eliminate_total; auto; [apply O| |apply O|intros v; apply O]. intros h v W' N1 N2 H. apply simple_pred_ok; assumption.
  - apply eliminate_total; auto; [apply O| |apply O|intros v; apply O]. intros h v W' N1 N2 H. apply better_pred_ok; assumption.
  - destruct R.
Qed.
(** Running a pipeline: every stage ends as long as the node eliminations follow the removal of unreachable nodes. *)
Fixpoint planned (ss : list stage) : bool :=
  match ss with
  | [] => true
  | Unreachable :: SimpleNodes _ :: ss' => planned ss'
  | (SimpleNodes _ | BetterNodes _ | Inline _ | Simplify) :: _ => false
  | _ :: ss' => planned ss'
  end.
Lemma run_total : forall n ss g, length ss <= n -> planned ss = true -> wf_graph g -> unbased g -> exists t, run_stages o ss g = Some t.
Proof.
  induction n as [|n IH]; intros ss g L P W U.
  - destruct ss; [|cbn in L; lia]. unfold run_stages, pipeline. cbn. eauto.
  - destruct ss as [|s ss]; [unfold run_stages, pipeline; cbn; eauto|].
    assert (ST : forall s' g', s' <> Simplify -> wf_graph g' -> unbased g' -> forall t, transform o s' g' = Some t -> wf_graph (tr_graph t) /\ unbased (tr_graph t)).
    { intros s' g' NS W' U' t E. destruct (stage_sound o O s' g' t W' U' (fun X => False_ind _ (NS X)) E) as [[A B _ _] _]. auto. }
    assert (ONE : ready s g -> s <> Simplify -> planned ss = true -> exists t, run_stages o (s :: ss) g = Some t).
    { intros R NS P'. destruct (stage_total s g W R) as [t E]. apply run_cons_some with (1 := E). destruct (ST s g NS W U t E). apply IH; auto. cbn in L; lia. }
    destruct s; try discriminate; try (apply ONE; [exact I|discriminate|exact P]).
    destruct ss as [|s2 ss2]; [apply ONE; [exact I|discriminate|reflexivity]|].
    destruct s2; try (apply ONE; [exact I|discriminate|exact P]).
    destruct (stage_total Unreachable g W I) as [t E]. apply run_cons_some with (1 := E).
    destruct (ST Unreachable g) with (4 := E) as [W1 U1]; auto; [discriminate|].
    assert (F1 : fed (tr_graph t)) by (apply (fed_unreachable g t W E)).
    destruct (stage_total (SimpleNodes n0) (tr_graph t) W1 F1) as [t2 E2]. apply run_cons_some with (1 := E2).
    destruct (ST (SimpleNodes n0) (tr_graph t)) with (4 := E2) as [W2 U2]; auto; [discriminate|]. apply IH; auto. cbn in L; lia.
Qed.

Lemma run_app ss1 ss2 : forall g t1, run_stages o ss1 g = Some t1 -> run_stages o (ss1 ++ ss2) g = None -> run_stages o ss2 (tr_graph t1) = None.
Proof.
  induction ss1 as [|s ss1 IH]; intros g t1 E1 E2.
  - apply run_nil in E1 as ->. exact E2.
  - apply run_cons in E1 as [r [r2 [A1 [A2 [Eg _]]]]]. rewrite Eg. apply (IH (tr_graph r) r2 A2).
    destruct (run_stages o (ss1 ++ ss2) (tr_graph r)) as [t|] eqn:E; [|reflexivity].
    destruct (run_cons_some o s (ss1 ++ ss2) g r A1 (ex_intro _ t E)) as [t' E']. cbn [app] in E2. congruence.
Qed.
Definition first_stages : list stage := [Simplify; Chains; Unreachable; SimpleNodes 0].
Definition last_stages : list stage :=
  [FalseClauses; Unreachable; MultiEdges; Chains; Unreachable; SimpleNodes 2; FalseClauses; Unreachable; MultiEdges; TrivialEdges].
Lemma default_split : default_stages = first_stages ++ Inline 1 :: last_stages. Proof. reflexivity. Qed.
Theorem first_total g : wf_graph g -> unbased g -> fresh_rewriting (t_rewrite o) g -> exists t, run_stages o first_stages g = Some t /\ staged g t.
Proof.
  intros W U FR. destruct (stage_total Simplify g W I) as [r E]. destruct (stage_sound o O Simplify g r W U (fun _ => FR) E) as [[A1 A2 A3 A4] _].
  destruct (run_total 3 [Chains; Unreachable; SimpleNodes 0] (tr_graph r)) as [t2 E2]; auto.
  destruct (run_cons_some o Simplify _ g r E (ex_intro _ t2 E2)) as [t Et]. exists t. split; [exact Et|].
  apply run_cons in Et as [r' [r2 [E1' [E2' [Eg [Ev Ei]]]]]]. rewrite E in E1'. injection E1' as <-.
  destruct (run_sound o O [Chains; Unreachable; SimpleNodes 0] (tr_graph r) r2) as [[B1 B2 B3 B4] _]; auto.
  { intros x Hx. cbn in Hx. repeat (destruct Hx as [<-|Hx]; [discriminate|]). destruct Hx. }
  split; rewrite ?Eg; auto; [rewrite A3; exact B3|]. intros d d' D Ed. rewrite Ei in Ed. destruct (tr_invalid r2 d) as [x|] eqn:Ex; [|discriminate].
  apply (A4 x d'); [|exact Ed]. apply (B4 d x D Ex).
Qed.
Theorem default_total g : wf_graph g -> unbased g -> fresh_rewriting (t_rewrite o) g -> run_stages o default_stages g = None ->
  exists t, run_stages o first_stages g = Some t /\ inline_edges (t_check o) (t_itp o) (t_elim o) (t_fresh o 1) (t_ifuel o) (tr_graph t) = None.
Proof.
  intros W U FR N. destruct (first_total g W U FR) as [t [E [A1 A2 _ _]]]. exists t. split; [exact E|].
  rewrite default_split in N. apply (run_app first_stages _ g t E) in N.
  destruct (inline_edges _ _ _ _ _ (tr_graph t)) as [[t2 l]|] eqn:EI; [|reflexivity]. exfalso.
  assert (TI : transform o (Inline 1) (tr_graph t) = Some t2) by (cbn [transform]; rewrite EI; reflexivity).
  destruct (stage_sound o O (Inline 1) (tr_graph t) t2 A1 A2 ltac:(discriminate) TI) as [[B1 B2 _ _] _].
  destruct (run_total 10 last_stages (tr_graph t2)) as [t3 E3]; auto.
  destruct (run_cons_some o (Inline 1) last_stages _ t2 TI (ex_intro _ t3 E3)) as [t4 E4]. congruence.
Qed.
(** The second pipeline runs on the result of the first. *)
Theorem default_fed g t : wf_graph g -> unbased g -> fresh_rewriting (t_rewrite o) g -> run_stages o default_stages g = Some t -> fed (tr_graph t).
Proof.
  intros W U FR E.
  assert (X : forall ss h t, run_stages o (ss ++ [Unreachable; MultiEdges; TrivialEdges]) h = Some t -> wf_graph h -> unbased h -> (In Simplify ss -> False) -> fed (tr_graph t)).
  { induction ss as [|s ss IH]; intros h t' Et Wh Uh NS.
    - cbn [app] in Et. apply run_cons in Et as [r [r2 [E1 [E2 [Eg _]]]]]. rewrite Eg. destruct (stage_sound o O Unreachable h r Wh Uh ltac:(discriminate) E1) as [[B1 B2 _ _] _].
      pose proof (fed_unreachable h r Wh E1) as F1. apply run_cons in E2 as [r3 [r4 [E3 [E4 [Eg2 _]]]]]. rewrite Eg2.
      cbn [transform] in E3. injection E3 as <-. pose proof (fed_merge _ B1 F1) as F2. cbn [merge_edges tr_graph] in E4.
      apply run_cons in E4 as [r5 [r6 [E5 [E6 [Eg3 _]]]]]. rewrite Eg3. apply run_nil in E6. rewrite E6. cbn [tr_graph]. cbn [transform] in E5. injection E5 as <-.
      apply fed_prune, F2.
    - cbn [app] in Et. apply run_cons in Et as [r [r2 [E1 [E2 [Eg _]]]]]. rewrite Eg.
      assert (N : s <> Simplify) by (intros ->; apply NS; left; reflexivity).
      destruct (stage_sound o O s h r Wh Uh (fun Q => False_ind _ (N Q)) E1) as [[B1 B2 _ _] _].
      apply (IH _ _ E2 B1 B2). intros Hx. apply NS. right. exact Hx. }
  unfold default_stages in E. apply run_cons in E as [r [r2 [E1 [E2 [Eg _]]]]]. rewrite Eg.
  destruct (stage_sound o O Simplify g r W U (fun _ => FR) E1) as [[B1 B2 _ _] _].
  apply (X [Chains; Unreachable; SimpleNodes 0; Inline 1; FalseClauses; Unreachable; MultiEdges; Chains; Unreachable; SimpleNodes 2; FalseClauses] _ _ E2 B1 B2).
  intros Hx. cbn in Hx. repeat (destruct Hx as [Hx|Hx]; [discriminate|]). destruct Hx.
Qed.
Theorem towards_total g : wf_graph g -> unbased g -> fed g -> exists t, run_stages o towards_stages g = Some t.
Proof.
  intros W U F. destruct (stage_total (BetterNodes 3) g W F) as [r E]. destruct (stage_sound o O (BetterNodes 3) g r W U ltac:(discriminate) E) as [[B1 B2 _ _] _].
  destruct (run_total 4 [FalseClauses; Unreachable; MultiEdges; TrivialEdges] (tr_graph r)) as [t2 E2]; auto.
  apply (run_cons_some o _ _ g r E). eauto.
Qed.
End S.
