(** * Node elimination keeps the infinite runs. *)
From Verif Require Import Syntax Solver TransSys Graph GraphOps GraphOpsProofs ValidatorModel FormulaModel GraphSem SimpleTransModel UnreachProofs UnreachProofs2 SimpleTransProofs SimpleTransProofs2 ListLemmas MergeModel MergeProofs ChainProofs ChainStep ChainBack ElimModel PairProofs PairLabel ElimProofs ElimLoop TermRuns.
From Coq Require Import Relation_Operators.
Open Scope list_scope.
Open Scope nat_scope.

Lemma single_split (p : sym) l1 m l2 : [p] = l1 ++ m :: l2 -> l1 = [] /\ l2 = [] /\ p = m.
Proof. destruct l1 as [|x l1]; cbn; intros H; [injection H as -> <-; auto|]. injection H as _ H. destruct l1; discriminate. Qed.
Lemma composed_single g e1 e2 s a f : composed g e1 e2 s [] [] [a] f <-> exists m, follows g e1 [a] m /\ follows g e2 [m] f.
Proof.
  split.
  - intros [sf [mf [ps1 [ps2 [H1 [H2 [E1 [E2 Hp]]]]]]]]. destruct ps1; [|discriminate]. destruct ps2; [|discriminate]. cbn [app] in *.
    assert (a = sf) by (destruct (Nat.eqb s entry); injection Hp as ->; reflexivity). subst. eauto.
  - intros [m [H1 H2]]. exists a, m, [], []. cbn [app map]. repeat (split; [assumption || reflexivity|]). destruct (Nat.eqb s entry); reflexivity.
Qed.
Section Node.
Variable elim : elim_fn.
Hypothesis Helim : elim_ok elim.
Variable fresh : nat.
Variable g : hgraph.
Hypothesis W : wf_graph g.
Hypothesis L : linear g.
Variable v : sym.
Hypothesis E : eliminable g v.
Let g' := delete_nodes [v] (fst (merge_pairs elim fresh g (list_prod (ins g v) (outs g v)))).
Lemma pair_single e1 e2 s l1 l2 : pair_ok g e1 e2 s l1 l2 -> l1 = [] /\ l2 = [].
Proof. intros P. destruct (ln_single g L e2 (po_in2 _ _ _ _ _ _ P)) as [p Hp]. pose proof (po_from2 _ _ _ _ _ _ P) as X. rewrite Hp in X. apply single_split in X. tauto. Qed.
Theorem node_runs : runs_forever g <-> runs_forever g'.
Proof.
  split.
  - intros R. apply (endless_coind (gstep g') (fun a => fst a <> v /\ endless (gstep g) a)); [|split; [intros X; apply (el_entry _ _ E); auto|exact R]].
    intros a [Na Ea]. destruct (endless_inv _ _ Ea) as [b [[x [Hx Fx]] Eb]]. destruct (follows_from _ _ _ _ Fx) as [F1 F2].
    destruct (Nat.eq_dec (fst b) v) as [Bv|Bv].
    + destruct (endless_inv _ _ Eb) as [d [[y [Hy Fy]] Ed]]. destruct (follows_from _ _ _ _ Fy) as [G1 G2].
      assert (Oy : In v (efrom y)) by (rewrite G1, Bv; left; reflexivity).
      destruct (pair_new elim Helim fresh g W v E x y) as [n [s [l1 [l2 [Hn [P [M1 [M2 M3]]]]]]]]; [apply ins_in; split; [exact Hx|congruence]|apply outs_in; auto|].
      destruct (pair_single _ _ _ _ _ P) as [-> ->]. exists d. split; [|split; [|exact Ed]].
      * exists n. split; [exact Hn|]. apply (follows_pv g g' _ _ _ (el_pv elim Helim fresh g W v E)). apply M3. apply composed_single. eauto.
      * rewrite G2. apply (el_out _ _ E y Hy Oy).
    + exists b. split; [|split; [exact Bv|exact Eb]]. exists x. split.
      * apply (el_edges elim Helim fresh g W v E). split; [left; exact Hx|]. rewrite F1, <- F2. split; [exact Bv|]. intros [X|[]]. exact (Na X).
      * apply (follows_pv g g' _ _ _ (el_pv elim Helim fresh g W v E)). exact Fx.
  - apply endless_path. intros a b [x [Hx Fx]]. apply (follows_pv g g' _ _ _ (el_pv elim Helim fresh g W v E)) in Fx.
    apply (el_edges elim Helim fresh g W v E) in Hx as [[Hx|Hx] _]; [apply t1n_step; exists x; auto|].
    destruct (new_in elim Helim fresh g W v E x Hx) as [e1 [e2 [s [l1 [l2 [_ [H1 [H2 [P [M1 [M2 M3]]]]]]]]]]]. destruct (pair_single _ _ _ _ _ P) as [-> ->].
    apply M3 in Fx. apply composed_single in Fx as [m [Q1 Q2]]. apply ins_in in H1 as [H1 _]. apply outs_in in H2 as [H2 _].
    eapply t1n_trans; [|apply t1n_step]; [exists e1; eauto|exists e2; eauto].
Qed.
Theorem node_linear : linear g'.
Proof.
  split; intros x Hx; apply (el_edges elim Helim fresh g W v E) in Hx as [[Hx|Hx] _].
  - apply (ln_single g L x Hx).
  - destruct (new_in elim Helim fresh g W v E x Hx) as [e1 [e2 [s [l1 [l2 [_ [H1 [H2 [P [M1 [M2 M3]]]]]]]]]]]. destruct (pair_single _ _ _ _ _ P) as [-> ->].
    rewrite M1. unfold new_from. cbn [app]. destruct (Nat.eqb s entry); eauto.
  - apply (ln_noexit g L x Hx).
  - destruct (new_in elim Helim fresh g W v E x Hx) as [e1 [e2 [s [l1 [l2 [_ [H1 [H2 [P [M1 [M2 M3]]]]]]]]]]]. rewrite M2. apply (ln_noexit g L). apply outs_in in H2. tauto.
Qed.
End Node.
Section Loop.
Variable elim : elim_fn.
Hypothesis Helim : elim_ok elim.
Variable fresh : nat.
Variable pred : hgraph -> sym -> bool.
Hypothesis Hpred : pred_ok pred.
Theorem eliminate_runs fuel : forall g vs g' cs, wf_graph g -> linear g -> (forall v, In v vs -> v <> entry /\ v <> exit) ->
  eliminate_loop elim fresh pred fuel g vs = Some (g', cs) -> (runs_forever g <-> runs_forever g') /\ linear g'.
Proof.
  induction fuel as [|fuel IH]; intros g vs g' cs W L Hvs H; [discriminate|]. cbn [eliminate_loop] in H.
  destruct (find_node pred g vs) as [[v|]|] eqn:Ef; [| |discriminate].
  2:{ injection H as <- <-. split; [tauto|exact L]. }
  apply find_node_some in Ef as [Hv [Pv Nv]]. destruct (Hvs v Hv) as [N1 N2]. rewrite (contract_eq elim fresh pred Hpred g v W N1 N2 Pv) in H.
  destruct (Hpred g v W N1 N2 Pv) as [E _].
  set (g1 := delete_nodes [v] (fst (merge_pairs elim fresh g (list_prod (ins g v) (outs g v))))) in *.
  destruct (eliminate_loop elim fresh pred fuel g1 (remove_first v vs)) as [[g2 cs2]|] eqn:El; [|discriminate]. cbn [option_map fst snd] in H. injection H as <- <-.
  destruct (IH g1 (remove_first v vs) g2 cs2) as [R2 L2]; [apply (el_wf elim Helim fresh g W v E)|apply node_linear; assumption| |exact El|].
  - intros u Hu. apply Hvs. apply remove_first_in in Hu. exact Hu.
  - split; [|exact L2]. rewrite <- R2. apply node_runs; assumption.
Qed.
End Loop.
