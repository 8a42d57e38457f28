(** * Properties C41, C42, C43: graph algorithms. *)
From Verif Require Import Syntax Solver Graph GraphOps GraphOpsProofs DfsProofs LoopProofs ReverseProofs.
Open Scope nat_scope.

(** ** C43 *)
(** The incoming list of a vertex is the list of edges with that target, the outgoing list the list of
    edges with that vertex among its sources (each once, in edge order), and the nodes are exactly the
    vertices. *)
Theorem C43_adjacency :
  forall g, NoDup (map eid (gedges g)) ->
    let ad := adjacency_of g in
    (forall p l, aget (incoming ad) p = Some l -> l = map eid (filter (fun e => Nat.eqb (eto e) p) (gedges g))) /\
    (forall p l, aget (outgoing ad) p = Some l ->
       (forall i, In i l <-> exists e, In e (gedges g) /\ eid e = i /\ In p (efrom e)) /\ NoDup l) /\
    (forall p, aget (incoming ad) p <> None <-> p = entry \/ p = exit \/ exists e, In e (gedges g) /\ (In p (efrom e) \/ p = eto e)) /\
    (forall p, aget (outgoing ad) p <> None <-> aget (incoming ad) p <> None) /\
    NoDup (nodes ad) /\ (forall p, In p (nodes ad) <-> aget (incoming ad) p <> None).
Proof.
  intros g N ad. destruct (adjacency_ok g N) as [A1 [A2 [A3 [A4 [A5 A6]]]]]. fold ad in A1, A2, A3, A4, A5, A6.
  split; [|split; [|split; [|split; [|split]]]].
  - intros p l E. rewrite <- A1. unfold getd. rewrite E. reflexivity.
  - intros p l E. assert (El : l = map eid (filter (fun e => smem p (efrom e)) (gedges g))).
    { rewrite <- A2. unfold getd. rewrite E. reflexivity. }
    subst l. split.
    + intros i. rewrite in_map_iff. split.
      * intros [e [H1 H2]]. apply filter_In in H2 as [H2 H3]. apply smem_in in H3. eauto.
      * intros [e [H1 [H2 H3]]]. exists e. split; [exact H2|]. apply filter_In. split; [exact H1|]. apply smem_in, H3.
    + clear - N. induction (gedges g) as [|e es IH]; [constructor|]. cbn [map] in N. inversion N as [|? ? Hn N']; subst.
      cbn [filter]. destruct (smem p (efrom e)); [|auto]. cbn [map]. constructor; [|auto].
      intros H. apply Hn. apply in_map_iff in H as [x [Ex Hx]]. apply filter_In in Hx as [Hx _].
      apply in_map_iff. exists x. auto.
  - intros p. rewrite aget_dom. apply A3.
  - intros p. rewrite !aget_dom, A4, A3. tauto.
  - exact A5.
  - intros p. rewrite aget_dom. reflexivity.
Qed.
Print Assumptions C43_adjacency.

(** The same for linear graphs. *)
Theorem C43_adjacency_linear :
  forall g, let ad := ladjacency_of g in
    (forall p l, aget (incoming ad) p = Some l -> l = map lid (filter (fun e => Nat.eqb (lto e) p) (ledges g))) /\
    (forall p l, aget (outgoing ad) p = Some l -> l = map lid (filter (fun e => Nat.eqb (lfrom e) p) (ledges g))) /\
    (forall p, aget (incoming ad) p <> None <-> p = entry \/ p = exit \/ exists e, In e (ledges g) /\ (p = lfrom e \/ p = lto e)) /\
    (forall p, aget (outgoing ad) p <> None <-> p = entry \/ p = exit \/ exists e, In e (ledges g) /\ (p = lfrom e \/ p = lto e)).
Proof.
  intros g ad. destruct (ladjacency_ok g) as [A1 [A2 [A3 A4]]]. fold ad in A1, A2, A3, A4.
  split; [|split; [|split]].
  - intros p l E. rewrite <- A1. unfold getd. rewrite E. reflexivity.
  - intros p l E. rewrite <- A2. unfold getd. rewrite E. reflexivity.
  - intros p. rewrite aget_dom. apply A3.
  - intros p. rewrite aget_dom. apply A4.
Qed.
Print Assumptions C43_adjacency_linear.

(** ** C42 *)
(** Reachability along edges, independent of the adjacency lists. *)
Inductive path (g : lgraph) : sym -> sym -> Prop :=
| path_refl v : path g v v
| path_edge e w : In e (ledges g) -> path g (lto e) w -> path g (lfrom e) w.
Lemma path_reach g : NoDup (map lid (ledges g)) -> forall a b, path g a b <-> reach (succs g) a b.
Proof.
  intros N a b. split; intros H.
  - induction H as [|e w He _ IH]; [constructor|]. eapply reach_step; [|exact IH]. apply succs_spec; eauto.
  - induction H as [|v w u Hw _ IH]; [constructor|]. apply succs_spec in Hw as [e [He [<- <-]]]; [|exact N].
    apply path_edge; auto.
Qed.

(** The reverse post-order lists every vertex reachable from entry exactly once; on an edge u -> w between
    listed vertices, u comes before w unless w reaches u. *)
Theorem C42_reverse_post_order :
  forall g, NoDup (map lid (ledges g)) ->
    exists o, reverse_post_order g = Some o /\ NoDup o /\ (forall v, In v o <-> path g entry v) /\
      forall e l1 l2, In e (ledges g) -> o = l1 ++ lfrom e :: l2 -> In (lto e) l2 \/ path g (lto e) (lfrom e).
Proof.
  intros g N. destruct (post_order_ok g N) as [o [E [N' [H1 H2]]]]. exists (rev o).
  unfold reverse_post_order. rewrite E. split; [reflexivity|]. split; [apply NoDup_rev, N'|]. split.
  - intros v. rewrite <- in_rev, H1. symmetry. apply path_reach, N.
  - intros e l1 l2 He Eo. assert (Er : o = rev l2 ++ lfrom e :: rev l1).
    { rewrite <- (rev_involutive o), Eo, rev_app_distr. simpl. rewrite <- app_assoc. reflexivity. }
    destruct (H2 _ _ _ Er (lto e)) as [H|H].
    + apply succs_spec; eauto.
    + left. rewrite in_rev. exact H.
    + right. apply path_reach; auto.
Qed.
Print Assumptions C42_reverse_post_order.

(** A simple cycle through at least two vertices, given by edge ids: consecutive edges meet, the last
    returns to the first, no vertex is visited twice. *)
Inductive edge_path (g : lgraph) : sym -> list nat -> sym -> Prop :=
| ep_nil v : edge_path g v [] v
| ep_cons e l w : In e (ledges g) -> edge_path g (lto e) l w -> edge_path g (lfrom e) (lid e :: l) w.
Definition cycle (g : lgraph) (l : list nat) : Prop :=
  2 <= length l /\ (exists v, edge_path g v l v) /\ NoDup (map (lsource g) l).

Lemma chain_edge_path g : NoDup (map lid (ledges g)) -> forall l, (forall i, In i l -> is_edge g i) ->
  (forall l1 i j l2, l = l1 ++ i :: j :: l2 -> ltarget g i = lsource g j) -> forall d, l <> [] ->
  edge_path g (lsource g (hd d l)) l (ltarget g (last l d)).
Proof.
  intros N. induction l as [|i l IH]; intros He Hc d Hn; [congruence|].
  destruct (He i (or_introl eq_refl)) as [e [H1 H2]].
  assert (Es : lsource g i = lfrom e) by (unfold lsource; rewrite <- H2, (lfind_in g e N H1); reflexivity).
  assert (Et : ltarget g i = lto e) by (unfold ltarget; rewrite <- H2, (lfind_in g e N H1); reflexivity).
  cbn [hd]. rewrite Es. rewrite <- H2 at 1. apply ep_cons; [exact H1|].
  destruct l as [|j l].
  - cbn [last]. rewrite Et. constructor.
  - change (last (i :: j :: l) d) with (last (j :: l) d). rewrite <- Et. rewrite (Hc [] i j l eq_refl).
    change (lsource g j) with (lsource g (hd d (j :: l))). apply IH.
    + intros k Hk. apply He. simpl in *. auto.
    + intros l1 a b l2 E. apply (Hc (i :: l1) a b l2). simpl. rewrite E. reflexivity.
    + discriminate.
Qed.

(** Loop detection returns a simple cycle of edges whose vertices are reachable from entry; if it returns no
    edge and the graph has more than three vertices, then no two distinct reachable vertices lie on a
    common cycle. *)
Theorem C42_detect_loop :
  forall g, NoDup (map lid (ledges g)) ->
    exists l, detect_loop g = Some l /\
      (l <> [] -> cycle g l /\ forall i, In i l -> path g entry (lsource g i)) /\
      (l = [] -> 3 < length (lvertices g) ->
         forall a b, path g entry a -> a <> b -> path g a b -> path g b a -> False).
Proof.
  intros g N. destruct (detect_loop_ok g N) as [l [E [H1 H2]]]. exists l. split; [exact E|]. split.
  - intros Hn. destruct (H1 Hn) as [[C1 C2 C3 C4 C5] R]. split.
    + split; [exact C2|]. split; [|exact C5]. exists (lsource g (hd 0 l)).
      rewrite <- (C4 0) at 2. apply chain_edge_path; auto.
    + intros i Hi. apply path_reach; auto.
  - intros E0 Hlen a b Ha Hne Hab Hba. apply (path_reach g N) in Ha. apply (path_reach g N) in Hab. apply (path_reach g N) in Hba. eapply H2; eauto.
Qed.
Print Assumptions C42_detect_loop.

(** With at most three vertices the code does not search; that is right for graphs in which no edge enters
    entry or leaves exit (such as the graphs built from clauses): there is at most one other vertex. *)
Theorem C42_detect_loop_small :
  forall g, NoDup (map lid (ledges g)) -> length (lvertices g) <= 3 ->
    (forall e, In e (ledges g) -> lto e <> entry /\ lfrom e <> exit) ->
    detect_loop g = Some [] /\ forall a b, a <> b -> path g a b -> path g b a -> False.
Proof.
  intros g N Hlen Hio. split.
  - unfold detect_loop. apply Nat.leb_le in Hlen. rewrite Hlen. reflexivity.
  - intros a b Hne Hab Hba.
    assert (F : forall x y, path g x y -> x <> y -> (exists e, In e (ledges g) /\ lfrom e = x) /\ (exists e, In e (ledges g) /\ lto e = y)).
    { intros x y H. induction H as [|e w He Hp IH]; [congruence|]. intros _. split; [eauto|].
      destruct (Nat.eq_dec (lto e) w) as [<-|Hn]; [eauto|]. apply IH in Hn. apply Hn. }
    destruct (F a b Hab Hne) as [[e1 [He1 Ea1]] [e2 [He2 Eb2]]].
    destruct (F b a Hba (not_eq_sym Hne)) as [[e3 [He3 Eb3]] [e4 [He4 Ea4]]].
    assert (ND : NoDup [entry; exit; a; b]).
    { repeat constructor; simpl; intuition; unfold entry, exit in *; subst; try congruence.
      - destruct (Hio e4 He4) as [X _]. apply X. congruence.
      - destruct (Hio e2 He2) as [X _]. apply X. congruence.
      - destruct (Hio e1 He1) as [_ X]. apply X. congruence.
      - destruct (Hio e3 He3) as [_ X]. apply X. congruence. }
    assert (I : incl [entry; exit; a; b] (lvertices g)).
    { intros x Hx. apply lvertices_spec. unfold lvertex. simpl in Hx.
      destruct Hx as [<-|[<-|[<-|[<-|[]]]]]; eauto 6. }
    pose proof (NoDup_incl_length ND I). simpl in H. unfold lvertices in *. lia.
Qed.
Print Assumptions C42_detect_loop_small.

(** ** C41 *)
(** Every step of the reversed graph is a step of the graph backwards and vice versa, hence paths too;
    reversing twice gives back the graph. *)
Theorem C41_reverse_flips_paths :
  forall g, lgraph_wf g -> forall a b, lreach (reverse g) b a <-> lreach g a b.
Proof. intros g W a b. apply reverse_reach, W. Qed.
Print Assumptions C41_reverse_flips_paths.
Theorem C41_reverse_involutive :
  forall g, lgraph_wf g -> ledges (reverse (reverse g)) = ledges g.
Proof. intros g W. apply reverse_reverse, W. Qed.
Print Assumptions C41_reverse_involutive.

(** C41 as stated is false: entry and exit are not swapped (the results of swapTrueFalse at
    src/graph/ChcGraph.cc:164-165 are discarded). *)
Theorem C41_refuted :
  exists g, lgraph_wf g /\ lreach g (entry, []) (exit, []) /\ ~ lreach (reverse g) (entry, []) (exit, []).
Proof.
  exists (mkLGraph [mkLEdge 0 entry exit tt_true] (fun _ => [])). split; [|split].
  - split; [split; simpl; try tauto; intros; constructor|]. intros e [<-|[]] v [].
  - eapply lreach_step; [|constructor]. exists (mkLEdge 0 entry exit tt_true), (fun _ => VBool true).
    repeat split; simpl; auto.
  - intros H. inversion H as [|a b c S R]; subst. destruct S as [e [r [[<-|[]] [_ [E _]]]]]. discriminate E.
Qed.
Print Assumptions C41_refuted.

(** ** Examples *)
Module ExGraph.
(** entry -> 2 -> 3 -> 4 -> 2, 3 -> exit, a self-loop on 3. *)
Definition x := mkVar "x" TBase SInt.
Definition y := mkVar "y" TBase SInt.
Definition g : lgraph := mkLGraph
  [mkLEdge 0 entry 2 (mkEq (Var (nxt x)) (mkInt 0));
   mkLEdge 1 2 3 (mkEq (Var (nxt y)) (mkPlus [Var (cur x); mkInt 1]));
   mkLEdge 2 3 3 (mkEq (Var (nxt y)) (Var (cur y)));
   mkLEdge 3 3 4 tt_true;
   mkLEdge 4 4 2 (mkEq (Var (nxt x)) (mkInt 5));
   mkLEdge 5 3 exit (mkLeq (mkInt 7) (Var (cur y)))]
  (fun p => match p with 2 => [x] | 3 => [y] | _ => [] end).
Example g_ids : NoDup (map lid (ledges g)).
Proof. simpl. repeat constructor; simpl; intuition lia. Qed.
Example g_wf : lgraph_wf g.
Proof.
  split.
  - split; try reflexivity.
    + intros p v. destruct p as [|[|[|[|p]]]]; simpl; intros H; repeat destruct H as [<-|H]; try destruct H; reflexivity.
    + intros p. destruct p as [|[|[|[|p]]]]; repeat constructor; simpl; tauto.
    + intros p q v. destruct p as [|[|[|[|p]]]], q as [|[|[|[|q]]]]; simpl; try tauto; intros [<-|[]] [E|[]]; discriminate.
  - intros e He v Hv. simpl in He. repeat destruct He as [<-|He]; try destruct He; simpl in Hv;
      repeat destruct Hv as [<-|Hv]; try destruct Hv; simpl; auto.
Qed.
Example g_order : reverse_post_order g = Some [0; 2; 3; 1; 4].
Proof. vm_compute. reflexivity. Qed.
Example g_loop : detect_loop g = Some [1; 3; 4].
Proof. vm_compute. reflexivity. Qed.
Example g_step : lstep g (2, [VInt 5]) (3, [VInt 6]).
Proof.
  exists (mkLEdge 1 2 3 (mkEq (Var (nxt y)) (mkPlus [Var (cur x); mkInt 1]))),
    (fun v => if var_eqb v (cur x) then VInt 5 else VInt 6). repeat split; vm_compute; auto.
Qed.
Example g_rev_step : lstep (reverse g) (3, [VInt 6]) (2, [VInt 5]).
Proof. apply reverse_step; [exact g_wf|exact g_step]. Qed.
(** A hyperedge with a repeated source is listed once. *)
Definition h : hgraph := mkGraph [mkEdge 0 [entry] 2 tt_true; mkEdge 1 [2; 2; 3] 3 tt_true; mkEdge 2 [3] exit tt_true] (fun _ => []) 3 0.
Example h_adj : aget (outgoing (adjacency_of h)) 2 = Some [1] /\ aget (outgoing (adjacency_of h)) 3 = Some [1; 2] /\
  aget (incoming (adjacency_of h)) 3 = Some [1].
Proof. vm_compute. auto. Qed.
End ExGraph.
