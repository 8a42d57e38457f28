(** * Proofs about graph algorithms. *)
From Verif Require Import Syntax Solver Graph GraphOps.
Open Scope nat_scope.

(** ** Adjacency lists *)
Definition getd (a : adj) (p : sym) : list nat := match aget a p with Some l => l | None => [] end.
Definition adom (a : adj) (p : sym) : Prop := In p (map fst a).

Lemma aget_dom a p : aget a p <> None <-> adom a p.
Proof.
  unfold adom. induction a as [|[q l] a IH]; simpl; [tauto|].
  destruct (Nat.eqb_spec q p) as [->|N]; [split; [auto|discriminate]|]. rewrite IH. intuition congruence.
Qed.
Lemma aget_getd a p : adom a p -> aget a p = Some (getd a p).
Proof. intros H. apply aget_dom in H. unfold getd. destruct (aget a p); congruence. Qed.

Lemma getd_aupd a p f q : getd (aupd a p f) q = if Nat.eqb p q then f (getd a p) else getd a q.
Proof.
  unfold getd. induction a as [|[x l] a IH]; simpl.
  - destruct (Nat.eqb_spec p q); reflexivity.
  - destruct (Nat.eqb_spec x p) as [->|N]; simpl.
    + destruct (Nat.eqb_spec p q); reflexivity.
    + destruct (Nat.eqb_spec x q) as [->|N'].
      * destruct (Nat.eqb_spec p q); [congruence|reflexivity].
      * exact IH.
Qed.
Lemma adom_aupd a p f q : adom (aupd a p f) q <-> q = p \/ adom a q.
Proof.
  unfold adom. induction a as [|[x l] a IH]; simpl; [intuition|].
  destruct (Nat.eqb_spec x p) as [->|N]; simpl; [intuition|]. rewrite IH. intuition.
Qed.
Lemma nodup_aupd a p f : NoDup (map fst a) -> NoDup (map fst (aupd a p f)).
Proof.
  induction a as [|[x l] a IH]; simpl; intros N; [repeat constructor; simpl; tauto|].
  inversion N as [|? ? Hx N']; subst. destruct (Nat.eqb_spec x p) as [->|Ne]; simpl; constructor; auto.
  change (~ adom (aupd a p f) x). rewrite adom_aupd. intros [E|H]; [congruence|auto].
Qed.
Lemma getd_atouch a p q : getd (atouch a p) q = getd a q.
Proof. unfold atouch. rewrite getd_aupd. destruct (Nat.eqb_spec p q); congruence. Qed.
Lemma adom_atouch a p q : adom (atouch a p) q <-> q = p \/ adom a q.
Proof. apply adom_aupd. Qed.
Lemma nodup_atouch a p : NoDup (map fst a) -> NoDup (map fst (atouch a p)).
Proof. apply nodup_aupd. Qed.

Lemma last_in {A} (l : list A) d : l <> [] -> In (last l d) l.
Proof.
  induction l as [|x l IH]; [congruence|]. intros _. destruct l as [|y l]; [simpl; auto|].
  right. apply IH. discriminate.
Qed.
Lemma apush_once_new e l : ~ In e l -> apush_once e l = l ++ [e].
Proof.
  intros H. unfold apush_once. destruct l as [|x l]; [reflexivity|].
  destruct (Nat.eqb_spec (last (x :: l) e) e) as [E|]; [|reflexivity].
  exfalso. apply H. rewrite <- E. apply last_in. discriminate.
Qed.
Lemma apush_once_old e l : apush_once e (l ++ [e]) = l ++ [e].
Proof.
  unfold apush_once. destruct (l ++ [e]) as [|x l'] eqn:E; [destruct l; discriminate|]. rewrite <- E.
  rewrite last_last, Nat.eqb_refl. reflexivity.
Qed.

Lemma fold_sources e fs : forall inc out, (forall q, ~ In e (getd out q)) ->
  NoDup (map fst inc) -> NoDup (map fst out) ->
  let r := fold_left (fun (io : adj * adj) s => (atouch (fst io) s, aupd (snd io) s (apush_once e))) fs (inc, out) in
  (forall q, getd (fst r) q = getd inc q) /\
  (forall q, adom (fst r) q <-> In q fs \/ adom inc q) /\
  (forall q, getd (snd r) q = getd out q ++ if smem q fs then [e] else []) /\
  (forall q, adom (snd r) q <-> In q fs \/ adom out q) /\
  NoDup (map fst (fst r)) /\ NoDup (map fst (snd r)).
Proof.
  enough (G : forall fs inc out (seen : list sym) (base : sym -> list nat),
     (forall q, ~ In e (base q)) -> (forall q, getd out q = base q ++ if smem q seen then [e] else []) ->
     NoDup (map fst inc) -> NoDup (map fst out) ->
     let r := fold_left (fun (io : adj * adj) s => (atouch (fst io) s, aupd (snd io) s (apush_once e))) fs (inc, out) in
     (forall q, getd (fst r) q = getd inc q) /\
     (forall q, adom (fst r) q <-> In q fs \/ adom inc q) /\
     (forall q, getd (snd r) q = base q ++ if smem q (fs ++ seen) then [e] else []) /\
     (forall q, adom (snd r) q <-> In q fs \/ adom out q) /\
     NoDup (map fst (fst r)) /\ NoDup (map fst (snd r))).
  { intros inc out Hq N1 N2. specialize (G fs inc out [] (getd out) Hq).
    cbv zeta in *. destruct G as [A [B [C D]]]; auto.
    - intros q. simpl. rewrite app_nil_r. reflexivity.
    - split; [exact A|]. split; [exact B|]. split; [|exact D]. intros q. rewrite C, app_nil_r. reflexivity. }
  clear fs. induction fs as [|s fs IH]; intros inc out seen base Hb Ho N1 N2; cbv zeta.
  - simpl. split; [auto|]. split; [intros; tauto|]. split; [exact Ho|]. split; [intros; tauto|auto].
  - cbn [fold_left fst snd].
    specialize (IH (atouch inc s) (aupd out s (apush_once e)) (s :: seen) base Hb). cbv zeta in IH.
    destruct IH as [A [B [C [D [E F]]]]].
    + intros q. rewrite getd_aupd. destruct (Nat.eqb_spec s q) as [->|N].
      * rewrite Ho. cbn [smem existsb]. rewrite Nat.eqb_refl. cbn [orb].
        destruct (smem q seen) eqn:Es; [apply apush_once_old|]. rewrite app_nil_r. apply apush_once_new, Hb.
      * rewrite Ho. unfold smem at 2. cbn [existsb]. destruct (Nat.eqb_spec q s); [congruence|]. reflexivity.
    + apply nodup_atouch, N1.
    + apply nodup_aupd, N2.
    + split; [intros q; rewrite A; apply getd_atouch|].
      split; [intros q; rewrite B, adom_atouch; simpl; intuition|].
      split.
      { intros q. rewrite C. f_equal.
        replace (smem q (fs ++ s :: seen)) with (smem q ((s :: fs) ++ seen)); [reflexivity|].
        unfold smem. simpl. rewrite !existsb_app. simpl.
        destruct (existsb _ fs), (Nat.eqb q s); reflexivity. }
      split; [intros q; rewrite D, adom_aupd; simpl; intuition|auto].
Qed.

Lemma smem_in v l : smem v l = true <-> In v l.
Proof.
  unfold smem. rewrite existsb_exists. split.
  - intros [x [Hx E]]. apply Nat.eqb_eq in E. subst. exact Hx.
  - intros H. exists v. rewrite Nat.eqb_refl. auto.
Qed.
Lemma smem_nin v l : smem v l = false <-> ~ In v l.
Proof. rewrite <- smem_in. destruct (smem v l); intuition congruence. Qed.

(** Vertices of a hypergraph. *)
Definition vertex_in (es : list hedge) (p : sym) : Prop :=
  p = entry \/ p = exit \/ exists e, In e es /\ (In p (efrom e) \/ p = eto e).
Definition vertex (g : hgraph) (p : sym) : Prop := vertex_in (gedges g) p.

Definition adj_spec (es : list hedge) (ad : adjacency) : Prop :=
  (forall p, getd (incoming ad) p = map eid (filter (fun e => Nat.eqb (eto e) p) es)) /\
  (forall p, getd (outgoing ad) p = map eid (filter (fun e => smem p (efrom e)) es)) /\
  (forall p, adom (incoming ad) p <-> vertex_in es p) /\
  (forall p, adom (outgoing ad) p <-> vertex_in es p) /\
  NoDup (map fst (incoming ad)) /\ NoDup (map fst (outgoing ad)).

Lemma vertex_in_snoc es e p : vertex_in (es ++ [e]) p <-> vertex_in es p \/ In p (efrom e) \/ p = eto e.
Proof.
  unfold vertex_in. split.
  - intros [H|[H|[x [Hx H]]]]; auto. apply in_app_or in Hx as [Hx|[<-|[]]]; [|tauto]. left. right. right. eauto.
  - intros [[H|[H|[x [Hx H]]]]|H]; auto.
    + right. right. exists x. split; [apply in_or_app; auto|exact H].
    + right. right. exists e. split; [apply in_or_app; simpl; auto|exact H].
Qed.
Lemma filter_snoc {A} (f : A -> bool) l x : filter f (l ++ [x]) = filter f l ++ if f x then [x] else [].
Proof. induction l as [|y l IH]; simpl; [reflexivity|]. destruct (f y); rewrite IH; reflexivity. Qed.

Lemma add_hedge_spec es ad e : adj_spec es ad -> ~ In (eid e) (map eid es) -> adj_spec (es ++ [e]) (add_hedge ad e).
Proof.
  intros [Hi [Ho [Di [Do [Ni No]]]]] Hn. unfold add_hedge.
  pose proof (fold_sources (eid e) (efrom e) (aupd (incoming ad) (eto e) (apush (eid e))) (outgoing ad)) as F.
  cbv zeta in F. destruct F as [A [B [C [D [E F]]]]].
  - intros q Hq. rewrite Ho in Hq. apply in_map_iff in Hq as [x [Ex Hx]]. apply filter_In in Hx as [Hx _].
    apply Hn. rewrite <- Ex. apply in_map, Hx.
  - apply nodup_aupd, Ni.
  - exact No.
  - destruct (fold_left _ (efrom e) _) as [inc' out']. cbn [fst snd] in *. repeat split; cbn [incoming outgoing].
    + intros p. rewrite A, getd_aupd, filter_snoc, map_app. destruct (Nat.eqb_spec (eto e) p) as [->|N]; rewrite Hi.
      * reflexivity.
      * simpl. rewrite app_nil_r. reflexivity.
    + intros p. rewrite getd_atouch, C, Ho, filter_snoc, map_app. f_equal. destruct (smem p (efrom e)); reflexivity.
    + rewrite B, adom_aupd, Di, vertex_in_snoc. tauto.
    + rewrite B, adom_aupd, Di, vertex_in_snoc. tauto.
    + rewrite adom_atouch, D, Do, vertex_in_snoc. tauto.
    + rewrite adom_atouch, D, Do, vertex_in_snoc. tauto.
    + exact E.
    + apply nodup_atouch, F.
Qed.

Lemma adj_init_spec : adj_spec [] (mkAdj adj_init adj_init).
Proof.
  assert (D : forall p, adom adj_init p <-> vertex_in [] p).
  { intros p. unfold adom, vertex_in, adj_init. simpl. split; [intuition|]. intros [H|[H|[e [[] _]]]]; auto. }
  assert (N : NoDup (map fst adj_init)) by (repeat constructor; simpl; intuition discriminate).
  unfold adj_spec. simpl. repeat split; try (apply D); try exact N;
    intros p; unfold getd, adj_init; destruct p as [|[|p]]; reflexivity.
Qed.

Lemma adjacency_fold es : forall pre ad, adj_spec pre ad -> NoDup (map eid (pre ++ es)) -> adj_spec (pre ++ es) (fold_left add_hedge es ad).
Proof.
  induction es as [|e es IH]; intros pre ad H N; [rewrite app_nil_r; exact H|].
  cbn [fold_left]. replace (pre ++ e :: es) with ((pre ++ [e]) ++ es) in * by (rewrite <- app_assoc; reflexivity).
  apply IH; [|exact N]. apply add_hedge_spec; [exact H|].
  rewrite !map_app in N. simpl in N. rewrite <- app_assoc in N. simpl in N. apply NoDup_remove_2 in N.
  intros X. apply N. apply in_or_app. auto.
Qed.
Theorem adjacency_ok g : NoDup (map eid (gedges g)) -> adj_spec (gedges g) (adjacency_of g).
Proof. intros N. apply (adjacency_fold (gedges g) []); [apply adj_init_spec|exact N]. Qed.

(** Linear graphs. *)
Definition lvertex (g : lgraph) (p : sym) : Prop :=
  p = entry \/ p = exit \/ exists e, In e (ledges g) /\ (p = lfrom e \/ p = lto e).
Definition ladj_spec (es : list ledge) (ad : adjacency) : Prop :=
  (forall p, getd (incoming ad) p = map lid (filter (fun e => Nat.eqb (lto e) p) es)) /\
  (forall p, getd (outgoing ad) p = map lid (filter (fun e => Nat.eqb (lfrom e) p) es)) /\
  (forall p, adom (incoming ad) p <-> p = entry \/ p = exit \/ exists e, In e es /\ (p = lfrom e \/ p = lto e)) /\
  (forall p, adom (outgoing ad) p <-> p = entry \/ p = exit \/ exists e, In e es /\ (p = lfrom e \/ p = lto e)).
Lemma ladjacency_fold es : forall pre ad, ladj_spec pre ad -> ladj_spec (pre ++ es) (fold_left add_ledge es ad).
Proof.
  induction es as [|e es IH]; intros pre ad H; [rewrite app_nil_r; exact H|].
  cbn [fold_left]. replace (pre ++ e :: es) with ((pre ++ [e]) ++ es) by (rewrite <- app_assoc; reflexivity).
  apply IH. destruct H as [Hi [Ho [Di Do]]]. unfold add_ledge.
  assert (V : forall p, (p = entry \/ p = exit \/ exists x, In x (pre ++ [e]) /\ (p = lfrom x \/ p = lto x)) <->
     (p = lfrom e \/ p = lto e \/ (p = entry \/ p = exit \/ exists x, In x pre /\ (p = lfrom x \/ p = lto x)))).
  { intros p. split.
    - intros [X|[X|[x [Hx X]]]]; auto. apply in_app_or in Hx as [Hx|[<-|[]]]; [|tauto]. right. right. right. right. eauto.
    - intros [X|[X|[X|[X|[x [Hx X]]]]]]; auto; right; right;
        try (exists e; split; [apply in_or_app; simpl; auto|auto]; fail). exists x. split; [apply in_or_app; auto|exact X]. }
  repeat split; cbn [incoming outgoing].
  - intros p. rewrite getd_atouch, getd_aupd, filter_snoc, map_app. destruct (Nat.eqb_spec (lto e) p) as [->|N]; rewrite Hi.
    + reflexivity.
    + simpl. rewrite app_nil_r. reflexivity.
  - intros p. rewrite getd_atouch, getd_aupd, filter_snoc, map_app. destruct (Nat.eqb_spec (lfrom e) p) as [->|N]; rewrite Ho.
    + reflexivity.
    + simpl. rewrite app_nil_r. reflexivity.
  - rewrite adom_atouch, adom_aupd, Di, V. tauto.
  - rewrite adom_atouch, adom_aupd, Di, V. tauto.
  - rewrite adom_atouch, adom_aupd, Do, V. tauto.
  - rewrite adom_atouch, adom_aupd, Do, V. tauto.
Qed.
Theorem ladjacency_ok g : ladj_spec (ledges g) (ladjacency_of g).
Proof.
  apply (ladjacency_fold (ledges g) []).
  assert (D : forall p, adom adj_init p <-> p = entry \/ p = exit \/ exists e, In e [] /\ (p = lfrom e \/ p = lto e)).
  { intros p. unfold adom, adj_init. simpl. split; [intuition|]. intros [H|[H|[e [[] _]]]]; auto. }
  unfold ladj_spec. simpl. repeat split; try (apply D);
    intros p; unfold getd, adj_init; destruct p as [|[|p]]; reflexivity.
Qed.

Lemma lfind_in g e : NoDup (map lid (ledges g)) -> In e (ledges g) -> lfind g (lid e) = Some e.
Proof.
  unfold lfind. induction (ledges g) as [|x l IH]; simpl; [tauto|]. intros N [->|H].
  - rewrite Nat.eqb_refl. reflexivity.
  - inversion N as [|? ? Hx N']; subst. destruct (Nat.eqb_spec (lid x) (lid e)) as [E|]; [|auto].
    exfalso. apply Hx. rewrite E. apply in_map, H.
Qed.
Lemma out_ids_spec g v i : In i (out_ids g v) <-> exists e, In e (ledges g) /\ lid e = i /\ lfrom e = v.
Proof.
  change (out_ids g v) with (getd (outgoing (ladjacency_of g)) v).
  destruct (ladjacency_ok g) as [_ [Ho _]]. rewrite Ho, in_map_iff. split.
  - intros [e [E H]]. apply filter_In in H as [H1 H2]. apply Nat.eqb_eq in H2. eauto.
  - intros [e [H1 [H2 H3]]]. exists e. split; [exact H2|]. apply filter_In. rewrite H3, Nat.eqb_refl. auto.
Qed.
Lemma succs_spec g v w : NoDup (map lid (ledges g)) ->
  (In w (succs g v) <-> exists e, In e (ledges g) /\ lfrom e = v /\ lto e = w).
Proof.
  intros N. unfold succs. rewrite in_map_iff. split.
  - intros [i [E H]]. apply out_ids_spec in H as [e [H1 [H2 H3]]]. exists e. split; [exact H1|]. split; [exact H3|].
    unfold ltarget in E. rewrite <- H2, (lfind_in g e N H1) in E. exact E.
  - intros [e [H1 [H2 H3]]]. exists (lid e). split.
    + unfold ltarget. rewrite (lfind_in g e N H1). exact H3.
    + apply out_ids_spec. eauto.
Qed.

Lemma lvertices_spec g p : In p (lvertices g) <-> lvertex g p.
Proof.
  unfold lvertices, lvertex. rewrite nodup_In. simpl. rewrite in_concat. split.
  - intros [H|[H|[l [Hl H]]]]; auto. right. right. apply in_map_iff in Hl as [e [<- He]]. exists e. split; [exact He|].
    simpl in H. intuition.
  - intros [H|[H|[e [He H]]]]; auto. right. right. exists [lfrom e; lto e]. split; [apply in_map_iff; eauto|]. simpl. intuition.
Qed.
