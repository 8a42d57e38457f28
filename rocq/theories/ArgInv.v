(** * Predicate abstraction: invariants of the reachability graph. *)
From Verif Require Import Syntax Solver Graph GraphOps GraphOpsProofs ValidatorModel Names GraphSem SimpleTransModel UnreachProofs ReverseProofs SimplifierProofs ListLemmas EntailModel PropEntail PdkModel SpacerModel SpacerProofs ArgModel ArgClean ArgTree.
Open Scope list_scope.
Open Scope nat_scope.

(** ** Sets of terms *)
Lemma mem_term_spec t l : mem_term t l = true <-> In t l.
Proof.
  unfold mem_term. rewrite existsb_exists. split.
  - intros [x [H E]]. destruct (term_eqb_spec t x) as [->|]; [exact H|discriminate].
  - intros H. exists t. split; [exact H|apply term_eqb_refl].
Qed.
Lemma mem_term_false t l : mem_term t l = false <-> ~ In t l.
Proof. rewrite <- mem_term_spec. destruct (mem_term t l); split; congruence. Qed.
Lemma in_term_dec (t : term) l : In t l \/ ~ In t l.
Proof. destruct (mem_term t l) eqn:E; [left; apply mem_term_spec, E|right; apply mem_term_false, E]. Qed.
Lemma add_terms_spec l l' t : In t (add_terms l l') <-> In t l \/ In t l'.
Proof.
  revert l. induction l' as [|x l' IH]; intros l; [cbn; tauto|]. change (add_terms l (x :: l')) with (add_terms (if mem_term x l then l else l ++ [x]) l'). rewrite IH. destruct (mem_term x l) eqn:E.
  - apply mem_term_spec in E. cbn. split; [tauto|intros [H|[<-|H]]; auto].
  - rewrite in_app_iff. cbn. tauto.
Qed.
Lemma covers_spec a b : covers a b = true <-> incl a b.
Proof. unfold covers. rewrite forallb_forall. split; intros H t Ht; [apply mem_term_spec, H, Ht|apply mem_term_spec, H, Ht]. Qed.
Lemma set_nth_length {A} i (x : A) l : length (set_nth i x l) = length l.
Proof. revert i. induction l as [|y l IH]; intros [|i]; cbn [set_nth length]; auto. Qed.
Lemma nth_set_nth {A} i (x d : A) l j : i < length l -> nth j (set_nth i x l) d = if Nat.eqb j i then x else nth j l d.
Proof.
  revert i j. induction l as [|y l IH]; intros i j L; [cbn in L; lia|]. destruct i as [|i], j as [|j]; cbn [set_nth nth Nat.eqb]; auto. apply IH. cbn in L. lia.
Qed.

Section Inv.
Variable c : ctors.
Hypothesis Hctors : ctors_ok c.
Variable check : check_fn.
Hypothesis Hc : check_ok check.
Variable ord : list term -> list term.
Hypothesis Hord : forall l t, In t (ord l) <-> In t l.
Variable h : hgraph.
Hypothesis W : arg_wf h.

Notation reached := (reached c ord).
Notation src_states := (src_states c ord).
Notation propagated := (propagated c check ord).
Notation undecided := (undecided c check ord).

Lemma reached_holds st i r f : sort_preserving f -> (holds r (rename f (reached st i)) <-> forall t, In t (n_preds (nd st i)) -> holds r (rename f t)).
Proof.
  intros Hf. unfold ArgModel.reached. rewrite (holds_rename f) by exact Hf. rewrite (cand_sem c Hctors), Forall_forall. split; intros H t Ht.
  - apply holds_rename; [exact Hf|]. apply H, Hord, Ht.
  - apply (proj1 (Hord _ _)) in Ht. apply (proj1 (holds_rename f r t Hf)). apply H, Ht.
Qed.
(** The states of the sources of an edge hold. *)
Definition shold (st : gst) (e : hedge) (srcs : list nat) (r : valuation) : Prop :=
  forall i p k t, In (i, (p, k)) (combine srcs (instances (efrom e))) -> In t (n_preds (nd st i)) -> holds r (rename (src k) t).
Lemma src_states_holds st e srcs r : map (nsym st) srcs = efrom e -> (Forall (holds r) (src_states st srcs) <-> shold st e srcs r).
Proof.
  intros E. unfold ArgModel.src_states. rewrite E, Forall_forall. split.
  - intros H i p k t Hi Ht. apply (proj1 (reached_holds st i r (src k) (src_sort k))); [|exact Ht]. apply H. apply in_map_iff. exists (i, (p, k)). auto.
  - intros H x Hx. apply in_map_iff in Hx as [[i [p k]] [<- Hx]]. cbn [fst snd]. apply reached_holds; [apply src_sort|]. intros t Ht. apply (H i p k t Hx Ht).
Qed.
Definition entailed (st : gst) (e : hedge) (srcs : list nat) (p : term) : Prop :=
  forall r, holds r (efla e) -> shold st e srcs r -> holds r (rename tgt p).
Lemma entails_entailed st e srcs p : map (nsym st) srcs = efrom e -> (entails (efla e :: src_states st srcs) (rename tgt p) <-> entailed st e srcs p).
Proof.
  intros E. unfold entails, entailed. split.
  - intros H r H1 H2. apply H. constructor; [exact H1|]. apply (src_states_holds st e srcs r E), H2.
  - intros H r HF. inversion HF as [|? ? H1 H2]; subst. apply H; [exact H1|]. apply (src_states_holds st e srcs r E), H2.
Qed.
Lemma tgt_base s q : (forall v, In v (vars q) -> In v (gpv h s)) -> rename base (rename tgt q) = q.
Proof.
  intros H. rewrite rename_rename. apply rename_id. intros v Hv. apply base_tgt. apply (rep_base _ (aw_rep h W) s v (H v Hv)).
Qed.
Lemma propagated_in st cands e srcs s p : map (nsym st) srcs = efrom e -> (forall q, In q cands -> forall v, In v (vars q) -> In v (gpv h s)) ->
  In p (propagated st cands srcs (efla e)) -> In p cands /\ entailed st e srcs p.
Proof.
  intros E V H. unfold ArgModel.propagated in H. apply in_map_iff in H as [q [<- Hq]]. apply (proj1 (C46_one_by_one check _ _ Hc)) in Hq as [Hq En].
  apply in_map_iff in Hq as [q' [<- Hq']]. rewrite (tgt_base s q' (V q' Hq')). split; [exact Hq'|]. apply (entails_entailed st e srcs q' E), En.
Qed.
Lemma propagated_all st cands e srcs s q : map (nsym st) srcs = efrom e -> (forall q, In q cands -> forall v, In v (vars q) -> In v (gpv h s)) ->
  undecided st cands srcs (efla e) = false -> In q cands -> entailed st e srcs q -> In q (propagated st cands srcs (efla e)).
Proof.
  intros E V U Hq En. unfold ArgModel.propagated. apply in_map_iff. exists (rename tgt q). split; [apply (tgt_base s), V, Hq|].
  unfold one_by_one. apply filter_In. split; [apply in_map, Hq|].
  assert (N : check ((efla e :: src_states st srcs) ++ [mkNot (rename tgt q)]) <> UNKNOWN).
  { intros X. unfold ArgModel.undecided in U. assert (Y : existsb (fun q0 => match check ((efla e :: src_states st srcs) ++ [mkNot q0]) with UNKNOWN => true | _ => false end) (map (rename tgt) cands) = true); [|congruence].
    apply existsb_exists. exists (rename tgt q). split; [apply in_map, Hq|]. rewrite X. reflexivity. }
  destruct (check ((efla e :: src_states st srcs) ++ [mkNot (rename tgt q)])) as [m| |] eqn:Ec; [|reflexivity|congruence].
  exfalso. apply (proj2 (entails_unsat _ _) (proj2 (entails_entailed st e srcs q E) En) m). apply (check_sat _ Hc), Ec.
Qed.

(** ** The invariants *)
Record core (st : gst) : Prop := {
  co_shape : gshape h st;
  co_root : n_preds (nd st 0) = [];
  co_preds : forall j p, 0 < j < length (g_nodes st) -> In p (n_preds (nd st j)) -> In p (g_preds st (nsym st j));
  co_vars : forall s p v, In p (g_preds st s) -> In v (vars p) -> In v (gpv h s);
  co_sound : forall j p, 0 < j < length (g_nodes st) -> In p (n_preds (nd st j)) -> entailed st (n_edge (nd st j)) (n_srcs (nd st j)) p;
  co_cov : forall v w, In (v, w) (g_cov st) -> v < length (g_nodes st) /\ w < length (g_nodes st) /\ nsym st v = nsym st w /\
             incl (n_preds (nd st w)) (n_preds (nd st v)) /\ (w < v \/ gcovered st w = false)
}.
(** Every predicate of the target that the sources entail is a predicate of the node. *)
Definition complete (st : gst) : Prop := forall j p, 0 < j < length (g_nodes st) -> In p (g_preds st (nsym st j)) ->
  entailed st (n_edge (nd st j)) (n_srcs (nd st j)) p -> In p (n_preds (nd st j)).
Definition valid (st : gst) (x : uedge) : Prop := In (fst x) (gedges h) /\ (forall s, In s (snd x) -> s < length (g_nodes st)) /\ map (nsym st) (snd x) = efrom (fst x).
Definition infeasible (st : gst) (x : uedge) : Prop := forall r, holds r (efla (fst x)) -> shold st (fst x) (snd x) r -> False.
Definition explored (st : gst) (q : list uedge) : Prop := forall e srcs, valid st (e, srcs) -> (forall s, In s srcs -> gcovered st s = false) ->
  In (e, srcs) q \/ infeasible st (e, srcs) \/ exists j, 0 < j < length (g_nodes st) /\ n_edge (nd st j) = e /\ n_srcs (nd st j) = srcs.
Record ginv (st : gst) (q : list uedge) : Prop := {
  gi_core : core st;
  gi_queue : forall x, In x q -> valid st x;
  gi_complete : g_unk st = false -> complete st;
  gi_explored : g_unk st = false -> explored st q
}.

Lemma uncovered_below st : core st -> forall v, v < length (g_nodes st) ->
  exists u, u < length (g_nodes st) /\ gcovered st u = false /\ nsym st u = nsym st v /\ incl (n_preds (nd st u)) (n_preds (nd st v)).
Proof.
  intros C v. induction v as [v IH] using lt_wf_ind. intros L. destruct (gcovered st v) eqn:E.
  - unfold gcovered in E. apply existsb_exists in E as [[v' w] [Hin E]]. cbn in E. apply Nat.eqb_eq in E. subst v'.
    destruct (co_cov st C v w Hin) as [_ [Lw [S [In' [Lt|Nc]]]]].
    + destruct (IH w Lt Lw) as [u [A [B [D F]]]]. exists u. split; [exact A|]. split; [exact B|]. split; [congruence|]. intros t Ht. apply In', F, Ht.
    + exists w. split; [exact Lw|]. split; [exact Nc|]. split; [congruence|exact In'].
  - exists v. split; [exact L|]. split; [exact E|]. split; [reflexivity|]. intros t Ht. exact Ht.
Qed.

(** ** The queue *)
Lemma nats_eqb_eq a : forall b, nats_eqb a b = true <-> a = b.
Proof.
  induction a as [|x a IH]; intros [|y b]; cbn [nats_eqb]; try (split; [discriminate|discriminate]); [split; reflexivity|].
  rewrite andb_true_iff, Nat.eqb_eq, IH. split; [intros [-> ->]; reflexivity|intros E; injection E; auto].
Qed.
Lemma in_enqueue q x y : In y (enqueue q x) <-> y = x \/ In y q.
Proof. unfold enqueue. destruct (Nat.eqb _ exit); [cbn; intuition congruence|]. rewrite in_app_iff. cbn. intuition congruence. Qed.
Lemma edge_of_id e e' : In e (gedges h) -> In e' (gedges h) -> eid e = eid e' -> e = e'.
Proof. intros H H' E. pose proof (hfind_in h (aw_ids h W) e H) as A. pose proof (hfind_in h (aw_ids h W) e' H') as B. rewrite E in A. congruence. Qed.
Lemma queued_in st q x : (forall y, In y q -> valid st y) -> In (fst x) (gedges h) -> queued q x = true -> In x q.
Proof.
  intros V H E. unfold queued in E. apply existsb_exists in E as [y [Hy E]]. apply andb_true_iff in E as [E1 E2]. apply Nat.eqb_eq in E1. apply nats_eqb_eq in E2.
  assert (fst y = fst x) by (apply edge_of_id; [apply (V y Hy)|exact H|exact E1]). destruct x, y. cbn in *. subst. exact Hy.
Qed.
Lemma in_outs p e : In e (outs h p) <-> In e (gedges h) /\ In p (efrom e).
Proof.
  unfold outs. rewrite in_flat_map. split.
  - intros [i [Hi H]]. apply (out_edges_spec h (aw_ids h W)) in Hi as [e' [A [B D]]]. subst i. rewrite (hfind_in h (aw_ids h W) e' A) in H. destruct H as [<-|[]]. auto.
  - intros [A B]. exists (eid e). split; [apply (out_edges_spec h (aw_ids h W)); eauto|]. rewrite (hfind_in h (aw_ids h W) e A). left. reflexivity.
Qed.
Lemma in_tuples l : forall t, In t (tuples l) <-> Forall2 (fun x xs => In x xs) t l.
Proof.
  induction l as [|xs l IH]; intros t; cbn [tuples].
  - split; [intros [<-|[]]; constructor|intros H; inversion H; left; reflexivity].
  - rewrite in_flat_map. split.
    + intros [x [Hx H]]. apply in_map_iff in H as [t' [<- H]]. constructor; [exact Hx|apply IH, H].
    + intros H. inversion H as [|x y t' l' H1 H2]; subst. exists x. split; [exact H1|]. apply in_map, IH, H2.
Qed.
Lemma in_insts st p i : In i (insts st p) <-> i < length (g_nodes st) /\ nsym st i = p.
Proof. unfold insts. rewrite filter_In, in_seq, Nat.eqb_eq. intuition lia. Qed.
Lemma in_uncovered st p i : In i (uncovered_insts st p) <-> (i < length (g_nodes st) /\ nsym st i = p) /\ gcovered st i = false.
Proof. unfold uncovered_insts. rewrite filter_In, in_insts, negb_true_iff. reflexivity. Qed.
Lemma tuple_spec st e srcs : In srcs (tuples (map (uncovered_insts st) (efrom e))) <->
  (forall s, In s srcs -> s < length (g_nodes st)) /\ map (nsym st) srcs = efrom e /\ forall s, In s srcs -> gcovered st s = false.
Proof.
  rewrite in_tuples. revert srcs. induction (efrom e) as [|p l IH]; intros srcs; cbn [map].
  - split; [intros H; inversion H; subst; cbn; repeat split; intros ? []|intros [_ [H _]]; apply map_eq_nil in H; subst; constructor].
  - split.
    + intros H. inversion H as [|x y t' l' H1 H2]; subst. apply IH in H2 as [A [B D]]. apply in_uncovered in H1 as [[E F] G]. split; [|split].
      * intros s [<-|Hs]; auto.
      * cbn [map]. congruence.
      * intros s [<-|Hs]; auto.
    + intros [A [B D]]. destruct srcs as [|x srcs]; [discriminate|]. cbn [map] in B. injection B as B1 B2. constructor.
      * apply in_uncovered. split; [split; [apply A; left; reflexivity|exact B1]|apply D; left; reflexivity].
      * apply IH. split; [intros s Hs; apply A; right; exact Hs|]. split; [exact B2|intros s Hs; apply D; right; exact Hs].
Qed.
Definition wanted (st : gst) (v : nat) (x : uedge) : Prop := valid st x /\ (forall s, In s (snd x) -> gcovered st s = false) /\ In v (snd x).
Lemma new_edges_ok st v q : (forall y, In y q -> valid st y) ->
  (forall y, In y (new_edges h st v q) -> valid st y) /\ (forall y, In y q -> In y (new_edges h st v q)) /\ (forall y, wanted st v y -> In y (new_edges h st v q)).
Proof.
  intros V. unfold new_edges.
  assert (Inner : forall e ts q, In e (gedges h) -> (forall t, In t ts -> In t (tuples (map (uncovered_insts st) (efrom e)))) -> (forall y, In y q -> valid st y) ->
    let q' := fold_left (fun q srcs => if existsb (Nat.eqb v) srcs && negb (queued q (e, srcs)) then enqueue q (e, srcs) else q) ts q in
    (forall y, In y q' -> valid st y) /\ (forall y, In y q -> In y q') /\ (forall srcs, In srcs ts -> In v srcs -> In (e, srcs) q')).
  { intros e ts. induction ts as [|t ts IH]; intros q0 He Ht V0; cbn [fold_left]; [repeat split; auto; try apply (V0 _ H); intros ? []|].
    set (q1 := if existsb (Nat.eqb v) t && negb (queued q0 (e, t)) then enqueue q0 (e, t) else q0).
    assert (Vt : valid st (e, t)) by (destruct (proj1 (tuple_spec st e t) (Ht t (or_introl eq_refl))) as [A [B _]]; split; [exact He|split; [exact A|exact B]]).
    assert (M : forall y, In y q0 -> In y q1) by (intros y Hy; unfold q1; destruct (_ && _); [apply in_enqueue; auto|exact Hy]).
    assert (V1 : forall y, In y q1 -> valid st y) by (intros y; unfold q1; destruct (_ && _); [intros Hy; apply in_enqueue in Hy as [->|Hy]; [exact Vt|apply V0, Hy]|apply V0]).
    assert (N : In v t -> In (e, t) q1).
    { intros Hv. unfold q1. assert (X : existsb (Nat.eqb v) t = true) by (apply existsb_exists; exists v; split; [exact Hv|apply Nat.eqb_refl]). rewrite X. cbn [andb].
      destruct (queued q0 (e, t)) eqn:Q; cbn [negb]; [apply (queued_in st q0 (e, t) V0 He Q)|apply in_enqueue; left; reflexivity]. }
    destruct (IH q1 He (fun t' H => Ht t' (or_intror H)) V1) as [A [B D]]. split; [exact A|]. split; [auto|].
    intros srcs [<-|Hs] Hv; [apply B, N, Hv|apply D; assumption]. }
  assert (Outer : forall es q, (forall e, In e es -> In e (gedges h)) -> (forall y, In y q -> valid st y) ->
    let q' := fold_left (fun q e => fold_left (fun q srcs => if existsb (Nat.eqb v) srcs && negb (queued q (e, srcs)) then enqueue q (e, srcs) else q) (tuples (map (uncovered_insts st) (efrom e))) q) es q in
    (forall y, In y q' -> valid st y) /\ (forall y, In y q -> In y q') /\ (forall e srcs, In e es -> In srcs (tuples (map (uncovered_insts st) (efrom e))) -> In v srcs -> In (e, srcs) q')).
  { induction es as [|e es IH]; intros q0 He V0; cbn [fold_left]; [repeat split; auto; try apply (V0 _ H); intros ? ? []|].
    destruct (Inner e _ q0 (He e (or_introl eq_refl)) (fun t H => H) V0) as [A [B D]].
    destruct (IH _ (fun e' H => He e' (or_intror H)) A) as [A2 [B2 D2]]. split; [exact A2|]. split; [auto|].
    intros e' srcs [<-|H'] Hs Hv; [apply B2, D; assumption|apply D2; assumption]. }
  destruct (Outer (outs h (nsym st v)) q) as [A [B D]]; [intros e He; apply in_outs in He; apply He|exact V|].
  split; [exact A|]. split; [exact B|]. intros [e srcs] [[V1 [V2 V3]] [U Hv]]. cbn [fst snd] in *. apply D; [|apply tuple_spec; auto|exact Hv].
  apply in_outs. split; [exact V1|]. rewrite <- V3. apply in_map, Hv.
Qed.
End Inv.
