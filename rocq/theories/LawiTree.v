(** * The tree and the covering relation of LAWI. *)
From Verif Require Import Syntax Solver TransSys Graph GraphOps GraphOpsProofs LinearModel LinearPath LawiModel.
Open Scope list_scope.
Open Scope nat_scope.

Inductive anc (t : tree) : nat -> nat -> Prop :=
| anc_refl v : anc t v v
| anc_step a p e v : anc t a p -> up t v = Some (p, e) -> anc t a v.
(** A path downwards, given by the vertices the edges lead to. *)
Inductive tpath (t : tree) : nat -> list nat -> nat -> Prop :=
| tp_nil v : tpath t v [] v
| tp_cons p e v l q : up t v = Some (p, e) -> tpath t v l q -> tpath t p (v :: l) q.

Section Tree.
Variable g : lgraph.
Record twf (t : tree) : Prop := {
  tw_root : nth_error t 0 = Some (mkNode entry None);
  tw_up : forall v n, nth_error t v = Some n -> v <> 0 ->
    exists p e, nd_up n = Some (p, e) /\ p < v /\ In e (ledges g) /\ lfrom e = loc t p /\ lto e = nd_loc n
}.
Variable t : tree.
Hypothesis T : twf t.
Lemma up_root : up t 0 = None.
Proof. unfold up. rewrite (tw_root t T). reflexivity. Qed.
Lemma loc_root : loc t 0 = entry.
Proof. unfold loc. rewrite (tw_root t T). reflexivity. Qed.
Lemma tree_pos : 0 < length t.
Proof. apply nth_error_Some. rewrite (tw_root t T). discriminate. Qed.
Lemma up_some v p e : up t v = Some (p, e) -> v < length t /\ p < v /\ In e (ledges g) /\ lfrom e = loc t p /\ lto e = loc t v.
Proof.
  intros H. destruct (Nat.eq_dec v 0) as [->|N]; [rewrite up_root in H; discriminate|]. unfold up in H. destruct (nth_error t v) as [n|] eqn:E; [|discriminate].
  destruct (tw_up t T v n E N) as [p' [e' [H1 [H2 [H3 [H4 H5]]]]]]. rewrite H1 in H. injection H as <- <-. split; [apply nth_error_Some; congruence|].
  unfold loc at 2. rewrite E. auto.
Qed.
Lemma up_total v : v < length t -> v <> 0 -> exists p e, up t v = Some (p, e).
Proof.
  intros H N. unfold up. destruct (nth_error t v) as [n|] eqn:E; [|apply nth_error_None in E; lia].
  destruct (tw_up t T v n E N) as [p [e [H1 _]]]. eauto.
Qed.
Lemma anc_le a v : anc t a v -> a <= v.
Proof. intros H. induction H as [|a p e v _ IH U]; [lia|]. apply up_some in U. lia. Qed.
Lemma anc_trans a b d : anc t a b -> anc t b d -> anc t a d.
Proof. intros H1 H2. induction H2 as [|b p e v _ IH U]; [exact H1|]. apply (anc_step t a p e v (IH H1) U). Qed.
Lemma anc_inv a v p e : anc t a v -> up t v = Some (p, e) -> a = v \/ anc t a p.
Proof. intros H U. inversion H as [|a' p' e' v' H' U']; subst; [left; reflexivity|]. right. rewrite U in U'. injection U' as <- <-. exact H'. Qed.
Lemma anc_root v : v < length t -> anc t 0 v.
Proof.
  induction v as [v IH] using lt_wf_ind. intros H. destruct (Nat.eq_dec v 0) as [->|N]; [constructor|]. destruct (up_total v H N) as [p [e U]].
  pose proof (up_some v p e U) as X. apply (anc_step t 0 p e v); [apply IH; lia|exact U].
Qed.

(** ** Paths *)
Lemma path_until_ok fuel : forall v stop acc l q, path_until fuel t v stop acc = Some l -> tpath t v acc q -> tpath t stop l q.
Proof.
  induction fuel as [|f IH]; intros v stop acc l q H P; cbn in H; destruct (Nat.eqb_spec v stop) as [E|N].
  1, 3: injection H as <-; rewrite <- E; exact P.
  - discriminate.
  - destruct (up t v) as [[p e]|] eqn:U; [|discriminate]. apply (IH p stop (v :: acc) l q H). apply (tp_cons t p e v acc q U P).
Qed.
Lemma path_to_ok v stop l : path_to t v stop = Some l -> tpath t stop l v.
Proof. intros H. apply (path_until_ok v v stop [] l v H). constructor. Qed.
Lemma path_until_total fuel : forall v stop acc, anc t stop v -> v <= fuel -> exists l, path_until fuel t v stop acc = Some l.
Proof.
  induction fuel as [|f IH]; intros v stop acc H L; cbn; destruct (Nat.eqb_spec v stop) as [E|N]; eauto.
  - exfalso. apply anc_le in H. lia.
  - destruct H as [v|a p e v H U]; [contradiction|]. rewrite U. apply IH; [exact H|]. apply up_some in U. lia.
Qed.
Lemma path_to_total v stop : anc t stop v -> exists l, path_to t v stop = Some l.
Proof. intros H. apply path_until_total; [exact H|lia]. Qed.
Lemma tpath_sources p l q a : tpath t p l q -> In a (map (parent t) l) <-> (anc t a q /\ a <> q /\ anc t p a).
Proof.
  intros P. induction P as [v|p e v l q U P IH].
  - split; [intros []|]. intros [H1 [H2 H3]]. apply anc_le in H1. apply anc_le in H3. lia.
  - assert (Q : anc t v q). { clear - P. induction P as [v|p e v l q U P IH]; [constructor|]. apply (anc_trans p v q); [apply (anc_step t p p e v (anc_refl t p) U)|exact IH]. }
    assert (Ep : parent t v = p) by (unfold parent; rewrite U; reflexivity). pose proof (up_some v p e U) as X. cbn [map In]. rewrite Ep, IH. split.
    + intros [<-|[H1 [H2 H3]]].
      * split; [apply (anc_trans p v q); [apply (anc_step t p p e v (anc_refl t p) U)|exact Q]|]. split; [apply anc_le in Q; lia|constructor].
      * split; [exact H1|]. split; [exact H2|]. apply (anc_trans p v a); [apply (anc_step t p p e v (anc_refl t p) U)|exact H3].
    + intros [H1 [H2 H3]]. destruct (Nat.eq_dec p a) as [->|N]; [left; reflexivity|]. right. split; [exact H1|]. split; [exact H2|].
      assert (G : forall b, anc t b q -> forall a, anc t a q -> anc t b a \/ anc t a b).
      { clear - T. intros b Hb. induction Hb as [|b p e v Hb IH U]; intros a Ha; [right; exact Ha|]. destruct (anc_inv a v p e Ha U) as [->|Ha']; [left; apply (anc_step t b p e v Hb U)|apply IH, Ha']. }
      destruct (G v Q a H1) as [Y|Y]; [exact Y|]. destruct (anc_inv a v p e Y U) as [->|Z]; [constructor|]. apply anc_le in Z. apply anc_le in H3. lia.
Qed.
Lemma ancestors_spec v a : v < length t -> In a (ancestors t v) <-> anc t a v.
Proof.
  intros H. unfold ancestors, ancestors_excl. destruct (path_to_total v 0 (anc_root v H)) as [l E]. rewrite E. cbn [In].
  rewrite (tpath_sources 0 l v a (path_to_ok v 0 l E)). split.
  - intros [->|[X _]]; [constructor|exact X].
  - intros X. destruct (Nat.eq_dec v a) as [->|N]; [left; reflexivity|right]. split; [exact X|]. split; [auto|]. apply anc_root. apply anc_le in X. lia.
Qed.
Lemma ancestors_excl_lt v a : v < length t -> In a (ancestors_excl t v) -> a < length t.
Proof. intros H Ha. assert (X : anc t a v) by (apply (ancestors_spec v a H); right; exact Ha). apply anc_le in X. lia. Qed.
Lemma is_anc_spec fuel : forall a d, d <= fuel -> is_anc fuel t a d = true <-> anc t a d.
Proof.
  induction fuel as [|f IH]; intros a d L; cbn; destruct (Nat.eqb_spec d a) as [E|N]; try (subst; split; [constructor|reflexivity]).
  - split; [discriminate|]. intros H. apply anc_le in H. lia.
  - destruct (up t d) as [[p e]|] eqn:U.
    + rewrite IH by (apply up_some in U; lia). split; [intros H; apply (anc_step t a p e d H U)|]. intros H. destruct (anc_inv a d p e H U) as [->|X]; [contradiction|exact X].
    + split; [discriminate|]. intros H. destruct H as [|a p e v H U']; [contradiction|congruence].
Qed.
Lemma is_ancestor_spec a d : is_ancestor t a d = true <-> anc t a d.
Proof. apply is_anc_spec. lia. Qed.
Lemma children_spec v u : In u (children t v) <-> exists e, up t u = Some (v, e).
Proof.
  unfold children, is_child. rewrite filter_In, in_seq. split.
  - intros [_ H]. destruct (up t u) as [[p e]|]; [|discriminate]. apply Nat.eqb_eq in H. subst. eauto.
  - intros [e U]. rewrite U, Nat.eqb_refl. apply up_some in U. split; [lia|reflexivity].
Qed.
Lemma anc_up v u : anc t v u -> v = u \/ exists w e, up t w = Some (v, e) /\ anc t w u.
Proof.
  intros H. induction H as [|a p e v H IH U]; [left; reflexivity|right]. destruct IH as [->|[w [e' [U' H']]]].
  - exists v, e. split; [exact U|constructor].
  - exists w, e'. split; [exact U'|]. apply (anc_step t w p e v H' U).
Qed.
Lemma desc_spec fuel : forall v u, In u (desc fuel t v) -> anc t v u.
Proof.
  induction fuel as [|f IH]; intros v u; cbn [desc In]; [intros [->|[]]; constructor|]. intros [->|H]; [constructor|]. apply in_flat_map in H as [w [Hw H]].
  apply children_spec in Hw as [e U]. apply (anc_trans v w u); [apply (anc_step t v v e w (anc_refl t v) U)|apply IH, H].
Qed.
Lemma desc_total fuel : forall v u, anc t v u -> u <= v + fuel -> In u (desc fuel t v).
Proof.
  induction fuel as [|f IH]; intros v u H L; cbn [desc In].
  - left. apply anc_le in H. lia.
  - destruct (anc_up v u H) as [->|[w [e [U H']]]]; [left; reflexivity|right]. apply in_flat_map. exists w. split; [apply children_spec; eauto|]. apply IH; [exact H'|]. apply up_some in U. lia.
Qed.
Lemma descendants_spec v u : u < length t -> In u (descendants t v) <-> anc t v u.
Proof. intros H. split; [apply desc_spec|]. intros X. apply desc_total; [exact X|lia]. Qed.
Lemma covered_spec (c : cov) v : v < length t -> is_covered t c v = true <-> exists a w, anc t a v /\ In (a, w) c.
Proof.
  intros H. unfold is_covered. rewrite existsb_exists. split.
  - intros [a [Ha X]]. apply existsb_exists in X as [[a' w] [X E]]. apply Nat.eqb_eq in E. cbn in E. subst. exists a, w. split; [apply (ancestors_spec v a H), Ha|exact X].
  - intros [a [w [Ha X]]]. exists a. split; [apply (ancestors_spec v a H), Ha|]. apply existsb_exists. exists (a, w). split; [exact X|apply Nat.eqb_refl].
Qed.
Lemma earlier_spec v u : In u (earlier t v) -> u < v /\ loc t v = loc t u.
Proof.
  unfold earlier. intros H. apply filter_In in H as [H E]. apply Nat.eqb_eq in E. rewrite <- in_rev, in_seq in H. split; [lia|exact E].
Qed.
Lemma edges_of_path p l q : tpath t p l q -> length (edges_of t l) = length l /\ (forall e, In e (edges_of t l) -> In e (ledges g)) /\ connected (loc t p) (edges_of t l) (loc t q).
Proof.
  intros P. induction P as [v|p e v l q U P [IH1 [IH2 IH3]]]; [split; [reflexivity|]; split; [intros e []|reflexivity]|].
  pose proof (up_some v p e U) as [_ [_ [X1 [X2 X3]]]]. unfold edges_of in *. cbn [flat_map]. rewrite U. cbn [app length connected In]. rewrite IH1, X2, X3. split; [reflexivity|]. split; [|auto].
  intros x [<-|Hx]; auto.
Qed.
End Tree.

Lemma nth_up_app (t x : tree) v : v < length t -> up (t ++ x) v = up t v /\ loc (t ++ x) v = loc t v.
Proof. intros H. unfold up, loc. rewrite nth_error_app1 by exact H. auto. Qed.
Lemma twf_app g t x : twf g t -> (forall n, In n x -> exists p e, nd_up n = Some (p, e) /\ p < length t /\ In e (ledges g) /\ lfrom e = loc t p /\ lto e = nd_loc n) -> twf g (t ++ x).
Proof.
  intros T H. pose proof (tree_pos g t T) as Pos. split.
  - rewrite nth_error_app1 by exact Pos. apply (tw_root g t T).
  - intros v n E N. destruct (Nat.lt_ge_cases v (length t)) as [L|L].
    + rewrite nth_error_app1 in E by exact L. destruct (tw_up g t T v n E N) as [p [e [H1 [H2 [H3 [H4 H5]]]]]]. exists p, e. destruct (nth_up_app t x p) as [_ X]; [lia|]. rewrite X. auto.
    + rewrite nth_error_app2 in E by exact L. apply nth_error_In in E. destruct (H n E) as [p [e [H1 [H2 [H3 [H4 H5]]]]]]. exists p, e. destruct (nth_up_app t x p) as [_ X]; [lia|]. rewrite X. split; [exact H1|]. split; [lia|auto].
Qed.
Lemma anc_app g t x a v : twf g t -> v < length t -> anc (t ++ x) a v <-> anc t a v.
Proof.
  intros T L. split; intros H; revert L.
  - induction H as [|a p e v H IH U]; intros L; [constructor|]. destruct (nth_up_app t x v L) as [X _]. rewrite X in U. apply (anc_step t a p e v); [apply IH; apply (up_some g t T) in U; lia|exact U].
  - induction H as [|a p e v H IH U]; intros L; [constructor|]. apply (anc_step _ a p e v); [apply IH; apply (up_some g t T) in U; lia|]. destruct (nth_up_app t x v L) as [X _]. rewrite X. exact U.
Qed.
