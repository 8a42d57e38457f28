(** * Merging the parallel edges of a linear graph (through the hypergraph and back). *)
From Coq Require Import Permutation.
From Verif Require Import Syntax Solver TransSys Graph GraphOps GraphOpsProofs GraphSem Names ListLemmas SimpleTransModel MergeModel MergeProofs LinearModel LinearProofs LinearPath ExpandProofs ContractModel ContractProofs ContractSem.
Open Scope list_scope.
Open Scope nat_scope.

Section LMerge.
Variable c : lgraph.
Hypothesis W : lwf c.
Variable ctr : nat.
Notation h := (to_hyper ctr c).
Notation F := (to_normal (merge_multi h)).

Lemma h_in x : In x (gedges h) <-> exists k e, nth_error (ledges c) k = Some e /\ x = hyper_edge c k e.
Proof.
  cbn [gedges to_hyper]. rewrite in_map_iff. split.
  - intros [[k e] [<- H]]. cbn [fst snd]. apply In_nth_error in H as [j H]. apply nth_error_combine in H as [H1 H2]. assert (j < length (ledges c)) by (apply nth_error_Some; congruence).
    rewrite nth_error_seq in H1 by assumption. injection H1 as <-. eauto.
  - intros [k [e [H ->]]]. exists (k, e). split; [reflexivity|]. apply (nth_error_In _ k), nth_error_combine_intro; [|exact H]. rewrite nth_error_seq; [reflexivity|]. apply nth_error_Some. congruence.
Qed.
Lemma h_eq x y : In x (gedges h) -> In y (gedges h) -> eid x = eid y -> x = y.
Proof. intros Hx Hy E. apply h_in in Hx as [k [e [H1 ->]]]. apply h_in in Hy as [j [e' [H2 ->]]]. cbn in E. injection E as ->. congruence. Qed.
Lemma h_ids : NoDup (map eid (gedges h)).
Proof.
  cbn [gedges to_hyper]. rewrite map_map. cbn [eid hyper_edge].
  replace (map _ (combine (seq 0 (length (ledges c))) (ledges c))) with (map S (seq 0 (length (ledges c)))).
  - apply NoDup_map_inj_in; [intros; lia|apply seq_NoDup].
  - rewrite <- (map_map fst S). f_equal. symmetry. apply combine_fst. rewrite seq_length. reflexivity.
Qed.
Lemma h_single x : In x (gedges h) -> is_single x = true.
Proof. intros Hx. apply h_in in Hx as [k [e [_ ->]]]. reflexivity. Qed.

Lemma round_trip e k x : In e (ledges c) -> efrom x = [lfrom e] -> eto x = lto e -> rename (vlookup (normal_map (merge_multi h) x)) (efla (hyper_edge c k e)) = lfla e.
Proof.
  intros He Ef Et. cbn [efla hyper_edge]. rewrite rename_rename. apply rename_id. intros v Hv.
  assert (Inj1 : forall a b, cur a = cur b -> src 0 a = src 0 b) by (unfold cur, src; intros a b X; injection X as -> ->; reflexivity).
  assert (Inj2 : forall a b, nxt a = nxt b -> tgt a = tgt b) by (unfold nxt, tgt; intros a b X; injection X as -> ->; reflexivity).
  assert (H1 : forall b, In b (lpv c (lfrom e)) -> vlookup (hyper_map c e) (cur b) = src 0 b).
  { intros b Hb. unfold hyper_map. rewrite vlookup_app, map_fst_pair. destruct (in_dec var_dec (cur b) (map cur (lpv c (lfrom e)))) as [I|I]; [|destruct I; apply in_map, Hb].
    apply vlookup_map_in; [apply Inj1|exact Hb]. }
  assert (H2 : forall b, In b (lpv c (lto e)) -> vlookup (hyper_map c e) (nxt b) = tgt b).
  { intros b Hb. unfold hyper_map. rewrite vlookup_app, map_fst_pair. destruct (in_dec var_dec (nxt b) (map cur (lpv c (lfrom e)))) as [I|I].
    - apply in_map_iff in I as [y [E _]]. unfold cur, nxt in E. discriminate E.
    - apply vlookup_map_in; [apply Inj2|exact Hb]. }
  assert (P : gpv (merge_multi h) = lpv c) by reflexivity.
  destruct (in_dec var_dec v (cur_vars c (lfrom e))) as [I|N1].
  { apply in_map_iff in I as [b [<- Hb]]. rewrite (H1 b Hb). apply (normal_map_src (merge_multi h) x (lfrom e) b Ef). rewrite P. exact Hb. }
  destruct (in_dec var_dec v (nxt_vars c (lto e))) as [I|N2].
  { apply in_map_iff in I as [b [<- Hb]]. rewrite (H2 b Hb). apply (normal_map_tgt (merge_multi h) x (lfrom e) b Ef). rewrite P, Et. exact Hb. }
  destruct (lwf_label c W e v He Hv) as [X|[X|[T _]]]; [contradiction|contradiction|].
  rewrite (vlookup_out (hyper_map c e) v). 2:{ unfold hyper_map. rewrite map_app, !map_fst_pair. intros X. apply in_app_iff in X as [X|X]; contradiction. }
  apply vlookup_out. unfold normal_map. rewrite map_app, !map_fst_pair. intros X. apply in_app_iff in X as [X|X]; apply in_map_iff in X as [b [<- _]]; discriminate T.
Qed.

Lemma bucket_in x y : In x (gedges h) -> (In y (bucket h x) <-> In y (gedges h) /\ efrom y = efrom x /\ eto y = eto x).
Proof.
  intros Hx. unfold bucket. rewrite filter_In. split.
  - intros [Hy S]. split; [exact Hy|]. unfold same_bucket in S. repeat (apply andb_true_iff in S as [S ?]). apply Nat.eqb_eq in H, H0.
    apply h_in in Hx as [k [e [_ ->]]]. apply h_in in Hy as [j [e' [_ ->]]]. cbn in *. split; congruence.
  - intros [Hy [E1 E2]]. split; [exact Hy|]. unfold same_bucket. rewrite (h_single x Hx), (h_single y Hy), E1, E2, !Nat.eqb_refl. reflexivity.
Qed.
Lemma bucket_eq x y : In x (gedges h) -> In y (gedges h) -> efrom y = efrom x -> eto y = eto x -> bucket h y = bucket h x.
Proof.
  intros Hx Hy E1 E2. unfold bucket. apply filter_ext. intros z. unfold same_bucket. rewrite (h_single x Hx), (h_single y Hy), E1, E2. reflexivity.
Qed.
Lemma one_cases x x' : In x (gedges h) -> In x' (merge_one h x) ->
  eid x' = eid x /\ efrom x' = efrom x /\ eto x' = eto x /\ (exists b, bucket h x = x :: b /\ ((b = [] /\ x' = x) \/ (b <> [] /\ x' = merged_edge (x :: b) x))) /\ merge_one h x = [x'].
Proof.
  intros Hx. unfold merge_one. rewrite (h_single x Hx). assert (B := proj2 (bucket_in x x Hx) (conj Hx (conj eq_refl eq_refl))).
  destruct (bucket h x) as [|y0 [|y1 b]] eqn:Eb; [destruct B| |].
  - intros [<-|[]]. destruct B as [->|[]]. repeat split; auto. exists []. auto.
  - destruct (Nat.eqb_spec (eid y0) (eid x)) as [E|N]; [|intros []]. intros [<-|[]]. assert (y0 = x).
    { assert (I : In y0 (bucket h x)) by (rewrite Eb; left; reflexivity). apply (bucket_in x y0 Hx) in I as [I _]. apply (h_eq y0 x I Hx E). }
    subst y0. repeat split; auto. exists (y1 :: b). split; [reflexivity|]. right. split; [discriminate|reflexivity].
Qed.
Lemma m_in x' : In x' (gedges (merge_multi h)) <-> exists x, In x (gedges h) /\ In x' (merge_one h x).
Proof.
  cbn [gedges merge_multi]. rewrite in_concat. split.
  - intros [l [Hl H]]. apply in_map_iff in Hl as [x [<- Hx]]. eauto.
  - intros [x [Hx H]]. exists (merge_one h x). split; [apply in_map, Hx|exact H].
Qed.
Lemma F_ids : NoDup (map lid (ledges F)).
Proof.
  cbn [ledges to_normal]. rewrite map_map. cbn [lid normal_edge]. change (fun x : hedge => eid x) with eid. cbn [gedges merge_multi].
  assert (G : forall l, incl l (gedges h) -> NoDup (map eid l) -> NoDup (map eid (concat (map (merge_one h) l))) /\ incl (map eid (concat (map (merge_one h) l))) (map eid l)).
  { induction l as [|x l IH]; intros I N; [split; [constructor|intros y []]|]. inversion N as [|? ? X N']; subst. destruct IH as [A B]; [intros y Hy; apply I; right; exact Hy|exact N'|].
    cbn [map concat]. rewrite map_app. destruct (merge_one h x) as [|x' l'] eqn:E.
    - cbn [map app]. split; [exact A|]. intros y Hy. right. apply B, Hy.
    - destruct (one_cases x x') as [E1 [_ [_ [_ E2]]]]; [apply I; left; reflexivity|rewrite E; left; reflexivity|]. rewrite E in E2. injection E2 as ->. cbn [map app]. rewrite E1. split.
      + constructor; [|exact A]. intros Y. apply X, B, Y.
      + intros y [<-|Hy]; [left; reflexivity|right; apply B, Hy]. }
  apply (G (gedges h)); [intros x Hx; exact Hx|apply h_ids].
Qed.

(** The edges of the merged graph. *)
Definition par (e' e : ledge) : Prop := lfrom e = lfrom e' /\ lto e = lto e'.
Theorem F_edge e' : In e' (ledges F) ->
  (exists e, In e (ledges c) /\ par e' e) /\
  (forall r, holds r (lfla e') <-> exists e, In e (ledges c) /\ par e' e /\ holds r (lfla e)) /\
  (forall v, In v (vars (lfla e')) -> exists e, In e (ledges c) /\ par e' e /\ In v (vars (lfla e))).
Proof.
  cbn [ledges to_normal]. intros H. apply in_map_iff in H as [x' [<- H]]. apply m_in in H as [x [Hx Hm]]. destruct (one_cases x x' Hx Hm) as [E1 [E2 [E3 [[b [Eb E4]] _]]]].
  destruct (proj1 (h_in x) Hx) as [k [e [Hk Ex]]]. assert (He : In e (ledges c)) by (apply (nth_error_In _ k Hk)).
  assert (P0 : efrom x' = [lfrom e] /\ eto x' = lto e) by (rewrite E2, E3, Ex; auto). destruct P0 as [P1 P2].
  assert (Pe : par (normal_edge (merge_multi h) x') e) by (unfold par, normal_edge; cbn [lfrom lto]; rewrite P1, P2; auto).
  assert (All : forall y, In y (x :: b) <-> exists j e1, nth_error (ledges c) j = Some e1 /\ y = hyper_edge c j e1 /\ par (normal_edge (merge_multi h) x') e1).
  { intros y. rewrite <- Eb, (bucket_in x y Hx), h_in. rewrite <- E2, <- E3, P1, P2. unfold par, normal_edge. cbn [lfrom lto]. rewrite P1, P2. cbn [hd]. split.
    - intros [[j [e1 [Hj ->]]] [A B]]. exists j, e1. cbn in A, B. injection A as A. repeat split; auto.
    - intros [j [e1 [Hj [-> [A B]]]]]. split; [eauto|]. cbn. rewrite A, B. auto. }
  assert (Lab : forall j e1, nth_error (ledges c) j = Some e1 -> par (normal_edge (merge_multi h) x') e1 -> rename (vlookup (normal_map (merge_multi h) x')) (efla (hyper_edge c j e1)) = lfla e1).
  { intros j e1 Hj [A B]. unfold normal_edge in A, B. cbn [lfrom lto] in A, B. rewrite P1 in A. cbn [hd] in A. apply round_trip; [apply (nth_error_In _ j Hj)|rewrite P1, A; reflexivity|congruence]. }
  split; [eauto|]. destruct E4 as [[-> ->]|[Nb ->]].
  - assert (Sg : forall e1, In e1 (ledges c) -> par (normal_edge (merge_multi h) x) e1 -> e1 = e).
    { intros e1 H1 Pq. apply In_nth_error in H1 as [j Hj]. assert (Y : In (hyper_edge c j e1) [x]) by (apply All; eauto). destruct Y as [Y|[]]. rewrite Ex in Y. injection Y as -> _ _ _. congruence. }
    assert (LE : lfla (normal_edge (merge_multi h) x) = lfla e) by (rewrite <- (Lab k e Hk Pe), <- Ex; reflexivity). rewrite LE. split.
    + intros r. split; [intros H; exists e; auto|]. intros [e1 [H1 [H2 H3]]]. rewrite (Sg e1 H1 H2) in H3. exact H3.
    + intros v Hv. exists e. auto.
  - cbn [lfla normal_edge merged_edge efla]. set (nm := vlookup (normal_map (merge_multi h) (merged_edge (x :: b) x))) in *.
    change (rename nm (mkOr (map efla (x :: b)))) with (mkOr (map (rename nm) (map efla (x :: b)))). rewrite map_map. split.
    + intros r. rewrite holds_or, Exists_exists. split.
      * intros [t [Ht H]]. apply in_map_iff in Ht as [y [<- Hy]]. apply All in Hy as [j [e1 [Hj [-> Pq]]]]. rewrite (Lab j e1 Hj Pq) in H. exists e1. split; [apply (nth_error_In _ j Hj)|]. auto.
      * intros [e1 [H1 [Pq H]]]. apply In_nth_error in H1 as [j Hj]. exists (lfla e1). split; [|exact H]. apply in_map_iff. exists (hyper_edge c j e1). split; [apply (Lab j e1 Hj Pq)|]. apply All. eauto.
    + intros v Hv. apply in_lvars in Hv as [t [Ht Hv]]. apply in_map_iff in Ht as [y [<- Hy]]. apply All in Hy as [j [e1 [Hj [-> Pq]]]]. rewrite (Lab j e1 Hj Pq) in Hv. exists e1. split; [apply (nth_error_In _ j Hj)|]. auto.
Qed.
Theorem F_rep e : In e (ledges c) -> exists e', In e' (ledges F) /\ par e' e.
Proof.
  intros He. apply In_nth_error in He as [k Hk]. set (x := hyper_edge c k e). assert (Hx : In x (gedges h)) by (apply h_in; unfold x; eauto).
  assert (B := proj2 (bucket_in x x Hx) (conj Hx (conj eq_refl eq_refl))). destruct (bucket h x) as [|y b] eqn:Eb; [destruct B|].
  assert (Hy : In y (bucket h x)) by (rewrite Eb; left; reflexivity). apply (bucket_in x y Hx) in Hy as [Hy [E1 E2]].
  assert (Ey : bucket h y = y :: b) by (rewrite (bucket_eq x y Hx Hy E1 E2); exact Eb).
  assert (M : exists y', In y' (merge_one h y)).
  { unfold merge_one. rewrite (h_single y Hy), Ey. destruct b as [|z b]; [exists y; left; reflexivity|]. rewrite Nat.eqb_refl. eexists. left. reflexivity. }
  destruct M as [y' Hy']. destruct (one_cases y y' Hy Hy') as [_ [A1 [A2 _]]]. exists (normal_edge (merge_multi h) y'). split.
  - cbn [ledges to_normal]. apply in_map, m_in. eauto.
  - unfold par, normal_edge. cbn [lfrom lto]. rewrite A1, A2, E1, E2. split; reflexivity.
Qed.
Theorem F_unique e1 e2 : In e1 (ledges F) -> In e2 (ledges F) -> par e1 e2 -> e1 = e2.
Proof.
  cbn [ledges to_normal]. intros H1 H2 P. apply in_map_iff in H1 as [x1 [<- H1]]. apply in_map_iff in H2 as [x2 [<- H2]]. apply m_in in H1 as [y1 [Hy1 M1]]. apply m_in in H2 as [y2 [Hy2 M2]].
  destruct (one_cases y1 x1 Hy1 M1) as [_ [A1 [A2 [[b1 [B1 _]] O1]]]]. destruct (one_cases y2 x2 Hy2 M2) as [_ [C1 [C2 [[b2 [B2 _]] O2]]]].
  unfold par, normal_edge in P. cbn [lfrom lto] in P. destruct P as [P1 P2]. rewrite A1, C1 in P1. rewrite A2, C2 in P2.
  assert (E : efrom y1 = efrom y2) by (apply h_in in Hy1 as [? [? [_ ->]]]; apply h_in in Hy2 as [? [? [_ ->]]]; cbn in *; congruence).
  assert (X : bucket h y1 = bucket h y2) by (apply bucket_eq; auto). rewrite B1, B2 in X. injection X as X _. subst y2. rewrite O1 in O2. injection O2 as ->. reflexivity.
Qed.
Lemma F_follows e' f f' : In e' (ledges F) -> (lfollows F e' f f' <-> exists e, In e (ledges c) /\ par e' e /\ lfollows c e f f').
Proof.
  intros He. destruct (F_edge e' He) as [_ [H _]]. unfold lfollows. split.
  - intros [r [Hr [-> ->]]]. apply H in Hr as [e [H1 [[P1 P2] H3]]]. exists e. split; [exact H1|]. split; [split; assumption|]. exists r. rewrite P1, P2. auto.
  - intros [e [H1 [[P1 P2] [r [Hr [-> ->]]]]]]. exists r. split; [apply H; exists e; repeat split; auto|]. rewrite P1, P2. auto.
Qed.
Lemma F_vertex p : lvertex F p <-> lvertex c p.
Proof.
  split; intros [->|[->|[e [He H]]]]; try (left; reflexivity); try (right; left; reflexivity); right; right.
  - destruct (F_edge e He) as [[e1 [H1 [P1 P2]]] _]. exists e1. split; [exact H1|]. rewrite P1, P2. exact H.
  - destruct (F_rep e He) as [e1 [H1 [P1 P2]]]. exists e1. split; [exact H1|]. rewrite <- P1, <- P2. exact H.
Qed.
Theorem F_wf : lwf F.
Proof.
  split.
  - exact (lwf_rep c W).
  - apply F_ids.
  - intros e' v He' Hv. destruct (F_edge e' He') as [_ [_ H]]. destruct (H v Hv) as [e [He [[P1 P2] Hv']]]. rewrite <- P1, <- P2. destruct (lwf_label c W e v He Hv') as [X|[X|[T X]]]; [left; exact X|right; left; exact X|].
    right; right. split; [exact T|]. intros p Hp. apply F_vertex in Hp. apply (X p Hp).
  - intros e' He'. destruct (F_edge e' He') as [[e [He [P1 P2]]] _]. rewrite <- P2. apply (lwf_entry c W e He).
  - intros e' He'. destruct (F_edge e' He') as [[e [He [P1 P2]]] _]. rewrite <- P1. apply (lwf_exit c W e He).
Qed.
Theorem F_derivable f : lderivable F f <-> lderivable c f.
Proof.
  split; intros H; induction H as [|e f0 f1 He _ IH Fo]; try constructor.
  - apply (F_follows e f0 f1 He) in Fo as [e1 [H1 [_ H2]]]. apply (lder_edge c e1 f0 f1 H1 IH H2).
  - destruct (F_rep e He) as [e' [He' P]]. apply (lder_edge F e' f0 f1 He' IH). apply F_follows; eauto.
Qed.
Theorem F_solution w : lsolution F w -> lsolution c w.
Proof.
  intros H. apply lsol_facts in H as [V [E0 [E1 HE]]]. apply lsol_facts. split; [exact V|]. split; [exact E0|]. split; [exact E1|].
  intros e He. destruct (F_rep e He) as [e' [He' P]]. destruct (HE e' He') as [D1 [D2 H]]. destruct P as [P1 P2]. rewrite P1, P2. split; [exact D1|]. split; [exact D2|].
  intros f f' Fo. apply H. apply F_follows; [exact He'|]. exists e. split; [exact He|]. split; [split; assumption|exact Fo].
Qed.
End LMerge.
