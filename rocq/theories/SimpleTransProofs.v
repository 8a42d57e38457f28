(** * False clauses, parallel edges, direct edges, constraint simplification, pipelines: proofs. *)
From Verif Require Import Syntax Solver Graph GraphOps GraphOpsProofs ValidatorModel ValidatorProofs FormulaModel FormulaProofs3 GraphSem SimpleTransModel UnreachProofs UnreachProofs2 ReverseProofs.
Open Scope nat_scope.

(** ** Solutions of graphs with the same inferences *)
Lemma solution_transfer g g' w : gpv g' = gpv g ->
  (forall e, In e (gedges g) -> (forall p, In p (efrom e) -> w p <> None) /\ w (eto e) <> None /\
     forall ps f, follows g e ps f -> Forall (wtrue g w) ps -> wtrue g w f) ->
  solution g' w -> solution g w.
Proof.
  intros Hp H S. apply solution_facts in S as [V [E0 [E1 _]]]. apply solution_facts.
  split; [intros p d E v Hv; rewrite <- Hp; eapply V; eauto|]. auto.
Qed.
Lemma wtrue_pv g g' w f : gpv g' = gpv g -> (wtrue g' w f <-> wtrue g w f).
Proof. intros E. unfold wtrue. rewrite E. tauto. Qed.
Lemma follows_same g g' e e' ps f : gpv g' = gpv g -> efrom e' = efrom e -> eto e' = eto e ->
  (forall r, holds r (efla e) -> holds r (efla e')) -> follows g e ps f -> follows g' e' ps f.
Proof. intros E1 E2 E3 H [r [Hl Hr]]. exists r. unfold src_vars, tgt_vars in *. rewrite E1, E2, E3. auto. Qed.

(** ** False clauses *)
Theorem remove_false_ok g : wf_graph g ->
  let g' := tr_graph (remove_false g) in
  wf_graph g' /\ (forall p vs, derivable g p vs <-> derivable g' p vs) /\
  (forall w, solution g' w -> (forall p, vertex g p -> w p <> None) -> solution g w) /\
  (forall d, error_derivation g' d -> error_derivation g d).
Proof.
  intros W g'. split; [apply wf_filter, W|]. split; [|split].
  - intros p vs. change (dfact g (p, vs) <-> dfact g' (p, vs)). split.
    + apply (dfact_ind g (dfact g')); [constructor|]. intros e ps f He F _ IH. apply (dfact_follows g' e ps); auto.
      apply filter_In. split; [exact He|]. apply negb_true_iff. destruct (term_eqb_spec (efla e) tt_false) as [E|]; [|reflexivity].
      exfalso. destruct F as [r [Hl _]]. rewrite E in Hl. apply (holds_false r Hl).
    + apply derivable_sub; [reflexivity|]. intros e He. apply filter_In in He. tauto.
  - intros w S Hall. apply solution_facts in S as [V [E0 [E1 HE]]]. apply solution_facts.
    split; [exact V|]. split; [exact E0|]. split; [exact E1|]. intros e He.
    split; [intros p Hp; apply Hall; right; right; eauto|]. split; [apply Hall; right; right; eauto|].
    destruct (term_eqb_spec (efla e) tt_false) as [E|N].
    + intros ps f [r [Hl _]]. rewrite E in Hl. destruct (holds_false r Hl).
    + apply (HE e). apply filter_In. split; [exact He|]. apply negb_true_iff. destruct (term_eqb_spec (efla e) tt_false); congruence.
  - intros d. apply error_derivation_sub; [reflexivity|]. intros e He. apply filter_In in He. tauto.
Qed.

(** ** Parallel edges *)
Section Merge.
Variable g : hgraph.
Hypothesis W : wf_graph g.

Lemma same_bucket_spec a b : same_bucket a b = true <-> is_single a = true /\ efrom b = efrom a /\ eto b = eto a.
Proof.
  unfold same_bucket. rewrite !andb_true_iff, !Nat.eqb_eq. unfold is_single. rewrite !Nat.eqb_eq. split.
  - intros [[[Ha Hb] H1] H2]. split; [exact Ha|]. destruct (efrom a) as [|x [|]], (efrom b) as [|y [|]]; try discriminate. simpl in H1. subst. auto.
  - intros [Ha [-> ->]]. auto.
Qed.
Lemma bucket_spec e x : In x (bucket g e) <-> In x (gedges g) /\ is_single e = true /\ efrom x = efrom e /\ eto x = eto e.
Proof. unfold bucket. rewrite filter_In, same_bucket_spec. tauto. Qed.
Lemma bucket_same e x : is_single e = true -> efrom x = efrom e -> eto x = eto e -> bucket g x = bucket g e.
Proof.
  intros S H1 H2. unfold bucket. apply filter_ext. intros y. 
  destruct (same_bucket x y) eqn:E1, (same_bucket e y) eqn:E2; try reflexivity.
  - apply same_bucket_spec in E1 as [A [B C]]. assert (same_bucket e y = true) by (apply same_bucket_spec; repeat split; congruence). congruence.
  - apply same_bucket_spec in E2 as [A [B C]]. assert (same_bucket x y = true).
    { apply same_bucket_spec. unfold is_single in *. rewrite H1. repeat split; congruence. } congruence.
Qed.

(** What an edge of the merged graph looks like. *)
Inductive merged_as (e' : hedge) : Prop :=
| ma_kept : In e' (gedges g) -> (forall m, In m (merged_edges g) -> eid (snd m) <> eid e') -> (is_single e' = true -> bucket g e' = [e']) -> merged_as e'
| ma_merged e0 e1 b : In e0 (gedges g) -> is_single e0 = true -> bucket g e0 = e0 :: e1 :: b -> e' = merged_edge (e0 :: e1 :: b) e0 ->
    In (e0 :: e1 :: b, e') (merged_edges g) -> merged_as e'.

Lemma merged_edges_spec m : In m (merged_edges g) <-> exists e0 e1 b, In e0 (gedges g) /\ is_single e0 = true /\
  bucket g e0 = e0 :: e1 :: b /\ m = (e0 :: e1 :: b, merged_edge (e0 :: e1 :: b) e0).
Proof.
  unfold merged_edges. rewrite in_concat. split.
  - intros [l [Hl Hm]]. apply in_map_iff in Hl as [e [<- He]]. unfold merged_of in Hm.
    destruct (is_single e) eqn:S; [|destruct Hm]. destruct (bucket g e) as [|e0 [|e1 b]] eqn:B; [destruct Hm|destruct Hm|].
    destruct (Nat.eqb_spec (eid e0) (eid e)) as [E|]; [|destruct Hm]. destruct Hm as [<-|[]].
    assert (H0 : In e0 (bucket g e)) by (rewrite B; simpl; auto). apply bucket_spec in H0 as [H0 _].
    assert (e0 = e) by (apply (wf_edge_eq g); auto). subst e0. exists e, e1, b. auto.
  - intros [e0 [e1 [b [H0 [S [B ->]]]]]]. exists (merged_of g e0). split; [apply in_map, H0|].
    unfold merged_of. rewrite S, B, Nat.eqb_refl. simpl; auto.
Qed.
Lemma merge_multi_as e' : In e' (gedges (merge_multi g)) -> merged_as e'.
Proof.
  cbn [merge_multi gedges]. rewrite in_concat. intros [l [Hl Hm]]. apply in_map_iff in Hl as [e [<- He]]. unfold merge_one in Hm.
  destruct (is_single e) eqn:S.
  - destruct (bucket g e) as [|e0 [|e1 b]] eqn:B.
    + exfalso. assert (H : In e (bucket g e)) by (apply bucket_spec; auto). rewrite B in H. destruct H.
    + destruct Hm as [<-|[]]. apply ma_kept; auto.
      * intros m Hin E. apply merged_edges_spec in Hin as [x0 [x1 [b [H0 [S0 [B0 ->]]]]]]. simpl in E.
        assert (x0 = e) by (apply (wf_edge_eq g); auto). subst x0. congruence.
      * intros _. rewrite B. assert (H : In e (bucket g e)) by (apply bucket_spec; auto). rewrite B in H. destruct H as [->|[]]. reflexivity.
    + destruct (Nat.eqb_spec (eid e0) (eid e)) as [E|]; [|destruct Hm]. destruct Hm as [<-|[]].
      assert (H0 : In e0 (bucket g e)) by (rewrite B; simpl; auto). apply bucket_spec in H0 as [H0 _].
      assert (e0 = e) by (apply (wf_edge_eq g); auto). subst e0. eapply ma_merged; eauto.
      apply merged_edges_spec. exists e, e1, b. auto.
  - destruct Hm as [<-|[]]. apply ma_kept; auto.
    + intros m Hin E. apply merged_edges_spec in Hin as [x0 [x1 [b [H0 [S0 [B0 ->]]]]]]. simpl in E.
      assert (x0 = e) by (apply (wf_edge_eq g); auto). subst x0. congruence.
    + congruence.
Qed.
(** Every edge is represented. *)
Lemma merge_multi_rep e : In e (gedges g) -> exists e', In e' (gedges (merge_multi g)) /\ efrom e' = efrom e /\ eto e' = eto e /\
  (forall r, holds r (efla e) -> holds r (efla e')).
Proof.
  intros He. cbn [merge_multi gedges]. destruct (is_single e) eqn:S.
  - destruct (bucket g e) as [|e0 [|e1 b]] eqn:B.
    + exfalso. assert (H : In e (bucket g e)) by (apply bucket_spec; auto). rewrite B in H. destruct H.
    + exists e. split; [|auto]. apply in_concat. exists (merge_one g e). split; [apply in_map, He|].
      unfold merge_one. rewrite S, B. simpl; auto.
    + assert (H0 : In e0 (bucket g e)) by (rewrite B; simpl; auto). apply bucket_spec in H0 as [H0 [_ [F T]]].
      assert (S0 : is_single e0 = true) by (unfold is_single in *; rewrite F; exact S).
      exists (merged_edge (e0 :: e1 :: b) e0). split.
      * apply in_concat. exists (merge_one g e0). split; [apply in_map, H0|]. unfold merge_one. rewrite S0.
        rewrite (bucket_same e e0 S F T), B, Nat.eqb_refl. simpl; auto.
      * split; [exact F|]. split; [exact T|]. intros r Hr. cbn [merged_edge efla]. apply holds_or, Exists_exists.
        exists (efla e). split; [|exact Hr]. apply in_map. rewrite <- B. apply bucket_spec. auto.
  - exists e. split; [|auto]. apply in_concat. exists (merge_one g e). split; [apply in_map, He|].
    unfold merge_one. rewrite S. simpl; auto.
Qed.
(** Every model of a merged edge is one of an original edge. *)
Lemma merge_multi_inv e' r : In e' (gedges (merge_multi g)) -> holds r (efla e') ->
  exists e, In e (gedges g) /\ efrom e = efrom e' /\ eto e = eto e' /\ holds r (efla e).
Proof.
  intros He Hr. apply merge_multi_as in He as [He _|e0 e1 b H0 S B -> _]; [exists e'; auto|].
  cbn [merged_edge efla efrom eto] in *. apply holds_or, Exists_exists in Hr as [t [Ht Hr]]. apply in_map_iff in Ht as [e [<- He]].
  rewrite <- B in He. apply bucket_spec in He as [He [_ [F T]]]. exists e. auto.
Qed.
Lemma merged_from e' : In e' (gedges (merge_multi g)) -> exists e, In e (gedges g) /\ efrom e = efrom e' /\ eto e = eto e' /\ eid e = eid e'.
Proof.
  intros He. apply merge_multi_as in He as [He _|e0 e1 b H0 S B -> _]; [exists e'; auto|]. exists e0. auto.
Qed.
Lemma merged_vars e' v : In e' (gedges (merge_multi g)) -> In v (vars (efla e')) ->
  exists e, In e (gedges g) /\ efrom e = efrom e' /\ eto e = eto e' /\ In v (vars (efla e)) /\ (e = e' \/ In e (bucket g e')).
Proof.
  intros He Hv. apply merge_multi_as in He as [He _|e0 e1 b H0 S B -> _]; [exists e'; auto 10|].
  cbn [merged_edge efla efrom eto] in *. apply in_vars_app in Hv as [t [Ht Hv]]. apply in_map_iff in Ht as [e [<- He]].
  rewrite <- B in He. pose proof He as He'. apply bucket_spec in He as [He [_ [F T]]]. exists e. repeat split; auto.
Qed.
Lemma own_vars_same h e1 e2 : efrom e1 = efrom e2 -> eto e1 = eto e2 -> own_vars h e1 = own_vars h e2.
Proof. intros E1 E2. unfold own_vars. rewrite E1, E2. reflexivity. Qed.

Lemma merge_ids_sub : forall l, (forall e, In e l -> In e (gedges g)) -> NoDup (map eid l) -> 
  NoDup (map eid (concat (map (merge_one g) l))) /\ forall i, In i (map eid (concat (map (merge_one g) l))) -> In i (map eid l).
Proof.
  induction l as [|e l IH]; intros Hin N; cbn [map concat]; [split; [constructor|tauto]|].
  cbn [map] in N. inversion N as [|? ? Hn N']; subst. destruct IH as [I1 I2]; auto; [intros; apply Hin; simpl; auto|].
  assert (M : map eid (merge_one g e) = [eid e] \/ merge_one g e = []).
  { unfold merge_one. destruct (is_single e); [|auto]. destruct (bucket g e) as [|e0 [|e1 b]]; auto.
    destruct (Nat.eqb_spec (eid e0) (eid e)) as [E|]; [|auto]. left. simpl. congruence. }
  rewrite map_app. destruct M as [->| ->].
  - cbn [app]. split; [constructor; auto|]. intros i [<-|H]; simpl; auto.
  - cbn [map app]. split; [exact I1|]. intros i H. simpl; auto.
Qed.
Lemma wf_merge : wf_graph (merge_multi g).
Proof.
  assert (O : forall e, own_vars (merge_multi g) e = own_vars g e) by (intros e; apply own_vars_pv; reflexivity).
  split.
  - apply (wf_rep g W).
  - intros e' He. apply merged_from in He as [e [He [F _]]]. rewrite <- F. apply (wf_from g W), He.
  - apply (merge_ids_sub (gedges g)); [auto|apply (wf_ids g W)].
  - intros e' He. apply merged_from in He as [e [He [_ [_ E]]]]. rewrite <- E. apply (wf_idlt g W), He.
  - intros e' v He Hv Ho p Hp. destruct (merged_vars e' v He Hv) as [e [H1 [F [T [Hv' _]]]]].
    rewrite O, <- (own_vars_same g e e' F T) in Ho. apply (wf_label g W e v H1 Hv' Ho p).
    destruct Hp as [X|[X|[x [Hx X]]]]; [left; exact X|right; left; exact X|]. apply merged_from in Hx as [y [Hy [Fy [Ty _]]]].
    right; right. exists y. rewrite Fy, Ty. auto.
  - intros e1 e2 v H1 H2 Hne Hv1 Hv2. rewrite !O.
    destruct (merged_vars e1 v H1 Hv1) as [x1 [X1 [F1 [T1 [V1 B1]]]]]. destruct (merged_vars e2 v H2 Hv2) as [x2 [X2 [F2 [T2 [V2 B2]]]]].
    rewrite <- (own_vars_same g x1 e1 F1 T1), <- (own_vars_same g x2 e2 F2 T2).
    apply (wf_priv g W); auto. intros E. apply Hne. assert (x1 = x2) by (apply (wf_edge_eq g); auto). subst x2.
    assert (F12 : efrom e1 = efrom e2) by congruence. assert (T12 : eto e1 = eto e2) by congruence.
    apply merge_multi_as in H1. apply merge_multi_as in H2. clear - H1 H2 F12 T12 B1 B2 W X1.
    assert (BS : is_single e1 = true -> bucket g e1 = bucket g e2).
    { intros S. symmetry. apply bucket_same; [exact S|congruence|congruence]. }
    destruct H1 as [H1 _ K1|a0 a1 a Ha Sa Ba -> _]; destruct H2 as [H2 _ K2|b0 b1 b Hb Sb Bb -> _].
    + destruct (is_single e1) eqn:S1.
      * assert (S2 : is_single e2 = true) by (unfold is_single in *; rewrite <- F12; exact S1).
        specialize (K1 eq_refl). specialize (K2 S2). specialize (BS eq_refl). congruence.
      * assert (X : forall z, In z (bucket g e1) -> False) by (intros z Hz; apply bucket_spec in Hz; destruct Hz as [_ [X _]]; congruence).
        assert (S2 : is_single e2 = false) by (unfold is_single in *; rewrite <- F12; exact S1).
        assert (X' : forall z, In z (bucket g e2) -> False) by (intros z Hz; apply bucket_spec in Hz; destruct Hz as [_ [X' _]]; congruence).
        destruct B1 as [->|B1]; [|destruct (X _ B1)]. destruct B2 as [->|B2]; [reflexivity|destruct (X' _ B2)].
    + cbn [merged_edge efrom eto eid] in *. assert (S1 : is_single e1 = true) by (unfold is_single in *; rewrite F12; exact Sb).
      specialize (K1 S1). specialize (BS S1). rewrite (bucket_same b0 (merged_edge (b0 :: b1 :: b) b0)) in BS; auto. congruence.
    + cbn [merged_edge efrom eto eid] in *. assert (S2 : is_single e2 = true) by (unfold is_single in *; rewrite <- F12; exact Sa).
      specialize (K2 S2). assert (S1 : is_single (merged_edge (a0 :: a1 :: a) a0) = true) by exact Sa. specialize (BS S1).
      rewrite (bucket_same a0 (merged_edge (a0 :: a1 :: a) a0)) in BS; auto. congruence.
    + cbn [merged_edge efrom eto eid] in *. assert (E : bucket g b0 = bucket g a0) by (apply bucket_same; auto).
      rewrite Ba, Bb in E. injection E as -> _ _. reflexivity.
  - intros e' v He Hv. destruct (merged_vars e' v He Hv) as [e [H1 [_ [_ [Hv' _]]]]]. apply (wf_fresh g W e v H1 Hv').
  - intros e' He. apply merged_from in He as [e [He [_ [T _]]]]. rewrite <- T. apply (wf_entry g W), He.
  - intros e' He. apply merged_from in He as [e [He [F _]]]. rewrite <- F. apply (wf_exit g W), He.
Qed.
Lemma merge_follows e ps f : In e (gedges g) -> follows g e ps f -> exists e', In e' (gedges (merge_multi g)) /\ follows (merge_multi g) e' ps f.
Proof.
  intros He F. destruct (merge_multi_rep e He) as [e' [He' [E1 [E2 H]]]]. exists e'. split; [exact He'|].
  eapply follows_same; [reflexivity|exact E1|exact E2|exact H|exact F].
Qed.
Lemma merge_follows_inv e' ps f : In e' (gedges (merge_multi g)) -> follows (merge_multi g) e' ps f ->
  exists e, In e (gedges g) /\ follows g e ps f.
Proof.
  intros He [r [Hl Hr]]. destruct (merge_multi_inv e' r He Hl) as [e [He' [E1 [E2 H]]]]. exists e. split; [exact He'|].
  exists r. split; [exact H|]. rewrite E1, E2. exact Hr.
Qed.
Lemma merge_derivable p vs : derivable g p vs <-> derivable (merge_multi g) p vs.
Proof.
  change (dfact g (p, vs) <-> dfact (merge_multi g) (p, vs)). split.
  - apply (dfact_ind g (dfact (merge_multi g))); [constructor|]. intros e ps f He F _ IH.
    destruct (merge_follows e ps f He F) as [e' [He' F']]. eapply dfact_follows; eauto.
  - apply (dfact_ind (merge_multi g) (dfact g)); [constructor|]. intros e ps f He F _ IH.
    destruct (merge_follows_inv e ps f He F) as [e' [He' F']]. eapply dfact_follows; eauto.
Qed.
Lemma merge_solution w : solution (merge_multi g) w -> solution g w.
Proof.
  intros S. pose proof S as S'. apply solution_facts in S' as [_ [_ [_ HE]]].
  apply (solution_transfer g (merge_multi g)); [reflexivity| |exact S]. intros e He.
  destruct (merge_multi_rep e He) as [e' [He' [E1 [E2 H]]]]. destruct (HE e' He') as [A [B C]]. rewrite E1 in A. rewrite E2 in B.
  split; [exact A|]. split; [exact B|]. intros ps f F Hp.
  apply (C ps f); [|exact Hp]. eapply follows_same; [reflexivity|exact E1|exact E2|exact H|exact F].
Qed.
Lemma merge_vertex p : vertex (merge_multi g) p -> vertex g p.
Proof.
  intros [X|[X|[x [Hx X]]]]; [left; exact X|right; left; exact X|]. apply merged_from in Hx as [y [Hy [Fy [Ty _]]]].
  right; right. exists y. rewrite Fy, Ty. auto.
Qed.

Variable check : check_fn.
Variable simp : term -> term.
Hypothesis Hc : check_ok check.
Hypothesis Hs : forall t, equiv (simp t) t.

Lemma choose_edge_sat m es e : choose_edge check simp m es = Some e -> In e es /\ exists r, holds r (subst m (efla e)).
Proof.
  unfold choose_edge. intros E. destruct (find (fun e0 => term_eqb (simp (subst m (efla e0))) tt_true) es) as [x|] eqn:E1.
  - injection E as <-. apply find_some in E1 as [H1 H2]. split; [exact H1|]. exists (fun _ => VBool true).
    apply Hs. destruct (term_eqb_spec (simp (subst m (efla x))) tt_true) as [->|]; [apply holds_true|discriminate].
  - apply find_some in E as [H1 H2]. split; [exact H1|]. apply andb_true_iff in H2 as [_ H2].
    destruct (check [simp (subst m (efla e))]) as [r| |] eqn:Ec; try discriminate. exists r. apply Hs.
    apply (check_sat _ Hc) in Ec. apply Forall_inv in Ec. exact Ec.
Qed.
Lemma choose_edge_total m es e r : decisive check -> In e es -> holds r (subst m (efla e)) -> choose_edge check simp m es <> None.
Proof.
  intros Hd He Hr. unfold choose_edge. destruct (find _ es) as [x|] eqn:E1; [discriminate|].
  intros E2. pose proof (find_none _ _ E2 e He) as X. cbv beta in X. apply andb_false_iff in X as [X|X].
  - apply negb_false_iff in X. destruct (term_eqb_spec (simp (subst m (efla e))) tt_false) as [E|]; [|discriminate].
    apply Hs in Hr. rewrite E in Hr. destruct (holds_false r Hr).
  - destruct (check [simp (subst m (efla e))]) as [m0| |] eqn:Ec; [discriminate| |destruct (Hd _ Ec)].
    apply (check_unsat _ Hc) in Ec. apply (Ec r). constructor; [apply Hs, Hr|constructor].
Qed.

Lemma fits_args r l : fits l (args r l).
Proof. unfold fits, args. induction l as [|v l IH]; constructor; [|exact IH]. apply coerce_sort. Qed.

Lemma map_opt_nth {A B} (f : A -> option B) l l' : map_opt f l = Some l' -> length l' = length l /\
  forall i, match nth_error l i with Some x => exists y, f x = Some y /\ nth_error l' i = Some y | None => nth_error l' i = None end.
Proof.
  revert l'. induction l as [|x l IH]; intros l' E; cbn [map_opt] in E.
  - injection E as <-. split; [reflexivity|]. intros [|i]; reflexivity.
  - destruct (f x) as [y|] eqn:Ef; [|discriminate]. destruct (map_opt f l) as [ys|] eqn:El; [|discriminate]. injection E as <-.
    destruct (IH ys eq_refl) as [L N]. split; [simpl; lia|]. intros [|i]; [exists y; auto|apply N].
Qed.
Lemma map_opt_total {A B} (f : A -> option B) l : (forall x, In x l -> f x <> None) -> exists l', map_opt f l = Some l'.
Proof.
  induction l as [|x l IH]; intros H; cbn [map_opt]; [eauto|]. destruct (f x) as [y|] eqn:E; [|destruct (H x); simpl; auto].
  destruct IH as [ys ->]; [intros; apply H; simpl; auto|]. eauto.
Qed.
End Merge.

Lemma Forall2_imp {A B} (P Q : A -> B -> Prop) l l' : (forall a b, P a b -> Q a b) -> Forall2 P l l' -> Forall2 Q l l'.
Proof. intros H F. induction F; constructor; auto. Qed.
(** Changing the clauses of a derivation. *)
Lemma relabel_ok g g' d d' : length d' = length d ->
  (forall i s, nth_error d i = Some s -> exists s', nth_error d' i = Some s' /\ st_fact s' = st_fact s /\ st_premises s' = st_premises s /\
     (i = 0 -> st_clause s = no_id -> st_clause s' = no_id) /\
     (0 < i -> step_ok g' d i s -> exists e prems, In e (gedges g) /\ eid e = st_clause s' /\
       Forall2 (fun k f => k < i /\ option_map st_fact (nth_error d k) = Some f) (st_premises s) prems /\ follows g e prems (st_fact s))) ->
  error_derivation g' d -> error_derivation g d'.
Proof.
  intros L H [[R0 R1 R2] F0 La].
  assert (Fact : forall k, option_map st_fact (nth_error d' k) = option_map st_fact (nth_error d k)).
  { intros k. destruct (nth_error d k) as [s|] eqn:E.
    - destruct (H k s E) as [s' [E1 [E2 _]]]. rewrite E1. cbn [option_map]. rewrite E2. reflexivity.
    - apply nth_error_None in E. rewrite <- L in E. apply nth_error_None in E. rewrite E. reflexivity. }
  assert (Back : forall i s', nth_error d' i = Some s' -> exists s, nth_error d i = Some s).
  { intros i s' E. destruct (nth_error d i) eqn:E'; [eauto|]. exfalso. apply nth_error_None in E'. rewrite <- L in E'. apply nth_error_None in E'. congruence. }
  split; [split|..].
  - rewrite Fact. exact R0.
  - destruct R1 as [n [Hn En]]. exists n. rewrite L, Fact. auto.
  - intros i s' Hi Es'. destruct (Back i s' Es') as [s Es]. destruct (H i s Es) as [s'' [E1 [E2 [E3 [_ E4]]]]].
    rewrite Es' in E1. injection E1 as <-. destruct (E4 Hi (R2 i s Hi Es)) as [e [prems [A1 [A2 [A3 A4]]]]].
    exists e, prems. split; [exact A1|]. split; [exact A2|]. rewrite E2, E3. split; [|exact A4].
    eapply Forall2_imp; [|exact A3]. intros k f [B1 B2]. rewrite Fact. auto.
  - destruct (nth_error d 0) as [s|] eqn:E; [|discriminate]. simpl in F0. injection F0 as F0.
    destruct (H 0 s E) as [s' [-> [_ [_ [E0 _]]]]]. simpl. rewrite E0; auto.
  - intros i s' Es' Hx. destruct (Back i s' Es') as [s Es]. destruct (H i s Es) as [s'' [E1 [E2 _]]].
    rewrite Es' in E1. injection E1 as <-. rewrite E2 in Hx. rewrite L. eapply La; eauto.
Qed.
