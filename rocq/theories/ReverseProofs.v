(** * Graph reversal: proofs. *)
From Verif Require Import Syntax Solver Graph GraphOps.
Open Scope nat_scope.

(** ** Meaning of linear graphs *)
(** One edge leads from a source fact to a target fact. *)
Definition lstep (g : lgraph) (a b : fact) : Prop :=
  exists e r, In e (ledges g) /\ holds r (lfla e) /\
    a = (lfrom e, args r (cur_vars g (lfrom e))) /\ b = (lto e, args r (nxt_vars g (lto e))).
Inductive lreach (g : lgraph) : fact -> fact -> Prop :=
| lreach_refl a : lreach g a a
| lreach_step a b c : lstep g a b -> lreach g b c -> lreach g a c.

(** Every variable of a label is a current-state argument of the source, a next-state argument of the
    target, or no predicate argument at all (an auxiliary variable). *)
Definition llabel_wf (g : lgraph) (e : ledge) : Prop :=
  forall v, In v (vars (lfla e)) ->
    In v (cur_vars g (lfrom e)) \/ In v (nxt_vars g (lto e)) \/
    (forall p b, In b (lpv g p) -> v <> cur b /\ v <> nxt b).
Record lgraph_wf (g : lgraph) : Prop := {
  lwf_rep : rep_wf (lpv g);
  lwf_label : forall e, In e (ledges g) -> llabel_wf g e
}.

(** ** Injective renamings can be undone *)
Lemma unrename (s : var -> var) (L : list var) (r : valuation) :
  (forall a b, In a L -> In b L -> s a = s b -> a = b) ->
  exists r' : valuation, forall v, In v L -> r' (s v) = r v.
Proof.
  intros Inj. exists (fun u => match find (fun v => var_eqb (s v) u) L with Some v => r v | None => r u end).
  intros v Hv. destruct (find (fun v0 => var_eqb (s v0) (s v)) L) as [w|] eqn:E.
  - apply find_some in E as [Hw E]. destruct (var_eqb_spec (s w) (s v)) as [E'|]; [|discriminate].
    rewrite (Inj w v Hw Hv E'). reflexivity.
  - pose proof (find_none _ _ E v Hv) as X. simpl in X. rewrite var_eqb_refl in X. discriminate.
Qed.

Section R.
Variable g : lgraph.
Hypothesis W : lgraph_wf g.
Let Hrep := lwf_rep g W.

Lemma base_eq p q a b : In a (lpv g p) -> In b (lpv g q) -> vbase a = vbase b -> vsort a = vsort b -> a = b /\ p = q.
Proof.
  intros Ha Hb E1 E2. pose proof (rep_base _ Hrep _ _ Ha). pose proof (rep_base _ Hrep _ _ Hb).
  assert (a = b) by (destruct a, b; simpl in *; congruence). split; [exact H1|]. subst b. eapply (rep_disj _ Hrep); eauto.
Qed.

Definition flip (p q : sym) : var -> var :=
  vlookup (combine (cur_vars g p) (nxt_vars g p) ++ combine (nxt_vars g q) (cur_vars g q)).

Lemma vlookup_app s1 s2 v : vlookup (s1 ++ s2) v = if inb v (map fst s1) then vlookup s1 v else vlookup s2 v.
Proof.
  induction s1 as [|[a b] s1 IH]; [reflexivity|]. simpl. destruct (var_eqb v a); simpl; [reflexivity|exact IH].
Qed.
Lemma fst_combine (l : list var) (f h : var -> var) : map fst (combine (map f l) (map h l)) = map f l.
Proof. induction l; simpl; congruence. Qed.

Lemma vlookup_combine (l : list var) (f h : var -> var) b :
  (forall x y, In x l -> In y l -> f x = f y -> x = y) -> In b l -> vlookup (combine (map f l) (map h l)) (f b) = h b.
Proof.
  induction l as [|x l IH]; [intros _ []|]. intros Inj Hb. simpl. destruct (var_eqb_spec (f b) (f x)) as [E|N].
  - rewrite (Inj b x); simpl; auto.
  - destruct Hb as [<-|Hb]; [congruence|]. apply IH; auto. intros y z Hy Hz. apply Inj; simpl; auto.
Qed.
Lemma vlookup_combine_not (l : list var) (f h : var -> var) v : ~ In v (map f l) -> vlookup (combine (map f l) (map h l)) v = v.
Proof.
  induction l as [|x l IH]; [reflexivity|]. simpl. intros H. destruct (var_eqb_spec v (f x)) as [E|N]; [exfalso; apply H; auto|]. apply IH. tauto.
Qed.
Lemma flip_cur p q b : In b (lpv g p) -> flip p q (cur b) = nxt b.
Proof.
  intros H. unfold flip. rewrite vlookup_app. unfold cur_vars, nxt_vars. rewrite fst_combine.
  rewrite (proj2 (inb_true _ _)); [|apply in_map; exact H].
  apply vlookup_combine; auto. intros a a' Ha Hb E. unfold cur in E. injection E as E1 E2.
  destruct (base_eq p p a a' Ha Hb E1 E2); auto.
Qed.
Lemma flip_nxt p q b : In b (lpv g q) -> flip p q (nxt b) = cur b.
Proof.
  intros H. unfold flip. rewrite vlookup_app. unfold cur_vars, nxt_vars. rewrite fst_combine.
  rewrite (proj2 (inb_false _ _)); [|intros X; apply in_map_iff in X as [z [X _]]; discriminate].
  apply vlookup_combine; auto. intros a a' Ha Hb E. unfold nxt in E. injection E as E1 E2.
  destruct (base_eq q q a a' Ha Hb E1 E2); auto.
Qed.
Lemma flip_other p q v : ~ In v (cur_vars g p) -> ~ In v (nxt_vars g q) -> flip p q v = v.
Proof.
  intros H1 H2. unfold flip. rewrite vlookup_app. unfold cur_vars, nxt_vars in *. rewrite fst_combine.
  rewrite (proj2 (inb_false _ _)) by exact H1. apply vlookup_combine_not. exact H2.
Qed.
Lemma flip_cases p q v : (exists b, In b (lpv g p) /\ v = cur b /\ flip p q v = nxt b) \/
  (exists b, In b (lpv g q) /\ v = nxt b /\ flip p q v = cur b) \/ 
  (~ In v (cur_vars g p) /\ ~ In v (nxt_vars g q) /\ flip p q v = v).
Proof.
  destruct (inb_spec v (cur_vars g p)) as [H|H1].
  - left. unfold cur_vars in H. apply in_map_iff in H as [b [<- H]]. exists b. rewrite flip_cur; auto.
  - destruct (inb_spec v (nxt_vars g q)) as [H|H2].
    + right; left. unfold nxt_vars in H. apply in_map_iff in H as [b [<- H]]. exists b. rewrite flip_nxt; auto.
    + right; right. rewrite flip_other; auto.
Qed.
Lemma flip_sort p q : sort_preserving (flip p q).
Proof. intros v. destruct (flip_cases p q v) as [[b [_ [-> ->]]]|[[b [_ [-> ->]]]|[_ [_ ->]]]]; reflexivity. Qed.

Definition own (e : ledge) : list var := cur_vars g (lfrom e) ++ nxt_vars g (lto e) ++ vars (lfla e).
Lemma own_cases e v : In e (ledges g) -> In v (own e) ->
  In v (cur_vars g (lfrom e)) \/ In v (nxt_vars g (lto e)) \/ (forall p b, In b (lpv g p) -> v <> cur b /\ v <> nxt b).
Proof. intros He H. unfold own in H. rewrite !in_app_iff in H. destruct H as [H|[H|H]]; auto. apply (lwf_label g W e He), H. Qed.

Lemma flip_inj e : In e (ledges g) -> forall a b, In a (own e) -> In b (own e) -> flip (lfrom e) (lto e) a = flip (lfrom e) (lto e) b -> a = b.
Proof.
  intros He a b Ha Hb E. apply (own_cases e _ He) in Ha. apply (own_cases e _ He) in Hb.
  assert (K : forall v, In v (cur_vars g (lfrom e)) \/ In v (nxt_vars g (lto e)) \/ (forall p b, In b (lpv g p) -> v <> cur b /\ v <> nxt b) ->
     (exists x, In x (lpv g (lfrom e)) /\ v = cur x /\ flip (lfrom e) (lto e) v = nxt x) \/
     (exists x, In x (lpv g (lto e)) /\ v = nxt x /\ flip (lfrom e) (lto e) v = cur x) \/
     ((forall p b, In b (lpv g p) -> v <> cur b /\ v <> nxt b) /\ flip (lfrom e) (lto e) v = v)).
  { intros v Hv. destruct (flip_cases (lfrom e) (lto e) v) as [H|[H|[H1 [H2 H3]]]]; [auto|auto|].
    right; right. split; [|exact H3]. destruct Hv as [Hv|[Hv|Hv]]; tauto. }
  apply K in Ha. apply K in Hb.
  destruct Ha as [[x [Hx [-> Ea]]]|[[x [Hx [-> Ea]]]|[Na Ea]]], Hb as [[y [Hy [-> Eb]]]|[[y [Hy [-> Eb]]]|[Nb Eb]]];
    rewrite Ea, Eb in E; try discriminate; auto.
  - injection E as E1 E2. destruct (base_eq _ _ x y Hx Hy E1 E2) as [-> _]. reflexivity.
  - exfalso. destruct (Nb _ _ Hx) as [_ X]. congruence.
  - injection E as E1 E2. destruct (base_eq _ _ x y Hx Hy E1 E2) as [-> _]. reflexivity.
  - exfalso. destruct (Nb _ _ Hx) as [X _]. congruence.
  - exfalso. destruct (Na _ _ Hy) as [_ X]. congruence.
  - exfalso. destruct (Na _ _ Hy) as [X _]. congruence.
Qed.

Lemma flip_cur_args e r r' : In e (ledges g) -> (forall v, In v (own e) -> r' (flip (lfrom e) (lto e) v) = r v) ->
  args r' (nxt_vars g (lfrom e)) = args r (cur_vars g (lfrom e)) /\ args r' (cur_vars g (lto e)) = args r (nxt_vars g (lto e)).
Proof.
  intros He H. split.
  - unfold args, nxt_vars, cur_vars. rewrite !map_map. apply map_ext_in. intros b Hb. simpl.
    rewrite <- (H (cur b)); [rewrite flip_cur by exact Hb; reflexivity|].
    unfold own. apply in_or_app. left. apply in_map, Hb.
  - unfold args, nxt_vars, cur_vars. rewrite !map_map. apply map_ext_in. intros b Hb. simpl.
    rewrite <- (H (nxt b)); [rewrite flip_nxt by exact Hb; reflexivity|].
    unfold own. apply in_or_app. right. apply in_or_app. left. apply in_map, Hb.
Qed.

Theorem reverse_step a b : lstep (reverse g) b a <-> lstep g a b.
Proof.
  split.
  - intros [e' [r [He' [Hl [Eb Ea]]]]]. cbn [reverse ledges] in He'. apply in_map_iff in He' as [e [<- He]].
    cbn [reverse_edge lfla lfrom lto lid] in *.
    fold (flip (lfrom e) (lto e)) in Hl. rewrite (holds_rename (flip (lfrom e) (lto e)) r) in Hl by apply flip_sort.
    exists e, (fun v => r (flip (lfrom e) (lto e) v)). split; [exact He|]. split; [exact Hl|].
    destruct (flip_cur_args e (fun v => r (flip (lfrom e) (lto e) v)) r He) as [E1 E2]; [reflexivity|].
    change (nxt_vars (reverse g)) with (nxt_vars g) in Ea. change (cur_vars (reverse g)) with (cur_vars g) in Eb.
    rewrite Ea, Eb, <- E1, <- E2. auto.
  - intros [e [r [He [Hl [Ea Eb]]]]]. destruct (unrename (flip (lfrom e) (lto e)) (own e) r (flip_inj e He)) as [r' Hr'].
    exists (reverse_edge g e), r'. split; [apply in_map; exact He|]. cbn [reverse_edge lfla lfrom lto lid].
    fold (flip (lfrom e) (lto e)). split.
    + apply holds_rename; [apply flip_sort|]. apply (holds_agree r); [|exact Hl]. intros v Hv. symmetry. apply Hr'.
      unfold own. rewrite !in_app_iff. auto.
    + destruct (flip_cur_args e r r' He Hr') as [E1 E2]. split; [rewrite Eb|rewrite Ea]; f_equal; symmetry; assumption.
Qed.
Lemma lreach_snoc h a b c : lreach h a b -> lstep h b c -> lreach h a c.
Proof. intros H S. induction H; [eapply lreach_step; [exact S|constructor]|]. eapply lreach_step; eauto. Qed.
Theorem reverse_reach a b : lreach (reverse g) b a <-> lreach g a b.
Proof.
  split; intros H.
  - induction H as [|x y z S H IH]; [constructor|]. eapply lreach_snoc; [exact IH|]. apply reverse_step, S.
  - induction H as [|x y z S H IH]; [constructor|]. eapply lreach_snoc; [exact IH|]. apply reverse_step, S.
Qed.
Theorem reverse_reverse : ledges (reverse (reverse g)) = ledges g.
Proof.
  unfold reverse at 1. cbn [ledges]. unfold reverse at 2. cbn [ledges]. rewrite map_map.
  rewrite <- (map_id (ledges g)) at 2. apply map_ext_in. intros e He.
  destruct e as [i p q t] eqn:Ee. unfold reverse_edge. cbn [lid lfrom lto lfla]. f_equal.
  change (cur_vars (reverse g)) with (cur_vars g). change (nxt_vars (reverse g)) with (nxt_vars g).
  fold (flip p q). fold (flip q p). rewrite rename_rename. apply rename_id. intros v Hv.
  assert (Hl := lwf_label g W _ He v Hv). cbn [lid lfrom lto lfla] in Hl.
  destruct (flip_cases p q v) as [[b [Hb [-> ->]]]|[[b [Hb [-> ->]]]|[H1 [H2 ->]]]].
  - apply flip_nxt, Hb.
  - apply flip_cur, Hb.
  - destruct Hl as [Hl|[Hl|Hl]]; [tauto|tauto|]. apply flip_other.
    + intros X. apply in_map_iff in X as [b [<- Hb]]. destruct (Hl q b Hb); congruence.
    + intros X. apply in_map_iff in X as [b [<- Hb]]. destruct (Hl p b Hb); congruence.
Qed.
End R.
