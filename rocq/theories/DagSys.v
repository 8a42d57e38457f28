(** * The loops of a graph as transition systems; children of a vertex *)
From Verif Require Import Syntax Solver TransSys TSLemmas KTo1Model FormulaModel NontermProofs ListLemmas TrlRun Graph GraphOps GraphOpsProofs GraphSem LinearModel LinearPath LinearTS PropGraph TpaModel TpaProofs TpaQuery TpaLess TpaFix TpaRun TpaTop DagModel TpaReuse.
Open Scope list_scope.
Open Scope nat_scope.

Definition at_v (g : lgraph) (v : sym) (s : state) : fact := (v, args s (cur_vars g v)).
Lemma args_same (r s : valuation) l : (forall v, In v l -> coerce (vsort v) (r v) = coerce (vsort v) (s v)) <-> args r l = args s l.
Proof.
  unfold args. induction l as [|a l IH]; cbn [map]; [split; [reflexivity|intros _ v []]|]. split.
  - intros H. f_equal; [exact (H a (or_introl eq_refl))|]. apply IH. intros v Hv. apply H. right; exact Hv.
  - intros H. injection H as H1 H2. intros v [<-|Hv]; [exact H1|]. apply (proj2 IH H2 v Hv).
Qed.
Lemma state_args (f : term) (l : list var) (r s : valuation) : (forall v, In v (vars f) -> In v l) -> args r l = args s l -> holds r f -> holds s f.
Proof.
  intros V E H. unfold holds, holdsb in *. rewrite (eval_ext s r f); [exact H|]. intros v Hv. cbn. symmetry. apply (proj2 (args_same r s l) E), V, Hv.
Qed.

Section Sys.
Variable g : lgraph.
Hypothesis W : lwf g.
Hypothesis Hb : forall e, In e (ledges g) -> is_bool (lfla e) = true.

Lemma self_loop_spec v l : self_loop_of g v = Some l -> In l (ledges g) /\ lfrom l = v /\ lto l = v /\ self_loop_id g v = Some (lid l).
Proof.
  unfold self_loop_of. destruct (self_loop_id g v) as [i|] eqn:E; [|discriminate]. unfold self_loop_id in E. apply find_some in E as [E1 E2]. intros F.
  rewrite out_ids_map in E1. apply in_map_iff in E1 as [e [<- He]]. apply filter_In in He as [He Hf]. apply Nat.eqb_eq in Hf.
  rewrite (lfind_in g e (lwf_ids g W) He) in F. injection F as <-. rewrite (ltarget_in g e (lwf_ids g W) He) in E2. apply Nat.eqb_eq in E2. auto.
Qed.
Lemma self_loop_total e : In e (ledges g) -> lfrom e = lto e -> exists l, self_loop_of g (lfrom e) = Some l.
Proof.
  intros He E. unfold self_loop_of. destruct (self_loop_id g (lfrom e)) as [i|] eqn:F.
  - unfold self_loop_id in F. apply find_some in F as [F1 _]. rewrite out_ids_map in F1. apply in_map_iff in F1 as [e' [<- He']]. apply filter_In in He' as [He' _].
    exists e'. apply lfind_in; [apply (lwf_ids g W)|exact He'].
  - unfold self_loop_id in F. pose proof (find_none _ _ F (lid e)) as K. cbn beta in K. rewrite (ltarget_in g e (lwf_ids g W) He), E, Nat.eqb_refl in K.
    assert (true = false); [|discriminate]. apply K. rewrite out_ids_map. apply in_map, filter_In. split; [exact He|]. rewrite E. apply Nat.eqb_refl.
Qed.

Variable v : sym.
Variable l : ledge.
Hypothesis Hl : self_loop_of g v = Some l.
Definition loop_ts : tsys := mkTS (cur_vars g v) (laux_vars g l) tt_true (lfla l) tt_true.
Lemma vertex_ts_eq : vertex_ts g v = Some loop_ts.
Proof. unfold vertex_ts. rewrite Hl. reflexivity. Qed.
Lemma loop_vertex : lvertex g v.
Proof. destruct (self_loop_spec v l Hl) as [A [B _]]. right; right. exists l. auto. Qed.
Lemma cur_time0 p x : In x (cur_vars g p) -> vtag x = TTime 0.
Proof. intros H. apply in_map_iff in H as [y [<- _]]. reflexivity. Qed.
Lemma nxt_shift p : nxt_vars g p = map (shiftv 1) (cur_vars g p).
Proof. unfold nxt_vars, cur_vars. rewrite map_map. apply map_ext. intros x. reflexivity. Qed.
Lemma loop_ts_wf : ts_wf loop_ts = true.
Proof.
  destruct (self_loop_spec v l Hl) as [A [B [C _]]]. unfold ts_wf, loop_ts, is_state_formula, is_transition_formula, nextvars. cbn [svars avars tinit ttrans tquery].
  assert (X : forall x, In x (laux_vars g l) -> vtag x = TTime 0 /\ ~ In x (cur_vars g v)).
  { intros x H. unfold laux_vars in H. apply filter_In in H as [H1 H2]. apply nodup_In in H1. apply andb_true_iff in H2 as [H2 H3]. apply negb_true_iff in H2, H3. apply inb_false in H2, H3.
    rewrite B in H2. split; [|exact H2]. destruct (lwf_label g W l x A H1) as [K|[K|[K _]]]; [rewrite B in K; contradiction|contradiction|exact K]. }
  rewrite !andb_true_iff. repeat split.
  - apply subsetb_spec. intros x Hx. rewrite !in_app_iff. destruct (in_dec var_dec x (cur_vars g v)) as [K|K]; [auto|].
    destruct (in_dec var_dec x (nxt_vars g v)) as [K'|K']; [rewrite nxt_shift in K'; auto|].
    right; right. apply filter_In. split; [apply nodup_In, Hx|]. rewrite B, C. apply andb_true_iff. split; apply negb_true_iff, inb_false; assumption.
  - apply forallb_forall. intros x Hx. apply cur_time0 in Hx. unfold is_time0. rewrite Hx. reflexivity.
  - apply forallb_forall. intros x Hx. apply X in Hx as [Hx _]. unfold is_time0. rewrite Hx. reflexivity.
  - apply forallb_forall. intros x Hx. apply X in Hx as [_ Hx]. apply negb_true_iff, inb_false, Hx.
Qed.
Lemma loop_bool : bool_ts loop_ts.
Proof. destruct (self_loop_spec v l Hl) as [A _]. split; [reflexivity|]. split; [reflexivity|apply Hb, A]. Qed.
Lemma loop_step s s' : Step loop_ts s s' -> lfollows g l (at_v g v s) (at_v g v s').
Proof.
  destruct (self_loop_spec v l Hl) as [A [B [C _]]]. intros [r [R0 [R1 R2]]]. exists r. split; [exact R2|]. rewrite B, C. unfold at_v. split; f_equal.
  - apply args_same. intros x Hx. rewrite (R0 x Hx). reflexivity.
  - unfold args. rewrite nxt_shift, map_map. apply map_ext_in. intros x Hx. cbn [eval]. rewrite (R1 x Hx). destruct x as [xi xt xs]; destruct xt; reflexivity.
Qed.
Lemma label_step r : holds r (lfla l) -> Step loop_ts r (at_time 1 r).
Proof. intros H. exists r. split; [intros x _; reflexivity|]. split; [intros x _; reflexivity|exact H]. Qed.

Variable tsimp : term -> term.
Hypothesis Hts : simp_ok tsimp.
Variable ts' : tsys.
Hypothesis En : normal_ts tsimp loop_ts = Some ts'.
Lemma normal_sv : svars ts' = cur_vars g v.
Proof. apply (normal_spec tsimp Hts loop_ts ts' loop_bool En). Qed.
Lemma normal_wf' : ts_wf ts' = true.
Proof. exact (normal_wf tsimp Hts loop_ts ts' loop_ts_wf loop_bool En). Qed.
Lemma steps_lruns n s s' : Steps ts' n s s' -> lruns g (repeat l n) (at_v g v s) (at_v g v s').
Proof.
  destruct (self_loop_spec v l Hl) as [A _]. intros H. apply (normal_steps tsimp Hts loop_ts ts' loop_bool En) in H.
  induction H as [s|n s t u H1 _ IH]; [constructor|]. cbn [repeat]. econstructor; [exact A|apply loop_step, H1|exact IH].
Qed.
Lemma label_step' r : holds r (lfla l) -> Step ts' r (at_time 1 r).
Proof. intros H. apply (normal_step tsimp Hts loop_ts ts' loop_bool En), label_step, H. Qed.
Lemma same_at u s : same_state ts' u s -> at_v g v u = at_v g v s.
Proof. intros H. unfold at_v. f_equal. apply args_same. intros x Hx. apply H. rewrite normal_sv. exact Hx. Qed.
Lemma at_same u s : at_v g v u = at_v g v s -> same_state ts' u s.
Proof. intros H x Hx. rewrite normal_sv in Hx. injection H as H. revert x Hx. apply args_same, H. Qed.
End Sys.

(** ** Children *)
Lemma children_spec g o v i : lwf g -> In i (children g o v) <->
  exists e, In e (ledges g) /\ lid e = i /\ lfrom e = v /\ lto e <> lfrom e /\ lto e <> entry /\ In (lto e) o.
Proof.
  intros W. pose proof (lwf_ids g W) as N. unfold children. rewrite in_concat. split.
  - intros [l [Hl Hi]]. apply in_map_iff in Hl as [w [<- Hw]]. destruct (Nat.eqb_spec w entry) as [|Nw]; [destruct Hi|].
    apply filter_In in Hi as [Hi Hf]. rewrite in_ids_map in Hi. apply in_map_iff in Hi as [e [<- He]]. apply filter_In in He as [He Ht]. apply Nat.eqb_eq in Ht. subst w.
    rewrite (ltarget_in g e N He), (lsource_in g e N He) in Hf. apply andb_true_iff in Hf as [H1 H2]. apply negb_true_iff, Nat.eqb_neq in H1. apply Nat.eqb_eq in H2.
    exists e. repeat split; auto.
  - intros [e [He [<- [Ef [N1 [N2 Ho]]]]]]. eexists. split; [apply in_map; exact Ho|]. cbn beta. destruct (Nat.eqb_spec (lto e) entry) as [|_]; [contradiction|].
    apply filter_In. split.
    + rewrite in_ids_map. apply in_map, filter_In. split; [exact He|apply Nat.eqb_refl].
    + rewrite (ltarget_in g e N He), (lsource_in g e N He). apply andb_true_iff. split; [apply negb_true_iff, Nat.eqb_neq; auto|apply Nat.eqb_eq, Ef].
Qed.

Lemma path_trans g a b c : path g a b -> path g b c -> path g a c.
Proof. intros H K. induction H as [|e w He _ IH]; [exact K|]. apply path_edge; auto. Qed.
Lemma path_snoc g a e : path g a (lfrom e) -> In e (ledges g) -> path g a (lto e).
Proof. intros H He. eapply path_trans; [exact H|]. apply path_edge; [exact He|constructor]. Qed.

(** No two distinct vertices reachable from entry lie on a common cycle. *)
Definition acyclic (g : lgraph) : Prop := forall a b, path g entry a -> a <> b -> path g a b -> path g b a -> False.
Lemma dag_acyclic g : lwf g -> is_ts_dag g = Some true -> acyclic g.
Proof.
  intros W E. unfold is_ts_dag in E. destruct (Nat.ltb_spec (length (lvertices g)) 3) as [|L]; [discriminate|].
  destruct (reverse_post_order g) as [vs|]; [|discriminate]. destruct (C42_detect_loop g (lwf_ids g W)) as [l [El [_ H]]]. rewrite El in E. injection E as E.
  rewrite !andb_true_iff in E. destruct E as [[E _] _]. apply Nat.eqb_eq in E. destruct l; [|discriminate].
  intros a b Ha Hne Hab Hba. destruct (Nat.le_gt_cases (length (lvertices g)) 3) as [L3|L3].
  - destruct (C42_detect_loop_small g (lwf_ids g W) L3) as [_ K]; [|exact (K a b Hne Hab Hba)].
    intros e He. split; [apply (lwf_entry g W e He)|apply (lwf_exit g W e He)].
  - eapply H; eauto.
Qed.
