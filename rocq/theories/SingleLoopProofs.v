(** * The single-loop transformation. *)
From Coq Require Import Permutation.
From Verif Require Import Syntax Solver TransSys TSLemmas Graph GraphOps GraphOpsProofs DfsProofs GraphSem Names ListLemmas SimpleTransModel MergeModel MergeProofs LinearModel LinearProofs LinearPath LinearTS PropGraph ExpandProofs ContractModel ContractProofs ContractLabels ContractSem ContractWf ContractDef LMerge NontermProofs.
Open Scope list_scope.
Open Scope nat_scope.

Section SL.
Variable g : lgraph.
Hypothesis W : lwf g.
Notation V := (inner_vertices g).
Hypothesis NF : names_free g V.
Hypothesis ET : et_free g.
Variable ord : list var -> list var.
Hypothesis Hord : forall l, Permutation (ord l) l.
Variables (nv nid ctr : nat).
Hypothesis Fnv : ~ lvertex g nv.
Hypothesis Fnid : forall e, In e (ledges g) -> lid e <> nid.
Hypothesis Hin : exists e, In e (ledges g) /\ lfrom e = entry /\ lto e <> exit.
Hypothesis Hout : exists e, In e (ledges g) /\ lto e = exit /\ lfrom e <> entry.
Hypothesis Hno : forall e, In e (ledges g) -> lfrom e = entry -> lto e <> exit.
Notation c := (contracted nv nid ord g).
Notation F := (final_graph nv nid ctr ord g).
Notation nvv := (nv_vars g V ord).

Lemma in_V p : In p V <-> lvertex g p /\ p <> entry /\ p <> exit.
Proof.
  unfold inner_vertices. rewrite filter_In, andb_true_iff, !negb_true_iff, !Nat.eqb_neq, lvertices_spec. tauto.
Qed.
Lemma V_nodup : NoDup V.
Proof. apply NoDup_filter, NoDup_nodup. Qed.
Lemma V_entry : ~ In entry V. Proof. rewrite in_V. tauto. Qed.
Lemma V_exit : ~ In exit V. Proof. rewrite in_V. tauto. Qed.
Lemma V_from e : In e (ledges g) -> lfrom e = entry \/ In (lfrom e) V.
Proof. intros He. destruct (Nat.eq_dec (lfrom e) entry) as [E|N]; [auto|]. right. apply in_V. split; [apply from_vertex, He|]. split; [exact N|apply (lwf_exit g W e He)]. Qed.
Lemma V_to e : In e (ledges g) -> lto e = exit \/ In (lto e) V.
Proof. intros He. destruct (Nat.eq_dec (lto e) exit) as [E|N]; [auto|]. right. apply in_V. split; [apply to_vertex, He|]. split; [apply (lwf_entry g W e He)|exact N]. Qed.
Lemma c_wf : lwf c.
Proof. apply contract_wf; auto using V_nodup, V_entry, V_exit. Qed.
Lemma nv_en : nv <> entry. Proof. apply (nv_entry g nv Fnv). Qed.
Lemma nv_ex : nv <> exit. Proof. apply (nv_exit g nv Fnv). Qed.

(** The edges: into the loop, the loop, out of the loop. *)
Inductive sedge (e' : ledge) : Prop :=
| se_loop : e' = loop_edge g V nv nid -> sedge e'
| se_out e : In e (ledges g) -> In (lfrom e) V -> lto e = exit -> e' = out_edge g nv e -> sedge e'
| se_in e : In e (ledges g) -> lfrom e = entry -> In (lto e) V -> e' = in_edge g V nv e -> sedge e'.
Lemma c_edge e' : In e' (ledges c) -> sedge e'.
Proof.
  intros H. destruct (contract_edge g V ord nv nid e' H) as [->|e Ie Vp Vq ->|e Ie Vp Vq ->|Ie Vp Vq].
  - apply se_loop. reflexivity.
  - eapply se_out; eauto. destruct (V_to e Ie); [assumption|contradiction].
  - eapply se_in; eauto. destruct (V_from e Ie); [assumption|contradiction].
  - exfalso. destruct (V_from e' Ie) as [A|]; [|contradiction]. destruct (V_to e' Ie) as [B|]; [|contradiction]. apply (Hno e' Ie A B).
Qed.
Lemma c_loop : In (loop_edge g V nv nid) (ledges c).
Proof. apply loop_in. Qed.
Lemma c_out e : In e (ledges g) -> In (lfrom e) V -> lto e = exit -> In (out_edge g nv e) (ledges c).
Proof. intros H1 H2 H3. apply out_in; auto. rewrite H3. apply V_exit. Qed.
Lemma c_in e : In e (ledges g) -> lfrom e = entry -> In (lto e) V -> In (in_edge g V nv e) (ledges c).
Proof. intros H1 H2 H3. apply in_in; auto. rewrite H2. apply V_entry. Qed.

Theorem F_shape : exists e0 e1 e2, ts_shape F nv e0 e1 e2.
Proof.
  assert (Fi : exists e0, In e0 (ledges F) /\ lfrom e0 = entry /\ lto e0 = nv).
  { destruct Hin as [e [He [E1 E2]]]. destruct (V_to e He) as [|Vq]; [contradiction|]. destruct (F_rep c ctr _ (c_in e He E1 Vq)) as [e' [He' [P1 P2]]]. exists e'. cbn in P1, P2. split; [exact He'|]. split; congruence. }
  assert (Fo : exists e2, In e2 (ledges F) /\ lfrom e2 = nv /\ lto e2 = exit).
  { destruct Hout as [e [He [E1 E2]]]. destruct (V_from e He) as [|Vp]; [contradiction|]. destruct (F_rep c ctr _ (c_out e He Vp E1)) as [e' [He' [P1 P2]]]. exists e'. cbn in P1, P2. split; [exact He'|]. split; congruence. }
  assert (Fl : exists e1, In e1 (ledges F) /\ lfrom e1 = nv /\ lto e1 = nv).
  { destruct (F_rep c ctr _ c_loop) as [e' [He' [P1 P2]]]. exists e'. cbn in P1, P2. split; [exact He'|]. split; congruence. }
  destruct Fi as [e0 [I0 [A0 B0]]], Fl as [e1 [I1 [A1 B1]]], Fo as [e2 [I2 [A2 B2]]]. exists e0, e1, e2.
  assert (All : forall e, In e (ledges F) <-> e = e0 \/ e = e1 \/ e = e2).
  { intros e. split; [|intros [->|[->| ->]]; assumption]. intros He. destruct (F_edge c c_wf ctr e He) as [[e3 [H3 [P1 P2]]] _]. destruct (c_edge e3 H3) as [->|x Ix Vp Ex ->|x Ix Ex Vq ->]; cbn in P1, P2.
    - right; left. symmetry. apply (F_unique c ctr e1 e); auto. split; congruence.
    - right; right. symmetry. apply (F_unique c ctr e2 e); auto. split; congruence.
    - left. symmetry. apply (F_unique c ctr e0 e); auto. split; congruence. }
  split; auto using nv_en, nv_ex.
  destruct (C42_reverse_post_order F (F_ids c ctr)) as [o [Eo [No [Ho Oo]]]]. rewrite Eo. f_equal.
  assert (R0 : In entry o) by (apply Ho; constructor).
  assert (Back : forall p q, path F p q -> q = entry -> p = entry).
  { intros p q H. induction H as [|e q He _ IH]; [auto|]. intros E. specialize (IH E). exfalso. apply All in He as [->|[->| ->]]; [apply nv_en; congruence|apply nv_en; congruence|]. rewrite B2 in IH. discriminate IH. }
  assert (Stop : forall p q, path F p q -> p = exit -> q = exit).
  { intros p q H. induction H as [|e q He _ IH]; [auto|]. intros E. exfalso. apply All in He as [->|[->| ->]]; [rewrite A0 in E; discriminate E|rewrite A1 in E; destruct (nv_ex E)|rewrite A2 in E; destruct (nv_ex E)]. }
  assert (Mem : forall v, In v o -> v = entry \/ v = nv \/ v = exit).
  { intros v Hv. apply Ho in Hv. assert (G : forall p q, path F p q -> p = entry \/ p = nv \/ p = exit -> q = entry \/ q = nv \/ q = exit).
    { intros p q H. induction H as [|e q He _ IH]; [auto|]. intros _. apply IH. apply All in He as [->|[->| ->]]; auto. }
    apply (G entry v Hv). auto. }
  apply in_split in R0 as [l1 [l2 E]]. destruct (Oo e0 l1 l2 I0) as [X|X]; [rewrite A0; exact E| |].
  2:{ rewrite A0, B0 in X. exfalso. apply nv_en. apply (Back _ _ X eq_refl). }
  rewrite B0 in X. apply in_split in X as [l3 [l4 E2]]. subst l2. destruct (Oo e2 (l1 ++ entry :: l3) l4 I2) as [X|X].
  { rewrite A2, E, <- app_assoc. reflexivity. }
  2:{ rewrite A2, B2 in X. exfalso. apply nv_ex. apply (Stop _ _ X eq_refl). }
  rewrite B2 in X. apply in_split in X as [l5 [l6 E2]]. subst l4 o.
  assert (Emp : forall l, incl l (l1 ++ entry :: l3 ++ nv :: l5 ++ exit :: l6) -> (forall v, In v l -> v <> entry /\ v <> nv /\ v <> exit) -> l = []).
  { intros [|v l] I H; [reflexivity|]. exfalso. destruct (H v (or_introl eq_refl)) as [N1 [N2 N3]]. destruct (Mem v (I v (or_introl eq_refl))) as [|[|]]; congruence. }
  assert (D : l1 = [] /\ l3 = [] /\ l5 = [] /\ l6 = []).
  { revert No Emp. clear. intros No Emp.
    assert (N1 : ~ In entry (l1 ++ l3 ++ nv :: l5 ++ exit :: l6)) by (apply NoDup_remove_2 in No; exact No).
    assert (N2 : ~ In nv ((l1 ++ entry :: l3) ++ l5 ++ exit :: l6)) by (apply (NoDup_remove_2 (l1 ++ entry :: l3)); rewrite <- app_assoc; exact No).
    assert (N3 : ~ In exit ((l1 ++ entry :: l3 ++ nv :: l5) ++ l6)).
    { apply (NoDup_remove_2 (l1 ++ entry :: l3 ++ nv :: l5)). rewrite <- app_assoc. cbn [app]. rewrite <- app_assoc. cbn [app]. exact No. }
    rewrite !in_app_iff in N1, N2, N3. cbn [In] in N1, N2, N3. rewrite !in_app_iff in N1, N2, N3. cbn [In] in N1, N2, N3.
    rewrite ?in_app_iff in N3. cbn [In] in N3.
    assert (G : forall l, (forall v, In v l -> In v l1 \/ In v l3 \/ In v l5 \/ In v l6) -> l = []).
    { intros l H. apply Emp.
      - intros v Hv. rewrite in_app_iff. cbn [In]. rewrite in_app_iff. cbn [In]. rewrite in_app_iff. cbn [In]. specialize (H v Hv). tauto.
      - intros v Hv. specialize (H v Hv). repeat split; intros ->; tauto. }
    repeat split; apply G; auto. }
  destruct D as [-> [-> [-> ->]]]. reflexivity.
Qed.

Variable elim : elim_fn.
Hypothesis Helim : elim_ok elim.
Theorem single_loop_ts e0 e1 e2 : ts_shape F nv e0 e1 e2 -> single_loop elim nv nid ctr ord g = Some (the_ts F nv e0 e1 e2 elim).
Proof.
  intros Sh. unfold single_loop, to_ts_noquery. rewrite (sh_order _ _ _ _ _ Sh), (system_vars_ok F nv e0 e1 e2 Sh), (ts_parts_ok F nv e0 e1 e2 Sh elim). reflexivity.
Qed.
Theorem sl_derivable : lderivable F (exit, []) <-> lderivable g (exit, []).
Proof.
  unfold final_graph. rewrite (F_derivable c c_wf ctr (exit, [])). apply contract_derivable; auto using V_nodup, V_entry, V_exit. right. left. reflexivity.
Qed.

(** ** Invariants *)
Variable qe : qe_fn.
Hypothesis Hqe : qe_ok qe.
Variable simp : term -> term.
Hypothesis Hsimp : simp_ok simp.
Lemma sl_defs_spec inv ps : forall w w1, NoDup ps -> (forall p, In p ps -> w p = None) -> sl_defs qe simp g inv ps w = Some w1 ->
  (forall p, In p ps -> exists d, vertex_def g qe simp cur (loc_subst V cur p) inv p = Some d /\ w1 p = Some d) /\ (forall p, ~ In p ps -> w1 p = w p).
Proof.
  induction ps as [|p ps IH]; intros w w1 N Z E; cbn [sl_defs] in E.
  - injection E as <-. split; [intros q []|auto].
  - inversion N as [|? ? X N']; subst. destruct (vertex_def g qe simp cur (loc_subst V cur p) inv p) as [d|] eqn:Ed; [|discriminate].
    assert (Ew : winsert d w p = wset w p d) by (unfold winsert; rewrite (Z p (or_introl eq_refl)); reflexivity). rewrite Ew in E.
    assert (Z' : forall q, In q ps -> wset w p d q = None).
    { intros q Hq. unfold wset. destruct (Nat.eqb_spec q p) as [->|]; [contradiction|]. apply Z. right. exact Hq. }
    destruct (IH _ _ N' Z' E) as [A B]. split.
    + intros q [<-|Hq]; [|apply A, Hq]. exists d. split; [exact Ed|]. rewrite (B p X). unfold wset. rewrite Nat.eqb_refl. reflexivity.
    + intros q Hq. rewrite (B q); [|intros Y; apply Hq; right; exact Y]. unfold wset. destruct (Nat.eqb_spec q p) as [->|]; [destruct Hq; left; reflexivity|reflexivity].
Qed.
Theorem sl_invariant_ok e0 e1 e2 inv w : ts_shape F nv e0 e1 e2 -> safe_inductive (the_ts F nv e0 e1 e2 elim) inv ->
  sl_invariant qe simp g inv = Some w -> lsolution g w.
Proof.
  intros Sh Hi E. pose proof (F_wf c c_wf ctr) as WF.
  pose proof (invariant_solution F nv e0 e1 e2 WF Sh elim Helim (the_ts F nv e0 e1 e2 elim) (the_ts_same F nv e0 e1 e2 elim) inv Hi) as S.
  apply (F_solution c c_wf ctr) in S. set (d := the_inv F nv inv) in *.
  assert (Pn : lpv F nv = nvv) by (apply (pv_nv g V ord nv nid)).
  assert (Rd : rename cur d = inv).
  { unfold d, the_inv. rewrite rename_rename. apply rename_id. intros v Hv. pose proof (inv_state _ _ Hi v Hv) as X. cbn [svars the_ts] in X. unfold cur_vars in X. apply in_map_iff in X as [x [<- Hx]].
    rewrite (to_base F nv WF x Hx). reflexivity. }
  assert (Dv : forall v, In v (vars d) -> In v nvv).
  { intros v Hv. rewrite <- Pn. apply (lsol_vars _ _ S nv d); [|exact Hv]. unfold wset. rewrite Nat.eqb_refl. reflexivity. }
  assert (Z : forall p, In p V -> trivial_defs p = None).
  { intros p Hp. apply in_V in Hp as [_ [N1 N2]]. unfold trivial_defs. rewrite (proj2 (Nat.eqb_neq _ _) N1), (proj2 (Nat.eqb_neq _ _) N2). reflexivity. }
  destruct (sl_defs_spec inv V _ _ V_nodup Z E) as [A B].
  apply (contract_solution g W V NF V_entry V_exit ord Hord nv nid Fnv (wset trivial_defs nv d) w d S).
  - unfold wset. rewrite Nat.eqb_refl. reflexivity.
  - intros p Hp. destruct (A p Hp) as [dp [E1 E2]]. exists dp. split; [exact E2|]. rewrite <- Rd in E1.
    apply (vertex_def_ok g V ord Hord qe Hqe simp Hsimp cur cur_sort unv_cur d Dv p Hp dp E1).
  - intros p Hp N. rewrite (B p Hp). unfold wset. apply Nat.eqb_neq in N. rewrite N. reflexivity.
  - rewrite B; [|intros X; apply in_V in X as [X _]; contradiction]. unfold trivial_defs. rewrite (proj2 (Nat.eqb_neq _ _) nv_en), (proj2 (Nat.eqb_neq _ _) nv_ex). reflexivity.
Qed.
End SL.
