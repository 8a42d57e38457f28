(** * Removal of unreachable nodes is correct. *)
From Verif Require Import Syntax Solver Graph GraphOps GraphOpsProofs DfsProofs ValidatorModel FormulaModel GraphSem SimpleTransModel UnreachProofs.
Open Scope nat_scope.

Lemma touches_spec v e : touches v e = true <-> eto e = v \/ In v (efrom e).
Proof. unfold touches. rewrite orb_true_iff, Nat.eqb_eq, smem_in. tauto. Qed.
Lemma delete_nodes_pv vs : forall g, gpv (delete_nodes vs g) = gpv g /\ gfree (delete_nodes vs g) = gfree g /\ gctr (delete_nodes vs g) = gctr g.
Proof. induction vs as [|v vs IH]; intros g; [auto|]. cbn [delete_nodes fold_left]. apply (IH (delete_node v g)). Qed.
Lemma delete_nodes_edges vs : forall g e, In e (gedges (delete_nodes vs g)) <->
  In e (gedges g) /\ forall v, In v vs -> eto e <> v /\ ~ In v (efrom e).
Proof.
  induction vs as [|v vs IH]; intros g e; cbn [delete_nodes fold_left].
  - split; [intros H; split; [exact H|intros ? []]|tauto].
  - change (fold_left (fun h v0 => delete_node v0 h) vs (delete_node v g)) with (delete_nodes vs (delete_node v g)).
    rewrite IH. unfold delete_node, filter_edges. cbn [gedges]. rewrite filter_In, negb_true_iff.
    assert (T : touches v e = false <-> eto e <> v /\ ~ In v (efrom e)).
    { pose proof (touches_spec v e) as T. destruct (touches v e); split; try discriminate; intuition. }
    rewrite T. split.
    + intros [[H1 H2] H3]. split; [exact H1|]. intros x [<-|Hx]; auto.
    + intros [H1 H2]. split; [split; [exact H1|apply H2; simpl; auto]|]. intros x Hx. apply H2. simpl; auto.
Qed.
Lemma wf_delete_nodes vs : forall g, wf_graph g -> wf_graph (delete_nodes vs g).
Proof. induction vs as [|v vs IH]; intros g W; [exact W|]. cbn [delete_nodes fold_left]. apply IH, wf_filter, W. Qed.

Lemma winsert_fold d l : forall w p, fold_left (winsert d) l w p =
  match w p with Some x => Some x | None => if smem p l then Some d else None end.
Proof.
  induction l as [|q l IH]; intros w p; cbn [fold_left].
  - destruct (w p); reflexivity.
  - rewrite IH. change (smem p (q :: l)) with (Nat.eqb p q || smem p l). unfold winsert at 1.
    destruct (w q) eqn:Eq.
    + destruct (w p) eqn:Ep; [reflexivity|]. destruct (Nat.eqb_spec p q); [congruence|reflexivity].
    + unfold wset. destruct (Nat.eqb_spec p q) as [->|N].
      * rewrite Eq. reflexivity.
      * destruct (w p); reflexivity.
Qed.
Lemma back_unreachable_spec fu bu w p : back_unreachable fu bu w p =
  match w p with Some x => Some x | None => if smem p bu then Some tt_true else if smem p fu then Some tt_false else None end.
Proof. unfold back_unreachable. rewrite !winsert_fold. destruct (w p); [reflexivity|]. destruct (smem p bu); reflexivity. Qed.

Lemma rename_true f : rename f tt_true = tt_true. Proof. reflexivity. Qed.
Lemma rename_false f : rename f tt_false = tt_false. Proof. reflexivity. Qed.

Section G.
Variable g : hgraph.
Hypothesis W : wf_graph g.
Let Nid := wf_ids g W.

Lemma wf_empty : wf_graph (empty_graph g).
Proof.
  split; try (intros; contradiction); try (intros ? ? []).
  - split; try reflexivity; try (intros; contradiction). intros. constructor.
  - constructor.
Qed.
Lemma empty_not_derivable : ~ derivable (empty_graph g) exit [].
Proof.
  intros D. change (dfact (empty_graph g) (exit, [])) in D.
  enough (X : forall f, dfact (empty_graph g) f -> fst f = entry) by (specialize (X _ D); discriminate X).
  apply (dfact_ind (empty_graph g) (fun f => fst f = entry)); [reflexivity|]. intros e ps f' [].
Qed.
Lemma empty_no_error d : ~ error_derivation (empty_graph g) d.
Proof. intros [R _ _]. apply empty_not_derivable. eapply refutation_derivable, R. Qed.

Lemma inner_nodes_spec v : In v (inner_nodes g) <-> vertex g v /\ v <> entry /\ v <> exit.
Proof.
  unfold inner_nodes. rewrite filter_In, hnodes_spec by exact Nid. rewrite negb_true_iff, orb_false_iff, !Nat.eqb_neq. tauto.
Qed.

Lemma no_incoming : in_edges g exit = [] -> forall e, In e (gedges g) -> eto e <> exit.
Proof.
  intros H e He E. assert (X : In (eid e) (in_edges g exit)) by (apply in_edges_spec; eauto). rewrite H in X. destruct X.
Qed.
Lemma no_outgoing : out_edges g entry = [] -> forall e, In e (gedges g) -> ~ In entry (efrom e).
Proof.
  intros H e He E. assert (X : In (eid e) (out_edges g entry)) by (apply out_edges_spec; eauto). rewrite H in X. destruct X.
Qed.
Lemma no_incoming_safe : in_edges g exit = [] -> ~ derivable g exit [].
Proof.
  intros H D. change (dfact g (exit, [])) in D.
  enough (X : forall f, dfact g f -> fst f <> exit) by (apply (X _ D); reflexivity).
  apply (dfact_ind g (fun f => fst f <> exit)); [discriminate|]. intros e ps f' He F _ _. apply follows_prems in F as [_ ->]. apply no_incoming; auto.
Qed.
Lemma no_outgoing_safe : out_edges g entry = [] -> ~ derivable g exit [].
Proof.
  intros H D. change (dfact g (exit, [])) in D.
  enough (X : forall f, dfact g f -> fst f = entry) by (specialize (X _ D); discriminate X).
  apply (dfact_ind g (fun f => fst f = entry)); [reflexivity|]. intros e ps f' He F _ Hp. exfalso.
  apply follows_prems in F as [F _]. destruct ps as [|p ps]; [apply (wf_from g W e He); symmetry; exact F|].
  apply Forall_inv in Hp. apply (no_outgoing H e He). rewrite <- F. cbn [map]. left. exact Hp.
Qed.

(** Witnesses of the empty graph. *)
Lemma empty_only w p : only (empty_graph g) w -> w p <> None -> p = entry \/ p = exit.
Proof. intros O Hp. destruct (O p Hp) as [H|[H|[e [[] _]]]]; auto. Qed.
Lemma back_vars w fu bu : wvars (empty_graph g) w -> wvars g (back_unreachable fu bu w).
Proof.
  intros V p d E v Hv. rewrite back_unreachable_spec in E. destruct (w p) as [x|] eqn:Ew.
  - injection E as <-. exfalso. exact (V p x Ew v Hv).
  - destruct (smem p bu); [injection E as <-; destruct Hv|]. destruct (smem p fu); [injection E as <-; destruct Hv|discriminate].
Qed.
Lemma empty_valid_true w : in_edges g exit = [] ->
  solution (empty_graph g) w -> only (empty_graph g) w ->
  solution g (back_unreachable [] (inner_nodes g) w) /\ only g (back_unreachable [] (inner_nodes g) w).
Proof.
  intros Hin [V [d0 [E0 T0]] [d1 [E1 T1]] _] O. set (w' := back_unreachable [] (inner_nodes g) w).
  assert (Hw : forall p, vertex g p -> p <> exit -> exists d, w' p = Some d /\ forall r, holds r d).
  { intros p Hp N1. unfold w'. rewrite back_unreachable_spec.
    destruct (Nat.eq_dec p entry) as [->|N0]; [rewrite E0; eauto|].
    destruct (w p) eqn:Ew; [exfalso; destruct (empty_only w p O) as [X|X]; congruence|].
    assert (Hi : smem p (inner_nodes g) = true) by (apply smem_in, inner_nodes_spec; auto). rewrite Hi.
    exists tt_true. split; [reflexivity|]. intros r. apply holds_true. }
  assert (Hx : w' exit = Some d1) by (unfold w'; rewrite back_unreachable_spec, E1; reflexivity).
  split.
  - split.
    + exact (back_vars w _ _ V).
    + exists d0. unfold w'. rewrite back_unreachable_spec, E0. auto.
    + exists d1. auto.
    + intros e He. split.
      * intros p Hp. destruct (Hw p) as [d [-> _]]; [eapply vertex_src; eauto| |discriminate].
        intros ->. exact (wf_exit g W e He Hp).
      * destruct (Hw (eto e)) as [d [Ed Hd]]; [apply vertex_tgt, He|apply no_incoming; auto|].
        exists d. split; [exact Ed|]. intros r _ _. apply holds_rename; [apply tgt_sort|]. apply Hd.
  - intros p Hp. unfold w' in Hp. rewrite back_unreachable_spec in Hp. destruct (w p) eqn:Ew.
    + destruct (empty_only w p O) as [->| ->]; [congruence|left; reflexivity|right; left; reflexivity].
    + destruct (smem p (inner_nodes g)) eqn:Ei; [apply smem_in, inner_nodes_spec in Ei; tauto|simpl in Hp; congruence].
Qed.
Lemma empty_valid_false w : out_edges g entry = [] ->
  solution (empty_graph g) w -> only (empty_graph g) w ->
  solution g (back_unreachable (inner_nodes g) [] w) /\ only g (back_unreachable (inner_nodes g) [] w).
Proof.
  intros Hout [V [d0 [E0 T0]] [d1 [E1 T1]] _] O. set (w' := back_unreachable (inner_nodes g) [] w).
  assert (Hw : forall p, vertex g p -> p <> entry -> exists d, w' p = Some d /\ forall r, ~ holds r d).
  { intros p Hp N0. unfold w'. rewrite back_unreachable_spec.
    destruct (Nat.eq_dec p exit) as [->|N1]; [rewrite E1; eauto|].
    destruct (w p) eqn:Ew; [exfalso; destruct (empty_only w p O) as [X|X]; congruence|].
    assert (Hi : smem p (inner_nodes g) = true) by (apply smem_in, inner_nodes_spec; auto).
    change (smem p []) with false. rewrite Hi.
    exists tt_false. split; [reflexivity|]. intros r. apply holds_false. }
  assert (Hs : forall e s, In e (gedges g) -> In s (efrom e) -> exists d, w' s = Some d /\ forall r, ~ holds r d).
  { intros e s He Hs. apply Hw; [eapply vertex_src; eauto|]. intros ->. exact (no_outgoing Hout e He Hs). }
  split.
  - split.
    + exact (back_vars w _ _ V).
    + exists d0. unfold w'. rewrite back_unreachable_spec, E0. auto.
    + exists d1. unfold w'. rewrite back_unreachable_spec, E1. auto.
    + intros e He. split.
      * intros p Hp. destruct (Hs e p He Hp) as [d [-> _]]. discriminate.
      * destruct (Hw (eto e)) as [d [Ed _]]; [apply vertex_tgt, He|apply (wf_entry g W), He|].
        exists d. split; [exact Ed|]. intros r _ H. exfalso. destruct (efrom e) as [|s l] eqn:Ef; [exact (wf_from g W e He Ef)|].
        destruct (Hs e s He) as [d' [Ed' Hd']]; [rewrite Ef; simpl; auto|].
        assert (Hi : In (s, 0) (instances (s :: l))) by (left; reflexivity).
        specialize (H s 0 d' Hi Ed'). rewrite (holds_rename (src 0) r) in H by apply src_sort. exact (Hd' _ H).
  - intros p Hp. unfold w' in Hp. rewrite back_unreachable_spec in Hp. destruct (w p) eqn:Ew.
    + destruct (empty_only w p O) as [->| ->]; [congruence|left; reflexivity|right; left; reflexivity].
    + destruct (smem p (inner_nodes g)) eqn:Ei; [apply smem_in, inner_nodes_spec in Ei; tauto|simpl in Hp; congruence].
Qed.

(** The main case. *)
Record bw_kept_ok (bu : list sym) : Prop := {
  bk_entry : ~ In entry bu;
  bk_exit : ~ In exit bu;
  bk_vertex : forall v, In v bu -> vertex g v;
  bk_closed : forall e, In e (gedges g) -> ~ In (eto e) bu -> forall s, In s (efrom e) -> ~ In s bu;
  bk_kept : forall v, vertex g v -> ~ In v bu -> vertex (delete_nodes bu g) v
}.
Lemma bw_kept_nil : bw_kept_ok [].
Proof. split; try (intros; contradiction); auto. Qed.
Lemma bw_kept_from bu : bw_ok g bu -> bw_kept_ok bu.
Proof.
  intros [B1 B2 B3 B4 B5]. split; auto.
  - intros e He Ht. apply B4; auto. apply (wf_entry g W), He.
  - intros v Hv Nb. destruct (B5 v Hv Nb) as [->|[->|[e [H1 [H2 H3]]]]]; [left; reflexivity|right; left; reflexivity|].
    right; right. exists e. split; [|auto]. apply delete_nodes_edges. split; [exact H1|]. intros x Hx. split; [congruence|].
    intros Hs. exact (B4 e H1 (wf_entry g W e H1) H3 x Hs Hx).
Qed.
Section Main.
Variables bu fu : list sym.
Let g1 := delete_nodes bu g.
Let g2 := delete_nodes fu g1.
Hypothesis HB : bw_kept_ok bu.
Hypothesis HF : fw_ok g1 fu.

Lemma pv1 : gpv g1 = gpv g. Proof. apply delete_nodes_pv. Qed.
Lemma pv2 : gpv g2 = gpv g. Proof. unfold g2. rewrite (proj1 (delete_nodes_pv fu g1)). apply pv1. Qed.
Lemma edge1 e : In e (gedges g) -> ~ In (eto e) bu -> In e (gedges g1).
Proof.
  intros He Ht. apply delete_nodes_edges. split; [exact He|]. intros v Hv. split; [congruence|].
  intros Hs. exact (bk_closed bu HB e He Ht v Hs Hv).
Qed.
Lemma edge1_inv e : In e (gedges g1) -> In e (gedges g) /\ ~ In (eto e) bu.
Proof. intros H. apply delete_nodes_edges in H as [H1 H2]. split; [exact H1|]. intros H. destruct (H2 _ H). congruence. Qed.
Lemma edge2 e : In e (gedges g1) -> (forall s, In s (efrom e) -> ~ In s fu) -> In e (gedges g2).
Proof.
  intros He Hs. apply delete_nodes_edges. split; [exact He|]. intros v Hv. split; [|intros H; exact (Hs v H Hv)].
  intros <-. apply edge1_inv in He as He0. destruct (fw_closed g1 fu HF e He) as [s [S1 S2]]; auto; [apply (wf_from g W), He0|]. exact (Hs s S1 S2).
Qed.
Lemma follows_pv h e ps f : gpv h = gpv g -> (follows h e ps f <-> follows g e ps f).
Proof. intros E. unfold follows, src_vars, tgt_vars. rewrite E. tauto. Qed.
Lemma derivable_main : derivable g exit [] <-> derivable g2 exit [].
Proof.
  split.
  - assert (A : forall f, dfact g f -> ~ In (fst f) bu -> dfact g1 f).
    { apply (dfact_ind g (fun f => ~ In (fst f) bu -> dfact g1 f)); [intros _; constructor|]. intros e ps f' He F _ IH Ht. pose proof (follows_prems _ _ _ _ F) as [P1 P2].
      rewrite P2 in Ht. apply (dfact_follows g1 e ps); [apply edge1; auto|apply (follows_pv g1), F; apply pv1|].
      rewrite Forall_forall in *. intros x Hx. apply IH; [exact Hx|].
      apply (bk_closed bu HB e He); [exact Ht|]. rewrite <- P1. apply in_map, Hx. }
    assert (B : forall f, dfact g1 f -> ~ In (fst f) fu /\ dfact g2 f).
    { apply (dfact_ind g1 (fun f => ~ In (fst f) fu /\ dfact g2 f)); [split; [apply (fw_entry g1 fu HF)|constructor]|]. intros e ps f' He F _ IH.
      apply (follows_pv g1) in F; [|apply pv1]. pose proof (follows_prems _ _ _ _ F) as [P1 P2].
      assert (Hs : forall s, In s (efrom e) -> ~ In s fu).
      { intros s Hs. rewrite <- P1 in Hs. apply in_map_iff in Hs as [x [<- Hx]]. rewrite Forall_forall in IH. apply IH, Hx. }
      split.
      - rewrite P2. intros Ht. apply edge1_inv in He as He0. destruct (fw_closed g1 fu HF e He) as [s [S1 S2]]; auto; [apply (wf_from g W), He0|]. exact (Hs s S1 S2).
      - apply (dfact_follows g2 e ps); [apply edge2; auto|apply (follows_pv g2); [apply pv2|exact F]|].
        rewrite Forall_forall in *. intros x Hx. apply IH, Hx. }
    intros D. apply (B (exit, [])). apply A; [exact D|]. apply (bk_exit bu HB).
  - intros D. change (dfact g (exit, [])). apply (derivable_sub g g2); [apply pv2| |exact D].
    intros e He. apply delete_nodes_edges in He as [He _]. apply edge1_inv in He. tauto.
Qed.

Lemma valid_main w : solution g2 w -> only g2 w -> solution g (back_unreachable fu bu w) /\ only g (back_unreachable fu bu w).
Proof.
  intros [V [d0 [E0 T0]] [d1 [E1 T1]] HE] O. set (w' := back_unreachable fu bu w).
  assert (N2 : forall p, In p bu -> w p = None).
  { intros p Hp. destruct (w p) eqn:Ew; [|reflexivity]. exfalso. destruct (O p) as [X|[X|[e [He X]]]]; [congruence|..].
    - subst p. exact (bk_entry bu HB Hp).
    - subst p. exact (bk_exit bu HB Hp).
    - apply delete_nodes_edges in He as [He _]. apply delete_nodes_edges in He as [He H]. destruct (H p Hp). destruct X; congruence. }
  assert (N3 : forall p, In p fu -> p <> exit -> w p = None).
  { intros p Hp Hx. destruct (w p) eqn:Ew; [|reflexivity]. exfalso. destruct (O p) as [X|[X|[e [He X]]]]; [congruence|..].
    - subst p. exact (fw_entry g1 fu HF Hp).
    - congruence.
    - apply delete_nodes_edges in He as [He H]. destruct (H p Hp). destruct X; congruence. }
  assert (Hbu : forall p, In p bu -> w' p = Some tt_true).
  { intros p Hp. unfold w'. rewrite back_unreachable_spec, N2 by exact Hp. apply smem_in in Hp. rewrite Hp. reflexivity. }
  assert (Hfu : forall p, In p fu -> exists d, w' p = Some d /\ forall r, ~ holds r d).
  { intros p Hp. unfold w'. rewrite back_unreachable_spec. destruct (Nat.eq_dec p exit) as [->|Hx]; [rewrite E1; eauto|].
    rewrite N3 by auto. destruct (smem p bu) eqn:Eb.
    - exfalso. apply smem_in in Eb. pose proof (fw_vertex g1 fu HF p Hp) as [X|[X|[e [He X]]]].
      + subst p. exact (bk_entry bu HB Eb).
      + congruence.
      + apply delete_nodes_edges in He as [_ H]. destruct (H p Eb). destruct X; congruence.
    - pose proof Hp as Hp'. apply smem_in in Hp'. rewrite Hp'. exists tt_false. split; [reflexivity|]. intros r. apply holds_false. }
  assert (Hin : forall p, w p <> None -> w' p = w p).
  { intros p Hp. unfold w'. rewrite back_unreachable_spec. destruct (w p); congruence. }
  assert (Hdef : forall p, vertex g p -> In p bu \/ In p fu \/ w p <> None).
  { intros p Hp. destruct (in_dec_sym p bu) as [|Nb]; [auto|]. destruct (in_dec_sym p fu) as [|Nf]; [auto|]. right; right.
    assert (Hp1 : vertex g1 p) by (apply (bk_kept bu HB); auto).
    destruct (fw_used g1 fu HF p Hp1 Nf) as [->|[e [H1 [H2 H3]]]]; [congruence|].
    destruct (HE e (edge2 e H1 H3)) as [_ [dt [Et _]]]. rewrite <- H2. congruence. }
  split.
  - split.
    + intros p d E v Hv. unfold w' in E. rewrite back_unreachable_spec in E. destruct (w p) as [x|] eqn:Ew.
      * injection E as <-. rewrite <- pv2. exact (V p x Ew v Hv).
      * destruct (smem p bu); [injection E as <-; destruct Hv|]. destruct (smem p fu); [injection E as <-; destruct Hv|discriminate].
    + exists d0. rewrite Hin, E0 by congruence. auto.
    + exists d1. rewrite Hin, E1 by congruence. auto.
    + intros e He. split.
      * intros p Hp. destruct (Hdef p) as [H|[H|H]]; [eapply vertex_src; eauto|rewrite Hbu by exact H; discriminate| |rewrite Hin; auto].
        destruct (Hfu p H) as [d [-> _]]. discriminate.
      * destruct (in_dec_sym (eto e) bu) as [Hb|Nb].
        { exists tt_true. split; [apply Hbu, Hb|]. intros r _ _. apply holds_true. }
        assert (H1 : In e (gedges g1)) by (apply edge1; auto).
        assert (BAD : forall s, In s (efrom e) -> In s fu -> exists dt, w' (eto e) = Some dt /\ forall r, holds r (efla e) ->
           (forall p i d, In (p, i) (instances (efrom e)) -> w' p = Some d -> holds r (rename (src i) d)) -> holds r (rename tgt dt)).
        { intros s S1 S2. destruct (Hfu s S2) as [ds [Es Hs]].
          assert (exists dt, w' (eto e) = Some dt) as [dt Et].
          { destruct (Hdef (eto e)) as [H|[H|H]]; [apply vertex_tgt, He|contradiction|destruct (Hfu _ H) as [d [X _]]; eauto|].
            rewrite Hin by exact H. destruct (w (eto e)); eauto. congruence. }
          exists dt. split; [exact Et|]. intros r _ H. exfalso. apply instances_in in S1 as [i Hi].
          specialize (H s i ds Hi Es). rewrite (holds_rename (src i) r) in H by apply src_sort. exact (Hs _ H). }
        destruct (not_all_in (efrom e) fu) as [Hall|[s0 [Hs0 Ns0]]].
        { destruct (efrom e) as [|s l] eqn:Ef; [destruct (wf_from g W e He Ef)|]. apply (BAD s); [simpl; auto|apply Hall; simpl; auto]. }
        destruct (existsb (fun s => smem s fu) (efrom e)) eqn:Ex.
        { apply existsb_exists in Ex as [s [S1 S2]]. apply smem_in in S2. apply (BAD s S1 S2). }
        assert (Hnf : forall s, In s (efrom e) -> ~ In s fu).
        { intros s Hs H. apply smem_in in H. assert (X : existsb (fun s => smem s fu) (efrom e) = true) by (apply existsb_exists; eauto). congruence. }
        destruct (HE e (edge2 e H1 Hnf)) as [Hd [dt [Et Ht]]]. exists dt. split; [rewrite Hin; congruence|].
        intros r Hl H. apply Ht; [exact Hl|]. intros p i d Hpi Hw. apply (H p i d Hpi). rewrite Hin; congruence.
  - intros p Hp. unfold w' in Hp. rewrite back_unreachable_spec in Hp. destruct (w p) eqn:Ew.
    + destruct (O p) as [X|[X|[e [He X]]]]; [congruence|left; exact X|right; left; exact X|].
      right; right. apply delete_nodes_edges in He as [He _]. apply edge1_inv in He as [He _]. eauto.
    + destruct (smem p bu) eqn:Eb; [apply smem_in in Eb; apply (bk_vertex bu HB p Eb)|].
      destruct (smem p fu) eqn:Ef; [|congruence]. apply smem_in in Ef. apply (fw_vertex g1 fu HF) in Ef.
      destruct Ef as [X|[X|[e [He X]]]]; [left; exact X|right; left; exact X|]. right; right. apply edge1_inv in He as [He _]. eauto.
Qed.
End Main.

Theorem remove_unreachable_ok : exists t, remove_unreachable g = Some t /\ wf_graph (tr_graph t) /\ correct g (tr_graph t) (tr_valid t) (tr_invalid t).
Proof.
  unfold remove_unreachable. destruct (in_edges g exit) as [|i1 l1] eqn:E1.
  - eexists. split; [reflexivity|]. cbn [tr_graph tr_valid tr_invalid]. split; [apply wf_empty|]. split.
    + split; intros D; [destruct (no_incoming_safe E1 D)|destruct (empty_not_derivable D)].
    + intros w w' S O E. injection E as <-. apply empty_valid_true; auto.
    + intros d d' D. destruct (empty_no_error d D).
  - destruct (out_edges g entry) as [|i2 l2] eqn:E2.
    + eexists. split; [reflexivity|]. cbn [tr_graph tr_valid tr_invalid]. split; [apply wf_empty|]. split.
      * split; intros D; [destruct (no_outgoing_safe E2 D)|destruct (empty_not_derivable D)].
      * intros w w' S O E. injection E as <-. apply empty_valid_false; auto.
      * intros d d' D. destruct (empty_no_error d D).
    + destruct (backward_ok g Nid) as [bu [-> HB]].
      assert (W1 : wf_graph (delete_nodes bu g)) by (apply wf_delete_nodes, W).
      destruct (forward_ok (delete_nodes bu g) (wf_ids _ W1)) as [fu [-> HF]].
      eexists. split; [reflexivity|]. cbn [tr_graph tr_valid tr_invalid]. split; [apply wf_delete_nodes, W1|]. split.
      * apply derivable_main; [apply bw_kept_from, HB|exact HF].
      * intros w w' S O E. injection E as <-. apply valid_main; auto. apply bw_kept_from, HB.
      * intros d d' D E. injection E as <-. revert D. apply error_derivation_sub; [apply pv2|].
        intros e He. apply delete_nodes_edges in He as [He _]. apply delete_nodes_edges in He as [He _]. exact He.
Qed.

(** Removing forward unreachable nodes only: the same with no backward unreachable nodes. *)
Theorem remove_forward_unreachable_ok : exists t, remove_forward_unreachable g = Some t /\ wf_graph (tr_graph t) /\ correct g (tr_graph t) (tr_valid t) (tr_invalid t).
Proof.
  unfold remove_forward_unreachable. destruct (out_edges g entry) as [|i2 l2] eqn:E2.
  - eexists. split; [reflexivity|]. cbn [tr_graph tr_valid tr_invalid]. split; [apply wf_empty|]. split.
    + split; intros D; [destruct (no_outgoing_safe E2 D)|destruct (empty_not_derivable D)].
    + intros w w' S O E. injection E as <-. apply empty_valid_false; auto.
    + intros d d' D. destruct (empty_no_error d D).
  - destruct (forward_ok g Nid) as [fu [-> HF]].
    eexists. split; [reflexivity|]. cbn [tr_graph tr_valid tr_invalid]. split; [apply wf_delete_nodes, W|]. split.
    + apply (derivable_main [] fu bw_kept_nil HF).
    + intros w w' S O E. injection E as <-. apply (valid_main [] fu bw_kept_nil HF w S O).
    + intros d d' D E. injection E as <-. revert D. apply error_derivation_sub; [apply (pv2 [] fu)|].
      intros e He. apply delete_nodes_edges in He as [He _]. exact He.
Qed.
End G.
