(** * Removal of unreachable nodes: proofs. *)
From Verif Require Import Syntax Solver Graph GraphOps GraphOpsProofs DfsProofs ValidatorModel FormulaModel GraphSem SimpleTransModel.
Open Scope nat_scope.

Section G.
Variable g : hgraph.
Hypothesis Nid : NoDup (map eid (gedges g)).

Lemma hfind_in e : In e (gedges g) -> hfind g (eid e) = Some e.
Proof.
  unfold hfind. intros H. induction (gedges g) as [|x l IH]; [destruct H|]. cbn [map] in Nid. inversion Nid as [|? ? Hn N']; subst.
  cbn [find]. destruct H as [->|H]; [rewrite Nat.eqb_refl; reflexivity|].
  destruct (Nat.eqb_spec (eid x) (eid e)) as [E|N]; [|auto]. exfalso. apply Hn. rewrite E. apply in_map, H.
Qed.
Lemma in_edges_spec v i : In i (in_edges g v) <-> exists e, In e (gedges g) /\ eid e = i /\ eto e = v.
Proof.
  destruct (adjacency_ok g Nid) as [A _]. specialize (A v). unfold getd in A. unfold in_edges. rewrite A, in_map_iff. split.
  - intros [e [E H]]. apply filter_In in H as [H1 H2]. apply Nat.eqb_eq in H2. eauto.
  - intros [e [H1 [H2 H3]]]. exists e. split; [exact H2|]. apply filter_In. rewrite H3, Nat.eqb_refl. auto.
Qed.
Lemma out_edges_spec v i : In i (out_edges g v) <-> exists e, In e (gedges g) /\ eid e = i /\ In v (efrom e).
Proof.
  destruct (adjacency_ok g Nid) as [_ [A _]]. specialize (A v). unfold getd in A. unfold out_edges. rewrite A, in_map_iff. split.
  - intros [e [E H]]. apply filter_In in H as [H1 H2]. apply smem_in in H2. eauto.
  - intros [e [H1 [H2 H3]]]. exists e. split; [exact H2|]. apply filter_In. split; [exact H1|]. apply smem_in, H3.
Qed.
Lemma hnodes_spec v : In v (hnodes g) <-> vertex g v.
Proof. destruct (adjacency_ok g Nid) as [_ [_ [A _]]]. apply A. Qed.
Lemma vertex_src e p : In e (gedges g) -> In p (efrom e) -> vertex g p.
Proof. intros. right. right. eauto. Qed.
Lemma vertex_tgt e : In e (gedges g) -> vertex g (eto e).
Proof. intros. right. right. eauto. Qed.

(** ** Backward reachability *)
Definition U := hnodes g.
Definition meas (st : list sym * list sym) : nat := length (fst st) + unmarked U (snd st).

Definition grows (st st' : list sym * list sym) : Prop :=
  (forall x, In x (snd st) -> In x (snd st')) /\ (forall x, In x (fst st) -> In x (fst st')) /\ meas st' <= meas st /\
  (forall x, In x (snd st') -> In x (snd st) \/ In x (fst st')) /\
  (forall x, In x (fst st') -> In x (fst st) \/ In x (snd st')).
Lemma grows_refl st : grows st st.
Proof. split; [auto|]. split; [auto|]. split; [lia|auto]. Qed.
Lemma grows_trans a b c : grows a b -> grows b c -> grows a c.
Proof.
  intros [A1 [A2 [A3 [A4 A5]]]] [B1 [B2 [B3 [B4 B5]]]]. split; [auto|]. split; [auto|]. split; [lia|]. split.
  - intros x H. destruct (B4 x H) as [H'|H']; [|auto]. destruct (A4 x H'); auto.
  - intros x H. destruct (B5 x H) as [H'|H']; [|auto]. destruct (A5 x H'); auto.
Qed.
Lemma grows_push s q r : In s U -> ~ In s r -> grows (q, r) (s :: q, s :: r).
Proof.
  intros H1 H2. split; [simpl; auto|]. split; [simpl; auto|]. split.
  - unfold meas. cbn [fst snd length]. pose proof (unmarked_lt U r s H1 H2). lia.
  - cbn [fst snd]. split; intros x [->|H]; simpl; auto.
Qed.
Lemma bw_visit_grows st s : In s U -> grows st (bw_visit st s) /\ In s (snd (bw_visit st s)).
Proof.
  intros H. unfold bw_visit. destruct (smem s (snd st)) eqn:E.
  - split; [apply grows_refl|]. apply smem_in, E.
  - destruct st as [q r]. cbn [fst snd] in *. split; [apply grows_push; [exact H|apply smem_nin, E]|simpl; auto].
Qed.
(** New elements come from the visited list. *)
Lemma bw_list ss : forall st, (forall s, In s ss -> In s U) ->
  grows st (fold_left bw_visit ss st) /\ (forall s, In s ss -> In s (snd (fold_left bw_visit ss st))) /\
  (forall x, In x (snd (fold_left bw_visit ss st)) -> In x (snd st) \/ In x ss).
Proof.
  induction ss as [|s ss IH]; intros st H; cbn [fold_left].
  - split; [apply grows_refl|]. split; [intros ? []|auto].
  - destruct (bw_visit_grows st s) as [G I]; [apply H; simpl; auto|].
    destruct (IH (bw_visit st s)) as [G' [I' N']]; [intros; apply H; simpl; auto|].
    split; [eapply grows_trans; eauto|]. split.
    + intros x [->|Hx]; [|auto]. apply (proj1 G'), I.
    + intros x Hx. destruct (N' x Hx) as [H'|H']; [|simpl; auto].
      unfold bw_visit in H'. destruct (smem s (snd st)); [auto|]. cbn [snd] in H'. destruct H' as [->|H']; simpl; auto.
Qed.
Lemma bw_edges is_ : forall st, (forall i, In i is_ -> exists e, In e (gedges g) /\ eid e = i) ->
  let st' := fold_left (fun st i => fold_left bw_visit (hsources g i) st) is_ st in
  grows st st' /\ (forall e, In e (gedges g) -> In (eid e) is_ -> forall s, In s (efrom e) -> In s (snd st')) /\
  (forall x, In x (snd st') -> In x (snd st) \/ exists e, In e (gedges g) /\ In (eid e) is_ /\ In x (efrom e)).
Proof.
  induction is_ as [|i l IH]; intros st H; cbn [fold_left].
  - split; [apply grows_refl|]. split; [intros ? ? []|auto].
  - destruct (H i (or_introl eq_refl)) as [e [He Ei]].
    assert (Es : hsources g i = efrom e) by (unfold hsources; rewrite <- Ei, hfind_in; auto). rewrite Es.
    destruct (bw_list (efrom e) st) as [G [I N]].
    { intros s Hs. apply hnodes_spec. eapply vertex_src; eauto. }
    specialize (IH (fold_left bw_visit (efrom e) st)). cbv zeta in IH. destruct IH as [G' [I' N']].
    { intros j Hj. apply H. simpl; auto. }
    cbv zeta. split; [eapply grows_trans; eauto|]. split.
    + intros e' He' [E|Hin] s Hs; [|eapply I'; eauto].
      assert (e' = e).
      { pose proof (hfind_in e' He') as X. rewrite <- E, <- Ei, hfind_in in X by exact He. congruence. }
      subst e'. apply (proj1 G'), I, Hs.
    + intros x Hx. destruct (N' x Hx) as [H'|[e' [H1 [H2 H3]]]].
      * destruct (N x H') as [H1|H1]; [auto|]. right. exists e. rewrite Ei. simpl; auto.
      * right. exists e'. simpl; auto.
Qed.

Definition bw_inv (q r : list sym) : Prop :=
  In exit r /\ In entry r /\
  (forall v, In v r -> v <> entry -> In v q \/ forall e s, In e (gedges g) -> eto e = v -> In s (efrom e) -> In s r) /\
  (forall v, In v r -> v = entry \/ v = exit \/ exists e, In e (gedges g) /\ In v (efrom e) /\ In (eto e) r) /\
  (forall v, In v q -> In v r).
Lemma bw_loop_ok f : forall q r, bw_inv q r -> meas (q, r) < f -> exists r', bw_loop g f q r = Some r' /\ bw_inv [] r'.
Proof.
  induction f as [|f IH]; intros q r I M; [lia|]. cbn [bw_loop]. destruct q as [|v q]; [eauto|].
  destruct I as [I1 [I2 [I3 [I4 I5]]]].
  destruct (bw_edges (in_edges g v) (q, r)) as [G [C N]].
  { intros i Hi. apply in_edges_spec in Hi as [e [H1 [H2 _]]]. eauto. }
  set (st := fold_left _ (in_edges g v) (q, r)) in *. clearbody st. destruct st as [q' r']. cbn [fst snd] in *.
  destruct G as [G1 [G2 [G3 [G4 G5]]]]. cbn [fst snd] in *.
  apply IH.
  - split; [auto|]. split; [auto|]. split; [|split].
    + intros x Hx Hne. destruct (G4 x Hx) as [Hr|Hq]; [|auto]. destruct (I3 x Hr Hne) as [[->|Hq]|Hc].
      * right. intros e s He Et Hs. apply (C e He); [|exact Hs]. apply in_edges_spec. eauto.
      * auto.
      * right. intros e s He Et Hs. apply G1. eapply Hc; eauto.
    + intros x Hx. destruct (N x Hx) as [Hr|[e [He [Hi Hs]]]].
      * destruct (I4 x Hr) as [|[|[e [H1 [H2 H3]]]]]; auto. right; right. exists e. auto.
      * right; right. exists e. split; [exact He|]. split; [exact Hs|]. apply in_edges_spec in Hi as [e' [H1 [H2 H3]]].
        assert (e' = e). { pose proof (hfind_in e' H1) as X. rewrite H2, hfind_in in X by exact He. congruence. }
        subst e'. rewrite H3. apply G1. apply I5. simpl; auto.
    + intros x Hx. destruct (G5 x Hx) as [H|H]; [apply G1, I5; simpl; auto|exact H].
  - unfold meas in *. cbn [fst snd length] in *. lia.
Qed.
Lemma unmarked_len m : unmarked U m <= length U.
Proof. apply filter_len_le. Qed.

Record bw_ok (bu : list sym) : Prop := {
  bw_entry : ~ In entry bu;
  bw_exit : ~ In exit bu;
  bw_vertex : forall v, In v bu -> vertex g v;
  bw_closed : forall e, In e (gedges g) -> eto e <> entry -> ~ In (eto e) bu -> forall s, In s (efrom e) -> ~ In s bu;
  bw_used : forall v, vertex g v -> ~ In v bu -> v = entry \/ v = exit \/ exists e, In e (gedges g) /\ In v (efrom e) /\ ~ In (eto e) bu
}.
Lemma unreached_spec r v : In v (unreached g r) <-> vertex g v /\ ~ In v r.
Proof. unfold unreached. rewrite filter_In, hnodes_spec, negb_true_iff, smem_nin. tauto. Qed.
Lemma in_dec_sym (v : sym) l : In v l \/ ~ In v l.
Proof. destruct (smem v l) eqn:E; [left; apply smem_in, E|right; apply smem_nin, E]. Qed.
Theorem backward_ok : exists bu, backward_unreachable g = Some bu /\ bw_ok bu.
Proof.
  unfold backward_unreachable. destruct (bw_loop_ok (S (S (length (hnodes g)))) [exit] [entry; exit]) as [r [E [I1 [I2 [I3 [I4 I5]]]]]].
  - split; [simpl; auto|]. split; [simpl; auto|]. split; [|split].
    + intros v [<-|[<-|[]]] H; [congruence|]. left. simpl; auto.
    + intros v [<-|[<-|[]]]; auto.
    + intros v [<-|[]]. simpl; auto.
  - unfold meas. cbn [fst snd length]. pose proof (unmarked_len [entry; exit]). unfold U in *. lia.
  - rewrite E. exists (unreached g r). split; [reflexivity|].
    assert (D : forall v, vertex g v -> ~ In v (unreached g r) -> In v r).
    { intros v Hv Hn. destruct (in_dec_sym v r) as [H|H]; [exact H|]. exfalso. apply Hn, unreached_spec. auto. }
    split.
    + intros H. apply unreached_spec in H. tauto.
    + intros H. apply unreached_spec in H. tauto.
    + intros v H. apply unreached_spec in H. tauto.
    + intros e He Hne Ht s Hs H. apply unreached_spec in H as [Hv H]. apply H.
      destruct (I3 (eto e)) as [[]|Hc]; [apply D; [apply vertex_tgt, He|exact Ht]|exact Hne|]. eapply Hc; eauto.
    + intros v Hv Hn. destruct (I4 v (D v Hv Hn)) as [|[|[e [H1 [H2 H3]]]]]; auto. right; right. exists e.
      split; [exact H1|]. split; [exact H2|]. intros H. apply unreached_spec in H. tauto.
Qed.

(** ** Forward reachability *)
Definition fw_inv (q r : list sym) (pend : list nat) : Prop :=
  In entry r /\
  (forall e, In e (gedges g) -> efrom e <> [] -> (forall s, In s (efrom e) -> In s r) ->
     In (eto e) r \/ In (eid e) pend \/ exists s, In s (efrom e) /\ In s q) /\
  (forall v, In v r -> v = entry \/ exists e, In e (gedges g) /\ eto e = v /\ forall s, In s (efrom e) -> In s r).
Lemma fw_edges is_ : forall q r pend, (forall i, In i is_ -> exists e, In e (gedges g) /\ eid e = i) ->
  (forall i, In i pend -> In i is_) -> fw_inv q r pend ->
  let st' := fold_left (fw_visit g) is_ (q, r) in fw_inv (fst st') (snd st') [] /\ meas st' <= meas (q, r).
Proof.
  induction is_ as [|i l IH]; intros q r pend H Hp I; cbn [fold_left].
  - cbv zeta. cbn [fst snd]. split; [|lia]. destruct I as [I1 [I2 I3]]. split; [exact I1|]. split; [|exact I3].
    intros e He Hne Hs. destruct (I2 e He Hne Hs) as [|[Hi|]]; auto.
  - destruct (H i (or_introl eq_refl)) as [e [He Ei]].
    assert (Es : hsources g i = efrom e) by (unfold hsources; rewrite <- Ei, hfind_in; auto).
    assert (Et : htarget g i = eto e) by (unfold htarget; rewrite <- Ei, hfind_in; auto).
    assert (Hl : forall j, In j l -> exists e, In e (gedges g) /\ eid e = j) by (intros j Hj; apply H; simpl; auto).
    assert (Un : forall e', In e' (gedges g) -> eid e' = i -> e' = e).
    { intros e' H1 H2. pose proof (hfind_in e' H1) as X. rewrite H2, <- Ei, hfind_in in X by exact He. congruence. }
    assert (Ev : fw_visit g (q, r) i = if smem (eto e) r then (q, r) else if forallb (fun s => smem s r) (efrom e) then (eto e :: q, eto e :: r) else (q, r)).
    { unfold fw_visit. cbn [fst snd]. rewrite Et, Es. reflexivity. }
    rewrite Ev. clear Ev.
    destruct I as [I1 [I2 I3]]. destruct (smem (eto e) r) eqn:E1.
    + apply smem_in in E1. cbv zeta in IH |- *. apply (IH q r (filter (fun j => negb (Nat.eqb j i)) pend)); [exact Hl| |].
      * intros j Hj. apply filter_In in Hj as [Hj Hn]. apply negb_true_iff, Nat.eqb_neq in Hn. destruct (Hp j Hj); [congruence|auto].
      * split; [exact I1|]. split; [|exact I3]. intros e' He' Hne Hs. destruct (I2 e' He' Hne Hs) as [|[Hi|]]; auto.
        destruct (Nat.eq_dec (eid e') i) as [E|N]; [left; rewrite (Un e' He' E); exact E1|].
        right; left. apply filter_In. split; [exact Hi|]. apply negb_true_iff, Nat.eqb_neq, N.
    + apply smem_nin in E1. destruct (forallb (fun s => smem s r) (efrom e)) eqn:E2.
      * rewrite forallb_forall in E2. cbv zeta in IH |- *.
        assert (HU : In (eto e) U) by (apply hnodes_spec, vertex_tgt, He).
        destruct (grows_push (eto e) q r HU E1) as [G1 [G2 [G3 _]]].
        destruct (IH (eto e :: q) (eto e :: r) (filter (fun j => negb (Nat.eqb j i)) pend)) as [J1 J2]; [exact Hl| | |].
        -- intros j Hj. apply filter_In in Hj as [Hj Hn]. apply negb_true_iff, Nat.eqb_neq in Hn. destruct (Hp j Hj); [congruence|auto].
        -- split; [simpl; auto|]. split.
           ++ intros e' He' Hne Hs. destruct (Nat.eq_dec (eid e') i) as [E|N]; [left; rewrite (Un e' He' E); simpl; auto|].
              destruct (smem (eto e) (efrom e')) eqn:E3.
              { apply smem_in in E3. right; right. exists (eto e). simpl; auto. }
              apply smem_nin in E3. destruct (I2 e' He' Hne) as [A|[A|[s [A1 A2]]]].
              ** intros s Hs'. destruct (Hs s Hs') as [<-|]; [contradiction|auto].
              ** left. simpl; auto.
              ** right; left. apply filter_In. split; [exact A|]. apply negb_true_iff, Nat.eqb_neq, N.
              ** right; right. exists s. simpl; auto.
           ++ intros v [<-|Hv].
              ** right. exists e. split; [exact He|]. split; [reflexivity|]. intros s Hs. right. apply smem_in, E2, Hs.
              ** destruct (I3 v Hv) as [|[e' [A1 [A2 A3]]]]; auto. right. exists e'. simpl; auto.
        -- split; [exact J1|]. lia.
      * cbv zeta in IH |- *. apply (IH q r (filter (fun j => negb (Nat.eqb j i)) pend)); [exact Hl| |].
        -- intros j Hj. apply filter_In in Hj as [Hj Hn]. apply negb_true_iff, Nat.eqb_neq in Hn. destruct (Hp j Hj); [congruence|auto].
        -- split; [exact I1|]. split; [|exact I3]. intros e' He' Hne Hs. destruct (I2 e' He' Hne Hs) as [|[Hi|]]; auto.
           destruct (Nat.eq_dec (eid e') i) as [E|N].
           ++ exfalso. rewrite (Un e' He' E) in Hs. enough (X : forallb (fun s => smem s r) (efrom e) = true) by congruence.
              apply forallb_forall. intros s Hs'. apply smem_in, Hs, Hs'.
           ++ right; left. apply filter_In. split; [exact Hi|]. apply negb_true_iff, Nat.eqb_neq, N.
Qed.
Lemma fw_loop_ok f : forall q r, fw_inv q r [] -> meas (q, r) < f -> exists r', fw_loop g f q r = Some r' /\ fw_inv [] r' [].
Proof.
  induction f as [|f IH]; intros q r I M; [lia|]. cbn [fw_loop]. destruct q as [|v q]; [eauto|].
  destruct (fw_edges (out_edges g v) q r (out_edges g v)) as [J1 J2].
  - intros i Hi. apply out_edges_spec in Hi as [e [H1 [H2 _]]]. eauto.
  - auto.
  - destruct I as [I1 [I2 I3]]. split; [exact I1|]. split; [|exact I3]. intros e He Hne Hs.
    destruct (I2 e He Hne Hs) as [|[[]|[s [A1 [A2|A2]]]]]; eauto. right; left. apply out_edges_spec. subst s. eauto.
  - set (st := fold_left _ (out_edges g v) (q, r)) in *. clearbody st. destruct st as [q' r']. cbn [fst snd] in *.
    apply IH; [exact J1|unfold meas in *; cbn [fst snd length] in *; lia].
Qed.

Record fw_ok (fu : list sym) : Prop := {
  fw_entry : ~ In entry fu;
  fw_vertex : forall v, In v fu -> vertex g v;
  fw_closed : forall e, In e (gedges g) -> efrom e <> [] -> In (eto e) fu -> exists s, In s (efrom e) /\ In s fu;
  fw_used : forall v, vertex g v -> ~ In v fu -> v = entry \/
     exists e, In e (gedges g) /\ eto e = v /\ forall s, In s (efrom e) -> ~ In s fu
}.
Lemma not_all_in (l r : list sym) : (forall s, In s l -> In s r) \/ exists s, In s l /\ ~ In s r.
Proof.
  induction l as [|x l [IH|[s [H1 H2]]]]; [left; intros ? []| |right; exists s; simpl; auto].
  destruct (in_dec_sym x r) as [H|H]; [left; intros s [<-|Hs]; auto|right; exists x; simpl; auto].
Qed.
Theorem forward_ok : exists fu, forward_unreachable g = Some fu /\ fw_ok fu.
Proof.
  unfold forward_unreachable. destruct (fw_loop_ok (S (S (length (hnodes g)))) [entry] [entry]) as [r [E [I1 [I2 I3]]]].
  - split; [simpl; auto|]. split.
    + intros e He Hne Hs. right; right. destruct (efrom e) as [|s l]; [congruence|]. exists s.
      split; [simpl; auto|]. destruct (Hs s) as [<-|[]]; simpl; auto.
    + intros v [<-|[]]. auto.
  - unfold meas. cbn [fst snd length]. pose proof (unmarked_len [entry]). unfold U in *. lia.
  - rewrite E. exists (unreached g r). split; [reflexivity|].
    assert (D : forall v, vertex g v -> ~ In v (unreached g r) -> In v r).
    { intros v Hv Hn. destruct (in_dec_sym v r) as [H|H]; [exact H|]. exfalso. apply Hn, unreached_spec. auto. }
    split.
    + intros H. apply unreached_spec in H. tauto.
    + intros v H. apply unreached_spec in H. tauto.
    + intros e He Hne Ht. apply unreached_spec in Ht as [_ Ht]. destruct (not_all_in (efrom e) r) as [H|[s [H1 H2]]].
      * destruct (I2 e He Hne H) as [A|[[]|[s [_ []]]]]. contradiction.
      * exists s. split; [exact H1|]. apply unreached_spec. split; [eapply vertex_src; eauto|exact H2].
    + intros v Hv Hn. destruct (I3 v (D v Hv Hn)) as [|[e [H1 [H2 H3]]]]; auto. right. exists e.
      split; [exact H1|]. split; [exact H2|]. intros s Hs H. apply unreached_spec in H as [_ H]. apply H, H3, Hs.
Qed.
End G.
