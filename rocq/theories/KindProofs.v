From Verif Require Import Syntax Solver TransSys TSLemmas KTo1Model KTo1Proofs KTo1Proofs2 KindModel.

Section P.
Variable ts : tsys.
Hypothesis wf : ts_wf ts = true.
Hypothesis na : no_aux ts = true.

Lemma base_sat k r : Forall (holds r) (base_query ts k) -> error_path ts k.
Proof.
  unfold base_query. rewrite Forall_cons_iff, Forall_app. intros [H1 [H2 H3]].
  inversion H3 as [|? ? H4 _]; subst. rewrite Forall_trans_at in H2.
  exists (at_time 0 r), (at_time (Z.of_nat k) r). split; [|split].
  - apply Init_at. rewrite shift_0. exact H1.
  - apply (steps_of_assignment ts r k 0). intros j Hj. rewrite <- (Z2Nat.id j) by lia. apply H2. lia.
  - apply Bad_at, H4.
Qed.

Lemma base_unsat k : unsat (base_query ts k) -> ~ error_path ts k.
Proof.
  intros HU [s [s' [Hs [Hp Hb]]]].
  destruct (steps_seq ts wf k s s' Hp) as [sq [E0 [E1 Hq]]].
  destruct (glue_seq ts wf k sq Hq) as [r [R1 R2]].
  apply (HU r). unfold base_query. rewrite Forall_cons_iff, Forall_app. split; [|split].
  - rewrite <- (shift_0 (tinit ts)). apply (state_at ts r sq); [apply no_aux_init, na|exact R1|].
    rewrite E0. apply Init_holds; auto.
  - apply Forall_trans_at. intros j Hj. apply R2. lia.
  - constructor; [|constructor]. apply (state_at ts r sq); [apply no_aux_query, na|exact R1|].
    rewrite E1. apply Bad_holds; auto.
Qed.

Lemma kpath_seq K k s s' : kpath ts K k s s' ->
  exists sq : Z -> state, sq 0 = s /\ sq (Z.of_nat k) = s' /\
   (forall i, 0 <= i < Z.of_nat k -> Step ts (sq i) (sq (i + 1)) /\ holds (sq i) K).
Proof.
  induction 1 as [s|n s t u HK Hst Htu IH].
  - exists (fun _ => s). repeat split; auto; intros; simpl in *; lia.
  - destruct IH as [sq [E0 [En Hs]]].
    exists (fun i => if Z.leb i 0 then s else sq (i - 1)). split; [reflexivity|]. split.
    + destruct (Z.leb_spec (Z.of_nat (S n)) 0); [lia|]. rewrite <- En. f_equal. lia.
    + intros i Hi. destruct (Z.leb_spec i 0), (Z.leb_spec (i + 1) 0); try lia.
      * replace (i + 1 - 1) with 0 by lia. rewrite E0. auto.
      * replace (i + 1 - 1) with ((i - 1) + 1) by lia. apply Hs. lia.
Qed.

(** The backward stack: [init], then transitions and negated [init]. *)
Lemma bwd_unsat k : unsat (bwd_query ts k) ->
  forall sq : Z -> state, Init ts (sq 0) ->
    (forall i, 0 <= i < Z.of_nat k -> Step ts (sq i) (sq (i + 1)) /\ ~ Init ts (sq (i + 1))) -> False.
Proof.
  intros HU sq H0 Hq.
  destruct (glue_seq ts wf k sq) as [r [R1 R2]]; [intros i Hi; apply Hq, Hi|].
  apply (HU r). unfold bwd_query. constructor.
  - rewrite <- (shift_0 (tinit ts)). apply (state_at ts r sq); [apply no_aux_init, na|exact R1|].
    apply Init_holds; auto.
  - rewrite Forall_forall. intros x Hx. apply in_concat in Hx as [l [Hl Hx]].
    apply in_map_iff in Hl as [j [<- Hj]]. apply in_seq in Hj. destruct Hx as [<-|[<-|[]]].
    + apply R2. lia.
    + apply (state_at ts r sq); [apply state_formula_not, no_aux_init, na|exact R1|].
      apply holds_not. destruct (Hq (Z.of_nat j)) as [_ H]; [lia|]. intros G. apply H. apply Init_holds; auto.
Qed.
End P.

Lemma reverse_no_aux ts : no_aux ts = true -> no_aux (reverse_ts ts) = true.
Proof. unfold no_aux. simpl. rewrite !andb_true_iff. tauto. Qed.

Lemma Init_reverse ts s : Init (reverse_ts ts) s <-> Bad ts s.
Proof. unfold Init, Bad. simpl. tauto. Qed.
Lemma Bad_reverse ts s : Bad (reverse_ts ts) s <-> Init ts s.
Proof. unfold Init, Bad. simpl. tauto. Qed.

Lemma error_path_reverse ts n : ts_wf ts = true -> (error_path (reverse_ts ts) n <-> error_path ts n).
Proof.
  intros wf. split; intros [s [s' [H1 [H2 H3]]]]; exists s', s.
  - rewrite Init_reverse, Bad_reverse, Steps_reverse in * by assumption. auto.
  - rewrite Init_reverse, Bad_reverse, Steps_reverse by assumption. auto.
Qed.

Lemma fwd_query_bwd ts k : fwd_query ts k = bwd_query (reverse_ts ts) k.
Proof. reflexivity. Qed.

(** Backward induction step unsatisfiable: in the reversed system the negation of [init] is
    k-inductive. *)
Lemma bwd_kinductive ts k : ts_wf ts = true -> no_aux ts = true ->
  unsat (bwd_query ts k) -> (forall i, (i <= k)%nat -> ~ error_path ts i) ->
  kinductive (reverse_ts ts) (mkNot (tinit ts)) k.
Proof.
  intros wf na HU HE. split.
  - apply (state_formula_not (reverse_ts ts)). exact (no_aux_init ts na).
  - intros n s s' Hn Hi Hp. apply holds_not. intros G. apply (HE n); [lia|].
    apply (error_path_reverse ts n wf). exists s, s'. split; [exact Hi|]. split; [exact Hp|].
    apply Bad_reverse, Init_holds; auto.
  - intros s s' Hp. apply holds_not. intros G.
    apply (kpath_seq (reverse_ts ts)) in Hp as [sq [E0 [E1 Hq]]].
    apply (bwd_unsat ts wf na k HU (fun i => sq (Z.of_nat k - i))).
    + rewrite Z.sub_0_r, E1. apply Init_holds; auto.
    + intros i Hi. destruct (Hq (Z.of_nat k - (i + 1))) as [H1 H2]; [lia|].
      apply (Step_reverse ts wf) in H1.
      replace (Z.of_nat k - (i + 1) + 1) with (Z.of_nat k - i) in H1 by lia. split; [exact H1|].
      apply holds_not in H2. intros H3. apply H2. apply Init_holds; auto.
Qed.

Lemma Step_reverse2 ts s s' : ts_wf ts = true -> Step (reverse_ts (reverse_ts ts)) s s' <-> Step ts s s'.
Proof.
  intros wf. rewrite (Step_reverse (reverse_ts ts) (reverse_wf ts wf)). apply Step_reverse, wf.
Qed.
Lemma Steps_reverse2 ts n s s' : ts_wf ts = true -> Steps (reverse_ts (reverse_ts ts)) n s s' <-> Steps ts n s s'.
Proof.
  intros wf. rewrite (Steps_reverse (reverse_ts ts) (reverse_wf ts wf)). apply Steps_reverse, wf.
Qed.

Lemma fwd_kinductive ts k : ts_wf ts = true -> no_aux ts = true ->
  unsat (fwd_query ts k) -> (forall i, (i <= k)%nat -> ~ error_path ts i) ->
  kinductive ts (mkNot (tquery ts)) k.
Proof.
  intros wf na HU HE. rewrite fwd_query_bwd in HU.
  destruct (bwd_kinductive (reverse_ts ts) k (reverse_wf ts wf) (reverse_no_aux ts na) HU) as [H1 H2 H3].
  { intros i Hi. rewrite (error_path_reverse ts i wf). auto. }
  split.
  - exact H1.
  - intros n s s' Hn Hi Hp. apply (H2 n s s' Hn).
    + unfold Init in *. simpl. exact Hi.
    + apply Steps_reverse2; assumption.
  - intros s s' Hp. apply (H3 s). clear - Hp wf. induction Hp; econstructor; eauto. apply Step_reverse2; assumption.
Qed.

Lemma kinductive_safe ts K k : ts_wf ts = true ->
  kinductive ts K k -> (forall s, holds s K -> ~ Bad ts s) -> safe ts.
Proof.
  intros wf ki HB n [s [s' [H1 [H2 H3]]]]. apply (HB s'); [|exact H3].
  assert (G : forall n s', Steps ts n s s' -> holds s' K).
  { clear n s' H2 H3. intros n. induction n as [n IH] using lt_wf_ind. intros s' Hs.
    destruct (Nat.lt_ge_cases n k) as [Hn|Hn]; [apply (kind_base _ _ _ ki n s); auto|].
    assert (X : forall m u w, (m <= n)%nat -> Steps ts m u w -> Steps ts (n - m) s u -> kpath ts K m u w).
    { induction m as [|m IHm]; intros u w Hm Hu Hsu; inversion Hu as [|? ? t ? A1 A2]; subst; [constructor|].
      econstructor; [|exact A1|].
      - apply (IH (n - S m)%nat); [lia|exact Hsu].
      - apply IHm; [lia|exact A2|]. replace (n - m)%nat with (S (n - S m)) by lia. apply Steps_snoc. eauto. }
    assert (Y : exists u, Steps ts (n - k) s u /\ Steps ts k u s').
    { replace n with (n - k + k)%nat in Hs by lia. clear - Hs. revert s Hs.
      generalize (n - k)%nat as m. induction m as [|m IHm]; intros s Hs; simpl in Hs.
      - exists s. split; [constructor|exact Hs].
      - inversion Hs as [|? ? t ? A1 A2]; subst. destruct (IHm t A2) as [u [B1 B2]].
        exists u. split; [econstructor; eauto|exact B2]. }
    destruct Y as [u [Y1 Y2]]. apply (kind_step _ _ _ ki u). apply X; auto. }
  exact (G n s' H2).
Qed.

(** Conversion step used by both directions. *)
Lemma kinductive_to_inductive_ok check pitp K k ts J :
  check_ok check -> pitp_ok pitp -> ts_wf ts = true -> no_aux ts = true -> kinductive ts K k ->
  kinductive_to_inductive check pitp K k ts = Ok J -> inductive_strengthening ts K J.
Proof.
  intros Hc Hp wf na ki. unfold kinductive_to_inductive. destruct (Nat.eqb_spec k 1) as [->|Hk].
  - intros E; inversion E; subst J. split; auto.
    + exact (kind_state _ _ _ ki).
    + intros s Hs. apply (kind_base _ _ _ ki 0 s); [lia|exact Hs|constructor].
    + intros s s' Hs Hst. apply (kind_step _ _ _ ki s). econstructor; eauto. constructor.
  - apply unfold_single_query_ok; auto. exact (kind_state _ _ _ ki).
Qed.

Section K.
Variable check : check_fn.
Variable pitp : pitp_fn.
Hypothesis Hc : check_ok check.
Hypothesis Hp : pitp_ok pitp.
Variable ts : tsys.
Hypothesis wf : ts_wf ts = true.
Hypothesis na : no_aux ts = true.

Lemma forward_safe k J :
  unsat (fwd_query ts k) -> (forall i, (i <= k)%nat -> ~ error_path ts i) ->
  inv_forward check pitp ts k = Ok J -> safe_inductive ts J.
Proof.
  intros HU HE HJ. unfold inv_forward in HJ.
  apply kinductive_to_inductive_ok in HJ; auto using fwd_kinductive.
  destruct HJ as [A1 A2 A3 A4]. split; auto.
  intros s Hs Hb. apply A4, holds_not in Hs. apply Hs, Bad_holds; auto.
Qed.

Lemma backward_safe k J :
  unsat (bwd_query ts k) -> (forall i, (i <= k)%nat -> ~ error_path ts i) ->
  inv_backward check pitp ts k = Ok J -> safe_inductive ts J.
Proof.
  intros HU HE HJ. unfold inv_backward in HJ.
  destruct (kinductive_to_inductive _ _ _ _ _) as [j|] eqn:E; [|discriminate].
  inversion HJ; subst J; clear HJ. simpl in E.
  apply kinductive_to_inductive_ok in E; auto using bwd_kinductive, reverse_no_aux, reverse_wf.
  destruct E as [A1 A2 A3 A4]. split.
  - apply state_formula_not. exact A1.
  - intros s Hs. apply holds_not. intros Hj. apply A4, holds_not in Hj. apply Hj, Init_holds; auto.
  - intros s s' Hs Hst. apply holds_not. intros Hj. apply holds_not in Hs. apply Hs.
    apply (A3 s' s Hj). apply Step_reverse; auto.
  - intros s Hs Hb. apply holds_not in Hs. apply Hs, A2. apply Init_reverse; auto.
Qed.

Lemma kind_loop_safe cw fuel : forall k u inv,
  kind_loop check pitp cw fuel k u ts = (Safe inv, false) ->
  u = false /\
  ((forall i, (i < k)%nat -> ~ error_path ts i) ->
   safe ts /\ (cw = true -> safe_inductive ts inv)).
Proof.
  induction fuel as [|fuel IH]; intros k u inv; cbn [kind_loop]; [discriminate|].
  destruct (check (base_query ts k)) as [m| |] eqn:EB; [discriminate| |].
  2:{ (* UNKNOWN: the ghost flag is set *)
      rewrite orb_true_r. intros H.
      destruct (check (fwd_query ts k)); try (destruct (check (bwd_query ts k))); try (apply IH in H as [H _]);
        congruence. }
  simpl. rewrite orb_false_r. intros H.
  assert (HE : (forall i, (i < k)%nat -> ~ error_path ts i) -> forall i, (i <= k)%nat -> ~ error_path ts i).
  { intros HE i Hi. destruct (Nat.eq_dec i k) as [->|Hk]; [|apply HE; lia].
    apply (base_unsat ts wf na). exact (check_unsat _ Hc _ EB). }
  assert (F : check (fwd_query ts k) = UNSAT -> (safe_result cw (inv_forward check pitp ts k), u) = (Safe inv, false) ->
     u = false /\ ((forall i, (i < k)%nat -> ~ error_path ts i) -> safe ts /\ (cw = true -> safe_inductive ts inv))).
  { intros EF X. inversion X as [[X1 X2]]. split; [reflexivity|]. intros HB. specialize (HE HB).
    assert (U := check_unsat _ Hc _ EF). split.
    - apply (kinductive_safe ts _ k wf (fwd_kinductive ts k wf na U HE)).
      intros s Hs Hb. apply holds_not in Hs. apply Hs, Bad_holds; auto.
    - intros ->. unfold safe_result in X1. destruct (inv_forward check pitp ts k) as [J|] eqn:EJ; [|discriminate].
      inversion X1; subst. eapply forward_safe; eauto. }
  assert (B : check (bwd_query ts k) = UNSAT -> (safe_result cw (inv_backward check pitp ts k), u) = (Safe inv, false) ->
     u = false /\ ((forall i, (i < k)%nat -> ~ error_path ts i) -> safe ts /\ (cw = true -> safe_inductive ts inv))).
  { intros EF X. inversion X as [[X1 X2]]. split; [reflexivity|]. intros HB. specialize (HE HB).
    assert (U := check_unsat _ Hc _ EF). split.
    - assert (SR : safe (reverse_ts ts)).
      { apply (kinductive_safe (reverse_ts ts) _ k (reverse_wf ts wf) (bwd_kinductive ts k wf na U HE)).
        intros s Hs Hb. apply holds_not in Hs. apply Hs. apply Bad_reverse in Hb. apply Init_holds; auto. }
      intros n Hn. apply (SR n), error_path_reverse; auto.
    - intros ->. unfold safe_result in X1. destruct (inv_backward check pitp ts k) as [J|] eqn:EJ; [|discriminate].
      inversion X1; subst. eapply backward_safe; eauto. }
  assert (R : kind_loop check pitp cw fuel (S k) u ts = (Safe inv, false) ->
     u = false /\ ((forall i, (i < k)%nat -> ~ error_path ts i) -> safe ts /\ (cw = true -> safe_inductive ts inv))).
  { intros X. apply IH in X as [X1 X2]. split; [exact X1|]. intros HB. apply X2. intros i Hi. apply HE; [exact HB|lia]. }
  destruct (check (fwd_query ts k)) as [m1| |] eqn:EF; [|apply F; auto|];
    destruct (check (bwd_query ts k)) as [m2| |] eqn:EBw; auto.
Qed.

Lemma kind_safe_lemma cw fuel inv :
  kind check pitp cw fuel ts = (Safe inv, false) ->
  safe ts /\ (cw = true -> safe_inductive ts inv).
Proof.
  unfold kind. intros H.
  assert (E0 : check [tinit ts] = UNSAT -> (Safe tt_false, false) = (Safe inv, false) ->
     safe ts /\ (cw = true -> safe_inductive ts inv)).
  { intros EI X. inversion X; subst. apply (check_unsat _ Hc) in EI.
    assert (SI : safe_inductive ts tt_false).
    { split.
      - intros v [].
      - intros s Hs. exfalso. apply (EI s). constructor; [apply Init_holds; auto|constructor].
      - intros s s' Hs. exfalso. exact (holds_false s Hs).
      - intros s Hs. exfalso. exact (holds_false s Hs). }
    split; [eapply safe_inductive_safe; eauto|auto]. }
  destruct (check [tinit ts]) as [m| |] eqn:EI; [|auto|];
    apply kind_loop_safe in H as [_ H]; apply H; intros i Hi; lia.
Qed.

Lemma kind_unsafe_lemma cw fuel n u :
  kind check pitp cw fuel ts = (Unsafe n, u) ->
  (cw = true -> error_path ts n) /\ exists m, error_path ts m.
Proof.
  unfold kind.
  assert (L : forall k u0, kind_loop check pitp cw fuel k u0 ts = (Unsafe n, u) ->
     (cw = true -> error_path ts n) /\ exists m, error_path ts m).
  { induction fuel as [|fuel' IH]; intros k u0; cbn [kind_loop]; [discriminate|].
    assert (SR : forall w u', (safe_result cw w, u') = (Unsafe n, u) -> False).
    { intros w u' E. unfold safe_result in E. destruct cw; [destruct w|]; discriminate. }
    destruct (check (base_query ts k)) as [m| |] eqn:EB.
    - intros E; inversion E; subst. apply (check_sat _ Hc) in EB. apply base_sat in EB.
      split; [intros ->; exact EB|eauto].
    - destruct (check (fwd_query ts k)); try (destruct (check (bwd_query ts k)));
        intros E; eauto; exfalso; eauto.
    - destruct (check (fwd_query ts k)); try (destruct (check (bwd_query ts k)));
        intros E; eauto; exfalso; eauto. }
  destruct (check [tinit ts]); try discriminate; apply L.
Qed.
End K.
