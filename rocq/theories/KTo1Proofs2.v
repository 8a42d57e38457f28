(** * Proofs: the three conversions of a k-inductive invariant into an inductive one. *)
From Verif Require Import Syntax Solver TransSys TSLemmas KTo1Model KTo1Proofs.

Lemma chain_length J As Is : itp_chain J As Is -> length As = S (length Is).
Proof. induction 1; simpl; congruence. Qed.

Lemma chain_nth J As Is : itp_chain J As Is -> forall i r, (i < length Is)%nat ->
  holds r (nth i (J :: Is) tt_true) -> Forall (holds r) (nth i As []) -> holds r (nth i Is tt_true).
Proof.
  induction 1 as [J A H|J A As J' Is H HC IH]; intros i r Hi H1 H2; [simpl in Hi; lia|].
  destruct i as [|i]; simpl in *; [auto|]. apply IH; auto. lia.
Qed.

Lemma chain_end J As Is : itp_chain J As Is -> forall r,
  holds r (nth (length Is) (J :: Is) tt_true) -> Forall (holds r) (nth (length Is) As []) -> False.
Proof.
  induction 1 as [J A H|J A As J' Is H HC IH]; intros r H1 H2; simpl in *; [eauto|].
  apply (IH r); auto.
Qed.

Lemma nth_combine_seq {A} (l : list A) d n i :
  (i < length l)%nat -> nth i (combine (seq n (length l)) l) (O, d) = ((n + i)%nat, nth i l d).
Proof.
  revert n i. induction l as [|x l IH]; intros n i Hi; simpl in *; [lia|].
  destruct i as [|i]; [rewrite Nat.add_0_r; reflexivity|].
  rewrite IH by lia. f_equal. lia.
Qed.

Lemma in_unshift Is t : In t (unshift_itps Is) <->
  exists i, (i < length Is)%nat /\ t = shift (- (Z.of_nat i + 1)) (nth i Is tt_true).
Proof.
  unfold unshift_itps. rewrite in_map_iff. split.
  - intros [[n u] [E H]]. simpl in E. apply (In_nth _ _ (O, tt_true)) in H as [i [Hi H]].
    rewrite combine_length, seq_length, Nat.min_id in Hi.
    rewrite nth_combine_seq in H by assumption. inversion H; subst. exists n. split; auto.
  - intros [i [Hi ->]]. exists (i, nth i Is tt_true). split; [reflexivity|].
    pose proof (nth_combine_seq Is tt_true 0 i Hi) as E. simpl in E. rewrite <- E. apply nth_In.
    rewrite combine_length, seq_length, Nat.min_id. exact Hi.
Qed.

Section K.
Variable ts : tsys.
Variable K : term.
Hypothesis wf : ts_wf ts = true.
Hypothesis na : no_aux ts = true.
Hypothesis sf : state_formula ts K.

Lemma vars_conjunct j v :
  In v (vars (conjunct K ts (S j))) ->
  exists w i, v = shiftv i w /\ vtag w = TTime 0 /\
    ((In w (svars ts) /\ Z.of_nat j <= i <= Z.of_nat j + 1) \/ (In w (avars ts) /\ i = Z.of_nat j)).
Proof.
  unfold conjunct, mkOr, mkAnd. intros H. rewrite in_vars_app in H.
  destruct H as [t [[<-|[<-|[]]] H]].
  - apply (vars_shift_state ts) in H; [|apply no_aux_init, na]. destruct H as [w [Hw ->]].
    exists w, (Z.of_nat (S j)). split; [reflexivity|]. split; [apply (wf_svars0 ts wf), Hw|].
    left. split; [exact Hw|lia].
  - rewrite in_vars_app in H. destruct H as [t [[<-|[<-|[]]] H]].
    + apply (vars_shift_state ts) in H; [|exact sf]. destruct H as [w [Hw ->]].
      exists w, (Z.of_nat (S j) - 1). split; [reflexivity|]. split; [apply (wf_svars0 ts wf), Hw|].
      left. split; [exact Hw|lia].
    + apply (vars_shift_trans ts wf) in H. destruct H as [w [[Hw E]|[Hw ->]]].
      * destruct E as [->| ->].
        -- exists w, (Z.of_nat (S j) - 1). split; [reflexivity|]. split; [apply (wf_svars0 ts wf), Hw|].
           left. split; [exact Hw|lia].
        -- exists w, (Z.of_nat (S j) - 1 + 1). split; [reflexivity|]. split; [apply (wf_svars0 ts wf), Hw|].
           left. split; [exact Hw|lia].
      * exists w, (Z.of_nat (S j) - 1). split; [reflexivity|]. split; [apply (wf_avars0 ts wf), Hw|].
        right. split; [exact Hw|lia].
Qed.

Definition parts (k : nat) : list term :=
  map (conjunct K ts) (seq 1 k) ++ [mkNot (shift (Z.of_nat k) K)].

Lemma parts_length k : length (parts k) = S k.
Proof. unfold parts. rewrite app_length, map_length, seq_length. simpl. lia. Qed.

Lemma nth_parts k i : (i < k)%nat -> nth i (parts k) tt_true = conjunct K ts (S i).
Proof.
  intros H. unfold parts. rewrite app_nth1 by (rewrite map_length, seq_length; lia).
  rewrite (nth_indep _ tt_true (conjunct K ts 0)) by (rewrite map_length, seq_length; lia).
  rewrite map_nth, seq_nth by assumption. f_equal.
Qed.
Lemma nth_parts_last k : nth k (parts k) tt_true = mkNot (shift (Z.of_nat k) K).
Proof.
  unfold parts. rewrite app_nth2; rewrite map_length, seq_length; [|lia]. rewrite Nat.sub_diag. reflexivity.
Qed.

Lemma firstn_singletons n (l : list term) : concat (firstn n (map (fun p => [p]) l)) = firstn n l.
Proof. revert l; induction n as [|n IH]; intros [|x l]; simpl; auto. f_equal. apply IH. Qed.
Lemma skipn_singletons n (l : list term) : concat (skipn n (map (fun p => [p]) l)) = skipn n l.
Proof.
  revert l; induction n as [|n IH]; intros l.
  - simpl. induction l as [|x l IHl]; simpl; auto. f_equal. exact IHl.
  - destruct l as [|x l]; simpl; auto.
Qed.

Lemma in_firstn_nth {A} (l : list A) d n x : In x (firstn n l) -> exists i, (i < n)%nat /\ (i < length l)%nat /\ x = nth i l d.
Proof.
  intros H. apply (In_nth _ _ d) in H as [i [Hi <-]]. rewrite firstn_length in Hi.
  exists i. split; [lia|]. split; [lia|]. revert l i Hi.
  induction n as [|n IH]; intros [|y l] i Hi; simpl in *; try lia.
  destruct i; [reflexivity|]. apply IH. lia.
Qed.
Lemma in_skipn_nth {A} (l : list A) d n x : In x (skipn n l) -> exists i, (n <= i)%nat /\ (i < length l)%nat /\ x = nth i l d.
Proof.
  revert n. induction l as [|y l IH]; intros n H.
  - rewrite skipn_nil in H. destruct H.
  - destruct n as [|n].
    + simpl in H. destruct H as [->|H]; [exists O; simpl; repeat split; lia|].
      destruct (IH O) as [i [H1 [H2 H3]]]; [exact H|]. exists (S i). simpl. repeat split; auto; lia.
    + simpl in H. destruct (IH n H) as [i [H1 [H2 H3]]]. exists (S i). simpl. repeat split; auto; lia.
Qed.

(** Variables of the [i]-th path interpolant: state variables of version [i+1]. *)
Lemma single_itp_vars k Is i v :
  chain_vars (map (fun p => [p]) (parts k)) Is -> (i < k)%nat -> length Is = k ->
  In v (vars (nth i Is tt_true)) ->
  exists w, In w (svars ts) /\ v = shiftv (Z.of_nat i + 1) w.
Proof.
  intros HV Hi HL Hv.
  destruct (HV i (nth i Is tt_true)) with (v := v) as [H1 H2]; [|exact Hv|].
  { apply nth_error_nth'. lia. }
  rewrite firstn_singletons in H1. rewrite skipn_singletons in H2.
  apply in_lvars in H1 as [t1 [T1 V1]]. apply in_lvars in H2 as [t2 [T2 V2]].
  apply (in_firstn_nth _ tt_true) in T1 as [a [A1 [A2 ->]]].
  apply (in_skipn_nth _ tt_true) in T2 as [b [B1 [B2 ->]]].
  rewrite nth_parts in V1 by lia. apply vars_conjunct in V1 as [w [x [-> [Hw V1]]]].
  rewrite parts_length in B2.
  assert (X : Z.of_nat i + 1 <= x).
  { destruct (Nat.eq_dec b k) as [->|Hb].
    - rewrite nth_parts_last, vars_not in V2. apply (vars_shift_state ts) in V2; [|exact sf].
      destruct V2 as [u [Hu E]]. apply shiftv_tag0 in E as [-> _]; [lia|exact Hw|apply (wf_svars0 ts wf), Hu].
    - rewrite nth_parts in V2 by lia. apply vars_conjunct in V2 as [u [y [E [Hu V2]]]].
      apply shiftv_tag0 in E as [-> _]; auto. destruct V2 as [[_ V2]|[_ V2]]; lia. }
  exists w. destruct V1 as [[V1 R]|[V1 R]]; [|lia]. split; [exact V1|]. f_equal. lia.
Qed.

Lemma conjunct_init r i s : (forall v, In v (svars ts) -> r (shiftv (Z.of_nat (S i)) v) = s v) ->
  Init ts s -> holds r (conjunct K ts (S i)).
Proof.
  intros Hr Hs. apply holds_or2. left.
  apply (state_formula_shift ts _ _ _ s); [apply no_aux_init, na|exact Hr|]. apply Init_holds; auto.
Qed.

Section Itps.
Variable k : nat.
Variable Is : list term.
Hypothesis chain : itp_chain tt_true (map (fun p => [p]) (parts k)) Is.
Hypothesis cvars : chain_vars (map (fun p => [p]) (parts k)) Is.

Lemma itps_length : length Is = k.
Proof.
  pose proof (chain_length _ _ _ chain) as H. rewrite map_length, parts_length in H. lia.
Qed.

(** The [i]-th interpolant shifted back; index 0 is [true]. *)
Definition D (i : nat) : term := shift (- Z.of_nat i) (nth i (tt_true :: Is) tt_true).

Lemma D_state i : (i <= k)%nat -> state_formula ts (D i).
Proof.
  intros Hi. destruct i as [|i].
  - intros v Hv. unfold D in Hv. simpl in Hv. destruct Hv.
  - apply unshift_state. intros v Hv. simpl in Hv.
    destruct (single_itp_vars k Is i v cvars) as [w [Hw E]]; [lia|apply itps_length|exact Hv|].
    exists w. split; [exact Hw|]. rewrite E. f_equal. lia.
Qed.

Lemma D_shift i : shift (Z.of_nat i) (D i) = nth i (tt_true :: Is) tt_true.
Proof. unfold D. rewrite shift_shift, Z.add_opp_diag_r. apply shift_0. Qed.

Lemma D_holds i r s : (i <= k)%nat -> (forall v, In v (svars ts) -> r (shiftv (Z.of_nat i) v) = s v) ->
  (holds r (nth i (tt_true :: Is) tt_true) <-> holds s (D i)).
Proof. intros Hi Hr. rewrite <- D_shift. apply (state_formula_shift ts); [apply D_state, Hi|exact Hr]. Qed.

Lemma D_next i r : (i < k)%nat -> holds r (nth i (tt_true :: Is) tt_true) ->
  holds r (conjunct K ts (S i)) -> holds r (nth (S i) (tt_true :: Is) tt_true).
Proof.
  intros Hi H1 H2. simpl. apply (chain_nth _ _ _ chain i r); [rewrite itps_length; lia|exact H1|].
  rewrite (nth_indep _ [] [tt_true]) by (rewrite map_length, parts_length; lia).
  rewrite (map_nth (fun p => [p])), nth_parts by lia. constructor; auto.
Qed.

Lemma D_init i s : (i <= k)%nat -> Init ts s -> holds s (D i).
Proof.
  intros Hi Hs.
  assert (R : exists r, forall j v, In v (svars ts) -> r (shiftv j v) = s v).
  { exists (glue (svars ts) (fun _ => s) (fun _ => s)). intros j v Hv.
    apply glue_state; [exact Hv|apply (wf_svars0 ts wf), Hv]. }
  destruct R as [r Hr].
  apply (D_holds i r s Hi); [intros v Hv; apply Hr, Hv|].
  induction i as [|i IH]; [reflexivity|].
  apply D_next; [lia| |].
  - apply IH. lia.
  - apply (conjunct_init r i s); [intros v Hv; apply Hr, Hv|exact Hs].
Qed.

Lemma D_step i s s' : (i < k)%nat -> holds s (D i) -> holds s K -> Step ts s s' -> holds s' (D (S i)).
Proof.
  intros Hi HD HK Hs. destruct (glue_step_at ts wf (Z.of_nat i) s s' Hs) as [r [R0 [R1 R2]]].
  apply (D_holds (S i) r s'); [lia|intros v Hv; apply R1; [lia|exact Hv]|].
  apply D_next; [exact Hi| |].
  - apply (D_holds i r s); [lia|intros v Hv; apply R0; [lia|exact Hv]|exact HD].
  - apply holds_or2. right. apply holds_and2.
    replace (Z.of_nat (S i) - 1) with (Z.of_nat i) by lia. split; [|exact R2].
    apply (state_formula_shift ts _ _ _ s); [exact sf|intros v Hv; apply R0; [lia|exact Hv]|exact HK].
Qed.

Lemma D_last s : holds s (D k) -> holds s K.
Proof.
  intros H.
  assert (R : exists r, forall j v, In v (svars ts) -> r (shiftv j v) = s v).
  { exists (glue (svars ts) (fun _ => s) (fun _ => s)). intros j v Hv.
    apply glue_state; [exact Hv|apply (wf_svars0 ts wf), Hv]. }
  destruct R as [r Hr].
  destruct (holds_dec s K) as [HK|HK]; [exact HK|exfalso].
  pose proof (chain_end _ _ _ chain r) as E. rewrite itps_length in E. apply E.
  - apply (D_holds k r s); [lia|intros v Hv; apply Hr, Hv|exact H].
  - rewrite (nth_indep _ [] [tt_true]) by (rewrite map_length, parts_length; lia).
    rewrite (map_nth (fun p => [p])), nth_parts_last. constructor; [|constructor].
    apply holds_not. intros HK'. apply HK.
    apply (state_formula_shift ts (Z.of_nat k) K r s); auto.
Qed.

Lemma unshift_D s : holds s (mkAnd (unshift_itps Is)) <-> (forall i, (1 <= i <= k)%nat -> holds s (D i)).
Proof.
  rewrite holds_and, Forall_forall. split.
  - intros H i Hi. apply H. apply in_unshift. exists (i - 1)%nat. rewrite itps_length.
    split; [lia|]. destruct i as [|i]; [lia|]. unfold D. simpl (nth (S i) _ _).
    replace (S i - 1)%nat with i by lia. f_equal. lia.
  - intros H t Ht. apply in_unshift in Ht as [i [Hi ->]]. rewrite itps_length in Hi.
    specialize (H (S i)). unfold D in H. simpl (nth (S i) _ _) in H.
    replace (- (Z.of_nat i + 1)) with (- Z.of_nat (S i)) by lia. apply H. lia.
Qed.

Lemma single_strengthening : (1 <= k)%nat -> inductive_strengthening ts K (mkAnd (unshift_itps Is)).
Proof.
  intros Hk. split.
  - apply state_formula_and. intros f Hf. apply in_unshift in Hf as [i [Hi ->]]. rewrite itps_length in Hi.
    replace (shift (- (Z.of_nat i + 1)) (nth i Is tt_true)) with (D (S i)); [apply D_state; lia|].
    unfold D. simpl. f_equal. lia.
  - intros s Hs. apply unshift_D. intros i Hi. apply D_init; [lia|exact Hs].
  - intros s s' H Hst. rewrite unshift_D in H. apply unshift_D. intros i Hi.
    destruct i as [|i]; [lia|]. apply (D_step i s s'); [lia| | |exact Hst].
    + destruct i as [|i]; [reflexivity|]. apply H. lia.
    + apply D_last, H. lia.
  - intros s H. rewrite unshift_D in H. apply D_last, H. lia.
Qed.
End Itps.
End K.

Lemma unfold_single_query_ok check pitp K k ts J :
  check_ok check -> pitp_ok pitp -> ts_wf ts = true -> no_aux ts = true -> state_formula ts K ->
  unfold_single_query check pitp K k ts = Ok J -> inductive_strengthening ts K J.
Proof.
  intros Hc Hp wf na sf. unfold unfold_single_query. fold (parts ts K k).
  destruct (check (parts ts K k)) as [m| |] eqn:EC; try discriminate.
  destruct (pitp _) as [Is|] eqn:EP; [|discriminate].
  intros E. inversion E; subst J; clear E.
  destruct (Hp _ _ EP) as [H1 H2].
  destruct k as [|k].
  - pose proof (itps_length ts K 0 Is H1) as HL. destruct Is as [|? ?]; [|discriminate].
    assert (V : forall s, holds s K).
    { intros s. destruct (holds_dec s K) as [HK|HK]; [exact HK|exfalso].
      apply (check_unsat check Hc _ EC s). constructor; [|constructor]. apply holds_not. exact HK. }
    split; [|reflexivity|reflexivity|auto]. intros v [].
  - apply (single_strengthening ts K wf na sf (S k) Is H1 H2). lia.
Qed.

(** The solver cannot find a model of the query, i.e. the conversion only throws when the
    solver does not answer. *)
Section Total.
Variable ts : tsys.
Variable K : term.
Variable k : nat.
Hypothesis na : no_aux ts = true.
Hypothesis ki : kinductive ts K k.

Lemma kpath_snoc n s s' s'' : kpath ts K n s s' -> holds s' K -> Step ts s' s'' -> kpath ts K (S n) s s''.
Proof.
  induction 1 as [s|n s t u H1 H2 H3 IH]; intros HK Hst.
  - econstructor; eauto. constructor.
  - econstructor; eauto.
Qed.

(** A model of the first [i] conjuncts has either an initialised execution ending at time i, of
    length < i + 1, or a K-path of length [i]. *)
Lemma conjuncts_path r i : (forall j, (j < i)%nat -> holds r (conjunct K ts (S j))) ->
  (exists n s, (n < i)%nat /\ Init ts s /\ Steps ts n s (at_time (Z.of_nat i) r)) \/
  kpath ts K i (at_time 0 r) (at_time (Z.of_nat i) r).
Proof.
  induction i as [|i IH]; intros H.
  - right. constructor.
  - assert (HC := H i (Nat.lt_succ_diag_r i)). apply holds_or2 in HC as [HC|HC].
    + left. exists O, (at_time (Z.of_nat (S i)) r). split; [lia|]. split; [apply Init_at, HC|constructor].
    + apply holds_and2 in HC as [H1 H2].
      replace (Z.of_nat (S i) - 1) with (Z.of_nat i) in * by lia.
      apply Step_of_assignment in H2. apply holds_shift_at in H1.
      replace (Z.of_nat i + 1) with (Z.of_nat (S i)) in H2 by lia.
      destruct IH as [[n [s [Hn [Hs Hp]]]]|IH].
      * intros j Hj. apply H. lia.
      * left. exists (S n), s. split; [lia|]. split; [exact Hs|]. apply Steps_snoc. eauto.
      * right. eapply kpath_snoc; eauto.
Qed.

Lemma single_query_unsat : unsat (parts ts K k).
Proof.
  intros r H. unfold parts in H. apply Forall_app in H as [H1 H2].
  inversion H2 as [|? ? H3 _]; subst. apply holds_not in H3. apply H3. apply holds_shift_at.
  destruct (conjuncts_path r k) as [[n [s [Hn [Hs Hp]]]]|Hp].
  - intros j Hj. rewrite Forall_forall in H1. apply H1. apply in_map, in_seq. lia.
  - apply (kind_base _ _ _ ki n s); auto.
  - apply (kind_step _ _ _ ki _ _ Hp).
Qed.

Lemma single_query_throw check pitp :
  check_ok check -> unfold_single_query check pitp K k ts = Throw ->
  check (parts ts K k) = UNKNOWN \/ pitp (map (fun p => [p]) (parts ts K k)) = None.
Proof.
  intros Hc. unfold unfold_single_query. fold (parts ts K k).
  destruct (check _) as [m| |] eqn:E; auto.
  - exfalso. apply (single_query_unsat m). exact (check_sat _ Hc _ _ E).
  - destruct (pitp _); [discriminate|auto].
Qed.
End Total.
