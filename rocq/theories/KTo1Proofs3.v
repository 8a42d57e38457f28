(** * Proofs: halving and quantifier-elimination modes. *)
From Verif Require Import Syntax Solver TransSys TSLemmas KTo1Model KTo1Proofs KTo1Proofs2.

(** ** Halving *)
Section H.
Variable ts : tsys.
Hypothesis wf : ts_wf ts = true.
Hypothesis na : no_aux ts = true.

(** States reachable by the unfolding: from an initial state or from a [P]-state [n] steps
    back, through [K]-states. *)
Fixpoint RP (P : state -> Prop) (K : term) (n : nat) (s : state) : Prop :=
  match n with
  | O => P s
  | S n' => Init ts s \/ exists s0, RP P K n' s0 /\ holds s0 K /\ Step ts s0 s
  end.

Lemma RP_mono (P Q : state -> Prop) K L n s :
  (forall s, P s -> Q s) -> (forall s, holds s K -> holds s L) -> RP P K n s -> RP Q L n s.
Proof.
  intros HP HK. revert s. induction n as [|n IH]; intros s; simpl; [auto|].
  intros [H|[s0 [H1 [H2 H3]]]]; [auto|right; exists s0; auto].
Qed.

Lemma RP_compose (P : state -> Prop) K i j s : RP (RP P K i) K j s -> RP P K (j + i) s.
Proof.
  revert s. induction j as [|j IH]; intros s; simpl; [auto|].
  intros [H|[s0 [H1 [H2 H3]]]]; [auto|right; exists s0; auto].
Qed.

Lemma build_upto K i : state_formula ts K -> upto ts (Z.of_nat i) (build_formula i K ts).
Proof.
  intros sf. induction i as [|i IH]; cbn [build_formula]; [apply upto_const|].
  apply upto_app. intros f [<-|[<-|[]]].
  - apply (upto_state ts wf); [apply no_aux_init, na|lia].
  - apply upto_app. intros f [<-|[<-|[<-|[]]]].
    + apply (upto_le ts wf (Z.of_nat i)); [exact IH|lia].
    + apply (upto_state ts wf); [exact sf|lia].
    + apply (upto_trans ts wf). lia.
Qed.
Lemma build_from K i : state_formula ts K -> from 0 (build_formula i K ts).
Proof.
  intros sf. induction i as [|i IH]; cbn [build_formula]; [apply from_const|].
  apply from_app. intros f [<-|[<-|[]]].
  - apply (from_state ts wf); [apply no_aux_init, na|lia].
  - apply from_app. intros f [<-|[<-|[<-|[]]]]; [exact IH| |].
    + apply (from_state ts wf); [exact sf|lia].
    + apply (from_trans ts wf). lia.
Qed.
Lemma build_from_shift K i j : state_formula ts K -> from j (shift j (build_formula i K ts)).
Proof.
  intros sf v Hv. rewrite vars_shift in Hv. apply in_map_iff in Hv as [u [<- Hu]].
  assert (G : exists n, vtag u = TTime n).
  { clear - wf na sf Hu. revert u Hu. induction i as [|i IH]; intros u Hu; cbn [build_formula] in Hu; [destruct Hu|].
    unfold mkOr, mkAnd in Hu. rewrite in_vars_app in Hu. destruct Hu as [t [[<-|[<-|[]]] Hu]].
    - apply (vars_shift_state ts) in Hu; [|apply no_aux_init, na]. destruct Hu as [w [Hw ->]].
      unfold shiftv. rewrite (wf_svars0 ts wf w Hw). simpl. eauto.
    - rewrite in_vars_app in Hu. destruct Hu as [t [[<-|[<-|[<-|[]]]] Hu]]; [eauto| |].
      + apply (vars_shift_state ts) in Hu; [|exact sf]. destruct Hu as [w [Hw ->]].
        unfold shiftv. rewrite (wf_svars0 ts wf w Hw). simpl. eauto.
      + apply (vars_shift_trans ts wf) in Hu. destruct Hu as [w [[Hw [->| ->]]|[Hw ->]]];
          unfold shiftv; [rewrite (wf_svars0 ts wf w Hw)|rewrite (wf_svars0 ts wf w Hw)|rewrite (wf_avars0 ts wf w Hw)];
          simpl; eauto. }
  destruct G as [n Hn]. apply (build_from K i sf) in Hu.
  unfold vtime, shiftv in *. rewrite Hn in *. simpl. lia.
Qed.

(** From the set semantics to an assignment. *)
Lemma RP_assignment (P : state -> Prop) (K : term) (i : nat) (s : state) :
  state_formula ts K -> (forall s, Init ts s -> P s) ->
  (forall s t, agree_on (svars ts) s t -> P s -> P t) ->
  RP P K i s ->
  exists r, (forall v, In v (svars ts) -> r (shiftv (Z.of_nat i) v) = s v) /\ P (at_time 0 r) /\
            holds r (build_formula i K ts).
Proof.
  intros sf HI HP. revert s. induction i as [|i IH]; intros s.
  - simpl. intros H. destruct (const_assignment ts wf s) as [r Hr]. exists r. split; [|split].
    + intros v Hv. apply Hr, Hv.
    + apply (HP s); [|exact H]. intros v Hv. unfold at_time. symmetry. apply Hr, Hv.
    + reflexivity.
  - intros [H|[s0 [H1 [H2 H3]]]].
    + destruct (const_assignment ts wf s) as [r Hr]. exists r. split; [|split].
      * intros v Hv. apply Hr, Hv.
      * apply (HP s); [|apply HI, H]. intros v Hv. unfold at_time. symmetry. apply Hr, Hv.
      * cbn [build_formula]. apply holds_or2. left.
        apply (state_formula_shift ts _ _ _ s); [apply no_aux_init, na|intros v Hv; apply Hr, Hv|].
        apply Init_holds; auto.
    + destruct (IH s0 H1) as [r1 [R1 [R2 R3]]].
      destruct (glue_step_at ts wf (Z.of_nat i) s0 s H3) as [r2 [Q1 [Q2 Q3]]].
      pose (r := cut (Z.of_nat i) r1 r2).
      assert (EA : forall v, In v (svars ts) -> r1 (shiftv (Z.of_nat i) v) = r2 (shiftv (Z.of_nat i) v)).
      { intros v Hv. rewrite R1 by exact Hv. symmetry. apply Q1; [lia|exact Hv]. }
      exists r. split; [|split].
      * intros v Hv. unfold r. rewrite (cut_state_right ts wf); [|exact Hv|lia]. apply Q2; [lia|exact Hv].
      * apply (HP (at_time 0 r1)); [|exact R2]. intros v Hv. unfold at_time, r.
        destruct (Nat.eq_dec i 0) as [->|Hi].
        -- rewrite (cut_state_right ts wf); [apply EA, Hv|exact Hv|lia].
        -- rewrite (cut_state_left ts wf); [reflexivity|exact Hv|lia].
      * cbn [build_formula]. apply holds_or2. right. apply holds_and3. unfold r. split; [|split].
        -- apply (cut_left ts); [apply build_upto, sf|exact EA|exact R3].
        -- apply cut_right; [apply (from_state ts wf); [exact sf|lia]|].
           apply (state_formula_shift ts _ _ _ s0); [exact sf|intros v Hv; apply Q1; [lia|exact Hv]|exact H2].
        -- apply cut_right; [apply (from_trans ts wf); lia|exact Q3].
Qed.

(** From an assignment to the set semantics. *)
Lemma assignment_RP K i r : holds r (build_formula i K ts) ->
  RP (fun s => s = at_time 0 r) K i (at_time (Z.of_nat i) r).
Proof.
  induction i as [|i IH]; intros H; cbn [build_formula] in H; [reflexivity|].
  apply holds_or2 in H as [H|H].
  - left. apply Init_at, H.
  - apply holds_and3 in H as [H1 [H2 H3]]. right. exists (at_time (Z.of_nat i) r). split; [auto|].
    split; [apply holds_shift_at, H2|].
    replace (Z.of_nat (S i)) with (Z.of_nat i + 1) by lia. apply Step_of_assignment, H3.
Qed.

Definition kindRP (K : term) (k : nat) : Prop := forall s, RP (fun _ => True) K k s -> holds s K.

Lemma kinductive_RP K k : kinductive ts K k -> kindRP K k.
Proof.
  intros ki s H.
  assert (G : (exists n s0, (n < k)%nat /\ Init ts s0 /\ Steps ts n s0 s) \/ exists s0, kpath ts K k s0 s).
  { clear ki. revert s H. induction k as [|k IH]; intros s H; simpl in H.
    - right. exists s. constructor.
    - destruct H as [H|[s0 [H1 [H2 H3]]]].
      + left. exists O, s. split; [lia|]. split; [exact H|constructor].
      + destruct (IH s0 H1) as [[n [t [Hn [Ht Hp]]]]|[t Ht]].
        * left. exists (S n), t. split; [lia|]. split; [exact Ht|]. apply Steps_snoc. eauto.
        * right. exists t. eapply kpath_snoc; eauto. }
  destruct G as [[n [s0 [Hn [Hs Hp]]]]|[s0 Hp]].
  - apply (kind_base _ _ _ ki n s0); auto.
  - apply (kind_step _ _ _ ki _ _ Hp).
Qed.

(** One round of halving. *)
Section Round.
Variable K J : term.
Variable i j : nat.
Hypothesis sf : state_formula ts K.
Hypothesis Hi : (1 <= i)%nat.
Hypothesis Hj : (1 <= j)%nat.
Hypothesis Hij : (j <= i)%nat.
Let b := mkAnd [shift (Z.of_nat i) (build_formula j K ts); mkNot (shift (Z.of_nat (i + j)) K)].
Hypothesis HJ : interpolant [build_formula i K ts] [b] J.
Let D := shift (- Z.of_nat i) J.

Lemma b_from : from (Z.of_nat i) b.
Proof.
  apply from_app. intros f [<-|[<-|[]]].
  - apply build_from_shift, sf.
  - intros v Hv. rewrite vars_not in Hv. revert v Hv. apply (from_state ts wf); [exact sf|lia].
Qed.

Lemma round_state : state_formula ts D.
Proof.
  unfold D. apply (upto_from_state ts (Z.of_nat i) (build_formula i K ts) b).
  - apply build_upto, sf.
  - apply b_from.
  - intros v Hv. destruct (itp_vars _ _ _ HJ v Hv) as [H1 H2]. unfold lvars in *. simpl in *.
    rewrite !app_nil_r in *. auto.
Qed.

Lemma D_shift' : shift (Z.of_nat i) D = J.
Proof. unfold D. rewrite shift_shift, Z.add_opp_diag_r. apply shift_0. Qed.

Lemma round_D s : RP (fun _ => True) K i s -> holds s D.
Proof.
  intros H. destruct (RP_assignment (fun _ => True) K i s sf) as [r [R1 [_ R2]]]; auto.
  assert (HJr : holds r J) by (apply (itp_A _ _ _ HJ); constructor; auto).
  rewrite <- D_shift' in HJr. apply (state_formula_shift ts (Z.of_nat i) D r s); auto using round_state.
Qed.

Lemma round_init s : Init ts s -> holds s D.
Proof. intros H. apply round_D. destruct i as [|i']; [lia|]. left. exact H. Qed.

Lemma round_K s : RP (fun s => holds s D) K j s -> holds s K.
Proof.
  intros H. destruct (RP_assignment (fun s => holds s D) K j s sf) as [r [R1 [R0 R2]]]; auto using round_init.
  { intros s0 t Ha Hs0. apply (state_formula_holds ts D s0 t); auto using round_state. }
  destruct (holds_dec s K) as [HK|HK]; [exact HK|exfalso].
  pose (r' := fun v => r (shiftv (- Z.of_nat i) v)).
  assert (E : forall n v, r' (shiftv (Z.of_nat i + n) v) = r (shiftv n v)).
  { intros n v. unfold r'. rewrite shiftv_shiftv. f_equal. f_equal. lia. }
  apply (itp_B _ _ _ HJ r').
  - rewrite <- D_shift'. apply holds_shift_at. refine (proj1 (holds_agree _ _ _ _) R0).
    intros v Hv. unfold at_time. rewrite <- (E 0). rewrite Z.add_0_r. reflexivity.
  - constructor; [|constructor]. apply holds_and2. split.
    + apply holds_shift_at. refine (proj1 (holds_agree _ _ _ _) R2).
      intros v Hv. unfold at_time. rewrite <- (shiftv_0 v) at 1. rewrite <- (E 0), Z.add_0_r. reflexivity.
    + apply holds_not. intros G. apply HK.
      apply (state_formula_shift ts (Z.of_nat (i + j)) K r' s); auto.
      intros v Hv. rewrite Nat2Z.inj_add, E. apply R1, Hv.
Qed.

Lemma round_split d m s :
  RP (fun _ => True) (mkAnd [K; D]) (d + S m) s -> RP (fun s => holds s D) K (S m) s.
Proof.
  revert s. induction m as [|m IH]; intros s; rewrite Nat.add_succ_r; simpl.
  - rewrite Nat.add_0_r. intros [H|[s0 [_ [H2 H3]]]]; [auto|]. apply holds_and2 in H2 as [H2 H2'].
    right. exists s0. auto.
  - intros [H|[s0 [H1 [H2 H3]]]]; [auto|]. apply holds_and2 in H2 as [H2 _].
    right. exists s0. split; [|auto]. apply IH in H1. exact H1.
Qed.

Lemma round_kindRP : kindRP (mkAnd [K; D]) i.
Proof.
  intros s H. apply holds_and2. split.
  - apply round_K. destruct j as [|m]; [lia|]. apply (round_split (i - S m) m).
    replace (i - S m + S m)%nat with i by lia. exact H.
  - apply round_D. eapply RP_mono; [| |exact H]; auto. intros s0 H0. apply holds_and2 in H0. tauto.
Qed.

Lemma round_state_and : state_formula ts (mkAnd [K; D]).
Proof. apply state_formula_and. intros f [<-|[<-|[]]]; auto using round_state. Qed.
End Round.

Lemma halving_split k : (2 <= k)%nat ->
  let j := Nat.div k 2 in let i := (k - j)%nat in (1 <= i /\ 1 <= j /\ j <= i /\ i + j = k /\ i < k)%nat.
Proof.
  intros Hk j i. unfold i, j. pose proof (Nat.div_mod k 2). pose proof (Nat.mod_upper_bound k 2).
  assert (k / 2 <= k)%nat by lia. lia.
Qed.

Lemma kindRP_unsat K i j : kindRP K (i + j) ->
  unsat [build_formula i K ts; mkAnd [shift (Z.of_nat i) (build_formula j K ts); mkNot (shift (Z.of_nat (i + j)) K)]].
Proof.
  intros HK r H. rewrite !Forall_cons_iff in H. destruct H as [H1 [H2 _]].
  apply holds_and2 in H2 as [H2 H3]. apply holds_not in H3. apply H3. apply holds_shift_at.
  apply HK. apply holds_shift_at in H2.
  rewrite Nat.add_comm. apply RP_compose.
  apply assignment_RP in H1. apply assignment_RP in H2.
  assert (X : forall n s t, agree_on (svars ts) s t -> RP (RP (fun _ => True) K i) K n s -> RP (RP (fun _ => True) K i) K n t).
  { intros n s t Ha. destruct n as [|n]; simpl.
    - destruct i as [|i']; simpl; auto. intros [H|[s0 [A1 [A2 A3]]]].
      + left. eapply Init_agree; eauto.
      + right. exists s0. repeat split; auto. eapply Step_agree; eauto. intros v _; reflexivity.
    - intros [H|[s0 [A1 [A2 A3]]]].
      + left. eapply Init_agree; eauto.
      + right. exists s0. repeat split; auto. eapply Step_agree; eauto. intros v _; reflexivity. }
  apply (X j (at_time (Z.of_nat j) (at_time (Z.of_nat i) r))).
  { intros v _. unfold at_time. rewrite shiftv_shiftv. f_equal. f_equal. lia. }
  apply (RP_mono (fun s => s = at_time 0 (at_time (Z.of_nat i) r)) _ K K); [intros s ->|intros s Hs; exact Hs|exact H2].
  apply (X O (at_time (Z.of_nat i) r)).
  - intros v _. unfold at_time. rewrite shiftv_0. reflexivity.
  - simpl. eapply RP_mono; [intros s Hs; exact Logic.I|intros s Hs; exact Hs|exact H1].
Qed.

Lemma kindRP_final K k : state_formula ts K -> kindRP K k -> (k <= 1)%nat -> inductive_strengthening ts K K.
Proof.
  intros sf H Hk.
  assert (G : forall s, RP (fun _ => True) K 1 s -> holds s K).
  { intros s Hs. apply H. destruct k as [|[|k]]; [exact Logic.I|exact Hs|lia]. }
  split; auto.
  - intros s Hs. apply G. left. exact Hs.
  - intros s s' Hs Hst. apply G. right. exists s. repeat split; auto.
Qed.

Lemma halving_loop_ok check itp fuel :
  check_ok check -> itp_ok itp -> forall K k J,
  state_formula ts K -> ((k <= 1)%nat -> kindRP K k) ->
  unfold_halving_loop check itp fuel K k ts = Ok J -> inductive_strengthening ts K J.
Proof.
  intros Hc Hi. induction fuel as [|fuel IH]; intros K k J sf HK; cbn [unfold_halving_loop].
  - destruct (Nat.leb_spec k 1); [|discriminate]. intros E; inversion E; subst. eapply kindRP_final; eauto.
  - destruct (Nat.leb_spec k 1) as [Hk|Hk].
    + intros E; inversion E; subst. eapply kindRP_final; eauto.
    + destruct (halving_split k) as [H1 [H2 [H3 [H4 H5]]]]; [lia|].
      remember (k / 2)%nat as j. remember (k - j)%nat as i. 
      replace (if Nat.eqb i j then build_formula i K ts else build_formula j K ts) with (build_formula j K ts)
        by (destruct (Nat.eqb_spec i j) as [E|E]; [rewrite E|]; reflexivity).
      destruct (check _) as [m| |]; try discriminate.
      destruct (itp _ _) as [I0|] eqn:EI; [|discriminate].
      apply Hi in EI. intros E. rewrite <- H4 in EI.
      apply IH in E.
      * destruct E as [E1 E2 E3 E4]. split; auto. intros s Hs. apply E4 in Hs. apply holds_and2 in Hs. tauto.
      * apply (round_state_and K I0 i j); auto.
      * intros _. apply (round_kindRP K I0 i j); auto.
Qed.

Lemma halving_loop_total check itp fuel :
  check_ok check -> decisive check -> itp_ok itp ->
  (forall A B, unsat (A ++ B) -> itp A B <> None) ->
  forall K k, (k <= fuel)%nat -> state_formula ts K -> kindRP K k ->
  exists J, unfold_halving_loop check itp fuel K k ts = Ok J.
Proof.
  intros Hc Hd Hi Ht. induction fuel as [|fuel IH]; intros K k Hf sf HK; cbn [unfold_halving_loop].
  - destruct (Nat.leb_spec k 1); [eauto|lia].
  - destruct (Nat.leb_spec k 1) as [Hk|Hk]; [eauto|].
    destruct (halving_split k) as [H1 [H2 [H3 [H4 H5]]]]; [lia|].
    remember (k / 2)%nat as j. remember (k - j)%nat as i. 
    replace (if Nat.eqb i j then build_formula i K ts else build_formula j K ts) with (build_formula j K ts)
      by (destruct (Nat.eqb_spec i j) as [E|E]; [rewrite E|]; reflexivity).
    assert (U := kindRP_unsat K i j). rewrite H4 in U. specialize (U HK).
    destruct (check _) as [m| |] eqn:EC.
    + exfalso. exact (U m (check_sat _ Hc _ _ EC)).
    + destruct (itp _ _) as [I0|] eqn:EI.
      * apply Hi in EI. rewrite <- H4 in EI. apply IH; [lia| |].
        -- apply (round_state_and K I0 i j); auto.
        -- apply (round_kindRP K I0 i j); auto.
      * exfalso. revert EI. apply Ht. exact U.
    + exfalso. exact (Hd _ EC).
Qed.

(** ** Quantifier elimination mode *)
(** [W K n s]: some K-path from [s] of at least 1 and at most [n] steps ends outside of [K]. *)
Fixpoint W (K : term) (n : nat) (s : state) : Prop :=
  match n with
  | O => False
  | S n' => holds s K /\ exists s', Step ts s s' /\ (~ holds s' K \/ W K n' s')
  end.

Lemma qe_acc_from K : state_formula ts K -> forall i acc, from (Z.of_nat i) acc -> from 0 (qe_acc i K ts acc).
Proof.
  intros sf. induction i as [|i IH]; intros acc H; cbn [qe_acc]; [exact H|].
  apply IH. apply from_app. intros f [<-|[<-|[<-|[]]]].
  - apply from_app. intros f [<-|[<-|[]]].
    + intros v Hv. apply H in Hv. lia.
    + intros v Hv. rewrite vars_not in Hv. revert v Hv. apply (from_state ts wf); [exact sf|lia].
  - apply (from_state ts wf); [exact sf|lia].
  - apply (from_trans ts wf). lia.
Qed.

Lemma qe_acc_W (K : term) (r : valuation) : state_formula ts K -> forall i n acc,
  (holds r acc -> W K n (at_time (Z.of_nat i) r)) ->
  holds r (qe_acc i K ts acc) -> W K (i + n) (at_time 0 r).
Proof.
  intros sf. induction i as [|i IH]; intros n acc H; cbn [qe_acc]; [exact H|].
  intros G. rewrite Nat.add_succ_comm. apply (IH (S n)) in G; [exact G|].
  intros A. apply holds_and3 in A as [A1 [A2 A3]]. split; [apply holds_shift_at, A2|].
  exists (at_time (Z.of_nat i + 1) r). split; [apply Step_of_assignment, A3|].
  apply holds_or2 in A1 as [A1|A1].
  - right. replace (Z.of_nat i + 1) with (Z.of_nat (S i)) by lia. apply H, A1.
  - left. intros B. apply holds_not in A1. apply A1. apply holds_shift_at.
    replace (Z.of_nat (S i)) with (Z.of_nat i + 1) by lia. exact B.
Qed.

(** Conversely, by induction on the number of remaining steps. *)
Lemma W_agree K n s t : state_formula ts K -> agree_on (svars ts) s t -> W K n s -> W K n t.
Proof.
  intros sf Ha. destruct n as [|n]; simpl; [auto|]. intros [H1 [s' [H2 H3]]]. split.
  - apply (state_formula_holds ts K s t); auto.
  - exists s'. split; [|exact H3]. eapply Step_agree; eauto. intros v _; reflexivity.
Qed.

Definition qe_body (K : term) (i : nat) (acc : term) : term :=
  mkAnd [mkOr [acc; mkNot (shift (Z.of_nat (S i)) K)]; shift (Z.of_nat i) K; shift (Z.of_nat i) (ttrans ts)].

Lemma W_qe_acc K : state_formula ts K -> forall i n acc,
  from (Z.of_nat i) acc ->
  (forall s, W K n s -> exists r, (forall v, In v (svars ts) -> r (shiftv (Z.of_nat i) v) = s v) /\ holds r acc) ->
  forall s, W K (i + n) s -> exists r, agree_on (svars ts) r s /\ holds r (qe_acc i K ts acc).
Proof.
  intros sf. induction i as [|i IH]; intros n acc Hf H s; cbn [qe_acc].
  - intros HW. destruct (H s HW) as [r [R1 R2]]. exists r. split; [|exact R2].
    intros v Hv. rewrite <- (R1 v Hv). rewrite shiftv_0. reflexivity.
  - rewrite Nat.add_succ_comm. apply IH.
    + apply from_app. intros f [<-|[<-|[<-|[]]]].
      * apply from_app. intros f [<-|[<-|[]]].
        -- intros v Hv. apply Hf in Hv. lia.
        -- intros v Hv. rewrite vars_not in Hv. revert v Hv. apply (from_state ts wf); [exact sf|lia].
      * apply (from_state ts wf); [exact sf|lia].
      * apply (from_trans ts wf). lia.
    + clear s. intros s [H1 [s' [H2 H3]]].
      destruct (glue_step_at ts wf (Z.of_nat i) s s' H2) as [r1 [Q1 [Q2 Q3]]].
      assert (HK : holds r1 (shift (Z.of_nat i) K)).
      { apply (state_formula_shift ts _ _ _ s); [exact sf|intros v Hv; apply Q1; [lia|exact Hv]|exact H1]. }
      assert (C : holds s' K \/ ~ holds s' K) by (destruct (holds_dec s' K); auto).
      destruct H3 as [H3|H3].
      * exists r1. split; [intros v Hv; apply Q1; [lia|exact Hv]|].
        apply holds_and3. split; [|split; [exact HK|exact Q3]].
        apply holds_or2. right. apply holds_not. intros B. apply H3.
        apply (state_formula_shift ts (Z.of_nat (S i)) K r1 s'); auto. intros v Hv. apply Q2; [lia|exact Hv].
      * destruct (H s' H3) as [r2 [R1 R2]].
        assert (EA : forall v, In v (svars ts) -> r1 (shiftv (Z.of_nat (S i)) v) = r2 (shiftv (Z.of_nat (S i)) v)).
        { intros v Hv. rewrite Q2, R1; auto. lia. }
        exists (cut (Z.of_nat (S i)) r1 r2). split.
        -- intros v Hv. rewrite (cut_state_left ts wf); [|exact Hv|lia]. apply Q1; [lia|exact Hv].
        -- apply holds_and3. split; [|split].
           ++ apply holds_or2. left. apply cut_right; [exact Hf|exact R2].
           ++ apply (cut_left ts); [apply (upto_state ts wf); [exact sf|lia]|exact EA|exact HK].
           ++ apply (cut_left ts); [apply (upto_trans ts wf); lia|exact EA|exact Q3].
Qed.

Lemma qe_ok_strength qe K k J :
  qe_ok qe -> kinductive ts K k -> (2 <= k)%nat -> kto1_qe qe K k ts = Ok J ->
  inductive_strengthening ts K J.
Proof.
  intros Hq ki Hk. unfold kto1_qe. destruct (qe _ _) as [g|] eqn:EQ; [|discriminate].
  intros E; inversion E; subst J; clear E. apply Hq in EQ as [Q1 Q2].
  assert (sf := kind_state _ _ _ ki).
  assert (G : forall s, holds s g <-> W K (k - 1) s).
  { intros s. rewrite Q2. split.
    - intros [r [Ha Hr]]. apply (qe_acc_W K r sf (k - 1) 0) in Hr.
      + rewrite Nat.add_0_r in Hr. apply (W_agree K _ _ s sf) in Hr; [exact Hr|].
        intros v Hv. unfold at_time. rewrite shiftv_0. symmetry. apply Ha, Hv.
      + intros F. exfalso. exact (holds_false r F).
    - intros HW. destruct (W_qe_acc K sf (k - 1) 0 tt_false) with (s := s) as [r [R1 R2]].
      + apply from_const.
      + intros s0 [].
      + rewrite Nat.add_0_r. exact HW.
      + exists r. split; [intros v Hv; symmetry; apply R1, Hv|exact R2]. }
  assert (HWk : forall n s, W K n s -> exists m s', (1 <= m <= n)%nat /\ kpath ts K m s s' /\ ~ holds s' K).
  { induction n as [|n IH]; intros s; [intros []|]. intros [H1 [s' [H2 [H3|H3]]]].
    - exists 1%nat, s'. split; [lia|]. split; [|exact H3]. econstructor; eauto. constructor.
    - destruct (IH s' H3) as [m [t [Hm [Hp Ht]]]]. exists (S m), t. split; [lia|]. split; [|exact Ht].
      econstructor; eauto. }
  assert (HkW : forall m s s', kpath ts K m s s' -> ~ holds s' K -> forall n, (1 <= m <= n)%nat -> W K n s).
  { induction 1 as [s|m s t u A1 A2 A3 IH]; intros Hn n Hm; [lia|].
    destruct n as [|n]; [lia|]. split; [exact A1|]. exists t. split; [exact A2|].
    destruct m as [|m].
    - left. inversion A3; subst. exact Hn.
    - right. apply IH; [exact Hn|lia]. }
  assert (KS : forall m s s', kpath ts K m s s' -> Steps ts m s s').
  { induction 1; econstructor; eauto. }
  split.
  - apply state_formula_and. intros f [<-|[<-|[]]]; [apply state_formula_not; exact Q1|exact sf].
  - intros s Hs. apply holds_and2. split.
    + apply holds_not. rewrite G. intros HW. destruct (HWk _ _ HW) as [m [s' [Hm [Hp Hn]]]].
      apply Hn. apply (kind_base _ _ _ ki m s); [lia|exact Hs|apply KS, Hp].
    + apply (kind_base _ _ _ ki 0 s); [lia|exact Hs|constructor].
  - intros s s' H Hst. apply holds_and2 in H as [H1 H2]. apply holds_not in H1. rewrite G in H1.
    assert (HK' : holds s' K).
    { destruct (holds_dec s' K) as [X|X]; [exact X|exfalso]. apply H1.
      apply (HkW 1%nat s s'); [econstructor; eauto; constructor|exact X|lia]. }
    apply holds_and2. split; [|exact HK'].
    apply holds_not. rewrite G. intros HW. destruct (HWk _ _ HW) as [m [u [Hm [Hp Hn]]]].
    destruct (Nat.eq_dec m (k - 1)) as [E|E].
    + apply Hn. apply (kind_step _ _ _ ki s). replace k with (S m) by lia. econstructor; eauto.
    + apply H1. apply (HkW (S m) s u); [econstructor; eauto|exact Hn|lia].
  - intros s H. apply holds_and2 in H. tauto.
Qed.

End H.
