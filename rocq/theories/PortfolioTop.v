(** * What a portfolio prints, and when it ends. *)
From Coq Require Import Ascii String List Arith Bool Lia.
From Verif Require Import PortfolioModel PortfolioProofs.
Import ListNotations.
Local Open Scope list_scope.

(** No process can make a step any more (crashes are not counted as steps:
    they may but need not happen). *)
Definition quiescent (cfg : config) (st : state) : Prop :=
  forall a, (forall j, a <> ACrash j) -> exec cfg a st = None.

Definition crashed (k : kid) : Prop := k_pc k = KDead Crashed.

(** No fork returned -1. *)
Definition forks_ok (st : state) : Prop := ~ In None (s_procs st).

(** The child that claimed the shared word did not crash. *)
Definition winner_survives (st : state) : Prop :=
  forall w k, s_winner st = Some w -> nth_error (s_kids st) w = Some k -> ~ crashed k.

(** The child running engine [e] did not crash. *)
Definition survives (e : nat) (st : state) : Prop :=
  forall j k, nth_error (s_kids st) j = Some k -> k_eng k = e -> ~ crashed k.

Section Top.
Variable cfg : config.
Hypothesis no_caught : forall i, i < c_num cfg -> c_verdict cfg i <> Some VCaught.

Lemma output_prefix : forall st, reachable cfg st ->
  visible (s_out st) = [] \/
  (exists e a, e < c_num cfg /\ c_verdict cfg e = Some (VDef a) /\
     prefix_of (visible (s_out st)) (full cfg e a)) \/
  (s_pc st = PDone /\ s_winner st = None /\
   exists m, c_fallback cfg = Some m /\ visible (s_out st) = [LAnswer m]).
Proof.
  intros st R. pose proof (inv_reachable cfg no_caught st R) as I.
  destruct (s_winner st) as [w|] eqn:W.
  - right. left. destruct (i_win _ _ I w W) as (k & H & a & V & B).
    destruct (i_kids _ _ I _ _ H) as (Kn & _). exists (k_eng k), a. repeat split; auto.
    destruct (k_pc k) as [| |a'|ls|[|c]|[]]; try contradiction.
    + destruct B as [_ ->]. exists (full cfg (k_eng k) a). reflexivity.
    + destruct B as (d & B1 & B2). rewrite B2. unfold full. rewrite B1, map_app.
      exists (map LWork ls). reflexivity.
    + rewrite B. exists []. rewrite app_nil_r. reflexivity.
    + exact B.
  - destruct (i_none _ _ I W) as [Q|[D Q]]; auto.
Qed.

Lemma nth_eng : forall st e, Inv cfg st -> forks_ok st -> length (s_procs st) = c_num cfg ->
  e < c_num cfg -> exists k, nth_error (s_kids st) e = Some k /\ k_eng k = e.
Proof.
  intros st e I F L H.
  pose proof (i_ok _ _ I F) as E. rewrite L in E.
  assert (X : nth_error (map k_eng (s_kids st)) e = Some e).
  { rewrite E. rewrite (nth_error_nth' _ 0) by (rewrite seq_length; auto).
    rewrite seq_nth by auto. reflexivity. }
  rewrite nth_map in X. destruct (nth_error (s_kids st) e) as [k|]; [|discriminate].
  cbn in X. injection X as X. eauto.
Qed.

Lemma winner_full : forall st w k, Inv cfg st -> s_winner st = Some w ->
  nth_error (s_kids st) w = Some k -> k_pc k = KExit 0 ->
  exists e a, e < c_num cfg /\ c_verdict cfg e = Some (VDef a) /\ visible (s_out st) = full cfg e a.
Proof.
  intros st w k I W H P. destruct (i_win _ _ I w W) as (k0 & A & a & V & B).
  rewrite H in A. injection A as <-. rewrite P in B.
  destruct (i_kids _ _ I _ _ H) as (Kn & _). eauto.
Qed.

Lemma done_full : forall st e a, reachable cfg st -> s_pc st = PDone -> forks_ok st ->
  e < c_num cfg -> c_verdict cfg e = Some (VDef a) ->
  survives e st -> winner_survives st ->
  exists e' a', e' < c_num cfg /\ c_verdict cfg e' = Some (VDef a') /\
    visible (s_out st) = full cfg e' a'.
Proof.
  intros st e a R D F Le V Sv Ws. pose proof (inv_reachable cfg no_caught st R) as I.
  destruct (i_done _ _ I D) as [Dd [(w & k & W & H & P)|[Rp _]]].
  - eapply winner_full; eauto.
  - pose proof (i_len _ _ I) as L. rewrite D in L.
    destruct (nth_eng st e I F L Le) as (k & H & Ek).
    destruct (i_kids _ _ I _ _ H) as (_ & _ & _ & K).
    pose proof (Dd _ _ H) as Al. destruct (Rp _ _ H) as [_ NK].
    pose proof (Sv _ _ H Ek) as NC. unfold crashed in NC.
    assert (exists w, s_winner st = Some w) as [w W].
    { destruct (k_pc k) as [|a'|a'|ls|[|c]|[]]; try discriminate; try congruence.
      - eauto.
      - destruct K as [K|K]; [rewrite Ek in K; congruence|].
        destruct (s_winner st); [eauto|congruence]. }
    destruct (i_win _ _ I w W) as (kw & Hw & a1 & V1 & B).
    pose proof (Dd _ _ Hw) as Alw. pose proof (Ws _ _ W Hw) as NCw. unfold crashed in NCw.
    destruct (k_pc kw) as [|a'|a'|ls|[|c]|[]] eqn:Pw; try contradiction; try discriminate; try congruence.
    eapply winner_full; eauto.
Qed.

(** nobody is left running when the parent returns *)
Lemma done_all_ended : forall st j k, reachable cfg st -> s_pc st = PDone ->
  nth_error (s_kids st) j = Some k -> alive (k_pc k) = false.
Proof.
  intros st j k R D H. pose proof (inv_reachable cfg no_caught st R) as I.
  destruct (i_done _ _ I D) as [Dd _]. eauto.
Qed.

(** the parent never kills the winner, and it kills nobody before the
    winner has exited with code 0 *)
Lemma winner_not_killed : forall st w k, reachable cfg st -> s_winner st = Some w ->
  nth_error (s_kids st) w = Some k -> k_pc k <> KDead KilledByParent.
Proof.
  intros st w k R W H E. pose proof (inv_reachable cfg no_caught st R) as I.
  destruct (i_win _ _ I w W) as (k0 & A & a & V & B). rewrite H in A. injection A as <-.
  rewrite E in B. exact B.
Qed.

Lemma killed_after_winner : forall st j k, reachable cfg st ->
  nth_error (s_kids st) j = Some k -> k_pc k = KDead KilledByParent ->
  exists e a, e < c_num cfg /\ c_verdict cfg e = Some (VDef a) /\ visible (s_out st) = full cfg e a.
Proof.
  intros st j k R H E. pose proof (inv_reachable cfg no_caught st R) as I.
  destruct (i_kids _ _ I _ _ H) as (_ & _ & _ & K). rewrite E in K.
  destruct (s_pc st) as [| |l|] eqn:PC; cbn in K; try contradiction.
  - destruct (i_kill _ _ I _ PC) as [(w & k0 & W & Hw & P) _]. eapply winner_full; eauto.
  - destruct (i_done _ _ I PC) as [_ [(w & k0 & W & Hw & P)|[Rp _]]].
    + eapply winner_full; eauto.
    + destruct (Rp _ _ H). congruence.
Qed.

(** nothing definite, nothing printed (or the fallback) *)
Lemma none_definite : forall st, reachable cfg st ->
  (forall e a, e < c_num cfg -> c_verdict cfg e <> Some (VDef a)) ->
  s_pc st = PDone ->
  visible (s_out st) = match c_fallback cfg with Some m => [LAnswer m] | None => [] end.
Proof.
  intros st R N D. pose proof (inv_reachable cfg no_caught st R) as I.
  destruct (s_winner st) as [w|] eqn:W.
  - destruct (i_win _ _ I w W) as (k & H & a & V & B).
    destruct (i_kids _ _ I _ _ H) as (Kn & _). exfalso. eapply N; eauto.
  - destruct (i_done _ _ I D) as [_ [(w & k0 & W' & _)|[_ X]]]; [congruence|].
    specialize (X W).
    destruct (i_none _ _ I W) as [Q|[_ (m & F & Q)]].
    + destruct (c_fallback cfg) as [m|]; [auto|exact Q].
    + rewrite F. exact Q.
Qed.

(** kill(-1, ...) is called only if a fork failed *)
Lemma killall_only_failed_fork : forall st, reachable cfg st -> forks_ok st -> s_killall st = false.
Proof.
  intros st R F. pose proof (inv_reachable cfg no_caught st R) as I.
  destruct (s_killall st) eqn:E; [|reflexivity]. exfalso. apply F. apply (i_all _ _ I E).
Qed.

(** ** Progress *)
Lemma quiescent_cases : forall st, reachable cfg st -> quiescent cfg st ->
  s_pc st = PDone \/
  (s_pc st = PWait /\
   (exists j k, nth_error (s_kids st) j = Some k /\ k_pc k = KSolve /\ c_verdict cfg (k_eng k) = None) /\
   (forall j k, nth_error (s_kids st) j = Some k ->
      (k_pc k = KSolve /\ c_verdict cfg (k_eng k) = None) \/ (k_reaped k = true /\ k_pc k <> KExit 0))).
Proof.
  intros st R Q. pose proof (inv_reachable cfg no_caught st R) as I.
  assert (QK : forall j k, nth_error (s_kids st) j = Some k ->
     (k_pc k = KSolve /\ c_verdict cfg (k_eng k) = None) \/ alive (k_pc k) = false).
  { intros j k H. specialize (Q (AKid j) ltac:(discriminate)). cbn [exec] in Q. rewrite H in Q.
    unfold kid_step in Q.
    destruct (k_pc k) as [|a|a|[|l ls]|c|c]; try discriminate; auto.
    - destruct (c_verdict cfg (k_eng k)) as [[]|]; try discriminate; auto.
    - destruct (s_winner st); discriminate. }
  destruct (s_pc st) as [i| |l|] eqn:PC; auto.
  - exfalso. pose proof (Q (AFork true) ltac:(discriminate)) as Q1.
    pose proof (Q AEchild ltac:(discriminate)) as Q2. cbn [exec] in Q1, Q2. rewrite PC in Q1, Q2.
    destruct (Nat.ltb i (c_num cfg)); discriminate.
  - right. split; [reflexivity|].
    assert (G : forall j k, nth_error (s_kids st) j = Some k ->
      (k_pc k = KSolve /\ c_verdict cfg (k_eng k) = None) \/ (k_reaped k = true /\ k_pc k <> KExit 0)).
    { intros j k H. destruct (QK j k H) as [|Al]; [auto|]. right.
      pose proof (Q (AWait j) ltac:(discriminate)) as Q1. cbn [exec] in Q1.
      rewrite PC, H, Al in Q1. cbn [orb] in Q1. destruct (k_reaped k) eqn:Rp.
      - split; [reflexivity|]. eapply (i_wait _ _ I); eauto.
      - destruct (k_pc k) as [| | | |[|]|]; discriminate. }
    split; [|exact G].
    pose proof (Q AEchild ltac:(discriminate)) as Q2. cbn [exec] in Q2. rewrite PC in Q2.
    destruct (forallb k_reaped (s_kids st)) eqn:F.
    { exfalso. destruct (s_winner st), (c_fallback cfg); discriminate. }
    assert (exists k, In k (s_kids st) /\ k_reaped k = false) as (k & IN & Rf).
    { clear - F. induction (s_kids st) as [|x l IH]; cbn in F; [discriminate|].
      destruct (k_reaped x) eqn:E; cbn in F.
      - destruct (IH F) as (k & A & B). exists k. split; [right; auto|auto].
      - exists x. split; [left; auto|auto]. }
    destruct (In_nth_error _ _ IN) as [j H]. exists j, k.
    destruct (G j k H) as [[A B]|[A _]]; [auto|congruence].
  - exfalso. pose proof (Q AKill ltac:(discriminate)) as Q1. cbn [exec] in Q1. rewrite PC in Q1.
    destruct l as [|[j|] rest]; try discriminate. destruct (nth_error (s_kids st) j); discriminate.
Qed.

Lemma quiescent_answers : forall st e a, reachable cfg st -> quiescent cfg st -> forks_ok st ->
  e < c_num cfg -> c_verdict cfg e = Some (VDef a) ->
  survives e st -> winner_survives st ->
  s_pc st = PDone /\
  exists e' a', e' < c_num cfg /\ c_verdict cfg e' = Some (VDef a') /\
    visible (s_out st) = full cfg e' a'.
Proof.
  intros st e a R Q F Le V Sv Ws.
  destruct (quiescent_cases st R Q) as [D|(PC & _ & G)].
  - split; [exact D|]. eapply done_full; eauto.
  - exfalso. pose proof (inv_reachable cfg no_caught st R) as I.
    pose proof (i_len _ _ I) as L. rewrite PC in L.
    destruct (nth_eng st e I F L Le) as (k & H & Ek).
    destruct (i_kids _ _ I _ _ H) as (_ & _ & Rd & K).
    destruct (G _ _ H) as [[_ X]|[Rp NE]]; [rewrite Ek in X; congruence|].
    specialize (Rd Rp). pose proof (Sv _ _ H Ek) as NC. unfold crashed in NC.
    assert (exists w, s_winner st = Some w) as [w W].
    { destruct (k_pc k) as [|a'|a'|ls|[|c]|[]]; try discriminate; try congruence.
      - destruct K as [K|K]; [rewrite Ek in K; congruence|].
        destruct (s_winner st); [eauto|congruence].
      - rewrite PC in K. contradiction. }
    destruct (i_win _ _ I w W) as (kw & Hw & a1 & V1 & B).
    pose proof (Ws _ _ W Hw) as NCw. unfold crashed in NCw.
    destruct (G _ _ Hw) as [[P _]|[Rw NEw]]; [rewrite P in B; exact B|].
    destruct (i_kids _ _ I _ _ Hw) as (_ & _ & Rdw & _). specialize (Rdw Rw).
    destruct (k_pc kw) as [|a'|a'|ls|[|c]|[]]; try contradiction; try discriminate; congruence.
Qed.

End Top.

(** ** Every run is finite *)
Section Measure.
Variable cfg : config.

Definition kid_measure (k : kid) : nat :=
  match k_pc k with
  | KSolve => 4 + length (c_work cfg (k_eng k))
  | KCas _ => 3 + length (c_work cfg (k_eng k))
  | KPrint _ => 2 + length (c_work cfg (k_eng k))
  | KWork ls => 1 + length ls
  | KExit _ | KDead _ => 0
  end + (if k_reaped k then 0 else 1).

Definition kids_measure (l : list kid) : nat := list_sum (map kid_measure l).

(** remaining forks *)
Fixpoint fork_measure (n i : nat) : nat :=
  match n with 0 => 0 | S n' => 6 + length (c_work cfg i) + fork_measure n' (S i) end.

Definition pc_measure (p : ppc) : nat :=
  match p with
  | PFork i => fork_measure (c_num cfg - i) i + c_num cfg + 4
  | PWait => c_num cfg + 3
  | PKill l => length l + 1
  | PDone => 0
  end.

Definition measure (st : state) : nat := pc_measure (s_pc st) + kids_measure (s_kids st).

Lemma kids_measure_set : forall l j k k0, nth_error l j = Some k0 ->
  kids_measure (set_kid j k l) + kid_measure k0 = kids_measure l + kid_measure k.
Proof.
  induction l as [|x l IH]; intros j k k0 H; [destruct j; discriminate|].
  destruct j as [|j]; cbn in H.
  - injection H as ->. unfold set_kid, kids_measure. cbn. lia.
  - specialize (IH j k k0 H). unfold set_kid, kids_measure, list_sum in *. cbn in *. lia.
Qed.

Lemma kill_measure : forall k, kid_measure (kill_kid k) <= kid_measure k.
Proof.
  intros k. unfold kill_kid. destruct (alive (k_pc k)); [|lia].
  unfold kid_measure. cbn. lia.
Qed.

Lemma kill_all_measure : forall l, kids_measure (map kill_kid l) <= kids_measure l.
Proof.
  induction l as [|x l IH]; [reflexivity|]. unfold kids_measure, list_sum in *. cbn.
  pose proof (kill_measure x). lia.
Qed.

Lemma measure_step : forall a st st', Inv cfg st -> exec cfg a st = Some st' -> measure st' < measure st.
Proof.
  intros a st st' I E. unfold measure. destruct a as [ok|j|j|j| |]; cbn [exec] in E.
  - destruct (s_pc st) as [i| | |] eqn:PC; try discriminate.
    destruct (Nat.ltb_spec i (c_num cfg)) as [Lt|]; [|discriminate].
    assert (X : pc_measure (PFork (S i)) + 6 + length (c_work cfg i) = pc_measure (PFork i)).
    { unfold pc_measure. replace (c_num cfg - i) with (S (c_num cfg - S i)) by lia. cbn. lia. }
    destruct ok; injection E as <-; cbn [s_pc s_kids]; [|lia].
    unfold kids_measure. rewrite map_app, list_sum_app. cbn [map list_sum fold_right].
    unfold list_sum. cbn [fold_right]. unfold kid_measure at 2. cbn [k_pc k_eng k_reaped]. lia.
  - destruct (nth_error (s_kids st) j) as [k|] eqn:H; [|discriminate].
    destruct (i_kids _ _ I _ _ H) as (_ & _ & Rd & _).
    unfold kid_step in E.
    destruct (k_pc k) as [|a|a|[|l ls]|c|c] eqn:P; try discriminate;
      [destruct (c_verdict cfg (k_eng k)) as [[]|]; try discriminate | destruct (s_winner st) | | |];
      injection E as <-; cbn [upd s_pc s_kids];
      match goal with |- context [set_kid j ?k' _] => pose proof (kids_measure_set _ j k' k H) as M end;
      unfold kid_measure in M at 1 3 || unfold kid_measure in M;
      unfold kid_measure in M; cbn [with_pc with_flush k_pc k_eng k_reaped] in M; rewrite P in M;
      cbn [length] in M; lia.
  - destruct (nth_error (s_kids st) j) as [k|] eqn:H; [|discriminate].
    destruct (alive (k_pc k)) eqn:Al; [|discriminate]. injection E as <-. cbn [upd s_pc s_kids].
    match goal with |- context [set_kid j ?k' _] => pose proof (kids_measure_set _ j k' k H) as M end.
    unfold kid_measure in M. cbn [with_pc k_pc k_eng k_reaped] in M.
    destruct (k_pc k); try discriminate; lia.
  - destruct (s_pc st) as [|  | |] eqn:PC; try discriminate.
    destruct (nth_error (s_kids st) j) as [k|] eqn:H; [|discriminate].
    destruct (alive (k_pc k)) eqn:Al; [discriminate|].
    destruct (k_reaped k) eqn:R; [discriminate|]. cbn [orb] in E.
    pose proof (kids_measure_set _ j (reap k) k H) as M.
    pose proof (i_len _ _ I) as L. rewrite PC in L.
    unfold kid_measure in M. cbn [reap k_pc k_eng k_reaped] in M. rewrite R in M.
    destruct (k_pc k) as [| | | |[|c]|c]; try discriminate; injection E as <-;
      cbn [with_ppc upd s_pc s_kids]; rewrite ?PC; cbn [pc_measure]; lia.
  - destruct (s_pc st) as [i| | |] eqn:PC; try discriminate.
    + destruct (Nat.ltb_spec i (c_num cfg)) as [|Ge]; [discriminate|]. injection E as <-.
      cbn [with_ppc s_pc s_kids pc_measure]. lia.
    + destruct (forallb k_reaped (s_kids st)); [|discriminate].
      destruct (s_winner st); [|destruct (c_fallback cfg)]; injection E as <-;
        cbn [with_ppc s_pc s_kids pc_measure]; lia.
  - destruct (s_pc st) as [| |[|[j|] rest]|] eqn:PC; try discriminate.
    + injection E as <-. cbn [with_ppc s_pc s_kids pc_measure]. lia.
    + destruct (nth_error (s_kids st) j) as [k|] eqn:H; injection E as <-;
        cbn [with_ppc upd s_pc s_kids pc_measure length]; [|lia].
      pose proof (kids_measure_set _ j (kill_kid k) k H) as M. pose proof (kill_measure k). lia.
    + injection E as <-. cbn [s_pc s_kids pc_measure length].
      pose proof (kill_all_measure (s_kids st)). lia.
Qed.

Hypothesis no_caught : forall i, i < c_num cfg -> c_verdict cfg i <> Some VCaught.

Lemma runs_bounded : forall l st st', Inv cfg st -> execs cfg l st = Some st' ->
  length l + measure st' <= measure st.
Proof.
  induction l as [|a l IH]; intros st st' I E; cbn [execs] in E.
  - injection E as <-. cbn. lia.
  - destruct (exec cfg a st) as [s1|] eqn:X; [|discriminate].
    pose proof (measure_step _ _ _ I X). pose proof (inv_step cfg no_caught _ _ _ I X) as I1.
    specialize (IH _ _ I1 E). cbn. lia.
Qed.

Lemma all_runs_bounded : forall l st, execs cfg l (init cfg) = Some st -> length l <= measure (init cfg).
Proof. intros l st E. pose proof (runs_bounded _ _ _ (inv_init cfg) E). lia. Qed.

End Measure.
