(** * Invariants of the portfolio (model: PortfolioModel.v). *)
From Coq Require Import Ascii String List Arith Bool Lia.
From Verif Require Import PortfolioModel.
Import ListNotations.
Local Open Scope list_scope.

(** ** Specification vocabulary *)

(** The lines of the portfolio itself (not the ones that waited in the
    buffer when it started). *)
Definition visible (l : list line) : list line :=
  filter (fun x => match x with LPending _ => false | _ => true end) l.

Definition prefix_of {A} (p l : list A) : Prop := exists r, l = p ++ r.

Definition pending_only (l : list line) : Prop := visible l = [].

Lemma visible_app : forall a b, visible (a ++ b) = visible a ++ visible b.
Proof. intros. apply filter_app. Qed.

Lemma visible_pending : forall l, visible (map LPending l) = [].
Proof. induction l; cbn; auto. Qed.

(** ** set_kid *)
Lemma set_kid_len : forall j k l, j < length l -> length (set_kid j k l) = length l.
Proof.
  intros j k l H. unfold set_kid. rewrite app_length, firstn_length. cbn [length].
  rewrite skipn_length. lia.
Qed.

Lemma nth_set_kid : forall l j k i, j < length l ->
  nth_error (set_kid j k l) i = if Nat.eq_dec i j then Some k else nth_error l i.
Proof.
  induction l as [|x l IH]; intros j k i H; [cbn in H; lia|].
  destruct j as [|j].
  - destruct i as [|i]; destruct (Nat.eq_dec _ 0) as [E|E]; try lia; reflexivity.
  - destruct i as [|i]; [reflexivity|].
    cbn in H. specialize (IH j k i ltac:(lia)). unfold set_kid in IH |- *.
    cbn [firstn skipn app nth_error] in *.
    rewrite IH. destruct (Nat.eq_dec i j), (Nat.eq_dec (S i) (S j)); try lia; reflexivity.
Qed.

Lemma map_set_kid : forall A (f : kid -> A) l j k k0, nth_error l j = Some k0 -> f k = f k0 ->
  map f (set_kid j k l) = map f l.
Proof.
  intros A f. induction l as [|x l IH]; intros j k k0 H E; [destruct j; discriminate|].
  destruct j as [|j]; cbn in H |- *.
  - injection H as ->. rewrite E. reflexivity.
  - unfold set_kid in IH. cbn in IH. rewrite (IH j k k0 H E). reflexivity.
Qed.

Lemma nth_some_lt : forall A (l : list A) j k, nth_error l j = Some k -> j < length l.
Proof. intros. apply nth_error_Some. congruence. Qed.

Lemma nth_map : forall A B (f : A -> B) l i, nth_error (map f l) i = option_map f (nth_error l i).
Proof. intros A B f. induction l as [|x l IH]; intros [|i]; cbn; auto. Qed.

Section Inv.
Variable cfg : config.
Hypothesis no_caught : forall i, i < c_num cfg -> c_verdict cfg i <> Some VCaught.

Definition full (e : nat) (a : string) : list line :=
  LAnswer a :: map LWork (c_work cfg e).

Definition killing (p : ppc) : Prop :=
  match p with PKill _ | PDone => True | _ => False end.

Definition kid_ok (p : ppc) (w : option nat) (j : nat) (k : kid) : Prop :=
  k_eng k < c_num cfg /\ pending_only (k_buf k) /\
  (k_reaped k = true -> alive (k_pc k) = false) /\
  match k_pc k with
  | KSolve => True
  | KCas a => c_verdict cfg (k_eng k) = Some (VDef a)
  | KPrint a => w = Some j
  | KWork ls => w = Some j
  | KExit 0 => w = Some j
  | KExit (S _) => c_verdict cfg (k_eng k) = Some VNone \/ w <> None
  | KDead KilledByParent => killing p
  | KDead Aborted => c_verdict cfg (k_eng k) = Some VAbort
  | KDead Crashed => True
  end.

Definition winner_ok (k : kid) (out : list line) : Prop :=
  exists a, c_verdict cfg (k_eng k) = Some (VDef a) /\
  match k_pc k with
  | KPrint a' => a' = a /\ visible out = []
  | KWork ls => exists d, c_work cfg (k_eng k) = d ++ ls /\ visible out = LAnswer a :: map LWork d
  | KExit 0 => visible out = full (k_eng k) a
  | KDead Crashed => prefix_of (visible out) (full (k_eng k) a)
  | _ => False
  end.

Record Inv (st : state) : Prop := {
  i_kids : forall j k, nth_error (s_kids st) j = Some k -> kid_ok (s_pc st) (s_winner st) j k;
  i_win : forall w, s_winner st = Some w ->
    exists k, nth_error (s_kids st) w = Some k /\ winner_ok k (s_out st);
  i_none : s_winner st = None ->
    visible (s_out st) = [] \/
    (s_pc st = PDone /\ exists m, c_fallback cfg = Some m /\ visible (s_out st) = [LAnswer m]);
  i_buf : pending_only (s_buf st);
  i_kill : forall l, s_pc st = PKill l ->
    (exists w k, s_winner st = Some w /\ nth_error (s_kids st) w = Some k /\ k_pc k = KExit 0) /\
    (exists pre, s_procs st = pre ++ l /\
       forall j k, In (Some j) pre -> nth_error (s_kids st) j = Some k -> alive (k_pc k) = false);
  i_done : s_pc st = PDone ->
    (forall j k, nth_error (s_kids st) j = Some k -> alive (k_pc k) = false) /\
    ((exists w k, s_winner st = Some w /\ nth_error (s_kids st) w = Some k /\ k_pc k = KExit 0) \/
     ((forall j k, nth_error (s_kids st) j = Some k -> k_reaped k = true /\ k_pc k <> KDead KilledByParent) /\
      (s_winner st = None -> forall m, c_fallback cfg = Some m -> visible (s_out st) = [LAnswer m])));
  i_wait : forall j k, (s_pc st = PWait \/ exists i, s_pc st = PFork i) ->
     nth_error (s_kids st) j = Some k -> k_reaped k = true -> k_pc k <> KExit 0;
  i_len : match s_pc st with
          | PFork i => i = length (s_procs st) /\ i <= c_num cfg
          | _ => length (s_procs st) = c_num cfg
          end;
  i_procs : forall j, j < length (s_kids st) -> In (Some j) (s_procs st);
  i_ok : ~ In None (s_procs st) -> map k_eng (s_kids st) = seq 0 (length (s_procs st));
  i_all : s_killall st = true -> In None (s_procs st)
}.

Lemma inv_init : Inv (init cfg).
Proof.
  split; cbn; try discriminate; auto.
  - intros [|j] k H; discriminate.
  - apply visible_pending.
  - intros [|j] k _ H; discriminate.
  - split; [reflexivity|lia].
  - intros j H; lia.
Qed.

(** a child's own step changes only that child, the shared word and the output *)
Lemma inv_upd : forall st j k k' w' out',
  Inv st -> nth_error (s_kids st) j = Some k ->
  k_eng k' = k_eng k -> k_reaped k' = k_reaped k ->
  alive (k_pc k) = true ->
  kid_ok (s_pc st) w' j k' ->
  (w' = s_winner st \/ (s_winner st = None /\ w' = Some j)) ->
  (match w' with
   | None => visible out' = visible (s_out st)
   | Some w => if Nat.eq_dec w j then winner_ok k' out' else visible out' = visible (s_out st)
   end) ->
  Inv (upd st j k' w' out').
Proof.
  intros st j k k' w' out' I H Ee Er Al Ok Hw Ho.
  assert (J : j < length (s_kids st)) by (eapply nth_some_lt; eauto).
  assert (Rf : k_reaped k = false).
  { destruct (k_reaped k) eqn:E; [|reflexivity].
    destruct (i_kids _ I _ _ H) as (_ & _ & R & _). rewrite (R E) in Al. discriminate. }
  assert (NW : forall w k0, s_winner st = Some w -> nth_error (s_kids st) w = Some k0 ->
               k_pc k0 = KExit 0 -> w <> j).
  { intros w k0 _ E1 E2 ->. rewrite H in E1. injection E1 as <-. rewrite E2 in Al. discriminate. }
  split; cbn [upd s_kids s_pc s_winner s_out s_procs s_buf s_killall].
  - intros i k0 E. rewrite nth_set_kid in E by auto.
    destruct (Nat.eq_dec i j) as [->|N]; [injection E as <-; exact Ok|].
    pose proof (i_kids _ I _ _ E) as K.
    destruct Hw as [->|[N0 ->]]; [exact K|].
    destruct K as (A & B & C & D). unfold kid_ok. repeat split; auto.
    rewrite N0 in D. destruct (k_pc k0) as [| | | |[|]|[]]; auto; try discriminate.
    right; discriminate.
  - intros w E. rewrite E in Ho. destruct (Nat.eq_dec w j) as [->|N].
    + exists k'. split; [|exact Ho]. rewrite nth_set_kid by auto.
      destruct (Nat.eq_dec j j); [reflexivity|congruence].
    + destruct Hw as [Hw|[N0 Hw]]; [|congruence].
      rewrite E in Hw. destruct (i_win _ I w) as (k0 & A & a & V & B); [congruence|].
      exists k0. split.
      * rewrite nth_set_kid by auto. destruct (Nat.eq_dec w j); [congruence|auto].
      * exists a. split; [exact V|]. rewrite Ho. exact B.
  - intros E. rewrite E in Ho. rewrite Ho. apply (i_none _ I). destruct Hw as [Hw|[? Hw]]; congruence.
  - apply (i_buf _ I).
  - intros l E. destruct (i_kill _ I l E) as [(w & k0 & A & B & C) (pre & P & Q)]. split.
    + exists w, k0. split; [destruct Hw as [->|[? ?]]; [auto|congruence]|]. split; [|auto].
      rewrite nth_set_kid by auto. destruct (Nat.eq_dec w j) as [->|N]; [|auto].
      exfalso. exact (NW j k0 A B C eq_refl).
    + exists pre. split; [auto|]. intros i k1 IN E0. rewrite nth_set_kid in E0 by auto.
      destruct (Nat.eq_dec i j) as [->|N]; [|eauto].
      rewrite (Q j k IN H) in Al. discriminate.
  - intros E. destruct (i_done _ I E) as [A _]. rewrite (A j k H) in Al. discriminate.
  - intros i k0 P E R. rewrite nth_set_kid in E by auto.
    destruct (Nat.eq_dec i j) as [->|N]; [|eapply (i_wait _ I); eauto].
    injection E as <-. congruence.
  - apply (i_len _ I).
  - intros i. rewrite set_kid_len by auto. apply (i_procs _ I).
  - intros N. rewrite (map_set_kid _ k_eng _ _ _ k) by auto. apply (i_ok _ I N).
  - apply (i_all _ I).
Qed.

Lemma inv_kid : forall st j k st', Inv st -> nth_error (s_kids st) j = Some k ->
  kid_step cfg st j k = Some st' -> Inv st'.
Proof.
  intros st j k st' I H E.
  destruct (i_kids _ I _ _ H) as (Kn & Kb & Kr & Kp).
  assert (NR : alive (k_pc k) = true -> k_reaped k = false).
  { intros Al. destruct (k_reaped k) eqn:R; [rewrite Kr in Al by auto; discriminate|auto]. }
  assert (Other : forall l, visible (s_out st ++ k_buf k ++ l) = visible (s_out st) ++ visible l).
  { intros l. rewrite !visible_app. unfold pending_only in Kb. rewrite Kb. reflexivity. }
  unfold kid_step in E.
  destruct (k_pc k) as [|a|a|[|l ls]|c|c] eqn:P; try discriminate.
  - (* solve *)
    assert (W : s_winner st <> Some j).
    { intros W. destruct (i_win _ I _ W) as (k0 & A & a & V & B).
      rewrite H in A. injection A as <-. rewrite P in B. exact B. }
    destruct (c_verdict cfg (k_eng k)) as [[a| | |]|] eqn:V; try discriminate;
      try (exfalso; eapply no_caught; eauto; fail);
      injection E as <-;
      eapply inv_upd; eauto; cbn; try rewrite P; cbn; auto.
    + repeat split; cbn; auto; try (rewrite NR by auto; discriminate).
    + destruct (s_winner st); [|reflexivity]. destruct (Nat.eq_dec n j); [congruence|reflexivity].
    + repeat split; cbn; auto.
    + rewrite visible_app. unfold pending_only in Kb. rewrite Kb, app_nil_r.
      destruct (s_winner st); [|reflexivity]. destruct (Nat.eq_dec n j); [congruence|reflexivity].
    + repeat split; cbn; auto.
    + destruct (s_winner st); [|reflexivity]. destruct (Nat.eq_dec n j); [congruence|reflexivity].
  - (* compare and swap *)
    destruct (s_winner st) as [w|] eqn:W; injection E as <-.
    + assert (N : w <> j).
      { intros ->. destruct (i_win _ I _ W) as (k0 & A & a0 & V & B).
        rewrite H in A. injection A as <-. rewrite P in B. exact B. }
      eapply inv_upd; eauto; cbn; try rewrite P; cbn; auto.
      * repeat split; cbn; auto; try (right; discriminate).
      * destruct (Nat.eq_dec w j); [congruence|].
        rewrite visible_app. unfold pending_only in Kb. rewrite Kb, app_nil_r. reflexivity.
    + eapply inv_upd; eauto; cbn; try rewrite P; cbn; auto.
      * repeat split; cbn; auto; try (rewrite NR by auto; discriminate).
      * destruct (Nat.eq_dec j j); [|congruence]. exists a. cbn. split; [exact Kp|]. split; [reflexivity|].
        destruct (i_none _ I W) as [Q|[D _]]; [exact Q|].
        destruct (i_done _ I D) as [A _]. specialize (A j k H). rewrite P in A. discriminate.
  - (* print *)
    injection E as <-. destruct (i_win _ I _ Kp) as (k0 & A & a0 & V & B).
    rewrite H in A. injection A as <-. rewrite P in B. destruct B as [-> B].
    eapply inv_upd; eauto; cbn; try rewrite P; cbn; auto.
    + repeat split; cbn; auto; try (rewrite NR by auto; discriminate).
    + rewrite Kp. destruct (Nat.eq_dec j j); [|congruence]. exists a0. cbn. split; [exact V|].
      exists []. cbn. rewrite Other, B. cbn. auto.
  - (* end of the work *)
    injection E as <-. destruct (i_win _ I _ Kp) as (k0 & A & a0 & V & B).
    rewrite H in A. injection A as <-. rewrite P in B. destruct B as (d & B1 & B2).
    eapply inv_upd; eauto; cbn; try rewrite P; cbn; auto.
    + repeat split; cbn; auto.
    + rewrite Kp. destruct (Nat.eq_dec j j); [|congruence]. exists a0. cbn. split; [exact V|].
      rewrite visible_app. unfold pending_only in Kb. rewrite Kb, B2, app_nil_r. unfold full.
      rewrite B1, app_nil_r. reflexivity.
  - injection E as <-. destruct (i_win _ I _ Kp) as (k0 & A & a0 & V & B).
    rewrite H in A. injection A as <-. rewrite P in B. destruct B as (d & B1 & B2).
    eapply inv_upd; eauto; cbn; try rewrite P; cbn; auto.
    + repeat split; cbn; auto; try (rewrite NR by auto; discriminate).
    + rewrite Kp. destruct (Nat.eq_dec j j); [|congruence]. exists a0. cbn. split; [exact V|].
      exists (d ++ [l]). rewrite <- app_assoc. cbn. split; [exact B1|].
      rewrite Other, B2. cbn. rewrite map_app. reflexivity.
Qed.

Lemma inv_crash : forall st j k, Inv st -> nth_error (s_kids st) j = Some k ->
  alive (k_pc k) = true ->
  Inv (upd st j (with_pc k (KDead Crashed)) (s_winner st) (s_out st)).
Proof.
  intros st j k I H Al.
  destruct (i_kids _ I _ _ H) as (Kn & Kb & Kr & Kp).
  eapply inv_upd; eauto; cbn; auto.
  - repeat split; cbn; auto.
  - destruct (s_winner st) as [w|] eqn:W; [|reflexivity].
    destruct (Nat.eq_dec w j) as [->|]; [|reflexivity].
    destruct (i_win _ I _ W) as (k0 & A & a & V & B). rewrite H in A. injection A as <-.
    exists a. split; [exact V|]. cbn.
    destruct (k_pc k) as [|a'|a'|ls|[|c]|[]]; try contradiction; try discriminate.
    + destruct B as [_ ->]. exists (full (k_eng k) a). reflexivity.
    + destruct B as (d & B1 & B2). rewrite B2. unfold full. rewrite B1, map_app.
      exists (map LWork ls). reflexivity.
Qed.

Lemma kid_ok_pc : forall p p' w j k, (killing p -> killing p') -> kid_ok p w j k -> kid_ok p' w j k.
Proof.
  intros p p' w j k Q (A & B & C & D). repeat split; auto.
  destruct (k_pc k) as [| | | |[|]|[]]; auto.
Qed.

Lemma kill_kid_alive : forall k, alive (k_pc (kill_kid k)) = false.
Proof. intros k. unfold kill_kid. destruct (alive (k_pc k)) eqn:E; [reflexivity|exact E]. Qed.

Lemma inv_wait : forall st j k, Inv st -> s_pc st = PWait ->
  nth_error (s_kids st) j = Some k -> alive (k_pc k) = false -> k_reaped k = false ->
  (k_pc k <> KExit 0 -> Inv (upd st j (reap k) (s_winner st) (s_out st))) /\
  (k_pc k = KExit 0 ->
     Inv (with_ppc (upd st j (reap k) (s_winner st) (s_out st)) (PKill (s_procs st)))).
Proof.
  intros st j k I PC H Al R.
  assert (J : j < length (s_kids st)) by (eapply nth_some_lt; eauto).
  assert (K : forall i k0, nth_error (set_kid j (reap k) (s_kids st)) i = Some k0 ->
     kid_ok PWait (s_winner st) i k0).
  { intros i k0 E. rewrite nth_set_kid in E by auto. destruct (Nat.eq_dec i j) as [->|N].
    - injection E as <-. rewrite <- PC. destruct (i_kids _ I _ _ H) as (A & B & C & D).
      repeat split; auto.
    - rewrite <- PC. apply (i_kids _ I); auto. }
  assert (W : forall w, s_winner st = Some w ->
     exists k0, nth_error (set_kid j (reap k) (s_kids st)) w = Some k0 /\ winner_ok k0 (s_out st)).
  { intros w E. destruct (i_win _ I w E) as (k0 & A & B).
    rewrite nth_set_kid by auto. destruct (Nat.eq_dec w j) as [->|N].
    - rewrite H in A. injection A as <-. exists (reap k). split; [reflexivity|exact B].
    - exists k0. auto. }
  pose proof (i_len _ I) as L. rewrite PC in L.
  split; intros X.
  - split; cbn [upd s_kids s_pc s_winner s_out s_procs s_buf s_killall]; try rewrite PC; try discriminate; auto.
    + intros E. destruct (i_none _ I E) as [Q|[Q _]]; [left; auto|congruence].
    + apply (i_buf _ I).
    + intros i k0 _ E Rp. rewrite nth_set_kid in E by auto. destruct (Nat.eq_dec i j) as [->|N].
      * injection E as <-. exact X.
      * eapply (i_wait _ I); eauto.
    + intros i. rewrite set_kid_len by auto. apply (i_procs _ I).
    + intros N. rewrite (map_set_kid _ k_eng _ _ _ k) by auto. apply (i_ok _ I N).
    + apply (i_all _ I).
  - split; cbn [upd with_ppc s_kids s_pc s_winner s_out s_procs s_buf s_killall]; try discriminate; auto.
    + intros i k0 E. eapply kid_ok_pc; [|apply K; auto]. cbn; auto.
    + intros E. destruct (i_none _ I E) as [Q|[Q _]]; [left; auto|congruence].
    + apply (i_buf _ I).
    + intros l E. injection E as <-. split.
      * destruct (i_kids _ I _ _ H) as (_ & _ & _ & D). rewrite X in D.
        exists j, (reap k). split; [auto|]. rewrite nth_set_kid by auto.
        destruct (Nat.eq_dec j j); [|congruence]. auto.
      * exists []. split; [reflexivity|]. intros i k0 [].
    + intros i k0 [Q|[i0 Q]]; discriminate.
    + intros i. rewrite set_kid_len by auto. apply (i_procs _ I).
    + intros N. rewrite (map_set_kid _ k_eng _ _ _ k) by auto. apply (i_ok _ I N).
    + apply (i_all _ I).
Qed.

Lemma inv_kill : forall st rest j k, Inv st -> s_pc st = PKill (Some j :: rest) ->
  nth_error (s_kids st) j = Some k ->
  Inv (with_ppc (upd st j (kill_kid k) (s_winner st) (s_out st)) (PKill rest)).
Proof.
  intros st rest j k I PC H.
  assert (J : j < length (s_kids st)) by (eapply nth_some_lt; eauto).
  destruct (i_kill _ I _ PC) as [(w & kw & A & B & C) (pre & P & Q)].
  assert (NK : k_pc k = KExit 0 -> kill_kid k = k).
  { intros E. unfold kill_kid. rewrite E. reflexivity. }
  assert (WJ : w = j -> kill_kid k = k).
  { intros ->. rewrite H in B. injection B as <-. auto. }
  assert (KE : k_eng (kill_kid k) = k_eng k) by (unfold kill_kid; destruct (alive (k_pc k)); reflexivity).
  split; cbn [upd with_ppc s_kids s_pc s_winner s_out s_procs s_buf s_killall]; try discriminate; auto.
  - intros i k0 E. rewrite nth_set_kid in E by auto. destruct (Nat.eq_dec i j) as [->|N].
    + injection E as <-. destruct (i_kids _ I _ _ H) as (K1 & K2 & K3 & K4). unfold kill_kid.
      destruct (alive (k_pc k)) eqn:Al.
      * repeat split; cbn; auto.
      * eapply kid_ok_pc; [|exact (i_kids _ I _ _ H)]. rewrite PC. cbn; auto.
    + eapply kid_ok_pc; [|apply (i_kids _ I); eauto]. cbn; auto.
  - intros w0 E. rewrite A in E. injection E as <-.
    destruct (i_win _ I w A) as (k0 & A0 & B0). exists k0. split; [|auto].
    rewrite nth_set_kid by auto. destruct (Nat.eq_dec w j) as [->|N]; [|auto].
    rewrite WJ by auto. congruence.
  - intros E. congruence.
  - apply (i_buf _ I).
  - intros l E. injection E as <-. split.
    + exists w, kw. split; [auto|]. split; [|auto]. rewrite nth_set_kid by auto.
      destruct (Nat.eq_dec w j) as [->|N]; [|auto]. rewrite WJ by auto. congruence.
    + exists (pre ++ [Some j]). rewrite <- app_assoc. split; [exact P|].
      intros i k0 IN E. rewrite nth_set_kid in E by auto. destruct (Nat.eq_dec i j) as [->|N].
      * injection E as <-. apply kill_kid_alive.
      * apply in_app_or in IN. destruct IN as [IN|[IN|[]]]; [eauto|congruence].
  - intros i k0 [X|[i0 X]]; discriminate.
  - pose proof (i_len _ I) as L. rewrite PC in L. exact L.
  - intros i. rewrite set_kid_len by auto. apply (i_procs _ I).
  - intros N. rewrite (map_set_kid _ k_eng _ _ _ k) by auto. apply (i_ok _ I N).
  - apply (i_all _ I).
Qed.

Lemma inv_killall : forall st rest, Inv st -> s_pc st = PKill (None :: rest) ->
  Inv {| s_pc := PKill rest; s_procs := s_procs st; s_winner := s_winner st;
         s_kids := map kill_kid (s_kids st); s_buf := s_buf st; s_out := s_out st;
         s_killall := true |}.
Proof.
  intros st rest I PC.
  destruct (i_kill _ I _ PC) as [(w & kw & A & B & C) (pre & P & Q)].
  assert (NK : forall k, k_pc k = KExit 0 -> kill_kid k = k).
  { intros k E. unfold kill_kid. rewrite E. reflexivity. }
  assert (M : forall i k0, nth_error (map kill_kid (s_kids st)) i = Some k0 ->
     exists k, nth_error (s_kids st) i = Some k /\ k0 = kill_kid k).
  { intros i k0 E. rewrite nth_map in E. destruct (nth_error (s_kids st) i); [|discriminate].
    injection E as <-. eauto. }
  assert (KW : nth_error (map kill_kid (s_kids st)) w = Some kw).
  { rewrite nth_map, B. cbn. rewrite NK by auto. reflexivity. }
  split; cbn [s_kids s_pc s_winner s_out s_procs s_buf s_killall]; try discriminate; auto.
  - intros i k0 E. destruct (M _ _ E) as (k & H & ->).
    destruct (i_kids _ I _ _ H) as (K1 & K2 & K3 & K4). unfold kill_kid.
    destruct (alive (k_pc k)) eqn:Al.
    + repeat split; cbn; auto.
    + eapply kid_ok_pc; [|exact (i_kids _ I _ _ H)]. rewrite PC. cbn; auto.
  - intros w0 E. rewrite A in E. injection E as <-.
    destruct (i_win _ I w A) as (k0 & A0 & B0). exists k0. split; [|auto]. congruence.
  - intros E. congruence.
  - apply (i_buf _ I).
  - intros l E. injection E as <-. split; [eauto 6|].
    exists (pre ++ [None]). rewrite <- app_assoc. split; [exact P|].
    intros i k0 _ E. destruct (M _ _ E) as (k & H & ->). apply kill_kid_alive.
  - intros i k0 [X|[i0 X]]; discriminate.
  - pose proof (i_len _ I) as L. rewrite PC in L. exact L.
  - intros i. rewrite map_length. apply (i_procs _ I).
  - intros N. exfalso. apply N. rewrite P. apply in_or_app. right. left. reflexivity.
  - intros _. rewrite P. apply in_or_app. right. left. reflexivity.
Qed.

Lemma inv_fork : forall st i ok st', Inv st -> s_pc st = PFork i ->
  exec cfg (AFork ok) st = Some st' -> Inv st'.
Proof.
  intros st i ok st' I PC E. cbn [exec] in E. rewrite PC in E.
  destruct (Nat.ltb_spec i (c_num cfg)) as [Lt|]; [|discriminate].
  pose proof (i_len _ I) as L. rewrite PC in L. destruct L as [L1 L2].
  destruct ok; injection E as <-.
  - assert (Nw : forall j k, nth_error (s_kids st ++
        [{| k_eng := i; k_pc := KSolve; k_buf := s_buf st; k_reaped := false |}]) j = Some k ->
        nth_error (s_kids st) j = Some k \/
        (j = length (s_kids st) /\ k = {| k_eng := i; k_pc := KSolve; k_buf := s_buf st; k_reaped := false |})).
    { intros j k H. destruct (Nat.lt_ge_cases j (length (s_kids st))) as [Hl|Hl].
      - rewrite nth_error_app1 in H by auto. auto.
      - rewrite nth_error_app2 in H by auto.
        destruct (j - length (s_kids st)) as [|d] eqn:D; cbn in H.
        + injection H as <-. right. split; [lia|reflexivity].
        + destruct d; discriminate. }
    split; cbn [s_kids s_pc s_winner s_out s_procs s_buf s_killall]; try discriminate; auto.
    + intros j k H. destruct (Nw _ _ H) as [H'|[-> ->]].
      * eapply kid_ok_pc; [|apply (i_kids _ I); eauto]. rewrite PC. cbn; auto.
      * repeat split; cbn; auto. apply (i_buf _ I).
    + intros w H. destruct (i_win _ I w H) as (k & A & B). exists k. split; [|auto].
      rewrite nth_error_app1; [auto|]. eapply nth_some_lt; eauto.
    + intros H. destruct (i_none _ I H) as [Q|[Q _]]; [left; auto|congruence].
    + apply (i_buf _ I).
    + intros j k _ H R. destruct (Nw _ _ H) as [H'|[-> ->]]; [|discriminate].
      eapply (i_wait _ I); eauto.
    + rewrite app_length. cbn. split; lia.
    + intros j H. rewrite app_length in H. cbn in H.
      destruct (Nat.eq_dec j (length (s_kids st))) as [->|N].
      * apply in_or_app. right. left. reflexivity.
      * apply in_or_app. left. apply (i_procs _ I). lia.
    + intros N. rewrite map_app, app_length. cbn [map length k_eng].
      rewrite (i_ok _ I) by (intros X; apply N; apply in_or_app; auto).
      rewrite seq_app. cbn. rewrite L1. reflexivity.
    + intros H. apply in_or_app. left. apply (i_all _ I H).
  - split; cbn [s_kids s_pc s_winner s_out s_procs s_buf s_killall]; try discriminate; auto.
    + intros j k H. eapply kid_ok_pc; [|apply (i_kids _ I); eauto]. rewrite PC. cbn; auto.
    + apply (i_win _ I).
    + intros H. destruct (i_none _ I H) as [Q|[Q _]]; [left; auto|congruence].
    + apply (i_buf _ I).
    + intros j k _ H R. eapply (i_wait _ I); eauto.
    + rewrite app_length. cbn. split; lia.
    + intros j H. apply in_or_app. left. apply (i_procs _ I). auto.
    + intros N. exfalso. apply N. apply in_or_app. right. left. reflexivity.
    + intros H. apply in_or_app. left. apply (i_all _ I H).
Qed.

Lemma inv_echild : forall st st', Inv st -> exec cfg AEchild st = Some st' -> Inv st'.
Proof.
  intros st st' I E. cbn [exec] in E. pose proof (i_len _ I) as L.
  destruct (s_pc st) as [i| |l|] eqn:PC; try discriminate.
  - destruct (Nat.ltb_spec i (c_num cfg)) as [|Ge]; [discriminate|]. injection E as <-.
    split; cbn [with_ppc s_kids s_pc s_winner s_out s_procs s_buf s_killall]; try discriminate; auto.
    + intros j k H. eapply kid_ok_pc; [|apply (i_kids _ I); eauto]. rewrite PC. cbn; auto.
    + apply (i_win _ I).
    + intros H. destruct (i_none _ I H) as [Q|[Q _]]; [left; auto|congruence].
    + apply (i_buf _ I).
    + intros j k _ H R. eapply (i_wait _ I); eauto.
    + lia.
    + apply (i_procs _ I).
    + apply (i_ok _ I).
    + apply (i_all _ I).
  - destruct (forallb k_reaped (s_kids st)) eqn:F; [|discriminate].
    rewrite forallb_forall in F.
    assert (Rp : forall j k, nth_error (s_kids st) j = Some k -> k_reaped k = true).
    { intros j k H. apply F. eapply nth_error_In; eauto. }
    assert (Dd : forall j k, nth_error (s_kids st) j = Some k -> alive (k_pc k) = false).
    { intros j k H. destruct (i_kids _ I _ _ H) as (_ & _ & K & _). apply K. eauto. }
    assert (Nk : forall j k, nth_error (s_kids st) j = Some k -> k_pc k <> KDead KilledByParent).
    { intros j k H X. destruct (i_kids _ I _ _ H) as (_ & _ & _ & D). rewrite X in D.
      rewrite PC in D. exact D. }
    assert (K : forall j k, nth_error (s_kids st) j = Some k -> kid_ok PDone (s_winner st) j k).
    { intros j k H. eapply kid_ok_pc; [|apply (i_kids _ I); eauto]. cbn; auto. }
    assert (G : s_winner st <> None \/ c_fallback cfg = None -> Inv (with_ppc st PDone)).
    { intros X.
      split; cbn [with_ppc s_kids s_pc s_winner s_out s_procs s_buf s_killall]; try discriminate; auto.
      - apply (i_win _ I).
      - intros H. destruct (i_none _ I H) as [Q|[Q _]]; [left; auto|congruence].
      - apply (i_buf _ I).
      - intros _. split; [auto|]. right. split; [eauto|]. intros E1 m E2. destruct X; congruence.
      - intros j k [Q|[i0 Q]]; discriminate.
      - apply (i_procs _ I).
      - apply (i_ok _ I).
      - apply (i_all _ I). }
    destruct (s_winner st) as [w|] eqn:W; [injection E as <-; apply G; left; discriminate|].
    destruct (c_fallback cfg) as [m|] eqn:Fb; [|injection E as <-; apply G; auto].
    injection E as <-.
    assert (O : visible (s_out st ++ s_buf st ++ [LAnswer m]) = [LAnswer m]).
    { destruct (i_none _ I W) as [Q|[Q _]]; [|congruence].
      rewrite !visible_app, Q, (i_buf _ I). reflexivity. }
    split; cbn [s_kids s_pc s_winner s_out s_procs s_buf s_killall]; try discriminate; auto.
    + intros _. right. split; [reflexivity|]. exists m. auto.
    + reflexivity.
    + intros _. split; [auto|]. right. split; [eauto|]. intros _ m' E. congruence.
    + intros j k [Q|[i0 Q]]; discriminate.
    + apply (i_procs _ I).
    + apply (i_ok _ I).
    + apply (i_all _ I).
Qed.

Lemma inv_step : forall a st st', Inv st -> exec cfg a st = Some st' -> Inv st'.
Proof.
  intros a st st' I E. destruct a as [ok|j|j|j| |].
  - destruct (s_pc st) eqn:PC; try (cbn in E; rewrite PC in E; discriminate).
    eapply (inv_fork st i ok); eauto.
  - cbn in E. destruct (nth_error (s_kids st) j) as [k|] eqn:H; [|discriminate].
    eapply inv_kid; eauto.
  - cbn in E. destruct (nth_error (s_kids st) j) as [k|] eqn:H; [|discriminate].
    destruct (alive (k_pc k)) eqn:Al; [|discriminate]. injection E as <-. apply inv_crash; auto.
  - cbn in E. destruct (s_pc st) eqn:PC; try discriminate.
    destruct (nth_error (s_kids st) j) as [k|] eqn:H; [|discriminate].
    destruct (alive (k_pc k)) eqn:Al; [discriminate|].
    destruct (k_reaped k) eqn:R; [discriminate|]. cbn in E.
    destruct (inv_wait st j k I PC H Al R) as [X Y].
    destruct (k_pc k) as [| | | |[|c]|c] eqn:P; injection E as <-; try discriminate;
      first [apply Y; reflexivity | apply X; discriminate].
  - eapply inv_echild; eauto.
  - cbn in E. destruct (s_pc st) as [| |[|[j|] rest]|] eqn:PC; try discriminate.
    + injection E as <-. destruct (i_kill _ I _ PC) as [Wn (pre & P & Q)].
      pose proof (i_len _ I) as L. rewrite PC in L. rewrite app_nil_r in P.
      assert (Dd : forall j k, nth_error (s_kids st) j = Some k -> alive (k_pc k) = false).
      { intros j k H. apply (Q j k); [|auto]. rewrite <- P. apply (i_procs _ I).
        eapply nth_some_lt; eauto. }
      split; cbn [with_ppc s_kids s_pc s_winner s_out s_procs s_buf s_killall]; try discriminate; auto.
      * intros j k H. eapply kid_ok_pc; [|apply (i_kids _ I); eauto]. cbn; auto.
      * apply (i_win _ I).
      * intros H. destruct Wn as (w & _ & X & _). congruence.
      * apply (i_buf _ I).
      * intros j k [X|[i0 X]]; discriminate.
      * apply (i_procs _ I).
      * apply (i_ok _ I).
      * apply (i_all _ I).
    + destruct (nth_error (s_kids st) j) as [k|] eqn:H; injection E as <-.
      * apply inv_kill; auto.
      * destruct (i_kill _ I _ PC) as [Wn (pre & P & Q)].
        pose proof (i_len _ I) as L. rewrite PC in L.
        split; cbn [with_ppc s_kids s_pc s_winner s_out s_procs s_buf s_killall]; try discriminate; auto.
        -- intros j0 k H0. eapply kid_ok_pc; [|apply (i_kids _ I); eauto]. cbn; auto.
        -- apply (i_win _ I).
        -- intros H0. destruct Wn as (w & _ & X & _). congruence.
        -- apply (i_buf _ I).
        -- intros l X. injection X as <-. split; [auto|]. exists (pre ++ [Some j]).
           rewrite <- app_assoc. split; [exact P|]. intros i k0 IN E0.
           apply in_app_or in IN. destruct IN as [IN|[IN|[]]]; [eauto|congruence].
        -- intros j0 k0 [X|[i0 X]]; discriminate.
        -- apply (i_procs _ I).
        -- apply (i_ok _ I).
        -- apply (i_all _ I).
    + injection E as <-. apply inv_killall; auto.
Qed.

Lemma inv_execs : forall l st st', Inv st -> execs cfg l st = Some st' -> Inv st'.
Proof.
  induction l as [|a l IH]; intros st st' I E; cbn [execs] in E; [injection E as <-; exact I|].
  destruct (exec cfg a st) eqn:X; [|discriminate]. eapply IH; [|exact E]. eapply inv_step; eauto.
Qed.

Lemma inv_reachable : forall st, reachable cfg st -> Inv st.
Proof. intros st [l E]. eapply inv_execs; [apply inv_init|exact E]. Qed.

End Inv.
