(** * Transition systems: model of src/TransitionSystem.{h,cc} and their executions. *)
From Verif Require Import Syntax Solver.

(** [TimeMachine::sendVarThroughTime] on structured variables
    (src/TermUtils.h:221-232; the string version is in Names.v).  The code asserts that the
    variable is versioned; unversioned variables are left unchanged here. *)
Definition shiftv (k : Z) (v : var) : var :=
  match vtag v with
  | TTime n => mkVar (vbase v) (TTime (n + k)) (vsort v)
  | _ => v
  end.

(** [TimeMachine::sendFlaThroughTime] (src/TermUtils.h:283-288). *)
Definition shift (k : Z) (t : term) : term := if Z.eqb k 0 then t else rename (shiftv k) t.

Lemma shiftv_sort k : sort_preserving (shiftv k).
Proof. intros [b t s]. unfold shiftv; simpl. destruct t; reflexivity. Qed.

Lemma shiftv_0 v : shiftv 0 v = v.
Proof. destruct v as [b [ |n|i| ] s]; unfold shiftv; simpl; auto. rewrite Z.add_0_r. reflexivity. Qed.

Lemma shiftv_shiftv a b v : shiftv a (shiftv b v) = shiftv (a + b) v.
Proof.
  destruct v as [x [ |n|i| ] s]; unfold shiftv; simpl; auto.
  f_equal. f_equal. lia.
Qed.

Lemma shiftv_inj k v w : shiftv k v = shiftv k w -> v = w.
Proof.
  intros H. rewrite <- (shiftv_0 v), <- (shiftv_0 w).
  replace 0 with (- k + k) by lia. rewrite <- !shiftv_shiftv, H. reflexivity.
Qed.

Lemma shift_rename k t : shift k t = rename (shiftv k) t.
Proof.
  unfold shift. destruct (Z.eqb_spec k 0); [subst|reflexivity].
  symmetry. apply rename_id. intros v _. apply shiftv_0.
Qed.

Lemma holds_shift k r t : holds r (shift k t) <-> holds (fun v => r (shiftv k v)) t.
Proof. rewrite shift_rename. apply holds_rename, shiftv_sort. Qed.

Lemma vars_shift k t : vars (shift k t) = map (shiftv k) (vars t).
Proof. rewrite shift_rename. apply vars_rename. Qed.

Lemma shift_shift a b t : shift a (shift b t) = shift (a + b) t.
Proof.
  rewrite !shift_rename, rename_rename. apply rename_ext. intros v _. apply shiftv_shiftv.
Qed.

Lemma shift_0 t : shift 0 t = t.
Proof. reflexivity. Qed.

(** [TransitionSystem] with its [SystemType] (src/TransitionSystem.h:17-80).
    [nextStateVars] is [map (shiftv 1) svars] (src/TransitionSystem.cc:63-64, 71-84). *)
Record tsys := mkTS {
  svars : list var;   (* stateVars *)
  avars : list var;   (* auxiliaryVars *)
  tinit : term;
  ttrans : term;
  tquery : term
}.

Definition nextvars (ts : tsys) : list var := map (shiftv 1) (svars ts).

Definition is_time0 (v : var) : bool := match vtag v with TTime 0 => true | _ => false end.

Definition subsetb (a b : list var) : bool := forallb (fun v => inb v b) a.

(** [SystemType::isStateFormula], [isTransitionFormula], [TransitionSystem::isWellFormed]
    (src/TransitionSystem.cc:17-40, 86-101), together with the facts that hold by
    construction: state and auxiliary variables are version-0 variables
    (src/TransitionSystem.cc:61-69) and are different variables. *)
Definition is_state_formula (ts : tsys) (f : term) : bool := subsetb (vars f) (svars ts ++ avars ts).
Definition is_transition_formula (ts : tsys) (f : term) : bool :=
  subsetb (vars f) (svars ts ++ nextvars ts ++ avars ts).
Definition ts_wf (ts : tsys) : bool :=
  is_state_formula ts (tinit ts) && is_state_formula ts (tquery ts)
  && is_transition_formula ts (ttrans ts)
  && forallb is_time0 (svars ts) && forallb is_time0 (avars ts)
  && forallb (fun v => negb (inb v (svars ts))) (avars ts).

(** No auxiliary variables in init and query (what
    [ensureNoAuxiliaryVariablesInInitAndQuery], src/engine/Common.cc:11-35, establishes). *)
Definition no_aux (ts : tsys) : bool :=
  subsetb (vars (tinit ts)) (svars ts) && subsetb (vars (tquery ts)) (svars ts).

(** ** Specification: executions of a transition system.
    A state assigns values to (version-0) state variables; auxiliary variables are
    existentially quantified in each formula separately. *)
Definition state := valuation.

Definition Init (ts : tsys) (s : state) : Prop :=
  exists r, agree_on (svars ts) r s /\ holds r (tinit ts).
Definition Bad (ts : tsys) (s : state) : Prop :=
  exists r, agree_on (svars ts) r s /\ holds r (tquery ts).
Definition Step (ts : tsys) (s s' : state) : Prop :=
  exists r, agree_on (svars ts) r s
            /\ (forall v, In v (svars ts) -> r (shiftv 1 v) = s' v)
            /\ holds r (ttrans ts).

Inductive Steps (ts : tsys) : nat -> state -> state -> Prop :=
| Steps_O s : Steps ts 0 s s
| Steps_S n s s' s'' : Step ts s s' -> Steps ts n s' s'' -> Steps ts (S n) s s''.

(** An error path of length [n]. *)
Definition error_path (ts : tsys) (n : nat) : Prop :=
  exists s s', Init ts s /\ Steps ts n s s' /\ Bad ts s'.

Definition safe (ts : tsys) : Prop := forall n, ~ error_path ts n.

(** A formula over the state variables as a set of states. *)
Definition state_formula (ts : tsys) (f : term) : Prop := forall v, In v (vars f) -> In v (svars ts).

(** Safe inductive invariant. *)
Record safe_inductive (ts : tsys) (inv : term) : Prop := {
  inv_state : state_formula ts inv;
  inv_init : forall s, Init ts s -> holds s inv;
  inv_step : forall s s', holds s inv -> Step ts s s' -> holds s' inv;
  inv_bad : forall s, holds s inv -> ~ Bad ts s
}.

Lemma Steps_app ts n m s s' s'' : Steps ts n s s' -> Steps ts m s' s'' -> Steps ts (n + m) s s''.
Proof. intros H H'. induction H as [|n s t u Hst Htu IH]; simpl; [exact H'|econstructor; eauto]. Qed.

Lemma Steps_1 ts s s' : Step ts s s' -> Steps ts 1 s s'.
Proof. intros H. econstructor; [exact H|constructor]. Qed.

Lemma Steps_snoc ts n s s' : Steps ts (S n) s s' <-> exists t, Steps ts n s t /\ Step ts t s'.
Proof.
  split.
  - revert s. induction n as [|n IH]; intros s H; inversion H as [|? ? t ? H1 H2]; subst.
    + inversion H2; subst. exists s. split; [constructor|exact H1].
    + destruct (IH _ H2) as [u [H3 H4]]. exists u. split; [econstructor; eauto|exact H4].
  - intros [t [H1 H2]]. replace (S n) with (n + 1)%nat by lia.
    eapply Steps_app; eauto using Steps_1.
Qed.

Lemma safe_inductive_safe ts inv : safe_inductive ts inv -> safe ts.
Proof.
  intros [_ H0 H1 H2] n [s [s' [Hi [Hs Hb]]]].
  assert (G : holds s' inv).
  { specialize (H0 s Hi). clear Hi Hb. induction Hs; eauto. }
  exact (H2 s' G Hb).
Qed.

(** ** Consequences of well-formedness *)
Section WF.
Variable ts : tsys.
Hypothesis wf : ts_wf ts = true.

Lemma subsetb_spec a b : subsetb a b = true <-> forall v, In v a -> In v b.
Proof.
  unfold subsetb. rewrite forallb_forall. split; intros H v Hv; specialize (H v Hv);
    apply inb_true; exact H.
Qed.

Lemma wf_init v : In v (vars (tinit ts)) -> In v (svars ts) \/ In v (avars ts).
Proof.
  unfold ts_wf in wf. rewrite !andb_true_iff in wf. intros Hv. apply in_app_or.
  destruct wf as [[[[[H _] _] _] _] _]. apply (proj1 (subsetb_spec _ _) H), Hv.
Qed.
Lemma wf_query v : In v (vars (tquery ts)) -> In v (svars ts) \/ In v (avars ts).
Proof.
  unfold ts_wf in wf. rewrite !andb_true_iff in wf. intros Hv. apply in_app_or.
  destruct wf as [[[[[_ H] _] _] _] _]. apply (proj1 (subsetb_spec _ _) H), Hv.
Qed.
Lemma wf_trans v : In v (vars (ttrans ts)) ->
  In v (svars ts) \/ (exists w, In w (svars ts) /\ v = shiftv 1 w) \/ In v (avars ts).
Proof.
  unfold ts_wf in wf. rewrite !andb_true_iff in wf. intros Hv.
  destruct wf as [[[[[_ _] H] _] _] _]. apply (proj1 (subsetb_spec _ _) H) in Hv.
  apply in_app_or in Hv as [Hv|Hv]; [auto|]. apply in_app_or in Hv as [Hv|Hv]; [|auto].
  unfold nextvars in Hv. apply in_map_iff in Hv as [w [<- Hw]]. right; left. eauto.
Qed.
Lemma wf_svars0 v : In v (svars ts) -> vtag v = TTime 0.
Proof.
  unfold ts_wf in wf. rewrite !andb_true_iff in wf. destruct wf as [[[[_ _] H] _] _].
  rewrite forallb_forall in H. intros Hv. apply H in Hv. unfold is_time0 in Hv.
  destruct (vtag v) as [ |[ | | ]| | ]; congruence.
Qed.
Lemma wf_avars0 v : In v (avars ts) -> vtag v = TTime 0.
Proof.
  unfold ts_wf in wf. rewrite !andb_true_iff in wf. destruct wf as [[[_ _] H] _].
  rewrite forallb_forall in H. intros Hv. apply H in Hv. unfold is_time0 in Hv.
  destruct (vtag v) as [ |[ | | ]| | ]; congruence.
Qed.
Lemma wf_disj v : In v (avars ts) -> ~ In v (svars ts).
Proof.
  unfold ts_wf in wf. rewrite !andb_true_iff in wf. destruct wf as [_ H].
  rewrite forallb_forall in H. intros Hv. apply H in Hv.
  apply negb_true_iff, inb_false in Hv. exact Hv.
Qed.
End WF.

Lemma no_aux_init ts : no_aux ts = true -> state_formula ts (tinit ts).
Proof.
  unfold no_aux. rewrite andb_true_iff. intros [H _] v. apply subsetb_spec, H.
Qed.
Lemma no_aux_query ts : no_aux ts = true -> state_formula ts (tquery ts).
Proof.
  unfold no_aux. rewrite andb_true_iff. intros [_ H] v. apply subsetb_spec, H.
Qed.

(** ** State formulas and gluing of assignments *)
Lemma state_formula_holds ts f r s :
  state_formula ts f -> agree_on (svars ts) r s -> (holds r f <-> holds s f).
Proof. intros Hf Ha. apply holds_agree. intros v Hv. apply Ha, Hf, Hv. Qed.

Lemma Init_holds ts s : no_aux ts = true -> (Init ts s <-> holds s (tinit ts)).
Proof.
  intros H. apply no_aux_init in H. split.
  - intros [r [Ha Hr]]. apply (state_formula_holds ts _ r s H Ha), Hr.
  - intros Hs. exists s. split; [intros v _; reflexivity|exact Hs].
Qed.
Lemma Bad_holds ts s : no_aux ts = true -> (Bad ts s <-> holds s (tquery ts)).
Proof.
  intros H. apply no_aux_query in H. split.
  - intros [r [Ha Hr]]. apply (state_formula_holds ts _ r s H Ha), Hr.
  - intros Hs. exists s. split; [intros v _; reflexivity|exact Hs].
Qed.

(** The state of an assignment at time [i]. *)
Definition at_time (i : Z) (r : valuation) : state := fun v => r (shiftv i v).

Lemma holds_shift_at i r t : holds r (shift i t) <-> holds (at_time i r) t.
Proof. apply holds_shift. Qed.

Lemma at_time_at_time i j r : forall v, at_time i (at_time j r) v = at_time (j + i) r v.
Proof. intros v. unfold at_time. rewrite shiftv_shiftv. reflexivity. Qed.

Lemma Step_of_assignment ts r i :
  holds r (shift i (ttrans ts)) -> Step ts (at_time i r) (at_time (i + 1) r).
Proof.
  intros H. apply holds_shift_at in H. exists (at_time i r). split; [|split].
  - intros v _. reflexivity.
  - intros v _. unfold at_time. rewrite shiftv_shiftv. reflexivity.
  - exact H.
Qed.

(** Glue a sequence of states [s] and a sequence of values of the auxiliary variables [a]
    into one assignment over all versions. *)
Definition glue (sv : list var) (s a : Z -> valuation) : valuation :=
  fun v => match vtag v with
           | TTime j => let v0 := shiftv (- j) v in
                        if inb v0 sv then s j v0 else a j v0
           | _ => a 0 v
           end.

Lemma glue_state sv s a i v :
  In v sv -> vtag v = TTime 0 -> glue sv s a (shiftv i v) = s i v.
Proof.
  intros Hv Ht. unfold glue. destruct v as [b t so]. simpl in Ht. subst t.
  unfold shiftv; simpl. rewrite Z.add_opp_diag_r.
  destruct (inb_spec (mkVar b (TTime 0) so) sv); [reflexivity|contradiction].
Qed.

Lemma glue_aux sv s a i v :
  ~ In v sv -> vtag v = TTime 0 -> glue sv s a (shiftv i v) = a i v.
Proof.
  intros Hv Ht. unfold glue. destruct v as [b t so]. simpl in Ht. subst t.
  unfold shiftv; simpl. rewrite Z.add_opp_diag_r.
  destruct (inb_spec (mkVar b (TTime 0) so) sv); [contradiction|reflexivity].
Qed.

Section Glue.
Variable ts : tsys.
Hypothesis wf : ts_wf ts = true.

Lemma glue_state_formula s a i f :
  state_formula ts f -> (holds (glue (svars ts) s a) (shift i f) <-> holds (s i) f).
Proof.
  intros Hf. rewrite holds_shift. apply holds_agree. intros v Hv.
  apply glue_state; [apply Hf, Hv|]. apply (wf_svars0 ts wf), Hf, Hv.
Qed.

Lemma glue_trans s a i :
  (exists r, agree_on (svars ts) r (s i)
        /\ (forall v, In v (svars ts) -> r (shiftv 1 v) = s (i + 1) v)
        /\ (forall v, In v (avars ts) -> r v = a i v)
        /\ holds r (ttrans ts)) ->
  holds (glue (svars ts) s a) (shift i (ttrans ts)).
Proof.
  intros [r [H0 [H1 [H2 H3]]]]. rewrite holds_shift.
  refine (proj1 (holds_agree r _ _ _) H3). intros v Hv.
  destruct (wf_trans ts wf v Hv) as [Hs|[[w [Hw ->]]|Ha]].
  - rewrite glue_state; [apply H0, Hs|exact Hs|apply (wf_svars0 ts wf), Hs].
  - rewrite shiftv_shiftv, (glue_state _ _ _ _ w Hw (wf_svars0 ts wf w Hw)). apply H1, Hw.
  - rewrite glue_aux; [apply H2, Ha|apply (wf_disj ts wf), Ha|apply (wf_avars0 ts wf), Ha].
Qed.

(** Every finite execution has an assignment over versioned variables.  [n] steps
    starting at time 0. *)
Lemma glue_steps n s s' :
  Steps ts n s s' ->
  exists sq aq, sq 0 = s /\ sq (Z.of_nat n) = s' /\
    (forall i, 0 <= i < Z.of_nat n -> Step ts (sq i) (sq (i + 1))) /\
    (forall i, 0 <= i < Z.of_nat n -> holds (glue (svars ts) sq aq) (shift i (ttrans ts))).
Proof.
  intros H.
  assert (G : exists sq : Z -> state, sq 0 = s /\ sq (Z.of_nat n) = s' /\
     (forall i, 0 <= i < Z.of_nat n -> Step ts (sq i) (sq (i + 1)))).
  { induction H as [s|n s t u Hst Htu IH].
    - exists (fun _ => s). repeat split; auto. intros i Hi. simpl in Hi. lia.
    - destruct IH as [sq [E0 [En Hs]]].
      exists (fun i => if Z.leb i 0 then s else sq (i - 1)). repeat split.
      + destruct (Z.leb_spec (Z.of_nat (S n)) 0); [lia|].
        rewrite <- En. f_equal. lia.
      + intros i Hi. destruct (Z.leb_spec i 0), (Z.leb_spec (i + 1) 0); try lia.
        * replace (i + 1 - 1) with 0 by lia. rewrite E0. exact Hst.
        * replace (i + 1 - 1) with ((i - 1) + 1) by lia. apply Hs. lia. }
  destruct G as [sq [E0 [En Hs]]].
  assert (A : exists aq : Z -> valuation, forall i, 0 <= i < Z.of_nat n ->
     exists r, agree_on (svars ts) r (sq i)
        /\ (forall v, In v (svars ts) -> r (shiftv 1 v) = sq (i + 1) v)
        /\ (forall v, In v (avars ts) -> r v = aq i v)
        /\ holds r (ttrans ts)).
  { assert (B : forall m, (m <= n)%nat -> exists aq : Z -> valuation, forall i, 0 <= i < Z.of_nat m ->
     exists r, agree_on (svars ts) r (sq i)
        /\ (forall v, In v (svars ts) -> r (shiftv 1 v) = sq (i + 1) v)
        /\ (forall v, In v (avars ts) -> r v = aq i v)
        /\ holds r (ttrans ts)).
    { induction m as [|m IHm]; intros Hm.
      - exists (fun _ => s). intros i Hi. simpl in Hi. lia.
      - destruct IHm as [aq Ha]; [lia|].
        destruct (Hs (Z.of_nat m)) as [r [R0 [R1 R2]]]; [lia|].
        exists (fun i => if Z.eqb i (Z.of_nat m) then r else aq i). intros i Hi.
        destruct (Z.eqb_spec i (Z.of_nat m)) as [E|E].
        + subst i. exists r. auto.
        + apply Ha. lia. }
    apply (B n). lia. }
  destruct A as [aq Ha]. exists sq, aq. repeat split; auto.
  intros i Hi. apply glue_trans, Ha, Hi.
Qed.

End Glue.

(** Conversely an assignment satisfying the shifted transitions is an execution. *)
Lemma steps_of_assignment ts r (n : nat) (i : Z) :
  (forall j, i <= j < i + Z.of_nat n -> holds r (shift j (ttrans ts))) ->
  Steps ts n (at_time i r) (at_time (i + Z.of_nat n) r).
Proof.
  revert i. induction n as [|n IH]; intros i H.
  - simpl. rewrite Z.add_0_r. constructor.
  - econstructor; [apply Step_of_assignment, H; lia|].
    replace (i + Z.of_nat (S n)) with (i + 1 + Z.of_nat n) by lia.
    apply IH. intros j Hj. apply H. lia.
Qed.

Lemma Init_at ts r i : holds r (shift i (tinit ts)) -> Init ts (at_time i r).
Proof.
  intros H. apply holds_shift_at in H. exists (at_time i r). split; [intros v _; reflexivity|exact H].
Qed.
Lemma Bad_at ts r i : holds r (shift i (tquery ts)) -> Bad ts (at_time i r).
Proof.
  intros H. apply holds_shift_at in H. exists (at_time i r). split; [intros v _; reflexivity|exact H].
Qed.
