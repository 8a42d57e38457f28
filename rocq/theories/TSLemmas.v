(** * Facts about executions and their assignments used by the engine proofs. *)
From Verif Require Import Syntax Solver TransSys.

(** Formulas asserted for the transitions at times [i .. i+n-1]. *)
Definition trans_at (t : term) (i n : nat) : list term :=
  map (fun j => shift (Z.of_nat j) t) (seq i n).

Lemma Forall_trans_at r t i n :
  Forall (holds r) (trans_at t i n) <->
  (forall j, (i <= j < i + n)%nat -> holds r (shift (Z.of_nat j) t)).
Proof.
  unfold trans_at. rewrite Forall_forall. split.
  - intros H j Hj. apply H. apply in_map_iff. exists j. split; [reflexivity|]. apply in_seq. lia.
  - intros H x Hx. apply in_map_iff in Hx as [j [<- Hj]]. apply in_seq in Hj. apply H. lia.
Qed.

Section S.
Variable ts : tsys.
Hypothesis wf : ts_wf ts = true.

(** An execution given as a sequence of states, and any choice of the set of times at
    which steps are taken, has one assignment over the versioned variables. *)
Lemma glue_seq (n : nat) (sq : Z -> state) :
  (forall i, 0 <= i < Z.of_nat n -> Step ts (sq i) (sq (i + 1))) ->
  exists r,
    (forall i v, In v (svars ts) -> r (shiftv i v) = sq i v) /\
    (forall i, 0 <= i < Z.of_nat n -> holds r (shift i (ttrans ts))).
Proof.
  intros Hs.
  assert (B : forall m, (m <= n)%nat -> exists aq : Z -> valuation, forall i, 0 <= i < Z.of_nat m ->
     exists r, agree_on (svars ts) r (sq i)
        /\ (forall v, In v (svars ts) -> r (shiftv 1 v) = sq (i + 1) v)
        /\ (forall v, In v (avars ts) -> r v = aq i v)
        /\ holds r (ttrans ts)).
  { induction m as [|m IHm]; intros Hm.
    - exists (fun _ => sq 0). intros i Hi. simpl in Hi. lia.
    - destruct IHm as [aq Ha]; [lia|].
      destruct (Hs (Z.of_nat m)) as [r [R0 [R1 R2]]]; [lia|].
      exists (fun i => if Z.eqb i (Z.of_nat m) then r else aq i). intros i Hi.
      destruct (Z.eqb_spec i (Z.of_nat m)) as [E|E].
      + subst i. exists r. auto.
      + apply Ha. lia. }
  destruct (B n) as [aq Ha]; [lia|].
  exists (glue (svars ts) sq aq). split.
  - intros i v Hv. apply glue_state; [exact Hv|]. apply (wf_svars0 ts wf), Hv.
  - intros i Hi. apply (glue_trans ts wf), Ha, Hi.
Qed.

Lemma steps_seq (n : nat) s s' :
  Steps ts n s s' ->
  exists sq : Z -> state, sq 0 = s /\ sq (Z.of_nat n) = s' /\
    (forall i, 0 <= i < Z.of_nat n -> Step ts (sq i) (sq (i + 1))).
Proof.
  intros H. destruct (glue_steps ts wf n s s' H) as [sq [_ [H0 [H1 [H2 _]]]]]. eauto.
Qed.

Lemma seq_steps (sq : Z -> state) (n : nat) (i : Z) :
  (forall j, i <= j < i + Z.of_nat n -> Step ts (sq j) (sq (j + 1))) ->
  Steps ts n (sq i) (sq (i + Z.of_nat n)).
Proof.
  revert i. induction n as [|n IH]; intros i H.
  - simpl. rewrite Z.add_0_r. constructor.
  - econstructor; [apply H; lia|].
    replace (i + Z.of_nat (S n)) with (i + 1 + Z.of_nat n) by lia. apply IH. intros j Hj. apply H. lia.
Qed.

Lemma state_at r (sq : Z -> state) i f :
  state_formula ts f -> (forall i v, In v (svars ts) -> r (shiftv i v) = sq i v) ->
  (holds r (shift i f) <-> holds (sq i) f).
Proof.
  intros Hf Hr. rewrite holds_shift. apply holds_agree. intros v Hv. apply Hr, Hf, Hv.
Qed.

(** A step placed at times [i], [i+1]; all other versions of state variables have the
    value of [s] up to time [i] and of [s'] after. *)
Lemma glue_step_at i s s' :
  Step ts s s' ->
  exists r,
    (forall j v, j <= i -> In v (svars ts) -> r (shiftv j v) = s v) /\
    (forall j v, i < j -> In v (svars ts) -> r (shiftv j v) = s' v) /\
    holds r (shift i (ttrans ts)).
Proof.
  intros [r [H0 [H1 H2]]].
  pose (sq := fun j : Z => if Z.leb j i then s else s').
  exists (glue (svars ts) sq (fun _ => r)). split; [|split].
  - intros j v Hj Hv. rewrite glue_state; [|exact Hv|apply (wf_svars0 ts wf), Hv].
    unfold sq. destruct (Z.leb_spec j i); [reflexivity|lia].
  - intros j v Hj Hv. rewrite glue_state; [|exact Hv|apply (wf_svars0 ts wf), Hv].
    unfold sq. destruct (Z.leb_spec j i); [lia|reflexivity].
  - apply (glue_trans ts wf). exists r. unfold sq. repeat split.
    + intros v Hv. destruct (Z.leb_spec i i); [apply H0, Hv|lia].
    + intros v Hv. destruct (Z.leb_spec (i + 1) i); [lia|apply H1, Hv].
    + exact H2.
Qed.

Lemma state_formula_shift i f r s :
  state_formula ts f -> (forall v, In v (svars ts) -> r (shiftv i v) = s v) ->
  (holds r (shift i f) <-> holds s f).
Proof.
  intros Hf Hr. rewrite holds_shift. apply holds_agree. intros v Hv. apply Hr, Hf, Hv.
Qed.

(** Steps only depend on the values of state variables. *)
Lemma Step_agree s t s' t' :
  agree_on (svars ts) s t -> agree_on (svars ts) s' t' -> Step ts s s' -> Step ts t t'.
Proof.
  intros H H' [r [R0 [R1 R2]]]. exists r. repeat split; auto.
  - intros v Hv. rewrite R0; auto.
  - intros v Hv. rewrite R1; auto.
Qed.

Lemma Init_agree s t : agree_on (svars ts) s t -> Init ts s -> Init ts t.
Proof. intros H [r [R0 R1]]. exists r. split; [|exact R1]. intros v Hv. rewrite R0; auto. Qed.
Lemma Bad_agree s t : agree_on (svars ts) s t -> Bad ts s -> Bad ts t.
Proof. intros H [r [R0 R1]]. exists r. split; [|exact R1]. intros v Hv. rewrite R0; auto. Qed.

End S.

Lemma state_formula_not ts f : state_formula ts f -> state_formula ts (mkNot f).
Proof.
  intros H v Hv. unfold mkNot in Hv. rewrite in_vars_app in Hv.
  destruct Hv as [t [[<-|[]] Hv]]. apply H, Hv.
Qed.
Lemma state_formula_and ts l : (forall f, In f l -> state_formula ts f) -> state_formula ts (mkAnd l).
Proof.
  intros H v Hv. unfold mkAnd in Hv. rewrite in_vars_app in Hv.
  destruct Hv as [t [Ht Hv]]. apply (H t Ht), Hv.
Qed.
Lemma state_formula_or ts l : (forall f, In f l -> state_formula ts f) -> state_formula ts (mkOr l).
Proof.
  intros H v Hv. unfold mkOr in Hv. rewrite in_vars_app in Hv.
  destruct Hv as [t [Ht Hv]]. apply (H t Ht), Hv.
Qed.
Lemma state_formula_const ts c : state_formula ts (Const c).
Proof. intros v []. Qed.

Lemma vars_not f : vars (mkNot f) = vars f.
Proof. simpl. apply app_nil_r. Qed.

(** Variables of a shifted state formula. *)
Lemma vars_shift_state ts f i v :
  state_formula ts f -> In v (vars (shift i f)) -> exists w, In w (svars ts) /\ v = shiftv i w.
Proof.
  intros Hf Hv. rewrite vars_shift in Hv. apply in_map_iff in Hv as [w [<- Hw]]. eauto.
Qed.

(** A formula whose variables are versions [i] of state variables becomes a state formula
    after shifting back. *)
Lemma unshift_state ts f i :
  (forall v, In v (vars f) -> exists w, In w (svars ts) /\ v = shiftv i w) ->
  state_formula ts (shift (- i) f).
Proof.
  intros H v Hv. rewrite vars_shift in Hv. apply in_map_iff in Hv as [u [<- Hu]].
  destruct (H u Hu) as [w [Hw ->]]. rewrite shiftv_shiftv, Z.add_opp_diag_l, shiftv_0. exact Hw.
Qed.

Definition vtime (v : var) : Z := match vtag v with TTime n => n | _ => 0 end.

Lemma vtime_shift i v : vtag v = TTime 0 -> vtime (shiftv i v) = i.
Proof. intros H. unfold vtime, shiftv. rewrite H. simpl. lia. Qed.

Lemma shiftv_tag0 i v j w : vtag v = TTime 0 -> vtag w = TTime 0 -> shiftv i v = shiftv j w -> i = j /\ v = w.
Proof.
  intros Hv Hw E. assert (i = j).
  { rewrite <- (vtime_shift i v Hv), <- (vtime_shift j w Hw), E. reflexivity. }
  subst. split; [reflexivity|]. eapply shiftv_inj; eauto.
Qed.

(** Variables of the transition relation at time [i]. *)
Lemma vars_shift_trans ts (wf : ts_wf ts = true) i v :
  In v (vars (shift i (ttrans ts))) ->
  exists w, (In w (svars ts) /\ (v = shiftv i w \/ v = shiftv (i + 1) w)) \/ (In w (avars ts) /\ v = shiftv i w).
Proof.
  intros Hv. rewrite vars_shift in Hv. apply in_map_iff in Hv as [u [<- Hu]].
  destruct (wf_trans ts wf u Hu) as [H|[[w [Hw ->]]|H]].
  - exists u. auto.
  - exists w. left. split; [exact Hw|]. right. rewrite shiftv_shiftv. reflexivity.
  - exists u. auto.
Qed.

(** ** Cutting and pasting assignments at a time [j] *)
Definition cut (j : Z) (r1 r2 : valuation) : valuation :=
  fun v => if Z.ltb (vtime v) j then r1 v else r2 v.

Definition upto (ts : tsys) (j : Z) (f : term) : Prop :=
  forall v, In v (vars f) -> vtime v < j \/ exists w, In w (svars ts) /\ v = shiftv j w.
Definition from (j : Z) (f : term) : Prop := forall v, In v (vars f) -> j <= vtime v.

Section Cut.
Variable ts : tsys.
Hypothesis wf : ts_wf ts = true.

Lemma cut_left j r1 r2 f :
  upto ts j f -> (forall v, In v (svars ts) -> r1 (shiftv j v) = r2 (shiftv j v)) ->
  (holds (cut j r1 r2) f <-> holds r1 f).
Proof.
  intros Hf Ha. apply holds_agree. intros v Hv. unfold cut.
  destruct (Z.ltb_spec (vtime v) j) as [H|H]; [reflexivity|].
  destruct (Hf v Hv) as [H'|[w [Hw ->]]]; [lia|]. symmetry. apply Ha, Hw.
Qed.
Lemma cut_right j r1 r2 f : from j f -> (holds (cut j r1 r2) f <-> holds r2 f).
Proof.
  intros Hf. apply holds_agree. intros v Hv. unfold cut.
  destruct (Z.ltb_spec (vtime v) j) as [H|H]; [|reflexivity]. apply Hf in Hv. lia.
Qed.

Lemma cut_state_left i j r1 r2 v : In v (svars ts) -> i < j -> cut j r1 r2 (shiftv i v) = r1 (shiftv i v).
Proof.
  intros Hv H. unfold cut. rewrite vtime_shift by (apply (wf_svars0 ts wf), Hv).
  destruct (Z.ltb_spec i j); [reflexivity|lia].
Qed.
Lemma cut_state_right i j r1 r2 v : In v (svars ts) -> j <= i -> cut j r1 r2 (shiftv i v) = r2 (shiftv i v).
Proof.
  intros Hv H. unfold cut. rewrite vtime_shift by (apply (wf_svars0 ts wf), Hv).
  destruct (Z.ltb_spec i j); [lia|reflexivity].
Qed.

Lemma upto_state i j f : state_formula ts f -> i <= j -> upto ts j (shift i f).
Proof.
  intros Hf Hi v Hv. apply (vars_shift_state ts) in Hv; [|exact Hf]. destruct Hv as [w [Hw ->]].
  rewrite vtime_shift by (apply (wf_svars0 ts wf), Hw).
  destruct (Z.eq_dec i j) as [->|E]; [right; eauto|left; lia].
Qed.
Lemma from_state i j f : state_formula ts f -> j <= i -> from j (shift i f).
Proof.
  intros Hf Hi v Hv. apply (vars_shift_state ts) in Hv; [|exact Hf]. destruct Hv as [w [Hw ->]].
  rewrite vtime_shift by (apply (wf_svars0 ts wf), Hw). exact Hi.
Qed.
Lemma upto_trans i j : i < j -> upto ts j (shift i (ttrans ts)).
Proof.
  intros Hi v Hv. apply (vars_shift_trans ts wf) in Hv. destruct Hv as [w [[Hw [->| ->]]|[Hw ->]]].
  - left. rewrite vtime_shift; [exact Hi|apply (wf_svars0 ts wf), Hw].
  - destruct (Z.eq_dec (i + 1) j) as [E|E]; [right; exists w; rewrite E; auto|].
    left. rewrite vtime_shift; [lia|apply (wf_svars0 ts wf), Hw].
  - left. rewrite vtime_shift; [exact Hi|apply (wf_avars0 ts wf), Hw].
Qed.
Lemma from_trans i j : j <= i -> from j (shift i (ttrans ts)).
Proof.
  intros Hi v Hv. apply (vars_shift_trans ts wf) in Hv. destruct Hv as [w [[Hw [->| ->]]|[Hw ->]]].
  - rewrite vtime_shift; [exact Hi|apply (wf_svars0 ts wf), Hw].
  - rewrite vtime_shift; [lia|apply (wf_svars0 ts wf), Hw].
  - rewrite vtime_shift; [exact Hi|apply (wf_avars0 ts wf), Hw].
Qed.
Lemma upto_app g l j : (forall f, In f l -> upto ts j f) -> upto ts j (App g l).
Proof. intros H v Hv. rewrite in_vars_app in Hv. destruct Hv as [t [Ht Hv]]. exact (H t Ht v Hv). Qed.
Lemma from_app g l j : (forall f, In f l -> from j f) -> from j (App g l).
Proof. intros H v Hv. rewrite in_vars_app in Hv. destruct Hv as [t [Ht Hv]]. exact (H t Ht v Hv). Qed.
Lemma upto_const c j : upto ts j (Const c).
Proof. intros v []. Qed.
Lemma from_const c j : from j (Const c).
Proof. intros v []. Qed.
Lemma upto_le i j f : upto ts i f -> i <= j -> upto ts j f.
Proof.
  intros H Hij v Hv. destruct (H v Hv) as [H'|[w [Hw ->]]]; [left; lia|].
  destruct (Z.eq_dec i j) as [->|E]; [right; eauto|].
  left. rewrite vtime_shift by (apply (wf_svars0 ts wf), Hw). lia.
Qed.

(** A formula both up to [j] and from [j] only has state variables of version [j]. *)
Lemma upto_from_state j f g h :
  upto ts j f -> from j g -> (forall v, In v (vars h) -> In v (vars f) /\ In v (vars g)) ->
  state_formula ts (shift (- j) h).
Proof.
  intros Hf Hg Hh. apply unshift_state. intros v Hv. destruct (Hh v Hv) as [H1 H2].
  destruct (Hf v H1) as [H|H]; [|exact H]. apply Hg in H2. lia.
Qed.

(** Some assignment has a given state at every time. *)
Lemma const_assignment (s : state) : exists r : valuation, forall j v, In v (svars ts) -> r (shiftv j v) = s v.
Proof.
  exists (glue (svars ts) (fun _ => s) (fun _ => s)). intros j v Hv.
  apply glue_state; [exact Hv|apply (wf_svars0 ts wf), Hv].
Qed.
End Cut.
