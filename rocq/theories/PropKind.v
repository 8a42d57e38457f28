(** * Properties C01-C05: k-induction, k-inductive strengthening, reversal. *)
From Verif Require Import Syntax Solver TransSys TSLemmas KTo1Model KTo1Proofs KTo1Proofs2 KTo1Proofs3
  KindModel KindProofs ExTac.

(** C01.  SAFE (with or without witness production) is sound, provided no base query was
    answered UNKNOWN (the ghost flag is [false]). *)
Theorem C01_kind_safe :
  forall check pitp ts cw fuel inv,
    check_ok check -> pitp_ok pitp -> ts_wf ts = true -> no_aux ts = true ->
    kind check pitp cw fuel ts = (Safe inv, false) -> safe ts.
Proof. intros. eapply kind_safe_lemma; eauto. Qed.
Print Assumptions C01_kind_safe.

(** C02.  UNSAFE k comes with an error path of length k (0 is reported instead of the length
    when no witness is requested). *)
Theorem C02_kind_unsafe :
  forall check pitp ts cw fuel k u,
    check_ok check ->
    kind check pitp cw fuel ts = (Unsafe k, u) ->
    (cw = true -> error_path ts k) /\ exists m, error_path ts m.
Proof. intros. eapply kind_unsafe_lemma; eauto. Qed.
Print Assumptions C02_kind_unsafe.

(** C03.  The witness is a safe inductive invariant over the state variables. *)
Theorem C03_kind_witness :
  forall check pitp ts fuel inv,
    check_ok check -> pitp_ok pitp -> ts_wf ts = true -> no_aux ts = true ->
    kind check pitp true fuel ts = (Safe inv, false) -> safe_inductive ts inv.
Proof. intros. eapply kind_safe_lemma; eauto. Qed.
Print Assumptions C03_kind_witness.

(** C04.  The three conversions of a k-inductive invariant. *)
Theorem C04_single_query :
  forall check pitp ts K k J,
    check_ok check -> pitp_ok pitp -> ts_wf ts = true -> no_aux ts = true -> kinductive ts K k ->
    unfold_single_query check pitp K k ts = Ok J -> inductive_strengthening ts K J.
Proof. intros. eapply unfold_single_query_ok; eauto. eapply kind_state; eauto. Qed.
Print Assumptions C04_single_query.

(** The single-query mode only throws if the solver or the interpolator gives no answer. *)
Theorem C04_single_query_total :
  forall check pitp ts K k,
    check_ok check -> kinductive ts K k ->
    unfold_single_query check pitp K k ts = Throw ->
    check (parts ts K k) = UNKNOWN \/ pitp (map (fun p => [p]) (parts ts K k)) = None.
Proof. intros. eapply single_query_throw; eauto. Qed.
Print Assumptions C04_single_query_total.

Theorem C04_halving :
  forall check itp ts K k J,
    check_ok check -> itp_ok itp -> ts_wf ts = true -> no_aux ts = true -> kinductive ts K k ->
    unfold_halving check itp K k ts = Ok J -> inductive_strengthening ts K J.
Proof.
  intros check itp ts K k J Hc Hi wf na ki H. unfold unfold_halving in H.
  eapply (halving_loop_ok ts wf na); eauto.
  - exact (kind_state _ _ _ ki).
  - intros _. apply kinductive_RP, ki.
Qed.
Print Assumptions C04_halving.

(** With a solver and an interpolator that always answer, halving always succeeds. *)
Theorem C04_halving_total :
  forall check itp ts K k,
    check_ok check -> decisive check -> itp_ok itp ->
    (forall A B, unsat (A ++ B) -> itp A B <> None) ->
    ts_wf ts = true -> no_aux ts = true -> kinductive ts K k ->
    exists J, unfold_halving check itp K k ts = Ok J.
Proof.
  intros check itp ts K k Hc Hd Hi Ht wf na ki. unfold unfold_halving.
  apply (halving_loop_total ts wf na); auto.
  - exact (kind_state _ _ _ ki).
  - apply kinductive_RP, ki.
Qed.
Print Assumptions C04_halving_total.

Theorem C04_qe :
  forall qe ts K k J,
    qe_ok qe -> ts_wf ts = true -> kinductive ts K k -> (2 <= k)%nat ->
    kto1_qe qe K k ts = Ok J -> inductive_strengthening ts K J.
Proof. intros. eapply qe_ok_strength; eauto. Qed.
Print Assumptions C04_qe.

(** C05.  Reversal. *)
Theorem C05_reverse_steps :
  forall ts n s s', ts_wf ts = true -> (Steps (reverse_ts ts) n s s' <-> Steps ts n s' s).
Proof. intros. apply Steps_reverse; assumption. Qed.
Print Assumptions C05_reverse_steps.

Theorem C05_reverse_error_path :
  forall ts n, ts_wf ts = true -> (error_path (reverse_ts ts) n <-> error_path ts n).
Proof. intros. apply error_path_reverse; assumption. Qed.
Print Assumptions C05_reverse_error_path.

Theorem C05_reverse_wf : forall ts, ts_wf ts = true -> ts_wf (reverse_ts ts) = true.
Proof. exact reverse_wf. Qed.
Print Assumptions C05_reverse_wf.

Theorem C05_reverse_involutive :
  forall ts, ts_wf ts = true -> equiv (ttrans (reverse_ts (reverse_ts ts))) (ttrans ts).
Proof. intros ts wf r. apply reverse_reverse_equiv, wf. Qed.
Print Assumptions C05_reverse_involutive.

(** ** Non-vacuity: a system whose property is 2-inductive but not 1-inductive. *)
Module ExKind.
Definition a := mkVar "a" (TTime 0) SBool.
Definition b := mkVar "b" (TTime 0) SBool.
Definition c := mkVar "c" (TTime 0) SBool.
Definition a' := mkVar "a" (TTime 1) SBool.
Definition b' := mkVar "b" (TTime 1) SBool.
Definition c' := mkVar "c" (TTime 1) SBool.
Definition ts : tsys := {|
  svars := [a; b; c]; avars := [];
  tinit := mkAnd [Var a; Var b; Var c];
  ttrans := mkAnd [mkEq (Var a') (Var b); mkEq (Var b') (Var b); mkEq (Var c') (mkNot (Var c))];
  tquery := mkNot (Var a) |}.
Definition tru : valuation := fun _ => VBool true.
Definition fls : valuation := fun _ => VBool false.
(** c alternates with time *)
Definition alt : valuation := fun v =>
  if String.eqb (vbase v) "c" then match vtag v with TTime 0 => VBool true | _ => VBool false end else VBool true.
(** b0 false: a1 false *)
Definition m1 : valuation := fun v =>
  match vtag v with
  | TTime 0 => if String.eqb (vbase v) "a" then VBool false else if String.eqb (vbase v) "b" then VBool false else VBool false
  | _ => if String.eqb (vbase v) "a" then VBool true else if String.eqb (vbase v) "b" then VBool false else VBool true
  end.
Definition K := mkNot (tquery ts).
Definition tbl : list (list term * answer) :=
  [ ([tinit ts], SAT tru);
    (base_query ts 0, UNSAT); (fwd_query ts 0, SAT fls);
    (base_query ts 1, UNSAT); (fwd_query ts 1, SAT m1); (bwd_query ts 1, SAT alt);
    (base_query ts 2, UNSAT); (fwd_query ts 2, UNSAT);
    (parts ts K 2, UNSAT) ].
Definition check := table_check tbl.
Definition ptbl : list (list (list term) * list term) :=
  [ (map (fun p => [p]) (parts ts K 2),
     [shift 1 (mkEq (Var a) (Var b)); shift 2 (Var a)]) ].
Definition pitp := table_pitp ptbl.

Lemma check_good : check_ok check.
Proof.
  prove_table.
Qed.

Lemma pitp_good : pitp_ok pitp.
Proof.
  apply table_pitp_ok. constructor; [|constructor]. split.
  - prove_chain.
  - intros [|[|i]] J HJ v Hv; cbn in HJ; inversion HJ; subst; cbn in Hv.
    + destruct Hv as [<-|[<-|[]]]; split; apply inb_true; reflexivity.
    + destruct Hv as [<-|[]]; split; apply inb_true; reflexivity.
    + destruct i; discriminate.
Qed.

Example C01_C03_nonvacuous :
  check_ok check /\ pitp_ok pitp /\ ts_wf ts = true /\ no_aux ts = true /\
  exists inv, kind check pitp true 3 ts = (Safe inv, false) /\ inv <> tt_true /\ inv <> K.
Proof.
  split; [apply check_good|]. split; [apply pitp_good|]. split; [reflexivity|]. split; [reflexivity|].
  eexists. split; [vm_compute; reflexivity|]. split; discriminate.
Qed.

(** The property [a] of this system is 2-inductive (hypothesis of C04). *)
Example C04_nonvacuous : kinductive ts K 2.
Proof.
  apply fwd_kinductive; try reflexivity.
  - apply (check_unsat _ check_good). reflexivity.
  - intros i Hi. apply base_unsat; try reflexivity. apply (check_unsat _ check_good).
    destruct i as [|[|[|i]]]; try reflexivity. lia.
Qed.

(** An unsafe system: bad when [c] is false. *)
Definition ts2 : tsys := {| svars := svars ts; avars := []; tinit := tinit ts; ttrans := ttrans ts;
                            tquery := mkNot (Var c) |}.
Definition check2 := table_check
  [ ([tinit ts2], SAT tru); (base_query ts2 0, UNSAT); (base_query ts2 1, SAT alt) ].
Example C02_nonvacuous :
  check_ok check2 /\ kind check2 pitp true 3 ts2 = (Unsafe 1, false).
Proof.
  split; [|vm_compute; reflexivity]. prove_table.
Qed.
End ExKind.

(** C18 (KIND).  Without the condition on base queries SAFE is unsound: an UNKNOWN answer to the
    base query of length 0 is ignored, with witness production on. *)
Module ExKindUnknown.
Definition x := mkVar "x" (TTime 0) SBool.
Definition ts : tsys :=
  {| svars := [x]; avars := []; tinit := tt_true; ttrans := tt_false; tquery := Var x |}.
Definition tru : valuation := fun _ => VBool true.
Definition check := table_check
  [ ([tinit ts], SAT tru); (fwd_query ts 0, SAT tru); (bwd_query ts 0, SAT tru);
    (base_query ts 1, UNSAT); (fwd_query ts 1, UNSAT) ].
Lemma check_good : check_ok check.
Proof.
  prove_table.
Qed.
End ExKindUnknown.

Theorem C18_kind_unknown_refuted :
  exists check pitp ts fuel inv u,
    check_ok check /\ pitp_ok pitp /\ ts_wf ts = true /\ no_aux ts = true /\
    kind check pitp true fuel ts = (Safe inv, u) /\ error_path ts 0.
Proof.
  exists ExKindUnknown.check, (fun _ => None), ExKindUnknown.ts, 2%nat, (mkNot (Var ExKindUnknown.x)), true.
  split; [apply ExKindUnknown.check_good|]. split; [apply pitp_none_ok|].
  split; [reflexivity|]. split; [reflexivity|]. split; [vm_compute; reflexivity|].
  exists ExKindUnknown.tru, ExKindUnknown.tru. split; [|split].
  - exists ExKindUnknown.tru. split; [intros v _; reflexivity|reflexivity].
  - constructor.
  - exists ExKindUnknown.tru. split; [intros v _; reflexivity|reflexivity].
Qed.
Print Assumptions C18_kind_unknown_refuted.
