(** * Properties C06, C07 (and C18 for IMC): interpolation-based and bounded model checking. *)
From Verif Require Import Syntax Solver TransSys TSLemmas KTo1Model KTo1Proofs2 KindModel BmcImcModel BmcImcProofs ExTac.
From Verif Require PropKind.

(** C06.  IMC: SAFE answers are sound and carry a safe inductive invariant (when witnesses are
    computed); UNSAFE n comes with an error path of length n.  The ghost flag [false] says the
    query "Init and Bad" was not answered UNKNOWN. *)
Theorem C06_imc_safe :
  forall check pitp itp ts cw fuel fuel_run inv,
    check_ok check -> pitp_ok pitp -> itp_ok itp -> ts_wf ts = true -> no_aux ts = true ->
    imc check pitp itp cw fuel fuel_run ts = (Safe inv, false) ->
    safe ts /\ (cw = true -> safe_inductive ts inv).
Proof. intros. eapply (imc_ok ts); eauto. Qed.
Print Assumptions C06_imc_safe.

Theorem C06_imc_unsafe :
  forall check pitp itp ts cw fuel fuel_run n u,
    check_ok check -> pitp_ok pitp -> itp_ok itp -> ts_wf ts = true -> no_aux ts = true ->
    imc check pitp itp cw fuel fuel_run ts = (Unsafe n, u) -> error_path ts n.
Proof. intros. eapply (imc_ok ts); eauto. Qed.
Print Assumptions C06_imc_unsafe.

(** C07.  BMC: UNSAFE k is real; without ignored UNKNOWN answers it is the shortest length. *)
Theorem C07_bmc_unsafe :
  forall check ts fuel k u,
    check_ok check -> ts_wf ts = true -> aux_sep ts = true ->
    bmc check fuel ts = (Unsafe k, u) ->
    error_path ts k /\ (u = false -> forall i, (i < k)%nat -> ~ error_path ts i).
Proof.
  intros check ts fuel k u Hc wf sep. unfold bmc.
  destruct (check [tinit ts]); try discriminate; intros H;
    apply (bmc_loop_spec ts wf sep check Hc) in H as [_ [_ [H1 H2]]];
    (split; [exact H1|intros Hu; apply H2; [exact Hu|intros; lia]]).
Qed.
Print Assumptions C07_bmc_unsafe.

(** Having explored unrollings 0 .. fuel-1 without an answer, no error path of these lengths exists. *)
Theorem C07_bmc_explored :
  forall check ts fuel,
    check_ok check -> ts_wf ts = true -> aux_sep ts = true ->
    bmc check fuel ts = (Fuel, false) -> forall i, (i < fuel)%nat -> ~ error_path ts i.
Proof.
  intros check ts fuel Hc wf sep. unfold bmc.
  destruct (check [tinit ts]); try discriminate; intros H i Hi;
    apply (bmc_loop_spec ts wf sep check Hc) in H as [_ H1]; apply H1; auto; intros; lia.
Qed.
Print Assumptions C07_bmc_explored.

(** BMC answers SAFE only when there is no initial state. *)
Theorem C07_bmc_safe :
  forall check ts fuel inv u,
    check_ok check -> ts_wf ts = true -> aux_sep ts = true ->
    bmc check fuel ts = (Safe inv, u) -> forall s, ~ Init ts s.
Proof.
  intros check ts fuel inv u Hc wf sep. unfold bmc.
  destruct (check [tinit ts]) eqn:E; intros H; try (apply (bmc_loop_spec ts wf sep check Hc) in H as [_ []]).
  intros s [r [_ Hr]]. apply (check_unsat _ Hc _ E r). constructor; [exact Hr|constructor].
Qed.
Print Assumptions C07_bmc_safe.

(** ** Non-vacuity *)
Module ExImc.
Import PropKind.ExKind.
Definition R2 := mkOr [tinit ts; Var b].
Definition bb0 : valuation := fun v => if String.eqb (vbase v) "b" then VBool false else
   match vtag v with TTime 0 => VBool true | _ => if String.eqb (vbase v) "c" then VBool false else VBool false end.
Definition bonly : valuation := fun v => if String.eqb (vbase v) "b" then VBool true else VBool false.
Definition aonly : valuation := fun v => if String.eqb (vbase v) "a" then VBool true else VBool false.
Definition j1 := shift (-1) (Var a').
Definition j2 := shift (-1) (Var b').
Definition Kf := mkAnd [mkOr [tinit ts; j2]; mkNot (tquery ts)].
Definition tbl : list (list term * answer) :=
  [ ([tinit ts; tquery ts], UNSAT);
    ([imc_suffix ts 1; ttrans ts; tinit ts], UNSAT);
    ([mkAnd [j1; mkNot (tinit ts)]], SAT aonly);
    ([imc_suffix ts 1; ttrans ts; j1], SAT bb0);
    ([imc_suffix ts 2; ttrans ts; tinit ts], UNSAT);
    ([mkAnd [j2; mkNot (tinit ts)]], SAT bonly);
    ([imc_suffix ts 2; ttrans ts; j2], UNSAT);
    ([mkAnd [j2; mkNot (mkOr [tinit ts; j2])]], UNSAT);
    ([mkOr [tinit ts; j2]; tquery ts], SAT bonly);
    (parts ts Kf 2, UNSAT) ].
Definition check := table_check tbl.
Definition itbl : list (list term * list term * term) :=
  [ ([ttrans ts; tinit ts], [imc_suffix ts 1], Var a');
    ([ttrans ts; tinit ts], [imc_suffix ts 2], Var b');
    ([ttrans ts; j2], [imc_suffix ts 2], Var b') ].
Definition itp := table_itp itbl.
Definition ptbl : list (list (list term) * list term) :=
  [ (map (fun p => [p]) (parts ts Kf 2),
     [shift 1 (mkAnd [Var a; Var b]); shift 2 (mkAnd [Var a; Var b])]) ].
Definition pitp := table_pitp ptbl.

Lemma check_good : check_ok check.
Proof. prove_table. Qed.
Lemma itp_good : itp_ok itp.
Proof.
  apply table_itp_ok. unfold itbl.
  repeat (apply Forall_cons; [prove_interpolant|]). constructor.
Qed.
Lemma pitp_good : pitp_ok pitp.
Proof.
  apply table_pitp_ok. constructor; [|constructor]. split; [prove_chain|].
  intros [|[|i]] J HJ v Hv; cbn in HJ; inversion HJ; subst; cbn in Hv.
  - destruct Hv as [<-|[<-|[]]]; split; apply inb_true; vm_compute; reflexivity.
  - destruct Hv as [<-|[<-|[]]]; split; apply inb_true; vm_compute; reflexivity.
  - destruct i; discriminate.
Qed.

Example C06_nonvacuous :
  check_ok check /\ pitp_ok pitp /\ itp_ok itp /\ ts_wf ts = true /\ no_aux ts = true /\
  exists inv, imc check pitp itp true 3 3 ts = (Safe inv, false).
Proof.
  split; [apply check_good|]. split; [apply pitp_good|]. split; [apply itp_good|].
  split; [reflexivity|]. split; [reflexivity|]. eexists. vm_compute. reflexivity.
Qed.

Definition check_u := table_check
  [ ([tinit ts2; tquery ts2], UNSAT); ([imc_suffix ts2 1; ttrans ts2; tinit ts2], SAT alt) ].
Example C06_unsafe_nonvacuous :
  check_ok check_u /\ imc check_u pitp itp true 3 3 ts2 = (Unsafe 1, false).
Proof. split; [prove_table|vm_compute; reflexivity]. Qed.

Example C07_nonvacuous :
  check_ok check2 /\ aux_sep ts2 = true /\ bmc check2 3 ts2 = (Unsafe 1, false).
Proof. split; [apply C02_nonvacuous|]. split; vm_compute; reflexivity. Qed.
End ExImc.

(** C18 (IMC): an UNKNOWN answer to "Init and Bad" leads to a wrong SAFE with lookahead 1. *)
Module ExImcUnknown.
Import PropKind.ExKindUnknown.
Definition check := table_check
  [ ([imc_suffix ts 1; ttrans ts; tinit ts], UNSAT);
    ([mkAnd [tt_false; mkNot (tinit ts)]], UNSAT);
    ([tinit ts; tquery ts], UNKNOWN) ].
Definition itp := table_itp [ ([ttrans ts; tinit ts], [imc_suffix ts 1], tt_false) ].
Lemma check_good : check_ok check.
Proof.
  apply table_check_ok. apply Forall_cons; [prove_unsat|]. apply Forall_cons; [prove_unsat|].
  apply Forall_cons; [exact Logic.I|constructor].
Qed.
Lemma itp_good : itp_ok itp.
Proof. apply table_itp_ok. apply Forall_cons; [prove_interpolant|constructor]. Qed.
End ExImcUnknown.

Theorem C18_imc_unknown_refuted :
  exists check pitp itp ts cw fuel fuel_run inv u,
    check_ok check /\ pitp_ok pitp /\ itp_ok itp /\ ts_wf ts = true /\ no_aux ts = true /\ cw = true /\
    imc check pitp itp cw fuel fuel_run ts = (Safe inv, u) /\ error_path ts 0.
Proof.
  exists ExImcUnknown.check, (fun _ => None), ExImcUnknown.itp, PropKind.ExKindUnknown.ts, true, 2%nat, 2%nat.
  exists (mkAnd [tt_true; mkNot (Var PropKind.ExKindUnknown.x)]), true.
  split; [apply ExImcUnknown.check_good|]. split; [apply pitp_none_ok|]. split; [apply ExImcUnknown.itp_good|].
  split; [reflexivity|]. split; [reflexivity|]. split; [reflexivity|]. split; [vm_compute; reflexivity|].
  exists PropKind.ExKindUnknown.tru, PropKind.ExKindUnknown.tru. split; [|split].
  - exists PropKind.ExKindUnknown.tru. split; [intros v _; reflexivity|reflexivity].
  - constructor.
  - exists PropKind.ExKindUnknown.tru. split; [intros v _; reflexivity|reflexivity].
Qed.
Print Assumptions C18_imc_unknown_refuted.
