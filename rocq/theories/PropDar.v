(** * Property C08 (and C18 for DAR): dual approximated reachability. *)
From Verif Require Import Syntax Solver TransSys TSLemmas KTo1Model KindModel DarModel DarProofs ExTac.
From Verif Require PropKind.

(** C08.  SAFE carries a safe inductive invariant. *)
Theorem C08_dar_safe :
  forall check itp pitp ts fuel inv,
    check_ok check -> itp_ok itp -> pitp_ok pitp -> ts_wf ts = true -> no_aux ts = true ->
    dar check itp pitp ts fuel = (Safe inv, false) ->
    safe ts /\ safe_inductive ts inv.
Proof.
  intros check itp pitp ts fuel inv Hc Hi Hp wf na E.
  pose proof (dar_ok ts wf na check itp pitp Hc Hi Hp fuel) as H. rewrite E in H.
  split; [eapply safe_inductive_safe; eauto|exact H].
Qed.
Print Assumptions C08_dar_safe.

(** C08.  UNSAFE n comes with an error path of length n. *)
Theorem C08_dar_unsafe :
  forall check itp pitp ts fuel n,
    check_ok check -> itp_ok itp -> pitp_ok pitp -> ts_wf ts = true -> no_aux ts = true ->
    dar check itp pitp ts fuel = (Unsafe n, false) -> error_path ts n.
Proof.
  intros check itp pitp ts fuel n Hc Hi Hp wf na E.
  pose proof (dar_ok ts wf na check itp pitp Hc Hi Hp fuel) as H. rewrite E in H. exact H.
Qed.
Print Assumptions C08_dar_unsafe.

(** With a solver that always answers the ghost flag is never set, so the two theorems above
    cover every answer. *)
Lemma global_loop_decisive check itp pitp ts : decisive check -> forall cnt i n F B u,
  match global_loop check itp pitp ts cnt i n F B u with
  | GFailed u' => u' = false \/ (cnt = 0%nat /\ u' = u)
  | _ => True
  end.
Proof.
  intros D. induction cnt as [|cnt IH]; intros i n F B u; simpl; [auto|].
  pose proof (D (global_query ts n i B)) as Dq.
  destruct (check (global_query ts n i B)) as [m| |]; [| |congruence].
  - specialize (IH (S i) n F B false). simpl. destruct (global_loop _ _ _ _ _ _ _ _ _ _); auto.
    destruct IH as [IH|[_ IH]]; auto.
  - destruct (pitp _); [|exact Logic.I].
    destruct (local_strengthening _ _ _ _ _ _ _) as [[? ?]|]; exact Logic.I.
Qed.

Lemma dar_loop_decisive check itp pitp ts : decisive check -> forall fuel n F B, (1 <= n)%nat ->
  snd (dar_loop check itp pitp ts fuel n F B) = false.
Proof.
  intros D. induction fuel as [|fuel IH]; intros n F B Hn; simpl; [reflexivity|].
  destruct (local_index _ _ _ _ _).
  - destruct (local_strengthening _ _ _ _ _ _ _) as [[F' B']|]; [|reflexivity].
    destruct (fixpoint _ _ _); [reflexivity|]. apply IH. lia.
  - destruct n as [|n']; [lia|]. unfold global_strengthen.
    pose proof (global_loop_decisive check itp pitp ts D (S n') 2 (S n') F B true) as G.
    destruct (global_loop _ _ _ _ _ _ _ _ _ _) as [F' B'|u|]; simpl.
    + destruct (fixpoint _ _ _); [reflexivity|]. apply IH. lia.
    + destruct G as [G|[G _]]; [exact G|discriminate].
    + reflexivity.
Qed.

Theorem C18_dar_decisive :
  forall check itp pitp ts fuel, decisive check -> snd (dar check itp pitp ts fuel) = false.
Proof.
  intros check itp pitp ts fuel D. unfold dar.
  pose proof (D [tinit ts; tquery ts]) as D0.
  assert (R : snd (dar_run check itp pitp ts fuel) = false).
  { unfold dar_run. destruct (check [tinit ts; ttrans ts; shift 1 (tquery ts)]); try reflexivity.
    destruct (itp [tinit ts; ttrans ts] [shift 1 (tquery ts)]); [|reflexivity].
    destruct (itp [ttrans ts; shift 1 (tquery ts)] [tinit ts]); [|reflexivity].
    apply dar_loop_decisive; auto. }
  destruct (check [tinit ts; tquery ts]); [reflexivity| |congruence];
  destruct (dar_run check itp pitp ts fuel) as [v u]; exact R.
Qed.
Print Assumptions C18_dar_decisive.

(** ** Non-vacuity *)
Module ExDar.
Import PropKind.ExKind.
Definition nb := mkNot (Var b).
Definition F1 := mkAnd [shift (-1) (Var a'); shift (-1) (Var b')].
Definition B1 := mkAnd [nb; nb].
Definition tbl : list (list term * answer) :=
  [ ([tinit ts; tquery ts], UNSAT);
    ([tinit ts; ttrans ts; shift 1 (tquery ts)], UNSAT);
    (global_query ts 1 2 [tquery ts; nb], UNSAT);
    (pair_query ts F1 (tquery ts), UNSAT);
    (pair_query ts (tinit ts) B1, UNSAT);
    ([mkAnd [nb; mkNot (mkOr [tquery ts; B1])]], UNSAT) ].
Definition check := table_check tbl.
Definition itbl : list (list term * list term * term) :=
  [ ([tinit ts; ttrans ts], [shift 1 (tquery ts)], Var a');
    ([ttrans ts; shift 1 (tquery ts)], [tinit ts], nb);
    ([F1; ttrans ts], [shift 1 (tquery ts)], Var a');
    ([ttrans ts; shift 1 (tquery ts)], [F1], nb);
    ([ttrans ts; shift 1 B1], [tinit ts], nb) ].
Definition itp := table_itp itbl.
Definition ptbl : list (list (list term) * list term) := [ (global_parts ts 1 2 [tquery ts; nb], [Var b']) ].
Definition pitp := table_pitp ptbl.
Lemma check_good : check_ok check.
Proof. prove_table. Qed.
Lemma itp_good : itp_ok itp.
Proof.
  apply table_itp_ok. unfold itbl.
  repeat (apply Forall_cons; [prove_interpolant|]). constructor.
Qed.
Lemma pitp_good : pitp_ok pitp.
Proof.
  apply table_pitp_ok. constructor; [|constructor]. split; [prove_chain|].
  intros [|[|i]] J HJ v Hv; cbn in HJ; inversion HJ; subst; cbn in Hv.
  destruct Hv as [<-|[]]; split; apply inb_true; vm_compute; reflexivity.
Qed.
Example C08_nonvacuous :
  check_ok check /\ itp_ok itp /\ pitp_ok pitp /\ ts_wf ts = true /\ no_aux ts = true /\
  exists inv, dar check itp pitp ts 3 = (Safe inv, false) /\ inv <> mkNot (tquery ts).
Proof.
  split; [apply check_good|]. split; [apply itp_good|]. split; [apply pitp_good|].
  split; [reflexivity|]. split; [reflexivity|]. eexists. split; [vm_compute; reflexivity|discriminate].
Qed.

(** An unsafe system: [a] becomes false in the second step. *)
Definition ts3 : tsys := {| svars := svars ts; avars := [];
  tinit := tinit ts;
  ttrans := mkAnd [mkEq (Var a') (Var b); mkEq (Var b') (Var c); mkEq (Var c') (mkNot (Var c))];
  tquery := mkNot (Var b) |}.
Definition m3 : valuation := fun v =>
  match vtag v with
  | TTime 0 => VBool true
  | TTime 1 => if String.eqb (vbase v) "c" then VBool false else VBool true
  | _ => if String.eqb (vbase v) "b" then VBool false else VBool true
  end.
Definition check3 := table_check
  [ ([tinit ts3; tquery ts3], UNSAT);
    ([tinit ts3; ttrans ts3; shift 1 (tquery ts3)], UNSAT);
    (global_query ts3 1 2 [tquery ts3; mkNot (Var c)], SAT m3) ].
Definition itp3 := table_itp
  [ ([tinit ts3; ttrans ts3], [shift 1 (tquery ts3)], Var b');
    ([ttrans ts3; shift 1 (tquery ts3)], [tinit ts3], mkNot (Var c)) ].
Example C08_unsafe_nonvacuous :
  check_ok check3 /\ itp_ok itp3 /\ ts_wf ts3 = true /\ no_aux ts3 = true /\
  dar check3 itp3 pitp ts3 3 = (Unsafe 2, false).
Proof.
  split; [prove_table|]. split; [|split; [reflexivity|split; [reflexivity|vm_compute; reflexivity]]].
  apply table_itp_ok. repeat (apply Forall_cons; [prove_interpolant|]). constructor.
Qed.
End ExDar.

(** C18 (DAR): the loop of globalStrengthen treats UNKNOWN like SAT, so a safe system is
    reported UNSAFE when the solver does not decide the unrolled queries. *)
Module ExDarUnknown.
Definition x := mkVar "x" (TTime 0) SBool.
Definition x' := mkVar "x" (TTime 1) SBool.
Definition ts : tsys :=
  {| svars := [x]; avars := []; tinit := Var x; ttrans := mkEq (Var x') (Var x); tquery := mkNot (Var x) |}.
Definition check := table_check
  [ ([tinit ts; tquery ts], UNSAT); ([tinit ts; ttrans ts; shift 1 (tquery ts)], UNSAT) ].
Definition itp := table_itp
  [ ([tinit ts; ttrans ts], [shift 1 (tquery ts)], Var x');
    ([ttrans ts; shift 1 (tquery ts)], [tinit ts], mkNot (Var x)) ].
Lemma check_good : check_ok check.
Proof. prove_table. Qed.
Lemma itp_good : itp_ok itp.
Proof. apply table_itp_ok. repeat (apply Forall_cons; [prove_interpolant|]). constructor. Qed.
Lemma ts_safe : safe_inductive ts (Var x).
Proof.
  split.
  - intros v [<-|[]]; simpl; auto.
  - intros s [r [Ha Hr]]. apply (holds_agree r s); [|exact Hr]. intros v [<-|[]]. apply Ha. simpl; auto.
  - intros s s' Hs [r [R0 [R1 R2]]]. change (holds s' (Var x)). unfold holds, holdsb in *. simpl in *.
    pose proof (R0 x (or_introl eq_refl)) as E0. pose proof (R1 x (or_introl eq_refl)) as E1.
    change (shiftv 1 x) with x' in E1. rewrite E0, E1 in R2.
    destruct (coerce_SBool (s x)) as [p Ep]. destruct (coerce_SBool (s' x)) as [q Eq].
    rewrite Ep, Eq in *. simpl in *. subst p. destruct q; [reflexivity|discriminate].
  - intros s Hs [r [R0 R2]]. apply holds_not in R2. apply R2.
    apply (holds_agree r s); [|exact Hs]. intros v [<-|[]]. apply R0. simpl; auto.
Qed.
End ExDarUnknown.

Theorem C18_dar_unknown_refuted :
  exists check itp pitp ts fuel n u,
    check_ok check /\ itp_ok itp /\ pitp_ok pitp /\ ts_wf ts = true /\ no_aux ts = true /\
    dar check itp pitp ts fuel = (Unsafe n, u) /\ safe ts.
Proof.
  exists ExDarUnknown.check, ExDarUnknown.itp, (fun _ => None), ExDarUnknown.ts, 2%nat, 2%nat, true.
  split; [apply ExDarUnknown.check_good|]. split; [apply ExDarUnknown.itp_good|].
  split; [apply pitp_none_ok|]. split; [reflexivity|]. split; [reflexivity|].
  split; [vm_compute; reflexivity|]. eapply safe_inductive_safe, ExDarUnknown.ts_safe.
Qed.
Print Assumptions C18_dar_unknown_refuted.
