(** * Property C09 (and C18 for PD-kind): property-directed k-induction. *)
From Verif Require Import Syntax Solver TransSys TSLemmas KTo1Model KindModel PdkModel PdkProofs ExTac.
From Verif Require PropKind.

Section C09.
Variable c : ctors.
Variable check : check_fn.
Variable itp : itp_fn.
Variable pitp : pitp_fn.
Variable mbp : mbp_fn.
Variable order : list elem -> list elem.
Variable ts : tsys.
Hypothesis Hctors : ctors_ok c.
Hypothesis Hc : check_ok check.
Hypothesis Hi : itp_ok itp.
Hypothesis Hm : mbp_ok mbp.
Hypothesis Ho : order_ok order.
Hypothesis wf : ts_wf ts = true.
Hypothesis Hq : state_formula ts (tquery ts).

(** C09.  SAFE: the query is unreachable, provided that neither the initial query nor a query for the context of an
    obligation was answered UNKNOWN (the ghost flag is [false]). *)
Theorem C09_pdkind_safe : forall cw fuel inv,
  pdkind c check itp pitp mbp order cw ts fuel = (Safe inv, false) -> safe ts.
Proof. intros cw fuel inv E. apply (pdkind_ok c check itp pitp mbp order ts Hctors Hc Hi Hm Ho wf Hq cw fuel _ _ E). reflexivity. Qed.

(** C09.  UNSAFE k: there is an error path of length k, whatever the solver did. *)
Theorem C09_pdkind_unsafe : forall cw fuel k u,
  pdkind c check itp pitp mbp order cw ts fuel = (Unsafe k, u) -> error_path ts k.
Proof. intros cw fuel k u E. apply (pdkind_ok c check itp pitp mbp order ts Hctors Hc Hi Hm Ho wf Hq cw fuel _ _ E). reflexivity. Qed.

(** C09.  The witness is a safe inductive invariant (for systems without auxiliary variables). *)
Theorem C09_pdkind_witness : forall fuel inv,
  pitp_ok pitp -> no_aux ts = true ->
  pdkind c check itp pitp mbp order true ts fuel = (Safe inv, false) -> safe_inductive ts inv.
Proof.
  intros fuel inv Hp na E. apply (pdkind_ok c check itp pitp mbp order ts Hctors Hc Hi Hm Ho wf Hq true fuel _ _ E); auto.
Qed.

(** C09.  An exception means that a service gave no answer: the solver answered UNKNOWN, an interpolant of an
    unsatisfiable pair or a projection of a satisfied formula was refused, or path interpolants were. *)
Theorem C09_pdkind_throws : forall cw fuel,
  pdkind c check itp pitp mbp order cw ts fuel = (Exn, false) ->
  (exists q, check q = UNKNOWN) \/ (exists A B, unsat (A ++ B) /\ itp A B = None) \/
  (exists f l m, holds m f /\ mbp f l m = None) \/ (exists As, pitp As = None).
Proof.
  intros cw fuel E. pose proof (pdkind_ok c check itp pitp mbp order ts Hctors Hc Hi Hm Ho wf Hq cw fuel _ _ E) as [_ H].
  destruct (H eq_refl) as [[X|[X|X]]|X]; eauto.
Qed.
End C09.
Print Assumptions C09_pdkind_safe.
Print Assumptions C09_pdkind_unsafe.
Print Assumptions C09_pdkind_witness.
Print Assumptions C09_pdkind_throws.

(** The plain constructors meet the specification. *)
Definition plain : ctors := mkCtors mkAnd mkOr mkNot.
Lemma plain_ok : ctors_ok plain.
Proof.
  split; cbn [plain cand cor cnot].
  - intros r l. apply holds_and.
  - intros l v H. apply in_vars_app in H; exact H.
  - intros r l. apply holds_or.
  - intros l v H. apply in_vars_app in H; exact H.
  - intros r t. apply holds_not.
  - intros t v H. cbn in H. rewrite app_nil_r in H. exact H.
Qed.

(** ** Non-vacuity: the property [a] of the example system needs the lemma [b]. *)
Module ExPdk.
Import PropKind.ExKind.
Definition q := tquery ts.
Definition F1 := [mkElem (mkNot q) q 0].
Definition g := mkNot (Var b).
Definition F2 := F1 ++ [mkElem (Var b) g 1].
Definition id_order (l : list elem) := l.
Definition kt := ktransition plain ts 1.
Definition r1 := restriction plain id_order F1 1.
Definition r2 := restriction plain id_order F2 1.
Definition m1' : valuation := fun v =>
  match vtag v with TTime 0 => if String.eqb (vbase v) "a" then VBool true else VBool false | _ => if String.eqb (vbase v) "c" then VBool true else VBool false end.
Definition check := table_check
  [ ([tinit ts], SAT tru); ([tinit ts; q], UNSAT);
    ([kt; r1; shift 1 (mkNot (mkNot q))], SAT m1');
    ([kt; r1; shift 1 q], SAT m1');
    ([tinit ts; g], UNSAT);
    ([kt; r2; shift 1 (mkNot (Var b))], UNSAT);
    ([kt; r2; shift 1 (mkNot (mkNot q))], UNSAT) ].
Lemma check_good : check_ok check.
Proof. prove_table. Qed.
Definition itp := table_itp [ ([tinit ts], [g], Var b) ].
Lemma itp_good : itp_ok itp.
Proof. apply table_itp_ok. constructor; [prove_interpolant|constructor]. Qed.
Definition mf := mkAnd [kt; shift 1 q].
Definition mbp : mbp_fn := fun f keep m => if term_eqb f mf then if list_eq_dec var_dec keep (svars ts) then Some g else None else None.
(** A state without [b] steps to one without [a]. *)
Definition upd (r : valuation) : valuation := fun v =>
  match vtag v with TTime 1 => if String.eqb (vbase v) "c" then VBool (negb (holdsb r (Var c))) else VBool false | _ => r v end.
Lemma mbp_good : mbp_ok mbp.
Proof.
  intros f keep m g0 E Hm. unfold mbp in E. destruct (term_eqb_spec f mf) as [->|]; [|discriminate].
  destruct (list_eq_dec var_dec keep (svars ts)) as [->|]; [|discriminate]. injection E as <-. split.
  - intros v Hv. cbn in Hv. destruct Hv as [<-|[]]. apply inb_true; reflexivity.
  - intros _. let t := eval vm_compute in mf in change (holds m t) in Hm. let t := eval vm_compute in g in change (holds m t).
    ev.
  - intros r Hr. exists (upd r). split.
    + intros v [<-|[<-|[<-|[]]]]; reflexivity.
    + let t := eval vm_compute in mf in change (holds (upd r) t). let t := eval vm_compute in g in change (holds r t) in Hr.
      unfold holds, holdsb, upd in *. cbn in *. repeat match goal with |- context [coerce SBool (VBool ?x)] => change (coerce SBool (VBool x)) with (VBool x) end. unfold holdsb, c in *. cbn in *. clear Hm. ev.
Qed.
Example C09_nonvacuous :
  ctors_ok plain /\ check_ok check /\ itp_ok itp /\ mbp_ok mbp /\ order_ok id_order /\ ts_wf ts = true /\
  state_formula ts (tquery ts) /\ no_aux ts = true /\
  exists inv, pdkind plain check itp (fun _ => None) mbp id_order true ts 5 = (Safe inv, false) /\ inv <> tt_true /\ inv <> mkNot q.
Proof.
  split; [apply plain_ok|]. split; [apply check_good|]. split; [apply itp_good|]. split; [apply mbp_good|].
  split; [intros l e; reflexivity|]. split; [reflexivity|]. split; [intros v Hv; cbn in Hv; destruct Hv as [<-|[]]; apply inb_true; reflexivity|].
  split; [reflexivity|]. eexists. split; [vm_compute; reflexivity|]. split; discriminate.
Qed.
End ExPdk.

(** C18 (PD-kind).  An UNKNOWN answer to the query for a bad initial state is ignored: the answer SAFE is then wrong. *)
Module ExPdkUnknown.
Definition x := mkVar "x" (TTime 0) SBool.
Definition ts : tsys := {| svars := [x]; avars := []; tinit := tt_true; ttrans := tt_false; tquery := Var x |}.
Definition tru : valuation := fun _ => VBool true.
Definition F1 := [mkElem (mkNot (Var x)) (Var x) 0].
Definition check := table_check
  [ ([tinit ts], SAT tru);
    ([ktransition plain ts 1; restriction plain (fun l => l) F1 1; shift 1 (mkNot (mkNot (Var x)))], UNSAT) ].
Lemma check_good : check_ok check.
Proof. prove_table. Qed.
End ExPdkUnknown.
Theorem C18_pdkind_unknown_refuted :
  exists check itp pitp mbp order ts fuel inv u,
    check_ok check /\ itp_ok itp /\ pitp_ok pitp /\ mbp_ok mbp /\ order_ok order /\ ts_wf ts = true /\ no_aux ts = true /\
    state_formula ts (tquery ts) /\
    pdkind plain check itp pitp mbp order true ts fuel = (Safe inv, u) /\ error_path ts 0.
Proof.
  exists ExPdkUnknown.check, (fun _ _ => None), (fun _ => None), (fun _ _ _ => None), (fun l => l), ExPdkUnknown.ts, 3%nat.
  eexists. exists true. split; [apply ExPdkUnknown.check_good|]. split; [apply itp_none_ok|]. split; [apply pitp_none_ok|].
  split; [intros f k m g E; discriminate|]. split; [intros l e; reflexivity|].
  split; [reflexivity|]. split; [reflexivity|]. split; [intros v Hv; cbn in Hv; destruct Hv as [<-|[]]; apply inb_true; reflexivity|].
  split; [vm_compute; reflexivity|].
  exists ExPdkUnknown.tru, ExPdkUnknown.tru. split; [|split].
  - exists ExPdkUnknown.tru. split; [intros v _; reflexivity|reflexivity].
  - constructor.
  - exists ExPdkUnknown.tru. split; [intros v _; reflexivity|reflexivity].
Qed.
Print Assumptions C18_pdkind_unknown_refuted.
