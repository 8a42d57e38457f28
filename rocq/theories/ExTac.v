(** * Tactics for concrete examples: deciding small ground queries semantically. *)
From Coq Require Import ZifyBool.
From Verif Require Import Syntax Solver TransSys.

Lemma coerce_SBool x : exists b, coerce SBool x = VBool b.
Proof.
  pose proof (coerce_sort SBool x) as H. destruct (coerce SBool x); try discriminate. eauto.
Qed.
Lemma coerce_SInt x : exists z, coerce SInt x = VInt z.
Proof.
  pose proof (coerce_sort SInt x) as H. destruct (coerce SInt x); try discriminate. eauto.
Qed.

Global Arguments coerce : simpl never.

Ltac ev_step :=
  match goal with
  | H : context [coerce SBool ?x] |- _ =>
      let b := fresh "b" in let E := fresh in
      destruct (coerce_SBool x) as [b E]; rewrite ?E in *; clear E; destruct b
  | H : context [coerce SInt ?x] |- _ =>
      let b := fresh "z" in let E := fresh in
      destruct (coerce_SInt x) as [b E]; rewrite ?E in *; clear E
  | |- context [coerce SBool ?x] =>
      let b := fresh "b" in let E := fresh in
      destruct (coerce_SBool x) as [b E]; rewrite ?E in *; clear E; destruct b
  | |- context [coerce SInt ?x] =>
      let b := fresh "z" in let E := fresh in
      destruct (coerce_SInt x) as [b E]; rewrite ?E in *; clear E
  end.
Ltac ev := unfold holds, holdsb in *; cbn in *;
  repeat (ev_step; cbn in *; try discriminate); try reflexivity; try lia.

Ltac split_forall :=
  repeat match goal with
  | H : Forall _ (_ :: _) |- _ => let H1 := fresh "F" in apply Forall_cons_iff in H as [H1 H]
  | H : Forall _ [] |- _ => clear H
  end.
Ltac prove_unsat := let r := fresh "r" in let H := fresh "H" in
  match goal with
  | |- good_answer (?l, UNSAT) => let l' := eval vm_compute in l in change (unsat l')
  | |- unsat ?l => let l' := eval vm_compute in l in change (unsat l')
  end;
  intros r H; split_forall; ev.
Ltac prove_sat :=
  match goal with
  | |- good_answer (?l, SAT ?m) => let l' := eval vm_compute in l in change (Forall (holds m) l')
  | |- Forall (holds ?m) ?l => let l' := eval vm_compute in l in change (Forall (holds m) l')
  end; repeat constructor; vm_compute; reflexivity.
Ltac prove_table :=
  apply table_check_ok;
  match goal with |- Forall good_answer ?t => try unfold t end;
  repeat (apply Forall_cons; [first [solve [prove_unsat] | solve [prove_sat]]|]); apply Forall_nil.
Ltac norm_chain :=
  match goal with
  | |- itp_chain ?a ?b ?c =>
    let a' := eval vm_compute in a in let b' := eval vm_compute in b in let c' := eval vm_compute in c in
    change (itp_chain a' b' c')
  end.
Ltac prove_chain :=
  norm_chain;
  repeat (first [ apply chain_cons; [let r := fresh "r" in let H0 := fresh "H" in let H := fresh "H" in
                    intros r H0 H; split_forall; ev|]
                | apply chain_last; let r := fresh "r" in let H0 := fresh "H" in let H := fresh "H" in
                    intros r H0 H; split_forall; ev ]).
Ltac prove_interpolant :=
  match goal with
  | |- interpolant (fst (fst ?e)) (snd (fst ?e)) (snd ?e) => 
      let e' := eval vm_compute in e in
      match e' with (?a, ?b, ?c) => change (interpolant a b c) end
  | |- interpolant ?a ?b ?c => 
      let a' := eval vm_compute in a in let b' := eval vm_compute in b in let c' := eval vm_compute in c in
      change (interpolant a' b' c')
  end;
  split;
  [ let r := fresh "r" in let H := fresh "H" in intros r H; split_forall; ev
  | let r := fresh "r" in let H0 := fresh "H" in let H := fresh "H" in intros r H0 H; split_forall; ev
  | let v := fresh "v" in let Hv := fresh "H" in intros v Hv; cbn in Hv;
    repeat (destruct Hv as [Hv|Hv]; [subst v; split; apply inb_true; vm_compute; reflexivity|]); destruct Hv ].
