(** * Model of src/TransitionSystem.cc: reversal and k-inductive to inductive conversion. *)
From Verif Require Import Syntax Solver TransSys TSLemmas.

(** [TransitionSystem::reverseTransitionRelation] (src/TransitionSystem.cc:142-174): three
    substitutions through helper variables of version 2. *)
Definition helpervars_map (ts : tsys) : vmap := map (fun v => (v, shiftv 2 v)) (svars ts).
Definition next_to_state (ts : tsys) : vmap := map (fun v => (shiftv 1 v, v)) (svars ts).
Definition helper_to_next (ts : tsys) : vmap := map (fun v => (shiftv 2 v, shiftv 1 v)) (svars ts).

Definition reverse_transition (ts : tsys) : term :=
  let t1 := subst (vsub (helpervars_map ts)) (ttrans ts) in
  let t2 := subst (vsub (next_to_state ts)) t1 in
  subst (vsub (helper_to_next ts)) t2.

(** [TransitionSystem::reverse] (src/TransitionSystem.cc:134-140). *)
Definition reverse_ts (ts : tsys) : tsys :=
  {| svars := svars ts; avars := avars ts;
     tinit := tquery ts; ttrans := reverse_transition ts; tquery := tinit ts |}.

(** Result of a conversion: the C++ code throws when its query is not UNSAT; interpolation
    and quantifier elimination may also fail. *)
Inductive res (A : Type) := Ok (a : A) | Throw.
Arguments Ok {A} _.
Arguments Throw {A}.

Section Conv.
Variable check : check_fn.
Variable pitp : pitp_fn.
Variable itp : itp_fn.
Variable qe : qe_fn.

(** [buildConjunct] in [unfoldSingleQuery] (src/TransitionSystem.cc:315-321). *)
Definition conjunct (inv : term) (ts : tsys) (index : nat) : term :=
  mkOr [shift (Z.of_nat index) (tinit ts);
        mkAnd [shift (Z.of_nat index - 1) inv; shift (Z.of_nat index - 1) (ttrans ts)]].

(** Shift the [i]-th path interpolant (counting from 0) back by [i+1]
    (src/TransitionSystem.cc:343-345). *)
Definition unshift_itps (Is : list term) : list term :=
  map (fun p => shift (- (Z.of_nat (fst p) + 1)) (snd p)) (combine (seq 0 (length Is)) Is).

(** [KTo1Inductive::unfoldSingleQuery] (src/TransitionSystem.cc:310-348). *)
Definition unfold_single_query (inv : term) (k : nat) (ts : tsys) : res term :=
  let parts := map (conjunct inv ts) (seq 1 k) ++ [mkNot (shift (Z.of_nat k) inv)] in
  match check parts with
  | UNSAT => match pitp (map (fun p => [p]) parts) with
             | Some Is => Ok (mkAnd (unshift_itps Is))
             | None => Throw
             end
  | _ => Throw
  end.

(** [buildFormula] (src/TransitionSystem.cc:234-243). *)
Fixpoint build_formula (index : nat) (inv : term) (ts : tsys) : term :=
  match index with
  | O => tt_true
  | S i => mkOr [shift (Z.of_nat (S i)) (tinit ts);
                 mkAnd [build_formula i inv ts; shift (Z.of_nat i) inv; shift (Z.of_nat i) (ttrans ts)]]
  end.

(** [KTo1Inductive::unfoldHalving] (src/TransitionSystem.cc:264-294); the loop runs at most
    [k] times, [fuel] bounds it ([TermUtils::conjoin] is a conjunction). *)
Fixpoint unfold_halving_loop (fuel : nat) (inv : term) (k : nat) (ts : tsys) : res term :=
  if Nat.leb k 1 then Ok inv else
  match fuel with
  | O => Throw
  | S fuel' =>
    let j := Nat.div k 2 in
    let i := (k - j)%nat in
    let ipart := build_formula i inv ts in
    let jpart := if Nat.eqb i j then ipart else build_formula j inv ts in
    let b := mkAnd [shift (Z.of_nat i) jpart; mkNot (shift (Z.of_nat k) inv)] in
    match check [ipart; b] with
    | UNSAT => match itp [ipart] [b] with
               | Some J => unfold_halving_loop fuel' (mkAnd [inv; shift (- Z.of_nat i) J]) i ts
               | None => Throw
               end
    | _ => Throw
    end
  end.
Definition unfold_halving (inv : term) (k : nat) (ts : tsys) : res term :=
  unfold_halving_loop k inv k ts.

(** [KTo1Inductive::qe] (src/TransitionSystem.cc:214-229).  The code asserts k >= 2.
    [toNNF] keeps the meaning (TermUtils.v) and is left out here. *)
Fixpoint qe_acc (i : nat) (inv : term) (ts : tsys) (acc : term) : term :=
  match i with
  | O => acc
  | S i' =>
    let acc1 := mkOr [acc; mkNot (shift (Z.of_nat i) inv)] in
    qe_acc i' inv ts (mkAnd [acc1; shift (Z.of_nat i') inv; shift (Z.of_nat i') (ttrans ts)])
  end.
Definition kto1_qe (inv : term) (k : nat) (ts : tsys) : res term :=
  match qe (qe_acc (k - 1) inv ts tt_false) (svars ts) with
  | Some g => Ok (mkAnd [mkNot g; inv])
  | None => Throw
  end.

(** [kinductiveToInductive] (src/TransitionSystem.cc:350-358). *)
Definition kinductive_to_inductive (inv : term) (k : nat) (ts : tsys) : res term :=
  if Nat.eqb k 1 then Ok inv else unfold_single_query inv k ts.

End Conv.

(** ** Specification *)
(** [kpath ts K n s s']: [n] steps from [s] to [s'], where [K] holds in all states but the last. *)
Inductive kpath (ts : tsys) (K : term) : nat -> state -> state -> Prop :=
| kpath_O s : kpath ts K 0 s s
| kpath_S n s s' s'' : holds s K -> Step ts s s' -> kpath ts K n s' s'' -> kpath ts K (S n) s s''.

(** [K] is a k-inductive invariant. *)
Record kinductive (ts : tsys) (K : term) (k : nat) : Prop := {
  kind_state : state_formula ts K;
  kind_base : forall n s s', (n < k)%nat -> Init ts s -> Steps ts n s s' -> holds s' K;
  kind_step : forall s s', kpath ts K k s s' -> holds s' K
}.

(** [J] is inductive and stronger than [K]. *)
Record inductive_strengthening (ts : tsys) (K J : term) : Prop := {
  str_state : state_formula ts J;
  str_init : forall s, Init ts s -> holds s J;
  str_step : forall s s', holds s J -> Step ts s s' -> holds s' J;
  str_imp : forall s, holds s J -> holds s K
}.
