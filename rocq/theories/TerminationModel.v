(** * Termination and liveness through safety: src/termination/, src/vmt/StepCounter.cc. *)
From Verif Require Import Syntax Solver TransSys KindModel Graph ChcSystem.
Open Scope nat_scope.

(** The answer of an engine ([VerificationAnswer]) on a system of clauses, together with the parts of the witness used
    here: the definition of the one predicate (over the given variables), or the number of steps of the derivation.
    Stands for Normalizer, ChcGraphBuilder and [Engine::solve]. *)
Inductive engine_answer := ESafe (inv : term) | EUnsafe (steps : nat) | EUnknown.
Definition engine := list clause -> engine_answer.
(** Soundness of an engine. *)
Definition engine_ok (e : engine) : Prop := forall cs,
  (forall inv, e cs = ESafe inv -> ~ cderivable cs exit []) /\
  (forall n, e cs = EUnsafe n -> cderivable cs exit []).
(** The symbol of the single predicate (declareFun "P", "L"). *)
Definition pred : sym := 2.
Definition atom_of (l : list var) : atom := mkAtom pred (map Var l).
Definition query_head : atom := mkAtom exit [].

(** [constructHyperGraph] (src/termination/ReachabilityNonterm.cc:20-63); the same three clauses are built in
    src/termination/ReachabilityTerm.cc:71-75. *)
Definition ts_clauses (vs : list var) (init trans query : term) : list clause :=
  [mkClause (atom_of vs) init [];
   mkClause (atom_of (map (shiftv 1) vs)) trans [atom_of vs];
   mkClause query_head query [atom_of vs]].

Definition is_int (v : var) : bool := sort_eqb (vsort v) SInt.
Definition mkGt (a b : term) : term := mkLt b a.
Definition mkGeq (a b : term) : term := mkLeq b a.

(** ** Termination by a step counter *)
Definition counter0 : var := mkVar "counter" (TTime 0) SInt.
Definition counter1 : var := mkVar "counter" (TTime 1) SInt.
(** Sum of the absolute values of the integer variables (src/termination/ReachabilityTerm.cc:25-32). *)
Definition abs_term (v : var) : term := mkIte (mkGeq (Var v) (mkInt 0)) (Var v) (mkNeg (Var v)).
Definition sum_term (vs : list var) : term :=
  match filter is_int vs with [] => mkInt 1 | l => mkPlus (map abs_term l) end.
Definition counter_dec : term := mkEq (Var counter1) (mkMinus (Var counter0) (mkInt 1)).
(** src/termination/ReachabilityTerm.cc:34-75 for one multiplier. *)
Definition term_clauses (ts : tsys) (m : Z) : list clause :=
  ts_clauses (svars ts ++ [counter0])
    (mkAnd [tinit ts; mkGt (Var counter0) (mkTimes [mkInt m; sum_term (svars ts)])])
    (mkAnd [ttrans ts; counter_dec])
    (mkLt (Var counter0) (mkInt 0)).
Inductive tanswer := TYes | TNo | TUnknown | TError | TFuel.
(** [ReachabilityTerm::termination] (src/termination/ReachabilityTerm.cc:15-101): the loop over the multipliers. *)
Fixpoint term_loop (fuel : nat) (e : engine) (ts : tsys) (m : Z) : tanswer :=
  match fuel with
  | O => TFuel
  | S f => if Z.ltb m 64 then
             match e (term_clauses ts m) with
             | ESafe _ => TYes
             | EUnknown => TError
             | EUnsafe _ => term_loop f e ts (m * 2)
             end
           else TUnknown
  end.
Definition termination (e : engine) (ts : tsys) : tanswer := term_loop 7 e ts 1.

(** ** Lassos *)
Definition stored_flag : var := mkVar "stored" TBase SBool.
Definition stored (v : var) : var := shiftv (-1) v.
(** The four clauses of [LassoDetector::find_lasso] (src/termination/LassoDetector.cc:16-108). *)
Definition lasso_clauses (ts : tsys) : list clause :=
  let cur := map Var (svars ts) in
  let nxt := map Var (nextvars ts) in
  let sto := map (fun v => Var (stored v)) (svars ts) in
  let not_saved := mkAtom pred (cur ++ map (fun v => Const (default_value (vsort v))) (svars ts) ++ [tt_false]) in
  [mkClause not_saved (tinit ts) [];
   mkClause (mkAtom pred (nxt ++ sto ++ [Var stored_flag])) (ttrans ts) [mkAtom pred (cur ++ sto ++ [Var stored_flag])];
   mkClause (mkAtom pred (nxt ++ cur ++ [tt_true])) (ttrans ts) [not_saved];
   mkClause query_head tt_true [mkAtom pred (cur ++ cur ++ [tt_true])]].
Inductive lasso_answer := LASSO | NO_LASSO | LUNKNOWN.
(** src/termination/LassoDetector.cc:119-129 *)
Definition find_lasso (e : engine) (ts : tsys) : lasso_answer :=
  match e (lasso_clauses ts) with ESafe _ => NO_LASSO | EUnsafe _ => LASSO | EUnknown => LUNKNOWN end.

(** ** Liveness by a step counter *)
(** src/vmt/StepCounter.cc:25-36 *)
Definition lower_bounds (vs : list var) : list term :=
  mkInt 0 :: concat (map (fun v => if is_int v then [Var v; mkNeg (Var v)] else []) vs).
(** src/vmt/StepCounter.cc:37-81 *)
Definition live_clauses (ts : tsys) : list clause :=
  let vs := svars ts ++ [counter0] in
  [mkClause (atom_of vs) (mkAnd [tinit ts; mkAnd (map (mkGt (Var counter0)) (lower_bounds (svars ts)))]) [];
   mkClause (atom_of (map (shiftv 1) vs)) (mkAnd [ttrans ts; mkNot (tquery ts); mkEq (Var counter1) (Var counter0)]) [atom_of vs];
   mkClause (atom_of (map (shiftv 1) vs)) (mkAnd [ttrans ts; tquery ts; counter_dec]) [atom_of vs];
   mkClause query_head (mkLt (Var counter0) (mkInt 0)) [atom_of vs]].
(** [StepCounter::checkLiveness] (src/vmt/StepCounter.cc:15-103). *)
Definition check_liveness (e : engine) (ts : tsys) : tanswer :=
  match e (live_clauses ts) with ESafe _ => TYes | EUnsafe _ => TUnknown | EUnknown => TError end.

(** ** Nontermination by recurrent sets *)
(** What [run] uses of a validity witness (src/termination/ReachabilityNonterm.cc:160-177): the definition of the
    predicate with its arguments renamed to the state variables. *)
Definition witness_ok (e : engine) (vs : list var) : Prop := forall init trans query inv,
  e (ts_clauses vs init trans query) = ESafe inv ->
  (forall v, In v (vars inv) -> In v vs) /\
  exists M, cmodel (ts_clauses vs init trans query) M /\ ~ M exit [] /\ forall r, M pred (args r vs) <-> holds r inv.

Section Nonterm.
Variable e : engine.
Variable check : check_fn.
Variable qe : qe_fn.
(** The simplification OpenSMT performs while building a term. *)
Variable simp : term -> term.
Variable vs : list var.

(** The formula of a trace (src/termination/ReachabilityNonterm.cc:96-100). *)
Definition trace_formula (init trans sink : term) (num : nat) : term :=
  mkAnd (init :: shift (Z.of_nat num) sink :: map (fun j => shift (Z.of_nat j) trans) (seq 0 num)).
(** Outcome of the backward traversal: transitions into the states [b] are removed, all were deterministic, or an
    exception of the quantifier elimination. *)
Inductive back_out := Blocked (b : term) | Deterministic (result : term) | BackThrow.
(** src/termination/ReachabilityNonterm.cc:119-149.  [u] is a ghost flag: a solver answer UNKNOWN was taken for
    "deterministic". *)
Fixpoint back_loop (path trans : term) (j : nat) (result : term) (u : bool) : back_out * bool :=
  match j with
  | O => (Deterministic result, u)
  | S j' =>
    match qe path (map (shiftv (Z.of_nat j')) vs) with
    | None => (BackThrow, u)
    | Some base =>
      match check [mkAnd [base; shift (Z.of_nat j') trans; mkNot result]] with
      | SAT _ => (Blocked (shift (- Z.of_nat j') result), u)
      | a => back_loop path trans j' base (u || is_unknown a)%bool
      end
    end
  end.
(** The main loop (src/termination/ReachabilityNonterm.cc:83-212).  [steps]: the size of the derivation; it has at
    least the three steps for [true], the predicate and [false].  [u]: ghost flag, a solver answer UNKNOWN was
    ignored. *)
Fixpoint nonterm_loop (fuel : nat) (init trans sink : term) (u : bool) : tanswer * bool :=
  match fuel with
  | O => (TFuel, u)
  | S f =>
    match e (ts_clauses vs init trans sink) with
    | EUnsafe steps =>
      let num := (steps - 3)%nat in
      let path := trace_formula init trans sink num in
      match check [path] with
      | SAT _ =>
        match back_loop path trans num (shift (Z.of_nat num) sink) u with
        | (Blocked b, u') => nonterm_loop f init (mkAnd [trans; mkNot b]) sink u'
        | (Deterministic result, u') => nonterm_loop f (mkAnd [init; mkNot result]) trans sink u'
        | (BackThrow, u') => (TError, u')
        end
      | _ => (TError, u)
      end
    | ESafe inv =>
      match check [mkAnd [init; trans]] with
      | UNSAT => (TYes, u)
      | a =>
        let u' := (u || is_unknown a)%bool in
        match qe trans vs with
        | None => (TError, u')
        | Some p =>
          let constr := simp (mkNot p) in
          match check [mkAnd [inv; constr]] with
          | UNSAT => (TNo, u')
          | _ => nonterm_loop f init trans constr u'
          end
        end
      end
    | EUnknown => (TError, u)
    end
  end.
End Nonterm.
(** [ReachabilityNonterm::run] (src/termination/ReachabilityNonterm.cc:65-216). *)
Definition nonterm (e : engine) (check : check_fn) (qe : qe_fn) (simp : term -> term) (fuel : nat) (ts : tsys) : tanswer * bool :=
  match qe (ttrans ts) (svars ts) with
  | None => (TError, false)
  | Some p =>
    let sink := simp (mkNot p) in
    if term_eqb sink tt_false then (TNo, false)
    else nonterm_loop e check qe simp (svars ts) fuel (tinit ts) (ttrans ts) sink false
  end.
