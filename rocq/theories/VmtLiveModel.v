(** * Liveness problems in VMT files: src/vmt/FrontEnd.cc, src/vmt/StepCounter.cc.

    Variables are kept under their names as they are: the next-state names are computed by the text manipulation of
    [TimeMachine].  [None] is an exception. *)
From Coq Require Import DecimalString.
From Verif Require Import Syntax Solver Graph ChcSystem SExprModel Names NormModel ItsModel VmtModel TerminationModel.
From Coq Require Import List.
Open Scope string_scope.
Open Scope list_scope.
Open Scope nat_scope.

(** [sendVarThroughTime(var, 1)] (src/TermUtils.h:221-232) for any name: without a separator, [rfind] gives -1 and the number is looked
    for after the first character (in a build without assertions). *)
Definition next_name (name : string) : option string :=
  match rfind2 hash name with
  | Some _ => send_var name 1
  | None =>
    match name with
    | EmptyString => None
    | String c tail => match stoi tail with Some n => if int_range (n + 1) then Some (String c (to_string (n + 1))) else None | None => None end
    end
  end.
(** [VMTModel::asLivenessProblem] (src/vmt/FrontEnd.cc:344-349) with [SystemType] (src/TransitionSystem.cc:73-78) and the check of
    [TransitionSystem] (src/TransitionSystem.cc:16-39, 87-102; src/TransitionSystem.h:49-57): state variables with their computed next names.
    A state "variable" that is not a variable is an error here (an assertion in the code). *)
Record live_system := mkLive { ls_vars : list var; ls_next : list var; ls_init : term; ls_trans : term; ls_signal : term }.
Definition among (vs : list var) (t : term) : bool := forallb (fun v => existsb (var_eqb v) vs) (vars t).
Definition as_live (g : gatherer) : option live_system :=
  match g_live g with
  | [(_, p)] =>
    match g_init g, g_trans g, mapo (fun q : term * var => match fst q with Var v => Some v | _ => None end) (g_pairs g) with
    | Some i, Some t, Some vs =>
      match mapo (fun v => option_map (fun n => mkVar n TBase (vsort v)) (next_name (vbase v))) vs with
      | Some ns => if among vs i && among vs p && among (vs ++ ns) t then Some (mkLive vs ns i t p) else None
      | None => None
      end
    | _, _, _ => None
    end
  | _ => None
  end.
(** The counter and its next value (src/vmt/StepCounter.cc:21-23). *)
Definition live_counter : var := mkVar "counter##0" TBase SInt.
Definition live_counter' : var := mkVar "counter##1" TBase SInt.
(** src/vmt/StepCounter.cc:24-81 *)
Definition signal_clauses (s : live_system) : list clause :=
  let cur := atom_of (ls_vars s ++ [live_counter]) in
  let nxt := atom_of (ls_next s ++ [live_counter']) in
  [mkClause cur (mkAnd [ls_init s; mkAnd (map (mkGt (Var live_counter)) (lower_bounds (ls_vars s)))]) [];
   mkClause nxt (mkAnd [ls_trans s; mkNot (ls_signal s); mkEq (Var live_counter') (Var live_counter)]) [cur];
   mkClause nxt (mkAnd [ls_trans s; ls_signal s; mkEq (Var live_counter') (mkMinus (Var live_counter) (mkInt 1))]) [cur];
   mkClause query_head (mkLt (Var live_counter) (mkInt 0)) [cur]].
(** [solveLivenessProblem], [run] (src/vmt/FrontEnd.cc:403-420) for liveness problems: [checkLiveness] (src/vmt/StepCounter.cc:83-102) and
    [printLivenessAnswer] (src/vmt/FrontEnd.cc:351-366). *)
Section Run.
Variable l_const : bool -> string -> option term.
Variable l_mk : bool -> vop -> list term -> option term.
Definition vmt_live (file : list sexpr) : option live_system :=
  match parse_vmt l_const l_mk file with
  | Some (_, g) => if is_safety g then None else if is_liveness g then as_live g else None
  | None => None
  end.
Definition vmt_live_answer (e : engine) (file : list sexpr) : option string :=
  match vmt_live file with
  | Some s => Some (match e (signal_clauses s) with ESafe _ => "valid" | EUnsafe _ => "unknown" | EUnknown => "error" end)
  | None => None
  end.
End Run.
