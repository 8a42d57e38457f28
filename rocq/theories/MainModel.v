(** * The main program: choice of the front end and of the logic (src/bin/golem.cpp). *)
From Coq Require Import List String Ascii Bool.
Import ListNotations.
Open Scope string_scope.
Open Scope list_scope.

(** Sorts in the syntax tree: a name, or an application whose children are the name of the constructor and its arguments. *)
Inductive ssort := SName (s : string) | SApp (l : list ssort).
(** The commands of a script: a declaration with the sorts of its arguments; an assertion with the sorts of the variables of its outermost
    universal quantifier ([None]: there is none); anything else. *)
Inductive mcmd := MDeclare (args : list ssort) | MAssert (vars : option (list ssort)) | MOther.

(** The three flags of [tryDetectLogic]. *)
Record dflags := mkD { d_reals : bool; d_ints : bool; d_arrays : bool }.
(** [checkForRealsAndInts] (lines 26-29).  The text of a node that is not a name is never "Real" or "Int" (OpenSMT's parser is not modelled). *)
Definition check_sort (d : dflags) (s : ssort) : dflags :=
  match s with
  | SName n => mkD (d_reals d || String.eqb n "Real") (d_ints d || String.eqb n "Int") (d_arrays d)
  | SApp _ => d
  end.
(** Lines 41-50: the children of an application are inspected one level deep. *)
Definition check_child (d : dflags) (s : ssort) : dflags :=
  match s with
  | SName n => check_sort (mkD (d_reals d) (d_ints d) (d_arrays d || String.eqb n "Array")) s
  | SApp _ => d
  end.
Definition check_arg (d : dflags) (s : ssort) : dflags :=
  match s with SName _ => check_sort d s | SApp l => fold_left check_child l d end.
(** [decide] (lines 22-25). *)
Definition decide (d : dflags) : string :=
  if d_reals d && d_ints d then ""
  else ("QF_" ++ (if d_arrays d then "A" else "") ++ "L" ++ (if d_reals d then "R" else "I") ++ "A")%string.
(** The loop (lines 30-74).  The test for a missing syntax tree (line 17) is left out: scripts have at least one command. *)
Fixpoint detect_loop (d : dflags) (cs : list mcmd) : string :=
  match cs with
  | [] => decide d
  | MDeclare args :: cs' => detect_loop (fold_left check_arg args d) cs'
  | MAssert vars :: cs' =>
    if d_ints d || d_reals d then decide d
    else detect_loop (match vars with Some l => fold_left check_sort l d | None => d end) cs'
  | MOther :: cs' => detect_loop d cs'
  end.
Definition detect_logic (cs : list mcmd) : string := detect_loop (mkD false false false) cs.

(** [strrchr] with a dot: the suffix that begins with the last dot. *)
Fixpoint extension (s : string) : option string :=
  match s with
  | EmptyString => None
  | String c r => match extension r with Some e => Some e | None => if Ascii.eqb c "." then Some s else None end
  end.
(** [main] (lines 85-146), after the options are parsed; [file]: the file given, [readable]: fopen succeeds, [script]: what the parser makes
    of the file.  [MError]: a message and exit code 1. *)
Inductive mres := MError | MTermination (file : string) | MVmt (file : string) | MSafety (logic : string).
Definition known_logic (l : string) : bool := String.eqb l "QF_LRA" || String.eqb l "QF_LIA" || String.eqb l "QF_ALIA".
Definition golem_main (file logic : option string) (readable : bool) (script : option (list mcmd)) : mres :=
  let f := match file with Some f => f | None => "" end in
  if String.eqb f "" then MError
  else if negb readable then MError
  else match extension f with
       | None => MError
       | Some e =>
         if String.eqb e ".ari" then MTermination f
         else if String.eqb e ".vmt" then MVmt f
         else if String.eqb e ".smt2" then
           match script with
           | None => MError
           | Some cs => let l := match logic with Some l => l | None => detect_logic cs end in if known_logic l then MSafety l else MError
           end
         else MError
       end.
