(** * What a liveness problem in a VMT file means.

    The specification for C75; it uses the meaning of VMT files in VmtSpec.v. *)
From Verif Require Import Syntax SExprModel Names ItsSpec VmtSpec.
Open Scope string_scope.
Open Scope list_scope.
Open Scope nat_scope.

(** The file with the annotation :live-property replaced by :invar-property. *)
Definition body_with_invariant (b : sexpr) : sexpr :=
  match b with
  | SList [Atom k; t; Atom a; i] => if String.eqb (word k) "!" && String.eqb (word a) ":live-property" then SList [Atom k; t; atom_of ":invar-property"; i] else b
  | _ => b
  end.
Definition with_invariant (c : sexpr) : sexpr :=
  match c with SList [Atom k; Atom n; SList []; Atom t; b] => SList [Atom k; Atom n; SList []; Atom t; body_with_invariant b] | _ => c end.
(** A liveness problem is written like a safety problem, with :live-property. *)
Record live_file (file : list sexpr) : Prop := {
  lf_commands : Forall command_form file;
  lf_form : vmt_file (map with_invariant file);
  lf_live : forall d, In d (definitions file) -> marked ":invar-property" d = false
}.
(** The state of an assignment and the state it moves to. *)
Definition now (file : list sexpr) (r : venv) : list value := map r (map fst (pairs file)).
Definition then_ (file : list sexpr) (r : venv) : list value := map r (map snd (pairs file)).
(** An execution from a state: the assignments of its first [n] steps. *)
Record execution (file : list sexpr) (s : list value) (n : nat) (e : nat -> venv) : Prop := {
  ex_start : initial file s;
  ex_first : now file (e 0) = s;
  ex_fits : forall k, k < n -> fits file (e k);
  ex_step : forall k, k < n -> says file ":trans" true (e k);
  ex_next : forall k, S k < n -> now file (e (S k)) = then_ file (e k)
}.
(** The formula of the property holds in exactly [m] of the first [n] steps. *)
Inductive raised (file : list sexpr) (e : nat -> venv) : nat -> nat -> Prop :=
| raised_0 : raised file e 0 0
| raised_yes n m : raised file e n m -> says file ":live-property" true (e n) -> raised file e (S n) (S m)
| raised_no n m : raised file e n m -> says file ":live-property" false (e n) -> raised file e (S n) m.
(** The names of a state variable and of its next state follow golem's convention: v##n and v##n+1 or, in a build without assertions,
    one character and a number. *)
Inductive versioned_pair : string -> string -> Prop :=
| vp_version b n : int_range n = true -> int_range (n + 1) = true -> versioned_pair (b ++ "##" ++ to_string n)%string (b ++ "##" ++ to_string (n + 1))%string
| vp_number c n : int_range n = true -> int_range (n + 1) = true -> versioned_pair (String c (to_string n)) (String c (to_string (n + 1))).
