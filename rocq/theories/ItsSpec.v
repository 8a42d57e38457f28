(** * What a file of an integer transition system means.

    The specification for C71: independent of the model of the parser but for the type of s-expressions.  A file is a list of
    s-expressions, (fun f type), (entrypoint f), (rule lhs rhs) and (rule lhs rhs :guard e). *)
From Verif Require Import Syntax SExprModel TermRuns.
Open Scope string_scope.
Open Scope list_scope.
Open Scope nat_scope.

Definition word (s : text) : string := string_of_list_ascii s.
Definition atom_of (s : string) : sexpr := Atom (list_ascii_of_string s).

(** Numerals are digits, possibly with a minus sign in front. *)
Definition digit_value (c : ascii) : option Z :=
  let n := nat_of_ascii c in if Nat.leb 48 n && Nat.leb n 57 then Some (Z.of_nat (n - 48)) else None.
Fixpoint number_from (acc : Z) (s : string) : option Z :=
  match s with
  | EmptyString => Some acc
  | String c r => match digit_value c with Some d => number_from (10 * acc + d)%Z r | None => None end
  end.
Definition natural (s : string) : option Z := match s with EmptyString => None | _ => number_from 0 s end.
Definition numeral (s : string) : option Z :=
  match s with String c r => if (c =? "-")%char then option_map Z.opp (natural r) else natural s | EmptyString => None end.
(** A name of a variable: not empty, does not start with a digit or a minus sign. *)
Definition name (s : string) : Prop := match s with String c _ => digit_value c = None /\ c <> "-"%char | EmptyString => False end.

(** Values of the variables. *)
Definition env := string -> Z.

(** Meaning of arithmetic operators. *)
Definition arith_op (op : string) (zs : list Z) : option Z :=
  match zs with
  | [] => None
  | z :: zs' =>
    if String.eqb op "+" then Some (fold_left Z.add zs' z)
    else if String.eqb op "*" then Some (fold_left Z.mul zs' z)
    else if String.eqb op "-" then Some (match zs' with [] => Z.opp z | _ => fold_left Z.sub zs' z end)
    else None
  end.
(** All values, if there are all. *)
Fixpoint all_some {A} (l : list (option A)) : option (list A) :=
  match l with [] => Some [] | Some x :: l' => option_map (cons x) (all_some l') | None :: _ => None end.
Fixpoint arith (r : env) (e : sexpr) : option Z :=
  match e with
  | Atom s => match numeral (word s) with Some z => Some z | None => Some (r (word s)) end
  | SList (Atom op :: l) => match all_some (map (arith r) l) with Some zs => arith_op (word op) zs | None => None end
  | _ => None
  end.
(** Meaning of comparisons. *)
Definition compares (op : string) (a b : Z) : Prop :=
  (op = "=" /\ a = b) \/ (op = "<=" /\ (a <= b)%Z) \/ (op = ">=" /\ (a >= b)%Z) \/ (op = "<" /\ (a < b)%Z) \/ (op = ">" /\ (a > b)%Z).
(** The names declared in ((x Int) (y Int) ...). *)
Definition declared (e : sexpr) : list string :=
  match e with
  | SList ds => concat (map (fun d => match d with SList (Atom x :: _) => [word x] | _ => [] end) ds)
  | Atom _ => []
  end.
(** Meaning of guards: conjunction, disjunction, existential quantification, comparison. *)
Fixpoint sat (r : env) (e : sexpr) : Prop :=
  match e with
  | SList (Atom op :: l) =>
    if String.eqb (word op) "and" then fold_right (fun a P => sat r a /\ P) True l
    else if String.eqb (word op) "or" then fold_right (fun a P => sat r a \/ P) False l
    else if String.eqb (word op) "exists" then
      match l with
      | [ds; b] => exists r', (forall n, ~ In n (declared ds) -> r' n = r n) /\ sat r' b
      | _ => False
      end
    else match map (arith r) l with [Some a; Some b] => compares (word op) a b | _ => False end
  | _ => False
  end.

(** A location applied to arguments: f, or (f a ... b). *)
Definition at_location (e : sexpr) (f : string) (args : list string) : Prop :=
  (e = atom_of f /\ args = []) \/ e = SList (atom_of f :: map atom_of args).
(** Configurations: a location with integers. *)
Definition config := (string * list Z)%type.
Definition located (r : env) (e : sexpr) (c : config) : Prop :=
  exists args, at_location e (fst c) args /\ map (fun a => arith r (atom_of a)) args = map Some (snd c).
(** One step: a rule whose sides match and whose guard holds for some values of the variables. *)
Definition its_step (file : list sexpr) (c d : config) : Prop :=
  exists lhs rhs rest (r : env),
    In (SList (atom_of "rule" :: lhs :: rhs :: rest)) file /\ located r lhs c /\ located r rhs d /\
    (rest = [] \/ exists g, rest = [atom_of ":guard"; g] /\ sat r g).
(** A location is declared with a number of integer arguments: (fun f Int), (fun f (-> Int ... Int Int)). *)
Definition declares (file : list sexpr) (f : string) (n : nat) : Prop :=
  (n = 0 /\ In (SList [atom_of "fun"; atom_of f; atom_of "Int"]) file) \/
  In (SList [atom_of "fun"; atom_of f; SList (atom_of "->" :: repeat (atom_of "Int") (S n))]) file.
(** The system can run forever: from the start with some arguments there is an infinite sequence of steps. *)
Definition its_runs_forever (file : list sexpr) : Prop :=
  exists f args, In (SList [atom_of "entrypoint"; atom_of f]) file /\ declares file f (length args) /\ endless (its_step file) (f, args).

(** ** Well-formed files *)
Fixpoint arith_form (e : sexpr) : Prop :=
  match e with
  | Atom s => name (word s) \/ numeral (word s) <> None
  | SList (Atom op :: l) => In (word op) ["+"; "-"; "*"] /\ l <> [] /\ fold_right (fun a P => arith_form a /\ P) True l
  | _ => False
  end.
Fixpoint guard_form (e : sexpr) : Prop :=
  match e with
  | SList (Atom op :: l) =>
    if String.eqb (word op) "and" then fold_right (fun a P => guard_form a /\ P) True l
    else if String.eqb (word op) "or" then fold_right (fun a P => guard_form a /\ P) True l
    else if String.eqb (word op) "exists" then match l with [ds; b] => guard_form b | _ => False end
    else In (word op) ["="; "<="; ">="; "<"; ">"] /\ length l = 2 /\ Forall arith_form l
  | _ => False
  end.
(** Names bound by the quantifiers of a guard, names that occur in its comparisons. *)
Fixpoint bound (e : sexpr) : list string :=
  match e with
  | SList (Atom op :: l) =>
    (if String.eqb (word op) "exists" then match l with ds :: _ => declared ds | [] => [] end else []) ++ concat (map bound l)
  | _ => []
  end.
Fixpoint occurring (e : sexpr) : list string :=
  match e with
  | Atom s => [word s]
  | SList (Atom op :: l) => if String.eqb (word op) "exists" then match l with [_; b] => occurring b | _ => [] end else concat (map occurring l)
  | SList _ => []
  end.
Definition apart (l m : list string) : Prop := forall n, In n l -> ~ In n m.
(** A name bound in one conjunct does not occur in another one. *)
Fixpoint scopes_apart (e : sexpr) : Prop :=
  match e with
  | SList (Atom op :: l) =>
    (if String.eqb (word op) "and"
     then ForallOrdPairs (fun a b => apart (bound a) (occurring b) /\ apart (bound b) (occurring a)) l else True) /\
    fold_right (fun a P => scopes_apart a /\ P) True l
  | _ => True
  end.
Definition location_form (file : list sexpr) (e : sexpr) (args : list string) : Prop :=
  exists f, at_location e f args /\ declares file f (length args) /\ Forall name args.
Inductive decl_form (file : list sexpr) : sexpr -> Prop :=
| df_head k x : In k ["format"; "theory"] -> decl_form file (SList [atom_of k; atom_of x])
| df_fun0 f : decl_form file (SList [atom_of "fun"; atom_of f; atom_of "Int"])
| df_fun f n : decl_form file (SList [atom_of "fun"; atom_of f; SList (atom_of "->" :: repeat (atom_of "Int") (S n))])
| df_entry f : (exists n, declares file f n) -> decl_form file (SList [atom_of "entrypoint"; atom_of f])
| df_rule l r a b : location_form file l a -> location_form file r b -> decl_form file (SList [atom_of "rule"; l; r])
| df_guarded l r a b g : location_form file l a -> location_form file r b -> guard_form g -> scopes_apart g -> apart (bound g) (a ++ b) ->
    decl_form file (SList [atom_of "rule"; l; r; atom_of ":guard"; g]).
Record its_file (file : list sexpr) : Prop := {
  if_decls : Forall (decl_form file) file;
  if_unique : forall f n m, declares file f n -> declares file f m -> n = m;
  if_start : exists f, In (SList [atom_of "entrypoint"; atom_of f]) file;
  if_one : forall f g, In (SList [atom_of "entrypoint"; atom_of f]) file -> In (SList [atom_of "entrypoint"; atom_of g]) file -> f = g
}.
