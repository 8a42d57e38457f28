(** * What a VMT file means.

    The specification for C74: independent of the model of the parser but for the type of s-expressions. *)
From Coq Require Import Qcanon.
From Verif Require Import Syntax SExprModel ItsSpec.
Open Scope string_scope.
Open Scope list_scope.
Open Scope nat_scope.

(** Values of names: declared variables and definitions. *)
Definition venv := string -> value.
Definition word_sort (t : string) : option sort :=
  if String.eqb t "Int" then Some SInt else if String.eqb t "Real" then Some SReal else if String.eqb t "Bool" then Some SBool else None.
(** The declared variables and the definitions of a file: name, type (and body). *)
Record definition := mkDef { d_name : string; d_type : string; d_body : sexpr }.
Fixpoint declared (file : list sexpr) : list (string * string) :=
  match file with
  | SList [Atom k; Atom n; SList []; Atom t] :: f => (if String.eqb (word k) "declare-fun" then [(word n, word t)] else []) ++ declared f
  | _ :: f => declared f
  | [] => []
  end.
Fixpoint definitions (file : list sexpr) : list definition :=
  match file with
  | SList [Atom k; Atom n; SList []; Atom t; b] :: f => (if String.eqb (word k) "define-fun" then [mkDef (word n) (word t) b] else []) ++ definitions f
  | _ :: f => definitions f
  | [] => []
  end.
Definition types (file : list sexpr) : list string := map snd (declared file) ++ map d_type (definitions file).
(** Numerals are integers if some type is Int, and reals otherwise. *)
Definition over_reals (file : list sexpr) : bool := negb (existsb (String.eqb "Int") (types file)).
Definition num (real : bool) (z : Z) : value := if real then VReal (Q2Qc (QArith_base.inject_Z z)) else VInt z.

(** ** Terms *)
Definition truths (vs : list value) : option (list bool) := all_some (map (fun v => match v with VBool b => Some b | _ => None end) vs).
Definition integers (vs : list value) : option (list Z) := all_some (map (fun v => match v with VInt z => Some z | _ => None end) vs).
Definition rationals (vs : list value) : option (list Qc) := all_some (map (fun v => match v with VReal q => Some q | _ => None end) vs).
Definition real_op (op : string) (qs : list Qc) : option Qc :=
  match qs with
  | [] => None
  | q :: qs' =>
    if String.eqb op "+" then Some (fold_left Qcplus qs' q)
    else if String.eqb op "*" then Some (fold_left Qcmult qs' q)
    else if String.eqb op "-" then Some (match qs' with [] => Qcopp q | _ => fold_left Qcminus qs' q end)
    else None
  end.
Definition apply_op (op : string) (vs : list value) : option value :=
  if String.eqb op "and" then option_map (fun bs => VBool (forallb (fun b => b) bs)) (truths vs)
  else if String.eqb op "or" then option_map (fun bs => VBool (existsb (fun b => b) bs)) (truths vs)
  else if String.eqb op "not" then match vs with [VBool b] => Some (VBool (negb b)) | _ => None end
  else if String.eqb op "=" then
    match vs with
    | [VBool a; VBool b] => Some (VBool (Bool.eqb a b))
    | [VInt a; VInt b] => Some (VBool (Z.eqb a b))
    | [VReal a; VReal b] => Some (VBool (if Qc_eq_dec a b then true else false))
    | _ => None
    end
  else if String.eqb op "<=" then
    match vs with
    | [VInt a; VInt b] => Some (VBool (Z.leb a b))
    | [VReal a; VReal b] => Some (VBool (if Qclt_le_dec b a then false else true))
    | _ => None
    end
  else
    match vs with
    | VReal _ :: _ => match rationals vs with Some qs => option_map VReal (real_op op qs) | None => None end
    | _ => match integers vs with Some zs => option_map VInt (arith_op op zs) | None => None end
    end.
Fixpoint meaning (real : bool) (r : venv) (e : sexpr) : option value :=
  match e with
  | Atom s => match numeral (word s) with Some z => Some (num real z) | None => Some (r (word s)) end
  | SList (Atom op :: l) => match all_some (map (meaning real r) l) with Some vs => apply_op (word op) vs | None => None end
  | SList _ => None
  end.
(** Sorts of terms. *)
Definition op_sort (op : string) (ss : list sort) : option sort :=
  let all s := forallb (sort_eqb s) ss in
  if String.eqb op "and" || String.eqb op "or" then (if all SBool then Some SBool else None)
  else if String.eqb op "not" then match ss with [SBool] => Some SBool | _ => None end
  else if String.eqb op "=" then match ss with [a; b] => if sort_eqb a b then Some SBool else None | _ => None end
  else if String.eqb op "<=" then match ss with [a; b] => if sort_eqb a b && negb (sort_eqb a SBool) then Some SBool else None | _ => None end
  else if String.eqb op "+" || String.eqb op "*" || (String.eqb op "-" && Nat.leb (length ss) 2) then
    match ss with a :: _ => if all a && negb (sort_eqb a SBool) then Some a else None | [] => None end
  else None.
Fixpoint expr_sort (real : bool) (G : string -> option sort) (e : sexpr) : option sort :=
  match e with
  | Atom s => match numeral (word s) with Some _ => Some (if real then SReal else SInt) | None => G (word s) end
  | SList (Atom op :: l) => match all_some (map (expr_sort real G) l) with Some ss => op_sort (word op) ss | None => None end
  | SList _ => None
  end.

(** ** Annotations *)
(** The term of a definition without its annotations. *)
Definition plain (e : sexpr) : sexpr := match e with SList (Atom k :: b :: _) => if String.eqb (word k) "!" then b else e | _ => e end.
(** The definition carries an annotation. *)
Definition marked (key : string) (d : definition) : bool :=
  match d_body d with SList (Atom k :: _ :: Atom a :: _) => String.eqb (word k) "!" && String.eqb (word a) key | _ => false end.
(** (! x :next y) *)
Definition next_pair (d : definition) : list (string * string) :=
  match d_body d with
  | SList [Atom k; Atom x; Atom a; Atom y] => if String.eqb (word k) "!" && String.eqb (word a) ":next" then [(word x, word y)] else []
  | _ => []
  end.
Definition pairs (file : list sexpr) : list (string * string) := concat (map next_pair (definitions file)).

(** ** The transition system of the file *)
(** Values of the variables, and the values of the definitions that follow from them. *)
Definition extend (real : bool) (r : venv) (d : definition) : venv :=
  match meaning real r (plain (d_body d)) with Some v => fun n => if String.eqb n (d_name d) then v else r n | None => r end.
Definition complete (file : list sexpr) (r : venv) : venv := fold_left (extend (over_reals file)) (definitions file) r.
Definition fits (file : list sexpr) (r : venv) : Prop := forall x t s, In (x, t) (declared file) -> word_sort t = Some s -> sort_of (r x) = s.
(** The formula with the annotation has the value. *)
Definition says (file : list sexpr) (key : string) (b : bool) (r : venv) : Prop :=
  exists d, In d (definitions file) /\ marked key d = true /\ complete file r (d_name d) = VBool b.
(** States: the values of the state variables. *)
Definition initial (file : list sexpr) (s : list value) : Prop :=
  exists r, fits file r /\ map r (map fst (pairs file)) = s /\ says file ":init" true r.
Definition moves (file : list sexpr) (s t : list value) : Prop :=
  exists r, fits file r /\ map r (map fst (pairs file)) = s /\ map r (map snd (pairs file)) = t /\ says file ":trans" true r.
Definition violates (file : list sexpr) (s : list value) : Prop :=
  exists r, fits file r /\ map r (map fst (pairs file)) = s /\ says file ":invar-property" false r.
Inductive reached (file : list sexpr) : list value -> Prop :=
| r_init s : initial file s -> reached file s
| r_move s t : reached file s -> moves file s t -> reached file t.
(** The invariant property is violated in a reachable state. *)
Definition unsafe (file : list sexpr) : Prop := exists s, reached file s /\ violates file s.

(** ** Well-formed files *)
Inductive command_form : sexpr -> Prop :=
| cf_info l : command_form (SList (atom_of "set-info" :: l))
| cf_declare n t : word_sort t <> None -> command_form (SList [atom_of "declare-fun"; atom_of n; SList []; atom_of t])
| cf_define n t b : word_sort t <> None -> command_form (SList [atom_of "define-fun"; atom_of n; SList []; atom_of t; b]).
Inductive body_form : sexpr -> Prop :=
| bf_plain op l : op <> "!" -> body_form (SList (atom_of op :: l))
| bf_init b : body_form (SList [atom_of "!"; b; atom_of ":init"; atom_of "true"])
| bf_trans b : body_form (SList [atom_of "!"; b; atom_of ":trans"; atom_of "true"])
| bf_property b : body_form (SList [atom_of "!"; b; atom_of ":invar-property"; atom_of "0"])
| bf_next x y : body_form (SList [atom_of "!"; atom_of x; atom_of ":next"; atom_of y]).
(** Every definition has the sort it declares; it may use the definitions before it. *)
Fixpoint well_sorted (real : bool) (G : string -> option sort) (ds : list definition) : Prop :=
  match ds with
  | [] => True
  | d :: ds' => exists s, word_sort (d_type d) = Some s /\ expr_sort real G (plain (d_body d)) = Some s /\
      well_sorted real (fun n => if String.eqb n (d_name d) then Some s else G n) ds'
  end.
Definition declared_sort (file : list sexpr) (n : string) : option sort :=
  match find (fun p => String.eqb (fst p) n) (declared file) with Some (_, t) => word_sort t | None => None end.
Record vmt_file (file : list sexpr) : Prop := {
  vf_commands : Forall command_form file;
  vf_bodies : Forall (fun d => body_form (d_body d)) (definitions file);
  vf_not_mixed : ~ (In "Int" (types file) /\ In "Real" (types file));
  vf_distinct : NoDup (map fst (declared file) ++ map d_name (definitions file));
  vf_names : Forall name (map fst (declared file) ++ map d_name (definitions file));
  vf_sorted : well_sorted (over_reals file) (declared_sort file) (definitions file);
  vf_bool : forall d, In d (definitions file) -> marked ":init" d || marked ":trans" d || marked ":invar-property" d = true -> d_type d = "Bool";
  vf_init : length (filter (marked ":init") (definitions file)) = 1;
  vf_trans : length (filter (marked ":trans") (definitions file)) = 1;
  vf_property : length (filter (marked ":invar-property") (definitions file)) = 1;
  vf_state : NoDup (map fst (pairs file) ++ map snd (pairs file));
  vf_pairs : forall x y, In (x, y) (pairs file) -> exists t, In (x, t) (declared file) /\ In (y, t) (declared file)
}.
