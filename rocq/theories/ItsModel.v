(** * The input of the termination analysis: src/termination/Frontend.cc:47-327.

    Integer transition systems (ITS) are files of s-expressions (SExprModel models the reader).  Exceptions and reads beyond the end
    of a vector are both [None]; the arithmetic constructors of OpenSMT are a parameter. *)
From Verif Require Import Syntax Solver Graph ChcSystem SExprModel Names.
Open Scope string_scope.
Open Scope list_scope.
Open Scope nat_scope.

(** Apply [f], which may fail, to all elements. *)
Definition mapo {A B} (f : A -> option B) : list A -> option (list B) :=
  fix go l := match l with [] => Some [] | x :: l' => match f x, go l' with Some y, Some ys => Some (y :: ys) | _, _ => None end end.

(** An atom of the file as a C++ string. *)
Definition str (s : text) : string := string_of_list_ascii s.
(** [asAtom], [isAtom] (src/utils/SExpressions.h:24-30). *)
Definition as_atom (e : sexpr) : option string := match e with Atom s => Some (str s) | SList _ => None end.

(** [LocationDeclaration] without the sorts, which are all Int (src/termination/Frontend.cc:47-51): name and number of arguments. *)
Record location_decl := mkDecl { ld_name : string; ld_arity : nat }.
(** [Location] (src/termination/Frontend.cc:53-56). *)
Record location := mkLoc { l_name : string; l_args : list string }.
(** [Expr] (src/termination/Frontend.cc:58-62). *)
Inductive kind := KAnd | KOr | KEq | KLeq | KGeq | KLt | KGt | KAdd | KSub | KMul.
Inductive expr := EVar (n : string) | EConst (n : string) | ENode (k : kind) (l : list expr).
(** [Rule] (src/termination/Frontend.cc:64-68); no guard is [nullptr]. *)
Record rule := mkRule { r_lhs : location; r_rhs : location; r_guard : option expr }.
(** [ITS] (src/termination/Frontend.cc:70-75); the fields [format] and [theory] are only read by assertions.  [locations] is a map by
    name: a list in which the first entry of a name counts. *)
Record its := mkIts { i_locations : list location_decl; i_entry : option string; i_rules : list rule }.

Definition is_digit (c : ascii) : bool := let n := nat_of_ascii c in Nat.leb 48 n && Nat.leb n 57.
(** The test for a constant (src/termination/Frontend.cc:183); an empty atom has the character 0 in front. *)
Definition looks_const (s : string) : bool :=
  match s with String c r => is_digit c || ((c =? "-")%char && match r with EmptyString => false | _ => true end) | EmptyString => false end.
(** The operators (src/termination/Frontend.cc:199-221). *)
Definition kind_of (op : string) : option kind :=
  if String.eqb op "and" then Some KAnd else if String.eqb op "or" then Some KOr else if String.eqb op "=" then Some KEq
  else if String.eqb op "+" then Some KAdd else if String.eqb op "-" then Some KSub else if String.eqb op "*" then Some KMul
  else if String.eqb op "<=" then Some KLeq else if String.eqb op ">=" then Some KGeq else if String.eqb op "<" then Some KLt
  else if String.eqb op ">" then Some KGt else None.
(** [ITS::parseExpr] (src/termination/Frontend.cc:180-229): quantifiers are dropped. *)
Fixpoint parse_guard (e : sexpr) : option expr :=
  match e with
  | Atom s => Some (if looks_const (str s) then EConst (str s) else EVar (str s))
  | SList [] => None
  | SList (SList _ :: _) => None
  | SList (Atom op :: args) =>
    if String.eqb (str op) "exists" then match args with _ :: b :: _ => parse_guard b | _ => None end
    else match kind_of (str op) with
         | Some k => option_map (ENode k) (mapo parse_guard args)
         | None => None
         end
  end.
(** [ITS::parseLocationInstance] (src/termination/Frontend.cc:147-160). *)
Definition parse_location (e : sexpr) : option location :=
  match e with
  | Atom s => Some (mkLoc (str s) [])
  | SList [] => None
  | SList (n :: args) => match as_atom n, mapo as_atom args with Some n, Some l => Some (mkLoc n l) | _, _ => None end
  end.
(** [ITS::parseFun] (src/termination/Frontend.cc:121-145), for an expression that starts with "fun". *)
Definition parse_fun (args : list sexpr) : option location_decl :=
  match args with
  | [n; t] =>
    match as_atom n, t with
    | Some n, Atom _ => Some (mkDecl n 0)
    | Some n, SList (arrow :: l) =>
      match as_atom arrow with
      | Some a => if String.eqb a "->" then match mapo as_atom l with Some l => Some (mkDecl n (length l - 1)) | None => None end else None
      | None => None
      end
    | _, _ => None
    end
  | _ => None
  end.
(** [ITS::parseRule] (src/termination/Frontend.cc:162-178), for an expression that starts with "rule". *)
Definition parse_rule (args : list sexpr) : option rule :=
  match args with
  | l :: r :: rest =>
    match parse_location l, parse_location r with
    | Some l, Some r =>
      match rest with
      | [] => Some (mkRule l r None)
      | [g; e] =>
        match as_atom g with
        | Some g => if String.eqb g ":guard" then match parse_guard e with Some x => Some (mkRule l r (Some x)) | None => None end else None
        | None => None
        end
      | _ => None
      end
    | _, _ => None
    end
  | _ => None
  end.
(** [ITS::resolve] (src/termination/Frontend.cc:100-119). *)
Definition resolve (e : sexpr) (s : its) : option its :=
  match e with
  | SList (k :: args) =>
    match as_atom k with
    | Some k =>
      if String.eqb k "format" || String.eqb k "theory" then
        match args with x :: _ => option_map (fun _ => s) (as_atom x) | [] => None end
      else if String.eqb k "fun" then option_map (fun d => mkIts (i_locations s ++ [d]) (i_entry s) (i_rules s)) (parse_fun args)
      else if String.eqb k "entrypoint" then
        match args with x :: _ => option_map (fun n => mkIts (i_locations s) (Some n) (i_rules s)) (as_atom x) | [] => None end
      else if String.eqb k "rule" then option_map (fun r => mkIts (i_locations s) (i_entry s) (i_rules s ++ [r])) (parse_rule args)
      else None
    | None => None
    end
  | _ => None
  end.
(** [parseITS] (src/termination/Frontend.cc:85-94), after the reader. *)
Fixpoint parse_its_from (es : list sexpr) (s : its) : option its :=
  match es with [] => Some s | e :: es' => match resolve e s with Some s' => parse_its_from es' s' | None => None end end.
Definition parse_its (es : list sexpr) : option its := parse_its_from es (mkIts [] None []).

(** [logic.mkIntVar] *)
Definition ivar (n : string) : var := mkVar n TBase SInt.

(** OpenSMT's constructors: [l_const] for [mkConst] of Int, [l_mk] for the others (src/termination/Frontend.cc:244-267); [None] is an exception
    (LANonLinearException for a product of two terms that are not constants).  [code] numbers the symbols of the locations. *)
Section Its.
Variable l_const : string -> option Z.
Variable l_mk : kind -> list term -> option term.
Variable code : string -> sym.

(** [translate] (src/termination/Frontend.cc:232-270). *)
Fixpoint translate (e : expr) : option term :=
  match e with
  | EVar n => Some (Var (ivar n))
  | EConst s => option_map (fun z => Const (VInt z)) (l_const s)
  | ENode k l => match mapo translate l with Some ts => l_mk k ts | None => None end
  end.
(** [locationsToPredicates.at], [locations.at] (src/termination/Frontend.cc:288-289, 312-313). *)
Definition find_location (s : its) (n : string) : option location_decl := find (fun d => String.eqb (ld_name d) n) (i_locations s).
(** [logic.mkUninterpFun] on integer variables; applications with the wrong number of arguments are an error. *)
Definition apply_location (s : its) (l : location) : option atom :=
  match find_location s (l_name l) with
  | Some d => if Nat.eqb (ld_arity d) (length (l_args l)) then Some (mkAtom (code (l_name l)) (map (fun n => Var (ivar n)) (l_args l))) else None
  | None => None
  end.
(** One clause per rule (src/termination/Frontend.cc:287-309). *)
Definition rule_clause (s : its) (r : rule) : option clause :=
  match apply_location s (r_lhs r), apply_location s (r_rhs r), match r_guard r with Some g => translate g | None => Some tt_true end with
  | Some b, Some h, Some c => Some (mkClause h c [b])
  | _, _, _ => None
  end.
(** The names "e0", "e1", ... (src/termination/Frontend.cc:319). *)
Definition entry_name (i : nat) : string := ("e" ++ to_string (Z.of_nat i))%string.
(** The fact for the start (src/termination/Frontend.cc:311-325). *)
Definition entry_clause (s : its) : option clause :=
  match i_entry s with
  | Some n =>
    match find_location s n with
    | Some d => Some (mkClause (mkAtom (code n) (map (fun i => Var (ivar (entry_name i))) (seq 0 (ld_arity d)))) tt_true [])
    | None => None
    end
  | None => None
  end.
(** [ITS::asChcs] (src/termination/Frontend.cc:273-327). *)
Definition as_chcs (s : its) : option (list clause) :=
  match mapo (rule_clause s) (i_rules s), entry_clause s with Some cs, Some c => Some (cs ++ [c]) | _, _ => None end.
End Its.
