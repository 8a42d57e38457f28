(** * The VMT front end: src/vmt/FrontEnd.cc.

    A VMT file is a list of s-expressions (SExprModel models the reader).  Exceptions and uses of undefined terms are both [None];
    the constructors of OpenSMT are parameters. *)
From Verif Require Import Syntax Solver Graph ChcSystem SExprModel Names NormModel ItsModel.
Open Scope string_scope.
Open Scope list_scope.
Open Scope nat_scope.

(** [VMTModelBuilder] (src/vmt/FrontEnd.cc:64-90): declared variables and definitions, in order. *)
Record vdef := mkVDef { vd_name : string; vd_type : string; vd_value : sexpr }.
Record builder := mkBuilder { b_vars : list (string * string); b_defs : list vdef }.
(** [resolveDeclareFun] (src/vmt/FrontEnd.cc:129-133). *)
Definition resolve_declare (args : list sexpr) (b : builder) : option builder :=
  match args with
  | n :: _ :: t :: _ => match as_atom n, as_atom t with Some n, Some t => Some (mkBuilder (b_vars b ++ [(n, t)]) (b_defs b)) | _, _ => None end
  | _ => None
  end.
(** [resolveDefineFun] (src/vmt/FrontEnd.cc:135-146). *)
Definition resolve_define (args : list sexpr) (b : builder) : option builder :=
  match args with
  | n :: SList [] :: t :: v :: _ => match as_atom n, as_atom t with Some n, Some t => Some (mkBuilder (b_vars b) (b_defs b ++ [mkVDef n t v])) | _, _ => None end
  | _ => None
  end.
(** [resolve] (src/vmt/FrontEnd.cc:103-127); [resolveAssert] ignores its argument (148-150). *)
Definition resolve (e : sexpr) (b : builder) : option builder :=
  match e with
  | SList (k :: args) =>
    match as_atom k with
    | Some k =>
      if String.eqb k "declare-fun" then resolve_declare args b
      else if String.eqb k "define-fun" then resolve_define args b
      else if String.eqb k "assert" then match args with _ :: _ => Some b | [] => None end
      else if String.eqb k "set-info" then Some b
      else None
    | None => None
    end
  | _ => None
  end.
(** [parse] (src/vmt/FrontEnd.cc:92-101) without the call of [build]. *)
Fixpoint gather (es : list sexpr) (b : builder) : option builder :=
  match es with [] => Some b | e :: es' => match resolve e b with Some b' => gather es' b' | None => None end end.

(** ** [VMTModelBuilder::build] (src/vmt/FrontEnd.cc:152-334) *)
(** The choice of the logic (153-181): [Some true] is QF_LRA, [Some false] is QF_LIA. *)
Definition choose_logic (types : list string) : option bool :=
  let has t := existsb (String.eqb t) types in
  if negb (forallb (fun t => String.eqb t "Real" || String.eqb t "Int" || String.eqb t "Bool") types) then None
  else if has "Real" && has "Int" then None
  else Some (negb (has "Int")).
(** [mkIntVar], [mkRealVar], [mkBoolVar] (197-207). *)
Definition sort_named (t : string) : option sort :=
  if String.eqb t "Int" then Some SInt else if String.eqb t "Real" then Some SReal else if String.eqb t "Bool" then Some SBool else None.
Definition vmt_var (n : string) (s : sort) : var := mkVar n TBase s.
(** OpenSMT's constructors. *)
Inductive vop := OAnd | OOr | ONot | OEq | OLeq | OPlus | ONeg | OMinus | OTimes.
(** The gatherer (183-192); a map is a list in which the first entry of a key counts (its insert does not overwrite). *)
Record gatherer := mkG {
  g_vars : list (string * var); g_defs : list (string * term); g_pairs : list (term * var);
  g_init : option term; g_trans : option term; g_inv : list (nat * term); g_live : list (nat * term)
}.
Definition insert_new {A} (l : list (nat * A)) (k : nat) (x : A) : list (nat * A) := if existsb (fun p => Nat.eqb (fst p) k) l then l else l ++ [(k, x)].
Definition find_name {A} (l : list (string * A)) (n : string) : option A := option_map snd (find (fun p => String.eqb (fst p) n) l).
(** [std::stoull]: the digits at the beginning; an exception if there are none.  White space, signs and overflow are left out. *)
Fixpoint digits_from (acc : nat) (s : string) : nat :=
  match s with String c r => if is_digit c then digits_from (10 * acc + (nat_of_ascii c - 48)) r else acc | EmptyString => acc end.
Definition stoull (s : string) : option nat := match s with String c _ => if is_digit c then Some (digits_from 0 s) else None | EmptyString => None end.

Section Build.
Variable l_const : string -> option term.
Variable l_mk : vop -> list term -> option term.
(** The operators (245-265). *)
Definition apply (op : string) (ts : list term) : option term :=
  if String.eqb op "and" then l_mk OAnd ts else if String.eqb op "or" then l_mk OOr ts else if String.eqb op "not" then l_mk ONot ts
  else if String.eqb op "=" then l_mk OEq ts else if String.eqb op "<=" then l_mk OLeq ts else if String.eqb op "+" then l_mk OPlus ts
  else if String.eqb op "-" then l_mk (if Nat.eqb (length ts) 1 then ONeg else OMinus) ts
  else if String.eqb op "*" then l_mk OTimes ts
  else None.
(** [parseTerm] (224-271): variables before definitions before constants. *)
Fixpoint parse_term (g : gatherer) (e : sexpr) : option term :=
  match e with
  | Atom s =>
    match find_name (g_vars g) (str s) with
    | Some v => Some (Var v)
    | None => match find_name (g_defs g) (str s) with Some t => Some t | None => l_const (str s) end
    end
  | SList (h :: args) => match as_atom h, mapo (parse_term g) args with Some op, Some ts => apply op ts | _, _ => None end
  | SList [] => None
  end.
(** The annotations of a definition (280-309). *)
Fixpoint annotate (anns : list sexpr) (t : term) (g : gatherer) : option gatherer :=
  match anns with
  | [] => Some g
  | a :: rest =>
    match as_atom a with
    | None => None
    | Some a =>
      if String.eqb a ":init" then annotate rest t (mkG (g_vars g) (g_defs g) (g_pairs g) (Some t) (g_trans g) (g_inv g) (g_live g))
      else if String.eqb a ":trans" then annotate rest t (mkG (g_vars g) (g_defs g) (g_pairs g) (g_init g) (Some t) (g_inv g) (g_live g))
      else if String.eqb a ":invar-property" then
        match rest with
        | i :: rest' =>
          match as_atom i with
          | Some i => match stoull i with Some i => annotate rest' t (mkG (g_vars g) (g_defs g) (g_pairs g) (g_init g) (g_trans g) (insert_new (g_inv g) i t) (g_live g)) | None => None end
          | None => None
          end
        | [] => None
        end
      else if String.eqb a ":live-property" then
        match rest with
        | i :: rest' =>
          match as_atom i with
          | Some i => match stoull i with Some i => annotate rest' t (mkG (g_vars g) (g_defs g) (g_pairs g) (g_init g) (g_trans g) (g_inv g) (insert_new (g_live g) i t)) | None => None end
          | None => None
          end
        | [] => None
        end
      else if String.eqb a ":next" then
        match rest with
        | n :: rest' =>
          match as_atom n with
          | Some n =>
            match find_name (g_vars g) n with
            | Some v => annotate rest' t (mkG (g_vars g) (g_defs g) (g_pairs g ++ [(t, v)]) (g_init g) (g_trans g) (g_inv g) (g_live g))
            | None =>
              match typed t with
              | Some s => let v := vmt_var n s in annotate rest' t (mkG (g_vars g ++ [(n, v)]) (g_defs g) (g_pairs g ++ [(t, v)]) (g_init g) (g_trans g) (g_inv g) (g_live g))
              | None => None
              end
            end
          | None => None
          end
        | [] => None
        end
      else annotate rest t g
    end
  end.
(** One definition (273-319); a definition that is an atom has no subexpressions to look at. *)
Definition define (d : vdef) (g : gatherer) : option gatherer :=
  match vd_value d with
  | SList (h :: rest) =>
    match as_atom h with
    | None => None
    | Some op =>
      match (if String.eqb op "!" then match rest with b :: anns => match parse_term g b with Some t => option_map (pair t) (annotate anns t g) | None => None end | [] => None end
             else option_map (fun t => (t, g)) (parse_term g (vd_value d))) with
      | Some (t, g') => Some (mkG (g_vars g') (g_defs g' ++ [(vd_name d, t)]) (g_pairs g') (g_init g') (g_trans g') (g_inv g') (g_live g'))
      | None => None
      end
    end
  | _ => None
  end.
Fixpoint defines (ds : list vdef) (g : gatherer) : option gatherer :=
  match ds with [] => Some g | d :: ds' => match define d g with Some g' => defines ds' g' | None => None end end.
(** The variables (194-210). *)
Definition declare (vs : list (string * string)) : option (list (string * var)) :=
  mapo (fun p => option_map (fun s => (fst p, vmt_var (fst p) s)) (sort_named (snd p))) vs.
Definition build_with (b : builder) : option gatherer :=
  match declare (b_vars b) with Some vs => defines (b_defs b) (mkG vs [] [] None None [] []) | None => None end.

(** ** Problems *)
(** The predicate "P" ([declareFun], 341). *)
Definition vmt_pred : sym := 2.
Definition cur_atom (g : gatherer) : atom := mkAtom vmt_pred (map fst (g_pairs g)).
Definition next_atom (g : gatherer) : atom := mkAtom vmt_pred (map (fun p => Var (snd p)) (g_pairs g)).
(** [VMTModel::asChcs] (src/vmt/FrontEnd.cc:336-361); [invarProperties.at(0)] throws if the only property has another index. *)
Definition vmt_chcs (g : gatherer) : option (list clause) :=
  match g_init g, g_trans g, find (fun p => Nat.eqb (fst p) 0) (g_inv g) with
  | Some i, Some t, Some (_, p) =>
    match l_mk ONot [p] with
    | Some np => Some [mkClause (cur_atom g) i []; mkClause (next_atom g) t [cur_atom g]; mkClause (mkAtom exit []) np [cur_atom g]]
    | None => None
    end
  | _, _, _ => None
  end.
(** [isSafetyProblem] (src/vmt/FrontEnd.cc:51). *)
Definition is_safety (g : gatherer) : bool := Nat.eqb (length (g_inv g)) 1 && match g_live g with [] => true | _ => false end.
(** [isLivenessProblem] (src/vmt/FrontEnd.cc:52). *)
Definition is_liveness (g : gatherer) : bool := Nat.eqb (length (g_live g)) 1 && match g_inv g with [] => true | _ => false end.
End Build.
(** [parse] (src/vmt/FrontEnd.cc:92-101): the logic (with the constructors of that logic) and the model. *)
Section Parse.
Variable l_const : bool -> string -> option term.
Variable l_mk : bool -> vop -> list term -> option term.
Definition parse_vmt (file : list sexpr) : option (bool * gatherer) :=
  match gather file (mkBuilder [] []) with
  | None => None
  | Some b =>
    match choose_logic (map snd (b_vars b) ++ map vd_type (b_defs b)) with
    | None => None
    | Some real => option_map (pair real) (build_with (l_const real) (l_mk real) b)
    end
  end.
(** The clauses of a safety problem (src/vmt/FrontEnd.cc:406-413, 388-392). *)
Definition vmt_clauses (file : list sexpr) : option (list clause) :=
  match parse_vmt file with
  | Some (real, g) => if is_safety g then vmt_chcs (l_mk real) g else None
  | None => None
  end.
End Parse.
