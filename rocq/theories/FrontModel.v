(** * The SMT-LIB front end: from commands to clauses.

    Models src/ChcInterpreter.{h,cc}: the records of let bindings
    (ChcInterpreter.h:23-86), [addLetFrame] (ChcInterpreter.cc:29-42),
    [parseTopLevelAssertion] and [parseTerm] (288-401), [chclauseFromPTRef]
    (562-618), [interpretDeclareFun], [interpretAssert] (145-209) and the
    command loop (50-119).

    Terms of OpenSMT that may contain predicates are [pterm].  The term
    constructors of OpenSMT ([resolveTerm], [mkNot], [mkOr], [mkAnd]) are
    parameters: they simplify in ways that are not part of /repo.
    Simplifications: a predicate is identified with its name and arity;
    arguments have the declared sorts; an identifier that is neither bound nor
    declared is undefined (OpenSMT would find a variable of an earlier
    assertion); numerals come with their value; sorts Bool, Int, Real. *)
From Verif Require Import Syntax.
From Coq Require Import Arith.
Local Open Scope string_scope.
Local Open Scope list_scope.
Local Open Scope nat_scope.

(** The syntax tree of a term: numeral (TERM_T), identifier (QID_T),
    application (LQID_T), let (LET_T), forall (FORALL_T), anything else. *)
Inductive ast :=
| ANum (c : value)
| AId (name : string)
| AApp (name : string) (args : list ast)
| ALet (binds : list (string * ast)) (body : ast)
| AForall (vs : list (string * sort)) (body : ast)
| AOther.

(** Terms of OpenSMT with predicates. *)
Inductive pterm :=
| PVar (v : var)
| PConst (c : value)
| POp (f : fsym) (args : list pterm)
| PPred (p : string) (args : list pterm).

(** What a call of the parser returns: a term, PTRef_Undef, the exception
    QuantifiedConstraintException, or another exception. *)
Inductive outcome (A : Type) :=
| Ok (a : A)
| Undef
| Quantified
| Unhandled.
Arguments Ok {A}. Arguments Undef {A}. Arguments Quantified {A}. Arguments Unhandled {A}.

(** ** Let records *)

(** [LetBinder] (ChcInterpreter.h:23-46): current value and shadowed values;
    [LetRecords] (48-51). Lists grow at the head. *)
Record records := {
  r_binders : list (string * (pterm * list pterm));
  r_known : list string;
  r_limits : list nat
}.

Definition no_records : records := {| r_binders := []; r_known := []; r_limits := [] |}.

Fixpoint find_binder (n : string) (l : list (string * (pterm * list pterm))) : option (pterm * list pterm) :=
  match l with
  | [] => None
  | (m, b) :: l' => if String.eqb n m then Some b else find_binder n l'
  end.

(** [getOrUndef] (ChcInterpreter.h:56-60). *)
Definition get_binding (rs : records) (n : string) : option pterm := option_map fst (find_binder n (r_binders rs)).

(** [pushFrame] (61). *)
Definition push_frame (rs : records) : records :=
  {| r_binders := r_binders rs; r_known := r_known rs; r_limits := length (r_known rs) :: r_limits rs |}.

(** [letBinders.at(name).addValue(arg)] (41-45, 83). *)
Fixpoint add_value (n : string) (t : pterm) (l : list (string * (pterm * list pterm))) :=
  match l with
  | [] => []
  | (m, (c, sh)) :: l' => if String.eqb n m then (m, (t, c :: sh)) :: l' else (m, (c, sh)) :: add_value n t l'
  end.

(** [addBinding] (78-85). *)
Definition add_binding (n : string) (t : pterm) (rs : records) : records :=
  {| r_binders := match find_binder n (r_binders rs) with
                  | None => (n, (t, [])) :: r_binders rs
                  | Some _ => add_value n t (r_binders rs)
                  end;
     r_known := n :: r_known rs; r_limits := r_limits rs |}.

(** [restoreShadowedValue] (36-40) or erase (73). *)
Fixpoint drop_value (n : string) (l : list (string * (pterm * list pterm))) :=
  match l with
  | [] => []
  | (m, (c, sh)) :: l' =>
      if String.eqb n m
      then match sh with [] => l' | c' :: sh' => (m, (c', sh')) :: l' end
      else (m, (c, sh)) :: drop_value n l'
  end.

(** The loop of [popFrame] (65-75). *)
Fixpoint undo (k : nat) (rs : records) : records :=
  match k with
  | 0 => rs
  | S k' =>
      match r_known rs with
      | [] => rs
      | n :: ns => undo k' {| r_binders := drop_value n (r_binders rs); r_known := ns; r_limits := r_limits rs |}
      end
  end.

(** [popFrame] (62-76). *)
Definition pop_frame (rs : records) : records :=
  match r_limits rs with
  | [] => rs
  | lim :: ls =>
      undo (length (r_known rs) - lim) {| r_binders := r_binders rs; r_known := r_known rs; r_limits := ls |}
  end.

Fixpoint distinct_names (l : list string) : bool :=
  match l with [] => true | n :: l' => negb (existsb (String.eqb n) l') && distinct_names l' end.

(** A predicate symbol: name and arity. *)
Definition pid : Type := (string * nat)%type.
Definition pid_eqb (a b : pid) : bool := String.eqb (fst a) (fst b) && Nat.eqb (snd a) (snd b).
Definition in_pids (x : pid) (l : list pid) : bool := existsb (pid_eqb x) l.

Section Front.
(** [logic.resolveTerm] for interpreted symbols; [None]: undefined. *)
Variable l_op : string -> list pterm -> option pterm.
Variable l_not : pterm -> pterm.
Variable l_or : list pterm -> pterm.
Variable l_and : list pterm -> pterm.
(** [logic.hasSym(name) && noScoping()] (ChcInterpreter.cc:38). *)
Variable reserved : string -> bool.

(** The loop of [addLetFrame] (36-40). *)
Fixpoint add_all (ns : list string) (ts : list pterm) (rs : records) : bool * records :=
  match ns, ts with
  | n :: ns', t :: ts' => if reserved n then (false, rs) else add_all ns' ts' (add_binding n t rs)
  | _, _ => (true, rs)
  end.

(** [addLetFrame] (29-42). *)
Definition add_let_frame (ns : list string) (ts : list pterm) (rs : records) : bool * records :=
  if distinct_names ns then add_all ns ts rs else (false, rs).

(** [logic.resolveTerm]; [declared]: the declared predicates. *)
Definition resolve (declared : list pid) (n : string) (ts : list pterm) : outcome pterm :=
  if in_pids (n, length ts) declared then Ok (PPred n ts)
  else match l_op n ts with Some t => Ok t | None => Undef end.

(** [parseTerm] (328-401).  The scope guards restore the records on every
    way out, also when an exception passes. *)
Fixpoint parse (declared : list pid) (a : ast) (rs : records) : outcome pterm * records :=
  match a with
  | ANum c => (Ok (PConst c), rs)
  | AId n =>
      match get_binding rs n with
      | Some t => (Ok t, rs)
      | None => (resolve declared n [], rs)
      end
  | AApp n l =>
      let fix go (l : list ast) (rs : records) : outcome (list pterm) * records :=
        match l with
        | [] => (Ok [], rs)
        | x :: l' =>
            match parse declared x rs with
            | (Ok t, rs1) =>
                match go l' rs1 with
                | (Ok ts, rs2) => (Ok (t :: ts), rs2)
                | r => r
                end
            | (Undef, rs1) => (Undef, rs1)
            | (Quantified, rs1) => (Quantified, rs1)
            | (Unhandled, rs1) => (Unhandled, rs1)
            end
        end in
      match go l rs with
      | (Ok ts, rs1) => (resolve declared n ts, rs1)
      | (Undef, rs1) => (Undef, rs1)
      | (Quantified, rs1) => (Quantified, rs1)
      | (Unhandled, rs1) => (Unhandled, rs1)
      end
  | ALet bs body =>
      let fix go (l : list (string * ast)) (rs : records) : outcome (list pterm) * records :=
        match l with
        | [] => (Ok [], rs)
        | (_, x) :: l' =>
            match parse declared x rs with
            | (Ok t, rs1) =>
                match go l' rs1 with
                | (Ok ts, rs2) => (Ok (t :: ts), rs2)
                | r => r
                end
            | (Undef, rs1) => (Undef, rs1)
            | (Quantified, rs1) => (Quantified, rs1)
            | (Unhandled, rs1) => (Unhandled, rs1)
            end
        end in
      match go bs (push_frame rs) with
      | (Ok ts, rs1) =>
          match add_let_frame (map fst bs) ts rs1 with
          | (true, rs2) => let '(t, rs3) := parse declared body rs2 in (t, pop_frame rs3)
          | (false, rs2) => (Undef, pop_frame rs2)
          end
      | (Undef, rs1) => (Undef, pop_frame rs1)
      | (Quantified, rs1) => (Quantified, pop_frame rs1)
      | (Unhandled, rs1) => (Unhandled, pop_frame rs1)
      end
  | AForall _ _ => (Quantified, rs)
  | AOther => (Unhandled, rs)
  end.

(** A quantified variable as a term: [logic.mkVar(sort, name)] (line 318) is
    the nullary function of that name and sort, so a declared predicate
    without arguments is not told from a Boolean variable of the same name. *)
Definition qvar (x : string * sort) : var := mkVar (fst x) TBase (snd x).
Definition qterm (declared : list pid) (x : string * sort) : pterm :=
  if sort_eqb (snd x) SBool && in_pids (fst x, 0) declared then PPred (fst x) [] else PVar (qvar x).

(** [QuantifierHack::addBinding] (307-311). *)
Definition bind_var (declared : list pid) (rs : records) (x : string * sort) : records :=
  add_binding (fst x) (qterm declared x) (push_frame rs).

Fixpoint pops (k : nat) (rs : records) : records :=
  match k with 0 => rs | S k' => pops k' (pop_frame rs) end.

(** [parseTopLevelAssertion] (288-326). *)
Fixpoint parse_top (declared : list pid) (a : ast) (rs : records) : outcome pterm * records :=
  match a with
  | AForall vs body =>
      let '(t, rs1) := parse_top declared body (fold_left (bind_var declared) vs rs) in (t, pops (length vs) rs1)
  | _ => parse declared a rs
  end.

(** ** Clauses *)

(** [ChClause] before normalization; a head [None] is the term false. *)
Record pclause := { p_head : option pterm; p_fla : pterm; p_body : list pterm }.

(** [isUninterpretedPredicate] (620-622). *)
Definition is_pred (known : list pid) (t : pterm) : bool :=
  match t with PPred p l => in_pids (p, length l) known | _ => false end.

Definition is_or (t : pterm) : bool := match t with POp FOr _ => true | _ => false end.

Fixpoint psize (t : pterm) : nat :=
  match t with
  | PVar _ | PConst _ => 1
  | POp _ l | PPred _ l => S (list_sum (map psize l))
  end.

(** Equality of terms (identity of PTRefs). *)
Fixpoint peqb (a b : pterm) : bool :=
  let fix go (l k : list pterm) : bool :=
    match l, k with
    | [], [] => true
    | x :: l', y :: k' => peqb x y && go l' k'
    | _, _ => false
    end in
  match a, b with
  | PVar v, PVar w => var_eqb v w
  | PConst c, PConst d => value_eqb c d
  | POp f l, POp g k => fsym_eqb f g && go l k
  | PPred p l, PPred q k => String.eqb p q && go l k
  | _, _ => false
  end.

(** [logic.purify] (OpenSMT): strips negations and returns the sign. *)
Fixpoint purify (t : pterm) : pterm * bool :=
  match t with
  | POp FNot [u] => let '(p, s) := purify u in (p, negb s)
  | _ => (t, true)
  end.

Definition flip (x : pterm * bool) : pterm * bool := (fst x, negb (snd x)).

(** [getTopLevelJuncts<Disjunction>] (src/TermUtils.h:72-109); the head of
    [queue] is the last element of the vector. *)
Fixpoint disjuncts_loop (fuel : nat) (queue seen : list (pterm * bool)) (acc : list pterm) : option (list pterm) :=
  match fuel with
  | 0 => None
  | S fuel' =>
      match queue with
      | [] => Some acc
      | (t, s) :: q =>
          if existsb (fun y => peqb t (fst y) && Bool.eqb s (snd y)) seen then disjuncts_loop fuel' q seen acc
          else
            match t, s with
            | POp FOr l, true => disjuncts_loop fuel' (rev (map purify l) ++ q) ((t, s) :: seen) acc
            | POp FAnd l, false => disjuncts_loop fuel' (rev (map (fun x => flip (purify x)) l) ++ q) ((t, s) :: seen) acc
            | _, _ => disjuncts_loop fuel' q ((t, s) :: seen) (acc ++ [if s then t else l_not t])
            end
      end
  end.

Definition disjuncts (t : pterm) : option (list pterm) := disjuncts_loop (S (psize t)) [purify t] [] [].

(** Does a known predicate occur ([matchingSubTerms], line 609)? *)
Fixpoint mentions (known : list pid) (t : pterm) : bool :=
  match t with
  | PVar _ | PConst _ => false
  | POp _ l => existsb (mentions known) l
  | PPred p l => in_pids (p, length l) known || existsb (mentions known) l
  end.

Definition is_not (t : pterm) : bool := match t with POp FNot [_] => true | _ => false end.

(** A possibly negated predicate (lines 593-596). *)
Definition is_lit (known : list pid) (t : pterm) : bool :=
  is_pred known t || match t with POp FNot [u] => is_pred known u | _ => false end.

(** Lines 591-617 for the disjunction. *)
Definition clause_of_disjuncts (known : list pid) (ds : list pterm) : option pclause :=
  let lits := filter (is_lit known) ds in
  let rest := filter (fun t => negb (is_lit known t)) ds in
  let pos := filter (fun t => negb (is_not t)) lits in
  let neg := filter is_not lits in
  if 1 <? length pos then None
  else
    let fla := l_and (map l_not rest) in
    if mentions known fla then None
    else Some {| p_head := hd_error pos; p_fla := fla; p_body := map l_not neg |}.

(** Lines 589-617. *)
Definition clause_of_or (known : list pid) (t : pterm) : option pclause :=
  if is_or t then match disjuncts t with Some ds => clause_of_disjuncts known ds | None => None end
  else None.

Definition ptrue : pterm := PConst (VBool true).

(** [chclauseFromPTRef] (562-618). *)
Definition chclause (known : list pid) (t : pterm) : option pclause :=
  if is_or t then clause_of_or known t
  else if is_pred known t then Some {| p_head := Some t; p_fla := ptrue; p_body := [] |}
  else
    match t with
    | POp FNot [u] =>
        if is_pred known u then Some {| p_head := None; p_fla := ptrue; p_body := [u] |}
        else match u with
             | POp FAnd l => clause_of_or known (l_or (map l_not l))
             | _ => None
             end
    | _ => None
    end.

(** ** Commands *)
Inductive cmd :=
| SetLogic (name : string)
| Declare (name : string) (arity : nat) (result : sort)
| Assert (a : ast)
| CheckSat
| Exit
| Ignored      (* set-info, set-option, get-model *)
| Unknown.

Record istate := {
  i_sys : option (list pid * list pclause);   (* known predicates and clauses of [system] *)
  i_decl : list pid;                             (* functions declared in [logic] *)
  i_exit : bool;
  i_out : list string;                           (* reported errors *)
  i_checks : list (nat * list pclause);          (* position of a (check-sat) and the clauses handed on *)
  i_bad : bool                                   (* PTRef_Undef used as a term (release build), or an uncaught exception *)
}.

Definition istart : istate :=
  {| i_sys := None; i_decl := []; i_exit := false; i_out := []; i_checks := []; i_bad := false |}.

Definition report (st : istate) (m : string) (ex : bool) : istate :=
  {| i_sys := i_sys st; i_decl := i_decl st; i_exit := i_exit st || ex; i_out := i_out st ++ [m];
     i_checks := i_checks st; i_bad := i_bad st |}.

(** [ptrue] as a term: [logic.getTerm_true() == term] (line 196). *)
Definition is_true (t : pterm) : bool := match t with PConst (VBool true) => true | _ => false end.

(** [interpretAssert] (191-209). *)
Definition interpret_assert (st : istate) (known : list pid) (cs : list pclause) (a : ast) : istate :=
  match fst (parse_top (i_decl st) a no_records) with
  | Ok t =>
      if is_true t then st
      else
        match chclause known t with
        | None => report st "Assertion is not a Horn clause" true
        | Some c =>
            {| i_sys := Some (known, cs ++ [c]); i_decl := i_decl st; i_exit := i_exit st; i_out := i_out st;
               i_checks := i_checks st; i_bad := i_bad st |}
        end
  | Quantified => report st "Encountered quantified constraint" true
  | Undef | Unhandled =>
      {| i_sys := i_sys st; i_decl := i_decl st; i_exit := true; i_out := i_out st;
         i_checks := i_checks st; i_bad := true |}
  end.

(** [interpretDeclareFun] (145-181): the result sort must be Bool; [logic.declareFun]
    refuses the names of interpreted symbols. *)
Definition interpret_declare (interpreted : string -> bool) (st : istate) (known : list pid) (cs : list pclause)
    (n : string) (k : nat) (s : sort) : istate :=
  match s with
  | SBool =>
      if interpreted n then report st "While declare-fun" false
      else {| i_sys := Some ((n, k) :: known, cs); i_decl := (n, k) :: i_decl st; i_exit := i_exit st; i_out := i_out st;
              i_checks := i_checks st; i_bad := i_bad st |}
  | _ => report st "Return sort of uninterpeted predicate must be Bool" false
  end.

(** [interpretCommand] (62-119); [k] is the position of the command. *)
Definition interpret (interpreted : string -> bool) (k : nat) (c : cmd) (st : istate) : istate :=
  match c, i_sys st with
  | SetLogic n, _ =>
      if String.eqb n "HORN"
      then {| i_sys := Some ([], []); i_decl := i_decl st; i_exit := i_exit st; i_out := i_out st;
              i_checks := i_checks st; i_bad := i_bad st |}
      else report st "Invalid (set-logic) comand" false
  | Ignored, _ => st
  | Exit, _ => {| i_sys := i_sys st; i_decl := i_decl st; i_exit := true; i_out := i_out st;
                  i_checks := i_checks st; i_bad := i_bad st |}
  | Unknown, _ => report st "Unknown command, ignoring" false
  | _, None => report st "Missing (set-logic) command, ignoring" false
  | Declare n ar s, Some (known, cs) => interpret_declare interpreted st known cs n ar s
  | Assert a, Some (known, cs) => interpret_assert st known cs a
  | CheckSat, Some (known, cs) =>
      {| i_sys := i_sys st; i_decl := i_decl st; i_exit := i_exit st; i_out := i_out st;
         i_checks := i_checks st ++ [(k, cs)]; i_bad := i_bad st |}
  end.

(** The loop of [interpretSystemAst] (50-60). *)
Fixpoint interpret_all (interpreted : string -> bool) (k : nat) (cs : list cmd) (st : istate) : istate :=
  match cs with
  | [] => st
  | c :: cs' => if i_exit st then st else interpret_all interpreted (S k) cs' (interpret interpreted k c st)
  end.

End Front.
