(** * What an SMT-LIB script means.

    The specification of the front end: the meaning of assertions and of
    clauses, independent of how [ChcInterpreter] works. *)
From Verif Require Import Syntax FrontModel.
From Coq Require Import Arith QArith Qcanon.
Local Open Scope string_scope.
Local Open Scope list_scope.
Local Open Scope nat_scope.

(** An interpretation of the predicates (a name with different numbers of
    arguments stands for different predicates). *)
Definition preds := string -> list value -> bool.

(** ** The interpreted symbols of SMT-LIB *)
Inductive op :=
| OTrue | OFalse | OAnd | OOr | OXor | OImp | ONot | OEq | ODistinct | OLe | OGe | OLt | OGt
| OPlus | OMinus | OTimes | OIte | ODiv | OMod.

Definition op_table : list (string * op) :=
  [("true", OTrue); ("false", OFalse); ("and", OAnd); ("or", OOr); ("xor", OXor); ("=>", OImp); ("not", ONot);
   ("=", OEq); ("distinct", ODistinct); ("<=", OLe); (">=", OGe); ("<", OLt); (">", OGt);
   ("+", OPlus); ("-", OMinus); ("*", OTimes); ("ite", OIte); ("div", ODiv); ("mod", OMod)].

Fixpoint op_find (n : string) (l : list (string * op)) : option op :=
  match l with [] => None | (m, o) :: l' => if String.eqb n m then Some o else op_find n l' end.
Definition op_of (n : string) : option op := op_find n op_table.

Definition all_sort (s : sort) (l : list sort) : bool := forallb (sort_eqb s) l.

Definition same_numeric (l : list sort) : option sort :=
  if all_sort SInt l then Some SInt else if all_sort SReal l then Some SReal else None.

(** Rank of the operators. *)
Definition op_rank (o : op) (l : list sort) : option sort :=
  match o, l with
  | (OTrue | OFalse), [] => Some SBool
  | (OAnd | OOr | OXor | OImp), _ :: _ => if all_sort SBool l then Some SBool else None
  | ONot, [SBool] => Some SBool
  | (OEq | ODistinct), s :: _ :: _ => if all_sort s l then Some SBool else None
  | (OLe | OGe | OLt | OGt), _ :: _ :: _ => match same_numeric l with Some _ => Some SBool | None => None end
  | (OPlus | OMinus | OTimes), _ :: _ => same_numeric l
  | OIte, [SBool; s; s'] => if sort_eqb s s' then Some s else None
  | (ODiv | OMod), [SInt; SInt] => Some SInt
  | _, _ => None
  end.

Fixpoint chain (f : value -> value -> bool) (vs : list value) : bool :=
  match vs with
  | a :: ((b :: _) as l) => f a b && chain f l
  | _ => true
  end.

(** Right-associative implication. *)
Fixpoint imp (vs : list value) : bool :=
  match vs with
  | [] => true
  | [v] => asb v
  | v :: l => implb (asb v) (imp l)
  end.

Definition vneg (a : value) : value :=
  match a with VInt z => VInt (- z) | VReal q => VReal (- q)%Qc | VBool b => VBool b end.

(** Meaning of the operators; integer division by zero is as in [smt_div]. *)
Definition op_meaning (o : op) (vs : list value) : value :=
  match o, vs with
  | OTrue, _ => VBool true
  | OFalse, _ => VBool false
  | OAnd, _ => VBool (forallb asb vs)
  | OOr, _ => VBool (existsb asb vs)
  | OXor, v :: l => VBool (fold_left (fun b w => xorb b (asb w)) l (asb v))
  | OImp, _ => VBool (imp vs)
  | ONot, [v] => VBool (negb (asb v))
  | OEq, _ => VBool (chain value_eqb vs)
  | ODistinct, _ => VBool (all_distinct vs)
  | OLe, _ => VBool (chain vleq vs)
  | OGe, _ => VBool (chain (fun a b => vleq b a) vs)
  | OLt, _ => VBool (chain (fun a b => negb (vleq b a)) vs)
  | OGt, _ => VBool (chain (fun a b => negb (vleq a b)) vs)
  | OPlus, v :: l => fold_left vadd l v
  | OMinus, [v] => vneg v
  | OMinus, v :: l => fold_left (fun a b => vadd a (vneg b)) l v
  | OTimes, v :: l => fold_left vmul l v
  | OIte, [c; a; b] => if asb c then a else b
  | ODiv, [VInt a; VInt b] => VInt (smt_div a b)
  | OMod, [VInt a; VInt b] => VInt (smt_mod a b)
  | _, _ => VBool false
  end.

Definition op_sort (n : string) (l : list sort) : option sort :=
  match op_of n with Some o => op_rank o l | None => None end.

(** The value of an operator; nothing for ill-sorted arguments. *)
Definition op_value (n : string) (vs : list value) : option value :=
  match op_of n with
  | Some o => match op_rank o (map sort_of vs) with Some _ => Some (op_meaning o vs) | None => None end
  | None => None
  end.

(** ** Assertions *)
Definition env := string -> option value.
Definition no_env : env := fun _ => None.
Definition env_add (e : env) (n : string) (v : value) : env := fun m => if String.eqb m n then Some v else e m.
Fixpoint env_adds (e : env) (l : list (string * value)) : env :=
  match l with [] => e | (n, v) :: l' => env_adds (env_add e n v) l' end.

(** The value of a term without quantifiers, for the declared predicates [ds]. *)
Fixpoint asem (ds : list pid) (M : preds) (e : env) (a : ast) : option value :=
  match a with
  | ANum c => Some c
  | AId n =>
      match e n with
      | Some v => Some v
      | None => if in_pids (n, 0) ds then Some (VBool (M n [])) else op_value n []
      end
  | AApp n l =>
      let fix go (l : list ast) : option (list value) :=
        match l with
        | [] => Some []
        | x :: l' =>
            match asem ds M e x, go l' with Some v, Some vs => Some (v :: vs) | _, _ => None end
        end in
      match go l with
      | Some vs => if in_pids (n, length vs) ds then Some (VBool (M n vs)) else op_value n vs
      | None => None
      end
  | ALet bs body =>
      let fix go (l : list (string * ast)) : option (list (string * value)) :=
        match l with
        | [] => Some []
        | (n, x) :: l' =>
            match asem ds M e x, go l' with Some v, Some vs => Some ((n, v) :: vs) | _, _ => None end
        end in
      match go bs with
      | Some vs => asem ds M (env_adds e vs) body
      | None => None
      end
  | _ => None
  end.

(** All values of the quantified variables. *)
Fixpoint for_all (vs : list (string * sort)) (e : env) (P : env -> Prop) : Prop :=
  match vs with
  | [] => P e
  | (n, s) :: vs' => forall v, sort_of v = s -> for_all vs' (env_add e n v) P
  end.

(** What an assertion says about the interpretation [M]. *)
Fixpoint asserts (ds : list pid) (M : preds) (e : env) (a : ast) : Prop :=
  match a with
  | AForall vs body => for_all vs e (fun e' => asserts ds M e' body)
  | _ => asem ds M e a = Some (VBool true)
  end.

(** ** Well-sorted assertions *)
Definition senv := string -> option sort.
Definition no_senv : senv := fun _ => None.
Definition senv_add (e : senv) (n : string) (s : sort) : senv := fun m => if String.eqb m n then Some s else e m.
Fixpoint senv_adds (e : senv) (l : list (string * sort)) : senv :=
  match l with [] => e | (n, v) :: l' => senv_adds (senv_add e n v) l' end.

Fixpoint ast_sort (ds : list pid) (e : senv) (a : ast) : option sort :=
  match a with
  | ANum c => Some (sort_of c)
  | AId n =>
      match e n with
      | Some s => Some s
      | None => if in_pids (n, 0) ds then Some SBool else op_sort n []
      end
  | AApp n l =>
      let fix go (l : list ast) : option (list sort) :=
        match l with
        | [] => Some []
        | x :: l' =>
            match ast_sort ds e x, go l' with Some v, Some vs => Some (v :: vs) | _, _ => None end
        end in
      match go l with
      | Some ss => if in_pids (n, length ss) ds then Some SBool else op_sort n ss
      | None => None
      end
  | ALet bs body =>
      let fix go (l : list (string * ast)) : option (list (string * sort)) :=
        match l with
        | [] => Some []
        | (n, x) :: l' =>
            match ast_sort ds e x, go l' with Some v, Some vs => Some ((n, v) :: vs) | _, _ => None end
        end in
      match go bs with
      | Some ss => if distinct_names (map fst bs) then ast_sort ds (senv_adds e ss) body else None
      | None => None
      end
  | _ => None
  end.

Fixpoint well_sorted_from (ds : list pid) (e : senv) (a : ast) : Prop :=
  match a with
  | AForall vs body => well_sorted_from ds (senv_adds e vs) body
  | _ => ast_sort ds e a = Some SBool
  end.
Definition well_sorted_assert (ds : list pid) (a : ast) : Prop := well_sorted_from ds no_senv a.

(** The quantified variables of the leading quantifiers. *)
Fixpoint quantified (a : ast) : list (string * sort) :=
  match a with AForall vs body => vs ++ quantified body | _ => [] end.

(** ** Terms and clauses *)
Fixpoint peval (M : preds) (r : valuation) (t : pterm) : value :=
  match t with
  | PVar v => coerce (vsort v) (r v)
  | PConst c => c
  | POp f l => interp f (map (peval M r) l)
  | PPred p l => VBool (M p (map (peval M r) l))
  end.

Definition ptrue_in (M : preds) (r : valuation) (t : pterm) : bool := asb (peval M r t).

(** A clause as an implication. *)
Definition clause_true (M : preds) (r : valuation) (c : pclause) : Prop :=
  ptrue_in M r (p_fla c) = true -> Forall (fun b => ptrue_in M r b = true) (p_body c) ->
  match p_head c with Some h => ptrue_in M r h = true | None => False end.

(** The literals of a formula read as a disjunction, with their signs. *)
Fixpoint leaves (s : bool) (t : pterm) : list (pterm * bool) :=
  match t with
  | POp FOr l => if s then flat_map (leaves true) l else [(t, s)]
  | POp FAnd l => if s then [(t, s)] else flat_map (leaves false) l
  | POp FNot [u] => leaves (negb s) u
  | _ => [(t, s)]
  end.

(** A Horn clause: at most one positive predicate, and no predicate except as a literal. *)
Definition horn (known : list pid) (t : pterm) : Prop :=
  (forall a b, In (a, true) (leaves true t) -> In (b, true) (leaves true t) ->
     is_pred known a = true -> is_pred known b = true -> a = b) /\
  (forall a s, In (a, s) (leaves true t) -> is_pred known a = false -> mentions known a = false).

(** Contracts of OpenSMT's term constructors. *)
Record logic_ok (l_op : string -> list pterm -> option pterm) (l_not : pterm -> pterm)
    (l_or l_and : list pterm -> pterm) : Prop := {
  lo_op : forall M r n ts t v, l_op n ts = Some t -> op_value n (map (peval M r) ts) = Some v -> peval M r t = v;
  lo_not : forall M r t, ptrue_in M r (l_not t) = negb (ptrue_in M r t);
  lo_or : forall M r ts, ptrue_in M r (l_or ts) = existsb (ptrue_in M r) ts;
  lo_and : forall M r ts, ptrue_in M r (l_and ts) = forallb (ptrue_in M r) ts;
  (* mkNot of a negation is its argument *)
  lo_not_not : forall t, l_not (POp FNot [t]) = t
}.

(** The constructors introduce no predicates, and the negation of a predicate is its negation. *)
Record logic_pure (l_not : pterm -> pterm) (l_and : list pterm -> pterm) : Prop := {
  lp_not : forall known t, mentions known t = false -> mentions known (l_not t) = false;
  lp_and : forall known ts, existsb (mentions known) ts = false -> mentions known (l_and ts) = false;
  lp_not_pred : forall p l, l_not (PPred p l) = POp FNot [PPred p l]
}.

(** [resolveTerm] accepts well-sorted applications. *)
Definition logic_total (l_op : string -> list pterm -> option pterm) : Prop :=
  forall n ts, (forall M r, op_value n (map (peval M r) ts) <> None) -> exists t, l_op n ts = Some t.

(** No let binds a name that may not be rebound. *)
Fixpoint lets_fine (reserved : string -> bool) (a : ast) : bool :=
  match a with
  | AApp _ l => forallb (lets_fine reserved) l
  | ALet bs b => forallb (fun x => negb (reserved (fst x)) && lets_fine reserved (snd x)) bs && lets_fine reserved b
  | AForall _ b => lets_fine reserved b
  | _ => true
  end.

(** ** Scripts *)
(** The assertions in force after a list of commands, with the predicates
    declared when they were made: those after the last (set-logic HORN). *)
Fixpoint in_force (interpreted : string -> bool) (script : list cmd) (set : bool) (ds : list pid)
    (acc : list (list pid * ast)) : list (list pid * ast) :=
  match script with
  | [] => acc
  | SetLogic n :: s => if String.eqb n "HORN" then in_force interpreted s true ds [] else in_force interpreted s set ds acc
  | Declare n k SBool :: s =>
      in_force interpreted s set (if set && negb (interpreted n) then (n, k) :: ds else ds) acc
  | Assert a :: s => in_force interpreted s set ds (if set then acc ++ [(ds, a)] else acc)
  | _ :: s => in_force interpreted s set ds acc
  end.
Definition assertions (interpreted : string -> bool) (script : list cmd) : list (list pid * ast) :=
  in_force interpreted script false [] [].
