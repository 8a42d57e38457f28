(** * Model of the witness validator (src/Validator.cc). *)
From Verif Require Import Syntax Solver Graph.
Open Scope nat_scope.

(** Outcomes: [Undefined] is an access outside a vector or a missing edge (std::map::at throws,
    operator[] is undefined behaviour); assertions are off, as in a release build. *)
Inductive vresult := VALIDATED | NOT_VALIDATED | UNDEFINED.

Section V.
Variable check : check_fn.
Variable g : hgraph.

(** Check of the variables of one definition (src/Validator.cc:34-44); [isSubsetOf]. *)
Definition def_vars_ok (e : sym * term) : bool := forallb (fun v => inb v (gpv g (fst e))) (vars (snd e)).

(** [getInterpretation] (src/Validator.cc:47-54); the map is an association list. *)
Fixpoint wlookup (w : list (sym * term)) (p : sym) : option term :=
  match w with [] => None | (q, d) :: w' => if Nat.eqb q p then Some d else wlookup w' p end.

(** The query of one edge (src/Validator.cc:58-73); [None]: a definition is missing. *)
Fixpoint body_parts (w : list (sym * term)) (l : list (sym * nat)) : option (list term) :=
  match l with
  | [] => Some []
  | (p, i) :: l' =>
    match wlookup w p, body_parts w l' with
    | Some d, Some ps => Some (rename (src i) d :: ps)
    | _, _ => None
    end
  end.
Definition edge_query (w : list (sym * term)) (e : hedge) : option term :=
  match body_parts w (instances (efrom e)), wlookup w (eto e) with
  | Some ps, Some dt => Some (mkAnd [mkAnd (efla e :: ps); mkNot (rename tgt dt)])
  | _, _ => None
  end.

(** [validateValidityWitness] (src/Validator.cc:26-84). *)
Definition edge_valid (w : list (sym * term)) (e : hedge) : bool :=
  match edge_query w e with
  | None => false
  | Some q => is_unsat (check [q])
  end.
Definition validate_validity (w : list (sym * term)) : vresult :=
  if forallb def_vars_ok w && forallb (edge_valid w) (gedges g) then VALIDATED else NOT_VALIDATED.

(** [mapFromPredicate] (src/TermUtils.h:129-139) from the variables of a normalized predicate to the
    (constant) arguments of a fact.  Lists of different length: the pairs that exist (the code would
    read out of bounds). *)
Definition fill (vs : list var) (f : fact) : submap := combine vs (map Const (snd f)).

(** Substitution from the premises (src/Validator.cc:104-111): missing premises or premise indices out
    of range are undefined. *)
Fixpoint premise_subst (d : derivation) (l : list (sym * nat)) (prems : list nat) : option submap :=
  match l, prems with
  | [], _ => Some []
  | pi :: l', k :: prems' =>
    match nth_error d k, premise_subst d l' prems' with
    | Some s, Some m => Some (fill (src_vars g pi) (st_fact s) ++ m)
    | _, _ => None
    end
  | _ :: _, [] => None
  end.

Definition find_edge (c : nat) : option hedge := find (fun e => Nat.eqb (eid e) c) (gedges g).

(** [validateStep] (src/Validator.cc:87-122). *)
Definition validate_step (d : derivation) (s : step) : vresult :=
  match find_edge (st_clause s) with
  | None => UNDEFINED
  | Some e =>
    match premise_subst d (instances (efrom e)) (st_premises s) with
    | None => UNDEFINED
    | Some m =>
      let c := subst (m ++ fill (tgt_vars g (eto e)) (st_fact s)) (efla e) in
      if term_eqb c tt_true then VALIDATED
      else if term_eqb c tt_false then NOT_VALIDATED
      else if is_sat (check [c]) then VALIDATED else NOT_VALIDATED
    end
  end.

Definition fact_eqb (a b : fact) : bool :=
  Nat.eqb (fst a) (fst b) &&
  (fix go x y := match x, y with [], [] => true | v :: x', w :: y' => value_eqb v w && go x' y' | _, _ => false end) (snd a) (snd b).

Fixpoint validate_steps (d : derivation) (rest : list step) : vresult :=
  match rest with
  | [] => VALIDATED
  | s :: rest' => match validate_step d s with VALIDATED => validate_steps d rest' | x => x end
  end.

(** [validateInvalidityWitness] (src/Validator.cc:124-145). *)
Definition validate_invalidity (d : derivation) : vresult :=
  match d with
  | [] => NOT_VALIDATED
  | s0 :: rest =>
    if negb (fact_eqb (st_fact s0) (entry, [])) then NOT_VALIDATED
    else if negb (fact_eqb (st_fact (last d s0)) (exit, [])) then NOT_VALIDATED
    else validate_steps d rest
  end.
End V.
