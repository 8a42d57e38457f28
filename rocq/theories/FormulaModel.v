(** * Model of the formula utilities of src/TermUtils.{h,cc}: NNF, DNF, top-level juncts,
    simplification of junctions, trivial quantifier elimination. *)
From Coq Require Import QArith Qcanon.
From Verif Require Import Syntax Solver KTo1Model DarModel.
Open Scope Z_scope.

(** ** Sorts of terms (OpenSMT refuses to build ill-sorted terms). *)
Fixpoint typeof (t : term) : option sort :=
  match t with
  | Var v => Some (vsort v)
  | Const c => Some (sort_of c)
  | App f ts =>
    let tys := map typeof ts in
    let all s := forallb (fun o => match o with Some s' => sort_eqb s s' | None => false end) tys in
    match f, tys with
    | FAnd, _ | FOr, _ => if all SBool then Some SBool else None
    | FNot, [Some SBool] => Some SBool
    | FXor, [Some SBool; Some SBool] => Some SBool
    | FEq, [Some a; Some b] => if sort_eqb a b then Some SBool else None
    | FLeq, [Some SInt; Some SInt] | FLeq, [Some SReal; Some SReal] => Some SBool
    | FPlus, Some SInt :: _ | FTimes, Some SInt :: _ => if all SInt then Some SInt else None
    | FPlus, Some SReal :: _ | FTimes, Some SReal :: _ => if all SReal then Some SReal else None
    | FIte, [Some SBool; Some a; Some b] => if sort_eqb a b then Some a else None
    | FDistinct, Some a :: _ => if all a then Some SBool else None
    | FDiv, [Some SInt; Some SInt] | FMod, [Some SInt; Some SInt] => Some SInt
    | _, _ => None
    end
  end.

Definition is_bool (t : term) : bool := match typeof t with Some SBool => true | _ => false end.

(** OpenSMT's [Logic::isAtom] / [ArithLogic::isAtom]: Boolean variables and constants,
    inequalities, equalities of non-Boolean terms. *)
Definition is_atom (t : term) : bool :=
  match t with
  | Var v => sort_eqb (vsort v) SBool
  | Const c => sort_eqb (sort_of c) SBool
  | App FLeq _ => true
  | App FEq (a :: _) => negb (is_bool a)
  | _ => false
  end.

Fixpoint rseq {A} (l : list (res A)) : res (list A) :=
  match l with
  | [] => Ok []
  | x :: l' => bind x (fun a => bind (rseq l') (fun as' => Ok (a :: as')))
  end.

(** ** [NNFTransformer] (src/TermUtils.cc:258-374).  The caches do not change results and are
    left out; mkNot/mkAnd/mkOr do not simplify here. *)
(** [negate] (src/TermUtils.cc:326-368). *)
Fixpoint nnf_negate (t : term) : res term :=
  match t with
  | App FNot (a :: _) => Ok a
  | App FAnd l => bind (rseq (map nnf_negate l)) (fun l' => Ok (mkOr l'))
  | App FOr l => bind (rseq (map nnf_negate l)) (fun l' => Ok (mkAnd l'))
  | _ => if is_atom t then Ok (mkNot t) else Throw
  end.
(** [transform] (src/TermUtils.cc:273-324). *)
Fixpoint nnf (t : term) : res term :=
  if is_atom t then Ok t else
  match t with
  | App FAnd l => bind (rseq (map nnf l)) (fun l' => Ok (mkAnd l'))
  | App FOr l => bind (rseq (map nnf l)) (fun l' => Ok (mkOr l'))
  | App FNot (a :: _) => bind (nnf a) nnf_negate
  | App FEq (a :: b :: _) =>
    bind (nnf a) (fun a' => bind (nnf b) (fun b' =>
    bind (nnf_negate a') (fun na => bind (nnf_negate b') (fun nb =>
    Ok (mkAnd [mkOr [na; b']; mkOr [nb; a']])))))
  | _ => Throw
  end.

(** ** [DNFTransformer] (src/TermUtils.cc:376-500) *)
Definition literal := (term * bool)%type.
Definition lit_term (l : literal) : term := if snd l then fst l else mkNot (fst l).
Definition cube := list literal.

(** src/TermUtils.cc:426-438.  After sorting, adjacent literals with the same atom and different
    sign exist iff some atom occurs with both signs; the order of literals is not modelled. *)
Definition conflicting (c : cube) : bool :=
  existsb (fun l1 => existsb (fun l2 => term_eqb (fst l1) (fst l2) && negb (Bool.eqb (snd l1) (snd l2))) c) c.

(** [conjunctionAsCubes] (src/TermUtils.cc:418-451). *)
Fixpoint combinations (cs : list (list cube)) : list cube :=
  match cs with
  | [] => [[]]
  | c :: cs' => flat_map (fun x => map (fun y => x ++ y) (combinations cs')) c
  end.
Definition conj_cubes (cs : list (list cube)) : list cube :=
  filter (fun c => negb (conflicting c)) (combinations cs).

(** [run] (src/TermUtils.cc:461-500). *)
Fixpoint dnf_cubes (t : term) : res (list cube) :=
  if is_atom t then Ok [[(t, true)]] else
  match t with
  | App FNot (a :: _) => Ok [[(a, false)]]
  | App FOr l => bind (rseq (map dnf_cubes l)) (fun cs => Ok (concat cs))
  | App FAnd l => bind (rseq (map dnf_cubes l)) (fun cs => Ok (conj_cubes cs))
  | _ => Throw
  end.
(** [toDNF] (src/TermUtils.cc:379-394, 454-459). *)
Definition to_dnf (t : term) : res term :=
  bind (nnf t) (fun t' => bind (dnf_cubes t') (fun cs =>
  Ok (mkOr (map (fun c => mkAnd (map lit_term c)) cs)))).

(** Shapes *)
Fixpoint is_nnf (t : term) : bool :=
  is_atom t ||
  match t with
  | App FAnd l | App FOr l => forallb is_nnf l
  | App FNot [a] => is_atom a
  | _ => false
  end.
Definition is_lit (t : term) : bool :=
  is_atom t || match t with App FNot [a] => is_atom a | _ => false end.
Definition is_dnf (t : term) : bool :=
  match t with
  | App FOr cs => forallb (fun c => match c with App FAnd ls => forallb is_lit ls | _ => false end) cs
  | _ => false
  end.
(** Formulas the transformation supports: no Boolean ite, xor, distinct. *)
Fixpoint supported (t : term) : bool :=
  is_atom t ||
  match t with
  | App FAnd l | App FOr l => forallb supported l
  | App FNot [a] => supported a
  | App FEq [a; b] => supported a && supported b
  | _ => false
  end.

(** ** [getTopLevelJuncts] (src/TermUtils.h:70-108) *)
(** OpenSMT's [Logic::purify]: strip negations. *)
Fixpoint purify (t : term) : literal :=
  match t with
  | App FNot [a] => let (p, s) := purify a in (p, negb s)
  | _ => (t, true)
  end.
Definition lit_eqb (a b : literal) : bool := term_eqb (fst a) (fst b) && Bool.eqb (snd a) (snd b).
Definition flip (l : literal) : literal := (fst l, negb (snd l)).
Inductive junction := Conj | Disj.
Definition is_junction (j : junction) (f : fsym) : bool :=
  match j, f with Conj, FAnd | Disj, FOr => true | _, _ => false end.
Definition other (j : junction) : junction := match j with Conj => Disj | Disj => Conj end.

(** The loop; the queue is a stack (last element first), children are pushed in order. *)
Fixpoint juncts_loop (fuel : nat) (j : junction) (queue seen : list literal) (acc : list term) : option (list term) :=
  match fuel with
  | O => None
  | S fuel' =>
    match queue with
    | [] => Some acc
    | l :: queue' =>
      if existsb (lit_eqb l) seen then juncts_loop fuel' j queue' seen acc else
      let seen' := l :: seen in
      match l with
      | (App f ts, true) =>
        if is_junction j f then juncts_loop fuel' j (rev (map purify ts) ++ queue') seen' acc
        else juncts_loop fuel' j queue' seen' (acc ++ [App f ts])
      | (App f ts, false) =>
        if is_junction (other j) f then juncts_loop fuel' j (rev (map (fun t => flip (purify t)) ts) ++ queue') seen' acc
        else juncts_loop fuel' j queue' seen' (acc ++ [mkNot (App f ts)])
      | (t, true) => juncts_loop fuel' j queue' seen' (acc ++ [t])
      | (t, false) => juncts_loop fuel' j queue' seen' (acc ++ [mkNot t])
      end
    end
  end.
Fixpoint size (t : term) : nat :=
  match t with App _ ts => S (fold_right (fun t n => (size t + n)%nat) 0%nat ts) | _ => 1%nat end.
Definition top_juncts (j : junction) (t : term) : option (list term) :=
  juncts_loop (S (size t)) j [purify t] [] [].
Definition mkJunction (j : junction) (l : list term) : term :=
  match j with Conj => mkAnd l | Disj => mkOr l end.

(** ** [simplifyJunction] (src/TermUtils.cc:588-657) *)
(** [leqToConstantAndTerm]: inequality atoms have the form [constant <= term]. *)
Definition leq_parts (t : term) : option (value * term) :=
  match t with App FLeq [Const c; a] => Some (c, a) | _ => None end.
Definition vgt (a b : value) : bool := negb (vleq a b).

(** [JunctionTraits] (src/TermUtils.cc:597-613). *)
Definition better (j : junction) (sign : bool) (first second : value) : bool :=
  match j, sign with
  | Conj, true => vgt first second      (* lower bound: higher is stronger *)
  | Conj, false => vgt second first     (* upper bound: lower is stronger *)
  | Disj, true => vgt second first      (* lower is weaker *)
  | Disj, false => vgt first second     (* higher is weaker *)
  end.

Definition bounds_map := list ((term * bool) * value).
Fixpoint update_bound (j : junction) (k : term * bool) (c : value) (b : bounds_map) : bounds_map :=
  match b with
  | [] => [(k, c)]
  | (k', c') :: b' =>
    if lit_eqb k k' then (k', if better j (snd k) c c' then c else c') :: b'
    else (k', c') :: update_bound j k c b'
  end.
(** The first loop (src/TermUtils.cc:619-649). *)
Fixpoint collect_bounds (j : junction) (ls : list literal) (tmp : list literal) (b : bounds_map) : list literal * bounds_map :=
  match ls with
  | [] => (tmp, b)
  | l :: ls' =>
    match leq_parts (fst l) with
    | None => collect_bounds j ls' (tmp ++ [l]) b
    | Some (c, t) => collect_bounds j ls' tmp (update_bound j (t, snd l) c b)
    end
  end.
Definition simplify_literals (j : junction) (ls : list literal) : list literal :=
  let (tmp, b) := collect_bounds j ls [] [] in
  if Nat.ltb (length b + length tmp) (length ls)
  then tmp ++ map (fun e => (mkLeq (Const (snd e)) (fst (fst e)), snd (fst e))) b
  else ls.
(** [simplifyConjunction(PTRef)], [simplifyDisjunction(PTRef)] (src/TermUtils.cc:542-586). *)
Definition polar (t : term) : literal := match t with App FNot [a] => (a, false) | _ => (t, true) end.
Definition simplify_junction (j : junction) (t : term) : term :=
  match t with
  | App f ts => if is_junction j f then mkJunction j (map lit_term (simplify_literals j (map polar ts))) else t
  | _ => t
  end.

(** ** Trivial quantifier elimination *)
(** OpenSMT's [getNewFacts] + [retrieveSubstitutions] + [substitutionsTransitiveClosure]: the
    definitions implied by the top-level facts, and a constant if the facts decide the formula. *)
Definition retrieve_fn := term -> option bool * submap.
Record retrieved (root : term) (res : option bool) (ns : submap) : Prop := {
  ret_sorted : well_sorted ns;
  ret_keys : NoDup (map fst ns);
  ret_dom : forall k, In k (map fst ns) -> In k (vars root);
  ret_rng : forall k u v, In (k, u) ns -> In v (vars u) -> In v (vars root) /\ ~ In v (map fst ns);
  ret_implied : forall r k u, holds r root -> In (k, u) ns -> eval r (Var k) = eval r u;
  ret_const : forall b, res = Some b -> forall r, holdsb r root = b
}.
Definition retrieve_ok (f : retrieve_fn) : Prop := forall root, retrieved root (fst (f root)) (snd (f root)).

Definition in_keys (k : var) (s : submap) : bool := inb k (map fst s).
Definition add_new (all ns : submap) : submap := all ++ filter (fun e => negb (in_keys (fst e) all)) ns.

Section E.
Variable retrieve : retrieve_fn.

(** [extractSubstitutionsAndSimplify] (src/TermUtils.cc:220-256). *)
Fixpoint extract_loop (fuel : nat) (root : term) (all : submap) : option (submap * term) :=
  match fuel with
  | O => None
  | S fuel' =>
    let (res, ns) := retrieve root in
    let all' := add_new all ns in
    let root1 := match res with Some b => Const (VBool b) | None => root end in
    let root2 := subst ns root1 in
    if term_eqb root2 root1 then Some (all', root2) else extract_loop fuel' root2 all'
  end.

(** [substitutionsTransitiveClosure] (OpenSMT) of a map in which a right-hand side only mentions
    keys inserted later (which is the case here: a substituted variable does not come back). *)
Fixpoint close (s : submap) : submap :=
  match s with
  | [] => []
  | (k, u) :: s' => let c := close s' in (k, subst c u) :: c
  end.

Variable keep : var -> bool.
(** Integer definitions with fractional coefficients are restored (src/TermUtils.cc:78-84); which
    ones these are does not matter for correctness. *)
Variable fractional : term -> bool.

(** [tryAsShiftedVar] (src/TermUtils.cc:15-28).  The constant of a sum has the sort of its
    variable (OpenSMT builds no mixed sums). *)
Definition shifted_var (t : term) : option (var * value) :=
  let num v := negb (sort_eqb (vsort v) SBool) in
  let ok v c := num v && sort_eqb (sort_of c) (vsort v) in
  match t with
  | Var v => if num v then Some (v, match vsort v with SReal => VReal 0%Qc | _ => VInt 0 end) else None
  | App FPlus [Var v; Const c] => if ok v c then Some (v, c) else None
  | App FPlus [Const c; Var v] => if ok v c then Some (v, c) else None
  | _ => None
  end.
Definition neg_value (c : value) : value :=
  match c with VInt z => VInt (- z) | VReal q => VReal (- q)%Qc | b => b end.

(** The loop over the keys (src/TermUtils.cc:45-88); keys are variables (arrays not modelled).
    Returns [substitutionsToReapply] and [equalitiesToRestore]. *)
Fixpoint process_keys (s : submap) (reapply : submap) (restore : list term) : submap * list term :=
  match s with
  | [] => (reapply, restore)
  | (k, u) :: s' =>
    let usable v := negb (keep v) && negb (in_keys v reapply) in
    let restored := process_keys s' reapply (restore ++ [mkEq (Var k) u]) in
    if keep k then
      let try_shift :=
        match shifted_var u with
        | Some (v, c) => if usable v
                         then process_keys s' (reapply ++ [(v, mkPlus [Var k; Const (neg_value c)])]) restore
                         else restored
        | None => restored
        end in
      match u with
      | Var v => if usable v then process_keys s' (reapply ++ [(v, Var k)]) restore else try_shift
      | _ => try_shift
      end
    else if sort_eqb (vsort k) SInt && fractional u then restored
    else process_keys s' reapply restore
  end.

(** [tryEliminateVars] (src/TermUtils.cc:30-105). *)
Definition try_eliminate (fuel : nat) (fla : term) : option term :=
  match extract_loop fuel fla [] with
  | None => None
  | Some (substs, simplified) =>
    let (reapply, restore) := process_keys (close substs) [] [] in
    let f := match restore with [] => simplified | _ => mkAnd (restore ++ [simplified]) end in
    Some (match reapply with [] => f | _ => subst (close reapply) f end)
  end.
End E.
