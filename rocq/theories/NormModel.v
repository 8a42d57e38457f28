(** * Normalization of clauses and construction of the hypergraph.

    Models src/Normalizer.{h,cc} and src/graph/ChcGraphBuilder.cc. *)
From Verif Require Import Syntax Solver KTo1Model Graph GraphSem ChcSystem Names.
Open Scope list_scope.
Open Scope nat_scope.

(** The sort of a term ([Logic::getSortRef], OpenSMT); [None] for terms that are not well-typed. *)
Fixpoint typed (t : term) : option sort :=
  match t with
  | Var v => Some (vsort v)
  | Const c => Some (sort_of c)
  | App f ts =>
      match f, ts with
      | FPlus, t1 :: ts' | FTimes, t1 :: ts' =>
          match typed t1 with
          | Some SInt => if forallb (fun x => match typed x with Some SInt => true | _ => false end) ts' then Some SInt else None
          | Some SReal => if forallb (fun x => match typed x with Some SReal => true | _ => false end) ts' then Some SReal else None
          | _ => None
          end
      | FIte, [c; a; b] =>
          match typed a, typed b with Some s, Some s' => if sort_eqb s s' then Some s else None | _, _ => None end
      | FDiv, [a; b] | FMod, [a; b] =>
          match typed a, typed b with Some SInt, Some SInt => Some SInt | _, _ => None end
      | FPlus, [] | FTimes, [] | FIte, _ | FDiv, _ | FMod, _ => None
      | _, _ => Some SBool
      end
  end.
(** [getSortRef]: total in the code. *)
Definition sort_of_term (t : term) : sort := match typed t with Some s => s | None => SBool end.

(** Fresh names: [createUniqueRepresentation] (src/Normalizer.h:49-50) and [normalizeAuxiliaryVariables]
    (src/Normalizer.cc:63-64).  Both use the same counter. *)
Definition xvar (n : nat) (s : sort) : var := mkVar ("x#" ++ to_string (Z.of_nat n)) TBase s.
Definition nauxv (n : nat) (s : sort) : var := mkVar ("aux#" ++ to_string (Z.of_nat n)) (TTime 0) s.

(** State of the [Normalizer] (src/Normalizer.h:30-36): representations and counter.  The equalities are returned by the
    functions instead of being collected in a member. *)
Record nst := mkNst { nreps : list (sym * list var); ncount : nat }.
(** src/Normalizer.cc:11-12. *)
Definition nst0 : nst := mkNst [(entry, []); (exit, [])] 0.
Fixpoint rlookup (l : list (sym * list var)) (p : sym) : option (list var) :=
  match l with [] => None | (q, x) :: l' => if Nat.eqb p q then Some x else rlookup l' p end.
(** [getRepresentation] (src/TermUtils.h:451-454). *)
Definition rep (st : nst) (p : sym) : list var := match rlookup (nreps st) p with Some x => x | None => [] end.
Fixpoint xvars (n : nat) (ss : list sort) : list var := match ss with [] => [] | s :: ss' => xvar n s :: xvars (S n) ss' end.
(** [createUniqueRepresentation] guarded by [hasRepresentationFor] (src/Normalizer.h:44-54, Normalizer.cc:77-79, 100-102). *)
Definition ensure (st : nst) (a : atom) : nst :=
  match rlookup (nreps st) (asym a) with
  | Some _ => st
  | None => mkNst ((asym a, xvars (ncount st) (map sort_of_term (aargs a))) :: nreps st) (ncount st + length (aargs a))
  end.

(** [Equality] (src/Normalizer.h:23-26): normalized variable, original argument. *)
Definition neq := (var * term)%type.
(** [Normalizer::normalize(ChcHead)] (src/Normalizer.cc:74-90). *)
Definition norm_head (st : nst) (a : atom) : nst * list neq :=
  let st' := ensure st a in (st', combine (map tgt (rep st' (asym a))) (aargs a)).
(** The loop over the uninterpreted part (src/Normalizer.cc:96-113); [seen]: the predicates already passed to the counting
    proxy. *)
Fixpoint norm_atoms (st : nst) (seen : list sym) (l : list atom) : nst * list neq :=
  match l with
  | [] => (st, [])
  | a :: l' =>
      let st' := ensure st a in
      let i := count_occ Nat.eq_dec seen (asym a) in
      let '(st'', es) := norm_atoms st' (asym a :: seen) l' in
      (st'', combine (map (src i) (rep st' (asym a))) (aargs a) ++ es)
  end.

Definition mapped (m : vmap) (v : var) : bool := inb v (map fst m).
(** src/Normalizer.cc:119-128. *)
Fixpoint split_eqs (m : vmap) (l : list neq) : vmap * list term :=
  match l with
  | [] => (m, [])
  | (n, arg) :: l' =>
      match arg with
      | Var v =>
          if mapped m v then let '(m', es) := split_eqs m l' in (m', mkEq (Var n) (Var (vlookup m v)) :: es)
          else split_eqs (m ++ [(v, n)]) l'
      | _ => let '(m', es) := split_eqs m l' in (m', mkEq (Var n) arg :: es)
      end
  end.
(** src/Normalizer.cc:115-132. *)
Definition norm_fla (fla : term) (l : list neq) : term :=
  let '(m, es) := split_eqs [] l in
  rename (vlookup m) (match es with [] => fla | _ => mkAnd [fla; mkAnd es] end).

(** Local variables (src/Normalizer.cc:39-57), without repetitions. *)
Definition local_vars (pvars : list var) (fla : term) : list var :=
  filter (fun v => negb (inb v pvars)) (nodup var_dec (vars fla)).
Fixpoint aux_map (n : nat) (l : list var) : vmap := match l with [] => [] | v :: l' => (v, nauxv n (vsort v)) :: aux_map (S n) l' end.

(** [Normalizer::normalize(ChClause)] (src/Normalizer.cc:27-37, 39-71) and the edge built from the result
    (src/graph/ChcGraphBuilder.cc:15-28); the ids are given by the constructor of the graph in order
    (src/graph/ChcGraph.h:251-258; shifted by one, see GraphSem.v). *)
Definition norm_clause (st : nst) (k : nat) (c : clause) : nst * hedge * list neq :=
  let '(st1, e1) := norm_head st (chead c) in
  let '(st2, e2) := norm_atoms st1 [] (cbody c) in
  let fla := norm_fla (cfla c) (e1 ++ e2) in
  let pvars := map fst e1 ++ map fst e2 in
  let ls := local_vars pvars fla in
  let am := aux_map (ncount st2) ls in
  let from := match cbody c with [] => [entry] | l => map asym l end in
  (mkNst (nreps st2) (ncount st2 + length ls),
   mkEdge k from (asym (chead c)) (rename (vlookup am) fla),
   (e1 ++ e2) ++ map (fun x => (snd x, Var (fst x))) am).
(** [Normalizer::normalize(ChcSystem)] (src/Normalizer.cc:10-25). *)
Fixpoint norm_all (st : nst) (k : nat) (cs : list clause) : nst * list hedge * list (list neq) :=
  match cs with
  | [] => (st, [], [])
  | c :: cs' =>
      let '(st1, e, q) := norm_clause st k c in
      let '(st2, es, qs) := norm_all st1 (S k) cs' in (st2, e :: es, q :: qs)
  end.
(** [ChcGraphBuilder::buildGraph] after [Normalizer::normalize] (src/graph/ChcGraphBuilder.cc:10-30).  The counters of the
    graph's own fresh variables start with 0. *)
Definition build_graph (cs : list clause) : hgraph :=
  let '(st, es, _) := norm_all nst0 1 cs in mkGraph es (rep st) (S (length es)) 0.
(** [Normalizer::getNormalizingEqualities] (src/Normalizer.h:70). *)
Definition normalizing_equalities (cs : list clause) : list (list neq) := let '(_, _, qs) := norm_all nst0 1 cs in qs.
