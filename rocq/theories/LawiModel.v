(** * Model of LAWI, lazy abstraction with interpolants (src/engine/Lawi.cc). *)
From Verif Require Import Syntax Solver TransSys Graph GraphOps GraphSem SimpleTransModel MergeModel LinearModel PdkModel.
Open Scope list_scope.
Open Scope nat_scope.

(** ** The abstract reachability tree (src/engine/Lawi.cc:47-140) *)
(** A vertex: its location and the tree edge it was created with (the parent and the original edge).  The id of a vertex
    is its position; [expand] and [connect] (src/engine/Lawi.cc:118-132, 620-635) create one tree edge per vertex, so a tree
    edge is identified with the vertex it leads to. *)
Record anode := mkNode { nd_loc : sym; nd_up : option (nat * ledge) }.
Definition tree := list anode.
Definition loc (t : tree) (v : nat) : sym := match nth_error t v with Some n => nd_loc n | None => entry end.
Definition up (t : tree) (v : nat) : option (nat * ledge) := match nth_error t v with Some n => nd_up n | None => None end.
Definition parent (t : tree) (v : nat) : nat := match up t v with Some (p, _) => p | None => 0 end.
(** [getChildrenOf] (src/engine/Lawi.cc:691-703). *)
Definition is_child (t : tree) (v u : nat) : bool := match up t u with Some (p, _) => Nat.eqb p v | None => false end.
Definition children (t : tree) (v : nat) : list nat := filter (is_child t v) (seq 0 (length t)).
(** [getAncestorPathUntil] (src/engine/Lawi.cc:661-672): the tree edges from [stop] to [v]; [None]: [stop] is not met. *)
Fixpoint path_until (fuel : nat) (t : tree) (v stop : nat) (acc : list nat) : option (list nat) :=
  if Nat.eqb v stop then Some acc
  else match fuel, up t v with S f, Some (p, _) => path_until f t p stop (v :: acc) | _, _ => None end.
Definition path_to (t : tree) (v stop : nat) : option (list nat) := path_until v t v stop [].
(** [getAncestorsOfIncluding], [getAncestorsOfExcluding] (src/engine/Lawi.cc:674-689). *)
Definition ancestors_excl (t : tree) (v : nat) : list nat := match path_to t v 0 with Some l => map (parent t) l | None => [] end.
Definition ancestors (t : tree) (v : nat) : list nat := v :: ancestors_excl t v.
(** [isAncestor] (src/engine/Lawi.cc:637-645). *)
Fixpoint is_anc (fuel : nat) (t : tree) (a d : nat) : bool :=
  if Nat.eqb d a then true
  else match fuel, up t d with S f, Some (p, _) => is_anc f t a p | _, _ => false end.
Definition is_ancestor (t : tree) (a d : nat) : bool := is_anc d t a d.
(** [getDescendantsOfIncluding] (src/engine/Lawi.cc:647-659). *)
Fixpoint desc (fuel : nat) (t : tree) (v : nat) : list nat :=
  v :: match fuel with S f => flat_map (desc f t) (children t v) | O => [] end.
Definition descendants (t : tree) (v : nat) : list nat := desc (length t) t v.
(** [getEarlierForSameLocationAs] (src/engine/Lawi.cc:705-717); the root is never considered. *)
Definition earlier (t : tree) (v : nat) : list nat := filter (fun u => Nat.eqb (loc t v) (loc t u)) (rev (seq 1 (v - 1))).
(** [nearestCommonAncestor] (src/engine/Lawi.cc:768-780). *)
Fixpoint nca_loop (fuel : nat) (t : tree) (preds : list nat) (v : nat) : nat :=
  if Nat.eqb v 0 then 0
  else if existsb (Nat.eqb v) preds then v
  else match fuel with S f => nca_loop f t preds (parent t v) | O => 0 end.
Definition nca (t : tree) (v1 v2 : nat) : nat := nca_loop v2 t (ancestors t v1) v2.

(** The original edges of a path in the tree (src/engine/Lawi.cc:734-751, 821-827). *)
Definition edges_of (t : tree) (l : list nat) : list ledge := flat_map (fun v => match up t v with Some (_, e) => [e] | None => [] end) l.

(** ** The covering relation (src/engine/Lawi.cc:143-180, 591-618): pairs (coveree, coverer) *)
Definition cov := list (nat * nat).
Definition is_covered (t : tree) (c : cov) (v : nat) : bool := existsb (fun a => existsb (fun x => Nat.eqb (fst x) a) c) (ancestors t v).
Definition cov_update (t : tree) (c : cov) (v w : nat) : cov :=
  filter (fun x => negb (existsb (Nat.eqb (snd x)) (descendants t v))) c ++ [(v, w)].
Definition cov_strengthened (c : cov) (v : nat) : cov := filter (fun x => negb (Nat.eqb (snd x) v)) c.

(** [LawiContext] (src/engine/Lawi.cc:269-367): the tree, the labels, the covering relation, the leaves to check and the
    cache of [ImplicationChecker] (src/engine/Lawi.cc:200-267).  A new vertex is labelled [true] from the start (the code adds the
    label in src/engine/Lawi.cc:453, before it is read). *)
Record lst := mkL { l_tree : tree; l_lab : nat -> term; l_cov : cov; l_leaves : list nat; l_cache : list (term * term * bool) }.

Inductive dres := DCont (st : lst) | DUnsafe (ids : list nat) | DThrow | DFuel.
Inductive lres := LSafe (w : option defs_t) | LUnsafe (d : option derivation) | LUnknown | LThrow | LFuel.

Section Lawi.
(** The formula constructors, the solver, sequence interpolation, [simplifyMax], the order [std::partition] leaves. *)
Variable c : ctors.
Variable check : check_fn.
Variable pitp : pitp_fn.
Variable simp : term -> term.
Variable part : list ledge -> list ledge.
Variable forced computeWitness : bool.
Variable g : lgraph.

Definition set_cov (st : lst) (x : cov) : lst := mkL (l_tree st) (l_lab st) x (l_leaves st) (l_cache st).
Definition set_lab (st : lst) (v : nat) (f : term) : lst :=
  mkL (l_tree st) (fun u => if Nat.eqb u v then f else l_lab st u) (l_cov st) (l_leaves st) (l_cache st).
Definition set_cache (st : lst) (x : list (term * term * bool)) : lst := mkL (l_tree st) (l_lab st) (l_cov st) (l_leaves st) x.
(** [removeLeaf] (src/engine/Lawi.cc:287-289). *)
Definition remove_leaf (st : lst) (v : nat) : lst :=
  mkL (l_tree st) (l_lab st) (l_cov st) (filter (fun u => negb (Nat.eqb u v)) (l_leaves st)) (l_cache st).
Definition covered (st : lst) (v : nat) : bool := is_covered (l_tree st) (l_cov st) v.

(** ** [ImplicationChecker] *)
Definition cached (l : list (term * term * bool)) (a b : term) : option bool :=
  option_map snd (find (fun x => term_eqb (fst (fst x)) a && term_eqb (snd (fst x)) b) l).
(** Answers without a solver (src/engine/Lawi.cc:206-212, 234-240). *)
Definition quick (st : lst) (a b : term) : option bool :=
  if term_eqb a b || term_eqb a tt_false || term_eqb b tt_true then Some true
  else if term_eqb a tt_true || term_eqb b tt_false then Some false
  else cached (l_cache st) a b.
Definition remember (st : lst) (a b : term) (x : bool) : lst := set_cache st ((a, b, x) :: l_cache st).
(** [checkImplication] (src/engine/Lawi.cc:205-230); the answer says whether the result is VALID. *)
Definition implies (st : lst) (a b : term) : bool * lst :=
  match quick st a b with
  | Some x => (x, st)
  | None =>
    match check [cand c [a; cnot c b]] with
    | SAT _ => (false, remember st a b false)
    | UNSAT => (true, remember st a b true)
    | UNKNOWN => (false, st)
    end
  end.
(** [checkImplicationWithHints] (src/engine/Lawi.cc:232-263); [ms]: the models collected for the antecedent. *)
Definition implies_hints (st : lst) (ms : list valuation) (a b : term) : bool * lst * list valuation :=
  match quick st a b with
  | Some x => (x, st, ms)
  | None =>
    if existsb (fun m => negb (holdsb m b)) ms then (false, remember st a b false, ms)
    else match check [cand c [a; cnot c b]] with
         | SAT m => (false, remember st a b false, ms ++ [m])
         | UNSAT => (true, remember st a b true, ms)
         | UNKNOWN => (false, st, ms)
         end
  end.

(** ** Covering *)
(** [coverWithHints] (src/engine/Lawi.cc:580-589). *)
Definition cover (st : lst) (v w : nat) (ms : list valuation) : bool * lst * list valuation :=
  if covered st v then (true, st, ms)
  else if negb (Nat.eqb (loc (l_tree st) v) (loc (l_tree st) w)) || is_ancestor (l_tree st) v w then (false, st, ms)
  else match implies_hints st ms (l_lab st v) (l_lab st w) with
       | (true, st', ms') => (true, set_cov st' (cov_update (l_tree st') (l_cov st') v w), ms')
       | r => r
       end.
(** [close] (src/engine/Lawi.cc:374-383). *)
Fixpoint close_loop (st : lst) (v : nat) (us : list nat) (ms : list valuation) : lst :=
  match us with
  | [] => st
  | u :: us' =>
    if covered st u then close_loop st v us' ms
    else match cover st v u ms with
         | (true, st', _) => st'
         | (false, st', ms') => close_loop st' v us' ms'
         end
  end.
Definition close (st : lst) (v : nat) : lst := close_loop st v (earlier (l_tree st) v) [].
(** [closeAllAncestors] (src/engine/Lawi.cc:295-299). *)
Definition close_all (st : lst) (vs : list nat) : lst := fold_left close vs st.

(** ** Refinement *)
(** [getPathInterpolants] (src/engine/Lawi.cc:551-565) for a path of [n] edges: the interpolants of the first n - 1 prefixes
    of the asserted formulas, then [false].  The interpolants of the single masks are taken from one proof; that they
    form a sequence is part of the specification of [pitp]. *)
Definition path_itps (asserted : list term) (n : nat) : option (list term) :=
  match n - 1 with
  | O => Some [tt_false]
  | S m => option_map (fun l => firstn (S m) l ++ [tt_false]) (pitp (map (fun t => [t]) asserted))
  end.
(** [normalizeInterpolants] (src/engine/Lawi.cc:791-798). *)
Fixpoint normalize (i : Z) (l : list term) : list term :=
  match l with [] => [] | t :: l' => shift (- i) t :: normalize (i + 1)%Z l' end.
(** [strengthenLabelsAlongPath] (src/engine/Lawi.cc:800-819). *)
Definition strengthen1 (st : lst) (v : nat) (itp : term) : lst * bool :=
  match implies st (l_lab st v) itp with
  | (true, st') => (st', false)
  | (false, st') => (set_cov (set_lab st' v (cand c [itp; l_lab st' v])) (cov_strengthened (l_cov st') v), true)
  end.
Fixpoint strengthen (st : lst) (l : list (nat * term)) (acc : list nat) : lst * list nat :=
  match l with
  | [] => (st, acc)
  | (v, itp) :: l' => let (st', b) := strengthen1 st v itp in strengthen st' l' (if b then acc ++ [v] else acc)
  end.
Inductive refres := RUnsafe (ids : list nat) | RRefined (st : lst) (vs : list nat) | RThrow.
(** [refine] (src/engine/Lawi.cc:513-549), [getPath] (734-745), [buildGraphPathFromTreePath] (821-827). *)
Definition refine (st : lst) (v : nat) : refres :=
  match path_to (l_tree st) v 0 with
  | None => RThrow
  | Some l =>
    let es := edges_of (l_tree st) l in
    let segs := path_labels 0 es in
    match check segs with
    | SAT _ => RUnsafe (map lid es)
    | UNSAT =>
      match path_itps segs (length es) with
      | None => RThrow
      | Some itps => let (st', vs) := strengthen st (combine l (normalize 1 itps)) [] in RRefined (remove_leaf st' v) vs
      end
    | UNKNOWN => RThrow
    end
  end.

(** ** Forced covering *)
(** [applyForcedCovering] (src/engine/Lawi.cc:465-502).  [forceCoveringLimit] is 1 (src/engine/Lawi.cc:283); [None]: an
    exception. *)
Definition force (st : lst) (v : nat) : option lst :=
  match earlier (l_tree st) v with
  | [] => Some st
  | w :: _ =>
    if covered st w then Some st
    else
      let a := nca (l_tree st) w v in
      match path_to (l_tree st) v a with
      | None => None
      | Some l =>
        let es := edges_of (l_tree st) l in
        let asserted := l_lab st a :: path_labels 0 es ++ [cnot c (shift (Z.of_nat (length es)) (l_lab st w))] in
        match check asserted with
        | UNSAT =>
          match path_itps asserted (length es) with
          | None => None
          | Some itps => let (st', _) := strengthen st (combine l (normalize 1 itps)) [] in Some (set_lab st' v (l_lab st' w))
          end
        | _ => Some st
        end
      end
  end.
Fixpoint force_all (st : lst) (vs : list nat) : option lst :=
  match vs with
  | [] => Some st
  | v :: vs' => match force st v with Some st' => force_all st' vs' | None => None end
  end.

(** ** Expansion and search *)
Definition out_edges (p : sym) : list ledge := flat_map (fun i => match lfind g i with Some e => [e] | None => [] end) (out_ids g p).
(** [LawiContext::expand], [AbstractReachabilityTree::expand] (src/engine/Lawi.cc:504-511, 620-635). *)
Definition expand (st : lst) (v : nat) : lst :=
  let t := l_tree st in
  let es := part (out_edges (loc t v)) in
  remove_leaf (mkL (t ++ map (fun e => mkNode (lto e) (Some (v, e))) es)
                   (fun u => if Nat.ltb u (length t) then l_lab st u else tt_true)
                   (l_cov st) (l_leaves st ++ seq (length t) (length es)) (l_cache st)) v.
(** [DFS] (src/engine/Lawi.cc:435-463). *)
Fixpoint dfs (fuel : nat) (st : lst) (v : nat) : dres :=
  match fuel with
  | O => DFuel
  | S f =>
    let st1 := close st v in
    if covered st1 v then DCont st1
    else if Nat.eqb (loc (l_tree st1) v) exit then
      match refine st1 v with
      | RThrow => DThrow
      | RUnsafe ids => DUnsafe ids
      | RRefined st2 vs => DCont (close_all st2 vs)
      end
    else
      let st2 := expand st1 v in
      let kids := children (l_tree st2) v in
      match (if forced then force_all st2 kids else Some st2) with
      | None => DThrow
      | Some st3 =>
        (fix go (st : lst) (l : list nat) : dres :=
           match l with
           | [] => DCont st
           | k :: l' => match dfs f st k with DCont st' => go st' l' | r => r end
           end) st3 kids
      end
  end.

(** [getUncoveredLeaf] (src/engine/Lawi.cc:782-789). *)
Definition uncovered_leaf (st : lst) : option nat := find (fun v => negb (covered st v)) (rev (l_leaves st)).
Definition is_junct (t : term) : bool := match t with App FAnd _ | App FOr _ => true | _ => false end.
(** The interpretation (src/engine/Lawi.cc:404-431): the labels of the vertices of a location that are not covered. *)
Definition final_labels (st : lst) (p : sym) : list term :=
  map (l_lab st) (filter (fun v => negb (covered st v) && Nat.eqb (loc (l_tree st) v) p) (descendants (l_tree st) 0)).
Definition lawi_def (st : lst) (p : sym) : term :=
  match final_labels st p with
  | [] => tt_false
  | l => let d := cor c l in rename untag (if is_junct d then simp d else d)
  end.
Definition lawi_defs (st : lst) : defs_t := fun p =>
  match trivial_defs p with
  | Some d => Some d
  | None => if smem p (lvertices g) then Some (lawi_def st p) else None
  end.
(** [unwind] (src/engine/Lawi.cc:386-432). *)
Fixpoint unwind (fuel : nat) (st : lst) : lres :=
  match fuel with
  | O => LFuel
  | S f =>
    match uncovered_leaf st with
    | None => if computeWitness then LSafe (Some (lawi_defs st)) else LSafe None
    | Some v =>
      match dfs f (close_all st (ancestors_excl (l_tree st) v)) v with
      | DFuel => LFuel
      | DThrow => LThrow
      | DCont st' => unwind f st'
      | DUnsafe ids =>
        if computeWitness then
          match from_error_path check g ids with
          | PathDerivation d => LUnsafe (Some d)
          | NoPath => LUnsafe None
          | PathThrows => LThrow
          end
        else LUnsafe None
      end
    end
  end.
(** The initial context (src/engine/Lawi.cc:65-69, 355-361). *)
Definition lawi_init : lst := mkL [mkNode entry None] (fun _ => tt_true) [] [0] [].
Definition lawi_run (fuel : nat) : lres := unwind fuel lawi_init.
End Lawi.

(** [Lawi::solve] (src/engine/Lawi.cc:835-847) for a logic without arrays. *)
Definition lawi (c : ctors) (check : check_fn) (pitp : pitp_fn) (simp : term -> term) (part : list ledge -> list ledge)
    (forced computeWitness : bool) (fuel : nat) (g : hgraph) : lres :=
  if is_normal g then lawi_run c check pitp simp part forced computeWitness (to_normal g) fuel else LUnknown.
