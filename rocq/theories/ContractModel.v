(** * Contraction of vertices, single-loop and nested-loop transformation.

    src/graph/ChcGraph.cc:587-715, src/transformers/CommonUtils.cc:228-283, SingleLoopTransformation.cc,
    NestedLoopTransformation.cc. *)
From Verif Require Import Syntax Solver TransSys Graph GraphOps GraphOpsProofs GraphSem Names SimpleTransModel MergeModel LinearModel.
Open Scope list_scope.
Open Scope nat_scope.

(** ** Names of the new variables *)
Definition num (n : nat) : string := to_string (Z.of_nat n).
(** Location variables (src/graph/ChcGraph.cc:618-621), unversioned. *)
Definition locv (p : sym) : var := mkVar (".loc_" ++ num p)%string TBase SBool.
(** Argument variables (src/graph/ChcGraph.cc:623-631), unversioned. *)
Definition argv (p : sym) (i : nat) (s : sort) : var := mkVar (".arg_" ++ num p ++ "_" ++ num i)%string TBase s.
(** Auxiliary variables of [EdgeTranslator] (src/transformers/CommonUtils.cc:236-242, CommonUtils.h:98). *)
Definition etaux (k : nat) (s : sort) : var := mkVar ("golem::et::aux" ++ num k)%string (TTime 0) s.
Definition args_of (g : lgraph) (p : sym) : list var :=
  map (fun ib => argv p (fst ib) (vsort (snd ib))) (combine (seq 0 (length (lpv g p))) (lpv g p)).

Section Contract.
Variable g : lgraph.
(** The contracted vertices. *)
Variable V : list sym.
Definition mem (p : sym) : bool := existsb (Nat.eqb p) V.

(** ** [EdgeTranslator::translateEdge] (src/transformers/CommonUtils.cc:228-283) *)
Definition et_aux (ctr : nat) (e : ledge) : list var :=
  map (fun iv => etaux (ctr + fst iv) (vsort (snd iv))) (combine (seq 0 (length (laux_vars g e))) (laux_vars g e)).
Definition et_map (ctr : nat) (e : ledge) : vmap :=
  combine (laux_vars g e) (et_aux ctr e) ++
  combine (cur_vars g (lfrom e)) (map cur (args_of g (lfrom e))) ++
  combine (nxt_vars g (lto e)) (map nxt (args_of g (lto e))).
(** Lines 263-273. *)
Definition updated_location (p q : sym) : list term :=
  concat (map (fun v => (if Nat.eqb v q then [] else [mkNot (Var (nxt (locv v)))]) ++
                        (if Nat.eqb v p then [] else [mkNot (Var (cur (locv v)))])) V).
Definition translate_edge (ctr : nat) (e : ledge) : term :=
  mkAnd [Var (cur (locv (lfrom e))); rename (vlookup (et_map ctr e)) (lfla e); Var (nxt (locv (lto e)));
         mkAnd (updated_location (lfrom e) (lto e))].

(** ** [contractVertices] (src/graph/ChcGraph.cc:587-715) *)
Definition internal (e : ledge) : bool := mem (lfrom e) && mem (lto e).
(** Step 1 (lines 634-646): the disjuncts of the new loop; the translator numbers its variables through. *)
Fixpoint loop_parts (ctr : nat) (es : list ledge) : list term :=
  match es with
  | [] => []
  | e :: es' => if internal e then translate_edge ctr e :: loop_parts (ctr + length (laux_vars g e)) es' else loop_parts ctr es'
  end.
(** The symbol of the new vertex (declared at line 665), the next free id, and the iteration order of the two hash maps
    (lines 655-663). *)
Variable nv : sym.
Variable nid : nat.
Variable ord : list var -> list var.
Definition nv_vars : list var := ord (map locv V ++ concat (map (args_of g) V)).
Definition contract_pv (p : sym) : list var := if Nat.eqb p nv then nv_vars else lpv g p.
Definition loop_edge : ledge := mkLEdge nid nv nv (mkOr (loop_parts 0 (ledges g))).
(** Step 2, source in the set (lines 676-689). *)
Definition out_edge (e : ledge) : ledge :=
  mkLEdge (lid e) nv (lto e)
    (rename (vlookup (combine (cur_vars g (lfrom e)) (map cur (args_of g (lfrom e))))) (mkAnd [lfla e; Var (cur (locv (lfrom e)))])).
(** Step 2, target in the set (lines 690-711); [rewriteMaxArityClassic] flattens conjunctions, left out here. *)
Definition in_edge (e : ledge) : ledge :=
  mkLEdge (lid e) (lfrom e) nv
    (mkAnd [mkAnd (map (fun v => mkNot (Var (nxt (locv v)))) (filter (fun v => negb (Nat.eqb v (lto e))) V));
            Var (nxt (locv (lto e)));
            rename (vlookup (combine (nxt_vars g (lto e)) (map nxt (args_of g (lto e))))) (lfla e)]).
Definition cross_edge (e : ledge) : ledge :=
  if mem (lfrom e) then out_edge e else if mem (lto e) then in_edge e else e.
Definition contract : lgraph :=
  mkLGraph (map cross_edge (filter (fun e => negb (internal e)) (ledges g)) ++ [loop_edge]) contract_pv.

(** ** The definition of one vertex, from the definition of the new vertex *)
Variable qe : qe_fn.
(** [rewriteMaxArityAggresive] and [simplifyUnderAssignment_Aggressive]. *)
Variable simp : term -> term.
(** src/transformers/SingleLoopTransformation.cc:129-180 ([tag] = version zero) and NestedLoopTransformation.cc:160-217
    ([tag] = unversioned); [None]: the quantifier elimination does not end. *)
Definition loc_subst (tag : var -> var) (p : sym) : submap :=
  map (fun q => (tag (locv q), if Nat.eqb q p then tt_true else tt_false)) V.
Definition vertex_def (tag : var -> var) (sub : submap) (inv : term) (p : sym) : option term :=
  let own := map tag (args_of g p) in
  let d := simp (subst sub inv) in
  let back t := rename (vlookup (combine own (lpv g p))) t in
  if existsb (fun v => negb (inb v own)) (vars d)
  then option_map (fun u => back (mkNot u)) (qe (mkNot d) own)
  else Some (back d).
End Contract.

(** ** [SingleLoopTransformation::transform] (src/transformers/SingleLoopTransformation.cc:16-33) *)
Definition inner_vertices (g : lgraph) : list sym :=
  filter (fun p => negb (Nat.eqb p entry) && negb (Nat.eqb p exit)) (lvertices g).
Section SingleLoop.
Variable elim : elim_fn.
Variables (nv nid ctr : nat).
Variable ord : list var -> list var.
Definition contracted (g : lgraph) : lgraph := contract g (inner_vertices g) nv nid ord.
(** Lines 24-27 ([MultiEdgeMerger::transform] is [merge_multi]). *)
Definition final_graph (g : lgraph) : lgraph := to_normal (merge_multi (to_hyper ctr (contracted g))).
(** [toTransitionSystem] with [allowNoQuery = true] (src/TransformationUtils.cc:53-119). *)
Definition to_ts_noquery (g : lgraph) : option tsys :=
  match reverse_post_order g with
  | Some vs =>
      let '(s, n, a) := system_vars g in
      match ts_parts elim g vs with
      | (Some i, Some t, Some b) => Some (mkTS s a i t b)
      | (Some i, Some t, None) => Some (mkTS s a i t tt_true)
      | _ => None
      end
  | None => None
  end.
Definition single_loop (g : lgraph) : option tsys := to_ts_noquery (final_graph g).

(** ** Back translation (src/transformers/SingleLoopTransformation.cc:35-194) *)
Variable qe : qe_fn.
Variable simp : term -> term.
Variable check : check_fn.
(** [translateInvariant] (lines 113-185). *)
Fixpoint sl_defs (g : lgraph) (inv : term) (ps : list sym) (w : defs_t) : option defs_t :=
  match ps with
  | [] => Some w
  | p :: ps' =>
    match vertex_def g qe simp cur (loc_subst (inner_vertices g) cur p) inv p with
    | None => None
    | Some d => sl_defs g inv ps' (winsert d w p)
    end
  end.
Definition sl_invariant (g : lgraph) (inv : term) : option defs_t := sl_defs g inv (inner_vertices g) trivial_defs.
(** The query of [translateErrorPath] (lines 55-84). *)
Definition sl_inputs (c : lgraph) : list term :=
  map (fun e => shift (-1) (lfla e)) (filter (fun e => Nat.eqb (lfrom e) entry) (ledges c)).
Definition sl_outputs (c : lgraph) : list term :=
  map lfla (filter (fun e => negb (Nat.eqb (lfrom e) entry) && Nat.eqb (lto e) exit) (ledges c)).
(** The loop: the last edge that is neither (an assertion excludes others); [PTRef_Undef] if there is none. *)
Definition sl_transition (c : lgraph) : term :=
  last (map lfla (filter (fun e => negb (Nat.eqb (lfrom e) entry) && negb (Nat.eqb (lto e) exit)) (ledges c))) tt_true.
Definition sl_query (c : lgraph) (n : nat) : list term :=
  mkOr (sl_inputs c) :: map (fun i => shift (Z.of_nat i) (sl_transition c)) (seq 0 n) ++ [shift (Z.of_nat n) (mkOr (sl_outputs c))].
(** The walk through the original graph (lines 89-108); [None]: no edge, or more than one. *)
Definition can_be_taken (g : lgraph) (r : valuation) (n i : nat) (id : nat) : bool :=
  if Nat.eqb (ltarget g id) exit then Nat.eqb i (n + 1)
  else if Nat.eqb i (n + 1) then false
  else holdsb r (Var (shiftv (Z.of_nat i) (cur (locv (ltarget g id))))).
Fixpoint sl_walk (g : lgraph) (r : valuation) (n i : nat) (p : sym) (fuel : nat) : option (list nat) :=
  match fuel with
  | O => Some []
  | S f =>
    match filter (can_be_taken g r n i) (out_ids g p) with
    | [id] => option_map (cons id) (sl_walk g r n (S i) (ltarget g id) f)
    | _ => None
    end
  end.
Definition sl_path (g : lgraph) (n : nat) : path_witness :=
  match check (sl_query (contracted g) n) with
  | SAT r => match sl_walk g r n 0 entry (n + 2) with
             | None => NoPath
             | Some ids => from_error_path check g ids
             end
  | _ => PathThrows
  end.
Definition sl_translate (g : lgraph) (r : tsresult) : vresult :=
  match r with
  | TSafe inv => match sl_invariant g inv with Some w => VSafe w | None => VThrow end
  | TUnsafe n => match sl_path g n with PathDerivation d => VUnsafe d | NoPath => VNoWitness | PathThrows => VThrow end
  | TUnknown => VUnknown
  end.
(** [TransitionSystemEngine::solve] on a linear graph, all branches (src/engine/TransitionSystemEngine.cc:29-44), with witnesses.
    The single-loop branch does not remove the auxiliary variables.  [None]: an assertion fails. *)
Definition ts_engine_full (engine : tsys -> tsresult) (g : lgraph) : option vresult :=
  match ts_engine_solve elim qe check engine g with
  | Some r => Some r
  | None => match single_loop g with
            | None => None
            | Some ts => Some (sl_translate g (engine ts))
            end
  end.
End SingleLoop.
