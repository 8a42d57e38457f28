(** * Simple graph transformations: removal of unreachable nodes, of false clauses, merging of parallel
    edges, pruning of direct edges, constraint simplification, pipelines. *)
From Verif Require Import Syntax Solver Graph GraphOps ValidatorModel FormulaModel GraphSem.
Open Scope nat_scope.

(** [TransformationResult] (src/transformers/Transformer.h): the new graph and the back-translator. *)
Record trans := mkTrans { tr_graph : hgraph; tr_valid : backV; tr_invalid : backI }.

(** [getEdge] (src/graph/ChcGraph.h:278). *)
Definition hfind (g : hgraph) (i : nat) : option hedge := find (fun e => Nat.eqb (eid e) i) (gedges g).
Definition hsources (g : hgraph) (i : nat) : list sym := match hfind g i with Some e => efrom e | None => [] end.
Definition htarget (g : hgraph) (i : nat) : sym := match hfind g i with Some e => eto e | None => entry end.
Definition in_edges (g : hgraph) (v : sym) : list nat := match aget (incoming (adjacency_of g)) v with Some l => l | None => [] end.
Definition out_edges (g : hgraph) (v : sym) : list nat := match aget (outgoing (adjacency_of g)) v with Some l => l | None => [] end.
Definition hnodes (g : hgraph) : list sym := nodes (adjacency_of g).

(** [deleteNode] (src/graph/ChcGraph.cc:272-276). *)
Definition touches (v : sym) (e : hedge) : bool := Nat.eqb (eto e) v || smem v (efrom e).
Definition delete_node (v : sym) (g : hgraph) : hgraph := filter_edges (fun e => negb (touches v e)) g.
Definition delete_nodes (vs : list sym) (g : hgraph) : hgraph := fold_left (fun h v => delete_node v h) vs g.

(** [makeEmpty] (src/graph/ChcGraph.cc:579-585); the counter of fresh variables is static. *)
Definition empty_graph (g : hgraph) : hgraph := mkGraph [] (fun _ => []) 1 (gctr g).

(** ** RemoveUnreachableNodes *)
(** [computeBackwardUnreachable] (src/transformers/RemoveUnreachableNodes.cc:11-35).  The queue is a vector
    used as a stack; its back is the head of the list. *)
Definition bw_visit (st : list sym * list sym) (s : sym) : list sym * list sym :=
  if smem s (snd st) then st else (s :: fst st, s :: snd st).
Fixpoint bw_loop (g : hgraph) (fuel : nat) (queue reached : list sym) : option (list sym) :=
  match fuel with
  | O => None
  | S f =>
    match queue with
    | [] => Some reached
    | v :: q =>
      let st := fold_left (fun st i => fold_left bw_visit (hsources g i) st) (in_edges g v) (q, reached) in
      bw_loop g f (fst st) (snd st)
    end
  end.
Definition unreached (g : hgraph) (reached : list sym) : list sym := filter (fun v => negb (smem v reached)) (hnodes g).
Definition backward_unreachable (g : hgraph) : option (list sym) :=
  option_map (unreached g) (bw_loop g (S (S (length (hnodes g)))) [exit] [entry; exit]).

(** [computeForwardUnreachable] (src/transformers/RemoveUnreachableNodes.cc:37-64). *)
Definition fw_visit (g : hgraph) (st : list sym * list sym) (i : nat) : list sym * list sym :=
  let t := htarget g i in
  if smem t (snd st) then st
  else if forallb (fun s => smem s (snd st)) (hsources g i) then (t :: fst st, t :: snd st) else st.
Fixpoint fw_loop (g : hgraph) (fuel : nat) (queue reached : list sym) : option (list sym) :=
  match fuel with
  | O => None
  | S f =>
    match queue with
    | [] => Some reached
    | v :: q =>
      let st := fold_left (fw_visit g) (out_edges g v) (q, reached) in
      fw_loop g f (fst st) (snd st)
    end
  end.
Definition forward_unreachable (g : hgraph) : option (list sym) :=
  option_map (unreached g) (fw_loop g (S (S (length (hnodes g)))) [entry] [entry]).

(** [unordered_map::insert]: does not replace an existing definition. *)
Definition winsert (d : term) (w : defs_t) (p : sym) : defs_t := match w p with Some _ => w | None => wset w p d end.
(** [BackTranslator::translate] (src/transformers/RemoveUnreachableNodes.cc:102-114). *)
Definition back_unreachable (fu bu : list sym) (w : defs_t) : defs_t :=
  fold_left (winsert tt_false) fu (fold_left (winsert tt_true) bu w).

Definition inner_nodes (g : hgraph) : list sym := filter (fun v => negb (Nat.eqb v entry || Nat.eqb v exit)) (hnodes g).
(** [RemoveUnreachableNodes::transform] (src/transformers/RemoveUnreachableNodes.cc:68-100). *)
Definition remove_unreachable (g : hgraph) : option trans :=
  match in_edges g exit, out_edges g entry with
  | [], _ => Some (mkTrans (empty_graph g) (fun w => Some (back_unreachable [] (inner_nodes g) w)) Some)
  | _ :: _, [] => Some (mkTrans (empty_graph g) (fun w => Some (back_unreachable (inner_nodes g) [] w)) Some)
  | _ :: _, _ :: _ =>
    match backward_unreachable g with
    | None => None
    | Some bu =>
      let g1 := delete_nodes bu g in
      match forward_unreachable g1 with
      | None => None
      | Some fu => Some (mkTrans (delete_nodes fu g1) (fun w => Some (back_unreachable fu bu w)) Some)
      end
    end
  end.
(** [RemoveForwardUnreachableNodes::transform] and its back translation
    (src/transformers/RemoveUnreachableNodes.cc:116-146). *)
Definition remove_forward_unreachable (g : hgraph) : option trans :=
  match out_edges g entry with
  | [] => Some (mkTrans (empty_graph g) (fun w => Some (back_unreachable (inner_nodes g) [] w)) Some)
  | _ :: _ =>
    match forward_unreachable g with
    | None => None
    | Some fu => Some (mkTrans (delete_nodes fu g) (fun w => Some (back_unreachable fu [] w)) Some)
    end
  end.

(** ** FalseClauseRemoval *)
(** [deleteFalseEdges] (src/graph/ChcGraph.cc:534-536), [FalseClauseRemoval::transform]
    (src/transformers/FalseClauseRemoval.cc:10-13); both back translations are the identity
    (src/transformers/FalseClauseRemoval.h). *)
Definition remove_false (g : hgraph) : trans :=
  mkTrans (filter_edges (fun e => negb (term_eqb (efla e) tt_false)) g) Some Some.

(** ** MultiEdgeMerger *)
Definition is_single (e : hedge) : bool := Nat.eqb (length (efrom e)) 1.
Definition same_bucket (a b : hedge) : bool :=
  is_single a && is_single b && Nat.eqb (hd entry (efrom a)) (hd entry (efrom b)) && Nat.eqb (eto a) (eto b).
Definition bucket (g : hgraph) (e : hedge) : list hedge := filter (same_bucket e) (gedges g).
Definition merged_edge (b : list hedge) (e0 : hedge) : hedge :=
  mkEdge (eid e0) (efrom e0) (eto e0) (mkOr (map efla b)).
(** What becomes of one edge in [mergeMultiEdges] (src/graph/ChcGraph.cc:508-532): the first edge of a
    bucket of at least two gets the disjunction, the others are erased. *)
Definition merge_one (g : hgraph) (e : hedge) : list hedge :=
  if is_single e then
    match bucket g e with
    | e0 :: e1 :: b => if Nat.eqb (eid e0) (eid e) then [merged_edge (e0 :: e1 :: b) e0] else []
    | _ => [e]
    end
  else [e].
Definition merge_multi (g : hgraph) : hgraph :=
  mkGraph (concat (map (merge_one g) (gedges g))) (gpv g) (gfree g) (gctr g).
(** The result of [mergeMultiEdges]: replaced edges and their replacement (in edge order; the order of the
    buckets in the code's unordered_map does not matter). *)
Definition merged_of (g : hgraph) (e : hedge) : list (list hedge * hedge) :=
  if is_single e then
    match bucket g e with
    | e0 :: e1 :: b => if Nat.eqb (eid e0) (eid e) then [(e0 :: e1 :: b, merged_edge (e0 :: e1 :: b) e0)] else []
    | _ => []
    end
  else [].
Definition merged_edges (g : hgraph) : list (list hedge * hedge) := concat (map (merged_of g) (gedges g)).

Section Merger.
Variable check : check_fn.
(** The simplification OpenSMT performs while building a term. *)
Variable simp : term -> term.
(** The choice of the edge (src/transformers/MultiEdgeMerger.cc:59-74). *)
Definition choose_edge (m : submap) (es : list hedge) : option hedge :=
  match find (fun e => term_eqb (simp (subst m (efla e))) tt_true) es with
  | Some e => Some e
  | None => find (fun e => negb (term_eqb (simp (subst m (efla e))) tt_false) &&
                           match check [simp (subst m (efla e))] with SAT _ => true | _ => false end) es
  end.
(** One step (src/transformers/MultiEdgeMerger.cc:21-79); [None]: no edge found, or a premise index out of range. *)
Definition back_merge_step (g : hgraph) (d : derivation) (s : step) : option step :=
  match find (fun m => Nat.eqb (eid (snd m)) (st_clause s)) (merged_edges g) with
  | None => Some s
  | Some (es, me) =>
    match st_premises s with
    | [] => None
    | k :: _ =>
      match nth_error d k with
      | None => None
      | Some ps =>
        let m := fill (tgt_vars g (eto me)) (st_fact s) ++ fill (src_vars g (hd entry (efrom me), 0)) (st_fact ps) in
        match choose_edge m es with
        | None => None
        | Some e => Some (mkStep (st_premises s) (st_fact s) (eid e))
        end
      end
    end
  end.
Fixpoint map_opt {A B} (f : A -> option B) (l : list A) : option (list B) :=
  match l with
  | [] => Some []
  | x :: l' => match f x, map_opt f l' with Some y, Some ys => Some (y :: ys) | _, _ => None end
  end.
(** [MultiEdgeMerger::BackTranslator::translate] (src/transformers/MultiEdgeMerger.cc:18-82). *)
Definition back_merge (g : hgraph) : backI := fun d => map_opt (back_merge_step g d) d.
(** [MultiEdgeMerger::transform] (src/transformers/MultiEdgeMerger.cc:12-16, 84-86). *)
Definition merge_edges (g : hgraph) : trans := mkTrans (merge_multi g) Some (back_merge g).

(** ** TrivialEdgePruner *)
Definition is_direct (e : hedge) : bool :=
  Nat.eqb (eto e) exit && match efrom e with [p] => Nat.eqb p entry | _ => false end.
(** Back translation (src/transformers/TrivialEdgePruner.cc:48-53): the clause of step 1 is replaced. *)
Definition back_prune (i : nat) : backI := fun d =>
  match d with
  | s0 :: s1 :: rest => Some (s0 :: mkStep (st_premises s1) (st_fact s1) i :: rest)
  | _ => None
  end.
Fixpoint prune_loop (g : hgraph) (es : list hedge) : trans :=
  match es with
  | [] => mkTrans (filter_edges (fun e => negb (is_direct e)) g) Some Some
  | e :: es' =>
    match check [efla e] with
    | SAT _ => mkTrans (mkGraph [mkEdge 1 (efrom e) (eto e) (efla e)] (fun _ => []) 2 (gctr g)) (fun _ => None) (back_prune (eid e))
    | UNKNOWN => mkTrans g Some Some
    | UNSAT => prune_loop g es'
    end
  end.
(** [TrivialEdgePruner::transform] (src/transformers/TrivialEdgePruner.cc:12-44).  A validity witness of the
    graph reduced to a satisfiable edge does not exist; its translation is [None] here (an assertion in the code). *)
Definition prune_trivial (g : hgraph) : trans :=
  match filter is_direct (gedges g) with
  | [] => mkTrans g Some Some
  | es => prune_loop g es
  end.
End Merger.

(** ** ConstraintSimplifier *)
(** [TrivialQuantifierElimination] with a set of variables to keep, as a total function; see [tqe] below. *)
Definition elim_fn := (var -> bool) -> term -> term.
Definition elim_ok (elim : elim_fn) : Prop := forall keep t,
  (forall v, In v (vars (elim keep t)) -> In v (vars t)) /\
  forall r, (exists r', (forall v, keep v = true -> r' v = r v) /\ holds r' t) <->
            (exists r', (forall v, keep v = true -> r' v = r v) /\ holds r' (elim keep t)).
(** The elimination of src/TermUtils.cc:30-105 ([try_eliminate] in FormulaModel.v) with enough fuel. *)
Definition tqe (retrieve : retrieve_fn) (fractional : term -> bool) : elim_fn := fun keep t =>
  match try_eliminate retrieve keep fractional (S (length (vars t))) t with Some u => u | None => t end.

Section Simplifier.
Variable elim : elim_fn.
(** eliminateItes, eliminateDivMod, eliminateDistincts (src/transformers/ConstraintSimplifier.cc:20-34,
    46-48): OpenSMT rewriters that may introduce variables. *)
Variable rewrite_label : term -> term.
(** The variables left without tag and version get version zero (64-79). *)
Definition version_local (v : var) : var :=
  match vtag v with TBase => mkVar (vbase v) (TTime 0) (vsort v) | _ => v end.
(** One label (src/transformers/ConstraintSimplifier.cc:43-80). *)
Definition simplify_label (g : hgraph) (e : hedge) : term :=
  rename version_local (elim (fun v => inb v (own_vars g e)) (rewrite_label (efla e))).
Definition simplify_edge (g : hgraph) (e : hedge) : hedge := mkEdge (eid e) (efrom e) (eto e) (simplify_label g e).
(** [ConstraintSimplifier::transform] (src/transformers/ConstraintSimplifier.cc:39-83). *)
Definition simplify_constraints (g : hgraph) : trans :=
  mkTrans (mkGraph (map (simplify_edge g) (gedges g)) (gpv g) (gfree g) (gctr g)) Some Some.
End Simplifier.

(** ** Pipelines *)
(** [TransformationPipeline::transform] and its back translators, applied in reverse order
    (src/transformers/TransformationPipeline.cc:11-34). *)
Fixpoint run_pipeline (ts : list (hgraph -> option trans)) (g : hgraph) : option (hgraph * list trans) :=
  match ts with
  | [] => Some (g, [])
  | t :: ts' =>
    match t g with
    | None => None
    | Some r => match run_pipeline ts' (tr_graph r) with Some (g', bs) => Some (g', r :: bs) | None => None end
    end
  end.
Definition back_all {A} (bs : list (A -> option A)) (a : A) : option A :=
  fold_left (fun acc b => match acc with Some x => b x | None => None end) bs (Some a).
Definition pipeline (ts : list (hgraph -> option trans)) (g : hgraph) : option trans :=
  match run_pipeline ts g with
  | None => None
  | Some (g', bs) => Some (mkTrans g' (back_all (rev (map tr_valid bs))) (back_all (rev (map tr_invalid bs))))
  end.
