(** * Linear graphs: conversion, transition-system extraction, witnesses of linear graphs. *)
From Verif Require Import Syntax Solver TransSys Graph GraphOps GraphOpsProofs GraphSem SimpleTransModel MergeModel.
Open Scope list_scope.
Open Scope nat_scope.

(** ** Specification: meaning of a linear graph *)
(** One inference by an edge: some assignment satisfies the label, gives the source its current-state arguments and the
    target its next-state arguments. *)
Definition lfollows (g : lgraph) (e : ledge) (f f' : fact) : Prop :=
  exists r, holds r (lfla e) /\ f = (lfrom e, args r (cur_vars g (lfrom e))) /\ f' = (lto e, args r (nxt_vars g (lto e))).
Inductive lderivable (g : lgraph) : fact -> Prop :=
| lder_entry : lderivable g (entry, [])
| lder_edge e f f' : In e (ledges g) -> lderivable g f -> lfollows g e f f' -> lderivable g f'.
Record lsolution (g : lgraph) (w : defs_t) : Prop := {
  lsol_vars : forall p d, w p = Some d -> forall v, In v (vars d) -> In v (lpv g p);
  lsol_entry : exists d, w entry = Some d /\ forall r, holds r d;
  lsol_exit : exists d, w exit = Some d /\ forall r, ~ holds r d;
  lsol_edge : forall e, In e (ledges g) -> exists ds dt, w (lfrom e) = Some ds /\ w (lto e) = Some dt /\
    forall r, holds r (lfla e) -> holds r (rename cur ds) -> holds r (rename nxt dt)
}.
Definition lstep_ok (g : lgraph) (d : derivation) (i : nat) (s : step) : Prop :=
  exists e k f, In e (ledges g) /\ lid e = st_clause s /\ st_premises s = [k] /\ k < i /\
    option_map st_fact (nth_error d k) = Some f /\ lfollows g e f (st_fact s).
Record lrefutation (g : lgraph) (d : derivation) : Prop := {
  lref_first : option_map st_fact (nth_error d 0) = Some (entry, []);
  lref_last : exists n, length d = S n /\ option_map st_fact (nth_error d n) = Some (exit, []);
  lref_steps : forall i s, 0 < i -> nth_error d i = Some s -> lstep_ok g d i s
}.

(** ** Well-formed linear graphs *)
(** Auxiliary variables are version-zero variables and no state variables. *)
Record lwf (g : lgraph) : Prop := {
  lwf_rep : rep_wf (lpv g);
  lwf_ids : NoDup (map lid (ledges g));
  lwf_label : forall e v, In e (ledges g) -> In v (vars (lfla e)) ->
     In v (cur_vars g (lfrom e)) \/ In v (nxt_vars g (lto e)) \/
     (vtag v = TTime 0 /\ forall p, lvertex g p -> ~ In v (cur_vars g p));
  lwf_entry : forall e, In e (ledges g) -> lto e <> entry;
  lwf_exit : forall e, In e (ledges g) -> lfrom e <> exit
}.

(** ** Conversion *)
(** [isNormalGraph] (src/graph/ChcGraph.cc:65-71). *)
Definition is_normal (g : hgraph) : bool := forallb (fun e => Nat.eqb (length (efrom e)) 1) (gedges g).
(** The substitution of [toNormalGraph] (src/graph/ChcGraph.cc:94-109): source variables become current-state
    variables, target variables next-state variables. *)
Definition normal_map (g : hgraph) (e : hedge) : vmap :=
  map (fun b => (src 0 b, cur b)) (gpv g (hd entry (efrom e))) ++ map (fun b => (tgt b, nxt b)) (gpv g (eto e)).
Definition normal_edge (g : hgraph) (e : hedge) : ledge :=
  mkLEdge (eid e) (hd entry (efrom e)) (eto e) (rename (vlookup (normal_map g e)) (efla e)).
(** [ChcDirectedHyperGraph::toNormalGraph] (src/graph/ChcGraph.cc:73-115). *)
Definition to_normal (g : hgraph) : lgraph := mkLGraph (map (normal_edge g) (gedges g)) (gpv g).
(** [ChcDirectedGraph::toHyperGraph] (src/graph/ChcGraph.cc:209-248).  The constructor of the hypergraph numbers the
    edges anew in order (src/graph/ChcGraph.h:252-260; ids are shifted by one here, see GraphSem.v). *)
Definition hyper_map (g : lgraph) (e : ledge) : vmap :=
  map (fun b => (cur b, src 0 b)) (lpv g (lfrom e)) ++ map (fun b => (nxt b, tgt b)) (lpv g (lto e)).
Definition hyper_edge (g : lgraph) (k : nat) (e : ledge) : hedge :=
  mkEdge (S k) [lfrom e] (lto e) (rename (vlookup (hyper_map g e)) (lfla e)).
Definition to_hyper (ctr : nat) (g : lgraph) : hgraph :=
  mkGraph (map (fun ke => hyper_edge g (fst ke) (snd ke)) (combine (seq 0 (length (ledges g))) (ledges g)))
          (lpv g) (S (length (ledges g))) ctr.

(** ** Transition systems *)
(** [isTransitionSystem] (src/TransformationUtils.cc:12-35). *)
Definition is_transition_system (g : lgraph) : bool :=
  match reverse_post_order g with
  | Some [b; l; e] =>
      Nat.eqb b entry && Nat.eqb e exit &&
      match out_ids g b with [i] => Nat.eqb (ltarget g i) l | _ => false end &&
      Nat.eqb (length (out_ids g l)) 2 &&
      existsb (fun i => Nat.eqb (ltarget g i) l) (out_ids g l) &&
      existsb (fun i => Nat.eqb (ltarget g i) e) (out_ids g l) &&
      match out_ids g e with [] => true | _ => false end
  | _ => false
  end.
(** [getVariablesFromEdge] (src/TransformationUtils.cc:230-246), the auxiliary variables. *)
Definition laux_vars (g : lgraph) (e : ledge) : list var :=
  filter (fun v => negb (inb v (cur_vars g (lfrom e))) && negb (inb v (nxt_vars g (lto e)))) (nodup var_dec (vars (lfla e))).
(** The variables of the system (src/TransformationUtils.cc:58-71): (state, next state, auxiliary); the state variables
    are those of the last self-loop met. *)
Definition system_vars (g : lgraph) : list var * list var * list var :=
  fold_left (fun (acc : list var * list var * list var) e =>
     let '(s, n, a) := acc in
     if Nat.eqb (lfrom e) (lto e) then (cur_vars g (lfrom e), nxt_vars g (lto e), a ++ laux_vars g e)
     else (s, n, a ++ laux_vars g e)) (ledges g) ([], [], []).
Section ToTS.
(** [TrivialQuantifierElimination::tryEliminateVarsExcept]. *)
Variable elim : elim_fn.
(** The loop over the edges (src/TransformationUtils.cc:83-112); a later edge of the same kind overwrites an earlier one
    (the assertions of the debug build are not modelled). *)
Definition ts_parts (g : lgraph) (vs : list sym) : option term * option term * option term :=
  let '(s, n, _) := system_vars g in
  let v0 := nth 0 vs entry in let v1 := nth 1 vs entry in let v2 := nth 2 vs entry in
  fold_left (fun (acc : option term * option term * option term) e =>
    let '(i, t, b) := acc in
    let i' := if Nat.eqb (lfrom e) v0 && Nat.eqb (lto e) v1
              then Some (rename (vlookup (combine n s)) (elim (fun v => inb v n) (lfla e))) else i in
    let t' := if Nat.eqb (lfrom e) v1 && Nat.eqb (lto e) v1 then Some (lfla e) else t in
    let b' := if Nat.eqb (length vs) 3 && Nat.eqb (lfrom e) v1 && Nat.eqb (lto e) v2
              then Some (elim (fun v => inb v s) (lfla e)) else b in
    (i', t', b')) (ledges g) (None, None, None).
(** [toTransitionSystem] (src/TransformationUtils.cc:53-119) with [allowNoQuery = false]; [None]: a formula is missing
    (PTRef_Undef, an assertion in the code). *)
Definition to_transition_system (g : lgraph) : option tsys :=
  match reverse_post_order g with
  | Some vs =>
      let '(s, n, a) := system_vars g in
      match ts_parts g vs with
      | (Some i, Some t, Some b) => Some (mkTS s a i t b)
      | _ => None
      end
  | None => None
  end.
(** [ensureNoAuxiliaryVariablesInInitAndQuery] (src/TransformationUtils.cc:121-138): quantifier elimination of the
    auxiliary variables of a formula, if it has any. *)
Variable qe : qe_fn.
Definition drop_aux (a : list var) (f : term) : option term :=
  if existsb (fun v => inb v a) (vars f) then qe f (filter (fun v => negb (inb v a)) (vars f)) else Some f.
Definition ensure_no_aux (ts : tsys) : option tsys :=
  match avars ts with
  | [] => Some ts
  | a => match drop_aux a (tinit ts), drop_aux a (tquery ts) with
         | Some i, Some b => Some (mkTS (svars ts) a i (ttrans ts) b)
         | _, _ => None
         end
  end.
End ToTS.

(** ** Witnesses *)
(** [ErrorPath::fromTransitionSystem] (src/Witnesses.cc:163-183); [None]: the empty path, or a missing edge (the code
    dereferences an end iterator). *)
Definition path_from_ts (g : lgraph) (n : nat) : option (list nat) :=
  if is_transition_system g then
    match find (fun p => negb (Nat.eqb p entry) && negb (Nat.eqb p exit)) (lvertices g) with
    | None => None
    | Some l =>
        match find (fun i => Nat.eqb (lsource g i) (ltarget g i)) (getd (incoming (ladjacency_of g)) l),
              out_ids g entry, getd (incoming (ladjacency_of g)) exit with
        | Some lp, s :: _, f :: _ => Some (s :: repeat lp n ++ [f])
        | _, _, _ => None
        end
    end
  else None.

(** Result of [InvalidityWitness::fromErrorPath]. *)
Inductive path_witness := NoPath | PathThrows | PathDerivation (d : derivation).
Section FromPath.
Variable check : check_fn.
(** The formula of the path (src/Witnesses.cc:60-64): the i-th label sent i steps through time. *)
Fixpoint path_labels (i : Z) (es : list ledge) : list term :=
  match es with [] => [] | e :: es' => shift i (lfla e) :: path_labels (i + 1)%Z es' end.
(** The vertices on the path (src/Witnesses.cc:83-86). *)
Definition path_vertices (es : list ledge) : list sym :=
  map lfrom es ++ match rev es with e :: _ => [lto e] | [] => [] end.
(** [UPHelper] and [instantiate] (src/Witnesses.cc:70-98): the arguments of vertex number i, sent i steps through time,
    in the model. *)
Definition path_fact (g : lgraph) (r : valuation) (i : nat) (p : sym) : fact :=
  (p, args r (map (shiftv (Z.of_nat i)) (cur_vars g p))).
Fixpoint path_steps (g : lgraph) (r : valuation) (k : nat) (es : list ledge) (vs : list sym) : derivation :=
  match es, vs with
  | e :: es', p :: vs' => mkStep [k - 1] (path_fact g r k p) (lid e) :: path_steps g r (S k) es' vs'
  | _, _ => []
  end.
(** [edges.at(eid)]: throws for an unknown id. *)
Fixpoint path_edges (g : lgraph) (ids : list nat) : option (list ledge) :=
  match ids with
  | [] => Some []
  | i :: ids' => match lfind g i, path_edges g ids' with Some e, Some l => Some (e :: l) | _, _ => None end
  end.
(** [InvalidityWitness::fromErrorPath] (src/Witnesses.cc:49-118). *)
Definition from_error_path (g : lgraph) (ids : list nat) : path_witness :=
  match ids with
  | [] => NoPath
  | _ =>
      match path_edges g ids with
      | None => PathThrows
      | Some es =>
          match check (path_labels 0 es) with
          | SAT r => PathDerivation (mkStep [] (entry, []) no_id :: path_steps g r 1 es (tl (path_vertices es)))
          | _ => PathThrows
          end
      end
  end.
(** [InvalidityWitness::fromTransitionSystem] (src/Witnesses.cc:120-122). *)
Definition from_ts_steps (g : lgraph) (n : nat) : path_witness :=
  match path_from_ts g n with Some ids => from_error_path g ids | None => NoPath end.
End FromPath.

(** [trivialDefinitions] (src/Witnesses.cc:233-238). *)
Definition trivial_defs : defs_t := fun p => if Nat.eqb p entry then Some tt_true else if Nat.eqb p exit then Some tt_false else None.
(** [ValidityWitness::fromTransitionSystem] (src/Witnesses.cc:185-209); [vertices[2]] is the vertex that is neither
    entry nor exit ([true] and [false] have the smallest symbol numbers). *)
Definition from_ts_invariant (g : lgraph) (ts : tsys) (inv : term) : option defs_t :=
  if is_transition_system g then
    match find (fun p => negb (Nat.eqb p entry) && negb (Nat.eqb p exit)) (lvertices g) with
    | None => None
    | Some l => Some (wset trivial_defs l (rename (vlookup (combine (svars ts) (lpv g l))) inv))
    end
  else None.

(** Answers with witnesses ([VerificationResult], src/Witnesses.h:132-154). *)
Inductive vresult := VSafe (w : defs_t) | VUnsafe (d : derivation) | VNoWitness | VUnknown | VThrow.
(** [TransitionSystemVerificationResult] (src/Witnesses.h:156-159). *)
Inductive tsresult := TSafe (inv : term) | TUnsafe (n : nat) | TUnknown.
(** [translateTransitionSystemResult] (src/Witnesses.cc:211-223). *)
Definition translate_ts_result (check : check_fn) (g : lgraph) (ts : tsys) (r : tsresult) : vresult :=
  match r with
  | TSafe inv => match from_ts_invariant g ts inv with Some w => VSafe w | None => VNoWitness end
  | TUnsafe n => match from_ts_steps check g n with PathDerivation d => VUnsafe d | NoPath => VNoWitness | PathThrows => VThrow end
  | TUnknown => VUnknown
  end.

(** [isTrivial] (src/TransformationUtils.cc:265-271). *)
Definition is_trivial_graph (g : lgraph) : bool :=
  forallb (fun e => Nat.eqb (lfrom e) entry && Nat.eqb (lto e) exit) (ledges g).
(** [solveTrivial] (src/engine/Common.cc:6-36). *)
Fixpoint solve_trivial_edges (check : check_fn) (es : list ledge) : vresult :=
  match es with
  | [] => VSafe trivial_defs
  | e :: es' =>
      if term_eqb (lfla e) tt_false then solve_trivial_edges check es'
      else match check [lfla e] with
           | UNSAT => solve_trivial_edges check es'
           | SAT _ => VUnsafe [mkStep [] (entry, []) no_id; mkStep [0] (exit, []) (lid e)]
           | UNKNOWN => VUnknown
           end
  end.
Definition solve_trivial (check : check_fn) (g : lgraph) : vresult := solve_trivial_edges check (ledges g).

(** The transition-system branch of [TransitionSystemEngine::solve] (src/engine/TransitionSystemEngine.cc:29-38) for an
    engine on transition systems; [None]: the SingleLoop branch (modelled in SingleLoopModel.v) is taken. *)
Definition ts_engine_solve (elim : elim_fn) (qe : qe_fn) (check : check_fn) (engine : tsys -> tsresult) (g : lgraph) : option vresult :=
  if is_trivial_graph g then Some (solve_trivial check g)
  else if is_transition_system g then
    match to_transition_system elim g with
    | None => Some VThrow
    | Some ts => match ensure_no_aux qe ts with
                 | None => Some VThrow
                 | Some ts' => Some (translate_ts_result check g ts' (engine ts'))
                 end
    end
  else None.
