(** * TPA on directed acyclic graphs of loops: [TransitionSystemNetworkManager] (src/engine/TPA.cc:1383-1676).

    Every vertex but entry and exit has a TPA solver for its self-loop; a depth-first search passes reached states forward through
    loops and edges, and safe states backward.  The solver objects keep their powers and their left and right invariants between the
    queries. *)
From Verif Require Import Syntax Solver TransSys KTo1Model Graph GraphOps GraphOpsProofs LinearModel FormulaModel TpaModel.
Open Scope list_scope.
Open Scope nat_scope.

(** The system with other initial and query states: [resetInitialStates], [resetQueryStates] (lines 338-350). *)
Definition with_states (ts : tsys) (from to : term) : tsys := mkTS (svars ts) (avars ts) from (ttrans ts) to.

(** [isTransitionSystemDAG] (src/TransformationUtils.cc:205-228).  [None]: the searches of the model ran out of fuel (they do not). *)
Definition is_ts_dag (g : lgraph) : option bool :=
  if Nat.ltb (length (lvertices g)) 3 then Some false
  else match reverse_post_order g, detect_loop g with
       | Some vs, Some l =>
         Some (Nat.eqb (length l) 0
               && forallb (fun v => existsb (fun i => Nat.eqb (ltarget g i) v) (out_ids g v) && existsb (fun i => negb (Nat.eqb (ltarget g i) v)) (out_ids g v)) (removelast (tl vs))
               && negb (existsb (fun i => Nat.eqb (ltarget g i) exit) (out_ids g entry)))
       | _, _ => None
       end.

(** [getSelfLoopFor] (src/graph/ChcGraph.cc:250-255). *)
Definition self_loop_id (g : lgraph) (v : sym) : option nat := find (fun i => Nat.eqb (ltarget g i) v) (out_ids g v).
Definition self_loop_of (g : lgraph) (v : sym) : option ledge := match self_loop_id g v with Some i => lfind g i | None => None end.
(** [constructTransitionSystemFor] (lines 1606-1613).  As for [toTransitionSystem] (LinearModel.v) the variables of the system are the
    version-zero variables of the edge, so that the substitution of [transitionFormulaInSystemType] is the identity.  [None]:
    std::bad_optional_access, there is no self-loop. *)
Definition vertex_ts (g : lgraph) (v : sym) : option tsys :=
  match self_loop_of g v with
  | Some e => Some (mkTS (cur_vars g v) (laux_vars g e) tt_true (lfla e) tt_true)
  | None => None
  end.

(** The children of a vertex in the order of [initNetwork] (lines 1470-1481). *)
Definition children (g : lgraph) (o : list sym) (v : sym) : list nat :=
  concat (map (fun w => if Nat.eqb w entry then []
                        else filter (fun i => negb (Nat.eqb (lsource g i) (ltarget g i)) && Nat.eqb (lsource g i) v) (getd (incoming (ladjacency_of g)) w)) o).

Inductive node_state := PRE | POST.
(** [Entry] (lines 1486-1492). *)
Record pentry := mkEntry { en_state : node_state; en_node : sym; en_edge : option nat; en_reached : term }.

Section Dag.
Variable check : check_fn.
Variable itp : itp_fn.
Variable mbp : mbp_fn.
(** The constructors of Logic simplify. *)
Variable lsimp : term -> term.
(** The objects of class TPABase: their states, [resetTransitionSystem] (on the normalised system), and the queries: new initial states, new
    query states, [solve]. *)
Variable St : Type.
Variable start : tsys -> St.
Variable ask : tsys -> St -> term -> term -> out (tres * St).
Variable tsimp : term -> term.
Variable g : lgraph.

(** [NetworkNode] (lines 1398-1405).  [nd_blocked]: the reasons of the first [blocked_children] children; [nd_steps]: [getTransitionStepCount]. *)
Record node := mkNode { nd_sys : option (tsys * St); nd_pre : term; nd_post : term; nd_blocked : list term; nd_steps : nat }.
Definition network := sym -> node.
Definition upd_node (nw : network) (v : sym) (n : node) : network := fun w => if Nat.eqb w v then n else nw w.
Definition lnot (t : term) : term := lsimp (mkNot t).

(** [initNetwork] (lines 1456-1482). *)
Definition init_node (v : sym) : out node :=
  if Nat.eqb v entry || Nat.eqb v exit then Ret (mkNode None tt_false tt_false [] 0)
  else match vertex_ts g v with
       | None => Exc
       | Some ts => match normal_ts tsimp ts with
                    | None => Exc
                    | Some ts' => Ret (mkNode (Some (ts', start ts')) tt_false tt_false [] 0)
                    end
       end.
Fixpoint init_network (vs : list sym) : out network :=
  match vs with
  | [] => Ret (fun _ => mkNode None tt_false tt_false [] 0)
  | v :: vs' => obind (init_node v) (fun n => obind (init_network vs') (fun nw => Ret (upd_node nw v n)))
  end.

(** [queryEdge] (lines 1615-1652). *)
Inductive edge_res := EReach (t : term) | EBlock (t : term).
Definition query_edge (e : ledge) (from to : term) : out edge_res :=
  let fs := [from; lfla e; shift 1 to] in
  match check fs with
  | SAT m => match mbp (lsimp (mkAnd fs)) (nxt_vars g (lto e)) m with Some t => Ret (EReach (shift (-1) t)) | None => Exc end
  | UNSAT => match itp [lfla e; shift 1 to] [from] with Some J => Ret (EBlock (lnot J)) | None => Exc end
  | UNKNOWN => Exc
  end.

(** [queryTransitionSystem] (lines 1654-1676). *)
Inductive sys_res := SReach (t : term) (n : nat) | SBlock (t : term) (e : expl).
Definition query_system (n : node) (from to : term) : out (sys_res * option (tsys * St)) :=
  match nd_sys n with
  | None => Exc
  | Some (ts, st) =>
    obind (ask ts st from to) (fun '(r, st') =>
    match r with
    | TUnsafe t k => Ret (SReach t k, Some (ts, st'))
    | TSafe e => obind (safety_explanation check itp (with_states ts from to) e) (fun t => Ret (SBlock t e, Some (ts, st')))
    | TUnknown => Exc
    end)
  end.

(** The main loop (lines 1506-1557); the path is a stack, its last entry first. *)
Inductive dag_res := DSafe (nw : network) | DUnsafe (path : list pentry) (nw : network).
Fixpoint dag_loop (fuel : nat) (ch : sym -> list nat) (nw : network) (path : list pentry) : out dag_res :=
  match fuel with
  | O => NoFuel
  | S fuel =>
    match path with
    | [] => Ret (DSafe nw)
    | mkEntry PRE v _ reached :: rest =>
      let n := nw v in
      obind (query_system n reached (lnot (nd_post n))) (fun '(r, sys) =>
      match r with
      | SReach t k => dag_loop fuel ch (upd_node nw v (mkNode sys (nd_pre n) (nd_post n) (nd_blocked n) k)) (mkEntry POST v None t :: path)
      | SBlock t _ => dag_loop fuel ch (upd_node nw v (mkNode sys (lsimp (mkOr [nd_pre n; t])) (nd_post n) (nd_blocked n) (nd_steps n))) rest
      end)
    | mkEntry POST v _ reached :: rest =>
      let n := nw v in
      match nth_error (ch v) (length (nd_blocked n)) with
      | None =>
        dag_loop fuel ch (upd_node nw v (mkNode (nd_sys n) (nd_pre n) (lsimp (mkOr [nd_post n; lsimp (mkAnd (nd_blocked n))])) [] (nd_steps n))) rest
      | Some i =>
        match lfind g i with
        | None => Exc
        | Some e =>
          obind (query_edge e reached (lnot (nd_pre (nw (lto e))))) (fun r =>
          match r with
          | EReach t =>
            let path' := mkEntry PRE (lto e) (Some i) t :: path in
            if Nat.eqb (lto e) exit then Ret (DUnsafe path' nw) else dag_loop fuel ch nw path'
          | EBlock t => dag_loop fuel ch (upd_node nw v (mkNode (nd_sys n) (nd_pre n) (nd_post n) (nd_blocked n ++ [t]) (nd_steps n))) path
          end)
        end
      end
    end
  end.

(** [extractPath] and [computeInvalidityWitness] (lines 1496-1502, 1562-1573). *)
Fixpoint path_ids (nw : network) (path : list pentry) : out (list nat) :=
  match path with
  | [] => Ret []
  | mkEntry POST _ _ _ :: rest => path_ids nw rest
  | mkEntry PRE _ None _ :: _ => Exc
  | mkEntry PRE _ (Some i) _ :: rest =>
    obind (path_ids nw rest) (fun l =>
    let v := ltarget g i in
    if Nat.eqb v exit then Ret (l ++ [i])
    else match self_loop_id g v with
         | Some j => Ret (l ++ i :: repeat j (nd_steps (nw v)))
         | None => Exc
         end)
  end.

(** [computeValidityWitness] (lines 1575-1604). *)
Variable pitp : pitp_fn.
Variable qe : qe_fn.
Fixpoint dag_defs (nw : network) (vs : list sym) (w : defs_t) : out defs_t :=
  match vs with
  | [] => Ret w
  | v :: vs' =>
    if Nat.eqb v entry || Nat.eqb v exit then dag_defs nw vs' w
    else
      let n := nw v in
      let to := lnot (nd_post n) in
      obind (query_system n (nd_pre n) to) (fun '(r, sys) =>
      match r, sys with
      | SBlock _ e, Some (ts, _) =>
        obind (inductive_invariant check (with_states ts (nd_pre n) to) pitp qe e) (fun inv =>
        match inv with
        | Some t => dag_defs nw vs' (wset w v (rename (vlookup (combine (svars ts) (lpv g v))) t))
        | None => Exc
        end)
      | _, _ => Exc
      end)
  end.

(** The answers: SAFE, UNSAFE, each with a witness or without. *)
Inductive gans := GASafe (w : option defs_t) | GAUnsafe (d : option derivation).
(** [solve] (lines 1506-1560); [wit]: a witness is computed. *)
Definition dag_solve (wit : bool) (fuel : nat) : out gans :=
  match reverse_post_order g with
  | None => Exc
  | Some o =>
    obind (init_network (lvertices g)) (fun nw0 =>
    obind (dag_loop fuel (children g o) nw0 [mkEntry POST entry None tt_true]) (fun r =>
    match r with
    | DSafe nw => if wit then obind (dag_defs nw (lvertices g) trivial_defs) (fun w => Ret (GASafe (Some w))) else Ret (GASafe None)
    | DUnsafe path nw =>
      if wit then obind (path_ids nw path) (fun ids =>
        match from_error_path check g ids with PathDerivation d => Ret (GAUnsafe (Some d)) | NoPath => Ret (GAUnsafe None) | PathThrows => Exc end)
      else Ret (GAUnsafe None)
    end))
  end.
End Dag.

(** The two kinds of solver objects. *)
Section Objects.
Variable check : check_fn.
Variable itp itp2 : itp_fn.
Variable elim : mbp_fn.
Variable isimp : term -> term.
Definition split_object : Type := sst * (list term * list term).
Definition split_new (ts : tsys) : split_object := (split_start ts, ([], [])).
(** The two resets clear the cache. *)
Definition split_ask (fuel : nat) (ts : tsys) (st : split_object) (from to : term) : out (tres * split_object) :=
  let ts' := with_states ts from to in
  tpa_solve ts' (split_power check itp itp2 elim isimp ts' fuel) fuel (mkS (mkQ (q_lv (s_q (fst st))) []) (s_lt (fst st)), snd st).
Definition basic_object : Type := qst * (list term * list term).
Definition basic_new (ts : tsys) : basic_object := (basic_start ts, ([], [])).
Definition basic_ask (fuel : nat) (ts : tsys) (st : basic_object) (from to : term) : out (tres * basic_object) :=
  let ts' := with_states ts from to in
  tpa_solve ts' (basic_power check itp elim isimp ts' fuel) fuel (mkQ (q_lv (fst st)) [], snd st).
End Objects.
