(** * Graph algorithms: linear graphs, adjacency lists, reversal, DFS, loop detection. *)
From Verif Require Import Syntax Solver Graph.
Open Scope nat_scope.

(** ** Linear graphs *)
(** [DirectedEdge] (src/graph/ChcGraph.h:54-59) and [ChcDirectedGraph] (src/graph/ChcGraph.h:141-157); edges are in the
    order of their ids (std::map). *)
Record ledge := mkLEdge { lid : nat; lfrom : sym; lto : sym; lfla : term }.
Record lgraph := mkLGraph { ledges : list ledge; lpv : sym -> list var }.

(** Current- and next-state versions of a predicate's arguments
    ([LinearCanonicalPredicateRepresentation], src/TermUtils.h:416-434). *)
Definition cur (v : var) : var := mkVar (vbase v) (TTime 0) (vsort v).
Definition nxt (v : var) : var := mkVar (vbase v) (TTime 1) (vsort v).
Definition cur_vars (g : lgraph) (p : sym) : list var := map cur (lpv g p).
Definition nxt_vars (g : lgraph) (p : sym) : list var := map nxt (lpv g p).

(** ** Adjacency lists *)
(** [AdjacencyList] (src/graph/ChcGraph.h:67): an association list; the order of keys of the
    unordered_map is unspecified, insertion order here. *)
Definition adj := list (sym * list nat).
Fixpoint aget (a : adj) (p : sym) : option (list nat) :=
  match a with [] => None | (q, l) :: a' => if Nat.eqb q p then Some l else aget a' p end.
(** operator[] followed by an update of the list. *)
Fixpoint aupd (a : adj) (p : sym) (f : list nat -> list nat) : adj :=
  match a with
  | [] => [(p, f [])]
  | (q, l) :: a' => if Nat.eqb q p then (q, f l) :: a' else (q, l) :: aupd a' p f
  end.
Definition apush (e : nat) (l : list nat) : list nat := l ++ [e].
(** The test of src/graph/ChcGraph.cc:202. *)
Definition apush_once (e : nat) (l : list nat) : list nat :=
  match l with
  | [] => [e]
  | _ => if Nat.eqb (last l e) e then l else l ++ [e]
  end.
Definition atouch (a : adj) (p : sym) : adj := aupd a p (fun l => l).

Record adjacency := mkAdj { incoming : adj; outgoing : adj }.

(** One edge of the hypergraph (src/graph/ChcGraph.cc:195-205). *)
Definition add_hedge (ad : adjacency) (e : hedge) : adjacency :=
  let inc := aupd (incoming ad) (eto e) (apush (eid e)) in
  let '(inc', out') :=
    fold_left (fun (io : adj * adj) s => (atouch (fst io) s, aupd (snd io) s (apush_once (eid e)))) (efrom e) (inc, outgoing ad) in
  mkAdj inc' (atouch out' (eto e)).
Definition adj_init : adj := [(entry, []); (exit, [])].
(** [AdjacencyListsGraphRepresentation::from] for hypergraphs (src/graph/ChcGraph.cc:188-207). *)
Definition adjacency_of (g : hgraph) : adjacency :=
  fold_left add_hedge (gedges g) (mkAdj adj_init adj_init).

(** The same for linear graphs (src/graph/ChcGraph.cc:171-186). *)
Definition add_ledge (ad : adjacency) (e : ledge) : adjacency :=
  let inc := atouch (aupd (incoming ad) (lto e) (apush (lid e))) (lfrom e) in
  let out := atouch (aupd (outgoing ad) (lfrom e) (apush (lid e))) (lto e) in
  mkAdj inc out.
Definition ladjacency_of (g : lgraph) : adjacency :=
  fold_left add_ledge (ledges g) (mkAdj adj_init adj_init).

(** [getNodes] (src/graph/ChcGraph.h:88-95). *)
Definition nodes (ad : adjacency) : list sym := map fst (incoming ad).

(** ** Reversal *)
(** [reverseEdge] (src/graph/ChcGraph.cc:138-150): simultaneous substitution. *)
Definition reverse_edge (g : lgraph) (e : ledge) : ledge :=
  mkLEdge (lid e) (lto e) (lfrom e)
    (rename (vlookup (combine (cur_vars g (lfrom e)) (nxt_vars g (lfrom e)) ++
                      combine (nxt_vars g (lto e)) (cur_vars g (lto e)))) (lfla e)).
(** [ChcDirectedGraph::reverse] (src/graph/ChcGraph.cc:152-169).  The results of the two calls of
    [swapTrueFalse] (164-165) are discarded, so they have no effect. *)
Definition reverse (g : lgraph) : lgraph := mkLGraph (map (reverse_edge g) (ledges g)) (lpv g).

(** ** Depth-first search *)
(** Targets of the outgoing edges of a vertex in adjacency-list order. *)
Definition lfind (g : lgraph) (i : nat) : option ledge := find (fun e => Nat.eqb (lid e) i) (ledges g).
Definition out_ids (g : lgraph) (v : sym) : list nat :=
  match aget (outgoing (ladjacency_of g)) v with Some l => l | None => [] end.
Definition ltarget (g : lgraph) (i : nat) : sym := match lfind g i with Some e => lto e | None => entry end.
Definition lsource (g : lgraph) (i : nat) : sym := match lfind g i with Some e => lfrom e | None => entry end.
Definition succs (g : lgraph) (v : sym) : list sym := map (ltarget g) (out_ids g v).

Definition smem (v : sym) (l : list sym) : bool := existsb (Nat.eqb v) l.

Section DFS.
Variable next : sym -> list sym.
(** [DFS::runOnVertex] with the post-order action of [postOrder] (src/graph/ChcGraph.cc:29-38, 58-63);
    the state is (marked, order).  [None]: out of fuel. *)
Fixpoint run_vertex (fuel : nat) (v : sym) (st : list sym * list sym) : option (list sym * list sym) :=
  match fuel with
  | O => None
  | S f =>
    if smem v (fst st) then Some st
    else
      match fold_left (fun acc w => match acc with Some s => run_vertex f w s | None => None end)
                      (next v) (Some (v :: fst st, snd st)) with
      | Some (m, o) => Some (m, o ++ [v])
      | None => None
      end
  end.
End DFS.
(** [getVertices] (src/graph/ChcGraph.cc:422-434); the order (by symbol number) is not modelled. *)
Definition lvertices (g : lgraph) : list sym :=
  nodup Nat.eq_dec (entry :: exit :: concat (map (fun e => [lfrom e; lto e]) (ledges g))).
Definition post_order (g : lgraph) : option (list sym) :=
  option_map snd (run_vertex (succs g) (S (S (length (lvertices g)))) entry ([], [])).
(** [reversePostOrder] (src/graph/ChcGraph.cc:51-56). *)
Definition reverse_post_order (g : lgraph) : option (list sym) := option_map (@rev sym) (post_order g).

(** ** Loop detection *)
(** [visit] (src/TransformationUtils.cc:161-190).  The stack set is a parameter (every call removes the vertex
    it added); [loop] is in the order of the code's vector. *)
Section Loop.
Variable g : lgraph.
(** The loop over the outgoing edges; [rec] is the recursive call. *)
Fixpoint go_edges (rec : sym -> list sym -> list sym -> option (list sym * list nat)) (v : sym) (stack : list sym) (es : list nat) (vis : list sym) {struct es} : option (list sym * list nat) :=
   match es with
   | [] => Some (vis, [])
   | e :: es' =>
     let w := ltarget g e in
     if Nat.eqb w v then go_edges rec v stack es' vis
     else if negb (smem w vis) then
       match rec w vis (v :: stack) with
       | None => None
       | Some (vis', []) => go_edges rec v stack es' vis'
       | Some (vis', l0 :: ls) =>
           let loop := l0 :: ls in
           if negb (Nat.eqb w (ltarget g l0)) && Nat.eqb w (lsource g (last loop l0))
           then Some (vis', loop ++ [e]) else Some (vis', loop)
       end
     else if smem w (v :: stack) then Some (vis, [e])
     else go_edges rec v stack es' vis
   end.
Fixpoint visit (fuel : nat) (v : sym) (visited stack : list sym) : option (list sym * list nat) :=
  match fuel with
  | O => None
  | S f => go_edges (visit f) v stack (out_ids g v) (v :: visited)
  end.
(** [detectLoop] (src/TransformationUtils.cc:193-203). *)
Definition detect_loop : option (list nat) :=
  if Nat.leb (length (lvertices g)) 3 then Some []
  else option_map (fun r => rev (snd r)) (visit (S (S (length (lvertices g)))) entry [] []).
End Loop.
