(** * Nested-loop transformation.

    src/transformers/NestedLoopTransformation.cc:17-218, used by the TPA engine with the option SIMPLIFY_NESTED
    (src/engine/TPA.cc:64-69). *)
From Verif Require Import Syntax Solver TransSys Graph GraphOps GraphOpsProofs GraphSem Names SimpleTransModel MergeModel LinearModel ContractModel.
Open Scope list_scope.
Open Scope nat_scope.

(** [ContractionData] (src/graph/ChcGraph.h): the new vertex and the vertices it stands for ([locations] and [positions] are the
    variables [locv], [argv] of these). *)
Record cdata := mkCData { cd_vertex : sym; cd_set : list sym }.

Section Nested.
(** The symbols and clause ids the k-th contraction makes up, and the iteration order of the hash maps. *)
Variables (nv nid : nat -> nat).
Variable ord : list var -> list var.
(** [transform] (lines 30-44).  [None]: fuel used up, or [detectLoop] went wrong. *)
Fixpoint nl_transform (fuel k : nat) (g : lgraph) : option (lgraph * list cdata) :=
  match fuel with
  | O => None
  | S f =>
    match detect_loop g with
    | None => None
    | Some l =>
      if Nat.leb (length l) 1 then Some (g, [])
      else let V := map (lsource g) l in
           match nl_transform f (S k) (contract g V (nv k) (nid k) ord) with
           | None => None
           | Some (h, cs) => Some (h, mkCData (nv k) V :: cs)
           end
    end
  end.

(** ** [translateInvariant] (lines 130-208) *)
Variable qe : qe_fn.
Variable simp : term -> term.
(** [NlThrow]: [std::out_of_range] from [at]; [NlStuck]: the quantifier elimination does not end. *)
Inductive nl_outcome := NlDefs (w : defs_t) | NlThrow | NlStuck.
Definition contracted_in (cs : list cdata) (p : sym) : bool := existsb (fun c => mem (cd_set c) p) cs.
(** Lines 137-145 and 154-157: all location variables are false but the one of [p]. *)
Definition nl_sub (g : lgraph) (cs : list cdata) (p : sym) : submap :=
  map (fun q => (locv q, if Nat.eqb q p then tt_true else tt_false))
      (filter (fun q => negb (Nat.eqb q entry) && contracted_in cs q) (lvertices g)).
(** Lines 151-205. *)
Fixpoint nl_vertices (g : lgraph) (cs : list cdata) (c : cdata) (inv : term) (ps : list sym) (w : defs_t) : nl_outcome :=
  match ps with
  | [] => NlDefs w
  | p :: ps' =>
    if Nat.eqb p entry || Nat.eqb p exit || negb (mem (cd_set c) p) then nl_vertices g cs c inv ps' w
    else match vertex_def g qe simp (fun v => v) (nl_sub g cs p) inv p with
         | None => NlStuck
         | Some d => nl_vertices g cs c inv ps' (winsert d w p)
         end
  end.
Definition werase (w : defs_t) (p : sym) : defs_t := fun q => if Nat.eqb q p then None else w q.
(** Lines 148-206; [w0] is the witness of the contracted graph. *)
Fixpoint nl_loops (g : lgraph) (all : list cdata) (w0 : defs_t) (cs : list cdata) (w : defs_t) : nl_outcome :=
  match cs with
  | [] => NlDefs w
  | c :: cs' =>
    match w0 (cd_vertex c) with
    | None => NlThrow
    | Some inv =>
      match nl_vertices g all c inv (lvertices g) (werase w (cd_vertex c)) with
      | NlDefs w' => nl_loops g all w0 cs' w'
      | o => o
      end
    end
  end.
Definition nl_invariant (g : lgraph) (cs : list cdata) (w0 : defs_t) : nl_outcome := nl_loops g cs w0 cs w0.
End Nested.
