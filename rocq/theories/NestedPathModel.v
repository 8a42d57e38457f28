(** * Error paths of the nested-loop transformation.

    src/transformers/NestedLoopTransformation.cc:47-128, and its use in src/engine/TPA.cc:62-73. *)
From Verif Require Import Syntax Solver TransSys Graph GraphOps GraphOpsProofs GraphSem Names SimpleTransModel MergeModel LinearModel ContractModel NestedModel.
Open Scope list_scope.
Open Scope nat_scope.

(** [NpDone]: the result of the function (an exception is [PathThrows]); [NpEnd]: the end iterator of a search is dereferenced (an
    assertion excludes it), undefined behaviour. *)
Inductive np_result := NpDone (w : path_witness) | NpEnd.

Section NestedPath.
Variable check : check_fn.
Variable g : lgraph.
Variable cs : list cdata.
(** Lines 89-96: the first vertex of the loop whose location variable is true in the model, [k] steps from the start. *)
Definition np_location (r : valuation) (k : nat) (c : cdata) : option sym :=
  find (fun p => mem (cd_set c) p && holdsb r (Var (shiftv (Z.of_nat k) (cur (locv p))))) (lvertices g).
(** Lines 84-102; [i] is the index of the step in the derivation, [es] are the edges of the transformed graph. *)
Fixpoint np_vertices (r : valuation) (i : nat) (es : list ledge) : list sym + np_result :=
  match es with
  | [] => inl []
  | e :: es' =>
    match find (fun c => Nat.eqb (cd_vertex c) (lto e)) cs with
    | Some c =>
      match np_location r (i + 1) c with
      | None => inr NpEnd
      | Some p => match np_vertices r (i + 1) es' with inl l => inl (p :: l) | inr o => inr o end
      end
    | None =>
      match lfind g (lid e) with
      | None => inr (NpDone PathThrows)
      | Some e0 => match np_vertices r (i + 1) es' with inl l => inl (lto e0 :: l) | inr o => inr o end
      end
    end
  end.
(** Lines 105-121. *)
Fixpoint np_edges (p : sym) (vs : list sym) : list nat + np_result :=
  match vs with
  | [] => inl []
  | q :: vs' =>
    match filter (fun i => Nat.eqb (ltarget g i) q) (out_ids g p) with
    | [] => inr NpEnd
    | [i] => match np_edges q vs' with inl l => inl (i :: l) | inr o => inr o end
    | _ => inr (NpDone NoPath)
    end
  end.
(** [translateErrorPath] (lines 64-125) on the clauses [ids] of the derivation without its first step. *)
Definition np_path (h : lgraph) (ids : list nat) : np_result :=
  match path_edges h ids with
  | None => NpDone PathThrows
  | Some es =>
    match check (path_labels 1 es) with
    | SAT r =>
      match np_vertices r 1 es with
      | inr o => o
      | inl vs => match np_edges entry vs with inr o => o | inl l => NpDone (from_error_path check g l) end
      end
    | _ => NpDone PathThrows
    end
  end.
Definition np_derivation (h : lgraph) (d : derivation) : np_result := np_path h (map st_clause (tl d)).
End NestedPath.
