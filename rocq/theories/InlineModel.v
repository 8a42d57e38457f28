(** * Edge inlining: src/transformers/EdgeInliner.cc. *)
From Verif Require Import Syntax Solver TransSys Graph GraphOps ValidatorModel FormulaModel GraphSem Names SimpleTransModel MergeModel.
Open Scope list_scope.
Open Scope nat_scope.

(** ** Known values *)
(** What one conjunct says about a variable (src/transformers/EdgeInliner.cc:20-37).  (The negated variable of a
    well-sorted formula is Boolean; the model tests that.) *)
Definition known_of (c : term) (v : var) : option value :=
  match c with
  | App FEq [a; b] =>
    match a, b with
    | Const x, Var u => if var_eqb u v then Some x else None
    | Var u, Const x => if var_eqb u v then Some x else None
    | _, _ => None
    end
  | Var u => if var_eqb u v then Some (VBool true) else None
  | App FNot [Var u] => if var_eqb u v && sort_eqb (vsort u) SBool then Some (VBool false) else None
  | _ => None
  end.
(** [getTopLevelConjuncts] (src/TermUtils.h:115-117). *)
Definition conjuncts (t : term) : list term := match top_juncts Conj t with Some l => l | None => [] end.
(** [computeKnownValues] (src/transformers/EdgeInliner.cc:17-40) at one variable: the last conjunct that gives a value wins. *)
Definition known_value (t : term) (v : var) : option value :=
  fold_left (fun acc c => match known_of c v with Some x => Some x | None => acc end) (conjuncts t) None.
Definition compatible (a b : option value) : bool :=
  match a, b with Some x, Some y => value_eqb x y | _, _ => true end.
(** The test of lines 76-80: [x] enters the source of [e]. *)
Definition may_follow (g : hgraph) (e x : hedge) : bool :=
  forallb (fun b => compatible (known_value (efla e) (src 0 b)) (known_value (efla x) (tgt b))) (gpv g (hd entry (efrom e))).
(** [computeFeasibleTransitions] (src/transformers/EdgeInliner.cc:43-84). *)
Definition not_false (x : hedge) : bool := negb (term_eqb (efla x) tt_false).
Definition feasible (g : hgraph) (inc : list hedge) (e : hedge) : list hedge :=
  match inc with
  | [] => []
  | [x] => if not_false x then [x] else []
  | _ => filter (fun x => not_false x && may_follow g e x) inc
  end.

(** ** Transformation *)
(** [Deletion], [Replacement] and the predecessors stored with them (src/transformers/EdgeInliner.h, EdgeInliner.cc:226-238).
    The map [predecessors] has one entry for every removed edge (ids are unique), so it is part of the entry here. *)
Inductive entry_t :=
| Deleted (e : hedge) (preds : list hedge)
| Replaced (added removed predecessor : hedge) (preds : list hedge).

Definition delete_edge (i : nat) (g : hgraph) : hgraph := filter_edges (fun x => negb (Nat.eqb (eid x) i)) g.
Definition incoming_of (g : hgraph) (v : sym) : list hedge :=
  match map_opt (hfind g) (in_edges g v) with Some l => l | None => [] end.

Section Inline.
Variable elim : elim_fn.
Variable fresh : nat.

(** [inlineEdge] (src/graph/ChcGraph.cc:500-506). *)
Definition inline_edge (g : hgraph) (e p : hedge) : hgraph * hedge :=
  let (g1, a) := merge_pair elim fresh g p e in (delete_edge (eid e) g1, a).
(** The body of the loop (src/transformers/EdgeInliner.cc:94-127); [None]: nothing changed. *)
Definition inline_one (g : hgraph) (e : hedge) : option (hgraph * entry_t) :=
  match efrom e with
  | [s] =>
    if Nat.eqb s entry then None
    else
      let inc := incoming_of g s in
      match feasible g inc e with
      | [] => Some (delete_edge (eid e) g, Deleted e inc)
      | [p] =>
        match efrom p with
        | [q] => if Nat.eqb q (eto p) then None
                 else let (g', a) := inline_edge g e p in Some (g', Replaced a e p inc)
        | _ => None
        end
      | _ => None
      end
  | _ => None
  end.
(** One iteration of [while], over a copy of the edges (src/transformers/EdgeInliner.cc:92-128). *)
Fixpoint inline_pass (g : hgraph) (es : list hedge) : hgraph * list entry_t :=
  match es with
  | [] => (g, [])
  | e :: es' =>
    match inline_one g e with
    | None => inline_pass g es'
    | Some (g1, x) => let (g2, l) := inline_pass g1 es' in (g2, x :: l)
    end
  end.
(** [EdgeInliner::transform] (src/transformers/EdgeInliner.cc:86-131); [None]: no fuel left. *)
Fixpoint inline_loop (fuel : nat) (g : hgraph) : option (hgraph * list entry_t) :=
  match fuel with
  | O => None
  | S f =>
    match inline_pass g (gedges g) with
    | (g1, []) => Some (g1, [])
    | (g1, l) => option_map (fun r => (fst r, l ++ snd r)) (inline_loop f g1)
    end
  end.
End Inline.

Section Back.
Variable check : check_fn.
Variable itp : itp_fn.

(** ** Back translation of solutions *)
(** [getAuxiliaryVarsFor] (src/transformers/EdgeInliner.cc:240-250): variables named [$ei0], [$ei1], ... *)
Definition ei (i : nat) (s : sort) : var := mkVar ("$ei" ++ to_string (Z.of_nat i)) TBase s.
Definition ei_vars (g : hgraph) (v : sym) : list var :=
  map (fun p => ei (fst p) (vsort (snd p))) (combine (seq 0 (length (gpv g v))) (gpv g v)).
(** [computeInterpolantFor] (src/transformers/EdgeInliner.cc:252-295); [None]: the exception. *)
Definition interpolant_for (g : hgraph) (v : sym) (incoming outgoing : term) : option term :=
  let A := rename (vlookup (combine (tgt_vars g v) (ei_vars g v))) incoming in
  let B := rename (vlookup (combine (src_vars g (v, 0)) (ei_vars g v))) outgoing in
  match check [A; B] with
  | UNSAT => option_map (rename (vlookup (combine (ei_vars g v) (gpv g v)))) (itp [A] [B])
  | _ => None
  end.
(** A deletion (src/transformers/EdgeInliner.cc:170-193). *)
Definition back_deleted (g : hgraph) (e : hedge) (preds : list hedge) : backV := fun w =>
  match efrom e with
  | [s] =>
    let w1 := winsert tt_true w s in
    match (match preds with
           | [] => Some (wset w1 s tt_false)
           | _ => match w1 s with
                  | None => None
                  | Some d =>
                    if term_eqb d tt_false then Some w1
                    else match interpolant_for g s (mkOr (map efla preds)) (efla e) with
                         | Some J => Some (wset w1 s (mkAnd [d; J]))
                         | None => None
                         end
                  end
           end) with
    | None => None
    | Some w2 => Some (winsert tt_true w2 (eto e))
    end
  | _ => None
  end.
(** A replacement (src/transformers/EdgeInliner.cc:194-221); [None] also stands for the empty witness of a failed
    sanity check. *)
Definition back_replaced (g : hgraph) (e p : hedge) (preds : list hedge) : backV := fun w =>
  match efrom p, efrom e with
  | [s], [_] =>
    match w s, w (eto p), w (eto e) with
    | Some ds, Some dm, Some dt =>
      if Nat.eqb s (eto p) then None
      else
        let inc := mkOr (map (fun x => if Nat.eqb (eid x) (eid p) then mkAnd [rename (src 0) ds; efla p] else efla x) preds) in
        let out := mkAnd [efla e; mkNot (rename tgt dt)] in
        match interpolant_for g (eto p) inc out with
        | Some J => Some (wset w (eto p) (mkAnd [dm; J]))
        | None => None
        end
    | _, _, _ => None
    end
  | _, _ => None
  end.
Definition back_entry_valid (g : hgraph) (x : entry_t) : backV :=
  match x with
  | Deleted e preds => back_deleted g e preds
  | Replaced _ e p preds => back_replaced g e p preds
  end.

(** ** Back translation of derivations (src/transformers/EdgeInliner.cc:133-157) *)
Definition back_entry_invalid (g : hgraph) (x : entry_t) : backI := fun d =>
  match x with
  | Deleted _ _ => Some d
  | Replaced a e p _ => back_chain_invalid check g (S (length d)) ([p; e], a) d
  end.

(** The transformation with its back translator. *)
Definition inline_edges (elim : elim_fn) (fresh fuel : nat) (g : hgraph) : option (trans * list entry_t) :=
  match inline_loop elim fresh fuel g with
  | None => None
  | Some (g', l) => Some (mkTrans g' (back_all (rev (map (back_entry_valid g) l))) (back_all (rev (map (back_entry_invalid g) l))), l)
  end.
End Back.
