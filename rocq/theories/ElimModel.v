(** * Node elimination: src/transformers/NodeEliminator.cc, [contractVertex]. *)
From Verif Require Import Syntax Solver TransSys Graph GraphOps ValidatorModel FormulaModel GraphSem SimpleTransModel MergeModel.
Open Scope nat_scope.

(** [VertexContractionResult] (src/graph/ChcGraph.h:246-250) together with the removed vertex; the two indices of every
    replacing edge are resolved here to the incoming and the outgoing edge. *)
Definition replacing := (hedge * (hedge * hedge))%type.
Record contraction := mkContr { cn_node : sym; cn_in : list hedge; cn_out : list hedge; cn_repl : list replacing }.

Definition is_hyper (e : hedge) : bool := Nat.ltb 1 (length (efrom e)).
Definition count_sym (v : sym) (l : list sym) : nat := length (filter (Nat.eqb v) l).

Section Contract.
Variable elim : elim_fn.
Variable fresh : nat.

(** All pairs, in order (src/graph/ChcGraph.cc:481-495). *)
Fixpoint merge_pairs (g : hgraph) (l : list (hedge * hedge)) : hgraph * list replacing :=
  match l with
  | [] => (g, [])
  | (e1, e2) :: l' =>
    let (g1, e) := merge_pair elim fresh g e1 e2 in
    let (g2, rs) := merge_pairs g1 l' in (g2, (e, (e1, e2)) :: rs)
  end.
(** [contractVertex] (src/graph/ChcGraph.cc:472-498).  [None]: one of the two exceptions. *)
Definition contract_vertex (g : hgraph) (v : sym) : option (hgraph * contraction) :=
  match map_opt (hfind g) (in_edges g v), map_opt (hfind g) (out_edges g v) with
  | Some ins, Some outs =>
    if existsb is_hyper ins || (existsb is_hyper outs && Nat.ltb 1 (length ins)) then None
    else let (g1, rs) := merge_pairs g (list_prod ins outs) in
         Some (delete_nodes [v] g1, mkContr v ins outs rs)
  | _, _ => None
  end.
End Contract.

(** ** The predicates *)
(** [hasHyperEdge], [isNonLoopNode], [isSimpleNode] (src/graph/ChcGraph.cc:559-577). *)
Definition has_hyper (g : hgraph) (v : sym) : bool :=
  existsb (fun i => Nat.ltb 1 (length (hsources g i))) (in_edges g v) || existsb (fun i => Nat.ltb 1 (length (hsources g i))) (out_edges g v).
Definition is_nonloop (g : hgraph) (v : sym) : bool := forallb (fun i => negb (Nat.eqb (htarget g i) v)) (out_edges g v).
Definition is_simple (g : hgraph) (v : sym) : bool := Nat.eqb (length (in_edges g v)) 1 || Nat.eqb (length (out_edges g v)) 1.
(** [SimpleNodeEliminatorPredicate] (src/transformers/NodeEliminator.cc:43-66). *)
Definition simple_pred (g : hgraph) (v : sym) : bool :=
  if is_simple g v && is_nonloop g v then
    if negb (has_hyper g v) then true
    else match in_edges g v with
         | [i] =>
           if Nat.eqb (length (hsources g i)) 1 then
             let s := hd entry (hsources g i) in
             forallb (fun o => negb (Nat.eqb v (htarget g o)) && Nat.eqb (count_sym v (hsources g o)) 1 && negb (smem s (hsources g o))) (out_edges g v)
           else false
         | _ => false
         end
  else false.
(** [SlightlyBetterNodeEliminatorPredicate] (src/transformers/BasicTransformationPipelines.cc:26-40). *)
Definition better_pred (g : hgraph) (v : sym) : bool :=
  is_nonloop g v && negb (has_hyper g v) &&
  Nat.leb (length (in_edges g v) * length (out_edges g v)) (length (in_edges g v) + length (out_edges g v)).

Section Eliminator.
Variable elim : elim_fn.
Variable fresh : nat.
Variable check : check_fn.
Variable itp : itp_fn.
Variable pred : hgraph -> sym -> bool.
(** [getVertices] and the sort (src/transformers/NodeEliminator.cc:21-23): any order. *)
Variable vertices : hgraph -> list sym.

(** [find_if] (src/transformers/NodeEliminator.cc:29-34): the predicates look up the adjacency lists of the vertex, which
    throws if no edge mentions it any more ([None]). *)
Fixpoint find_node (g : hgraph) (vs : list sym) : option (option sym) :=
  match vs with
  | [] => Some None
  | v :: vs' => if smem v (hnodes g) then if pred g v then Some (Some v) else find_node g vs' else None
  end.
Fixpoint remove_first (v : sym) (l : list sym) : list sym :=
  match l with [] => [] | x :: l' => if Nat.eqb x v then l' else x :: remove_first v l' end.
(** The loop of [NodeEliminator::transform] (src/transformers/NodeEliminator.cc:28-39). *)
Fixpoint eliminate_loop (fuel : nat) (g : hgraph) (vs : list sym) : option (hgraph * list contraction) :=
  match fuel with
  | O => None
  | S f =>
    match find_node g vs with
    | None => None
    | Some None => Some (g, [])
    | Some (Some v) =>
      match contract_vertex elim fresh g v with
      | None => None
      | Some (g', c) => option_map (fun r => (fst r, c :: snd r)) (eliminate_loop f g' (remove_first v vs))
      end
    end
  end.

(** ** Back translation of solutions (src/transformers/NodeEliminator.cc:132-186) *)
(** The incoming part (135-142, 169). [None]: an exception or the empty witness. *)
Definition in_formula (w : defs_t) (e : hedge) : option term :=
  match efrom e with
  | [s] => match w s with Some d => Some (mkAnd [rename (src 0) d; efla e]) | None => None end
  | _ => None
  end.
Fixpoint other_defs (w : defs_t) (l : list (sym * nat)) : option (list term) :=
  match l with
  | [] => Some []
  | pi :: l' => match w (fst pi), other_defs w l' with
                | Some d, Some ds => Some (rename (src (snd pi)) d :: ds)
                | _, _ => None
                end
  end.
(** The outgoing part (143-166, 170). *)
Definition out_formula (v : sym) (w : defs_t) (e : hedge) : option term :=
  match w (eto e) with
  | None => None
  | Some dt =>
    if is_hyper e then
      if Nat.eqb (count_sym v (efrom e)) 1 then
        match other_defs w (instances (filter (fun p => negb (Nat.eqb p v)) (efrom e))) with
        | Some ds => Some (mkAnd (efla e :: mkNot (rename tgt dt) :: ds))
        | None => None
        end
      else None
    else Some (mkAnd [efla e; mkNot (rename tgt dt)])
  end.
(** One vertex (133-185); [insert] does not overwrite. *)
Definition back_node_valid (g : hgraph) (c : contraction) : backV := fun w =>
  let v := cn_node c in
  match map_opt (in_formula w) (cn_in c), map_opt (out_formula v w) (cn_out c) with
  | Some fi, Some fo =>
    let A := mkOr fi in
    let B := rename (vlookup (combine (src_vars g (v, 0)) (tgt_vars g v))) (mkOr fo) in
    match check [A; B] with
    | UNSAT => match itp [A] [B] with
               | Some J => Some (match w v with Some _ => w | None => wset w v (rename untag J) end)
               | None => None
               end
    | _ => None
    end
  | _, _ => None
  end.

(** ** Back translation of derivations (src/transformers/NodeEliminator.cc:67-118) *)
Definition find_repl (rs : list replacing) (i : nat) : option replacing := find (fun x => Nat.eqb (eid (fst x)) i) rs.
Fixpoint back_elim_invalid (g : hgraph) (rs : list replacing) (fuel : nat) (d : derivation) : option derivation :=
  match fuel with
  | O => None
  | S f =>
    match find_step (fun s => match find_repl rs (st_clause s) with Some _ => true | None => false end) d with
    | None => Some d
    | Some i =>
      match nth_error d i with
      | None => None
      | Some s =>
        match find_repl rs (st_clause s) with
        | None => None
        | Some (e, (e1, e2)) =>
          match (if Nat.eqb (length (efrom e2)) 1 then replace_summarizing check g [e1; e2] d i
                 else expand_hyper check g e e1 e2 d i) with
          | None => None
          | Some d' => back_elim_invalid g rs f d'
          end
        end
      end
    end
  end.

(** [NodeEliminator::transform] and its back translator; [dfuel] bounds the loop of the back translation of derivations. *)
Definition eliminate (dfuel : nat) (g : hgraph) : option trans :=
  match eliminate_loop (S (length (vertices g))) g (filter (fun v => negb (Nat.eqb v entry || Nat.eqb v exit)) (vertices g)) with
  | None => None
  | Some (g', cs) =>
    Some (mkTrans g' (back_all (rev (map (back_node_valid g) cs)))
                  (back_elim_invalid g (concat (map cn_repl cs)) dfuel))
  end.
End Eliminator.
