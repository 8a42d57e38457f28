(** * Merging edges: chain summarization, node elimination. *)
From Verif Require Import Syntax Solver TransSys Graph GraphOps ValidatorModel FormulaModel GraphSem SimpleTransModel.
Open Scope nat_scope.

(** ** Graph operations *)
Section Ops.
(** [TrivialQuantifierElimination] keeping the given variables (see [tqe] in SimpleTransModel.v). *)
Variable elim : elim_fn.

Definition chain_source (c : list hedge) : sym := match c with e :: _ => hd entry (efrom e) | [] => entry end.
Definition chain_target (c : list hedge) : sym := match c with e :: _ => eto (last c e) | [] => entry end.
(** The vertices a chain passes through: the targets of all edges but the last
    (src/graph/ChcGraph.cc:260-265). *)
Definition mids (c : list hedge) : list sym := map eto (removelast c).
(** Target arguments to source arguments of the same predicate. *)
Definition to_source_map (g : hgraph) (p : sym) : vmap := combine (tgt_vars g p) (src_vars g (p, 0)).
(** [mergeTrivialChainLabels] (src/graph/ChcGraph.cc:388-420). *)
Definition chain_label (g : hgraph) (c : list hedge) : term :=
  elim (fun v => inb v (src_vars g (chain_source c, 0) ++ tgt_vars g (chain_target c)))
       (rename (vlookup (concat (map (to_source_map g) (mids c)))) (mkAnd (map efla c))).
(** [newEdge] (src/graph/ChcGraph.h:324-328): the new id is the largest, so the edge is the last one. *)
Definition new_edge (g : hgraph) (from : list sym) (to : sym) (fla : term) : hgraph * hedge :=
  let e := mkEdge (gfree g) from to fla in
  (mkGraph (gedges g ++ [e]) (gpv g) (S (gfree g)) (gctr g), e).
(** [mergeTrivialChain] (src/graph/ChcGraph.cc:371-378). *)
Definition merge_chain (g : hgraph) (c : list hedge) : hgraph * hedge :=
  new_edge g [chain_source c] (chain_target c) (chain_label g c).
(** [contractTrivialChain] (src/graph/ChcGraph.cc:257-270). *)
Definition contract_chain (g : hgraph) (c : list hedge) : hgraph * hedge :=
  let (g1, e) := merge_chain g c in (delete_nodes (mids c) g1, e).

(** [getAuxiliaryVariablesFromEdge] (src/graph/ChcGraph.cc:279-302). *)
Definition aux_vars (g : hgraph) (e : hedge) : list var :=
  filter (fun v => negb (inb v (own_vars g e))) (nodup var_dec (vars (efla e))).
Definition gaux_map (ctr : nat) (l : list var) : vmap :=
  combine l (map (fun p => gaux (ctr + fst p) (vsort (snd p))) (combine (seq 0 (length l)) l)).
(** [renameAuxiliaries] (src/graph/ChcGraph.cc:304-319) and the update of the label (337, 368-369); the edge is
    the last one of the graph. *)
Definition rename_auxiliaries (ge : hgraph * hedge) : hgraph * hedge :=
  let (g, e) := ge in
  let aux := aux_vars g e in
  let e' := mkEdge (eid e) (efrom e) (eto e) (rename (vlookup (gaux_map (gctr g) aux)) (efla e)) in
  (mkGraph (removelast (gedges g) ++ [e']) (gpv g) (gfree g) (gctr g + length aux), e').

(** [mergeEdgePair] (src/graph/ChcGraph.cc:322-369).  Incoming edges with several sources are excluded by an
    assertion.  [fresh]: the value of the counter of [createAuxiliaryVariable] (src/graph/ChcGraph.h:318-322);
    the variables it creates do not survive (they are renamed at once), so the counter is no part of the state. *)
Definition replace_source (m s : sym) (l : list sym) : list sym :=
  let l1 := map (fun v => if Nat.eqb v m then s else v) l in
  if Nat.eqb s entry then
    match filter (fun v => negb (Nat.eqb v entry)) l1 with [] => [entry] | l2 => l2 end
  else l1.
Definition pair_label (fresh : nat) (g : hgraph) (e1 e2 : hedge) : term :=
  let m := eto e1 in
  let l0 := mkAnd [rename (vlookup (to_source_map g m)) (efla e1); efla e2] in
  let l1 := elim (fun v => negb (inb v (src_vars g (m, 0)))) l0 in
  if Nat.eqb (eto e2) m
  then rename (vlookup (combine (src_vars g (m, 0))
         (map (fun p => auxg (fresh + fst p) (vsort (snd p))) (combine (seq 0 (length (gpv g m))) (gpv g m))))) l1
  else l1.
Definition merge_pair (fresh : nat) (g : hgraph) (e1 e2 : hedge) : hgraph * hedge :=
  let s := hd entry (efrom e1) in
  let m := eto e1 in
  if Nat.eqb (length (efrom e2)) 1 && negb (Nat.eqb (eto e2) m)
  then rename_auxiliaries (merge_chain g [e1; e2])
  else rename_auxiliaries (new_edge g (replace_source m s (efrom e2)) (eto e2) (pair_label fresh g e1 e2)).
End Ops.

(** ** Derivations *)
(** Premise indices after [diff] steps were inserted before position [i]
    (src/transformers/CommonUtils.cc:93-102, 211-220). *)
Definition shift_premise (i diff k : nat) : nat := if Nat.leb i k then k + diff else k.
Definition shift_step (i diff : nat) (s : step) : step :=
  mkStep (map (shift_premise i diff) (st_premises s)) (st_fact s) (st_clause s).

(** Time versions ([VersionedPredicate], src/transformers/CommonUtils.h:55-79). *)
Definition at_time (n : nat) (v : var) : var := mkVar (vbase v) (TTime (Z.of_nat n)) (vsort v).
Definition vars_at (g : hgraph) (p : sym) (n : nat) : list var := map (at_time n) (gpv g p).
(** [EdgeConverter] (src/transformers/CommonUtils.h:14-53). *)
Definition convert_var (g : hgraph) (e : hedge) : var -> var :=
  vlookup (combine (src_vars g (hd entry (efrom e), 0)) (vars_at g (hd entry (efrom e)) 0) ++
           combine (tgt_vars g (eto e)) (vars_at g (eto e) 1)).
(** [sendFlaThroughTime]: a left-over source variable [x__s##i] is a versioned name too (src/TermUtils.h:290-293). *)
Definition sendv (k : nat) (v : var) : var :=
  match vtag v with
  | TTime n => mkVar (vbase v) (TTime (n + Z.of_nat k)) (vsort v)
  | TSrc i => mkVar (vbase v) (TSrc (i + k)) (vsort v)
  | _ => v
  end.
Definition sent_label (g : hgraph) (k : nat) (e : hedge) : term := rename (fun v => sendv k (convert_var g e v)) (efla e).
Definition path_constraint (g : hgraph) (c : list hedge) : term :=
  mkAnd (map (fun ie => sent_label g (fst ie) (snd ie)) (combine (seq 0 (length c)) c)).

Section Derivations.
Variable check : check_fn.

(** Steps for the intermediate facts (src/transformers/CommonUtils.cc:74-85). *)
Definition mid_steps (i k : nat) (c : list hedge) (facts : list fact) : list step :=
  map (fun je => mkStep [match fst je with O => k | S j => i + j end] (snd (snd je)) (eid (fst (snd je))))
      (combine (seq 0 (length facts)) (combine c facts)).
(** Facts of the intermediate predicates in a model (src/transformers/CommonUtils.cc:62-73). *)
Definition model_facts (g : hgraph) (r : valuation) (c : list hedge) : list fact :=
  map (fun je => (eto (snd je), args r (vars_at g (eto (snd je)) (S (fst je)))))
      (combine (seq 0 (length (removelast c))) (removelast c)).
(** [replaceSummarizingStep] (src/transformers/CommonUtils.cc:15-107).  [None]: a premise is missing or the
    chain is not proved satisfiable (an exception). *)
Definition replace_summarizing (g : hgraph) (c : list hedge) (d : derivation) (i : nat) : option derivation :=
  match nth_error d i with
  | None => None
  | Some s =>
    match st_premises s with
    | [] => None
    | k :: _ =>
      match nth_error d k, c with
      | Some ps, e0 :: _ =>
        let m := fill (vars_at g (chain_target c) (length c)) (st_fact s) ++ fill (vars_at g (chain_source c) 0) (st_fact ps) in
        match check [subst m (path_constraint g c)] with
        | SAT r =>
          let ms := mid_steps i k c (model_facts g r c) in
          Some (firstn i d ++ ms ++ [mkStep [i + length ms - 1] (st_fact s) (eid (last c e0))]
                ++ map (shift_step i (length ms)) (skipn (S i) d))
        | _ => None
        end
      | _, _ => None
      end
    end
  end.

(** Position of an element. *)
Fixpoint index_of (m : sym) (l : list sym) : nat :=
  match l with [] => O | x :: l' => if Nat.eqb x m then O else S (index_of m l') end.
Fixpoint insert_at (n k : nat) (l : list nat) : list nat :=
  match n, l with
  | O, _ => k :: l
  | S n', x :: l' => x :: insert_at n' k l'
  | S _, [] => [k]
  end.
(** The values of the premises (src/transformers/CommonUtils.cc:152-162); [None]: missing premises, or a
    predicate that does not match (an exception). *)
Fixpoint premise_fill (g : hgraph) (d : derivation) (l : list (sym * nat)) (prems : list nat) : option submap :=
  match l, prems with
  | [], [] => Some []
  | pi :: l', k :: prems' =>
    match nth_error d k with
    | Some s => if Nat.eqb (fst (st_fact s)) (fst pi)
                then option_map (fun m => fill (src_vars g pi) (st_fact s) ++ m) (premise_fill g d l' prems') else None
    | None => None
    end
  | _, _ => None
  end.
(** [expandStepWithHyperEdge] (src/transformers/CommonUtils.cc:109-226). *)
Definition expand_hyper (g : hgraph) (e e1 e2 : hedge) (d : derivation) (i : nat) : option derivation :=
  let m := eto e1 in
  match nth_error d i with
  | None => None
  | Some s =>
    match premise_fill g d (instances (efrom e)) (st_premises s) with
    | None => None
    | Some mp =>
      let unified := rename (vlookup (combine (src_vars g (m, 0)) (tgt_vars g m))) (mkAnd [efla e1; efla e2]) in
      let eqs := map (fun p => mkEq (Var (fst p)) (snd p)) (fill (tgt_vars g (eto e)) (st_fact s) ++ mp) in
      match check (unified :: eqs) with
      | SAT r =>
        let f := (m, args r (tgt_vars g m)) in
        let pos := index_of m (efrom e2) in
        let is_entry := Nat.eqb (hd entry (efrom e1)) entry in
        match (if is_entry then Some O else nth_error (st_premises s) pos) with
        | None => None
        | Some k =>
          let prems := if is_entry then insert_at pos i (st_premises s)
                       else map (fun x => if Nat.eqb x k then i else x) (st_premises s) in
          Some (firstn i d ++ [mkStep [k] f (eid e1); mkStep prems (st_fact s) (eid e2)]
                ++ map (shift_step i 1) (skipn (S i) d))
        end
      | _ => None
      end
    end
  end.
End Derivations.

(** ** SimpleChainSummarizer *)
(** [isTrivial] (src/transformers/SimpleChainSummarizer.cc:18-26). *)
Definition is_trivial (g : hgraph) (v : sym) : bool :=
  match in_edges g v, out_edges g v with
  | [i], [o] => negb (Nat.eqb i o) && Nat.eqb (length (hsources g i)) 1 && Nat.eqb (length (hsources g o)) 1
                && negb (Nat.eqb (hd entry (hsources g i)) (htarget g o))
  | _, _ => false
  end.
(** The forward part of the chain (33-40): edge ids and the last vertex. *)
Fixpoint chain_forward (g : hgraph) (fuel : nat) (v0 cur : sym) : option (list nat * sym) :=
  match fuel with
  | O => None
  | S f =>
    match out_edges g cur with
    | o :: _ =>
      let nx := htarget g o in
      if is_trivial g nx && negb (Nat.eqb nx v0)
      then option_map (fun r => (o :: fst r, snd r)) (chain_forward g f v0 nx)
      else Some ([o], nx)
    | [] => None
    end
  end.
(** The backward part (41-50). *)
Fixpoint chain_backward (g : hgraph) (fuel : nat) (last cur : sym) (acc : list nat) : option (list nat) :=
  match fuel with
  | O => None
  | S f =>
    if is_trivial g cur then
      match in_edges g cur with
      | i :: _ =>
        let pr := hd entry (hsources g i) in
        if Nat.eqb pr last then Some acc else chain_backward g f last pr (i :: acc)
      | [] => None
      end
    else Some acc
  end.
Definition trivial_chain (g : hgraph) (v : sym) : option (list nat) :=
  let fuel := S (S (length (hnodes g))) in
  match chain_forward g fuel v v with
  | None => None
  | Some (l, last) => chain_backward g fuel last v l
  end.
Definition summarized := (list hedge * hedge)%type.

Section Summarizer.
Variable elim : elim_fn.
Variable check : check_fn.
Variable pitp : pitp_fn.
(** Vertices of a graph in an unspecified order ([getVertices], src/graph/ChcGraph.cc:442-453). *)
Variable vertices : hgraph -> list sym.

(** The loop of [SimpleChainSummarizer::transform] (src/transformers/SimpleChainSummarizer.cc:14-63). *)
Fixpoint summarize_loop (fuel : nat) (g : hgraph) : option (hgraph * list summarized) :=
  match fuel with
  | O => None
  | S f =>
    match find (is_trivial g) (vertices g) with
    | None => Some (g, [])
    | Some v =>
      match trivial_chain g v with
      | None => None
      | Some ids =>
        match map_opt (hfind g) ids with
        | None => None
        | Some c =>
          let (g', e) := contract_chain elim g c in
          option_map (fun r => (fst r, (c, e) :: snd r)) (summarize_loop f g')
        end
      end
    end
  end.

(** One chain of the back translation of solutions (src/transformers/SimpleChainSummarizer.cc:89-129).  [None]:
    [definitions.at] throws, the solver does not answer UNSAT, or a definition exists already. *)
Definition untag (v : var) : var := mkVar (vbase v) TBase (vsort v).
Definition chain_parts (g : hgraph) (c : list hedge) (ds dt : term) : list (list term) :=
  let ls := map (fun e => rename (vlookup (to_source_map g (eto e))) (efla e)) c in
  let first := rename (src 0) ds in
  let neg := mkNot (rename (src 0) dt) in
  match ls with
  | [] => [[first; neg]]
  | [l] => [[first; l; neg]]
  | l :: ls' => [first; l] :: map (fun x => [x]) (removelast ls') ++ [[last ls' l; neg]]
  end.
Fixpoint add_defs (l : list (sym * term)) (w : defs_t) : option defs_t :=
  match l with
  | [] => Some w
  | (p, d) :: l' => match w p with Some _ => None | None => add_defs l' (wset w p d) end
  end.
Definition back_chain_valid (g : hgraph) (ce : summarized) : backV := fun w =>
  let c := fst ce in
  match w (hd entry (efrom (snd ce))), w (eto (snd ce)) with
  | Some ds, Some dt =>
    match check (concat (chain_parts g c ds dt)) with
    | UNSAT => match pitp (chain_parts g c ds dt) with
               | Some js => add_defs (combine (mids c) (map (rename untag) js)) w
               | None => None
               end
    | _ => None
    end
  | _, _ => None
  end.
(** All occurrences of one summary edge (src/transformers/SimpleChainSummarizer.cc:68-79); each replacement
    removes one. *)
Definition find_step (p : step -> bool) (d : derivation) : option nat :=
  find (fun i => match nth_error d i with Some s => p s | None => false end) (seq 0 (length d)).
Fixpoint back_chain_invalid (g : hgraph) (fuel : nat) (ce : summarized) (d : derivation) : option derivation :=
  match fuel with
  | O => None
  | S f =>
    match find_step (fun s => Nat.eqb (st_clause s) (eid (snd ce))) d with
    | None => Some d
    | Some i => match replace_summarizing check g (fst ce) d i with
                | None => None
                | Some d' => back_chain_invalid g f ce d'
                end
    end
  end.
(** The chains are visited in the order of their creation (src/transformers/SimpleChainSummarizer.cc:65-81)
    for derivations, in reversed order for solutions (83-131). *)
Definition summarize (fuel : nat) (g : hgraph) : option trans :=
  match summarize_loop fuel g with
  | None => None
  | Some (g', cs) =>
    Some (mkTrans g' (back_all (rev (map (back_chain_valid g) cs)))
                  (back_all (map (fun ce d => back_chain_invalid g (S (length d)) ce d) cs)))
  end.
End Summarizer.
