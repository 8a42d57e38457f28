(** * Model of src/engine/Spacer.cc. *)
From Verif Require Import Syntax Solver Graph GraphOps ValidatorModel GraphSem SimpleTransModel EntailModel PdkModel.
Open Scope nat_scope.
Open Scope list_scope.

(** [ProofObligation] (src/engine/Spacer.cc:68-72); the constraint is over target variables. *)
Record pob := mkPob { pob_v : sym; pob_b : nat; pob_c : term }.

(** [ApproxMap] (src/engine/Spacer.cc:22-62): bound -> vertex -> set of components.  [ensureBound] only grows the
    vector, so the map is total here.  The order of iteration over an [unordered_set] is left open ([ord] below). *)
Definition approx := nat -> sym -> list term.
(** [insert], [has] (src/engine/Spacer.cc:38-51). *)
Definition ahas (m : approx) (v : sym) (b : nat) (t : term) : bool := existsb (term_eqb t) (m b v).
Definition ainsert (m : approx) (v : sym) (b : nat) (t : term) : approx := fun b' v' =>
  if Nat.eqb b' b && Nat.eqb v' v then (if ahas m v b t then m b v else m b v ++ [t]) else m b' v'.

(** [DerivationDatabase::Entry] (src/engine/Spacer.cc:98-109). *)
Record dentry := mkDE { de_fact : term; de_node : sym; de_edge : nat; de_prems : list nat }.
(** [getIdFor] (src/engine/Spacer.cc:144-149); [None]: the exception. *)
Fixpoint id_for (db : list dentry) (f : term) (v : sym) : option nat :=
  match db with
  | [] => None
  | d :: db' => if Nat.eqb (de_node d) v && term_eqb (de_fact d) f then Some 0 else option_map S (id_for db' f v)
  end.

(** The mutable part of [SpacerContext] (src/engine/Spacer.cc:160-166). *)
Record sstate := mkS { s_under : approx; s_over : approx; s_db : list dentry; s_low : nat }.

(** [toBase] (src/TermUtils.h:347-353): [targetFormulaToBase] renames with it, [sourceFormulaToTarget] with [tgt]
    after it, [baseFormulaToSource] with [src i], [baseFormulaToTarget] with [tgt] (src/TermUtils.cc:769-787). *)
Definition base (v : var) : var := mkVar (vbase v) TBase (vsort v).

Inductive must_res := MYes (st : sstate) | MNo | MThrow.
Inductive pred_res := PYes (p : pob) | PNo | PThrow.
Inductive bound_res := BSafe (st : sstate) | BUnsafe (st : sstate) | BThrow | BFuel.
Inductive ind_res := IYes (st : sstate) (level : nat) | INo (st : sstate) | IThrow.
(** Outcomes of the engine; [SpNoProof]: an exception while the derivation is reconstructed. *)
Inductive sp_res := SpSafe (w : defs_t) | SpUnsafe (d : option derivation) | SpThrow | SpNoProof | SpFuel.

Section Spacer.
Variable c : ctors.
Variable check : check_fn.
Variable itp : itp_fn.
Variable mbp : mbp_fn.
Variable simp : term -> term.
Variable ord : list term -> list term.
(** The priority queue (src/engine/Spacer.cc:84-93): removes some obligation; [None] when empty. *)
Variable pick : list pob -> option (pob * list pob).
Variable logProof : bool.
Variable g : hgraph.

(** [incomingEdges] (src/engine/Spacer.cc:296-298). *)
Definition inc (v : sym) : list hedge := flat_map (fun i => match hfind g i with Some e => [e] | None => [] end) (in_edges g v).

(** [getMustSummary], [getMaySummary] (src/engine/Spacer.cc:175-177). *)
Definition must_sum (st : sstate) (b : nat) (v : sym) : term := cor c (ord (s_under st b v)).
Definition may_sum (st : sstate) (b : nat) (v : sym) : term := cand c (ord (s_over st b v)).
(** [getEdgeMustSummary] (src/engine/Spacer.cc:615-632), [getEdgeMaySummary] (:634-651). *)
Definition edge_sum (f : sym -> term) (e : hedge) : term :=
  cand c (efla e :: map (fun pi => rename (src (snd pi)) (f (fst pi))) (instances (efrom e))).
Definition edge_must (st : sstate) (e : hedge) (b : nat) : term := edge_sum (must_sum st b) e.
Definition edge_may (st : sstate) (e : hedge) (b : nat) : term := edge_sum (may_sum st b) e.
(** [getEdgeMixedSummary] (src/engine/Spacer.cc:653-672). *)
Definition mixed_parts (st : sstate) (e : hedge) (b k : nat) : list term :=
  map (fun jp => rename (src (snd (snd jp))) ((if Nat.leb (fst jp) k then may_sum else must_sum) st b (fst (snd jp))))
      (combine (seq 0 (length (efrom e))) (instances (efrom e))).
Definition edge_mixed (st : sstate) (e : hedge) (b k : nat) : term := cand c (mixed_parts st e b k ++ [efla e]).

(** [sat] (src/engine/Spacer.cc:357-381). *)
Definition sat (A B : term) : answer := if term_eqb A tt_false then UNSAT else check [A; B].

(** [logNewFactIntoDatabase] (src/engine/Spacer.cc:674-697). *)
Fixpoint find_prems (st : sstate) (b : nat) (m : valuation) (l : list (sym * nat)) : option (list nat) :=
  match l with
  | [] => Some []
  | (v, i) :: l' =>
    match find (fun t => holdsb m (rename (src i) t)) (ord (s_under st b v)) with
    | None => None
    | Some t =>
      match id_for (s_db st) t v, find_prems st b m l' with
      | Some k, Some ks => Some (k :: ks)
      | _, _ => None
      end
    end
  end.
Definition log_fact (st : sstate) (f : term) (v : sym) (b : nat) (e : hedge) (m : valuation) : option sstate :=
  option_map (fun ks => mkS (s_under st) (s_over st) (s_db st ++ [mkDE f v (eid e) ks]) (s_low st)) (find_prems st b m (instances (efrom e))).

(** [checkMustReachability] (src/engine/Spacer.cc:410-445).  [MThrow] also stands for [bound - 1] with bound 0. *)
Definition check_must (st : sstate) (es : list hedge) (p : pob) : must_res :=
  match pob_b p with
  | O => MThrow
  | S b =>
    let sums := map (fun e => (e, edge_must st e b)) es in
    match sat (cor c (map snd sums)) (pob_c p) with
    | SAT m =>
      match find (fun x => holdsb m (snd x)) sums with
      | None => MYes st
      | Some (e, s) =>
        match mbp s (tgt_vars g (pob_v p)) m with
        | None => MThrow
        | Some f =>
          let f' := rename base f in
          let st' := mkS (ainsert (s_under st) (pob_v p) (pob_b p) f') (s_over st) (s_db st) (s_low st) in
          if logProof then match log_fact st' f' (pob_v p) b e m with Some st'' => MYes st'' | None => MThrow end else MYes st'
        end
      end
    | _ => MNo
    end
  end.

(** [computePredecessor] (src/engine/Spacer.cc:457-517); the loop over the sources: *)
Fixpoint refine_loop (st : sstate) (e : hedge) (p : pob) (b k : nat) (l : list (sym * nat)) : pred_res :=
  match l with
  | [] => PThrow
  | vi :: l' =>
    let s := edge_mixed st e b k in
    match sat s (pob_c p) with
    | SAT m =>
      match mbp (cand c [s; pob_c p]) (src_vars g vi) m with
      | Some f => PYes (mkPob (fst vi) b (rename tgt f))
      | None => PThrow
      end
    | UNSAT => refine_loop st e p b (S k) l'
    | UNKNOWN => PThrow
    end
  end.
(** Single source (src/engine/Spacer.cc:462-481); hyperedge (:482-516) with [mayReachable] (:447-455). *)
Definition predecessor (st : sstate) (p : pob) (e : hedge) : pred_res :=
  match pob_b p with
  | O => PThrow
  | S b =>
    let s := edge_may st e b in
    match efrom e with
    | [v] =>
      match sat s (pob_c p) with
      | SAT m =>
        match mbp (cand c [s; pob_c p]) (src_vars g (v, 0)) m with
        | Some f => PYes (mkPob v b (rename tgt f))
        | None => PThrow
        end
      | UNSAT => PNo
      | UNKNOWN => PThrow
      end
    | _ =>
      if term_eqb s tt_false then PNo
      else match sat s (pob_c p) with
           | SAT _ => refine_loop st e p b 0 (instances (efrom e))
           | UNSAT => PNo
           | UNKNOWN => PThrow
           end
    end
  end.
(** src/engine/Spacer.cc:322-326 *)
Fixpoint predecessors (st : sstate) (p : pob) (es : list hedge) : option (list pob) :=
  match es with
  | [] => Some []
  | e :: es' =>
    match predecessor st p e with
    | PThrow => None
    | PNo => predecessors st p es'
    | PYes q => option_map (cons q) (predecessors st p es')
    end
  end.
(** Blocking (src/engine/Spacer.cc:328-345) with [interpolatingSat] (:383-408); [None]: an exception. *)
Definition block (st : sstate) (es : list hedge) (p : pob) : option sstate :=
  match pob_b p with
  | O => None
  | S b =>
    let A := cor c (map (fun e => edge_may st e b) es) in
    match check [A; pob_c p] with
    | UNSAT =>
      match itp [A] [pob_c p] with
      | Some J => Some (mkS (s_under st) (ainsert (s_over st) (pob_v p) (pob_b p) (rename base J)) (s_db st) (Nat.min (s_low st) (pob_b p)))
      | None => None
      end
    | _ => None
    end
  end.
(** [boundSafety] (src/engine/Spacer.cc:300-355). *)
Fixpoint bound_loop (fuel : nat) (st : sstate) (q : list pob) : bound_res :=
  match fuel with
  | O => BFuel
  | S f =>
    match pick q with
    | None => BSafe st
    | Some (p, q') =>
      if Nat.eqb (pob_v p) entry then BUnsafe st
      else
        let es := inc (pob_v p) in
        match check_must st es p with
        | MThrow => BThrow
        | MYes st' => if Nat.eqb (pob_v p) exit then BUnsafe st' else bound_loop f st' q'
        | MNo =>
          match predecessors st p es with
          | None => BThrow
          | Some [] => match block st es p with Some st' => bound_loop f st' q' | None => BThrow end
          | Some nps => bound_loop f st (q ++ nps)
          end
        end
    end
  end.
Definition bound_safety (fuel : nat) (st : sstate) (k : nat) : bound_res :=
  bound_loop fuel (mkS (s_under st) (s_over st) (s_db st) k) [mkPob exit k tt_true].

(** [tryPushComponents] (src/engine/Spacer.cc:578-595); the body is computed at :529-534. *)
Definition try_push (st : sstate) (v : sym) (l : nat) : option (sstate * bool) :=
  let body := cor c (map (fun e => edge_may st e l) (inc v)) in
  let cands := map (rename tgt) (filter (fun t => negb (ahas (s_over st) v (S l) t)) (ord (s_over st l v))) in
  match cands with
  | [] => Some (st, true)
  | _ =>
    match implied_by check (S (length cands)) [body] cands with
    | Implied pushed =>
      Some (mkS (s_under st) (fold_left (fun o t => ainsert o v (S l) (rename base t)) pushed (s_over st)) (s_db st) (s_low st),
            Nat.eqb (length pushed) (length cands))
    | _ => None
    end
  end.
(** One level of [isInductive] (src/engine/Spacer.cc:523-541). *)
Fixpoint push_level (st : sstate) (l : nat) (vs : list sym) (inductive : bool) : option (sstate * bool) :=
  match vs with
  | [] => Some (st, inductive)
  | v :: vs' =>
    if Nat.eqb v entry then push_level st l vs' inductive
    else match try_push st v l with
         | Some (st', b) => push_level st' l vs' (inductive && b)
         | None => None
         end
  end.
(** [isInductive] (src/engine/Spacer.cc:520-545). *)
Fixpoint ind_levels (st : sstate) (levels : list nat) : ind_res :=
  match levels with
  | [] => INo st
  | l :: ls =>
    match push_level st l (hnodes g) true with
    | None => IThrow
    | Some (st', true) => IYes st' l
    | Some (st', false) => ind_levels st' ls
    end
  end.
Definition is_inductive (st : sstate) (k : nat) : ind_res := ind_levels st (seq (s_low st) (S k - s_low st)).

(** ** The derivation *)
(** [Entry] (src/engine/Spacer.cc:700-704); an empty list of premises: not computed yet. *)
Record frame := mkF { f_id : nat; f_inst : fact; f_prems : list fact }.
(** [computePremiseInstances] (src/engine/Spacer.cc:706-755). *)
Fixpoint premise_constraints (db : list dentry) (ks : list nat) (l : list (sym * nat)) : option (list term) :=
  match ks, l with
  | [], _ => Some []
  | k :: ks', pi :: l' =>
    match nth_error db k, premise_constraints db ks' l' with
    | Some d, Some ts => Some (rename (src (snd pi)) (de_fact d) :: ts)
    | _, _ => None
    end
  | _ :: _, [] => None
  end.
Fixpoint premise_preds (db : list dentry) (ks : list nat) (l : list (sym * nat)) : option (list (sym * nat)) :=
  match ks, l with
  | [], _ => Some []
  | k :: ks', pi :: l' =>
    match nth_error db k, premise_preds db ks' l' with
    | Some d, Some ts => Some ((de_node d, snd pi) :: ts)
    | _, _ => None
    end
  | _ :: _, [] => None
  end.
Definition prem_instances (db : list dentry) (d : dentry) (inst : fact) : option (list fact) :=
  match hfind g (de_edge d) with
  | None => None
  | Some e =>
    match premise_constraints db (de_prems d) (instances (efrom e)), premise_preds db (de_prems d) (instances (efrom e)) with
    | Some cs, Some ps =>
      let lbl := if Nat.eqb (eto e) exit then efla e else subst (fill (tgt_vars g (eto e)) inst) (efla e) in
      match check (cs ++ [lbl]) with
      | SAT m => Some (map (fun pi => (fst pi, args m (src_vars g pi))) ps)
      | _ => None
      end
    | _, _ => None
    end
  end.
(** [derivationSteps] (src/engine/Spacer.cc:764): [insert] keeps the first entry. *)
Fixpoint step_of (ds : list (fact * nat)) (f : fact) : option nat :=
  match ds with
  | [] => None
  | (f', i) :: ds' => if fact_eqb f' f then Some i else step_of ds' f
  end.
Definition known (ds : list (fact * nat)) (f : fact) : bool := match step_of ds f with Some _ => true | None => false end.
(** The loop of [reconstructInvalidityWitness] (src/engine/Spacer.cc:769-807); the head of the list is the back of the
    deque. *)
Fixpoint rec_loop (fuel : nat) (db : list dentry) (root : nat) (stack : list frame) (ds : list (fact * nat)) (d : derivation) : sp_res :=
  match fuel with
  | O => SpFuel
  | S n =>
    match stack with
    | [] => SpUnsafe (Some d)
    | fr :: rest =>
      if negb (Nat.eqb (f_id fr) root) && known ds (f_inst fr) then rec_loop n db root rest ds d
      else
        match nth_error db (f_id fr) with
        | None => SpNoProof
        | Some de =>
          match (match de_prems de, f_prems fr with _ :: _, [] => prem_instances db de (f_inst fr) | _, ps => Some ps end) with
          | None => SpNoProof
          | Some ps =>
            match filter (fun kp => negb (known ds (snd kp))) (combine (de_prems de) ps) with
            | [] =>
              let f := if Nat.eqb (de_node de) exit then (exit, []) else f_inst fr in
              rec_loop n db root rest (ds ++ [(f, length d)])
                (d ++ [mkStep (flat_map (fun p => match step_of ds p with Some i => [i] | None => [] end) ps) f (de_edge de)])
            | missing => rec_loop n db root (rev (map (fun kp => mkF (fst kp) (snd kp) []) missing) ++ mkF (f_id fr) (f_inst fr) ps :: rest) ds d
            end
          end
        end
    end
  end.
(** [reconstructInvalidityWitness] (src/engine/Spacer.cc:758-768). *)
Definition reconstruct (fuel : nat) (st : sstate) : sp_res :=
  if logProof then
    match id_for (s_db st) tt_true exit with
    | None => SpNoProof
    | Some root => rec_loop fuel (s_db st) root [mkF root (entry, []) []] [] []
    end
  else SpUnsafe None.

(** The definitions of a SAFE answer (src/engine/Spacer.cc:269-284). *)
Definition definitions (st : sstate) (l : nat) : defs_t := fun v =>
  if Nat.eqb v entry then Some tt_true else if Nat.eqb v exit then Some tt_false
  else if smem v (hnodes g) then Some (simp (may_sum st l v)) else None.

(** [run] (src/engine/Spacer.cc:256-294). *)
Definition add_entry (st : sstate) (k : nat) : sstate :=
  mkS (ainsert (s_under st) entry k tt_true) (ainsert (s_over st) entry k tt_true) (s_db st) (s_low st).
Fixpoint run (fuel inner : nat) (st : sstate) (k : nat) : sp_res :=
  match fuel with
  | O => SpFuel
  | S f =>
    match bound_safety inner (add_entry st k) k with
    | BFuel => SpFuel
    | BThrow => SpThrow
    | BUnsafe st' => reconstruct inner st'
    | BSafe st' =>
      match is_inductive st' k with
      | IThrow => SpThrow
      | IYes st'' l => SpSafe (definitions st'' l)
      | INo st'' => run f inner st'' (S k)
      end
    end
  end.
(** The constructor (src/engine/Spacer.cc:240-254). *)
Definition init_map : approx := fun b v => if Nat.eqb b 0 && smem v (hnodes g) then [if Nat.eqb v entry then tt_true else tt_false] else [].
Definition init_state : sstate := mkS init_map init_map [mkDE tt_true entry no_id []] 0.
(** [Spacer::solve] (src/engine/Spacer.cc:233-238) without arrays. *)
Definition spacer (fuel inner : nat) : sp_res := run fuel inner init_state 1.
End Spacer.
