(** * Forward symbolic execution: src/engine/SymbolicExecution.cc. *)
From Verif Require Import Syntax Solver TransSys Graph GraphOps GraphSem SimpleTransModel MergeModel LinearModel.
Open Scope list_scope.
Open Scope nat_scope.

(** [State] (src/engine/SymbolicExecution.cc:19-24) together with its entry in [Predecessors] (26-36); the id of a state
    is its position. *)
Record sstate := mkState { ss_node : sym; ss_fla : term; ss_pred : option (nat * nat) }.

(** What a run ends with.  [SOutOfFuel]: the execution goes on (symbolic execution need not terminate). *)
Inductive se_result := SSafe (w : defs_t) | SUnsafe (d : derivation) | SUnknown | SThrow | SOutOfFuel.

Section SymEx.
Variable check : check_fn.
(** [QuantifierElimination::keepOnly]. *)
Variable qe : qe_fn.
(** [TermUtils::simplifyMax]. *)
Variable simp : term -> term.
(** [TrivialQuantifierElimination::tryEliminateVarsExcept]. *)
Variable elim : elim_fn.
Variable g : lgraph.

(** [getInvalidityWitness] (57-72), the path. [None]: an [at] throws. *)
Fixpoint back_path (hist : list sstate) (fuel id : nat) (acc : list nat) : option (list nat) :=
  match fuel with
  | O => None
  | S f =>
    match nth_error hist id with
    | None => None
    | Some s => if Nat.eqb (ss_node s) entry then Some acc
                else match ss_pred s with Some (p, e) => back_path hist f p (e :: acc) | None => None end
    end
  end.
Definition invalidity_witness (hist : list sstate) (errid id : nat) : se_result :=
  match back_path hist (S (length hist)) id [errid] with
  | None => SThrow
  | Some ids => match from_error_path check g ids with PathDerivation d => SUnsafe d | _ => SThrow end
  end.

(** [getValidityWitness] (74-95).  The instances of a predicate are collected in order; [emplace] keeps the definitions of
    [true] and [false]. *)
Fixpoint eliminated (l : list sstate) : option (list (sym * term)) :=
  match l with
  | [] => Some []
  | s :: l' => match qe (ss_fla s) (cur_vars g (ss_node s)), eliminated l' with
               | Some t, Some ts => Some ((ss_node s, t) :: ts)
               | _, _ => None
               end
  end.
Definition instances_of (ts : list (sym * term)) (p : sym) : list term := map snd (filter (fun x => Nat.eqb (fst x) p) ts).
Definition validity_defs (ts : list (sym * term)) : defs_t := fun p =>
  match trivial_defs p with
  | Some d => Some d
  | None => match instances_of ts p with [] => None | l => Some (rename untag (mkOr l)) end
  end.
Definition validity_witness (hist : list sstate) : se_result :=
  match eliminated hist with Some ts => SSafe (validity_defs ts) | None => SThrow end.

(** The successor state (142-146). *)
Definition post (F : term) (e : ledge) : term :=
  shift (-1) (elim (fun v => inb v (nxt_vars g (lto e))) (simp (mkAnd [F; lfla e]))).
(** [tryInsert] (99-107); the sets of discovered nodes have the content of the list of states. *)
Definition known (hist : list sstate) (p : sym) (F : term) : bool :=
  existsb (fun s => Nat.eqb (ss_node s) p && term_eqb (ss_fla s) F) hist.

(** The inner loop (124-161) for the state with number [id]; returns the new list of states and the ids of the new ones, or
    the final result. *)
Fixpoint expand_edges (id : nat) (F : term) (ids : list nat) (hist : list sstate) (q : list nat) : (list sstate * list nat) + se_result :=
  match ids with
  | [] => inl (hist, q)
  | i :: ids' =>
    match lfind g i with
    | None => inr SThrow
    | Some e =>
      if Nat.eqb (lto e) exit then
        match check [F; lfla e] with
        | SAT _ => inr (invalidity_witness hist i id)
        | UNSAT => expand_edges id F ids' hist q
        | UNKNOWN => inr SUnknown
        end
      else
        let F' := post F e in
        if known hist (lto e) F' then expand_edges id F ids' hist q
        else expand_edges id F ids' (hist ++ [mkState (lto e) F' (Some (id, i))]) (q ++ [length hist])
    end
  end.
(** The main loop (121-164). *)
Fixpoint explore (fuel : nat) (hist : list sstate) (q : list nat) : se_result :=
  match fuel with
  | O => SOutOfFuel
  | S f =>
    match q with
    | [] => validity_witness hist
    | id :: q' =>
      match nth_error hist id with
      | None => SThrow
      | Some s =>
        match expand_edges id (ss_fla s) (out_ids g (ss_node s)) hist q' with
        | inr r => r
        | inl (hist', q'') => explore f hist' q''
        end
      end
    end
  end.
(** [run] (97-165) with witnesses. *)
Definition symex_run (fuel : nat) : se_result := explore fuel [mkState entry tt_true None] [0].
End SymEx.

(** [SymbolicExecution::solve] (169-172). *)
Definition symex (check : check_fn) (qe : qe_fn) (simp : term -> term) (elim : elim_fn) (fuel : nat) (g : hgraph) : se_result :=
  if is_normal g then symex_run check qe simp elim (to_normal g) fuel else SUnknown.
