(** * Model of src/engine/Bmc.cc for general linear graphs. *)
From Verif Require Import Syntax Solver TransSys Names Graph GraphOps GraphOpsProofs GraphSem SimpleTransModel MergeModel LinearModel ContractModel KindModel BmcImcModel.
Open Scope list_scope.
Open Scope nat_scope.

(** [BMCUtils::getVarFor] (src/engine/Bmc.cc:80-82): the Boolean variable "node is reached at step"; the name is
    golem_bmc<node>#<step>. *)
Definition reach_var (p : sym) (k : nat) : var :=
  mkVar ("golem_bmc" ++ to_string (Z.of_nat p) ++ "#" ++ to_string (Z.of_nat k))%string TBase SBool.
Definition reach (p : sym) (k : nat) : term := Var (reach_var p k).

Section M.
Variable check : check_fn.
Variable g : lgraph.

(** The edges into a vertex, in the order of the adjacency list. *)
Definition in_edges (p : sym) : list ledge :=
  flat_map (fun i => match lfind g i with Some e => [e] | None => [] end) (getd (incoming (ladjacency_of g)) p).

(** The disjuncts for one node (src/engine/Bmc.cc:160-167). *)
Definition pred_transitions (frontier : list sym) (k : nat) (p : sym) : list term :=
  map (fun e => mkAnd [shift (Z.of_nat k) (lfla e); reach (lfrom e) k])
      (filter (fun e => smem (lfrom e) frontier) (in_edges p)).
(** One level (src/engine/Bmc.cc:159-175): the assertions and the next frontier. *)
Definition next_frontier (frontier : list sym) (k : nat) : list sym :=
  filter (fun p => match pred_transitions frontier k p with [] => false | _ => true end) (lvertices g).
Definition level_asserts (frontier : list sym) (k : nat) : list term :=
  map (fun p => mkImplies (reach p (S k)) (mkOr (pred_transitions frontier k p))) (next_frontier frontier k).

(** The while loop of [computeWitness] (src/engine/Bmc.cc:97-113); the edges are collected from the last to the first.
    [known] is the set [encounteredNodes]. *)
Fixpoint walk_back (r : valuation) (known : list (sym * nat)) (remaining : nat) (current : sym) : list ledge :=
  match remaining with
  | O => []
  | S n =>
      match find (fun e => existsb (fun q => Nat.eqb (fst q) (lfrom e) && Nat.eqb (snd q) n) known &&
                           holdsb r (reach (lfrom e) n) && holdsb r (shift (Z.of_nat n) (lfla e))) (in_edges current) with
      | Some e => e :: walk_back r known n (lfrom e)
      | None => walk_back r known n current
      end
  end.
(** [computeWitness] (src/engine/Bmc.cc:88-117). *)
Definition bmc_witness (r : valuation) (steps : nat) (known : list (sym * nat)) : path_witness :=
  if holdsb r (reach exit steps) then
    let path := walk_back r known steps exit in
    if Nat.eqb (length path) steps then from_error_path check g (map lid (rev path)) else NoPath
  else NoPath.

(** Result of the general search: the answer UNSAFE carries what is returned as witness ([None]: no witness wanted) and
    the number of steps (ghost). *)
Inductive gresult := GUnsafe (w : option path_witness) (n : nat) | GFuel.

(** [BMC::solveGeneralLinearSystem] (src/engine/Bmc.cc:136-194) from level [k] on.  The bound 2^31-2 on the number of levels
    is the fuel; [u] records (ghost) whether a query was answered UNKNOWN, which the code treats like UNSAT.  The push/pop
    pair keeps [exitReached] out of the later queries. *)
Variable needs_witness : bool.
Fixpoint bmcg_loop (fuel k : nat) (asserted : list term) (frontier : list sym) (known : list (sym * nat)) (u : bool) : gresult * bool :=
  match fuel with
  | O => (GFuel, u)
  | S fuel' =>
      let next := next_frontier frontier k in
      let asserted' := asserted ++ level_asserts frontier k in
      let known' := known ++ map (fun p => (p, S k)) next in
      if smem exit next then
        match check (asserted' ++ [reach exit (S k)]) with
        | SAT r => (GUnsafe (if needs_witness then Some (bmc_witness r (S k) known') else None) (S k), u)
        | a => bmcg_loop fuel' (S k) asserted' next known' (u || is_unknown a)%bool
        end
      else bmcg_loop fuel' (S k) asserted' next known' u
  end.
Definition bmc_graph (fuel : nat) : gresult * bool :=
  bmcg_loop fuel 0 [reach entry 0] [entry] [(entry, 0)] false.
End M.

(** [BMC::solve] (src/engine/Bmc.cc:17-34) with witnesses; [force] is the option that forces the single-loop transformation.
    The auxiliary variables of the extracted system are kept.  [VNoWitness] stands for an answer UNSAFE with an empty witness;
    running out of levels is UNKNOWN. *)
Section Solve.
Variable elim : elim_fn.
Variable qe : qe_fn.
Variable simp : term -> term.
Variables (nv : sym) (nid ctr : nat).
Variable ord : list var -> list var.
Variable check : check_fn.
(** The result of the search on a transition system. *)
Definition bmc_ts (fuel : nat) (ts : tsys) : tsresult :=
  match fst (bmc check fuel ts) with Safe inv => TSafe inv | Unsafe n => TUnsafe n | _ => TUnknown end.
Definition bmc_solve (force : bool) (fuel : nat) (g : lgraph) : vresult :=
  if is_trivial_graph g then solve_trivial check g
  else if is_transition_system g then
    match to_transition_system elim g with
    | None => VThrow
    | Some ts => translate_ts_result check g ts (bmc_ts fuel ts)
    end
  else if force then
    match single_loop elim nv nid ctr ord g with
    | None => VThrow
    | Some ts => sl_translate nv nid ord qe simp check g (bmc_ts fuel ts)
    end
  else match fst (bmc_graph check g true fuel) with
       | GUnsafe (Some (PathDerivation d)) _ => VUnsafe d
       | GUnsafe (Some PathThrows) _ => VThrow
       | GUnsafe _ _ => VNoWitness
       | GFuel => VUnknown
       end.
End Solve.
