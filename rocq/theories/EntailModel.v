(** * Batches of entailment checks (src/utils/SmtSolver.cc). *)
From Verif Require Import Syntax Solver Names.
Open Scope list_scope.
Open Scope nat_scope.

(** Outcome of a batch: the implied candidates, an exception, or out of fuel (never for enough fuel). *)
Inductive entail_out := Implied (l : list term) | EThrow | EFuel.

Section Entail.
Variable check : check_fn.

(** [checkEntailmentOneByOne] (src/utils/SmtSolver.cc:45-55, 115-127). *)
Definition one_by_one (premises candidates : list term) : list term :=
  filter (fun c => is_unsat (check (premises ++ [mkNot c]))) candidates.

(** The activation variable of a candidate (src/utils/SmtSolver.cc:63-65). *)
Definition act (i : nat) : var := mkVar (".act" ++ to_string (Z.of_nat i))%string TBase SBool.
(** src/utils/SmtSolver.cc:66 *)
Definition query (i : nat) (c : term) : term := mkAnd [Var (act i); mkNot c].
Definition queries (cs : list term) : list term :=
  map (fun ic => query (fst ic) (snd ic)) (combine (seq 0 (length cs)) cs).
(** An activation literal: negated when the candidate is disabled (src/utils/SmtSolver.cc:65, 87). *)
Definition lit (i : nat) (enabled : bool) : term := if enabled then Var (act i) else mkNot (Var (act i)).
Definition lits (en : list bool) : list term := map (fun ib => lit (fst ib) (snd ib)) (combine (seq 0 (length en)) en).
(** Disabling what the model refutes (src/utils/SmtSolver.cc:82-89). *)
Definition disable (m : valuation) (qs : list term) (en : list bool) : list bool :=
  map (fun qb => snd qb && negb (holdsb m (fst qb))) (combine qs en).
(** The loop (src/utils/SmtSolver.cc:71-91).  [disabled] is the number of disabled literals. *)
Fixpoint batch_loop (fuel : nat) (premises : list term) (cs : list term) (en : list bool) : entail_out :=
  match fuel with
  | O => EFuel
  | S f =>
    let result := Implied (map fst (filter snd (combine cs en))) in
    if negb (existsb (fun b => b) en) then result
    else
      match check (premises ++ [mkOr (queries cs); mkAnd (lits en)]) with
      | UNSAT => result
      | UNKNOWN => EThrow
      | SAT m => batch_loop f premises cs (disable m (queries cs) en)
      end
  end.
(** [impliedBy] (src/utils/SmtSolver.cc:57-113). *)
Definition implied_by (fuel : nat) (premises cs : list term) : entail_out :=
  batch_loop fuel premises cs (map (fun _ => true) cs).
End Entail.
