(** * [TPAEngine::solve] (src/engine/TPA.cc:39-94), all branches but the one for nested loops, with witnesses. *)
From Verif Require Import Syntax Solver TransSys KTo1Model Graph GraphOps GraphOpsProofs SimpleTransModel LinearModel ContractModel FormulaModel TpaModel DagModel.
Open Scope list_scope.
Open Scope nat_scope.

Inductive eans := EAnswer (a : gans) | EUnknown.
Section Engine.
Variable elim : elim_fn.
Variable qe : qe_fn.
Variable simp : term -> term.
Variables (nv : sym) (nid ctr : nat).
Variable ord : list var -> list var.
Variable check : check_fn.
(** [solveTransitionSystem] and [getInductiveInvariant] of the core, and the network manager. *)
Variable run : tsys -> out tres.
Variable invariant : tsys -> expl -> out (option term).
Variable dag : lgraph -> out gans.
(** The witness of UNSAFE, and of SAFE (lines 48-60, 83-92); SAFE without witness if there is no invariant. *)
Definition unsafe_answer (p : path_witness) : out eans :=
  match p with PathDerivation d => Ret (EAnswer (GAUnsafe (Some d))) | NoPath => Ret (EAnswer (GAUnsafe None)) | PathThrows => Exc end.
Definition system_answer (ts : tsys) (path : nat -> path_witness) (defs : term -> option defs_t) : out eans :=
  obind (run ts) (fun r =>
  match r with
  | TUnsafe _ n => unsafe_answer (path n)
  | TSafe e => obind (invariant ts e) (fun i =>
      match i with
      | None => Ret (EAnswer (GASafe None))
      | Some inv => match defs inv with Some w => Ret (EAnswer (GASafe (Some w))) | None => Exc end
      end)
  | TUnknown => Exc
  end).
(** [force]: the option that forces the single-loop transformation. *)
Definition tpa_engine (arrays force : bool) (g : lgraph) : out eans :=
  if is_trivial_graph g then
    match solve_trivial check g with
    | VSafe w => Ret (EAnswer (GASafe (Some w)))
    | VUnsafe d => Ret (EAnswer (GAUnsafe (Some d)))
    | VUnknown => Ret EUnknown
    | _ => Exc
    end
  else if arrays then Ret EUnknown
  else if is_transition_system g then
    match to_transition_system elim g with
    | None => Exc
    | Some ts0 => match ensure_no_aux qe ts0 with
                  | None => Exc
                  | Some ts => system_answer ts (from_ts_steps check g) (from_ts_invariant g ts)
                  end
    end
  else match is_ts_dag g with
       | None => Exc
       | Some d =>
         if d && negb force then obind (dag g) (fun a => Ret (EAnswer a))
         else match single_loop elim nv nid ctr ord g with
              | None => Exc
              | Some ts => system_answer ts (sl_path nv nid ord check g) (sl_invariant qe simp g)
              end
       end.
End Engine.
