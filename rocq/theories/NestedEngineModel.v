(** * [TPAEngine::solve] with the option that simplifies nested loops (src/engine/TPA.cc:39-94). *)
From Verif Require Import Syntax Solver TransSys KTo1Model Graph GraphOps GraphOpsProofs SimpleTransModel LinearModel ContractModel NestedModel NestedPathModel FormulaModel TpaModel DagModel TpaEngineModel.
Open Scope list_scope.
Open Scope nat_scope.

(** [NStuck]: a quantifier elimination gave up; [NEnd]: the end iterator of a search is dereferenced. *)
Inductive nans := NAnswer (a : eans) | NStuck | NEnd.
Section Engine.
Variable qe : qe_fn.
Variable simp : term -> term.
Variables (nv nid : nat -> nat).
Variable ord : list var -> list var.
Variable check : check_fn.
Variable dag : lgraph -> out gans.
(** [WitnessBackTranslator::translate] (src/transformers/NestedLoopTransformation.cc:47-62).  Without a witness, [std::get] throws
    std::bad_variant_access (src/Witnesses.h:145-146). *)
Definition nested_translate (g h : lgraph) (cs : list cdata) (a : gans) : out nans :=
  match a with
  | GAUnsafe None | GASafe None => Exc
  | GAUnsafe (Some d) =>
    match np_derivation check g cs h d with
    | NpDone (PathDerivation d') => Ret (NAnswer (EAnswer (GAUnsafe (Some d'))))
    | NpDone NoPath => Ret (NAnswer (EAnswer (GAUnsafe None)))
    | NpDone PathThrows => Exc
    | NpEnd => Ret NEnd
    end
  | GASafe (Some w) =>
    match nl_invariant qe simp g cs w with
    | NlDefs w' => Ret (NAnswer (EAnswer (GASafe (Some w'))))
    | NlStuck => Ret NStuck
    | NlThrow => Exc
    end
  end.
(** Lines 64-69; the assertion that the transformed graph is a DAG of loops is off in release builds. *)
Definition nested_branch (fuel : nat) (g : lgraph) : out nans :=
  match nl_transform nv nid ord fuel 0 g with
  | None => NoFuel
  | Some (h, cs) => obind (dag h) (nested_translate g h cs)
  end.
(** The option takes precedence over the choice between the two other branches (lines 62-64); [rest] is the engine without it
    (TpaEngineModel.tpa_engine), which handles the first three cases in the same way. *)
Definition tpa_engine_nested (arrays : bool) (rest : lgraph -> out eans) (fuel : nat) (g : lgraph) : out nans :=
  if is_trivial_graph g || arrays || is_transition_system g then obind (rest g) (fun a => Ret (NAnswer a)) else nested_branch fuel g.
End Engine.
