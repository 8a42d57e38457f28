(** * The preprocessing pipelines and the answer of (check-sat).

    Models src/transformers/BasicTransformationPipelines.cc and [interpretCheckSat] for one engine
    (src/ChcInterpreter.cc:403-470, 530-556). *)
From Verif Require Import Syntax Solver TransSys Graph GraphOps ValidatorModel FormulaModel GraphSem SimpleTransModel MergeModel ElimModel InlineModel ChcSystem NormModel.
From Coq Require Import String List.
Import ListNotations.
Open Scope list_scope.
Open Scope nat_scope.

(** The libraries and choices the transformations depend on.  [t_fresh]: the value of the counter of
    [createAuxiliaryVariable] when a stage starts; [t_dfuel], [t_ifuel]: bounds for the back translation of derivations of a
    node elimination and for the loop of the edge inlining, which need not end (C35). *)
Record tools := mkTools {
  t_elim : elim_fn;
  t_rewrite : term -> term;
  t_simp : term -> term;
  t_check : check_fn;
  t_itp : itp_fn;
  t_pitp : pitp_fn;
  t_vertices : hgraph -> list sym;
  t_fresh : nat -> nat;
  t_dfuel : nat;
  t_ifuel : nat
}.

(** The transformers used by the two pipelines.  The numbers tell apart the stages that read [t_fresh]. *)
Inductive stage :=
| Simplify | Chains | Unreachable | SimpleNodes (n : nat) | BetterNodes (n : nat) | Inline (n : nat) | FalseClauses | MultiEdges | TrivialEdges.

Section Stages.
Variable o : tools.
(** The transformers with their arguments: ConstraintSimplifier (C39), SimpleChainSummarizer (C33), RemoveUnreachableNodes (C30),
    SimpleNodeEliminator and SlightlyBetterNodeEliminator (C34), EdgeInliner (C35), FalseClauseRemoval (C32), MultiEdgeMerger
    (C31), TrivialEdgePruner (C40). *)
Definition transform (s : stage) (g : hgraph) : option trans :=
  match s with
  | Simplify => Some (simplify_constraints (t_elim o) (t_rewrite o) g)
  | Chains => summarize (t_elim o) (t_check o) (t_pitp o) (t_vertices o) (S (length (gedges g))) g
  | Unreachable => remove_unreachable g
  | SimpleNodes n => eliminate (t_elim o) (t_fresh o n) (t_check o) (t_itp o) simple_pred (t_vertices o) (t_dfuel o) g
  | BetterNodes n => eliminate (t_elim o) (t_fresh o n) (t_check o) (t_itp o) better_pred (t_vertices o) (t_dfuel o) g
  | Inline n => option_map fst (inline_edges (t_check o) (t_itp o) (t_elim o) (t_fresh o n) (t_ifuel o) g)
  | FalseClauses => Some (remove_false g)
  | MultiEdges => Some (merge_edges (t_check o) (t_simp o) g)
  | TrivialEdges => Some (prune_trivial (t_check o) g)
  end.

(** [defaultTransformationPipeline] (src/transformers/BasicTransformationPipelines.cc:65-83). *)
Definition default_stages : list stage :=
  [Simplify; Chains; Unreachable; SimpleNodes 0; Inline 1; FalseClauses; Unreachable; MultiEdges;
   Chains; Unreachable; SimpleNodes 2; FalseClauses; Unreachable; MultiEdges; TrivialEdges].
(** [towardsTransitionSystems] (src/transformers/BasicTransformationPipelines.cc:54-63). *)
Definition towards_stages : list stage :=
  [BetterNodes 3; FalseClauses; Unreachable; MultiEdges; TrivialEdges].
(** [TransformationPipeline::transform] (src/transformers/TransformationPipeline.cc:11-20). *)
Definition run_stages (ss : list stage) : hgraph -> option trans := pipeline (map transform ss).

(** ** The answer to (check-sat) *)
(** [VerificationAnswer] with the witness of the result (src/Witnesses.h:111-139).  [EThrow]: the engine ends with an exception;
    [None] instead of a witness: [hasWitness] is false. *)
Inductive eresult :=
| ESafe (w : option (list (sym * term)))
| EUnsafe (d : option derivation)
| EUnknown
| EThrow.

(** What the user sees.  [OWitness], [OProof]: the witness printed (the printer is the subject of C51, C52, C60-C62);
    [OLine]: a line; [OLost]: the back translation fails, that is, the process ends with an exception or goes on with an empty
    witness; [OAbort]: the process ends with an exception. *)
Inductive output :=
| OLine (s : string)
| OWitness (w : list (sym * term))
| OProof (d : derivation)
| OLost
| OAbort.

Variable print_witness validate : bool.

(** The definitions as a finite map (the back translators of the model work on functions).  Definitions of symbols that do not
    occur in the graph are left out. *)
Definition listed (g : hgraph) (w : defs_t) : list (sym * term) :=
  flat_map (fun p => match w p with Some d => [(p, d)] | None => [] end) (nodup Nat.eq_dec (hnodes g)).

Definition validated (r : vresult) : list output :=
  match r with
  | VALIDATED => [OLine "Internal witness validation successful!"]
  | NOT_VALIDATED => [OLine "Internal witness validation failed!"]
  | UNDEFINED => [OAbort]
  end.
Definition no_witness : list output := if validate then [OLine "Internal witness validation failed!"] else [].
(** [doWorkAfterAnswer] (src/ChcInterpreter.cc:417-452), [WitnessBackTranslator::translate]
    (src/transformers/Transformer.h:21-33). *)
Definition work_safe (g0 : hgraph) (back : backV) (w : option (list (sym * term))) : list output :=
  match w with
  | None => no_witness
  | Some l =>
    match back (wlookup l) with
    | None => [OLost]
    | Some w' => (if print_witness then [OWitness (listed g0 w')] else []) ++
                 (if validate then validated (validate_validity (t_check o) g0 (listed g0 w')) else [])
    end
  end.
Definition work_unsafe (g0 : hgraph) (back : backI) (d : option derivation) : list output :=
  match d with
  | None => no_witness
  | Some x =>
    match back x with
    | None => [OLost]
    | Some d' => (if print_witness then [OProof d'] else []) ++
                 (if validate then validated (validate_invalidity (t_check o) g0 d') else [])
    end
  end.

(** [interpretCheckSat] with a single engine (src/ChcInterpreter.cc:530-556), [printAnswer] (455-469).  [None]: the
    preprocessing throws or does not end. *)
Definition interpret_check_sat (engine : hgraph -> eresult) (cs : list clause) : option (list output) :=
  let g0 := build_graph cs in
  match run_stages default_stages g0 with
  | None => None
  | Some t =>
    let work := print_witness || validate in
    Some match engine (tr_graph t) with
         | ESafe w => OLine "sat" :: (if work then work_safe g0 (tr_valid t) w else [])
         | EUnsafe d => OLine "unsat" :: (if work then work_unsafe g0 (tr_invalid t) d else [])
         | EUnknown => [OLine "unknown"]
         | EThrow => [OAbort]
         end
  end.
End Stages.
