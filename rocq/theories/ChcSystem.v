(** * Constrained Horn clauses with arbitrary argument terms, and what engines promise about them.

    Models src/ChcSystem.h:17-79.  The meaning ([cderivable], [cmodel]) is the specification. *)
From Verif Require Import Syntax Solver Graph.
Open Scope nat_scope.

(** [UninterpretedPredicate] (src/ChcSystem.h:17-19): a symbol applied to terms; the head [false] is [exit] without
    arguments. *)
Record atom := mkAtom { asym : sym; aargs : list term }.
(** [ChClause] (src/ChcSystem.h:31-58). *)
Record clause := mkClause { chead : atom; cfla : term; cbody : list atom }.

Definition avals (r : valuation) (a : atom) : list value := map (eval r) (aargs a).

(** Facts derivable from clauses. *)
Inductive cderivable (cs : list clause) : sym -> list value -> Prop :=
| cder c r : In c cs -> (forall a, In a (cbody c) -> cderivable cs (asym a) (avals r a)) -> holds r (cfla c) ->
    cderivable cs (asym (chead c)) (avals r (chead c)).

Definition cmodel (cs : list clause) (M : interpretation) : Prop :=
  forall c r, In c cs -> (forall a, In a (cbody c) -> M (asym a) (avals r a)) -> holds r (cfla c) ->
    M (asym (chead c)) (avals r (chead c)).
Definition csat (cs : list clause) : Prop := exists M, cmodel cs M /\ ~ M exit [].

Lemma cderivable_model cs : cmodel cs (cderivable cs).
Proof. intros c r Hc Hb Hf. apply cder; auto. Qed.
Lemma cderivable_least cs M : cmodel cs M -> forall p vs, cderivable cs p vs -> M p vs.
Proof. intros H p vs D. induction D as [c r Hc _ IH Hf]. apply H; auto. Qed.
Theorem csat_iff cs : csat cs <-> ~ cderivable cs exit [].
Proof.
  split.
  - intros [M [HM N]] D. apply N. eapply cderivable_least; eauto.
  - intros N. exists (cderivable cs). split; [apply cderivable_model|exact N].
Qed.

Lemma avals_vars r p (l : list var) : avals r (mkAtom p (map Var l)) = args r l.
Proof. unfold avals, args. cbn [aargs]. rewrite map_map. reflexivity. Qed.
