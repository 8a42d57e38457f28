(** * Model of src/engine/Kind.cc (transition systems). *)
From Verif Require Import Syntax Solver TransSys TSLemmas KTo1Model.

(** [TransitionSystemVerificationResult] (src/TransitionSystem.h:82-95) plus the outcomes a
    C++ run can have that are no answers: an exception, or (model only) fuel exhausted. *)
Inductive verdict := Safe (inv : term) | Unsafe (k : nat) | Unknown | Exn | Fuel.

(** ** Solver stacks *)
(** Contents of [solverBase] at the check of iteration [k] (src/engine/Kind.cc:70, 81-90, 100-102):
    [init], the transitions at times 0 .. k-1, the query at time [k]. *)
Definition base_query (ts : tsys) (k : nat) : list term :=
  tinit ts :: trans_at (ttrans ts) 0 k ++ [shift (Z.of_nat k) (tquery ts)].

(** Contents of [solverStepForward] at iteration [k] (src/engine/Kind.cc:72, 105, 116-119). *)
Definition fwd_query (ts : tsys) (k : nat) : list term :=
  tquery ts ::
  concat (map (fun j => [shift (Z.of_nat j) (reverse_transition ts);
                         shift (Z.of_nat j + 1) (mkNot (tquery ts))]) (seq 0 k)).

(** Contents of [solverStepBackward] at iteration [k] (src/engine/Kind.cc:71, 122, 128-130). *)
Definition bwd_query (ts : tsys) (k : nat) : list term :=
  tinit ts ::
  concat (map (fun j => [shift (Z.of_nat j) (ttrans ts);
                         shift (Z.of_nat j + 1) (mkNot (tinit ts))]) (seq 0 k)).

Section Kind.
Variable check : check_fn.
Variable pitp : pitp_fn.
Variable computeWitness : bool.

(** [Kind::invariantFromForwardInduction] (src/engine/Kind.cc:135-139). *)
Definition inv_forward (ts : tsys) (k : nat) : res term :=
  kinductive_to_inductive check pitp (mkNot (tquery ts)) k ts.

(** [Kind::invariantFromBackwardInduction] (src/engine/Kind.cc:141-147). *)
Definition inv_backward (ts : tsys) (k : nat) : res term :=
  let rts := reverse_ts ts in
  match kinductive_to_inductive check pitp (mkNot (tquery rts)) k rts with
  | Ok j => Ok (mkNot j)
  | Throw => Throw
  end.

Definition safe_result (w : res term) : verdict :=
  if computeWitness then match w with Ok i => Safe i | Throw => Exn end else Safe tt_true.

Definition is_unknown (a : answer) : bool := match a with UNKNOWN => true | _ => false end.

(** The loop of [Kind::solveTransitionSystemInternal] (src/engine/Kind.cc:80-131) from
    iteration [k].  [u] is a ghost: it records whether a base query (whose UNKNOWN answer the
    code treats like UNSAT, lines 85-98) was answered UNKNOWN. *)
Fixpoint kind_loop (fuel k : nat) (u : bool) (ts : tsys) : verdict * bool :=
  match fuel with
  | O => (Fuel, u)
  | S fuel' =>
    match check (base_query ts k) with
    | SAT _ => (Unsafe (if computeWitness then k else O), u)
    | a =>
      let u := (u || is_unknown a)%bool in
      match check (fwd_query ts k) with
      | UNSAT => (safe_result (inv_forward ts k), u)
      | _ =>
        match check (bwd_query ts k) with
        | UNSAT => (safe_result (inv_backward ts k), u)
        | _ => kind_loop fuel' (S k) u ts
        end
      end
    end
  end.

(** [Kind::solveTransitionSystemInternal] (src/engine/Kind.cc:45-133). *)
Definition kind (fuel : nat) (ts : tsys) : verdict * bool :=
  match check [tinit ts] with
  | UNSAT => (Safe tt_false, false)
  | _ => kind_loop fuel 0 false ts
  end.
End Kind.
