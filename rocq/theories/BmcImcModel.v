(** * Models of src/engine/Bmc.cc (transition systems) and src/engine/IMC.cc. *)
From Verif Require Import Syntax Solver TransSys TSLemmas KTo1Model KindModel.

Section M.
Variable check : check_fn.
Variable pitp : pitp_fn.
Variable itp : itp_fn.
Variable computeWitness : bool.

(** [BMC::solveTransitionSystemInternal] (src/engine/Bmc.cc:36-71): the loop from unrolling [k].
    The stack is the one of KIND's base solver.  [u] records (ghost) whether some query was
    answered UNKNOWN, which the code treats like UNSAT. *)
Fixpoint bmc_loop (fuel k : nat) (u : bool) (ts : tsys) : verdict * bool :=
  match fuel with
  | O => (Fuel, u)
  | S fuel' =>
    match check (base_query ts k) with
    | SAT _ => (Unsafe k, u)
    | a => bmc_loop fuel' (S k) (u || is_unknown a)%bool ts
    end
  end.
Definition bmc (fuel : nat) (ts : tsys) : verdict * bool :=
  match check [tinit ts] with
  | UNSAT => (Safe tt_false, false)
  | _ => bmc_loop fuel 0 false ts
  end.

(** [suffix] in [IMC::finiteRun] (src/engine/IMC.cc:53-61). *)
Definition imc_suffix (ts : tsys) (k : nat) : term :=
  mkAnd (trans_at (ttrans ts) 1 (k - 1) ++ [shift (Z.of_nat k) (tquery ts)]).

(** [IMC::implies] (src/engine/IMC.cc:103-109). *)
Definition imc_implies (a b : term) : bool := is_unsat (check [mkAnd [a; mkNot b]]).

(** [IMC::computeFinalInductiveInvariant] (src/engine/IMC.cc:123-132). *)
Definition imc_final (inv : term) (k : nat) (ts : tsys) : res term :=
  match check [inv; tquery ts] with
  | UNSAT => Ok inv
  | _ => kinductive_to_inductive check pitp (mkAnd [inv; mkNot (tquery ts)]) k ts
  end.

(** The loop of [IMC::finiteRun] (src/engine/IMC.cc:65-100).  Partition 0 is the suffix,
    partition 1 the transition relation and the last one the moving initial states; the mask
    selects the last two.  [PTRef] comparison is syntactic.  Interpolation after a
    non-UNSAT answer is not defined in OpenSMT; the interpolation oracle may decline. *)
Fixpoint imc_run_loop (fuel iter : nat) (moving reached : term) (k : nat) (ts : tsys) : verdict :=
  match fuel with
  | O => Fuel
  | S fuel' =>
    match check [imc_suffix ts k; ttrans ts; moving] with
    | SAT _ => if term_eqb moving (tinit ts) then Unsafe (iter + k) else Unknown
    | _ =>
      match itp [ttrans ts; moving] [imc_suffix ts k] with
      | None => Exn
      | Some j0 =>
        let j := shift (-1) j0 in
        if imc_implies j reached then
          (if computeWitness
           then match imc_final reached k ts with Ok i => Safe i | Throw => Exn end
           else Safe tt_true)
        else imc_run_loop fuel' (S iter) j (mkOr [reached; j]) k ts
      end
    end
  end.
Definition imc_finite_run (fuel k : nat) (ts : tsys) : verdict :=
  imc_run_loop fuel 0 (tinit ts) (tinit ts) k ts.

(** The loop of [IMC::solve] (src/engine/IMC.cc:27-31). *)
Fixpoint imc_solve_loop (fuel fuel_run k : nat) (ts : tsys) : verdict :=
  match fuel with
  | O => Fuel
  | S fuel' =>
    match imc_finite_run fuel_run k ts with
    | Unknown => imc_solve_loop fuel' fuel_run (S k) ts
    | v => v
    end
  end.

(** [IMC::solve] (src/engine/IMC.cc:17-33).  The ghost flag records that the query
    "Init and Bad" was answered UNKNOWN and treated like UNSAT (line 22).
    [hasArrays] is false: arrays are not modelled. *)
Definition imc (fuel fuel_run : nat) (ts : tsys) : verdict * bool :=
  match check [tinit ts; tquery ts] with
  | SAT _ => (Unsafe 0, false)
  | a => (imc_solve_loop fuel fuel_run 1 ts, is_unknown a)
  end.
End M.

(** Auxiliary variables of init, transition and query are different variables (each clause
    has its own auxiliary variables). *)
Definition aux_sep (ts : tsys) : bool :=
  forallb (fun v => (negb (inb v (vars (tinit ts))) || negb (inb v (vars (ttrans ts))))
                 && (negb (inb v (vars (tinit ts))) || negb (inb v (vars (tquery ts))))
                 && (negb (inb v (vars (tquery ts))) || negb (inb v (vars (ttrans ts))))) (avars ts).
