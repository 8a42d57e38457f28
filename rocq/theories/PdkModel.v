(** * Model of src/engine/PDKind.cc. *)
From Verif Require Import Syntax Solver TransSys TSLemmas KTo1Model KindModel.

(** The formula constructors of OpenSMT simplify; as PD-kind compares formulas syntactically, the model does not fix what
    they do, only what the result means. *)
Record ctors := mkCtors { cand : list term -> term; cor : list term -> term; cnot : term -> term }.
Record ctors_ok (c : ctors) : Prop := {
  cand_sem : forall r l, holds r (cand c l) <-> Forall (holds r) l;
  cand_vars : forall l v, In v (vars (cand c l)) -> exists t, In t l /\ In v (vars t);
  cor_sem : forall r l, holds r (cor c l) <-> Exists (holds r) l;
  cor_vars : forall l v, In v (vars (cor c l)) -> exists t, In t l /\ In v (vars t);
  cnot_sem : forall r t, holds r (cnot c t) <-> ~ holds r t;
  cnot_vars : forall t v, In v (vars (cnot c t)) -> In v (vars t)
}.

(** [IFrameElement] with its [CounterExample] (src/engine/PDKind.cc:25-51); equality ignores the number of steps. *)
Record elem := mkElem { el_lemma : term; el_ctx : term; el_steps : nat }.
Definition elem_eqb (a b : elem) : bool := term_eqb (el_lemma a) (el_lemma b) && term_eqb (el_ctx a) (el_ctx b).
Definition has (l : list elem) (e : elem) : bool := existsb (elem_eqb e) l.
(** [std::set<IFrameElement>] (src/engine/PDKind.cc:56): a list without duplicates; the order of iteration depends on
    addresses of terms and is left open ([order] below). *)
Definition finsert (e : elem) (l : list elem) : list elem := if has l e then l else l ++ [e].
Definition ferase (e : elem) (l : list elem) : list elem := filter (fun x => negb (elem_eqb e x)) l.
Definition fequal (l l' : list elem) : bool := forallb (has l') l && forallb (has l) l'.

(** [ReachabilityResult] (src/engine/PDKind.cc:75-83); [RExn]: an exception. *)
Inductive rres := RReach (steps : nat) | RUnreach (explanation : term) | RExn | RFuel.
(** [RFrames] (src/engine/PDKind.cc:113-136): the lemmas of each level. *)
Definition frames := nat -> list term.
Definition add_lemma (R : frames) (k : nat) (e : term) : frames := fun j => if Nat.eqb j k then R j ++ [e] else R j.

Section M.
Variable c : ctors.
Variable check : check_fn.
Variable itp : itp_fn.
Variable pitp : pitp_fn.
Variable mbp : mbp_fn.
Variable order : list elem -> list elem.
Variable computeWitness : bool.
Variable ts : tsys.

(** [ReachabilityChecker::zeroStepReachability] (src/engine/PDKind.cc:387-404). *)
Definition zero_step (f : term) : rres :=
  match check [tinit ts; f] with
  | UNSAT => match itp [tinit ts] [f] with Some e => RUnreach e | None => RExn end
  | SAT _ => RReach 0
  | UNKNOWN => RExn
  end.

(** [ReachabilityChecker::reachable] (src/engine/PDKind.cc:439-472), [FrameSolver::checkFeasibility] (411-428),
    [generalize] (238-243).  The [assert] on the zero-step answer is followed by a [std::get] that throws. *)
Fixpoint reachable (fuel k : nat) (f : term) (R : frames) : rres * frames :=
  match fuel with
  | O => (RFuel, R)
  | S fuel' =>
    match k with
    | O => (zero_step f, R)
    | S k' =>
      match check [cand c (R k'); ttrans ts; shift 1 f] with
      | SAT m =>
        match mbp (cand c [ttrans ts; shift 1 f]) (svars ts) m with
        | None => (RExn, R)
        | Some g =>
          match reachable fuel' k' g R with
          | (RUnreach e, R') => reachable fuel' (S k') f (add_lemma R' k' e)
          | (a, R') => (a, R')
          end
        end
      | UNSAT =>
        match itp [cand c (R k'); ttrans ts] [shift 1 f] with
        | None => (RExn, R)
        | Some i =>
          match zero_step f with
          | RUnreach e => (RUnreach (cor c [shift (-1) i; e]), R)
          | _ => (RExn, R)
          end
        end
      | UNKNOWN => (RExn, R)
      end
    end
  end.

(** [ReachabilityChecker::checkReachability] (src/engine/PDKind.cc:481-493): [count] is to - i + 1. *)
Fixpoint check_reach (fuel count i : nat) (f : term) (R : frames) : rres * frames :=
  match count with
  | O => (RExn, R)
  | S count' =>
    match reachable fuel i f R with
    | (RReach _, R') => (RReach i, R')
    | (RUnreach e, R') => match count' with O => (RUnreach e, R') | S _ => check_reach fuel count' (S i) f R' end
    | (a, R') => (a, R')
    end
  end.
Definition check_reachability (fuel from to : nat) (f : term) (R : frames) : rres * frames :=
  check_reach fuel (to + 1 - from) from f R.

(** Result of [push]. *)
Inductive pres := PInvalid (steps : nat) | PDone (iframe newif : list elem) (np : nat) | PExn | PFuel.

(** The formulas of [push] (src/engine/PDKind.cc:264-270, 281-301). *)
Definition ktransition (k : nat) : term := cand c (trans_at (ttrans ts) 0 k).
Definition restriction (iframe : list elem) (k : nat) : term :=
  cand c (trans_at (cand c (map el_lemma (order iframe))) 0 k).

(** The loop of [push] (src/engine/PDKind.cc:275-373).  [u] records (ghost) whether the second query was answered UNKNOWN,
    which the code treats like UNSAT; asking for a model after UNKNOWN throws.  [n - k + 1] is computed in unsigned
    arithmetic, [n + 1 - k] here. *)
Fixpoint push_loop (fuel n k : nat) (iframe newif q : list elem) (np : nat) (R : frames) (u : bool) : pres * frames * bool :=
  match fuel with
  | O => (PFuel, R, u)
  | S fuel' =>
    match q with
    | [] => (PDone iframe newif np, R, u)
    | ob :: q' =>
      let not_fabs := cnot c (el_lemma ob) in
      let versioned := shift (Z.of_nat k) not_fabs in
      match check [ktransition k; restriction iframe k; versioned] with
      | UNSAT => push_loop fuel' n k iframe (finsert ob newif) q' np R u
      | UNKNOWN => (PExn, R, u)
      | SAT m1 =>
        let f_cex := shift (Z.of_nat k) (el_ctx ob) in
        match check [ktransition k; restriction iframe k; f_cex] with
        | SAT m2 =>
          match mbp (cand c [ktransition k; f_cex]) (svars ts) m2 with
          | None => (PExn, R, u)
          | Some g =>
            match check_reachability fuel (n + 1 - k) n g R with
            | (RReach j, R') => (PInvalid (el_steps ob + k + j), R', u)
            | (RUnreach e, R') =>
                let nob := mkElem e g (el_steps ob + k) in
                push_loop fuel' n k (finsert nob iframe) newif (q' ++ [nob; ob]) np R' u
            | (RExn, R') => (PExn, R', u)
            | (RFuel, R') => (PFuel, R', u)
            end
          end
        | a2 =>
          let u' := (u || is_unknown a2)%bool in
          match mbp (cand c [ktransition k; versioned]) (svars ts) m1 with
          | None => (PExn, R, u')
          | Some g =>
            match check_reachability fuel (n + 1 - k) n g R with
            | (RReach j, R') =>
                match check_reachability fuel (n + 1) (j + k) not_fabs R' with
                | (RReach j', R'') =>
                    let nob := mkElem (cnot c (el_ctx ob)) (el_ctx ob) (el_steps ob) in
                    push_loop fuel' n k (finsert nob iframe) (finsert nob newif) q' (Nat.min np j') R'' u'
                | (RUnreach _, R'') => (PExn, R'', u')
                | (RExn, R'') => (PExn, R'', u')
                | (RFuel, R'') => (PFuel, R'', u')
                end
            | (RUnreach e, R') =>
                let nob := mkElem (cand c [el_lemma ob; e]) (el_ctx ob) (el_steps ob) in
                push_loop fuel' n k (ferase ob (finsert nob iframe)) newif (q' ++ [nob]) np R' u'
            | (RExn, R') => (PExn, R', u')
            | (RFuel, R') => (PFuel, R', u')
            end
          end
        end
      end
    end
  end.

(** [Context::getInvariant] (src/engine/PDKind.cc:378-385). *)
Definition get_invariant (iframe : list elem) (k : nat) : res term :=
  kinductive_to_inductive check pitp (cand c (map el_lemma (order iframe))) k ts.

(** The main loop of [Context::solve] (src/engine/PDKind.cc:214-232). *)
Fixpoint pdk_loop (fuel n : nat) (iframe : list elem) (R : frames) (u : bool) : verdict * bool :=
  match fuel with
  | O => (Fuel, u)
  | S fuel' =>
    let k := (n + 1)%nat in
    match push_loop fuel n k iframe [] (order iframe) (n + k) R u with
    | (PInvalid s, _, u') => (Unsafe s, u')
    | (PDone f f' np, R', u') =>
        if fequal f f' then
          (if computeWitness then match get_invariant f np with Ok i => (Safe i, u') | Throw => (Exn, u') end
           else (Safe tt_false, u'))
        else pdk_loop fuel' np f' R' u'
    | (PExn, _, u') => (Exn, u')
    | (PFuel, _, u') => (Fuel, u')
    end
  end.

(** [Context::solve] (src/engine/PDKind.cc:188-233). *)
Definition pdkind (fuel : nat) : verdict * bool :=
  match check [tinit ts] with
  | UNSAT => (Safe tt_false, false)
  | _ =>
    match check [tinit ts; tquery ts] with
    | SAT _ => (Unsafe 0, false)
    | a => pdk_loop fuel 0 [mkElem (cnot c (tquery ts)) (tquery ts) 0] (fun _ => []) (is_unknown a)
    end
  end.
End M.
