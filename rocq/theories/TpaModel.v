(** * Transition power abstraction: src/engine/TPA.cc (TPABase, TPASplit, TPABasic).

    The solver, the two interpolation algorithms, the projection ([eliminateVars], [keepOnlyVars], lines 316-330: MBP or QE) and the
    simplifiers are oracles.  Identity of terms (PTRef) is equality of terms. *)
From Verif Require Import Syntax Solver TransSys TSLemmas KTo1Model FormulaModel InlineModel.
Open Scope list_scope.
Open Scope nat_scope.

(** Result of a computation: a value, a C++ exception (or a failed assertion), or not enough fuel (the loops of TPA need not end). *)
Inductive out (A : Type) := Ret (a : A) | Exc | NoFuel.
Arguments Ret {A} _. Arguments Exc {A}. Arguments NoFuel {A}.
Definition obind {A B} (x : out A) (f : A -> out B) : out B :=
  match x with Ret a => f a | Exc => Exc | NoFuel => NoFuel end.
Definition of_opt {A} (x : option A) : out A := match x with Some a => Ret a | None => Exc end.

(** [TPABase::QueryResult] (src/engine/TPA.h:148-152). *)
Inductive qres := Reach (target : term) (steps : nat) | Unreach.

(** One level of [exactPowers] (or [transitionHierarchy]) and the assertions of the solver at the next level ([reachabilitySolvers]). *)
Record level := mkLevel { lv_tr : term; lv_parts : list term }.
(** The levels and [queryCache] (only REACHABLE results are cached). *)
Record qst := mkQ { q_lv : list level; q_cache : list (nat * term * term * (term * nat)) }.
(** The state of TPASplit; [s_lt] is [lessThanPowers]. *)
Record sst := mkS { s_q : qst; s_lt : list term }.

Definition two (tr : term) : term := mkAnd [tr; shift 1 tr].
(** [TermUtils::conjoin] (src/TermUtils.cc:502-506). *)
Definition conjoin (what to : term) : term := mkAnd (conjuncts to ++ [what]).
Definition replace_at {A} (i : nat) (x : A) (l : list A) : list A := firstn i l ++ x :: skipn (S i) l.

Section Tpa.
Variable check : check_fn.
Variable itp itp2 : itp_fn.    (* decomposing-strong and strong LRA interpolation *)
Variable elim : mbp_fn.
Variable isimp : term -> term. (* simplifyInterpolant, lines 716-727 *)
(** The system after [resetTransitionSystem]. *)
Variable ts : tsys.

Definition svat (k : Z) : list var := map (shiftv k) (svars ts).
(** [isPureStateFormula], [isPureTransitionFormula] (lines 298-314). *)
Definition pure_state (f : term) : bool := subsetb (vars f) (svars ts).
Definition pure_trans (f : term) : bool := subsetb (vars f) (svars ts ++ svat 1).
(** [cleanInterpolant] (lines 730-746) and [shiftOnlyNextVars] (lines 748-764). *)
Definition clean (t : term) : term := subst (vsub (map (fun v => (shiftv 2 v, shiftv 1 v)) (svars ts))) t.
Definition shift_next (t : term) : term := subst (vsub (map (fun v => (shiftv 1 v, shiftv 2 v)) (svars ts))) t.
(** [computeIdentity] (lines 766-775). *)
Definition identity : term := mkAnd (map (fun v => mkEq (Var v) (Var (shiftv 1 v))) (svars ts)).

(** [extractMidPoint] (lines 819-834), [refineTwoStepTarget] (lines 836-844). *)
Definition eliminate_vars (f : term) (vs : list var) (m : valuation) : option term :=
  elim f (filter (fun v => negb (inb v vs)) (vars f)) m.
Definition midpoint (start first second goal : term) (m : valuation) : option term :=
  match eliminate_vars (mkAnd [start; first]) (svat 0) m, eliminate_vars (mkAnd [goal; second]) (svat 2) m with
  | Some a, Some b => Some (shift (-1) (mkAnd [a; b]))
  | _, _ => None
  end.
Definition refine (start twostep goal : term) (m : valuation) : option term :=
  option_map (shift (-2)) (elim (mkAnd [start; twostep; goal]) (svat 2) m).

(** [storeExactPower] (lines 357-379), [storeLevelTransition] (lines 1194-1216).  The solver at level p+1 gets the conjunction of the new
    formula over two steps.  [growTo] never leaves a gap: a gap would be an error here.  After 100 checks the wrapper replaces the
    assertions by their conjunction (lines 224-234): the same formulas. *)
Definition store_level (l : list level) (p : nat) (tr : term) : option (list level) :=
  if negb (Nat.eqb p 0) && negb (pure_trans tr) then None
  else match nth_error l p with
       | Some lv => Some (replace_at p (mkLevel (conjoin tr (lv_tr lv)) (lv_parts lv ++ [two tr])) l)
       | None => if Nat.eqb (length l) p then Some (l ++ [mkLevel tr [two tr]]) else None
       end.
(** [storeLessThanPower] (lines 386-396). *)
Definition store_lt (l : list term) (p : nat) (tr : term) : option (list term) :=
  if Nat.leb 2 p && negb (pure_trans tr) then None
  else match nth_error l p with
       | Some t => Some (replace_at p (conjoin tr t) l)
       | None => if Nat.eqb (length l) p then Some (l ++ [tr]) else None
       end.

Definition find_cache (c : list (nat * term * term * (term * nat))) (p : nat) (from to : term) : option (term * nat) :=
  option_map snd (find (fun e => Nat.eqb (fst (fst (fst e))) p && term_eqb (snd (fst (fst e))) from && term_eqb (snd (fst e)) to) c).

(** [TPASplit::reachabilityQueryExact] (lines 484-575) and [TPABasic::reachabilityQuery] (lines 1244-1338).  The two only differ in the
    number of steps reported in the base case, here [base].  [q_loop] is the while loop (after the lookup in the cache). *)
Section Query.
Variable base : valuation -> nat.
Fixpoint q_loop (fuel p : nat) (from to : term) (st : qst) : out (qres * qst) :=
  match fuel with
  | O => NoFuel
  | S fuel =>
    let query := fun p from to st =>
      match find_cache (q_cache st) p from to with
      | Some (t, n) => Ret (Reach t n, st)
      | None => q_loop fuel p from to st
      end in
    match nth_error (q_lv st) p with
    | None => Exc
    | Some lv =>
      let goal := shift 2 to in
      let q := mkAnd [from; goal] in
      match check (lv_parts lv ++ [q]) with
      | UNKNOWN => Exc
      | UNSAT =>
        match itp (lv_parts lv) [q] with
        | None => Exc
        | Some J => match store_level (q_lv st) (S p) (clean (isimp J)) with
                    | None => Exc
                    | Some l => Ret (Unreach, mkQ l (q_cache st))
                    end
        end
      | SAT m =>
        let prev := lv_tr lv in
        match p with
        | O => match refine from (two prev) goal m with
               | None => Exc
               | Some t => Ret (Reach t (base m), mkQ (q_lv st) ((O, from, to, (t, base m)) :: q_cache st))
               end
        | S p' =>
          match midpoint from prev (shift 1 prev) goal m with
          | None => Exc
          | Some mid =>
            obind (query p' from mid st) (fun '(r1, st1) =>
              match r1 with
              | Unreach => q_loop fuel p from to st1
              | Reach t1 n1 =>
                obind (query p' t1 to st1) (fun '(r2, st2) =>
                  match r2 with
                  | Unreach => q_loop fuel p from to st2
                  | Reach t2 n2 => Ret (Reach t2 (n2 + n1), mkQ (q_lv st2) ((p, from, to, (t2, n2 + n1)) :: q_cache st2))
                  end)
              end)
          end
        end
      end
    end
  end.
Definition q_query (fuel p : nat) (from to : term) (st : qst) : out (qres * qst) :=
  match find_cache (q_cache st) p from to with
  | Some (t, n) => Ret (Reach t n, st)
  | None => q_loop fuel p from to st
  end.
End Query.

(** In the split version the base case has made 2 steps (line 511). *)
Definition q_exact := q_query (fun _ => 2).
(** In the basic version identity steps of the model are not counted (lines 1272-1283). *)
Definition basic_steps (m : valuation) : nat :=
  (if holdsb m identity then 0 else 1) + (if holdsb m (shift 1 identity) then 0 else 1).
Definition q_basic := q_query basic_steps.

(** [TPASplit::reachabilityQueryLessThan] (lines 583-714). *)
Fixpoint q_less (fuel p : nat) (from to : term) (st : sst) : out (qres * sst) :=
  match fuel with
  | O => NoFuel
  | S fuel =>
    if term_eqb from to then Ret (Reach to 0, st)
    else
      match nth_error (s_lt st) p, nth_error (q_lv (s_q st)) p with
      | Some lt, Some lv =>
        let goal := shift 2 to in
        let ex := shift 1 (lv_tr lv) in
        let lt2 := shift_next lt in
        let step := mkOr [lt2; mkAnd [lt; ex]] in
        let q := mkAnd [from; goal] in
        match check [step; q] with
        | UNKNOWN => Exc
        | UNSAT =>
          match itp [step] [q], itp2 [step] [q] with
          | Some J, Some K =>
            match store_lt (s_lt st) (S p) (clean (isimp (mkAnd [J; K]))) with
            | None => Exc
            | Some l => Ret (Unreach, mkS (s_q st) l)
            end
          | _, _ => Exc
          end
        | SAT m =>
          if holdsb m lt2 then
            match p with
            | O => Ret (Reach (mkAnd [from; to]) 0, st)
            | S p' => obind (q_less fuel p' from to st) (fun '(r, st') =>
                        match r with
                        | Reach t n => Ret (Reach t n, st')
                        | Unreach => q_less fuel p from to st'
                        end)
            end
          else
            match p with
            | O => match refine from (mkAnd [lt; ex]) goal m with
                   | None => Exc
                   | Some t => Ret (Reach t 1, st)
                   end
            | S p' =>
              match midpoint from lt ex goal m with
              | None => Exc
              | Some mid =>
                obind (q_less fuel p' from mid st) (fun '(r1, st1) =>
                  match r1 with
                  | Unreach => q_less fuel p from to st1
                  | Reach t1 n1 =>
                    obind (q_exact fuel p' t1 to (s_q st1)) (fun '(r2, sq) =>
                      let st2 := mkS sq (s_lt st1) in
                      match r2 with
                      | Unreach => q_less fuel p from to st2
                      | Reach t2 n2 => Ret (Reach t2 (n2 + n1), st2)
                      end)
                  end)
              end
            end
        end
      | _, _ => Exc
      end
  end.

(** ** Fixed points *)
(** [SafetyExplanation] (src/engine/TPA.h:69-81). *)
Inductive side := RIGHT | LEFT.
Inductive restr := Unrestricted | ToInit | ToQuery.
Inductive expl := LessThanExpl (r : restr) (f : side) (ti : term) | EqualsExpl (r : restr) (exponent : nat) (ti : term).

(** [squashInvariants] (lines 894-904).  The index i of the code is always the last one, [i-- && j++] increments j. *)
Fixpoint squash_pass (fuel j : nat) (l : list term) : list term :=
  match fuel with
  | O => l
  | S fuel =>
    let i := length l - 1 in
    if Nat.leb 1 i && Nat.ltb j i then
      let l' := replace_at j (mkAnd [nth j l tt_true; nth i l tt_true]) (removelast l) in
      if Nat.leb (length l') 128 then l' else squash_pass fuel (S j) l'
    else l
  end.
Fixpoint squash (fuel : nat) (l : list term) : list term :=
  match fuel with
  | O => l
  | S fuel => if Nat.ltb 128 (length l) then squash fuel (squash_pass (length l) 0 l) else l
  end.

(** [houdiniCheck] (lines 906-973). *)
Definition hd_base (f : side) : term := match f with RIGHT => shift 1 (ttrans ts) | LEFT => ttrans ts end.
Definition hd_query (f : side) (cands : term) (goal : term) : term :=
  match f with
  | RIGHT => mkAnd [cands; mkNot (shift_next goal)]
  | LEFT => mkAnd [shift 1 cands; mkNot (shift_next goal)]
  end.
Definition remove_at (i : nat) (l : list term) : list term := removelast (replace_at i (last l tt_true) l).
(** Lines 940-957. *)
Fixpoint drop_pass (f : side) (i : nat) (l : list term) : list term :=
  match i with
  | O => l
  | S i' => if is_sat (check [hd_base f; hd_query f (mkAnd l) (nth i' l tt_true)])
            then drop_pass f i' (remove_at i' l) else drop_pass f i' l
  end.
(** Lines 939-965: [cur] is the conjunction asserted in the query. *)
Fixpoint hd_loop (fuel : nat) (f : side) (cur : term) (l : list term) : out (list term) :=
  if is_sat (check [hd_base f; hd_query f cur cur]) then
    match fuel with
    | O => NoFuel
    | S fuel => let l' := drop_pass f (length l) l in hd_loop fuel f (mkAnd l') l'
    end
  else Ret l.
Definition add_new (inv : list term) (c : term) : list term := if existsb (term_eqb c) inv then inv else inv ++ [c].
Definition houdini (fuel : nat) (f : side) (cur : term) (inv : list term) : out (list term) :=
  let cs := conjuncts cur in
  obind (hd_loop fuel f cur (squash (length cs) cs)) (fun l => Ret (fold_left add_new l inv)).

(** One level of [checkLessThanFixedPoint] (lines 977-1076): [rinv], [linv] are [rightInvariants], [leftInvariants]. *)
Definition lt_level (fuel : nat) (cur : term) (invs : list term * list term) : out (option expl * (list term * list term)) :=
  obind (houdini fuel RIGHT cur (fst invs)) (fun rinv =>
  let f := mkAnd [mkAnd rinv; cur; shift 1 (ttrans ts); mkNot (shift_next cur)] in
  if is_unsat (check [f]) then Ret (Some (LessThanExpl Unrestricted RIGHT (mkAnd [mkAnd rinv; cur])), (rinv, snd invs))
  else if is_unsat (check [f; tinit ts]) then Ret (Some (LessThanExpl ToInit RIGHT (mkAnd [mkAnd rinv; cur])), (rinv, snd invs))
  else
  obind (houdini fuel LEFT cur (snd invs)) (fun linv =>
  let g := mkAnd [ttrans ts; shift 1 (mkAnd linv); shift 1 cur; mkNot (shift_next cur)] in
  if is_unsat (check [g]) then Ret (Some (LessThanExpl Unrestricted LEFT (mkAnd [mkAnd linv; cur])), (rinv, linv))
  else if is_unsat (check [g; shift 2 (tquery ts)]) then Ret (Some (LessThanExpl ToQuery LEFT (mkAnd [mkAnd linv; cur])), (rinv, linv))
  else if is_unsat (check [mkAnd [tinit ts; mkAnd rinv; shift 1 (tquery ts)]]) then Ret (Some (LessThanExpl Unrestricted RIGHT (mkAnd rinv)), (rinv, linv))
  else if is_unsat (check [mkAnd [tinit ts; mkAnd linv; shift 1 (tquery ts)]]) then Ret (Some (LessThanExpl Unrestricted LEFT (mkAnd linv)), (rinv, linv))
  else Ret (None, (rinv, linv)))).
(** The loop over the levels 1, ..., power (line 977). *)
Fixpoint lt_fixed (fuel : nat) (curs : list term) (invs : list term * list term) : out (option expl * (list term * list term)) :=
  match curs with
  | [] => Ret (None, invs)
  | cur :: curs' => obind (lt_level fuel cur invs) (fun '(e, invs') => match e with Some e => Ret (Some e, invs') | None => lt_fixed fuel curs' invs' end)
  end.
(** Levels 1..n of a list. *)
Definition levels_1 {A} (n : nat) (l : list A) : out (list A) := if Nat.leb (S n) (length l) then Ret (firstn n (tl l)) else Exc.

(** [checkExactFixedPoint] (lines 1080-1136): the transition invariant is over three copies of the state variables. *)
Definition eq_ti (lt ex : term) : term := mkOr [shift_next lt; mkAnd [lt; shift 1 ex]].
Definition eq_level (i : nat) (lt ex : term) : option expl :=
  let f := mkAnd [two ex; mkNot (shift_next ex)] in
  if is_unsat (check [f]) then Some (EqualsExpl Unrestricted i (eq_ti lt ex))
  else if is_unsat (check [f; shift (-1) (mkAnd [tinit ts; lt])]) then Some (EqualsExpl ToInit i (eq_ti lt ex))
  else if is_unsat (check [f; mkAnd [shift 2 lt; shift 3 (tquery ts)]]) then Some (EqualsExpl ToQuery i (eq_ti lt ex))
  else None.
Fixpoint eq_fixed (i : nat) (l : list (term * term)) : option expl :=
  match l with
  | [] => None
  | (lt, ex) :: l' => match eq_level i lt ex with Some e => Some e | None => eq_fixed (S i) l' end
  end.

(** ** The main loop *)
(** Answers: UNSAFE with the reached states and the number of steps, SAFE with the explanation. *)
Inductive tres := TUnsafe (reached : term) (steps : nat) | TSafe (e : expl) | TUnknown.

(** [TPASplit::checkPower] (lines 447-477). *)
Definition split_power (fuel p : nat) (st : sst * (list term * list term)) : out (tres * (sst * (list term * list term))) :=
  let '(s, invs) := st in
  obind (q_less fuel p (tinit ts) (tquery ts) s) (fun '(r, s1) =>
  match r with
  | Reach t n => Ret (TUnsafe t n, (s1, invs))
  | Unreach =>
    obind (levels_1 (S p) (s_lt s1)) (fun lts =>
    obind (lt_fixed fuel lts invs) (fun '(e, invs1) =>
    match e with
    | Some e => Ret (TSafe e, (s1, invs1))
    | None =>
      obind (levels_1 p (q_lv (s_q s1))) (fun exs =>
      match eq_fixed 1 (combine lts (map lv_tr exs)) with
      | Some e => Ret (TSafe e, (s1, invs1))
      | None =>
        obind (q_exact fuel p (tinit ts) (tquery ts) (s_q s1)) (fun '(r2, sq) =>
        let s2 := mkS sq (s_lt s1) in
        match r2 with
        | Reach t n => Ret (TUnsafe t n, (s2, invs1))
        | Unreach =>
          obind (levels_1 p (q_lv sq)) (fun exs2 =>
          match eq_fixed 1 (combine lts (map lv_tr exs2)) with
          | Some e => Ret (TSafe e, (s2, invs1))
          | None => Ret (TUnknown, (s2, invs1))
          end)
        end)
      end)
    end))
  end).

(** [TPABasic::checkPower] (lines 1223-1237). *)
Definition basic_power (fuel p : nat) (st : qst * (list term * list term)) : out (tres * (qst * (list term * list term))) :=
  let '(s, invs) := st in
  obind (q_basic fuel p (tinit ts) (tquery ts) s) (fun '(r, s1) =>
  match r with
  | Reach t n => Ret (TUnsafe t n, (s1, invs))
  | Unreach =>
    obind (levels_1 (S p) (q_lv s1)) (fun lvs =>
    obind (lt_fixed fuel (map lv_tr lvs) invs) (fun '(e, invs1) =>
    match e with Some e => Ret (TSafe e, (s1, invs1)) | None => Ret (TUnknown, (s1, invs1)) end))
  end).

(** [TPABase::solve] (lines 408-423). *)
Fixpoint power_loop {S} (step : nat -> S -> out (tres * S)) (fuel p : nat) (st : S) : out (tres * S) :=
  match fuel with
  | O => NoFuel
  | Datatypes.S fuel => obind (step p st) (fun '(r, st') => match r with TUnknown => power_loop step fuel (Datatypes.S p) st' | _ => Ret (r, st') end)
  end.
(** [checkTrivialUnreachability] (lines 425-445). *)
Definition trivial_check : option expl :=
  if term_eqb (tquery ts) tt_false then Some (LessThanExpl ToQuery LEFT tt_true)
  else if term_eqb (tinit ts) tt_false then Some (LessThanExpl ToInit RIGHT tt_true)
  else None.
Definition tpa_solve {S} (step : nat -> S -> out (tres * S)) (fuel : nat) (st : S) : out (tres * S) :=
  match trivial_check with
  | Some e => Ret (TSafe e, st)
  | None => power_loop step fuel 0 st
  end.

(** [resetPowers] (lines 846-852, 1340-1344). *)
Definition split_start : sst := mkS (mkQ [mkLevel (ttrans ts) [two (ttrans ts)]] []) [identity].
Definition basic_zero : term := mkOr [identity; ttrans ts].
Definition basic_start : qst := mkQ [mkLevel basic_zero [two basic_zero]] [].

Definition split_run (fuel : nat) := tpa_solve (split_power fuel) fuel (split_start, ([], [])).
Definition basic_run (fuel : nat) := tpa_solve (basic_power fuel) fuel (basic_start, ([], [])).

(** ** Invariants *)
Variable pitp : pitp_fn.
Variable qe : qe_fn.
Definition qe_eliminate (f : term) (vs : list var) : option term := qe f (filter (fun v => negb (inb v vs)) (vars f)).
(** [inductiveInvariantFromEqualsTransitionInvariant] (lines 1741-1767). *)
Definition inv_from_equals (i : nat) (ti : term) : out (option term) :=
  match qe_eliminate (mkAnd [tinit ts; ti]) (svat 0) with
  | None => Exc
  | Some f =>
    match qe_eliminate f (svat 1) with
    | None => Exc
    | Some g => match kinductive_to_inductive check pitp (shift (-2) g) (Nat.pow 2 i) ts with Ok t => Ret (Some t) | Throw => Exc end
    end
  end.
(** [getInductiveInvariant] (lines 1714-1739). *)
Definition inductive_invariant (e : expl) : out (option term) :=
  match e with
  | LessThanExpl _ LEFT ti => obind (of_opt (qe (mkAnd [ti; shift 1 (tquery ts)]) (svat 0))) (fun g => Ret (Some (mkNot g)))
  | LessThanExpl _ RIGHT ti => obind (of_opt (qe (mkAnd [tinit ts; ti]) (svat 1))) (fun g => Ret (Some (shift (-1) g)))
  | EqualsExpl ToQuery _ _ => Ret None
  | EqualsExpl _ i ti => if Nat.ltb 10 i then Ret None else inv_from_equals i ti
  end.
(** [getSafetyExplanation], [safeSupersetOfInitialStates] (lines 1364-1378, 1700-1712): a superset of the initial states that is safe. *)
Definition safety_explanation (e : expl) : out term :=
  let superset := fun ti k =>
    match check [tinit ts; ti; shift k (tquery ts)] with
    | UNSAT => match itp [ti; shift k (tquery ts)] [tinit ts] with Some J => Ret (mkNot J) | None => Exc end
    | _ => Exc
    end in
  match e with
  | LessThanExpl ToInit _ _ | EqualsExpl ToInit _ _ => Ret (tinit ts)
  | LessThanExpl _ _ ti => superset ti 1%Z
  | EqualsExpl _ _ ti => superset ti 2%Z
  end.
End Tpa.

(** [resetTransitionSystem] (lines 777-817): NNF, simplification of the transition relation, and the test that initial and query states
    only use state variables.  [tsimp] stands for the two OpenSMT simplifications of the transition relation. *)
Definition normal_ts (tsimp : term -> term) (ts : tsys) : option tsys :=
  match nnf (tinit ts), nnf (tquery ts), nnf (ttrans ts) with
  | Ok i, Ok q, Ok t =>
    if subsetb (vars i) (svars ts) && subsetb (vars q) (svars ts)
    then Some (mkTS (svars ts) (avars ts) i (if is_atom t then t else tsimp t) q)
    else None
  | _, _, _ => None
  end.

(** [solveTransitionSystem] (lines 403-406) of the two variants, with the invariant if one is asked for. *)
Section Solve.
Variable check : check_fn.
Variable itp itp2 : itp_fn.
Variable pitp : pitp_fn.
Variable qe : qe_fn.
Variable elim : mbp_fn.
Variable isimp tsimp : term -> term.

Definition tpa_split (fuel : nat) (ts : tsys) : out tres :=
  match normal_ts tsimp ts with
  | None => Exc
  | Some ts' => obind (split_run check itp itp2 elim isimp ts' fuel) (fun '(r, _) => Ret r)
  end.
Definition tpa_basic (fuel : nat) (ts : tsys) : out tres :=
  match normal_ts tsimp ts with
  | None => Exc
  | Some ts' => obind (basic_run check itp elim isimp ts' fuel) (fun '(r, _) => Ret r)
  end.
Definition tpa_invariant (ts : tsys) (e : expl) : out (option term) :=
  match normal_ts tsimp ts with
  | None => Exc
  | Some ts' => inductive_invariant check ts' pitp qe e
  end.
End Solve.
