(** * Transitive relation learning.

    src/engine/TRL.cc.  The model-based projection, quantifier elimination and the solver are oracles; [same] is OpenSMT's identity of
    terms (terms are hash-consed and normalised, here any test). *)
From Verif Require Import Syntax Solver TransSys KTo1Model FormulaModel Lin MbpModel Names.
Open Scope list_scope.
Open Scope nat_scope.

(** [Loop], [BlockingClause] (lines 29-41). *)
Record loop := mkLoop { lp_start : nat; lp_len : nat }.
Record bclause := mkBC { bc_clause : term; bc_depth : nat }.
Inductive trl_outcome := TrlSafe (inv : option term) | TrlUnknown | TrlThrow | TrlFuel.

Definition sh (k : nat) (t : term) : term := shift (Z.of_nat k) t.
Definition shv (k : nat) (v : var) : var := shiftv (Z.of_nat k) v.
(** [indexVar] and [indexVarAt] (line 47, lines 373-375). *)
Definition index_var (k : nat) : var := mkVar "trl_id" (TTime (Z.of_nat k)) SInt.
(** [getFreshLoopCounter] (lines 448-451), made version [k] in [transitiveProjection] (lines 297-299). *)
Definition counter_var (n k : nat) : var := mkVar (String.append "trl_lc" (to_string (Z.of_nat n))) (TTime (Z.of_nat k)) SInt.
(** Lines 283-284. *)
Definition diff_var (i : nat) : var := mkVar (String.append "trl::diff" (to_string (Z.of_nat i))) TBase SInt.
(** [isDiffVar] (lines 275-277). *)
Definition is_diff_var (v : var) : bool := String.prefix "trl::diff" (vbase v).

(** [collectImplicant] (lines 208-252) on formulas in NNF.  [None]: an exception.  The set of processed subterms is left out (it avoids
    duplicates, which [mkAnd] removes). *)
Fixpoint collect (m : valuation) (t : term) : option (list term) :=
  if is_atom t then Some [t]
  else match t with
       | App FAnd ts => option_map (@concat term) (MbpModel.mapM (collect m) ts)
       | App FOr ts => (fix go l := match l with [] => None | u :: l' => if holdsb m u then collect m u else go l' end) ts
       | App FNot [a] => if is_atom a then Some [t] else None
       | _ => None
       end.

Section Trl.
Variable check : check_fn.
Variable mbp : mbp_fn.
Variable qe : qe_fn.
Variable simp : term -> term.
Variable same : term -> term -> bool.
Variable ts : tsys.

(** [ConjunctiveVariableProjection::projectTo] (lines 261-266). *)
Definition project_to (fla : term) (keep : list var) (m : valuation) : option term :=
  match mbp fla keep m with
  | None => None
  | Some g => if is_bool g then match nnf g with Ok f => option_map mkAnd (collect m f) | Throw => None end else None
  end.
(** [project] (lines 354-362). *)
Definition trl_project (fla : term) (m : valuation) (k : nat) : option term :=
  project_to fla (map (shv k) (svars ts ++ nextvars ts)) m.

(** [getSystemVars] (lines 452-459). *)
Definition system_vars (k : nat) : list var := map (shv k) (svars ts).

(** ** [transitiveProjection] (lines 268-352) *)
(** Lines 280-289: the integer variables, with their positions. *)
Definition int_vars : list (nat * var) := filter (fun p => sort_eqb (vsort (snd p)) SInt) (combine (seq 0 (length (svars ts))) (svars ts)).
Definition diff_term (l : loop) (v : var) : term := mkMinus (Var (shv (lp_start l + lp_len l) v)) (Var (shv (lp_start l) v)).
Definition diff_eqs (l : loop) : list term := map (fun p => mkEq (Var (diff_var (fst p))) (diff_term l (snd p))) int_vars.
Definition diff_vars : list var := map (fun p => diff_var (fst p)) int_vars.
Definition back_sub (l : loop) : submap := map (fun p => (diff_var (fst p), diff_term l (snd p))) int_vars.
(** [Model::extend] (line 292). *)
Definition extend (l : loop) (m : valuation) : valuation :=
  fold_right (fun p r => set_val r (diff_var (fst p)) (eval m (diff_term l (snd p)))) m int_vars.
(** Lines 303-345, one conjunct.  OpenSMT keeps linear atoms in the form "constant = sum of factors" and "constant <= sum of factors",
    the sum without constant; other conjuncts are skipped. *)
Definition recurrent_sum (t : term) : bool :=
  match zparse t with
  | Some l => Z.eqb (lcst l) 0 && forallb is_diff_var (map fst (lco l))
  | None => false
  end.
Definition recurrent (l : loop) (lc : var) (c : term) : list term :=
  match c with
  | App FEq [a; b] =>
    let (lhs, rhs) := match a with Const _ => (b, a) | _ => (a, b) end in
    match rhs with
    | Const (VInt k) => if recurrent_sum lhs then [mkEq (mkTimes [rhs; Var lc]) (subst (back_sub l) lhs)] else []
    | _ => []
    end
  | App FLeq [Const (VInt k); t] => if recurrent_sum t then [mkLeq (mkTimes [mkInt k; Var lc]) (subst (back_sub l) t)] else []
  | _ => []
  end.
Definition transitive_projection (fla : term) (m : valuation) (l : loop) (n : nat) : option term :=
  match project_to (mkAnd [fla; mkAnd (diff_eqs l)]) diff_vars (extend l m) with
  | None => None
  | Some projected =>
    match top_juncts Conj projected, project_to fla (system_vars (lp_start l)) m, project_to fla (system_vars (lp_start l + lp_len l)) m with
    | Some cs, Some pre, Some post =>
      let lc := counter_var n (lp_start l) in
      Some (shift (- Z.of_nat (lp_start l)) (mkAnd [mkLt (mkInt 0) (Var lc); mkAnd (concat (map (recurrent l lc) cs)); pre; post]))
    | _, _, _ => None
    end
  end.
(** [shiftTo], [unshiftFrom] (lines 377-403). *)
Definition shift_to (t : term) (b e : nat) : term :=
  subst (map (fun v => (v, Var (shv b v))) (svars ts) ++ map (fun v => (v, Var (shv (e - 1) v))) (nextvars ts)) t.
Definition unshift_from (t : term) (b e : nat) : term :=
  subst (map (fun v => (shv b v, Var v)) (svars ts) ++ map (fun v => (shv (e - 1) v, Var v)) (nextvars ts)) t.
(** [computeBlockingClause] (lines 364-371). *)
Definition blocking_clause (l : loop) (rel : term) (m : valuation) : option term :=
  match trl_project rel m 0 with
  | None => None
  | Some p =>
    let shifted := shift_to (mkNot p) (lp_start l) (lp_start l + lp_len l) in
    Some (if Nat.eqb (lp_len l) 1 then mkOr [shifted; mkLt (mkInt 0) (Var (index_var (lp_start l)))] else shifted)
  end.

(** [getLoop] (lines 405-432): the shortest distance between two equal steps, the first such pair. *)
Fixpoint last_known (t : term) (l : list (term * nat)) : option nat :=
  match l with [] => None | (u, i) :: l' => if same t u then Some i else last_known t l' end.
Fixpoint loop_scan (trs : list term) (i : nat) (seen : list (term * nat)) (best : option loop) : option loop :=
  match trs with
  | [] => best
  | t :: trs' =>
    let best' := match last_known t seen with
                 | None => best
                 | Some p => match best with
                             | None => Some (mkLoop p (i - p))
                             | Some b => if Nat.ltb (i - p) (lp_len b) then Some (mkLoop p (i - p)) else best
                             end
                 end in
    loop_scan trs' (S i) ((t, i) :: seen) best'
  end.
Definition get_loop (trace : list term) : option loop :=
  loop_scan (map (fun p => shift (- Z.of_nat (fst p)) (snd p)) (combine (seq 0 (length trace)) trace)) 0 [] None.
(** [getLoopValuation] (lines 434-446; the order of the hash map is the order of insertion here). *)
Definition loop_valuation (l : loop) (m : valuation) : submap :=
  map (fun v => (v, Const (coerce (vsort v) (m (shv (lp_start l) v))))) (svars ts) ++
  map (fun v => (v, Const (coerce (vsort v) (m (shv (lp_start l + lp_len l - 1) v))))) (nextvars ts).

(** ** [run] (lines 73-205) *)
(** Lines 94-99. *)
Definition transitivity (u : nat) : list term :=
  match u with
  | O => []
  | S u' => [mkOr [mkEq (Var (index_var u)) (mkInt 0); mkNot (mkEq (Var (index_var u)) (Var (index_var u')))]]
  end.
(** Lines 102-109. *)
Definition next_step (u : nat) (rels : list term) : term :=
  mkOr (map (fun p => mkAnd [sh u (snd p); mkEq (Var (index_var u)) (mkInt (Z.of_nat (fst p)))]) (combine (seq 0 (length rels)) rels)).
(** Lines 94-116. *)
Definition frame (u : nat) (rels : list term) (bcs : list bclause) : list term :=
  transitivity u ++ [next_step u rels] ++ map bc_clause (filter (fun b => Nat.eqb (bc_depth b) u) bcs).
(** Lines 127-152.  [None]: index out of range, or an exception of the projection. *)
Definition trace_step (m : valuation) (rels : list term) (k : nat) : option term :=
  let z := asz (coerce SInt (m (index_var k))) in
  if Z.ltb z 0 then None
  else match nth_error rels (Z.to_nat z) with
       | None => None
       | Some rel => trl_project (sh k rel) m k
       end.
Definition trace_of (m : valuation) (rels : list term) (u : nat) : option (list term) :=
  MbpModel.mapM (trace_step m rels) (seq 0 (S u)).
(** Lines 156-168. *)
Fixpoint find_relation (val : submap) (rels : list term) : option term :=
  match rels with
  | [] => None
  | rel :: rels' =>
    let v := simp (subst val rel) in
    if term_eqb v tt_false then find_relation val rels'
    else if term_eqb v tt_true then Some rel
    else if is_sat (check [v]) then Some rel else find_relation val rels'
  end.
(** [computeInductiveInvariant] (lines 461-473). *)
Fixpoint invariant_parts (ext current : term) (i n : nat) : option (list term) :=
  match n with
  | O => Some []
  | S n' =>
    match qe (mkAnd [current; sh i ext]) (system_vars (S i)) with
    | None => None
    | Some c => option_map (cons (shift (- Z.of_nat (S i)) c)) (invariant_parts ext c (S i) n')
    end
  end.
Definition trl_invariant (rels : list term) (diameter : nat) : option term :=
  option_map (fun l => mkOr (tinit ts :: l)) (invariant_parts (mkOr rels) (tinit ts) 0 diameter).

Definition frames_query (frames : list (list term)) : list term := tinit ts :: concat frames.
(** The loop of [run]; [u] is the current unrolling, [frames] what is asserted at each level. *)
Fixpoint trl_loop (cw : bool) (fuel u : nat) (frames : list (list term)) (rels : list term) (bcs : list bclause) (lc : nat) : trl_outcome :=
  match fuel with
  | O => TrlFuel
  | S f =>
    match check (frames_query frames ++ [sh u (tquery ts)]) with
    | SAT _ => TrlUnknown
    | UNKNOWN => TrlUnknown
    | UNSAT =>
      let frames' := frames ++ [frame u rels bcs] in
      match check (frames_query frames') with
      | UNSAT => if cw then match trl_invariant rels u with Some i => TrlSafe (Some i) | None => TrlThrow end else TrlSafe None
      | UNKNOWN => TrlUnknown
      | SAT m =>
        match trace_of m rels u with
        | None => TrlThrow
        | Some trace =>
          match get_loop trace with
          | None => trl_loop cw f (S u) frames' rels bcs lc
          | Some l =>
            let val := loop_valuation l m in
            let learned := match find_relation val (tl rels) with
                           | Some rel => Some (rel, rels, lc)
                           | None =>
                             match transitive_projection (mkAnd (firstn (lp_len l) (skipn (lp_start l) trace))) m l lc with
                             | None => None
                             | Some rel => let rel' := unshift_from rel 0 (lp_len l) in Some (rel', rels ++ [rel'], S lc)
                             end
                           end in
            match learned with
            | None => TrlThrow
            | Some (rel, rels', lc') =>
              match check (map (fun p => mkEq (Var (fst p)) (snd p)) val ++ [rel]) with
              | SAT m2 =>
                match blocking_clause l rel m2 with
                | None => TrlThrow
                | Some c => trl_loop cw f (lp_start l) (firstn (lp_start l) frames') rels' (bcs ++ [mkBC c (lp_start l + lp_len l - 1)]) lc'
                end
              | _ => TrlThrow
              end
            end
          end
        end
      end
    end
  end.
Definition trl (cw : bool) (fuel : nat) : trl_outcome := trl_loop cw fuel 0 [] [ttrans ts] [] 0.
End Trl.
