(** * Model of src/ModelBasedProjection.cc and src/QuantifierElimination.cc.

    [None] stands for an exception, or for a literal outside of linear arithmetic (where the code runs into an assertion).
    The results of OpenSMT's term constructors are in linear normal form (Lin.v); here atoms are brought into that form
    where the code builds or substitutes them ([zcanon], [qcanon]). *)
From Coq Require Import QArith Qcanon Znumtheory.
From Verif Require Import Syntax Solver KTo1Model FormulaModel Lin.
Open Scope Z_scope.
Open Scope list_scope.

Definition mapM {A B} (f : A -> option B) : list A -> option (list B) :=
  fix go l := match l with
  | [] => Some []
  | x :: l' => match f x, go l' with Some y, Some ys => Some (y :: ys) | _, _ => None end
  end.

(** ** Integer linear terms *)
Notation zl := (lin Z).
Definition zpl : zl -> zl -> zl := ladd Z 0 Z.add Z.eqb.
Definition zsc : Z -> zl -> zl := lscale Z 0 Z.add Z.mul Z.eqb.
Definition zneg : zl -> zl := lneg Z 0 1 Z.add Z.mul Z.opp Z.eqb.
Definition zsub : zl -> zl -> zl := lsub Z 0 1 Z.add Z.mul Z.opp Z.eqb.
Definition zc : Z -> zl := lconst Z.
Definition zco : var -> zl -> Z := co Z 0 Z.add.
Definition zdrop : var -> zl -> zl := drop Z.
Definition zhas : var -> zl -> bool := has Z.
Definition zval (m : valuation) : var -> Z := xval Z SInt asz m.
Definition zev (m : valuation) (l : zl) : Z := lev Z 0 Z.add Z.mul (zval m) l.
Definition zproj (c : value) : option Z := match c with VInt z => Some z | _ => None end.
Definition zparse : term -> option zl := parse Z 0 1 Z.add Z.mul Z.eqb SInt zproj.
Definition zsum (l : zl) : term := sum_term Z 0 VInt (lco l).
(** The whole term. *)
Definition zterm (l : zl) : term := mkPlus [mkInt (lcst l); zsum l].
(** [0 <= l] as [constant <= term]; [l = 0]. *)
Definition zle_term (l : zl) : term := mkLeq (mkInt (- lcst l)) (zsum l).
Definition zeq_term (l : zl) : term := mkEq (mkInt (- lcst l)) (zsum l).
(** An atom as (is it an equality, linear term compared with 0); equalities as in [normalizeEqualities]
    (src/ModelBasedProjection.cc:96-109). *)
Definition zatom (t : term) : option (bool * zl) :=
  match t with
  | App FEq [a; b] => match zparse a, zparse b with Some x, Some y => Some (true, zsub x y) | _, _ => None end
  | App FLeq [a; b] => match zparse a, zparse b with Some x, Some y => Some (false, zsub y x) | _, _ => None end
  | _ => None
  end.
Definition zcanon (t : term) : term :=
  match zatom t with Some (true, l) => zeq_term l | Some (false, l) => zle_term l | None => t end.
(** New literals; those that OpenSMT simplifies to true are not added. *)
Definition is_const {K} (l : lin K) : bool := match lco l with [] => true | _ => false end.
Definition zle (l : zl) : list literal := if is_const l && (0 <=? lcst l) then [] else [(zle_term l, true)].
Definition zeq (l : zl) : list literal := if is_const l && (0 =? lcst l) then [] else [(zeq_term l, true)].

(** ** [processClassicLiterals] (src/ModelBasedProjection.cc:659-836) *)
(** [b x >= s], [a x <= t], [a x = t], with positive coefficients. *)
Inductive bound := Low (s : zl) (b : Z) | Up (t : zl) (a : Z) | Eql (t : zl) (a : Z).
(** src/ModelBasedProjection.cc:679-745 *)
Definition classify (m : valuation) (v : var) (lt : literal) : option bound :=
  match zatom (fst lt) with
  | None => None
  | Some (true, l) =>
    let k := zco v l in let rest := zdrop v l in
    if k =? 0 then None
    else if snd lt then Some (if k <? 0 then Eql rest (- k) else Eql (zneg rest) k)
    else if 0 <? zev m l then Some (if 0 <? k then Low (zsub (zc 1) rest) k else Up (zpl (zc (-1)) rest) (- k))
    else Some (if 0 <? k then Up (zsub (zc (-1)) rest) k else Low (zpl (zc 1) rest) (- k))
  | Some (false, l) =>
    let l' := if snd lt then l else zsub (zc (-1)) l in
    let k := zco v l' in let rest := zdrop v l' in
    if k =? 0 then None else Some (if 0 <? k then Low (zneg rest) k else Up rest (- k))
  end.
Definition lows (bs : list bound) : list (zl * Z) := flat_map (fun x => match x with Low s b => [(s, b)] | _ => [] end) bs.
Definition ups (bs : list bound) : list (zl * Z) := flat_map (fun x => match x with Up t a => [(t, a)] | _ => [] end) bs.
Definition eqls (bs : list bound) : list (zl * Z) := flat_map (fun x => match x with Eql t a => [(t, a)] | _ => [] end) bs.
(** [maxElementWithProjection] (src/ModelBasedProjection.cc:578-591): the first bound with the greatest value in the model
    (values are compared as fractions), and the others. *)
Fixpoint glb (m : valuation) (best : zl * Z) (others l : list (zl * Z)) : (zl * Z) * list (zl * Z) :=
  match l with
  | [] => (best, others)
  | x :: l' =>
    if zev m (fst best) * snd x <? zev m (fst x) * snd best then glb m x (others ++ [best]) l' else glb m best (others ++ [x]) l'
  end.
(** [resolve] (src/ModelBasedProjection.cc:847-898); [DivisibilityConstraint]: the divisor and the term. *)
Definition divc := (Z * zl)%type.
Definition resolve (m : valuation) (low up : zl * Z) : list literal * list divc :=
  let (s, b) := low in let (t, a) := up in
  let as_ := zsc a s in let bt := zsc b t in
  let mul := (a - 1) * (b - 1) in
  if mul <=? b * zev m t - a * zev m s then (zle (zsub bt (zpl as_ (zc mul))), [])
  else
    let first := zle (zsub bt as_) in
    if b <=? a then
      let d := (- zev m s) mod b in let md := zpl s (zc d) in
      (first ++ (if d =? 0 then [] else zle (zsub bt (zsc a md))), [(b, md)])
    else
      let d := zev m t mod a in let md := zsub t (zc d) in
      (first ++ (if d =? 0 then [] else zle (zsub (zsc b md) as_)), [(a, md)]).

Definition contains (v : var) (lt : literal) : bool := inb v (vars (fst lt)).
(** [std::partition] keeps no order; the order is left open in the proofs only for the literals that contain the
    variable ([shuffle]). *)
Definition classic (shuffle : list literal -> list literal) (m : valuation) (v : var) (divs : list divc) (lits : list literal) : option (list divc * list literal) :=
  let rest := filter (fun lt => negb (contains v lt)) lits in
  match mapM (classify m v) (shuffle (filter (contains v) lits)) with
  | None => None
  | Some bs =>
    match eqls bs with
    | [] =>
      match lows bs, ups bs with
      | [], _ | _, [] => Some (divs, rest)
      | low0 :: low', us =>
        let (g, others) := glb m low0 [] low' in
        let rs := map (resolve m g) us in
        Some (divs ++ concat (map snd rs),
              concat (map (fun o => zle (zsub (zsc (snd o) (fst g)) (zsc (snd g) (fst o)))) others) ++ concat (map fst rs) ++ rest)
      end
    | (t, a) :: es =>
      Some (divs ++ (if a =? 1 then [] else [(a, t)]),
            concat (map (fun o => zeq (zsub (zsc a (fst o)) (zsc (snd o) t))) es) ++
            concat (map (fun o => zle (zsub (zsc (snd o) t) (zsc a (fst o)))) (lows bs)) ++
            concat (map (fun o => zle (zsub (zsc a (fst o)) (zsc (snd o) t))) (ups bs)) ++ rest)
    end
  end.

(** ** [processDivConstraints] (src/ModelBasedProjection.cc:599-653) *)
Definition tmp_var : var := mkVar "MBP_LIA_tmp" TBase SInt.
Definition set_val (m : valuation) (v : var) (x : value) : valuation := fun u => if var_eqb u v then x else m u.
(** Substituting a constant in a linear term. *)
Definition zput (v : var) (u : Z) (l : zl) : zl := zpl (zc (zco v l * u)) (zdrop v l).
Definition process_div (shuffle : list literal -> list literal) (m : valuation) (v : var) (divs : list divc) (lits : list literal) : option (list divc * list literal) :=
  match filter (fun d => zhas v (snd d)) divs with
  | [] => classic shuffle m v divs lits
  | d0 :: ds =>
    let d := fold_left (fun acc x => Z.lcm acc (fst x)) ds (fst d0) in
    let u := zval m v mod d in
    let divs' := map (fun x => (fst x, zput v u (snd x))) (d0 :: ds) ++ filter (fun x => negb (zhas v (snd x))) divs in
    let s := [(v, mkPlus [mkInt u; mkTimes [mkInt d; Var tmp_var]])] in
    let m' := set_val m tmp_var (VInt ((zval m v - u) / d)) in
    classic shuffle m' tmp_var divs' (map (fun lt => (zcanon (subst s (fst lt)), snd lt)) lits)
  end.
(** ** [projectIntegerVars] (src/ModelBasedProjection.cc:506-564) *)
Definition is_mod (t : term) : bool := match t with App FMod _ => true | _ => false end.
Definition is_div_lit (lt : literal) : bool :=
  match fst lt with App FEq [a; b] => snd lt && (is_mod a || is_mod b) | _ => false end.
(** The code only asserts that the other side is 0 and the divisor a positive constant. *)
Definition to_div (lt : literal) : option divc :=
  match fst lt with
  | App FEq [App FMod [t; Const (VInt k)]; Const (VInt 0)] | App FEq [Const (VInt 0); App FMod [t; Const (VInt k)]] =>
    if 0 <? k then option_map (pair k) (zparse t) else None
  | _ => None
  end.
Fixpoint int_loop (shuffle : list literal -> list literal) (m : valuation) (vs : list var) (divs : list divc) (lits : list literal) : option (list divc * list literal) :=
  match vs with
  | [] => Some (divs, lits)
  | v :: vs' =>
    if sort_eqb (vsort v) SInt then
      match (match divs with [] => classic shuffle m v divs lits | _ => process_div shuffle m v divs lits end) with
      | Some (divs', lits') => int_loop shuffle m vs' divs' lits'
      | None => None
      end
    else None
  end.
Definition div_lit (d : divc) : literal := (mkEq (App FMod [zterm (snd d); mkInt (fst d)]) (mkInt 0), true).
Definition project_ints (shuffle : list literal -> list literal) (m : valuation) (vs : list var) (lits : list literal) : option (list literal) :=
  match mapM to_div (filter is_div_lit lits) with
  | None => None
  | Some divs =>
    match int_loop shuffle m vs divs (filter (fun lt => negb (is_div_lit lt)) lits) with
    | None => None
    | Some (divs', lits') => Some (lits' ++ map div_lit divs')
    end
  end.

(** ** Rational linear terms *)
Notation ql := (lin Qc).
Definition qeqb (a b : Qc) : bool := if Qc_eq_dec a b then true else false.
Definition qpl : ql -> ql -> ql := ladd Qc 0%Qc Qcplus qeqb.
Definition qsc : Qc -> ql -> ql := lscale Qc 0%Qc Qcplus Qcmult qeqb.
Definition qneg : ql -> ql := lneg Qc 0%Qc 1%Qc Qcplus Qcmult Qcopp qeqb.
Definition qsub : ql -> ql -> ql := lsub Qc 0%Qc 1%Qc Qcplus Qcmult Qcopp qeqb.
Definition qco : var -> ql -> Qc := co Qc 0%Qc Qcplus.
Definition qdrop : var -> ql -> ql := drop Qc.
Definition qval (m : valuation) : var -> Qc := xval Qc SReal asq m.
Definition qev (m : valuation) (l : ql) : Qc := lev Qc 0%Qc Qcplus Qcmult (qval m) l.
Definition qproj (c : value) : option Qc := match c with VReal q => Some q | _ => None end.
Definition qparse : term -> option ql := parse Qc 0%Qc 1%Qc Qcplus Qcmult qeqb SReal qproj.
Definition qsum (l : ql) : term := sum_term Qc 0%Qc VReal (lco l).
Definition qterm (l : ql) : term := mkPlus [Const (VReal (lcst l)); qsum l].
Definition qle_term (l : ql) : term := mkLeq (Const (VReal (- lcst l)%Qc)) (qsum l).
Definition qeq_term (l : ql) : term := mkEq (Const (VReal (- lcst l)%Qc)) (qsum l).
Definition qatom (t : term) : option (bool * ql) :=
  match t with
  | App FEq [a; b] => match qparse a, qparse b with Some x, Some y => Some (true, qsub x y) | _, _ => None end
  | App FLeq [a; b] => match qparse a, qparse b with Some x, Some y => Some (false, qsub y x) | _, _ => None end
  | _ => None
  end.
Definition qcanon (t : term) : term :=
  match qatom t with Some (true, l) => qeq_term l | Some (false, l) => qle_term l | None => t end.
Definition qleb (a b : Qc) : bool := if Qclt_le_dec b a then false else true.
Definition qltb (a b : Qc) : bool := if Qclt_le_dec a b then true else false.
(** [mkLeq], [mkLt]; trivially true literals are not added. *)
Definition qle (a b : ql) : list literal := let l := qsub b a in if is_const l && qleb 0 (lcst l) then [] else [(qle_term l, true)].
Definition qlt (a b : ql) : list literal := let l := qsub a b in if is_const l && qltb (lcst l) 0 then [] else [(qle_term l, false)].

(** ** [projectSingleVar] (src/ModelBasedProjection.cc:119-307) for a Real variable (Boolean variables never reach it:
    [project] substitutes them). *)
(** [Bound] (src/ModelBasedProjection.cc:16-20) *)
Record rbound := mkRB { rb_low : bool; rb_val : ql; rb_strict : bool }.
(** [substituteBound] (src/ModelBasedProjection.cc:22-43); [None]: the exception for two upper bounds. *)
Definition subst_bound (what wh : rbound) : option (list literal) :=
  if negb (rb_low what) && negb (rb_low wh) then None
  else if rb_low what && rb_low wh then
    Some (if rb_strict wh && negb (rb_strict what) then qlt (rb_val wh) (rb_val what) else qle (rb_val wh) (rb_val what))
  else
    let upper := if rb_low wh then what else wh in
    let lower := if rb_low wh then wh else what in
    Some (if rb_strict upper || rb_strict lower then qlt (rb_val lower) (rb_val upper) else qle (rb_val lower) (rb_val upper)).
Definition subst_bounds (what : rbound) (wh : list rbound) : option (list literal) := option_map (@concat literal) (mapM (subst_bound what) wh).
(** The first loop (src/ModelBasedProjection.cc:151-199): either the term for the variable given by an equality, or all
    literals with the disequalities replaced. *)
Fixpoint presolve (m : valuation) (v : var) (seen todo : list literal) : option (option ql * list literal) :=
  match todo with
  | [] => Some (None, seen)
  | lt :: todo' =>
    match qatom (fst lt) with
    | None => None
    | Some (false, _) => presolve m v (seen ++ [lt]) todo'
    | Some (true, l) =>
      if qeqb (qco v l) 0 then None
      else if snd lt then Some (Some (qsc (- / qco v l)%Qc (qdrop v l)), seen ++ lt :: todo')
      else presolve m v (seen ++ [(qle_term (if qltb (qev m l) 0 then l else qneg l), false)]) todo'
    end
  end.
(** Bounds (src/ModelBasedProjection.cc:207-246). *)
Definition to_rbound (v : var) (lt : literal) : option rbound :=
  match qatom (fst lt) with
  | Some (false, l) =>
    let k := qco v l in
    if qeqb k 0 then None
    else Some (mkRB (xorb (snd lt) (qltb k 0)) (qsc (- / k)%Qc (qdrop v l)) (negb (snd lt)))
  | _ => None
  end.
(** The highest lower bound (src/ModelBasedProjection.cc:271-293).  Terms are hash-consed, so equal bounds are the same
    term; [same] stands for that comparison. *)
Fixpoint highest (same : ql -> ql -> bool) (m : valuation) (us : list rbound) (cur : rbound) (l : list rbound) : rbound :=
  match l with
  | [] => cur
  | b :: l' =>
    let cv := qev m (rb_val cur) in let bv := qev m (rb_val b) in
    if qltb cv bv || (qeqb cv bv && rb_strict b) then highest same m us b l'
    else if qeqb cv bv && existsb (fun u => same (rb_val u) (rb_val b)) us then b
    else highest same m us cur l'
  end.
(** Literals that OpenSMT has simplified to a truth value. *)
Definition trivially_true (lt : literal) : bool :=
  match qatom (fst lt) with Some (e, l) => is_const l && Bool.eqb (if e then qeqb (lcst l) 0 else qleb 0 (lcst l)) (snd lt) | None => false end.
Definition project_real (shuffle : list literal -> list literal) (same : ql -> ql -> bool) (m : valuation) (v : var) (lits : list literal) : option (list literal) :=
  let rest := filter (fun lt => negb (contains v lt)) lits in
  match presolve m v [] (shuffle (filter (contains v) lits)) with
  | None => None
  | Some (Some e, ls) =>
    Some (filter (fun lt => negb (trivially_true lt)) (map (fun lt => (qcanon (subst [(v, qterm e)] (fst lt)), snd lt)) ls ++ rest))
  | Some (None, ls) =>
    match mapM (to_rbound v) ls with
    | None => None
    | Some bs =>
      let ls' := filter rb_low bs in let us := filter (fun b => negb (rb_low b)) bs in
      match ls', us with
      | [], _ | _, [] => Some rest
      | l0 :: lr, u0 :: ur =>
        let new := match ur, lr with
                   | [], _ => subst_bounds u0 ls'
                   | _, [] => subst_bounds l0 us
                   | _, _ => subst_bounds (highest same m us l0 lr) bs
                   end in
        option_map (fun n => simplify_literals Conj (n ++ rest)) new
      end
    end
  end.
Fixpoint real_loop (shuffle : list literal -> list literal) (same : ql -> ql -> bool) (m : valuation) (vs : list var) (lits : list literal) : option (list literal) :=
  match vs with
  | [] => Some lits
  | v :: vs' =>
    if sort_eqb (vsort v) SReal then
      match project_real shuffle same m v lits with Some lits' => real_loop shuffle same m vs' lits' | None => None end
    else None
  end.

(** ** [project], [keepOnly] *)
(** [collectImplicant] (src/ModelBasedProjection.cc:310-359); the marks that keep a shared subformula from being visited
    twice are left out.  [elim]: the variables of interest ([computeVarsInfo], :361-400). *)
Definition interesting (elim : list var) (t : term) : bool := existsb (fun v => inb v elim) (vars t).
Fixpoint implicant (m : valuation) (elim : list var) (t : term) : option (list literal) :=
  if is_atom t then Some [(t, true)]
  else match t with
       | App FAnd ts => option_map (@concat literal) (mapM (implicant m elim) ts)
       | App FOr ts =>
         if negb (interesting elim t) then Some [(t, true)]
         else (fix go l := match l with [] => None | u :: l' => if holdsb m u then implicant m elim u else go l' end) ts
       | App FNot [a] => if is_atom a then Some [(a, false)] else None
       | _ => None
       end.
(** src/ModelBasedProjection.cc:438-498.  [lia]: [Logic::hasIntegers]. *)
Definition project (lia : bool) (shuffle : list literal -> list literal) (same : ql -> ql -> bool) (fla : term) (elim : list var) (m : valuation) : option term :=
  let bools := filter (fun v => sort_eqb (vsort v) SBool) elim in
  let nums := filter (fun v => negb (sort_eqb (vsort v) SBool)) elim in
  let fla' := subst (map (fun v => (v, Const (coerce SBool (m v)))) bools) fla in
  match nums with
  | [] => Some fla'
  | _ =>
    if negb (is_bool fla') then None
    else match nnf fla' with
         | Throw => None
         | Ok f =>
           match implicant m nums f with
           | None => None
           | Some lits =>
             let withv := filter (fun lt => interesting nums (fst lt)) lits in
             let without := filter (fun lt => negb (interesting nums (fst lt))) lits in
             let res := if lia then project_ints shuffle m nums (map (fun lt => (zcanon (fst lt), snd lt)) withv)
                        else real_loop shuffle same m nums (map (fun lt => (qcanon (fst lt), snd lt)) withv) in
             option_map (fun out => mkAnd (map lit_term (simplify_literals Conj (out ++ without)))) res
           end
         end
  end.
(** src/ModelBasedProjection.cc:429-436 *)
Definition keep_only (lia : bool) (shuffle : list literal -> list literal) (same : ql -> ql -> bool) : mbp_fn := fun fla keep m =>
  project lia shuffle same fla (filter (fun v => negb (inb v keep)) (nodup var_dec (vars fla))) m.

(** ** [QuantifierElimination] *)
Inductive qe_result := QeDone (t : term) | QeThrow | QeFuel.
(** src/QuantifierElimination.cc:15-41.  [simp]: [mkOr] and the final rewritings of OpenSMT. *)
Fixpoint qe_loop (check : check_fn) (simp : term -> term) (proj : valuation -> option term) (fuel : nat) (fla : term) (projections : list term) : qe_result :=
  match fuel with
  | O => QeFuel
  | Datatypes.S fuel' =>
    match check (fla :: map mkNot projections) with
    | UNSAT => QeDone (simp (mkOr projections))
    | SAT m => match proj m with Some p => qe_loop check simp proj fuel' fla (projections ++ [p]) | None => QeThrow end
    | UNKNOWN => QeThrow
    end
  end.
(** src/QuantifierElimination.cc:44-67 *)
Definition qe_eliminate (check : check_fn) (simp : term -> term) (lia : bool) (shuffle : list literal -> list literal) (same : ql -> ql -> bool) (fuel : nat) (fla : term) (elim : list var) : qe_result :=
  if negb (is_bool fla) then QeThrow
  else match nnf fla with
       | Throw => QeThrow
       | Ok f => qe_loop check simp (project lia shuffle same f elim) fuel f []
       end.
Definition qe_keep_only (check : check_fn) (simp : term -> term) (lia : bool) (shuffle : list literal -> list literal) (same : ql -> ql -> bool) (fuel : nat) (fla : term) (keep : list var) : qe_result :=
  qe_eliminate check simp lia shuffle same fuel fla (filter (fun v => negb (inb v keep)) (nodup var_dec (vars fla))).
