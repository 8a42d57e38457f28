(** * What the terms of a proof mean and when a proof is right. *)
From Verif Require Import Names AletheModel.
Open Scope string_scope.
Open Scope list_scope.
Open Scope nat_scope.

(** ** Meaning of terms *)
Inductive aval := AB (b : bool) | AN (q : Qc).
Definition as_bool (v : aval) : bool := match v with AB b => b | AN _ => false end.
Definition as_num (v : aval) : Qc := match v with AN q => q | AB _ => 0%Qc end.
Definition aeqb (a b : aval) : bool := match a, b with AB x, AB y => Bool.eqb x y | AN x, AN y => Qc_eq_bool x y | _, _ => false end.
(** Interpretation of the predicates, and the results of divisions by zero, which SMT-LIB leaves open. *)
Record interp := mkI { i_pred : string -> list aval -> bool; i_zero : aop -> Qc -> Qc }.
Fixpoint chain2 (f : aval -> aval -> bool) (l : list aval) : bool :=
  match l with x :: ((y :: _) as r) => (f x y && chain2 f r)%bool | _ => true end.
Fixpoint imp_chain (l : list aval) : bool := match l with [] => true | [x] => as_bool x | x :: r => (negb (as_bool x) || imp_chain r)%bool end.
Definition qsum (l : list Qc) : Qc := fold_right Qcplus 0%Qc l.
Definition qprod (l : list Qc) : Qc := fold_right Qcmult 1%Qc l.
(** Division of integers: for n > 0 the quotient is the floor, for n < 0 the ceiling of the fraction (SMT-LIB, theory Ints). *)
Definition zdiv (m n : Qc) : Qc := Q2Qc (inject_Z (if Z.ltb 0 (Qnum n) then Qfloor (m / n)%Qc else Qceiling (m / n)%Qc)).
Definition or_zero (I : interp) (o : aop) (l : list aval) (f : Qc -> Qc -> Qc) : aval :=
  match map as_num l with [x; y] => AN (if Qc_eq_bool y 0 then i_zero I o x else f x y) | _ => AN 0%Qc end.
Definition op_den (I : interp) (o : aop) (l : list aval) : aval :=
  let ns := map as_num l in
  match o with
  | OPlus => AN (qsum ns)
  | OMinus => AN (match ns with [x] => - x | x :: r => x - qsum r | [] => 0 end)%Qc
  | OTimes => AN (qprod ns)
  | ODiv => or_zero I o l Qcdiv
  | OIDiv => or_zero I o l zdiv
  | OMod => or_zero I o l (fun m n => (m - n * zdiv m n)%Qc)
  | OAnd => AB (forallb as_bool l)
  | OOr => AB (existsb as_bool l)
  | ONot => AB (match l with [x] => negb (as_bool x) | _ => false end)
  | OImp => AB (imp_chain l)
  | OEq => AB (chain2 aeqb l)
  | OLt => AB (chain2 (fun a b => qlt (as_num a) (as_num b)) l)
  | OLe => AB (chain2 (fun a b => qle (as_num a) (as_num b)) l)
  | OGt => AB (chain2 (fun a b => qlt (as_num b) (as_num a)) l)
  | OGe => AB (chain2 (fun a b => qle (as_num b) (as_num a)) l)
  | OIte => match l with [c; a; b] => if as_bool c then a else b | _ => AB false end
  end.
(** Values of variables (and of predicates without arguments). *)
Definition asg := string -> aval.
Definition extend (r : asg) (l : list (string * aval)) : asg := fun s => match slookup l s with Some v => v | None => r s end.
Definition numeral (s : string) : Qc := match read_number s with Some q => q | None => 0%Qc end.
(** A variable with a minus sign may be one terminal, "(- x)" (src/ChcInterpreter.cc:257-259). *)
Definition minus_of (s : string) : option string :=
  match s with String "("%char (String "-"%char (String _ r)) => Some (drop_last r) | _ => None end.
Definition var_val (r : asg) (s : string) : aval := match minus_of s with Some x => AN (- as_num (r x))%Qc | None => r s end.
Definition var_name (s : string) : string := match minus_of s with Some x => x | None => s end.
Fixpoint den (I : interp) (r : asg) (t : atm) : aval :=
  match t with
  | T s KVar => var_val r s
  | T s KBool => AB (String.eqb s "true")
  | T s _ => AN (numeral s)
  | O o l => op_den I o (map (den I r) l)
  | A f l => AB (i_pred I f (map (den I r) l))
  | Let ns ds b => den I (extend r (combine ns (map (den I r) ds))) b
  | All _ _ => AB false
  end.
(** Values of a sort. *)
Definition of_sort (s : string) (v : aval) : Prop :=
  if String.eqb s "Bool" then exists b, v = AB b else if String.eqb s "Int" then exists z, v = AN (Q2Qc (inject_Z z)) else if String.eqb s "Real" then exists q, v = AN q else True.
(** Truth of a formula, quantified at the top or not at all. *)
Definition tr (I : interp) (r : asg) (t : atm) : Prop :=
  match t with
  | All vs c => forall r', (forall s, ~ In s (map fst vs) -> r' s = r s) -> (forall x, In x vs -> of_sort (snd x) (r' (fst x))) -> den I r' c = AB true
  | _ => den I r t = AB true
  end.

(** ** Literals, names spelled out *)
Inductive elit := EPos (t : atm) | ENeg (t : atm) | EEq (a b : atm) | EOrNeg (a b : atm).
Definition is_all (t : atm) : bool := match t with All _ _ => true | _ => false end.
Definition ltrue (I : interp) (r : asg) (l : elit) : Prop :=
  match l with
  | EPos t => tr I r t
  | ENeg t => ~ tr I r t
  | EEq a b => if (is_all a || is_all b)%bool then (tr I r a <-> tr I r b) else den I r a = den I r b
  | EOrNeg a b => ~ (tr I r a /\ ~ tr I r b)
  end.
(** A clause is true: not all its literals are false. *)
Definition ctrue (I : interp) (r : asg) (c : list elit) : Prop := ~ (forall l, In l c -> ~ ltrue I r l).
Definition nenv := list (nm * atm).
Definition nm_eqb (a b : nm) : bool :=
  match a, b with NA x, NA y | NI x, NI y | NLHS x, NLHS y | NT x, NT y => Nat.eqb x y | _, _ => false end.
Fixpoint get_name (e : nenv) (n : nm) : option atm := match e with [] => None | (m, t) :: r => if nm_eqb m n then Some t else get_name r n end.
Definition ex_ref (e : nenv) (x : ref) : option atm := match x with Raw t | Named t _ => Some t | Name n => get_name e n end.
Definition ex_lit (e : nenv) (l : lit) : option elit :=
  match l with
  | Pos x => option_map EPos (ex_ref e x)
  | Neg x => option_map ENeg (ex_ref e x)
  | Eql x y => match ex_ref e x, ex_ref e y with Some a, Some b => Some (EEq a b) | _, _ => None end
  | OrNeg x y => match ex_ref e x, ex_ref e y with Some a, Some b => Some (EOrNeg a b) | _, _ => None end
  end.
Definition ref_defs (x : ref) : nenv := match x with Named t n => [(n, t)] | _ => [] end.
Definition lit_defs (l : lit) : nenv := match l with Pos x | Neg x => ref_defs x | Eql x y | OrNeg x y => ref_defs x ++ ref_defs y end.
Definition step_defs (s : step) : nenv := concat (map lit_defs (s_clause s)).

(** ** The rules *)
Fixpoint occurs (s : string) (t : atm) : bool :=
  match t with
  | T x k => (String.eqb (var_name x) s && match k with KVar => true | _ => false end)%bool
  | O _ l | A _ l => existsb (occurs s) l
  | All _ c => occurs s c
  | Let _ ds b => (existsb (occurs s) ds || occurs s b)%bool
  end.
(** The text of a constant of a sort, and the kinds of terminal it may be. *)
Definition const_text (sort text : string) : Prop :=
  if String.eqb sort "Bool" then text = "true" \/ text = "false"
  else if String.eqb sort "Int" then exists z, read_number text = Some (Q2Qc (inject_Z z))
  else if String.eqb sort "Real" then exists q, read_number text = Some q else False.
Definition const_kind (sort : string) (k : tkind) : Prop := if String.eqb sort "Bool" then k = KBool else k = KInt \/ k = KReal.
(** A term with constants for variables: [m] gives the sort and the constant of each variable. *)
Inductive inst_of (m : list (string * (string * string))) : atm -> atm -> Prop :=
| inst_var s sort text k : minus_of s = None -> slookup m s = Some (sort, text) -> const_kind sort k -> inst_of m (T s KVar) (T text k)
| inst_minus s x sort text k : minus_of s = Some x -> slookup m x = Some (sort, text) -> const_kind sort k -> sort <> "Bool" -> inst_of m (T s KVar) (O OMinus [T text k])
| inst_other s k : (k = KVar -> slookup m (var_name s) = None) -> inst_of m (T s k) (T s k)
| inst_op o l l' : Forall2 (inst_of m) l l' -> inst_of m (O o l) (O o l')
| inst_app f l l' : Forall2 (inst_of m) l l' -> inst_of m (A f l) (A f l').
(** A chain of equalities of terms that are not quantified. *)
Inductive eq_chain : list (list elit) -> atm -> atm -> Prop :=
| chain_one a b : is_all a = false -> is_all b = false -> eq_chain [[EEq a b]] a b
| chain_more a b c l : is_all a = false -> is_all b = false -> eq_chain l b c -> eq_chain ([EEq a b] :: l) a c.
Definition same_or_equal (ps : list (list elit)) (x y : atm) : Prop := x = y \/ is_all x = false /\ is_all y = false /\ In [EEq x y] ps.
(** The operators a simplification rule is for. *)
Definition rule_op (r : rule) (o : aop) : bool :=
  match r, o with
  | REqSimplify, OEq | REquivSimplify, OEq | RCompSimplify, (OLt | OLe | OGt | OGe) | RAndSimplify, OAnd | ROrSimplify, OOr | RNotSimplify, ONot
  | RIteSimplify, OIte | RSumSimplify, OPlus | RMinusSimplify, OMinus | RDivSimplify, (ODiv | OIDiv) | RProdSimplify, OTimes | RModSimplify, OMod => true
  | _, _ => false
  end.
(** Truth of a literal, atoms by [v], other literals by [w]. *)
Definition pl (v : atm -> Prop) (w : elit -> Prop) (l : elit) : Prop := match l with EPos a => v a | ENeg a => ~ v a | _ => w l end.
(** The predicates without arguments are true or false. *)
Definition fits (props : list string) (r : asg) : Prop := forall s, In s props -> exists b, r s = AB b.
(** When a clause may be derived from the clauses [ps] with a rule.  [asserts]: the assertions, [props]: the predicates without arguments. *)
Definition rule_ok (props : list string) (asserts : list atm) (ru : rule) (ps : list (list elit)) (args : list string) (c : list elit) : Prop :=
  match ru with
  | RAssume => ps = [] /\ exists t a, c = [EPos t] /\ In a asserts /\ forall I r, tr I r t <-> tr I r a
  | RResolution => (* the clause follows from the premises by propositional reasoning *)
      forall v w, (forall p, In p ps -> ~ (forall l, In l p -> ~ pl v w l)) -> ~ (forall l, In l c -> ~ pl v w l)
  | REquiv1 => exists a b, ps = [[EEq a b]] /\ c = [ENeg a; EPos b]
  | REquiv2 => exists a b, ps = [[EEq a b]] /\ c = [EPos a; ENeg b]
  | RImplies => exists a b, is_all a = false /\ is_all b = false /\ ps = [[EPos (O OImp [a; b])]] /\ c = [ENeg a; EPos b]
  | ROr => exists a b, ps = [[EOrNeg a b]] /\ c = [ENeg a; EPos b]
  | RForallInst => ps = [] /\ exists vs b t, c = [EOrNeg (All vs b) t] /\ NoDup (map fst vs) /\ length args = length vs /\
      (forall x, In x (combine vs args) -> const_text (snd (fst x)) (snd x)) /\
      inst_of (map (fun x => (fst (fst x), (snd (fst x), snd x))) (combine vs args)) b t
  | RQntRmUnused => ps = [] /\ exists vs b keep, NoDup (map fst vs) /\ (forall x, In x vs -> keep x = false -> occurs (fst x) b = false) /\ is_all b = false /\
      c = [EEq (All vs b) (match filter keep vs with [] => b | vs' => All vs' b end)]
  | RCong => (exists o l l', c = [EEq (O o l) (O o l')] /\ Forall2 (same_or_equal ps) l l') \/ (exists f l l', c = [EEq (A f l) (A f l')] /\ Forall2 (same_or_equal ps) l l')
  | RTrans => exists a b, c = [EEq a b] /\ eq_chain ps a b
  | RAndNeg => ps = [] /\ exists l, Forall (fun x => is_all x = false) l /\ c = EPos (O OAnd l) :: map ENeg l
  | RTrue => ps = [] /\ c = [EPos (tbool true)]
  | RFalse => ps = [] /\ c = [ENeg (tbool false)]
  | _ => ps = [] /\ exists o l b, rule_op ru o = true /\ is_all b = false /\ c = [EEq (O o l) b] /\ forall I r, fits props r -> den I r (O o l) = den I r b
  end.
(** Steps checked one by one, with the names and the clauses so far. *)
Inductive checked (props : list string) (asserts : list atm) : list step -> nenv -> list (list elit) -> Prop :=
| ck_nil : checked props asserts [] [] []
| ck_step ss e cs s ps c :
    checked props asserts ss e cs ->
    s_id s = length cs ->
    (forall n t, In (n, t) (step_defs s) -> get_name e n = None) ->
    mapO (ex_lit (step_defs s ++ e)) (s_clause s) = Some c ->
    mapO (nth_error cs) (s_premises s) = Some ps ->
    rule_ok props asserts (s_rule s) ps (s_args s) c ->
    checked props asserts (ss ++ [s]) (step_defs s ++ e) (cs ++ [c]).
(** A proof: it ends with the empty clause. *)
Definition is_proof (props : list string) (asserts : list atm) (ss : list step) : Prop := exists e cs, checked props asserts ss e (cs ++ [[]]).
