(** * Production of Alethe proofs from derivations: src/proofs/Term.{h,cc}, src/proofs/ProofSteps.{h,cc} and the
    conversion of parsed assertions in src/ChcInterpreter.cc. *)
From Coq Require Export String List ZArith QArith Qcanon Qround Bool Lia Ascii.
From Verif Require Import Names.
Export ListNotations.
Open Scope string_scope.
Open Scope list_scope.
Open Scope nat_scope.

(** ** Terms (src/proofs/Term.h:18-124) *)
(** The operators (src/ChcInterpreter.h:93-94); strings in the code. *)
Inductive aop := OPlus | OMinus | ODiv | OTimes | OAnd | OOr | OImp | ONot | OEq | OGe | OLe | OGt | OLt | OIte | OMod | OIDiv.
Definition op_name (o : aop) : string :=
  match o with
  | OPlus => "+" | OMinus => "-" | ODiv => "/" | OTimes => "*" | OAnd => "and" | OOr => "or" | OImp => "=>" | ONot => "not"
  | OEq => "=" | OGe => ">=" | OLe => "<=" | OGt => ">" | OLt => "<" | OIte => "ite" | OMod => "mod" | OIDiv => "div"
  end.
(** [terminalType]. *)
Inductive tkind := KVar | KReal | KInt | KSort | KBool | KUndeclared.
(** [Terminal], [Op], [App], [Quant] (always "forall"; variables with their sorts), [Let]. *)
Inductive atm :=
| T (val : string) (k : tkind)
| O (o : aop) (args : list atm)
| A (f : string) (args : list atm)
| All (vars : list (string * string)) (core : atm)
| Let (names : list string) (decls : list atm) (app : atm).

(** [PrintVisitor] (Term.cc:17-72). *)
Fixpoint sep (l : list string) : string := match l with [] => "" | [x] => x | x :: r => (x ++ " " ++ sep r)%string end.
Fixpoint print (t : atm) : string :=
  match t with
  | T s _ => s
  | O o l => ("(" ++ sep (op_name o :: map print l) ++ ")")%string
  | A f l => ("(" ++ sep (f :: map print l) ++ ")")%string
  | All vs c => ("(forall (" ++ sep (map (fun x => "(" ++ fst x ++ " " ++ snd x ++ ")")%string vs) ++ ") " ++ print c ++ ")")%string
  | Let ns ds b => ("(let (" ++ sep (map (fun x => "(" ++ fst x ++ " " ++ snd x ++ ")")%string (combine ns (map print ds))) ++ ") " ++ print b ++ ")")%string
  end.

(** ** From the syntax tree of an assertion (src/ChcInterpreter.cc:211-286) *)
Inductive ast :=
| ANum (s : string)
| AId (s : string)
| AOp (o : aop) (l : list ast)
| AFun (f : string) (l : list ast)
| AForall (vs : list (string * string)) (b : ast)
| ALet (ns : list string) (ds : list ast) (b : ast).
Definition contains (c : ascii) (s : string) : bool := existsb (Ascii.eqb c) (list_ascii_of_string s).
Definition dot : ascii := "."%char.
(** A unary minus in front of a terminal becomes part of the terminal, whatever the terminal is (lines 257-259).  [protectName] is the identity
    on simple symbols and is left out. *)
Fixpoint to_atm (a : ast) : atm :=
  match a with
  | ANum s => T s (if contains dot s then KReal else KInt)
  | AId s => T s (if (String.eqb s "true" || String.eqb s "false")%bool then KBool else KVar)
  | AOp o l =>
      match o, map to_atm l with
      | OMinus, [T s k] => T ("(- " ++ s ++ ")") k
      | _, l' => O o l'
      end
  | AFun f l => A f (map to_atm l)
  | AForall vs b => All vs (to_atm b)
  | ALet ns ds b => Let ns (map to_atm ds) (to_atm b)
  end.

(** ** Instantiation (Term.cc:74-122) *)
Fixpoint slookup {X : Type} (l : list (string * X)) (s : string) : option X :=
  match l with [] => None | (n, x) :: r => if String.eqb n s then Some x else slookup r s end.
Definition kind_of_value (s : string) : tkind :=
  if (String.eqb s "true" || String.eqb s "false")%bool then KBool else if contains dot s then KReal else KInt.
Fixpoint instantiate (p : list (string * string)) (t : atm) : atm :=
  match t with
  | T s KVar => match slookup p s with Some v => T v (kind_of_value v) | None => T s KVar end
  | T s k => T s k
  | O o l => O o (map (instantiate p) l)
  | A f l => A f (map (instantiate p) l)
  | All _ c => instantiate p c
  | Let ns ds b => Let ns (map (instantiate p) ds) b
  end.

(** ** Elimination of lets *)
(** [OperateLetTermVisitor] (Term.cc:158-189): the bindings are members of the visitor; a let met on the way replaces them for good.
    [None]: a quantifier is met (an exception). *)
Definition bindings := (list string * list atm)%type.
Definition blookup (b : bindings) (s : string) : option atm := slookup (combine (fst b) (snd b)) s.
Fixpoint operate (b : bindings) (t : atm) {struct t} : option (atm * bindings) :=
  let go := fix go (b : bindings) (l : list atm) {struct l} : option (list atm * bindings) :=
    match l with
    | [] => Some ([], b)
    | x :: r => match operate b x with
                | Some (x', b1) => match go b1 r with Some (r', b2) => Some (x' :: r', b2) | None => None end
                | None => None
                end
    end in
  match t with
  | T s k => Some (match blookup b s with Some u => u | None => T s k end, b)
  | O o l => match go b l with Some (l', b') => Some (O o l', b') | None => None end
  | A f l => match go b l with Some (l', b') => Some (A f l', b') | None => None end
  | Let ns ds a => operate (ns, ds) a
  | All _ _ => None
  end.
(** One round of the loop in [buildAssumptionSteps] (ProofSteps.cc:730-738): the let found by [LetLocatorVisitor] (Term.cc:191-208) is
    replaced ([SimplifyVisitor], Term.cc:124-156).  The code compares pointers, so that a shared let is replaced at all its
    places in one round instead of several.  [None]: no let is found; [Some None]: an exception. *)
Fixpoint expand_let (t : atm) : option (option atm) :=
  let go := fix go (l : list atm) : option (option (list atm)) :=
    match l with
    | [] => None
    | x :: r => match expand_let x with
                | Some (Some x') => Some (Some (x' :: r))
                | Some None => Some None
                | None => match go r with Some (Some r') => Some (Some (x :: r')) | Some None => Some None | None => None end
                end
    end in
  match t with
  | T _ _ | A _ _ => None
  | O o l => match go l with Some (Some l') => Some (Some (O o l')) | Some None => Some None | None => None end
  | All vs c => match expand_let c with Some (Some c') => Some (Some (All vs c')) | Some None => Some None | None => None end
  | Let ns ds b => match expand_let b with
                   | Some (Some b') => Some (Some (Let ns ds b'))
                   | Some None => Some None
                   | None => match operate (ns, ds) b with Some (b', _) => Some (Some b') | None => Some None end
                   end
  end.
(** The loop. *)
Fixpoint elim_lets (fuel : nat) (t : atm) : option atm :=
  match expand_let t with
  | None => Some t
  | Some None => None
  | Some (Some t') => match fuel with 0 => None | S n => elim_lets n t' end
  end.

(** ** Unused quantified variables (ProofSteps.cc:624-677) *)
(** [CollectVariables]; [None]: an exception. *)
Fixpoint collect (t : atm) : option (list string) :=
  let go := fix go (l : list atm) : option (list string) :=
    match l with [] => Some [] | x :: r => match collect x, go r with Some a, Some b => Some (a ++ b) | _, _ => None end end in
  match t with
  | T s KVar => Some [s]
  | T _ _ => Some []
  | O _ l | A _ l => go l
  | All _ _ | Let _ _ _ => None
  end.
Definition sin (s : string) (l : list string) : bool := existsb (String.eqb s) l.
Definition remove_unused (t : atm) : option (atm * bool) :=
  match t with
  | All vs c =>
      match collect c with
      | None => None
      | Some used =>
          match filter (fun x => sin (fst x) used) vs with
          | [] => Some (c, true)
          | vs' => if Nat.eqb (length vs') (length vs) then Some (t, false) else Some (All vs' c, true)
          end
      end
  | _ => Some (t, false)
  end.

(** ** Numbers (ProofSteps.cc:35-63; FastRational of OpenSMT as canonical rationals) *)
Definition is_int (q : Qc) : bool := Pos.eqb (Qden q) 1.
(** [FastRational::get_str]. *)
Definition get_str (q : Qc) : string :=
  if is_int q then to_string (Qnum q) else (to_string (Qnum q) ++ "/" ++ to_string (Zpos (Qden q)))%string.
Definition is_real (k : tkind) : bool := match k with KReal => true | _ => false end.
Definition positive_str (q : Qc) (k : tkind) : string := (get_str q ++ (if (is_real k && is_int q)%bool then ".0" else ""))%string.
Definition number_str (q : Qc) (k : tkind) : string :=
  if Z.ltb (Qnum q) 0 then ("(- " ++ positive_str (- q)%Qc k ++ ")")%string else positive_str q k.
(** Reading a number ([mkConst] and [getNumConst] of OpenSMT, called in ProofSteps.cc:477-489): digits, optionally with a decimal point or as a fraction. *)
Fixpoint split_at (c : ascii) (s : string) : option (string * string) :=
  match s with
  | EmptyString => None
  | String x r => if Ascii.eqb x c then Some (EmptyString, r) else match split_at c r with Some (a, b) => Some (String x a, b) | None => None end
  end.
Definition digit (c : ascii) : bool := (Nat.leb 48 (nat_of_ascii c) && Nat.leb (nat_of_ascii c) 57)%bool.
Fixpoint read_digits (acc : Z) (s : string) : option Z :=
  match s with
  | EmptyString => Some acc
  | String c r => if digit c then read_digits (10 * acc + Z.of_nat (nat_of_ascii c - 48))%Z r else None
  end.
Definition read_nat (s : string) : option Z := match s with EmptyString => None | _ => read_digits 0 s end.
Definition read_positive (s : string) : option Qc :=
  match split_at "/"%char s with
  | Some (a, b) => match read_nat a, read_nat b with Some x, Some y => match y with Zpos d => Some (Q2Qc (x # d)) | _ => None end | _, _ => None end
  | None =>
      match split_at dot s with
      | Some (a, b) => match read_nat a, read_nat b with Some _, Some _ => match read_nat (a ++ b) with Some x => Some (Q2Qc (x # Pos.of_nat (Nat.pow 10 (String.length b)))) | None => None end | _, _ => None end
      | None => match read_nat s with Some x => Some (Q2Qc (inject_Z x)) | None => None end
      end
  end.
(** The text of a negative number: "(- " in front, a parenthesis at the end (ProofSteps.cc:481-487). *)
Fixpoint drop_last (s : string) : string := match s with EmptyString => EmptyString | String _ EmptyString => EmptyString | String c r => String c (drop_last r) end.
Definition read_number (s : string) : option Qc :=
  match s with
  | String "("%char (String "-"%char (String _ r)) => match read_positive (drop_last r) with Some q => Some (- q)%Qc | None => None end
  | _ => read_positive s
  end.
Definition arg_number (t : atm) : option Qc := match t with T s KReal | T s KInt => read_number s | _ => None end.

(** ** Steps (ProofSteps.h:19-52) *)
(** Names given to terms: "@a0", "@i0", "@LHS0", "@T0"; strings in the code.  User symbols do not start with "@". *)
Inductive nm := NA (n : nat) | NI (n : nat) | NLHS (n : nat) | NT (n : nat).
(** Terms of a step: a term, a name, or a term with the name it is given ("(! t :named n)"). *)
Inductive ref := Raw (t : atm) | Name (n : nm) | Named (t : atm) (n : nm).
(** Literals: t, (not t), (= s t), (or (not s) t). *)
Inductive lit := Pos (r : ref) | Neg (r : ref) | Eql (a b : ref) | OrNeg (a b : ref).
Inductive rule :=
| RAssume | RResolution | REquiv1 | REquiv2 | RImplies | ROr | RForallInst | RQntRmUnused | RCong | RTrans | RAndNeg | RTrue | RFalse
| REqSimplify | REquivSimplify | RCompSimplify | RAndSimplify | ROrSimplify | RNotSimplify | RIteSimplify | RSumSimplify | RMinusSimplify | RDivSimplify
| RProdSimplify | RModSimplify.
Record step := mkS { s_id : nat; s_clause : list lit; s_rule : rule; s_premises : list nat; s_args : list string }.
(** The members of [StepHandler] that change (ProofSteps.h:95-97), and the steps passed to the observers, the newest first. *)
Record pst := mkP { p_out : list step; p_cur : nat; p_true : nat; p_name : nat }.
(** Computations with that state; [None]: an exception, a failed assertion or undefined behaviour. *)
Definition M (X : Type) := pst -> option (X * pst).
Definition ret {X} (x : X) : M X := fun s => Some (x, s).
Definition fail {X} : M X := fun _ => None.
Definition bnd {X Y} (m : M X) (f : X -> M Y) : M Y := fun s => match m s with Some (x, s') => f x s' | None => None end.
Notation "x <- m ;; k" := (bnd m (fun x => k)) (at level 61, m at next level, right associativity).
(** [recordStep], [recordForallInstStep], [recordAssumption] (ProofSteps.cc:154-164). *)
Definition record_full (c : list lit) (r : rule) (ps : list nat) (args : list string) : M unit :=
  fun s => Some (tt, mkP (mkS (p_cur s) c r ps args :: p_out s) (S (p_cur s)) (p_true s) (p_name s)).
Definition record (c : list lit) (r : rule) (ps : list nat) : M unit := record_full c r ps [].
(** [lastStep] (ProofSteps.h:140). *)
Definition last_step : M nat := fun s => Some (p_cur s - 1, s).

(** ** Simplification *)
Definition tbool (b : bool) : atm := T (if b then "true" else "false") KBool.
Definition tnum (q : Qc) (k : tkind) : atm := T (number_str q k) k.
Definition kind_of (t : atm) : tkind := match t with T _ k => k | _ => KUndeclared end.
Definition lift {X} (o : option X) : M X := fun s => match o with Some x => Some (x, s) | None => None end.
Definition two_numbers (l : list atm) : option (Qc * Qc) :=
  match l with [a; b] => match arg_number a, arg_number b with Some x, Some y => Some (x, y) | _, _ => None end | _ => None end.
(** [smtlib_divmod] (ProofSteps.cc:463-469); division by zero is left out ([None]). *)
Definition divmod (m n : Qc) : option (Qc * Qc) :=
  if Qc_eq_bool n 0 then None else
  let ratio := (m / n)%Qc in
  let q := if Z.ltb 0 (Qnum n) then Qfloor ratio else Qceiling ratio in
  Some (Q2Qc (inject_Z q), (m - n * Q2Qc (inject_Z q))%Qc).
(** The comparisons of FastRational. *)
Definition qlt (a b : Qc) : bool := match (a ?= b)%Qc with Lt => true | _ => false end.
Definition qle (a b : Qc) : bool := match (a ?= b)%Qc with Gt => false | _ => true end.
(** The arguments of a conjunction: [inl x] a constant "false", [inr l] the arguments that stay (ProofSteps.cc:534-549). *)
Fixpoint and_args (l : list atm) : option (atm + list atm) :=
  match l with
  | [] => Some (inr [])
  | T s k :: r =>
      match k with
      | KVar => match and_args r with Some (inr r') => Some (inr (T s k :: r')) | x => x end
      | KBool => if String.eqb s "false" then Some (inl (T s k)) else if String.eqb s "true" then and_args r else None
      | _ => None
      end
  | t :: r => match and_args r with Some (inr r') => Some (inr (t :: r')) | x => x end
  end.
Fixpoint sum_args (l : list atm) : option Qc :=
  match l with [] => Some 0%Qc | a :: r => match arg_number a, sum_args r with Some x, Some y => Some (x + y)%Qc | _, _ => None end end.
(** [simplifyOpDirect] (ProofSteps.cc:473-622) for the operators that take one step: the simplified term and the rule. *)
Definition direct (o : aop) (l : list atm) : option (atm * rule) :=
  match o with
  | OEq => match l with
           | T s k :: T s' k' :: _ =>
               match k, k' with KVar, _ | _, KVar => None | _, _ => Some (tbool (String.eqb s s'), match k with KBool => REquivSimplify | _ => REqSimplify end) end
           | _ => None
           end
  | OLt => match two_numbers l with Some (x, y) => Some (tbool (qlt x y), RCompSimplify) | None => None end
  | OLe => match two_numbers l with Some (x, y) => Some (tbool (qle x y), RCompSimplify) | None => None end
  | OAnd => match and_args l with
            | Some (inl f) => Some (f, RAndSimplify)
            | Some (inr []) => Some (tbool true, RAndSimplify)
            | Some (inr [x]) => Some (x, RAndSimplify)
            | Some (inr l') => Some (O OAnd l', RAndSimplify)
            | None => None
            end
  | OOr => let is b t := match t with T s KBool => String.eqb s b | _ => false end in
           if existsb (is "true") l then Some (tbool true, ROrSimplify) else if forallb (is "false") l then Some (tbool false, ROrSimplify) else None
  | ONot => match l with T s KBool :: _ => if String.eqb s "false" then Some (tbool true, RNotSimplify) else if String.eqb s "true" then Some (tbool false, RNotSimplify) else None | _ => None end
  | OPlus => match l with a :: _ => match sum_args l with Some x => Some (tnum x (kind_of a), RSumSimplify) | None => None end | [] => None end
  | OMinus => match l with a :: _ => match two_numbers l with Some (x, y) => Some (tnum (x - y)%Qc (kind_of a), RMinusSimplify) | None => None end | [] => None end
  | ODiv => match two_numbers l with Some (x, y) => if Qc_eq_bool y 0 then None else Some (tnum (x / y)%Qc KReal, RDivSimplify) | None => None end
  | OTimes => match l with a :: _ => match two_numbers l with Some (x, y) => Some (tnum (x * y)%Qc (kind_of a), RProdSimplify) | None => None end | [] => None end
  | OMod => match two_numbers l with Some (x, y) => match divmod x y with Some (_, r) => Some (T (get_str r) KInt, RModSimplify) | None => None end | None => None end
  | OIDiv => match two_numbers l with Some (x, y) => match divmod x y with Some (q, _) => Some (tnum q KInt, RDivSimplify) | None => None end | None => None end
  | OImp | OGt | OGe | OIte => None
  end.
Definition direct_step (o : aop) (l : list atm) : M atm :=
  x <- lift (direct o l) ;; _ <- record [Eql (Raw (O o l)) (Raw (fst x))] (snd x) [] ;; ret (fst x).
(** The operators > and >= (ProofSteps.cc:511-533); ite does not get here. *)
Definition simplify_direct (o : aop) (l : list atm) : M atm :=
  match o with
  | OGt =>
      let op := O OGt l in let inner := O OLe l in let negated := O ONot [inner] in
      _ <- record [Eql (Raw op) (Raw negated)] RCompSimplify [] ;; first <- last_step ;;
      i <- direct_step OLe l ;; k <- last_step ;;
      _ <- record [Eql (Raw negated) (Raw (O ONot [i]))] RCong [k] ;; second <- last_step ;;
      r <- direct_step ONot [i] ;; k' <- last_step ;;
      _ <- record [Eql (Raw op) (Raw r)] RTrans [first; second; k'] ;; ret r
  | OGe =>
      match l with
      | a :: b :: _ =>
          let op := O OGe l in
          _ <- record [Eql (Raw op) (Raw (O OLe [b; a]))] RCompSimplify [] ;; first <- last_step ;;
          r <- direct_step OLe [b; a] ;; k <- last_step ;;
          _ <- record [Eql (Raw op) (Raw r)] RTrans [first; k] ;; ret r
      | _ => fail
      end
  | _ => direct_step o l
  end.

(** [SimplifyResult]: the simplified term and the step that derives the equality; nothing if the term stays. *)
Definition sres := option (atm * nat).
(** [processResults] (ProofSteps.cc:344-374): records the congruence step, returns the new arguments and the name of the term. *)
Fixpoint new_args (l : list atm) (rs : list sres) : list atm :=
  match l, rs with a :: l', r :: rs' => match r with Some (x, _) => x | None => a end :: new_args l' rs' | _, _ => [] end.
Fixpoint res_steps (rs : list sres) : list nat := match rs with [] => [] | Some (_, k) :: r => k :: res_steps r | None :: r => res_steps r end.
Definition process (t : atm) (name : option nm) (simplified : atm) (rs : list sres) : M nm :=
  match name with
  | Some n => _ <- record [Eql (Name n) (Raw simplified)] RCong (res_steps rs) ;; ret n
  | None => fun s =>
      let n := NT (p_name s) in
      (_ <- record [Eql (Named t n) (Raw simplified)] RCong (res_steps rs) ;; ret n) (mkP (p_out s) (p_cur s) (p_true s) (S (p_name s)))
  end.
Definition some_res (rs : list sres) : bool := existsb (fun r => match r with Some _ => true | None => false end) rs.
(** [simplify] and [shortCircuitSimplifyITE] (ProofSteps.cc:326-447). *)
Fixpoint simplify (t : atm) (name : option nm) {struct t} : M sres :=
  let all := fix all (l : list atm) : M (list sres) :=
    match l with [] => ret [] | x :: r => y <- simplify x None ;; ys <- all r ;; ret (y :: ys) end in
  match t with
  | All _ _ | Let _ _ _ => fail
  | T _ _ => ret None
  | A f l =>
      rs <- all l ;;
      if some_res rs then
        let s := A f (new_args l rs) in _ <- process t name s rs ;; k <- last_step ;; ret (Some (s, k))
      else ret None
  | O OIte l =>
      match l with
      | [c; a; b] =>
          res <- simplify c None ;;
          let c' := match res with Some (x, _) => x | None => c end in
          let ite' := O OIte [c'; a; b] in
          ps <- match res with
                | Some (_, k) => _ <- record [Eql (Raw t) (Raw ite')] RCong [k] ;; k' <- last_step ;; ret [k']
                | None => ret []
                end ;;
          v <- lift (match c' with T s KBool => if String.eqb s "true" then Some true else if String.eqb s "false" then Some false else None | _ => None end) ;;
          let branch := if v : bool then a else b in
          _ <- record [Eql (Raw ite') (Raw branch)] RIteSimplify [] ;; k1 <- last_step ;;
          br <- (if v : bool then simplify a None else simplify b None) ;;
          let simplified := match br with Some (x, _) => x | None => branch end in
          let ps' := ps ++ [k1] ++ match br with Some (_, k) => [k] | None => [] end in
          _ <- match res, br with
               | None, None => ret tt
               | _, _ => record [Eql (Raw t) (Raw simplified)] RTrans ps'
               end ;;
          k <- last_step ;; ret (Some (simplified, k))
      | _ => fail
      end
  | O o l =>
      rs <- all l ;;
      if some_res rs then
        let l' := new_args l rs in
        n <- process t name (O o l') rs ;; k1 <- last_step ;;
        r <- simplify_direct o l' ;; k2 <- last_step ;;
        _ <- record [Eql (Name n) (Raw r)] RTrans [k1; k2] ;; k <- last_step ;; ret (Some (r, k))
      else r <- simplify_direct o l ;; k <- last_step ;; ret (Some (r, k))
  end.

(** ** The proof *)
(** [getOrCreateTrueStep] (ProofSteps.cc:879-885). *)
Definition true_step : M nat := fun s =>
  if Nat.eqb (p_true s) 0
  then (_ <- record [Pos (Raw (tbool true))] RTrue [] ;; ret (p_cur s)) (mkP (p_out s) (p_cur s) (p_cur s) (p_name s))
  else Some (p_true s, s).
(** [deriveLHSWithoutConstraint] (ProofSteps.cc:744-775). *)
Definition derive_lhs (t : atm) (ps : list nat) : M nat :=
  match t with
  | O OAnd l =>
      _ <- record (Pos (Raw t) :: map (fun x => Neg (Raw x)) l) RAndNeg [] ;; k <- last_step ;;
      _ <- record [Pos (Raw t)] RResolution (ps ++ [k]) ;; last_step
  | A _ _ | T _ KVar => match ps with [p] => ret p | _ => fail end
  | T _ KBool => true_step
  | _ => fail
  end.
(** [derivePredicateFromClause] (ProofSteps.cc:287-324). *)
Definition derive_predicate (inst : atm) (clause_step : nat) (ps : list nat) : M (atm * nat) :=
  match inst with
  | A _ _ => ret (inst, clause_step)
  | O _ (lhs :: rhs :: _) =>
      let n := NLHS clause_step in
      prev <- last_step ;;
      _ <- record [Neg (Named lhs n); Pos (Raw rhs)] RImplies [prev] ;; imp <- last_step ;;
      res <- simplify lhs (Some n) ;;
      lhs_step <- match res with
                  | Some (s, _) =>
                      e <- last_step ;; d <- derive_lhs s ps ;;
                      _ <- record [Pos (Name n); Neg (Raw s)] REquiv2 [e] ;; k <- last_step ;;
                      _ <- record [Pos (Name n)] RResolution [d; k] ;; last_step
                  | None => derive_lhs lhs ps
                  end ;;
      _ <- record [Pos (Raw rhs)] RResolution [imp; lhs_step] ;; k <- last_step ;; ret (rhs, k)
  | _ => fail
  end.
(** [instantiationSteps] (ProofSteps.cc:679-724); [pairs]: the result of [getInstPairs]. *)
Section MapO.
Context {X Y : Type} (f : X -> option Y).
Fixpoint mapO (l : list X) : option (list Y) := match l with [] => Some [] | x :: r => match f x, mapO r with Some y, Some ys => Some (y :: ys) | _, _ => None end end.
End MapO.
Definition instantiation (i clause : nat) (t : atm) (pairs : list (string * string)) : M (atm * nat) :=
  x <- lift (remove_unused t) ;;
  let cleared := fst x in
  y <- (if snd x : bool then
          _ <- record [Eql (Name (NA clause)) (Raw cleared)] RQntRmUnused [] ;; k <- last_step ;;
          _ <- record [Neg (Name (NA clause)); Pos (Raw cleared)] REquiv1 [k] ;; k' <- last_step ;;
          _ <- record [Pos (Raw cleared)] RResolution [clause; k'] ;; k'' <- last_step ;; ret (Raw cleared, k'')
        else ret (Name (NA clause), clause)) ;;
  match pairs with
  | [] => ret (cleared, snd y)
  | _ =>
      match cleared with
      | All vs _ =>
          args <- lift (mapO (fun v => slookup pairs (fst v)) vs) ;;
          let inst := instantiate pairs cleared in
          let n := NI (i - 1) in
          _ <- record_full [OrNeg (fst y) (Named inst n)] RForallInst [] args ;; k <- last_step ;;
          _ <- record [Neg (fst y); Pos (Name n)] ROr [k] ;; k' <- last_step ;;
          _ <- record [Pos (Name n)] RResolution [k'; snd y] ;; k'' <- last_step ;; ret (inst, k'')
      | _ => fail
      end
  end.
(** [buildAssumptionSteps] (ProofSteps.cc:726-742): the terms without lets are kept. *)
Fixpoint assumptions (fuel : nat) (l : list atm) : M (list atm) :=
  match l with
  | [] => ret []
  | a :: r => t <- lift (elim_lets fuel a) ;;
              _ <- (fun s => record [Pos (Named t (NA (p_cur s)))] RAssume [] s) ;;
              ts <- assumptions fuel r ;; ret (t :: ts)
  end.
(** A step of the derivation (src/Witnesses.h): its premises and its clause. *)
Record cstep := mkC { c_premises : list nat; c_clause : nat }.
Fixpoint nlookup {X} (l : list (nat * X)) (n : nat) : option X := match l with [] => None | (k, x) :: r => if Nat.eqb k n then Some x else nlookup r n end.
(** The steps that derived the premises; the fact "true" (step 0) is left out. *)
Definition premise_steps (done : list (nat * nat)) (ps : list nat) : option (list nat) :=
  mapO (nlookup done) (filter (fun p => negb (Nat.eqb p 0)) ps).
(** The body of the loop (ProofSteps.cc:247-280): the step that derives the fact. *)
Definition coarse_step (ts : list atm) (inst : nat -> option (list (string * string))) (i : nat) (c : cstep) (done : list (nat * nat)) : M nat :=
  t <- lift (nth_error ts (c_clause c)) ;;
  pairs <- lift (inst i) ;;
  x <- instantiation i (c_clause c) t pairs ;;
  ps <- lift (premise_steps done (c_premises c)) ;;
  y <- derive_predicate (fst x) (snd x) ps ;;
  r <- simplify (fst y) None ;;
  match r with
  | Some (s, _) =>
      k <- last_step ;; _ <- record [Neg (Raw (fst y)); Pos (Raw s)] REquiv1 [k] ;;
      k' <- last_step ;; _ <- record [Pos (Raw s)] RResolution [k'; snd y] ;; last_step
  | None => ret (snd y)
  end.
Fixpoint coarse_steps (ts : list atm) (inst : nat -> option (list (string * string))) (i : nat) (l : list cstep) (done : list (nat * nat)) : M unit :=
  match l with
  | [] => ret tt
  | c :: r =>
      match c_premises c with
      | [] => coarse_steps ts inst (S i) r done
      | _ => k <- coarse_step ts inst i c done ;; coarse_steps ts inst (S i) r ((i, k) :: done)
      end
  end.
(** [buildAletheProof] (ProofSteps.cc:239-285). *)
Definition build (fuel : nat) (asserts : list atm) (d : list cstep) (inst : nat -> option (list (string * string))) : option (list step) :=
  match (ts <- assumptions fuel asserts ;; _ <- coarse_steps ts inst 0 d [] ;;
         _ <- record [Neg (Raw (tbool false))] RFalse [] ;;
         (fun s => record [] RResolution [p_cur s - 2; p_cur s - 1] s)) (mkP [] 0 0 0) with
  | Some (_, s) => Some (rev (p_out s))
  | None => None
  end.
