(** * Terms, values and evaluation.

    Golem represents formulas as OpenSMT [PTRef]s.  OpenSMT is not part of /repo;
    this file fixes the fragment of its term language that golem's own code builds
    and inspects, with its standard (SMT-LIB) meaning.  Arrays are not modelled. *)
From Coq Require Export Bool ZArith Lia String Ascii.
From Coq Require Import QArith Qcanon.
From Coq Require Export List.
Export ListNotations.
Open Scope Z_scope.

(** Sorts used by golem's theories QF_LIA / QF_LRA
    (src/bin/golem.cpp:93-104; array logic QF_ALIA is not modelled). *)
Inductive sort := SBool | SInt | SReal.

Definition sort_eqb (a b : sort) : bool :=
  match a, b with
  | SBool, SBool | SInt, SInt | SReal, SReal => true
  | _, _ => false
  end.

Lemma sort_eqb_spec a b : reflect (a = b) (sort_eqb a b).
Proof. destruct a, b; constructor; congruence. Qed.

Inductive value := VBool (b : bool) | VInt (z : Z) | VReal (q : Qc).

Definition sort_of (v : value) : sort :=
  match v with VBool _ => SBool | VInt _ => SInt | VReal _ => SReal end.

(** The default value of a sort (logic.getDefaultValuePTRef in OpenSMT;
    used by golem at src/termination/LassoDetector.cc:42). *)
Definition default_value (s : sort) : value :=
  match s with SBool => VBool true | SInt => VInt 0 | SReal => VReal 0%Qc end.

(** A value read through a variable always has the sort of the variable. *)
Definition coerce (s : sort) (v : value) : value :=
  if sort_eqb (sort_of v) s then v else default_value s.

Lemma coerce_sort s v : sort_of (coerce s v) = s.
Proof.
  unfold coerce. destruct (sort_eqb_spec (sort_of v) s) as [H|H]; [exact H|].
  destruct s; reflexivity.
Qed.

Lemma coerce_id s v : sort_of v = s -> coerce s v = v.
Proof.
  intros H. unfold coerce. destruct (sort_eqb_spec (sort_of v) s); congruence.
Qed.

Lemma coerce_idem s v : coerce s (coerce s v) = coerce s v.
Proof. apply coerce_id, coerce_sort. Qed.

(** Versions and tags of variables.  Golem encodes them in the variable name:
    - time versions [name##n]       (src/TermUtils.h:191-302, TimeMachine);
    - source instances [name__s##i] (src/TermUtils.h:353-362, VersionManager::toSource);
    - targets [name__t]             (src/TermUtils.h:364-374, VersionManager::toTarget).
    [Names.v] models the string encoding and proves that it is faithful. *)
Inductive tag := TBase | TTime (n : Z) | TSrc (i : nat) | TTgt.

Definition tag_eqb (a b : tag) : bool :=
  match a, b with
  | TBase, TBase | TTgt, TTgt => true
  | TTime n, TTime m => Z.eqb n m
  | TSrc i, TSrc j => Nat.eqb i j
  | _, _ => false
  end.

Lemma tag_eqb_spec a b : reflect (a = b) (tag_eqb a b).
Proof.
  destruct a, b; simpl; try (constructor; congruence).
  - destruct (Z.eqb_spec n n0); constructor; congruence.
  - destruct (Nat.eqb_spec i i0); constructor; congruence.
Qed.

Record var := mkVar { vbase : string; vtag : tag; vsort : sort }.

Definition var_eqb (a b : var) : bool :=
  String.eqb (vbase a) (vbase b) && tag_eqb (vtag a) (vtag b) && sort_eqb (vsort a) (vsort b).

Lemma var_eqb_spec a b : reflect (a = b) (var_eqb a b).
Proof.
  destruct a as [n t s], b as [n' t' s']; unfold var_eqb; simpl.
  destruct (String.eqb_spec n n'), (tag_eqb_spec t t'), (sort_eqb_spec s s');
    simpl; constructor; congruence.
Qed.

Lemma var_eqb_refl a : var_eqb a a = true.
Proof. destruct (var_eqb_spec a a); congruence. Qed.

Definition var_dec (a b : var) : {a = b} + {a <> b}.
Proof.
  destruct (var_eqb a b) eqn:E; [left|right].
  - abstract (destruct (var_eqb_spec a b); congruence).
  - abstract (destruct (var_eqb_spec a b); congruence).
Defined.

Fixpoint inb (v : var) (l : list var) : bool :=
  match l with [] => false | w :: l' => var_eqb v w || inb v l' end.

Lemma inb_spec v l : reflect (In v l) (inb v l).
Proof.
  induction l as [|w l IH]; simpl; [constructor; tauto|].
  destruct (var_eqb_spec v w) as [E|E]; simpl.
  - subst. constructor. auto.
  - destruct IH as [H|H]; constructor; intuition congruence.
Qed.

Lemma inb_true v l : inb v l = true <-> In v l.
Proof. destruct (inb_spec v l); split; intros; auto; try congruence; contradiction. Qed.

Lemma inb_false v l : inb v l = false <-> ~ In v l.
Proof. destruct (inb_spec v l); split; intros; auto; try congruence; contradiction. Qed.

(** Function symbols golem builds terms with (OpenSMT Logic / ArithLogic mk* functions). *)
Inductive fsym :=
| FAnd | FOr | FNot | FEq | FLeq | FPlus | FTimes | FIte | FXor | FDistinct | FDiv | FMod.

Definition fsym_eqb (a b : fsym) : bool :=
  match a, b with
  | FAnd, FAnd | FOr, FOr | FNot, FNot | FEq, FEq | FLeq, FLeq | FPlus, FPlus
  | FTimes, FTimes | FIte, FIte | FXor, FXor | FDistinct, FDistinct | FDiv, FDiv | FMod, FMod => true
  | _, _ => false
  end.

Lemma fsym_eqb_spec a b : reflect (a = b) (fsym_eqb a b).
Proof. destruct a, b; constructor; congruence. Qed.

Inductive term :=
| Var (v : var)
| Const (c : value)
| App (f : fsym) (args : list term).

(** Induction principle that goes through the argument lists. *)
Section TermInd.
  Variable P : term -> Prop.
  Hypothesis HVar : forall v, P (Var v).
  Hypothesis HConst : forall c, P (Const c).
  Hypothesis HApp : forall f ts, Forall P ts -> P (App f ts).
  Fixpoint term_ind' (t : term) : P t :=
    match t with
    | Var v => HVar v
    | Const c => HConst c
    | App f ts =>
        HApp f ts ((fix go (l : list term) : Forall P l :=
                      match l with
                      | [] => Forall_nil P
                      | x :: l' => Forall_cons x (term_ind' x) (go l')
                      end) ts)
    end.
End TermInd.

Definition value_eqb (a b : value) : bool :=
  match a, b with
  | VBool x, VBool y => Bool.eqb x y
  | VInt x, VInt y => Z.eqb x y
  | VReal x, VReal y => if Qc_eq_dec x y then true else false
  | _, _ => false
  end.

Lemma value_eqb_spec a b : reflect (a = b) (value_eqb a b).
Proof.
  destruct a as [x|x|x], b as [y|y|y]; simpl; try (constructor; congruence).
  - destruct (Bool.eqb_spec x y); constructor; congruence.
  - destruct (Z.eqb_spec x y); constructor; congruence.
  - destruct (Qc_eq_dec x y); constructor; congruence.
Qed.

Lemma value_eqb_refl a : value_eqb a a = true.
Proof. destruct (value_eqb_spec a a); congruence. Qed.

(** Truth value, number. *)
Definition asb (v : value) : bool := match v with VBool b => b | _ => false end.
Definition asq (v : value) : Qc :=
  match v with VReal q => q | VInt z => Q2Qc (inject_Z z) | VBool _ => 0%Qc end.
Definition asz (v : value) : Z := match v with VInt z => z | _ => 0 end.

Definition vleq (a b : value) : bool :=
  match a, b with
  | VInt x, VInt y => Z.leb x y
  | _, _ => if Qclt_le_dec (asq b) (asq a) then false else true
  end.
Definition vadd (a b : value) : value :=
  match a, b with VInt x, VInt y => VInt (x + y) | _, _ => VReal (asq a + asq b)%Qc end.
Definition vmul (a b : value) : value :=
  match a, b with VInt x, VInt y => VInt (x * y) | _, _ => VReal (asq a * asq b)%Qc end.

(** SMT-LIB integer division: the remainder is non-negative. *)
Definition smt_mod (a b : Z) : Z := a mod (Z.abs b).
Definition smt_div (a b : Z) : Z := Z.sgn b * (a / Z.abs b).

Definition fold1 (f : value -> value -> value) (vs : list value) : value :=
  match vs with [] => VInt 0 | v :: vs' => fold_left f vs' v end.

Fixpoint all_distinct (vs : list value) : bool :=
  match vs with
  | [] => true
  | v :: vs' => negb (existsb (value_eqb v) vs') && all_distinct vs'
  end.

(** Meaning of the function symbols. *)
Definition interp (f : fsym) (vs : list value) : value :=
  match f, vs with
  | FAnd, _ => VBool (forallb asb vs)
  | FOr, _ => VBool (existsb asb vs)
  | FNot, [a] => VBool (negb (asb a))
  | FEq, [a; b] => VBool (value_eqb a b)
  | FLeq, [a; b] => VBool (vleq a b)
  | FPlus, _ => fold1 vadd vs
  | FTimes, _ => fold1 vmul vs
  | FIte, [c; a; b] => if asb c then a else b
  | FXor, [a; b] => VBool (xorb (asb a) (asb b))
  | FDistinct, _ => VBool (all_distinct vs)
  | FDiv, [VInt a; VInt b] => VInt (smt_div a b)
  | FMod, [VInt a; VInt b] => VInt (smt_mod a b)
  | _, _ => VBool false
  end.

Definition valuation := var -> value.

Fixpoint eval (r : valuation) (t : term) : value :=
  match t with
  | Var v => coerce (vsort v) (r v)
  | Const c => c
  | App f ts => interp f (map (eval r) ts)
  end.

Definition holdsb (r : valuation) (t : term) : bool := asb (eval r t).
Definition holds (r : valuation) (t : term) : Prop := holdsb r t = true.

Lemma holds_dec r t : {holds r t} + {~ holds r t}.
Proof. unfold holds. destruct (holdsb r t); [left|right]; congruence. Qed.

(** Formula constructors (OpenSMT's mk* functions also simplify; the plain
    constructor has the same meaning). *)
Definition tt_true : term := Const (VBool true).
Definition tt_false : term := Const (VBool false).
Definition mkAnd (l : list term) : term := App FAnd l.
Definition mkOr (l : list term) : term := App FOr l.
Definition mkNot (t : term) : term := App FNot [t].
Definition mkEq (a b : term) : term := App FEq [a; b].
Definition mkLeq (a b : term) : term := App FLeq [a; b].
(** OpenSMT: [mkLt a b] is [not (b <= a)]. *)
Definition mkLt (a b : term) : term := mkNot (mkLeq b a).
Definition mkIte (c a b : term) : term := App FIte [c; a; b].
Definition mkInt (z : Z) : term := Const (VInt z).
Definition mkPlus (l : list term) : term := App FPlus l.
Definition mkTimes (l : list term) : term := App FTimes l.
Definition mkNeg (a : term) : term := mkTimes [mkInt (-1); a].
Definition mkMinus (a b : term) : term := mkPlus [a; mkNeg b].
Definition mkImplies (a b : term) : term := mkOr [mkNot a; b].

Lemma holds_true r : holds r tt_true.
Proof. reflexivity. Qed.

Lemma holds_false r : ~ holds r tt_false.
Proof. intros H; discriminate H. Qed.

Lemma holds_and r l : holds r (mkAnd l) <-> Forall (holds r) l.
Proof.
  unfold holds at 1, holdsb. simpl. rewrite forallb_forall, Forall_forall. split.
  - intros H t Ht. apply (H (eval r t)), in_map, Ht.
  - intros H v Hv. apply in_map_iff in Hv as [t [<- Ht]]. apply H, Ht.
Qed.

Lemma holds_or r l : holds r (mkOr l) <-> Exists (holds r) l.
Proof.
  unfold holds at 1, holdsb. simpl. rewrite existsb_exists, Exists_exists. split.
  - intros [v [Hv Hb]]. apply in_map_iff in Hv as [t [<- Ht]]. exists t; split; auto.
  - intros [t [Ht Hb]]. exists (eval r t). split; [apply in_map, Ht|exact Hb].
Qed.

Lemma holds_not r t : holds r (mkNot t) <-> ~ holds r t.
Proof.
  unfold holds, holdsb. simpl. destruct (asb (eval r t)); simpl; intuition congruence.
Qed.

Lemma holds_and2 r a b : holds r (mkAnd [a; b]) <-> holds r a /\ holds r b.
Proof.
  rewrite holds_and. split.
  - intros H. inversion H as [|? ? ? H2]; subst. inversion H2; subst. auto.
  - intros [Ha Hb]. repeat constructor; assumption.
Qed.

Lemma holds_and3 r a b c : holds r (mkAnd [a; b; c]) <-> holds r a /\ holds r b /\ holds r c.
Proof.
  rewrite holds_and. rewrite !Forall_cons_iff. intuition.
Qed.

Lemma holds_or2 r a b : holds r (mkOr [a; b]) <-> holds r a \/ holds r b.
Proof.
  rewrite holds_or. rewrite !Exists_cons, Exists_nil. intuition.
Qed.

Lemma holds_implies r a b : holds r (mkImplies a b) <-> (holds r a -> holds r b).
Proof.
  unfold mkImplies. rewrite holds_or2, holds_not.
  destruct (holds_dec r a); tauto.
Qed.

Lemma holds_eq r a b : holds r (mkEq a b) <-> eval r a = eval r b.
Proof.
  unfold holds, holdsb. simpl. destruct (value_eqb_spec (eval r a) (eval r b)); intuition congruence.
Qed.

(** ** Variables of a term *)
Fixpoint vars (t : term) : list var :=
  match t with
  | Var v => [v]
  | Const _ => []
  | App _ ts => concat (map vars ts)
  end.

Lemma in_vars_app v f ts : In v (vars (App f ts)) <-> exists t, In t ts /\ In v (vars t).
Proof.
  simpl. rewrite in_concat. split.
  - intros [l [Hl Hv]]. apply in_map_iff in Hl as [t [<- Ht]]. eauto.
  - intros [t [Ht Hv]]. exists (vars t). split; [apply in_map, Ht | exact Hv].
Qed.

Lemma eval_ext r r' t :
  (forall v, In v (vars t) -> coerce (vsort v) (r v) = coerce (vsort v) (r' v)) ->
  eval r t = eval r' t.
Proof.
  induction t as [v|c|f ts IH] using term_ind'; intros H; simpl.
  - apply H. simpl; auto.
  - reflexivity.
  - f_equal. apply map_ext_in. intros t Ht.
    rewrite Forall_forall in IH. apply IH; [exact Ht|].
    intros v Hv. apply H. apply in_vars_app. eauto.
Qed.

Lemma eval_agree r r' t :
  (forall v, In v (vars t) -> r v = r' v) -> eval r t = eval r' t.
Proof. intros H. apply eval_ext. intros v Hv. rewrite H; auto. Qed.

Lemma holds_agree r r' t :
  (forall v, In v (vars t) -> r v = r' v) -> (holds r t <-> holds r' t).
Proof. intros H. unfold holds, holdsb. rewrite (eval_agree r r' t H). tauto. Qed.

(** ** Renaming and substitution
    ([TermUtils::varSubstitute], src/TermUtils.h:52-56: simultaneous substitution by
    OpenSMT's [Substitutor]; the rewriters of TimeMachine / VersionManager are
    variable renamings). *)
Fixpoint rename (f : var -> var) (t : term) : term :=
  match t with
  | Var v => Var (f v)
  | Const c => Const c
  | App g ts => App g (map (rename f) ts)
  end.

Definition sort_preserving (f : var -> var) := forall v, vsort (f v) = vsort v.

Lemma eval_rename f r t :
  sort_preserving f -> eval r (rename f t) = eval (fun v => r (f v)) t.
Proof.
  intros Hf. induction t as [v|c|g ts IH] using term_ind'; simpl.
  - rewrite Hf. reflexivity.
  - reflexivity.
  - f_equal. rewrite map_map. apply map_ext_in. rewrite Forall_forall in IH. exact IH.
Qed.

Lemma holds_rename f r t :
  sort_preserving f -> (holds r (rename f t) <-> holds (fun v => r (f v)) t).
Proof. intros Hf. unfold holds, holdsb. rewrite eval_rename by assumption. tauto. Qed.

Lemma vars_rename f t : vars (rename f t) = map f (vars t).
Proof.
  induction t as [v|c|g ts IH] using term_ind'; simpl; auto.
  rewrite concat_map, !map_map. f_equal. apply map_ext_in. rewrite Forall_forall in IH. exact IH.
Qed.

Lemma rename_rename f g t : rename f (rename g t) = rename (fun v => f (g v)) t.
Proof.
  induction t as [v|c|h ts IH] using term_ind'; simpl; auto.
  f_equal. rewrite map_map. apply map_ext_in. rewrite Forall_forall in IH. exact IH.
Qed.

Lemma rename_ext f g t : (forall v, In v (vars t) -> f v = g v) -> rename f t = rename g t.
Proof.
  induction t as [v|c|h ts IH] using term_ind'; intros H; simpl.
  - rewrite H; simpl; auto.
  - reflexivity.
  - f_equal. apply map_ext_in. intros t Ht. rewrite Forall_forall in IH. apply IH; auto.
    intros v Hv. apply H, in_vars_app. eauto.
Qed.

Lemma rename_id f t : (forall v, In v (vars t) -> f v = v) -> rename f t = t.
Proof.
  induction t as [v|c|h ts IH] using term_ind'; intros H; simpl.
  - rewrite H; simpl; auto.
  - reflexivity.
  - f_equal. rewrite <- (map_id ts) at 2. apply map_ext_in. intros t Ht.
    rewrite Forall_forall in IH. apply IH; auto.
    intros v Hv. apply H, in_vars_app. eauto.
Qed.

(** Simultaneous substitution by an association list
    ([TermUtils::substitutions_map], src/TermUtils.h:23, 52-56). *)
Definition submap := list (var * term).

Fixpoint lookup (v : var) (s : submap) : option term :=
  match s with
  | [] => None
  | (w, t) :: s' => if var_eqb v w then Some t else lookup v s'
  end.

Fixpoint subst (s : submap) (t : term) : term :=
  match t with
  | Var v => match lookup v s with Some u => u | None => Var v end
  | Const c => Const c
  | App f ts => App f (map (subst s) ts)
  end.

(** Valuation after reading the substituted variables through [s]. *)
Definition upd (r : valuation) (s : submap) : valuation :=
  fun v => match lookup v s with Some u => eval r u | None => r v end.

(** Every replacement has the sort of the variable it replaces (OpenSMT refuses
    ill-sorted terms). *)
Definition well_sorted (s : submap) :=
  forall v u, lookup v s = Some u -> forall r, sort_of (eval r u) = vsort v.

Lemma eval_subst s r t : well_sorted s -> eval r (subst s t) = eval (upd r s) t.
Proof.
  intros Hs. induction t as [v|c|f ts IH] using term_ind'; simpl.
  - unfold upd. destruct (lookup v s) as [u|] eqn:E; simpl.
    + rewrite coerce_id; [reflexivity|]. eapply Hs; eauto.
    + reflexivity.
  - reflexivity.
  - f_equal. rewrite map_map. apply map_ext_in. rewrite Forall_forall in IH. exact IH.
Qed.

Lemma holds_subst s r t : well_sorted s -> (holds r (subst s t) <-> holds (upd r s) t).
Proof. intros Hs. unfold holds, holdsb. rewrite eval_subst by assumption. tauto. Qed.

Lemma lookup_in v s u : lookup v s = Some u -> In (v, u) s.
Proof.
  induction s as [|[w t] s IH]; simpl; [discriminate|].
  destruct (var_eqb_spec v w) as [E|E]; intros H; [inversion H; subst; auto|auto].
Qed.

Lemma lookup_none v s : lookup v s = None <-> ~ In v (map fst s).
Proof.
  induction s as [|[w t] s IH]; simpl; [tauto|].
  destruct (var_eqb_spec v w) as [E|E]; [subst; split; [discriminate|tauto]|].
  rewrite IH. intuition congruence.
Qed.

Lemma in_vars_subst s t v :
  In v (vars (subst s t)) <->
  exists w, In w (vars t) /\ match lookup w s with Some u => In v (vars u) | None => v = w end.
Proof.
  induction t as [x|c|f ts IH] using term_ind'.
  - simpl. destruct (lookup x s) as [u|] eqn:E; simpl; split.
    + intros H. exists x. rewrite E. auto.
    + intros [w [[Hw|[]] H]]. subst w. rewrite E in H. exact H.
    + intros [H|[]]. subst. exists v. rewrite E. auto.
    + intros [w [[Hw|[]] H]]. subst w. rewrite E in H. auto.
  - simpl. split; [tauto|]. intros [w [[] _]].
  - simpl (subst s (App f ts)). rewrite in_vars_app. rewrite Forall_forall in IH. split.
    + intros [t [Ht Hv]]. apply in_map_iff in Ht as [t' [<- Ht']].
      apply IH in Hv; [|exact Ht']. destruct Hv as [w [Hw H]].
      exists w. split; [apply in_vars_app; eauto|exact H].
    + intros [w [Hw H]]. apply in_vars_app in Hw as [t [Ht Hw]].
      exists (subst s t). split; [apply in_map, Ht|]. apply IH; eauto.
Qed.

(** Decidable equality of terms (hash-consing in OpenSMT makes [PTRef] equality
    syntactic equality). *)
Fixpoint term_eqb (a b : term) : bool :=
  match a, b with
  | Var v, Var w => var_eqb v w
  | Const c, Const d => value_eqb c d
  | App f ts, App g us =>
      fsym_eqb f g &&
      (fix go (l m : list term) : bool :=
         match l, m with
         | [], [] => true
         | x :: l', y :: m' => term_eqb x y && go l' m'
         | _, _ => false
         end) ts us
  | _, _ => false
  end.

Lemma term_eqb_iff a : forall b, term_eqb a b = true <-> a = b.
Proof.
  induction a as [v|c|f ts IH] using term_ind'; intros [w|d|g us]; simpl;
    try (split; intros; congruence).
  - destruct (var_eqb_spec v w); split; congruence.
  - destruct (value_eqb_spec c d); split; congruence.
  - rewrite andb_true_iff.
    assert (H : (fix go (l m : list term) : bool :=
         match l, m with
         | [], [] => true
         | x :: l', y :: m' => term_eqb x y && go l' m'
         | _, _ => false
         end) ts us = true <-> ts = us).
    { revert us. induction IH as [|x l Hx Hl IHl]; intros [|y m];
        try (split; intros; congruence).
      rewrite andb_true_iff, Hx, IHl. split; [intros [-> ->]; reflexivity|].
      intros E; inversion E; auto. }
    rewrite H. destruct (fsym_eqb_spec f g) as [E|E]; split; intros H'; try congruence.
    + destruct H' as [_ ->]. congruence.
    + inversion H'; auto.
    + destruct H'; discriminate.
Qed.

Lemma term_eqb_spec a b : reflect (a = b) (term_eqb a b).
Proof. apply iff_reflect. symmetry. apply term_eqb_iff. Qed.

Lemma term_eqb_refl a : term_eqb a a = true.
Proof. destruct (term_eqb_spec a a); congruence. Qed.

Definition term_dec (a b : term) : {a = b} + {a <> b}.
Proof. destruct (term_eqb_spec a b); [left|right]; assumption. Defined.

(** Entailment and equivalence of formulas. *)
Definition entails (a b : term) : Prop := forall r, holds r a -> holds r b.
Definition equiv (a b : term) : Prop := forall r, holds r a <-> holds r b.
Definition unsat (l : list term) : Prop := forall r, ~ Forall (holds r) l.

(** A substitution of variables for variables is a renaming. *)
Definition vmap := list (var * var).
Fixpoint vlookup (s : vmap) (v : var) : var :=
  match s with
  | [] => v
  | (w, u) :: s' => if var_eqb v w then u else vlookup s' v
  end.
Definition vsub (s : vmap) : submap := map (fun p => (fst p, Var (snd p))) s.

Lemma lookup_vsub s v :
  match lookup v (vsub s) with Some u => u | None => Var v end = Var (vlookup s v).
Proof.
  induction s as [|[w u] s IH]; simpl; [reflexivity|].
  destruct (var_eqb_spec v w); [reflexivity|exact IH].
Qed.

Lemma subst_vsub s t : subst (vsub s) t = rename (vlookup s) t.
Proof.
  induction t as [v|c|f ts IH] using term_ind'; simpl.
  - apply lookup_vsub.
  - reflexivity.
  - f_equal. apply map_ext_in. rewrite Forall_forall in IH. exact IH.
Qed.

Lemma vlookup_map (f g : var -> var) l v :
  (forall a b, f a = f b -> a = b) -> In v l -> vlookup (map (fun x => (f x, g x)) l) (f v) = g v.
Proof.
  intros Hf. induction l as [|w l IH]; simpl; [tauto|]. intros [->|H].
  - rewrite var_eqb_refl. reflexivity.
  - destruct (var_eqb_spec (f v) (f w)) as [E|E]; [apply Hf in E; subst; reflexivity|auto].
Qed.

Lemma vlookup_map_not (f g : var -> var) l v :
  (forall w, In w l -> f w <> v) -> vlookup (map (fun x => (f x, g x)) l) v = v.
Proof.
  induction l as [|w l IH]; simpl; [reflexivity|]. intros H.
  destruct (var_eqb_spec v (f w)) as [E|E]; [exfalso; apply (H w); auto|]. apply IH. intros; apply H; auto.
Qed.
