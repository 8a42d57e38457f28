(** * A plain term logic that meets the contracts (for the examples). *)
From Verif Require Import Syntax FrontModel FrontSpec FrontProofs.
From Coq Require Import Arith QArith Qcanon.
Local Open Scope string_scope.
Local Open Scope list_scope.
Local Open Scope nat_scope.

Definition pl_not (t : pterm) : pterm := match t with POp FNot [u] => u | _ => POp FNot [t] end.
Definition pl_or (l : list pterm) : pterm := POp FOr l.
Definition pl_and (l : list pterm) : pterm := POp FAnd l.
Definition pl_neg (t : pterm) : pterm := POp FTimes [PConst (VInt (-1)); t].

Fixpoint pairs (f : pterm -> pterm -> pterm) (l : list pterm) : list pterm :=
  match l with
  | a :: ((b :: _) as k) => f a b :: pairs f k
  | _ => []
  end.
Fixpoint pl_imp (l : list pterm) : pterm :=
  match l with [] => PConst (VBool true) | [t] => t | t :: k => POp FOr [pl_not t; pl_imp k] end.

Definition pl_build (o : op) (l : list pterm) : pterm :=
  match o, l with
  | OTrue, _ => PConst (VBool true)
  | OFalse, _ => PConst (VBool false)
  | OAnd, _ => pl_and l
  | OOr, _ => pl_or l
  | OXor, t :: k => fold_left (fun a b => POp FXor [a; b]) k t
  | OImp, _ => pl_imp l
  | ONot, [t] => POp FNot [t]
  | OEq, [a; b] => POp FEq [a; b]
  | OEq, _ => pl_and (pairs (fun a b => POp FEq [a; b]) l)
  | ODistinct, _ => POp FDistinct l
  | OLe, _ => pl_and (pairs (fun a b => POp FLeq [a; b]) l)
  | OGe, _ => pl_and (pairs (fun a b => POp FLeq [b; a]) l)
  | OLt, _ => pl_and (pairs (fun a b => POp FNot [POp FLeq [b; a]]) l)
  | OGt, _ => pl_and (pairs (fun a b => POp FNot [POp FLeq [a; b]]) l)
  | OPlus, _ => POp FPlus l
  | OMinus, [t] => pl_neg t
  | OMinus, t :: k => POp FPlus (t :: map pl_neg k)
  | OTimes, _ => POp FTimes l
  | OIte, _ => POp FIte l
  | ODiv, _ => POp FDiv l
  | OMod, _ => POp FMod l
  | _, _ => PConst (VBool false)
  end.

Definition pl_op (n : string) (l : list pterm) : option pterm := option_map (fun o => pl_build o l) (op_of n).
(** The symbols of the logic may not be rebound. *)
Definition pl_reserved (n : string) : bool := match op_of n with Some _ => true | None => false end.

Lemma pl_not_true M r t : ptrue_in M r (pl_not t) = negb (ptrue_in M r t).
Proof.
  assert (H : forall t, ptrue_in M r (POp FNot [t]) = negb (ptrue_in M r t)) by reflexivity.
  destruct t as [| |f l|]; try apply H. destruct f; try apply H. destruct l as [|u [|w l]]; try apply H.
  cbn [pl_not]. rewrite H, negb_involutive. reflexivity.
Qed.

Lemma pairs_chain M r (f : pterm -> pterm -> pterm) (g : value -> value -> bool) l :
  (forall a b, ptrue_in M r (f a b) = g (peval M r a) (peval M r b)) ->
  forallb (ptrue_in M r) (pairs f l) = chain g (map (peval M r) l).
Proof.
  intros H. induction l as [|a l IH]; [reflexivity|]. destruct l as [|b l]; [reflexivity|].
  change (pairs f (a :: b :: l)) with (f a b :: pairs f (b :: l)). cbn [forallb map]. cbn [chain]. rewrite H. f_equal. exact IH.
Qed.

Lemma forallb_map2 {A B} (f : B -> bool) (g : A -> B) l : forallb f (map g l) = forallb (fun x => f (g x)) l.
Proof. induction l as [|x l IH]; [reflexivity|]. cbn [map forallb]. rewrite IH. reflexivity. Qed.

Lemma and_pairs M r f g l :
  (forall a b, ptrue_in M r (f a b) = g (peval M r a) (peval M r b)) ->
  peval M r (pl_and (pairs f l)) = VBool (chain g (map (peval M r) l)).
Proof.
  intros H. cbn [pl_and peval interp]. rewrite forallb_map2. f_equal. exact (pairs_chain M r f g l H).
Qed.

Lemma sort_bool v : sort_of v = SBool -> VBool (asb v) = v.
Proof. destruct v; try discriminate. reflexivity. Qed.

Lemma pl_imp_value M r l : Forall (fun t => sort_of (peval M r t) = SBool) l -> peval M r (pl_imp l) = VBool (imp (map (peval M r) l)).
Proof.
  induction 1 as [|t l Ht Hl IH]; [reflexivity|]. destruct l as [|u l].
  - cbn [pl_imp map imp]. symmetry. apply sort_bool, Ht.
  - change (pl_imp (t :: u :: l)) with (POp FOr [pl_not t; pl_imp (u :: l)]).
    change (imp (map (peval M r) (t :: u :: l))) with (implb (asb (peval M r t)) (imp (map (peval M r) (u :: l)))).
    cbn [peval map interp existsb] in *. rewrite IH. cbn [asb]. rewrite orb_false_r. f_equal.
    change (asb (peval M r (pl_not t))) with (ptrue_in M r (pl_not t)). rewrite pl_not_true. unfold ptrue_in.
    destruct (asb (peval M r t)); reflexivity.
Qed.

Lemma neg_value M r t : sort_of (peval M r t) <> SBool -> peval M r (pl_neg t) = vneg (peval M r t).
Proof.
  cbn [pl_neg peval map interp fold1 fold_left]. destruct (peval M r t) as [b|z|q]; cbn [sort_of vmul vneg asq]; intros H; [congruence| |].
  - f_equal; lia.
  - apply (f_equal VReal). replace (Q2Qc (inject_Z (-1))) with (- (1))%Qc by (apply Qc_is_canon; reflexivity). ring.
Qed.

Lemma fold_minus M r l : Forall (fun t => sort_of (peval M r t) <> SBool) l -> forall v,
  fold_left vadd (map (peval M r) (map pl_neg l)) v = fold_left (fun a b => vadd a (vneg b)) (map (peval M r) l) v.
Proof.
  induction 1 as [|t l Ht _ IH]; intros v; [reflexivity|]. cbn [map fold_left]. rewrite neg_value by exact Ht. apply IH.
Qed.

Lemma numeric_not_bool l s : same_numeric l = Some s -> Forall (fun x => x <> SBool) l.
Proof.
  unfold same_numeric. destruct (all_sort SInt l) eqn:E.
  - intros _. apply all_sort_spec in E. eapply Forall_impl; [|exact E]. intros x ->. discriminate.
  - destruct (all_sort SReal l) eqn:E'; [|discriminate]. intros _. apply all_sort_spec in E'. eapply Forall_impl; [|exact E'].
    intros x ->. discriminate.
Qed.

Lemma xor_value M r l : forall t b, peval M r t = VBool b ->
  peval M r (fold_left (fun a b => POp FXor [a; b]) l t) = VBool (fold_left (fun b w => xorb b (asb w)) (map (peval M r) l) b).
Proof.
  induction l as [|u l IH]; intros t b H; [exact H|]. cbn [fold_left map]. apply IH. cbn [peval map interp]. rewrite H. reflexivity.
Qed.

Lemma pl_build_value M r o l s : op_rank o (map sort_of (map (peval M r) l)) = Some s ->
  peval M r (pl_build o l) = op_meaning o (map (peval M r) l).
Proof.
  intros H. destruct o; cbn [pl_build op_meaning].
  - reflexivity.
  - reflexivity.
  - reflexivity.
  - reflexivity.
  - destruct l as [|t l]; [discriminate|]. cbn [map] in *. cbn [op_rank] in H.
    destruct (all_sort _ _) eqn:E; [|discriminate]. apply all_sort_spec in E. inversion E as [|? ? E1 _]; subst.
    apply xor_value. symmetry. apply sort_bool, E1.
  - apply pl_imp_value. destruct l as [|t l]; [discriminate|]. cbn [map op_rank] in H.
    destruct (all_sort _ _) eqn:E; [|discriminate]. apply all_sort_spec in E. rewrite map_map in E.
    change (sort_of (peval M r t) :: map (fun x => sort_of (peval M r x)) l) with (map (fun x => sort_of (peval M r x)) (t :: l)) in E.
    rewrite Forall_map in E. exact E.
  - destruct l as [|t [|u l]]; try discriminate; [reflexivity|]. cbn [map op_rank] in H. destruct (sort_of (peval M r t)); discriminate.
  - destruct l as [|t [|u [|w l]]]; try discriminate.
    + cbn [map peval interp chain]. rewrite andb_true_r. reflexivity.
    + apply and_pairs. intros a b. reflexivity.
  - reflexivity.
  - apply and_pairs. intros a b. reflexivity.
  - apply and_pairs. intros a b. reflexivity.
  - apply and_pairs. intros a b. reflexivity.
  - apply and_pairs. intros a b. reflexivity.
  - destruct l as [|t l]; [discriminate|]. reflexivity.
  - destruct l as [|t [|u l]]; [discriminate| |]; cbn [op_rank map] in H; apply numeric_not_bool in H.
    + apply neg_value. inversion H; subst. assumption.
    + change (fold_left vadd (map (peval M r) (map pl_neg (u :: l))) (peval M r t) =
        fold_left (fun a b => vadd a (vneg b)) (map (peval M r) (u :: l)) (peval M r t)).
      apply fold_minus. inversion H as [|? ? _ H']; subst. rewrite map_map in H'.
      change (sort_of (peval M r u) :: map (fun x => sort_of (peval M r x)) l) with (map (fun x => sort_of (peval M r x)) (u :: l)) in H'.
      rewrite Forall_map in H'. exact H'.
  - destruct l as [|t l]; [discriminate|]. reflexivity.
  - destruct l as [|c [|a [|b [|d l]]]]; cbn [map op_rank] in H; try discriminate;
      destruct (sort_of (peval M r c)); try discriminate. reflexivity.
  - destruct l as [|a [|b [|d l]]]; cbn [map op_rank] in H; try discriminate;
      destruct (sort_of (peval M r a)) eqn:A; try discriminate; destruct (sort_of (peval M r b)) eqn:B; try discriminate.
    cbn [peval map interp]. reflexivity.
  - destruct l as [|a [|b [|d l]]]; cbn [map op_rank] in H; try discriminate;
      destruct (sort_of (peval M r a)) eqn:A; try discriminate; destruct (sort_of (peval M r b)) eqn:B; try discriminate.
    cbn [peval map interp]. reflexivity.
Qed.

Lemma pl_ok : logic_ok pl_op pl_not pl_or pl_and.
Proof.
  constructor.
  - intros M r n ts t v. unfold pl_op, op_value. destruct (op_of n) as [o|]; [|discriminate]. cbn [option_map]. intros [= <-].
    destruct (op_rank o (map sort_of (map (peval M r) ts))) as [s|] eqn:E; [|discriminate]. intros [= <-].
    eapply pl_build_value; eauto.
  - apply pl_not_true.
  - intros M r ts. unfold ptrue_in. cbn [pl_or peval interp asb].
    induction ts as [|t ts IH]; [reflexivity|]. cbn [map existsb]. rewrite IH. reflexivity.
  - intros M r ts. unfold ptrue_in. cbn [pl_and peval interp asb]. apply forallb_map2.
  - reflexivity.
Qed.

Lemma pl_total : logic_total pl_op.
Proof.
  intros n ts H. unfold pl_op. specialize (H (fun _ _ => true) (fun _ => VBool true)). unfold op_value in H.
  destruct (op_of n) as [o|]; [|congruence]. eexists. reflexivity.
Qed.

Lemma pl_pure : logic_pure pl_not pl_and.
Proof.
  constructor.
  - intros known t H. assert (mentions known (POp FNot [t]) = false) by (cbn; rewrite H; reflexivity).
    destruct t as [| |f l|]; try assumption. destruct f; try assumption. destruct l as [|u [|w l]]; try assumption.
    cbn in H. rewrite orb_false_r in H. exact H.
  - intros known ts H. exact H.
  - reflexivity.
Qed.
