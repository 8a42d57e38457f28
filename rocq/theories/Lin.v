(** * Linear terms.

    OpenSMT keeps arithmetic terms in a linear normal form (constant + sum of coefficient * variable, distinct variables,
    no zero coefficients); the code reads it with [splitLinearTermToFactors] and [separateVarFromTerm]
    (src/ModelBasedProjection.cc:56-94).  Here the form is computed from a term ([parse]) and turned back into one. *)
From Coq Require Import Ring QArith Qcanon.
From Verif Require Import Syntax.
Open Scope list_scope.

Record lin (K : Type) := mkLin { lco : list (var * K); lcst : K }.
Arguments mkLin {K}. Arguments lco {K}. Arguments lcst {K}.

Section Lin.
Variable K : Type.
Variables (k0 k1 : K) (kadd kmul ksub : K -> K -> K) (kopp : K -> K) (keqb : K -> K -> bool).
Hypothesis Kr : ring_theory k0 k1 kadd kmul ksub kopp eq.
Hypothesis Ke : forall a b, reflect (a = b) (keqb a b).
Add Ring Kring : Kr.
Infix "+" := kadd. Infix "*" := kmul.

Definition keys (l : list (var * K)) : list var := map fst l.
Fixpoint evs (x : var -> K) (l : list (var * K)) : K := match l with [] => k0 | (v, k) :: l' => k * x v + evs x l' end.
Definition lev (x : var -> K) (l : lin K) : K := lcst l + evs x (lco l).

Fixpoint ins (v : var) (k : K) (l : list (var * K)) : list (var * K) :=
  match l with
  | [] => if keqb k k0 then [] else [(v, k)]
  | (u, j) :: l' => if var_eqb u v then (if keqb (j + k) k0 then l' else (u, j + k) :: l') else (u, j) :: ins v k l'
  end.
Definition lconst (k : K) : lin K := mkLin [] k.
Definition lvar (v : var) : lin K := mkLin (ins v k1 []) k0.
Definition ladd (a b : lin K) : lin K := mkLin (fold_right (fun p acc => ins (fst p) (snd p) acc) (lco b) (lco a)) (lcst a + lcst b).
Definition lscale (k : K) (a : lin K) : lin K := mkLin (fold_right (fun p acc => ins (fst p) (k * snd p) acc) [] (lco a)) (k * lcst a).
Definition lneg (a : lin K) : lin K := lscale (kopp k1) a.
Definition lsub (a b : lin K) : lin K := ladd a (lneg b).
(** The coefficient of a variable, and the rest ([separateVarFromTerm]). *)
Fixpoint cof (v : var) (l : list (var * K)) : K := match l with [] => k0 | (u, k) :: l' => if var_eqb u v then k + cof v l' else cof v l' end.
Definition co (v : var) (l : lin K) : K := cof v (lco l).
Definition drop (v : var) (l : lin K) : lin K := mkLin (filter (fun p => negb (var_eqb (fst p) v)) (lco l)) (lcst l).
Definition has (v : var) (l : lin K) : bool := inb v (keys (lco l)).

Lemma evs_ins x v k l : evs x (ins v k l) = k * x v + evs x l.
Proof.
  induction l as [|[u j] l IH]; cbn [ins evs].
  - destruct (Ke k k0) as [->|]; cbn [evs]; ring.
  - destruct (var_eqb_spec u v) as [->|].
    + destruct (Ke (j + k) k0) as [E|]; cbn [evs]; [|ring]. transitivity ((j + k) * x v + evs x l); [rewrite E|]; ring.
    + cbn [evs]. rewrite IH. ring.
Qed.
Lemma lev_const x k : lev x (lconst k) = k. Proof. unfold lev. cbn. ring. Qed.
Lemma lev_var x v : lev x (lvar v) = x v. Proof. unfold lev, lvar. cbn [lcst lco]. rewrite evs_ins. cbn [evs]. ring. Qed.
Lemma lev_add x a b : lev x (ladd a b) = lev x a + lev x b.
Proof.
  unfold lev, ladd. cbn [lcst lco]. assert (E : evs x (fold_right (fun p acc => ins (fst p) (snd p) acc) (lco b) (lco a)) = evs x (lco a) + evs x (lco b)).
  { induction (lco a) as [|[v k] l IH]; cbn [fold_right evs fst snd]; [ring|]. rewrite evs_ins, IH. ring. }
  rewrite E. ring.
Qed.
Lemma lev_scale x k a : lev x (lscale k a) = k * lev x a.
Proof.
  unfold lev, lscale. cbn [lcst lco]. assert (E : evs x (fold_right (fun p acc => ins (fst p) (k * snd p) acc) [] (lco a)) = k * evs x (lco a)).
  { induction (lco a) as [|[v j] l IH]; cbn [fold_right evs fst snd]; [ring|]. rewrite evs_ins, IH. ring. }
  rewrite E. ring.
Qed.
Lemma lev_neg x a : lev x (lneg a) = kopp (lev x a). Proof. unfold lneg. rewrite lev_scale. ring. Qed.
Lemma lev_sub x a b : lev x (lsub a b) = ksub (lev x a) (lev x b). Proof. unfold lsub. rewrite lev_add, lev_neg. ring. Qed.
Lemma lev_split x v l : lev x l = co v l * x v + lev x (drop v l).
Proof.
  unfold lev, co, drop. cbn [lcst lco]. assert (E : evs x (lco l) = cof v (lco l) * x v + evs x (filter (fun p => negb (var_eqb (fst p) v)) (lco l))).
  { induction (lco l) as [|[u k] s IH]; cbn [evs cof filter fst]; [ring|]. destruct (var_eqb_spec u v) as [->|]; cbn [negb evs]; rewrite IH; ring. }
  rewrite E. ring.
Qed.
Lemma lev_ext x y l : (forall v, In v (keys (lco l)) -> x v = y v) -> lev x l = lev y l.
Proof.
  unfold lev. intros H. f_equal. induction (lco l) as [|[v k] s IH]; [reflexivity|]. cbn [evs]. rewrite (H v) by (left; reflexivity). f_equal. apply IH. intros u Hu. apply H. right. exact Hu.
Qed.
Lemma keys_ins u v k l : In u (keys (ins v k l)) -> u = v \/ In u (keys l).
Proof.
  induction l as [|[w j] l IH]; cbn [ins].
  - destruct (keqb k k0); [intros []|]. intros [<-|[]]. auto.
  - destruct (var_eqb_spec w v) as [->|].
    + destruct (keqb (j + k) k0); cbn; [auto|]. intros [<-|H]; auto.
    + intros [<-|H]; [right; left; reflexivity|]. apply IH in H as [->|H]; [auto|right; right; exact H].
Qed.
Lemma keys_const u k : ~ In u (keys (lco (lconst k))). Proof. intros []. Qed.
Lemma keys_var u v : In u (keys (lco (lvar v))) -> u = v. Proof. intros H. apply keys_ins in H as [->|[]]. reflexivity. Qed.
Lemma keys_add u a b : In u (keys (lco (ladd a b))) -> In u (keys (lco a)) \/ In u (keys (lco b)).
Proof.
  unfold ladd. cbn [lco]. induction (lco a) as [|[v k] l IH]; cbn [fold_right fst snd]; [auto|]. intros H. apply keys_ins in H as [->|H]; [left; left; reflexivity|].
  destruct (IH H) as [X|X]; [left; right; exact X|auto].
Qed.
Lemma keys_scale u k a : In u (keys (lco (lscale k a))) -> In u (keys (lco a)).
Proof.
  unfold lscale. cbn [lco]. induction (lco a) as [|[v j] l IH]; cbn [fold_right fst snd]; [auto|]. intros H. apply keys_ins in H as [->|H]; [left; reflexivity|]. right. apply IH, H.
Qed.
Lemma keys_neg u a : In u (keys (lco (lneg a))) -> In u (keys (lco a)). Proof. apply keys_scale. Qed.
Lemma keys_sub u a b : In u (keys (lco (lsub a b))) -> In u (keys (lco a)) \/ In u (keys (lco b)).
Proof. intros H. apply keys_add in H as [H|H]; [auto|]. apply keys_neg in H. auto. Qed.
Lemma keys_drop u v l : In u (keys (lco (drop v l))) -> In u (keys (lco l)) /\ u <> v.
Proof.
  unfold drop, keys. cbn [lco]. intros H. apply in_map_iff in H as [[w k] [<- H]]. apply filter_In in H as [H1 H2]. cbn [fst] in *. split; [apply (in_map fst) in H1; exact H1|].
  intros ->. rewrite var_eqb_refl in H2. discriminate.
Qed.
Lemma has_false v l : has v l = false -> ~ In v (keys (lco l)).
Proof. unfold has. apply inb_false. Qed.

(** ** Terms *)
Variable leaf : sort.
Variable inj : K -> value.
Variable proj : value -> option K.
Hypothesis inj_sort : forall k, sort_of (inj k) = leaf.
Hypothesis proj_inj : forall c k, proj c = Some k -> c = inj k.
Hypothesis inj_add : forall a b, vadd (inj a) (inj b) = inj (a + b).
Hypothesis inj_mul : forall a b, vmul (inj a) (inj b) = inj (a * b).
Hypothesis inj_all : forall c, sort_of c = leaf -> exists k, c = inj k.
Variable val : value -> K.
Hypothesis val_inj : forall k, val (inj k) = k.

Definition lmul (a b : lin K) : option (lin K) :=
  match lco a, lco b with
  | [], _ => Some (lscale (lcst a) b)
  | _, [] => Some (lscale (lcst b) a)
  | _, _ => None
  end.
Fixpoint parse (t : term) : option (lin K) :=
  match t with
  | Var v => if sort_eqb (vsort v) leaf then Some (lvar v) else None
  | Const c => option_map lconst (proj c)
  | App FPlus (t0 :: ts) =>
    fold_left (fun acc t => match acc, parse t with Some a, Some b => Some (ladd a b) | _, _ => None end) ts (parse t0)
  | App FTimes (t0 :: ts) =>
    fold_left (fun acc t => match acc, parse t with Some a, Some b => lmul a b | _, _ => None end) ts (parse t0)
  | App _ _ => None
  end.
Definition xval (r : valuation) (v : var) : K := val (coerce leaf (r v)).
Definition sum_term (l : list (var * K)) : term :=
  match l with [] => Const (inj k0) | _ => mkPlus (map (fun p => mkTimes [Const (inj (snd p)); Var (fst p)]) l) end.
Definition all_leaf (l : lin K) : Prop := forall v, In v (keys (lco l)) -> vsort v = leaf.

Lemma lmul_ok a b c x : lmul a b = Some c -> lev x c = lev x a * lev x b.
Proof.
  unfold lmul. destruct (lco a) as [|p l] eqn:Ea.
  - intros E. injection E as <-. rewrite lev_scale. unfold lev at 2. rewrite Ea. cbn [evs]. ring.
  - destruct (lco b) as [|q l'] eqn:Eb; [|discriminate]. intros E. injection E as <-. rewrite lev_scale. unfold lev at 3. rewrite Eb. cbn [evs]. ring.
Qed.
Lemma lmul_keys a b c u : lmul a b = Some c -> In u (keys (lco c)) -> In u (keys (lco a)) \/ In u (keys (lco b)).
Proof.
  unfold lmul. destruct (lco a) as [|p l] eqn:Ea.
  - intros E. injection E as <-. intros H. apply keys_scale in H. auto.
  - destruct (lco b) as [|q l'] eqn:Eb; [|discriminate]. intros E. injection E as <-. intros H. apply keys_scale in H. rewrite Ea in H. auto.
Qed.
Lemma coerce_leaf r v : vsort v = leaf -> coerce (vsort v) (r v) = inj (xval r v).
Proof.
  intros E. rewrite E. unfold xval. destruct (inj_all (coerce leaf (r v)) (coerce_sort leaf (r v))) as [k Ek]. rewrite Ek, val_inj. reflexivity.
Qed.
Definition parse_good (t : term) (l : lin K) : Prop := (forall r, eval r t = inj (lev (xval r) l)) /\ (forall v, In v (keys (lco l)) -> In v (vars t)) /\ all_leaf l.
Lemma parse_ok t : forall l, parse t = Some l -> parse_good t l.
Proof.
  induction t as [v|c|f ts IH] using term_ind'; intros l E; cbn [parse] in E.
  - destruct (sort_eqb_spec (vsort v) leaf) as [Ev|]; [|discriminate]. injection E as <-. split; [|split].
    + intros r. cbn [eval]. rewrite lev_var. apply coerce_leaf, Ev.
    + intros u Hu. apply keys_var in Hu. left. auto.
    + intros u Hu. apply keys_var in Hu. congruence.
  - destruct (proj c) as [k|] eqn:Ek; [|discriminate]. injection E as <-. apply proj_inj in Ek. subst c. split; [|split]; [|intros u []|intros u []].
    intros r. cbn [eval]. rewrite lev_const. reflexivity.
  - assert (G : forall (op : lin K -> lin K -> option (lin K)) (kop : K -> K -> K) (vop : value -> value -> value),
        (forall a b c, op a b = Some c -> (forall x, lev x c = kop (lev x a) (lev x b)) /\ (forall u, In u (keys (lco c)) -> In u (keys (lco a)) \/ In u (keys (lco b)))) ->
        (forall a b, vop (inj a) (inj b) = inj (kop a b)) ->
        forall ts, Forall (fun t => forall l, parse t = Some l -> parse_good t l) ts ->
        forall (acc : option (lin K)) (us : list var), (forall a, acc = Some a -> (forall v, In v (keys (lco a)) -> In v us) /\ all_leaf a) -> forall l,
        fold_left (fun acc t => match acc, parse t with Some a, Some b => op a b | _, _ => None end) ts acc = Some l ->
        exists a, acc = Some a /\ (forall r, fold_left vop (map (eval r) ts) (inj (lev (xval r) a)) = inj (lev (xval r) l)) /\
          (forall v, In v (keys (lco l)) -> In v (us ++ vars (App f ts))) /\ all_leaf l).
    { clear. intros op kop vop Hop Hv ts F. induction F as [|t ts Ht F IH]; intros acc us Ha l E; cbn [fold_left] in E.
      - subst acc. exists l. destruct (Ha l eq_refl) as [H1 H2]. split; [reflexivity|]. split; [reflexivity|]. split; [|exact H2]. intros v H. apply in_app_iff. left. apply H1, H.
      - destruct acc as [a|]; [|exfalso; clear -E; induction ts as [|t' ts IH]; cbn [fold_left] in E; [discriminate|apply IH, E]].
        destruct (parse t) as [b|] eqn:Eb; [|exfalso; clear -E; induction ts as [|t' ts IH]; cbn [fold_left] in E; [discriminate|apply IH, E]].
        destruct (Ht b eq_refl) as [B1 [B2 B3]]. destruct (Ha a eq_refl) as [A1 A2].
        destruct (IH (op a b) (us ++ vars t)) with (l := l) as [c [Ec [C1 [C2 C3]]]]; [|exact E|].
        + intros c Ec. destruct (Hop a b c Ec) as [_ Hk]. split.
          * intros v H. apply in_app_iff. destruct (Hk v H); auto.
          * intros v H. destruct (Hk v H); auto.
        + destruct (Hop a b c Ec) as [Hl _]. exists a. split; [reflexivity|]. split; [|split; [|exact C3]].
          * intros r. cbn [map fold_left]. rewrite B1, Hv, <- Hl. apply C1.
          * intros v H. apply C2 in H. cbn [vars] in *. rewrite !in_app_iff in *. cbn [map concat] in *. rewrite ?in_app_iff in *. tauto. }
    destruct f; try discriminate; (destruct ts as [|t ts]; [discriminate|]); apply Forall_cons_iff in IH as [IH0 IH].
    + destruct (G (fun a b => Some (ladd a b)) kadd vadd) with (ts := ts) (acc := parse t) (us := vars t) (l := l) as [a [Ea [C1 [C2 C3]]]]; auto.
      * intros a b c Ec. injection Ec as <-. split; [intros x; apply lev_add|intros u; apply keys_add].
      * intros a Ea. destruct (IH0 a Ea) as [_ H]. exact H.
      * split; [|split; [|exact C3]].
        -- intros r. cbn [eval map interp]. unfold fold1. destruct (IH0 a Ea) as [-> _]. apply C1.
        -- intros v H. apply C2 in H. cbn [vars map concat] in *. exact H.
    + destruct (G lmul kmul vmul) with (ts := ts) (acc := parse t) (us := vars t) (l := l) as [a [Ea [C1 [C2 C3]]]]; auto.
      * intros a b c Ec. split; [intros x; apply lmul_ok, Ec|intros u; apply lmul_keys, Ec].
      * intros a Ea. destruct (IH0 a Ea) as [_ H]. exact H.
      * split; [|split; [|exact C3]].
        -- intros r. cbn [eval map interp]. unfold fold1. destruct (IH0 a Ea) as [-> _]. apply C1.
        -- intros v H. apply C2 in H. cbn [vars map concat] in *. exact H.
Qed.
Lemma eval_sum r l : (forall v, In v (keys l) -> vsort v = leaf) -> eval r (sum_term l) = inj (evs (xval r) l).
Proof.
  intros H. unfold sum_term. destruct l as [|[v k] l]; [reflexivity|]. unfold mkPlus. cbn [eval map interp fst snd]. unfold fold1.
  assert (T : forall v k, vsort v = leaf -> eval r (mkTimes [Const (inj k); Var v]) = inj (k * xval r v)).
  { intros u j Hu. cbn [mkTimes eval map interp fold1 fold_left]. rewrite coerce_leaf by exact Hu. apply inj_mul. }
  rewrite T by (apply H; left; reflexivity). cbn [evs].
  assert (F : forall l a, (forall v, In v (keys l) -> vsort v = leaf) -> fold_left vadd (map (eval r) (map (fun p => mkTimes [Const (inj (snd p)); Var (fst p)]) l)) (inj a) = inj (a + evs (xval r) l)).
  { clear -inj_add T Kr. induction l as [|[u j] l IH]; intros a H; cbn [map fold_left evs fst snd]; [f_equal; ring|].
    rewrite T by (apply H; left; reflexivity). rewrite inj_add, IH by (intros w Hw; apply H; right; exact Hw). f_equal. ring. }
  rewrite F; [reflexivity|]. intros w Hw. apply H. right. exact Hw.
Qed.
Lemma vars_sum v l : In v (vars (sum_term l)) -> In v (keys l).
Proof.
  unfold sum_term. destruct l as [|p l]; [intros []|]. unfold mkPlus. intros H. apply in_vars_app in H as [t [Ht Hv]]. apply in_map_iff in Ht as [q [<- Hq]].
  cbn in Hv. destruct Hv as [<-|[]]. apply in_map, Hq.
Qed.
End Lin.
