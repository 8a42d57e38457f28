(** * TPA: the query over one hierarchy of levels *)
From Verif Require Import Syntax Solver TransSys TSLemmas KTo1Model FormulaModel FormulaProofs2 InlineModel InlineProofs NontermProofs ListLemmas TrlProofs TrlRun TpaModel TpaProofs.
Open Scope list_scope.
Open Scope nat_scope.

(** [n] steps of a relation. *)
Inductive npow (R : state -> state -> Prop) : nat -> state -> state -> Prop :=
| npow_O s : npow R 0 s s
| npow_S n s s' s'' : R s s' -> npow R n s' s'' -> npow R (S n) s s''.
Lemma npow_app R n m s s' s'' : npow R n s s' -> npow R m s' s'' -> npow R (n + m) s s''.
Proof. intros H K. induction H as [|n s t u H1 H2 IH]; cbn; [exact K|econstructor; [exact H1|apply IH, K]]. Qed.
Lemma npow_split R n m s s'' : npow R (n + m) s s'' -> exists s', npow R n s s' /\ npow R m s' s''.
Proof.
  revert s. induction n as [|n IH]; cbn; intros s H; [exists s; split; [constructor|exact H]|].
  inversion H as [|? ? s' ? H1 H2]; subst. destruct (IH _ H2) as [t [T1 T2]]. exists t. split; [econstructor; eauto|exact T2].
Qed.
Lemma npow_1 R s s' : npow R 1 s s' <-> R s s'.
Proof.
  split.
  - intros H. inversion H as [|? ? t ? H1 H2]; subst. inversion H2; subst. exact H1.
  - intros H. econstructor; [exact H|constructor].
Qed.
Lemma npow_Steps ts n s s' : npow (Step ts) n s s' <-> Steps ts n s s'.
Proof. split; intros H; induction H; econstructor; eauto. Qed.
Lemma pow2_S p : Nat.pow 2 (S p) = Nat.pow 2 p + Nat.pow 2 p.
Proof. cbn. lia. Qed.
Lemma pow2_pos p : 1 <= Nat.pow 2 p.
Proof. induction p as [|p IH]; cbn; lia. Qed.

Lemma conjoin_holds r w t : holds r (conjoin w t) <-> holds r t /\ holds r w.
Proof.
  unfold conjoin. rewrite holds_and, Forall_app. unfold conjuncts. destruct (top_juncts_ok Conj t) as [o [-> E]].
  cbn [mkJunction] in E. specialize (E r). rewrite holds_and in E. rewrite E. split.
  - intros [A B]. split; [exact A|]. inversion B; auto.
  - intros [A B]. auto.
Qed.
Lemma conjuncts_vars t a v : In a (conjuncts t) -> In v (vars a) -> In v (vars t).
Proof. unfold conjuncts. destruct (top_juncts Conj t) as [o|] eqn:E; [|intros []]. intros H1 H2. eapply top_juncts_vars; eauto. Qed.
Lemma conjoin_vars w t v : In v (vars (conjoin w t)) -> In v (vars t) \/ In v (vars w).
Proof.
  unfold conjoin. intros H. apply in_vars_app in H as [a [Ha Hv]]. apply in_app_iff in Ha as [Ha|[<-|[]]]; [left|right; exact Hv].
  eapply conjuncts_vars; eauto.
Qed.
Lemma replace_at_same {A} i (x y : A) l : nth_error l i = Some y -> nth_error (replace_at i x l) i = Some x.
Proof.
  intros H. assert (L : i < length l) by (apply nth_error_Some; congruence).
  unfold replace_at. rewrite nth_error_app2 by (rewrite firstn_length; lia). rewrite firstn_length. replace (i - Nat.min i (length l)) with 0 by lia. reflexivity.
Qed.
Lemma nth_error_skipn' {A} (l : list A) i j : nth_error (skipn i l) j = nth_error l (i + j).
Proof. revert l. induction i as [|i IH]; intros l; [reflexivity|]. destruct l as [|a l]; cbn; [destruct j; reflexivity|apply IH]. Qed.
Lemma replace_at_other {A} i j (x y : A) l : nth_error l i = Some y -> i <> j -> nth_error (replace_at i x l) j = nth_error l j.
Proof.
  intros H N. assert (L : i < length l) by (apply nth_error_Some; congruence). unfold replace_at.
  destruct (Nat.lt_ge_cases j i) as [K|K].
  - rewrite nth_error_app1 by (rewrite firstn_length; lia). apply nth_error_firstn_lt, K.
  - rewrite nth_error_app2 by (rewrite firstn_length; lia). rewrite firstn_length, Nat.min_l by lia.
    destruct (j - i) as [|k] eqn:E; [lia|]. cbn [nth_error]. rewrite nth_error_skipn'. f_equal. lia.
Qed.

Lemma some_inj {A} (a b : A) : Some a = Some b -> a = b.
Proof. congruence. Qed.

Section Q.
Variable check : check_fn.
Hypothesis Hc : check_ok check.
Variable itp : itp_fn.
Hypothesis Hi : itp_ok itp.
Variable elim : mbp_fn.
Hypothesis He : mbp_ok elim.
Variable isimp : term -> term.
Hypothesis Hs : simp_ok isimp.
Variable ts : tsys.
Hypothesis wf : ts_wf ts = true.
Notation sv := (svars ts).
Notation rel := (rel ts).
Notation pure := (pure ts).
Notation transf := (transf ts).

Lemma rel_and a b s s' : rel (mkAnd [a; b]) s s' -> rel a s s' /\ rel b s s'.
Proof. intros [r [R0 [R1 R2]]]. apply holds_and2 in R2 as [A B]. split; exists r; auto. Qed.
Lemma rel_and_pure a b s s' : pure b -> rel a s s' -> rel b s s' -> rel (mkAnd [a; b]) s s'.
Proof.
  intros P [r [R0 [R1 R2]]] H. exists r. repeat split; auto. apply holds_and2. split; [exact R2|]. eapply pure_hold0; eauto.
Qed.
Lemma rel_conjoin w t s s' : rel (conjoin w t) s s' -> rel t s s' /\ rel w s s'.
Proof. intros [r [R0 [R1 R2]]]. apply conjoin_holds in R2 as [A B]. split; exists r; auto. Qed.
Lemma rel_conjoin_pure w t s s' : pure w -> rel t s s' -> rel w s s' -> rel (conjoin w t) s s'.
Proof.
  intros P [r [R0 [R1 R2]]] H. exists r. repeat split; auto. apply conjoin_holds. split; [exact R2|]. eapply pure_hold0; eauto.
Qed.
Lemma conjoin_pure w t : pure w -> pure t -> pure (conjoin w t).
Proof. intros A B v Hv. apply conjoin_vars in Hv as [Hv|Hv]; auto. Qed.
Lemma sf_at f r i s : state_formula ts f -> (forall v, In v sv -> r (shiftv i v) = s v) -> (holds r (shift i f) <-> holds s f).
Proof. intros F A. rewrite holds_shift. apply holds_agree. intros v Hv. apply A, F, Hv. Qed.
Lemma sf_at0 f r s : state_formula ts f -> agree_on sv r s -> (holds r f <-> holds s f).
Proof. intros F A. apply holds_agree. intros v Hv. apply A, F, Hv. Qed.

(** ** Sets of states: the refined target and the midpoint *)
Lemma refine_ok start tw goal m t : state_formula ts start -> state_formula ts goal ->
  refine elim ts start tw (shift 2 goal) m = Some t -> holds m (mkAnd [start; tw; shift 2 goal]) ->
  state_formula ts t /\ (exists s, holds s t) /\
  forall s, holds s t -> holds s goal /\ exists r, holds r start /\ holds r tw /\ (forall v, In v sv -> r (shiftv 2 v) = s v).
Proof.
  intros Fs Fg E Hm. unfold refine in E. destruct (elim _ _ m) as [g|] eqn:Eg; [|discriminate]. unfold option_map in E. apply some_inj in E. subst t.
  pose proof (He _ _ _ _ Eg Hm) as M. destruct M as [M1 M2 M3]. split; [|split].
  - change (-2)%Z with (- (2))%Z. apply unshift_state. intros v Hv. apply M1 in Hv. unfold svat in Hv. apply in_map_iff in Hv as [w [<- Hw]]. eauto.
  - exists (at_time 2 m). apply holds_shift. refine (proj1 (holds_agree m _ _ _) (M2 Hm)). intros v Hv. unfold at_time. rewrite shiftv_shiftv.
    replace (2 + -2)%Z with 0%Z by lia. rewrite shiftv_0. reflexivity.
  - intros s H. apply holds_shift in H. destruct (M3 _ H) as [r [A B]]. apply holds_and3 in B as [B1 [B2 B3]].
    assert (A2 : forall v, In v sv -> r (shiftv 2 v) = s v).
    { intros v Hv. rewrite <- (A (shiftv 2 v)) by (apply in_map, Hv). rewrite shiftv_shiftv. replace (-2 + 2)%Z with 0%Z by lia. rewrite shiftv_0. reflexivity. }
    split; [|exists r; auto]. apply (sf_at goal r 2 s Fg A2), B3.
Qed.

Lemma midpoint_state start first second goal m t : state_formula ts start -> state_formula ts goal -> pure first -> pure second ->
  midpoint elim ts start first (shift 1 second) (shift 2 goal) m = Some t ->
  holds m start -> holds m first -> holds m (shift 1 second) -> holds m (shift 2 goal) -> state_formula ts t.
Proof.
  intros Fs Fg P1 P2 E H1 H2 H3 H4. unfold midpoint in E.
  destruct (eliminate_vars elim _ (svat ts 0) m) as [a|] eqn:Ea; [|discriminate].
  destruct (eliminate_vars elim _ (svat ts 2) m) as [b|] eqn:Eb; [|discriminate].
  apply some_inj in E. subst t. unfold eliminate_vars in Ea, Eb.
  destruct (He _ _ _ _ Ea (proj2 (holds_and2 _ _ _) (conj H1 H2))) as [A _ _]. destruct (He _ _ _ _ Eb (proj2 (holds_and2 _ _ _) (conj H4 H3))) as [B _ _].
  change (-1)%Z with (- (1))%Z. apply unshift_state. intros v Hv. apply in_vars_app in Hv as [x [[<-|[<-|[]]] Hv]].
  - apply A in Hv. apply filter_In in Hv as [Hv N]. apply negb_true_iff, inb_false in N.
    apply in_vars_app in Hv as [x [[<-|[<-|[]]] Hv]].
    + exfalso. apply N. unfold svat. rewrite (map_ext _ (fun v => v)), map_id by apply shiftv_0. apply Fs, Hv.
    + destruct (P1 v Hv) as [K|[w [K ->]]]; [|eauto]. exfalso. apply N. unfold svat. rewrite (map_ext _ (fun v => v)), map_id by apply shiftv_0. exact K.
  - apply B in Hv. apply filter_In in Hv as [Hv N]. apply negb_true_iff, inb_false in N.
    apply in_vars_app in Hv as [x [[<-|[<-|[]]] Hv]].
    + exfalso. apply N. apply (vars_shift_state ts) in Hv; [|exact Fg]. destruct Hv as [w [Hw ->]]. apply in_map, Hw.
    + rewrite vars_shift in Hv. apply in_map_iff in Hv as [u [<- Hu]]. destruct (P2 u Hu) as [K|[w [K ->]]]; [eauto|].
      exfalso. apply N. rewrite shiftv_shiftv. apply in_map, K.
Qed.

(** ** Levels *)
Variable zero : term.
Hypothesis Hz : transf zero.
Notation R := (npow (rel zero)).

Definition level_ok (p : nat) (lv : level) : Prop :=
  (p = 0 -> lv_tr lv = zero) /\ (1 <= p -> pure (lv_tr lv)) /\
  (forall s s', R (Nat.pow 2 p) s s' -> rel (lv_tr lv) s s') /\
  (forall r, Forall (holds r) (lv_parts lv) <-> holds r (lv_tr lv) /\ holds r (shift 1 (lv_tr lv))).
Definition levels_ok (l : list level) : Prop := forall p lv, nth_error l p = Some lv -> level_ok p lv.
Lemma level_transf p lv : level_ok p lv -> transf (lv_tr lv).
Proof. intros [H0 [H1 _]]. destruct p as [|p]; [rewrite (H0 eq_refl); exact Hz|apply pure_transf, H1; lia]. Qed.

(** [stronger l l']: the levels of [l'] are the levels of [l], strengthened. *)
Definition stronger (l l' : list level) : Prop :=
  forall p lv, nth_error l p = Some lv -> exists lv', nth_error l' p = Some lv' /\ forall s s', rel (lv_tr lv') s s' -> rel (lv_tr lv) s s'.
Lemma stronger_refl l : stronger l l.
Proof. intros p lv H. exists lv. auto. Qed.
Lemma stronger_trans a b c : stronger a b -> stronger b c -> stronger a c.
Proof. intros H K p lv E. destruct (H p lv E) as [lv1 [E1 H1]]. destruct (K p lv1 E1) as [lv2 [E2 H2]]. exists lv2. auto. Qed.

Lemma two_holds r t : holds r (two t) <-> holds r t /\ holds r (shift 1 t).
Proof. unfold two. apply holds_and2. Qed.

Lemma store_ok l p tr l' : levels_ok l -> 1 <= p -> (forall s s', R (Nat.pow 2 p) s s' -> rel tr s s') ->
  store_level ts l p tr = Some l' ->
  levels_ok l' /\ stronger l l' /\ exists lv, nth_error l' p = Some lv /\ forall s s', rel (lv_tr lv) s s' -> rel tr s s'.
Proof.
  intros L Hp O E. unfold store_level in E. destruct (Nat.eqb_spec p 0) as [?|_]; [lia|]. cbn [negb andb] in E.
  destruct (pure_trans ts tr) eqn:Ep; [|discriminate]. cbn [negb] in E. apply pure_trans_spec in Ep.
  destruct (nth_error l p) as [lv|] eqn:En.
  - injection E as <-. pose proof (L p lv En) as [L0 [L1 [L2 L3]]].
    assert (K : level_ok p (mkLevel (conjoin tr (lv_tr lv)) (lv_parts lv ++ [two tr]))).
    { split; [intros; lia|]. cbn [lv_tr lv_parts]. split; [intros _; apply conjoin_pure; auto|]. split.
      - intros s s' H. apply rel_conjoin_pure; auto.
      - intros r. rewrite Forall_app, L3, conjoin_holds, !holds_shift, conjoin_holds, <- !holds_shift. split.
        + intros [A B]. inversion B as [|? ? B1 _]; subst. apply two_holds in B1. tauto.
        + intros [A B]. split; [tauto|]. constructor; [|constructor]. apply two_holds. tauto. }
    split; [|split].
    + intros q lvq Hq. destruct (Nat.eq_dec p q) as [<-|N].
      * rewrite (replace_at_same p _ _ _ En) in Hq. apply some_inj in Hq. subst lvq. exact K.
      * rewrite (replace_at_other p q _ _ _ En N) in Hq. apply L, Hq.
    + intros q lvq Hq. destruct (Nat.eq_dec p q) as [<-|N].
      * rewrite (replace_at_same p _ _ _ En). eexists. split; [reflexivity|]. cbn [lv_tr]. intros s s' H.
        rewrite En in Hq. apply some_inj in Hq. subst lvq. apply rel_conjoin in H. tauto.
      * rewrite (replace_at_other p q _ _ _ En N). exists lvq. auto.
    + rewrite (replace_at_same p _ _ _ En). eexists. split; [reflexivity|]. cbn [lv_tr]. intros s s' H. apply rel_conjoin in H. tauto.
  - destruct (Nat.eqb_spec (length l) p) as [El|]; [|discriminate]. injection E as <-.
    assert (K : level_ok p (mkLevel tr [two tr])).
    { split; [intros; lia|]. cbn [lv_tr lv_parts]. split; [intros _; exact Ep|]. split; [exact O|].
      intros r. rewrite <- two_holds. split; [intros H; inversion H; auto|auto]. }
    assert (Ea : nth_error (l ++ [mkLevel tr [two tr]]) p = Some (mkLevel tr [two tr])).
    { rewrite nth_error_app2 by lia. replace (p - length l) with 0 by lia. reflexivity. }
    split; [|split].
    + intros q lvq Hq. destruct (Nat.lt_ge_cases q (length l)) as [N|N].
      * rewrite nth_error_app1 in Hq by exact N. apply L, Hq.
      * assert (q < length (l ++ [mkLevel tr [two tr]])) by (apply nth_error_Some; congruence). rewrite app_length in H. cbn in H.
        assert (q = p) by lia. subst q. rewrite Ea in Hq. apply some_inj in Hq. subst lvq. exact K.
    + intros q lvq Hq. exists lvq. split; [|auto]. rewrite nth_error_app1; [exact Hq|]. apply nth_error_Some. congruence.
    + eexists. split; [exact Ea|]. auto.
Qed.

(** ** The query *)
Variable base : valuation -> nat.
Variable good : nat -> nat -> Prop.
Hypothesis good0 : forall m, good 0 (base m).
Hypothesis goodS : forall p a b, good p a -> good p b -> good (S p) (b + a).

Definition reach_ok (p : nat) (from to t : term) (n : nat) : Prop :=
  state_formula ts t /\ (exists s, holds s t) /\ good p n /\
  forall s, holds s t -> holds s to /\ exists s0, holds s0 from /\ R (Nat.pow 2 (S p)) s0 s.
Definition cache_ok (c : list (nat * term * term * (term * nat))) : Prop :=
  forall p from to t n, In (p, from, to, (t, n)) c -> reach_ok p from to t n.
Definition st_ok (st : qst) : Prop := levels_ok (q_lv st) /\ cache_ok (q_cache st).

Lemma find_cache_ok c p from to t n : cache_ok c -> find_cache c p from to = Some (t, n) -> reach_ok p from to t n.
Proof.
  unfold find_cache. intros C E. destruct (find _ c) as [[[[p' f'] t'] r]|] eqn:F; [|discriminate]. cbn in E. injection E as ->.
  apply find_some in F as [F1 F2]. cbn in F2. rewrite !andb_true_iff in F2. destruct F2 as [[F2 F3] F4].
  apply Nat.eqb_eq in F2. destruct (term_eqb_spec f' from); [|discriminate]. destruct (term_eqb_spec t' to); [|discriminate].
  subst. apply C, F1.
Qed.

Definition post (p : nat) (from to : term) (st : qst) (r : qres) (st' : qst) : Prop :=
  st_ok st' /\ stronger (q_lv st) (q_lv st') /\
  match r with
  | Reach t n => reach_ok p from to t n
  | Unreach => exists lv, nth_error (q_lv st') (S p) = Some lv /\ forall s s', holds s from -> holds s' to -> ~ rel (lv_tr lv) s s'
  end.

Lemma obind_ret {A B} (x : out A) (f : A -> out B) b : obind x f = Ret b -> exists a, x = Ret a /\ f a = Ret b.
Proof. destruct x; cbn; try discriminate. eauto. Qed.

Lemma reach_compose p from mid to t1 n1 t2 n2 :
  reach_ok p from mid t1 n1 -> reach_ok p t1 to t2 n2 -> reach_ok (S p) from to t2 (n2 + n1).
Proof.
  intros [A1 [A2 [A3 A4]]] [B1 [B2 [B3 B4]]]. split; [exact B1|]. split; [exact B2|]. split; [apply goodS; auto|].
  intros s H. destruct (B4 s H) as [C1 [s1 [C2 C3]]]. split; [exact C1|]. destruct (A4 s1 C2) as [_ [s0 [D1 D2]]]. exists s0. split; [exact D1|].
  rewrite (pow2_S (S p)). eapply npow_app; eauto.
Qed.

Lemma itp_02 fs from to J : state_formula ts from -> state_formula ts to -> itp fs [mkAnd [from; shift 2 to]] = Some J -> pure02 ts (isimp J).
Proof.
  intros F T E v Hv. apply (proj2 (Hs J)) in Hv. destruct (Hi _ _ _ E) as [_ _ V]. apply V in Hv as [_ Hv].
  apply in_lvars in Hv as [x [[<-|[]] Hv]]. apply in_vars_app in Hv as [x [[<-|[<-|[]]] Hv]].
  - left. apply F, Hv.
  - right. apply (vars_shift_state ts) in Hv; [|exact T]. exact Hv.
Qed.

Lemma q_loop_ok fuel : forall p from to st r st', st_ok st -> state_formula ts from -> state_formula ts to ->
  q_loop check itp elim isimp ts base fuel p from to st = Ret (r, st') -> post p from to st r st'.
Proof.
  induction fuel as [|fuel IH]; intros p from to st r st' St Ff Ft E; [discriminate|].
  assert (IHq : forall p from to st r st', st_ok st -> state_formula ts from -> state_formula ts to ->
    match find_cache (q_cache st) p from to with Some (t, n) => Ret (Reach t n, st) | None => q_loop check itp elim isimp ts base fuel p from to st end = Ret (r, st') ->
    post p from to st r st').
  { clear - IH. intros p from to st r st' St Ff Ft E. destruct (find_cache _ p from to) as [[t n]|] eqn:Fc; [|eapply IH; eauto].
    injection E as <- <-. split; [exact St|]. split; [apply stronger_refl|]. eapply find_cache_ok; [apply St|exact Fc]. }
  cbn [q_loop] in E. destruct (nth_error (q_lv st) p) as [lv|] eqn:En; [|discriminate].
  destruct St as [Sl Sc]. pose proof (Sl p lv En) as Lo. destruct Lo as [L0 [L1 [L2 L3]]].
  pose proof (level_transf p lv (Sl p lv En)) as Tf.
  destruct (check _) as [m| |] eqn:Ec; [| |discriminate].
  - apply (check_sat _ Hc) in Ec. apply Forall_app in Ec as [Ea Eb]. inversion Eb as [|? ? Eb1 _]; subst.
    apply L3 in Ea as [Ea1 Ea2]. apply holds_and2 in Eb1 as [Eb1 Eb2].
    destruct p as [|p].
    + destruct (refine _ _ _ _ _ _) as [t|] eqn:Er; [|discriminate]. injection E as <- <-.
      destruct (refine_ok from (two (lv_tr lv)) to m t Ff Ft Er) as [Q1 [Q2 Q3]]; [apply holds_and3; rewrite two_holds; auto|].
      assert (K : reach_ok 0 from to t (base m)).
      { split; [exact Q1|]. split; [exact Q2|]. split; [apply good0|]. intros s H. destruct (Q3 s H) as [Q4 [r [Q5 [Q6 Q7]]]]. split; [exact Q4|].
        apply two_holds in Q6 as [Q6 Q8]. rewrite (L0 eq_refl) in Q6, Q8. exists (at_time 0 r). split.
        { refine (proj1 (holds_agree r _ _ _) Q5). intros v _. unfold at_time. rewrite shiftv_0. reflexivity. }
        change (Nat.pow 2 1) with (1 + 1). apply (npow_app _ 1 1 _ (at_time 1 r)).
        - apply npow_1. rewrite <- (shift_0 zero) in Q6. exact (rel_shift ts r 0 zero Q6).
        - apply npow_1. apply (rel_shift ts r 1 zero) in Q8. eapply rel_agree; [| |exact Q8]; intros v Hv; [reflexivity|apply Q7, Hv]. }
      split; [|split; [apply stronger_refl|exact K]]. split; [exact Sl|]. cbn [q_cache]. intros p' f' t' x n [Ex|Hx]; [|apply Sc, Hx].
      injection Ex as <- <- <- <- <-. exact K.
    + destruct (midpoint _ _ _ _ _ _ _) as [mid|] eqn:Em; [|discriminate].
      assert (Fm : state_formula ts mid) by (eapply midpoint_state; [exact Ff|exact Ft|apply L1; lia|apply L1; lia|exact Em|auto..]).
      apply obind_ret in E as [[r1 st1] [E1 E]]. pose proof (IHq _ _ _ _ _ _ (conj Sl Sc) Ff Fm E1) as [P1 [P2 P3]].
      destruct r1 as [t1 n1|].
      * apply obind_ret in E as [[r2 st2] [E2 E]]. assert (F1 : state_formula ts t1) by apply P3.
        pose proof (IHq _ _ _ _ _ _ P1 F1 Ft E2) as [P4 [P5 P6]]. destruct r2 as [t2 n2|].
        -- injection E as <- <-. pose proof (reach_compose p from mid to t1 n1 t2 n2 P3 P6) as K.
           split; [|split; [eapply stronger_trans; eauto|exact K]]. split; [apply P4|]. cbn [q_cache]. intros p' f' t' x n [Ex|Hx]; [|apply P4, Hx].
           injection Ex as <- <- <- <- <-. exact K.
        -- destruct (IH _ _ _ _ _ _ P4 Ff Ft E) as [A [B C]]. split; [exact A|]. split; [|exact C].
           eapply stronger_trans; [exact P2|]. eapply stronger_trans; [exact P5|exact B].
      * destruct (IH _ _ _ _ _ _ P1 Ff Ft E) as [A [B C]]. split; [exact A|]. split; [|exact C]. eapply stronger_trans; [exact P2|exact B].
  - apply (check_unsat _ Hc) in Ec. destruct (itp _ _) as [J|] eqn:Ei; [|discriminate].
    pose proof (itp_02 _ _ _ _ Ff Ft Ei) as P0. destruct (Hi _ _ _ Ei) as [JA JB _].
    destruct (store_level _ _ _ _) as [l|] eqn:Es; [|discriminate]. injection E as <- <-.
    assert (O : forall s s', R (Nat.pow 2 (S p)) s s' -> rel (clean ts (isimp J)) s s').
    { intros s s2 H. rewrite pow2_S in H. apply npow_split in H as [s1 [H1 H2]]. apply L2 in H1. apply L2 in H2.
      destruct (glue_rels ts wf (fun i => if Z.leb i 0 then s else if Z.leb i 1 then s1 else s2) [(0%Z, lv_tr lv); (1%Z, lv_tr lv)]) as [r [R0 R1]].
      - repeat constructor; cbn; intuition discriminate.
      - intros i t [K|[K|[]]]; injection K as <- <-; split; auto.
      - assert (Hp : Forall (holds r) (lv_parts lv)).
        { apply L3. split; [rewrite <- (shift_0 (lv_tr lv)); apply (R1 0%Z); cbn; auto|apply (R1 1%Z); cbn; auto]. }
        refine (proj1 (clean_rel ts wf (isimp J) r s s2 P0 _ _) _).
        + intros v Hv. specialize (R0 0%Z v Hv). rewrite shiftv_0 in R0. exact R0.
        + intros v Hv. exact (R0 2%Z v Hv).
        + apply Hs. apply JA, Hp. }
    destruct (store_ok _ _ _ _ Sl (le_n_S _ _ (Nat.le_0_l p)) O Es) as [Q1 [Q2 [lv' [Q3 Q4]]]].
    split; [split; [exact Q1|exact Sc]|]. split; [exact Q2|]. exists lv'. split; [exact Q3|]. intros s s' Hf Ht H. apply Q4 in H.
    destruct (glue_rels ts wf (fun i => if Z.leb i 0 then s else s') [] (NoDup_nil _)) as [r [R0 _]]; [intros ? ? []|].
    refine (JB r _ _).
    + apply Hs. refine (proj2 (clean_rel ts wf (isimp J) r s s' P0 _ _) H).
      * intros v Hv. specialize (R0 0%Z v Hv). rewrite shiftv_0 in R0. exact R0.
      * intros v Hv. exact (R0 2%Z v Hv).
    + constructor; [|constructor]. apply holds_and2. split.
      * apply (sf_at0 from r s Ff); [|exact Hf]. intros v Hv. specialize (R0 0%Z v Hv). rewrite shiftv_0 in R0. exact R0.
      * apply (sf_at to r 2 s' Ft); [|exact Ht]. intros v Hv. exact (R0 2%Z v Hv).
Qed.

Lemma q_query_ok fuel p from to st r st' : st_ok st -> state_formula ts from -> state_formula ts to ->
  q_query check itp elim isimp ts base fuel p from to st = Ret (r, st') -> post p from to st r st'.
Proof.
  intros St Ff Ft E. unfold q_query in E. destruct (find_cache _ p from to) as [[t n]|] eqn:Fc; [|eapply q_loop_ok; eauto].
  injection E as <- <-. split; [exact St|]. split; [apply stronger_refl|]. eapply find_cache_ok; [apply St|exact Fc].
Qed.
End Q.
