(** * TPA: the less-than query of the split version *)
From Verif Require Import Syntax Solver TransSys TSLemmas KTo1Model FormulaModel FormulaProofs2 InlineModel InlineProofs NontermProofs ListLemmas TrlProofs TrlRun TpaModel TpaProofs TpaQuery.
Open Scope list_scope.
Open Scope nat_scope.

Section Less.
Variable check : check_fn.
Hypothesis Hc : check_ok check.
Variable itp itp2 : itp_fn.
Hypothesis Hi : itp_ok itp.
Hypothesis Hi2 : itp_ok itp2.
Variable elim : mbp_fn.
Hypothesis He : mbp_ok elim.
Variable isimp : term -> term.
Hypothesis Hs : simp_ok isimp.
Variable ts : tsys.
Hypothesis wf : ts_wf ts = true.
Notation sv := (svars ts).
Notation rel := (rel ts).
Notation pure := (pure ts).

Definition exact_good (p n : nat) : Prop := n = Nat.pow 2 (S p).
Notation st_ok := (st_ok ts (ttrans ts) exact_good).
Notation R := (npow (rel (ttrans ts))).

Lemma R_steps n s s' : R n s s' <-> Steps ts n s s'.
Proof. exact (npow_Steps ts n s s'). Qed.

Definition lt_ok (p : nat) (t : term) : Prop :=
  (p = 0 -> t = identity ts) /\ pure t /\ forall n s s', n < Nat.pow 2 p -> Steps ts n s s' -> rel t s s'.
Definition lts_ok (l : list term) : Prop := forall p t, nth_error l p = Some t -> lt_ok p t.
Definition lt_stronger (l l' : list term) : Prop :=
  forall p t, nth_error l p = Some t -> exists t', nth_error l' p = Some t' /\ forall s s', rel t' s s' -> rel t s s'.
Lemma lt_stronger_refl l : lt_stronger l l.
Proof. intros p t H. eauto. Qed.
Lemma lt_stronger_trans a b c : lt_stronger a b -> lt_stronger b c -> lt_stronger a c.
Proof. intros H K p t E. destruct (H p t E) as [t1 [E1 H1]]. destruct (K p t1 E1) as [t2 [E2 H2]]. exists t2. auto. Qed.

Lemma store_lt_ok l p tr l' : lts_ok l -> 1 <= p -> pure tr -> (forall n s s', n < Nat.pow 2 p -> Steps ts n s s' -> rel tr s s') ->
  store_lt ts l p tr = Some l' ->
  lts_ok l' /\ lt_stronger l l' /\ (exists t, nth_error l' p = Some t /\ forall s s', rel t s s' -> rel tr s s') /\
  forall q, q <> p -> forall t, nth_error l q = Some t -> nth_error l' q = Some t.
Proof.
  intros L Hp Ep O E. unfold store_lt in E. destruct (Nat.leb 2 p && negb (pure_trans ts tr)); [discriminate|].
  destruct (nth_error l p) as [u|] eqn:En.
  - injection E as <-. pose proof (L p u En) as [L0 [L1 L2]].
    assert (K : lt_ok p (conjoin tr u)).
    { split; [intros; lia|]. split; [apply conjoin_pure; auto|]. intros n s s' H1 H2. apply rel_conjoin_pure; auto; eauto. }
    split; [|split; [|split]].
    + intros q t Hq. destruct (Nat.eq_dec p q) as [<-|N].
      * rewrite (replace_at_same p _ _ _ En) in Hq. apply some_inj in Hq. subst t. exact K.
      * rewrite (replace_at_other p q _ _ _ En N) in Hq. apply L, Hq.
    + intros q t Hq. destruct (Nat.eq_dec p q) as [<-|N].
      * rewrite (replace_at_same p _ _ _ En). eexists. split; [reflexivity|]. intros s s' H.
        rewrite En in Hq. apply some_inj in Hq. subst t. apply rel_conjoin in H. tauto.
      * rewrite (replace_at_other p q _ _ _ En N). exists t. auto.
    + rewrite (replace_at_same p _ _ _ En). eexists. split; [reflexivity|]. intros s s' H. apply rel_conjoin in H. tauto.
    + intros q N t Hq. rewrite (replace_at_other p q _ _ _ En) by auto. exact Hq.
  - destruct (Nat.eqb_spec (length l) p) as [El|]; [|discriminate]. injection E as <-.
    assert (K : lt_ok p tr) by (split; [intros; lia|]; split; auto).
    assert (Ea : nth_error (l ++ [tr]) p = Some tr).
    { rewrite nth_error_app2 by lia. replace (p - length l) with 0 by lia. reflexivity. }
    split; [|split; [|split]].
    + intros q t Hq. destruct (Nat.lt_ge_cases q (length l)) as [N|N].
      * rewrite nth_error_app1 in Hq by exact N. apply L, Hq.
      * assert (q < length (l ++ [tr])) by (apply nth_error_Some; congruence). rewrite app_length in H. cbn in H.
        assert (q = p) by lia. subst q. rewrite Ea in Hq. apply some_inj in Hq. subst t. exact K.
    + intros q t Hq. exists t. split; [|auto]. rewrite nth_error_app1; [exact Hq|]. apply nth_error_Some. congruence.
    + eexists. split; [exact Ea|]. auto.
    + intros q N t Hq. rewrite nth_error_app1; [exact Hq|]. apply nth_error_Some. congruence.
Qed.

Definition s_ok (st : sst) : Prop := st_ok (s_q st) /\ lts_ok (s_lt st).
Definition s_stronger (st st' : sst) : Prop := stronger ts (q_lv (s_q st)) (q_lv (s_q st')) /\ lt_stronger (s_lt st) (s_lt st').
Lemma s_stronger_refl st : s_stronger st st.
Proof. split; [apply stronger_refl|apply lt_stronger_refl]. Qed.
Lemma s_stronger_trans a b c : s_stronger a b -> s_stronger b c -> s_stronger a c.
Proof. intros [A B] [C D]. split; [eapply stronger_trans; eauto|eapply lt_stronger_trans; eauto]. Qed.

(** The states of [t] are states of [to] that are reached from [from] in [n] steps. *)
Definition reached (from to t : term) (n : nat) : Prop :=
  forall s, holds s t -> holds s to /\ exists s0, holds s0 from /\ Steps ts n s0 s.

Definition less_post (p : nat) (from to : term) (st : sst) (r : qres) (st' : sst) : Prop :=
  s_ok st' /\ s_stronger st st' /\
  match r with
  | Reach t n => state_formula ts t /\ ((exists s, holds s from) \/ from <> to -> exists s, holds s t) /\ n < Nat.pow 2 (S p) /\ reached from to t n
  | Unreach =>
    (exists lt, nth_error (s_lt st') (S p) = Some lt /\ forall s s', holds s from -> holds s' to -> ~ rel lt s s') /\
    (exists lt lv, nth_error (s_lt st') p = Some lt /\ nth_error (q_lv (s_q st')) p = Some lv /\
       forall s s', holds s from -> holds s' to -> ~ rel lt s s' /\ forall s1, rel lt s s1 -> ~ rel (lv_tr lv) s1 s')
  end.

Lemma exact_ok fuel p from to st r st' : st_ok st -> state_formula ts from -> state_formula ts to ->
  q_exact check itp elim isimp ts fuel p from to st = Ret (r, st') -> post ts (ttrans ts) exact_good p from to st r st'.
Proof.
  intros. unfold q_exact in H2. eapply (q_query_ok check Hc itp Hi elim He isimp Hs ts wf (ttrans ts) (transf_trans ts wf) (fun _ => 2) exact_good); eauto.
  - intros _. reflexivity.
  - unfold exact_good. intros q a b -> ->. rewrite (pow2_S (S q)). reflexivity.
Qed.

Lemma q_less_ok fuel : forall p from to st r st', s_ok st -> state_formula ts from -> state_formula ts to ->
  q_less check itp itp2 elim isimp ts fuel p from to st = Ret (r, st') -> less_post p from to st r st'.
Proof.
  induction fuel as [|fuel IH]; intros p from to st r st' St Ff Ft E; [discriminate|]. cbn [q_less] in E.
  destruct (term_eqb_spec from to) as [Eft|Nft].
  { injection E as <- <-. subst to. split; [exact St|]. split; [apply s_stronger_refl|]. split; [exact Ff|]. split.
    - intros [H|H]; [exact H|congruence].
    - split; [pose proof (pow2_pos (S p)); lia|]. intros s H. split; [exact H|]. exists s. split; [exact H|constructor]. }
  destruct (nth_error (s_lt st) p) as [lt|] eqn:Elt; [|discriminate].
  destruct (nth_error (q_lv (s_q st)) p) as [lv|] eqn:Elv; [|discriminate].
  destruct St as [Sq Sl]. destruct (Sl p lt Elt) as [T0 [T1 T2]]. pose proof (proj1 Sq p lv Elv) as Lo. destruct Lo as [L0 [L1 [L2 _]]].
  pose proof (level_transf ts (ttrans ts) (transf_trans ts wf) p lv (proj1 Sq p lv Elv)) as Tf.
  destruct (check _) as [m| |] eqn:Ec; [| |discriminate].
  - apply (check_sat _ Hc) in Ec. inversion Ec as [|? ? Ec1 Ec2]; subst. inversion Ec2 as [|? ? Ec3 _]; subst. clear Ec Ec2.
    apply holds_and2 in Ec3 as [M1 M2].
    assert (Ex : exists s, holds s from) by (exists m; exact M1).
    destruct (holdsb m (shift_next ts lt)) eqn:Eb.
    + assert (Eb' : holds m (shift_next ts lt)) by exact Eb. destruct p as [|p].
      * injection E as <- <-. split; [split; assumption|]. split; [apply s_stronger_refl|].
        split; [apply state_formula_and; intros f [<-|[<-|[]]]; assumption|]. split; [|split].
        -- intros _. exists m. apply holds_and2. split; [exact M1|].
           apply (shift_next_rel ts wf lt m m (at_time 2 m) T1) in Eb'; [|intros v _; reflexivity|intros v _; reflexivity].
           rewrite (T0 eq_refl) in Eb'. apply (identity_rel ts wf) in Eb'.
           eapply (holds_same ts to (at_time 2 m)); [exact Ft| |apply holds_shift_at in M2; exact M2]. intros v Hv. symmetry. apply Eb', Hv.
        -- pose proof (pow2_pos 1); lia.
        -- intros s H. apply holds_and2 in H as [H1 H2]. split; [exact H2|]. exists s. split; [exact H1|constructor].
      * apply obind_ret in E as [[r1 st1] [E1 E]]. pose proof (IH _ _ _ _ _ _ (conj Sq Sl) Ff Ft E1) as [P1 [P2 P3]]. destruct r1 as [t n|].
        -- injection E as <- <-. split; [exact P1|]. split; [exact P2|]. destruct P3 as [A [B [C D]]]. split; [exact A|]. split; [exact B|]. split; [|exact D].
           rewrite (pow2_S (S p)). lia.
        -- destruct (IH _ _ _ _ _ _ P1 Ff Ft E) as [A [B C]]. split; [exact A|]. split; [eapply s_stronger_trans; eauto|exact C].
    + apply holds_or2 in Ec1 as [Ec1|Ec1]; [unfold holds in Ec1; congruence|]. apply holds_and2 in Ec1 as [M3 M4]. destruct p as [|p].
      * destruct (refine _ _ _ _ _ _) as [t|] eqn:Er; [|discriminate]. injection E as <- <-.
        destruct (refine_ok elim He ts from _ to m t Ff Ft Er) as [Q1 [Q2 Q3]]; [apply holds_and3; rewrite holds_and2; auto|].
        split; [split; assumption|]. split; [apply s_stronger_refl|]. split; [exact Q1|]. split; [auto|]. split; [pose proof (pow2_pos 0); cbn; lia|].
        intros s H. destruct (Q3 s H) as [Q4 [r [Q5 [Q6 Q7]]]]. split; [exact Q4|]. apply holds_and2 in Q6 as [Q6 Q8].
        rewrite (T0 eq_refl) in Q6. apply identity_holds in Q6. rewrite (L0 eq_refl) in Q8. exists (at_time 1 r). split.
        -- eapply holds_same; eauto.
        -- apply Steps_1. apply (rel_shift ts r 1 (ttrans ts)) in Q8. eapply (rel_agree ts); [| |exact Q8]; intros v Hv; [reflexivity|apply Q7, Hv].
      * destruct (midpoint _ _ _ _ _ _ _) as [mid|] eqn:Em; [|discriminate].
        assert (Fm : state_formula ts mid) by (eapply (midpoint_state elim He ts); [exact Ff|exact Ft|exact T1|apply L1; lia|exact Em|auto..]).
        apply obind_ret in E as [[r1 st1] [E1 E]]. pose proof (IH _ _ _ _ _ _ (conj Sq Sl) Ff Fm E1) as [P1 [P2 P3]]. destruct r1 as [t1 n1|].
        -- destruct P3 as [A1 [A2 [A3 A4]]]. apply obind_ret in E as [[r2 sq] [E2 E]].
           pose proof (exact_ok _ _ _ _ _ _ _ (proj1 P1) A1 Ft E2) as [P4 [P5 P6]].
           assert (S2 : s_ok (mkS sq (s_lt st1))) by (split; [exact P4|apply P1]).
           assert (S3 : s_stronger st (mkS sq (s_lt st1))).
           { destruct P2 as [P2 P2']. split; [|exact P2']. eapply stronger_trans; [exact P2|exact P5]. }
           destruct r2 as [t2 n2|].
           ++ injection E as <- <-. destruct P6 as [B1 [B2 [B3 B4]]]. split; [exact S2|]. split; [exact S3|]. split; [exact B1|]. split; [auto|].
              unfold exact_good in B3. split; [rewrite B3, (pow2_S (S p)); lia|].
              intros s H. destruct (B4 s H) as [C1 [s1 [C2 C3]]]. split; [exact C1|]. destruct (A4 s1 C2) as [_ [s0 [D1 D2]]]. exists s0. split; [exact D1|].
              rewrite Nat.add_comm. eapply Steps_app; [exact D2|]. apply R_steps. rewrite B3. exact C3.
           ++ destruct (IH _ _ _ _ _ _ S2 Ff Ft E) as [A [B C]]. split; [exact A|]. split; [eapply s_stronger_trans; [exact S3|exact B]|exact C].
        -- destruct (IH _ _ _ _ _ _ P1 Ff Ft E) as [A [B C]]. split; [exact A|]. split; [eapply s_stronger_trans; [exact P2|exact B]|exact C].
  - apply (check_unsat _ Hc) in Ec. destruct (itp _ _) as [J|] eqn:Ej; [|discriminate]. destruct (itp2 _ _) as [K|] eqn:Ek; [|discriminate].
    destruct (Hi _ _ _ Ej) as [JA JB JV]. destruct (Hi2 _ _ _ Ek) as [KA KB KV].
    assert (P0 : pure02 ts (isimp (mkAnd [J; K]))).
    { intros v Hv. apply (proj2 (Hs _)) in Hv.
      assert (In v (lvars [mkAnd [from; shift 2 to]])) as Hl.
      { apply in_vars_app in Hv as [x [[<-|[<-|[]]] Hv]]; [apply JV in Hv|apply KV in Hv]; tauto. }
      apply in_lvars in Hl as [x [[<-|[]] Hl]]. apply in_vars_app in Hl as [x [[<-|[<-|[]]] Hl]].
      - left. apply Ff, Hl.
      - right. apply (vars_shift_state ts) in Hl; [|exact Ft]. exact Hl. }
    destruct (store_lt _ _ _ _) as [l|] eqn:Es; [|discriminate]. injection E as <- <-.
    (* assignments for the two disjuncts *)
    assert (G1 : forall s s', rel lt s s' -> exists r, agree_on sv r s /\ (forall v, In v sv -> r (shiftv 2 v) = s' v) /\
                  holds r (mkOr [shift_next ts lt; mkAnd [lt; shift 1 (lv_tr lv)]])).
    { intros s s' H. destruct (glue_rels ts wf (fun i => if Z.leb i 0 then s else s') [] (NoDup_nil _)) as [r [R0 _]]; [intros ? ? []|].
      exists r. assert (A : agree_on sv r s) by (intros v Hv; specialize (R0 0%Z v Hv); rewrite shiftv_0 in R0; exact R0).
      assert (B : forall v, In v sv -> r (shiftv 2 v) = s' v) by (intros v Hv; exact (R0 2%Z v Hv)).
      split; [exact A|]. split; [exact B|]. apply holds_or2. left. apply (shift_next_rel ts wf lt r s s' T1 A B), H. }
    assert (G2 : forall s s1 s', rel lt s s1 -> rel (lv_tr lv) s1 s' -> exists r, agree_on sv r s /\ (forall v, In v sv -> r (shiftv 2 v) = s' v) /\
                  holds r (mkOr [shift_next ts lt; mkAnd [lt; shift 1 (lv_tr lv)]])).
    { intros s s1 s' H1 H2.
      destruct (glue_rels ts wf (fun i => if Z.leb i 0 then s else if Z.leb i 1 then s1 else s') [(0%Z, lt); (1%Z, lv_tr lv)]) as [r [R0 R1]].
      - repeat constructor; cbn; intuition discriminate.
      - intros i t [Q|[Q|[]]]; injection Q as <- <-; split; auto. apply pure_transf, T1.
      - exists r. split; [intros v Hv; specialize (R0 0%Z v Hv); rewrite shiftv_0 in R0; exact R0|]. split; [intros v Hv; exact (R0 2%Z v Hv)|].
        apply holds_or2. right. apply holds_and2. split; [rewrite <- (shift_0 lt); apply (R1 0%Z); cbn; auto|apply (R1 1%Z); cbn; auto]. }
    assert (O : forall n s s', n < Nat.pow 2 (S p) -> Steps ts n s s' -> rel (clean ts (isimp (mkAnd [J; K]))) s s').
    { intros n s s' Hn H.
      assert (G : exists r, agree_on sv r s /\ (forall v, In v sv -> r (shiftv 2 v) = s' v) /\
                  holds r (mkOr [shift_next ts lt; mkAnd [lt; shift 1 (lv_tr lv)]])).
      { destruct (Nat.lt_ge_cases n (Nat.pow 2 p)) as [N|N]; [apply G1; eapply T2; eauto|].
        replace n with ((n - Nat.pow 2 p) + Nat.pow 2 p) in H by lia. apply R_steps in H. apply npow_split in H as [s1 [H1 H2]].
        apply (G2 s s1 s').
        - apply (T2 (n - Nat.pow 2 p)); [rewrite pow2_S in Hn; lia|]. apply R_steps, H1.
        - apply L2, H2. }
      destruct G as [r [A [B C]]]. refine (proj1 (clean_rel ts wf _ r s s' P0 A B) _). apply Hs. apply holds_and2. split; [apply JA|apply KA]; auto. }
    destruct (store_lt_ok _ _ _ _ Sl (le_n_S _ _ (Nat.le_0_l p)) (clean_pure ts wf _ P0) O Es) as [Q1 [Q2 [[u [Q3 Q4]] Q5]]].
    assert (N : forall r s s', agree_on sv r s -> (forall v, In v sv -> r (shiftv 2 v) = s' v) -> holds s from -> holds s' to ->
       holds r (mkAnd [from; shift 2 to])).
    { intros r s s' A B F1 F2. apply holds_and2. split; [apply (sf_at0 ts from r s Ff A), F1|apply (sf_at ts to r 2 s' Ft B), F2]. }
    split; [split; assumption|]. split; [split; [apply stronger_refl|exact Q2]|]. split.
    + exists u. split; [exact Q3|]. intros s s' F1 F2 H. apply Q4 in H.
      destruct (glue_rels ts wf (fun i => if Z.leb i 0 then s else s') [] (NoDup_nil _)) as [r [R0 _]]; [intros ? ? []|].
      assert (A : agree_on sv r s) by (intros v Hv; specialize (R0 0%Z v Hv); rewrite shiftv_0 in R0; exact R0).
      assert (B : forall v, In v sv -> r (shiftv 2 v) = s' v) by (intros v Hv; exact (R0 2%Z v Hv)).
      apply (proj2 (clean_rel ts wf _ r s s' P0 A B)) in H. apply (proj1 (proj1 (Hs _) r)) in H. apply holds_and2 in H as [H _]. eapply JB; [exact H|]. constructor; [|constructor]. eapply N; eauto.
    + exists lt, lv. cbn [s_lt s_q]. split; [apply Q5; [lia|exact Elt]|]. split; [exact Elv|]. intros s s' F1 F2. split.
      * intros H. destruct (G1 s s' H) as [r [A [B C]]]. apply (Ec r). repeat constructor; [exact C|]. eapply N; eauto.
      * intros s1 H1 H2. destruct (G2 s s1 s' H1 H2) as [r [A [B C]]]. apply (Ec r). repeat constructor; [exact C|]. eapply N; eauto.
Qed.
End Less.
