(** * TPA: the main loop *)
From Verif Require Import Syntax Solver TransSys TSLemmas KTo1Model FormulaModel NontermProofs ListLemmas TrlRun TpaModel TpaProofs TpaQuery TpaLess TpaFix.
Open Scope list_scope.
Open Scope nat_scope.

Lemma levels_1_nth {A} n (l l' : list A) : levels_1 n l = Ret l' -> length l' = n /\ forall k x, nth_error l' k = Some x -> k < n /\ nth_error l (S k) = Some x.
Proof.
  unfold levels_1. destruct (Nat.leb_spec (S n) (length l)) as [L|]; [|discriminate]. intros E. injection E as <-.
  destruct l as [|a l]; [cbn in L; lia|]. cbn [tl length] in *. split; [rewrite firstn_length; lia|]. intros k x H.
  assert (K : k < length (firstn n l)) by (apply nth_error_Some; congruence). rewrite firstn_length in K. split; [lia|].
  cbn [nth_error]. rewrite nth_error_firstn_lt in H by lia. exact H.
Qed.

Section Run.
Variable check : check_fn.
Hypothesis Hc : check_ok check.
Variable itp itp2 : itp_fn.
Hypothesis Hi : itp_ok itp.
Hypothesis Hi2 : itp_ok itp2.
Variable elim : mbp_fn.
Hypothesis He : mbp_ok elim.
Variable isimp : term -> term.
Hypothesis Hs : simp_ok isimp.
Variable ts : tsys.
Hypothesis wf : ts_wf ts = true.
Hypothesis Fi : state_formula ts (tinit ts).
Hypothesis Fq : state_formula ts (tquery ts).
Notation sv := (svars ts).
Notation rel := (rel ts).
Notation pure := (pure ts).
Notation excludes := (excludes ts).
Notation gave_up := (gave_up check ts).

Lemma of_init s : holds s (tinit ts) -> Init ts s.
Proof. intros H. exists s. split; [intros v _; reflexivity|exact H]. Qed.
Lemma of_bad s : holds s (tquery ts) -> Bad ts s.
Proof. intros H. exists s. split; [intros v _; reflexivity|exact H]. Qed.

(** The invariants kept with the levels. *)
Definition invs_ok (invs : list term * list term) : Prop := inv_good check ts RIGHT (fst invs) /\ inv_good check ts LEFT (snd invs).

(** What an answer means. *)
Definition ans_ok (r : tres) : Prop :=
  match r with
  | TUnsafe _ n => (exists s, Init ts s) \/ tinit ts <> tquery ts -> error_path ts n
  | TSafe e => gave_up \/ expl_ok ts e
  | TUnknown => True
  end.

Lemma trivial_ok e : trivial_check ts = Some e -> expl_ok ts e.
Proof.
  unfold trivial_check. assert (T : forall s s', rel tt_true s s').
  { intros s s'. assert (P : pure tt_true) by (intros v []). destruct (glue_rels ts wf (fun i => if Z.leb i 0 then s else s') [] (NoDup_nil _)) as [r [R0 _]]; [intros ? ? []|].
    exists r. split; [intros v Hv; specialize (R0 0%Z v Hv); rewrite shiftv_0 in R0; exact R0|]. split; [intros v Hv; exact (R0 1%Z v Hv)|reflexivity]. }
  destruct (term_eqb_spec (tquery ts) tt_false) as [E|_].
  - intros K. apply some_inj in K. subst e. split; [intros v []|]. split; [intros s; apply T|]. split; [intros s s' _ H; rewrite E in H; discriminate|].
    split; [discriminate|]. intros. apply T.
  - destruct (term_eqb_spec (tinit ts) tt_false) as [E|_]; [|discriminate].
    intros K. apply some_inj in K. subst e. split; [intros v []|]. split; [intros s; apply T|]. split; [intros s s' H; rewrite E in H; discriminate|].
    split; [discriminate|]. intros. apply T.
Qed.

Section Loop.
Context {St : Type} (step : nat -> St -> out (tres * St)) (inv : nat -> St -> Prop).
Hypothesis Hstep : forall p st r st', inv p st -> step p st = Ret (r, st') -> ans_ok r /\ (r = TUnknown -> inv (S p) st').
Lemma power_loop_ok fuel : forall p st r st', inv p st -> power_loop step fuel p st = Ret (r, st') -> r <> TUnknown /\ ans_ok r.
Proof.
  induction fuel as [|fuel IH]; intros p st r st' H E; [discriminate|]. cbn [power_loop] in E.
  apply obind_ret in E as [[r1 st1] [E1 E]]. destruct (Hstep _ _ _ _ H E1) as [A B]. destruct r1.
  - injection E as <- <-. split; [discriminate|exact A].
  - injection E as <- <-. split; [discriminate|exact A].
  - eapply IH; [apply B; reflexivity|exact E].
Qed.
Lemma tpa_solve_ok fuel st r st' : inv 0 st -> tpa_solve ts step fuel st = Ret (r, st') -> r <> TUnknown /\ ans_ok r.
Proof.
  intros H E. unfold tpa_solve in E. destruct (trivial_check ts) as [e|] eqn:Et; [|eapply power_loop_ok; eauto].
  injection E as <- <-. split; [discriminate|]. right. apply trivial_ok, Et.
Qed.
End Loop.

(** ** TPASplit *)
Definition lt_excl (l : list term) (i : nat) : Prop := exists lt, nth_error l i = Some lt /\ excludes lt.
Definition eq_excl (st : sst) (i : nat) : Prop := exists lt lv, nth_error (s_lt st) i = Some lt /\ nth_error (q_lv (s_q st)) i = Some lv /\
  forall s s', holds s (tinit ts) -> holds s' (tquery ts) -> ~ rel lt s s' /\ forall s1, rel lt s s1 -> ~ rel (lv_tr lv) s1 s'.
Definition split_levels (p : nat) (st : sst) : Prop :=
  s_ok ts st /\ (forall i, 1 <= i <= p -> lt_excl (s_lt st) i) /\ (forall i, i < p -> eq_excl st i).
Definition split_inv (p : nat) (x : sst * (list term * list term)) : Prop := split_levels p (fst x) /\ invs_ok (snd x).

Lemma split_stronger p st st' : s_ok ts st' -> s_stronger ts st st' -> split_levels p st -> split_levels p st'.
Proof.
  intros S' [Q1 Q2] [_ [A B]]. split; [exact S'|]. split.
  - intros i H. destruct (A i H) as [lt [E1 E2]]. destruct (Q2 i lt E1) as [lt' [E3 E4]]. exists lt'. split; [exact E3|]. intros s s' K1 K2 K3. apply (E2 s s' K1 K2), E4, K3.
  - intros i H. destruct (B i H) as [lt [lv [E1 [E2 E3]]]]. destruct (Q2 i lt E1) as [lt' [F1 F2]]. destruct (Q1 i lv E2) as [lv' [F3 F4]].
    exists lt', lv'. split; [exact F1|]. split; [exact F3|]. intros s s' K1 K2. destruct (E3 s s' K1 K2) as [G1 G2]. split.
    + intros K3. apply G1, F2, K3.
    + intros s1 K3 K4. apply (G2 s1); auto.
Qed.

Lemma split_curs p st lts : split_levels p st -> levels_1 p (s_lt st) = Ret lts -> forall c, In c lts -> pure c /\ (forall s, rel c s s) /\ excludes c.
Proof.
  intros [[_ L] [A _]] E c H. apply levels_1_nth in E as [_ E]. apply In_nth_error in H as [k H]. destruct (E k c H) as [K1 K2].
  destruct (A (S k)) as [lt [E1 E2]]; [lia|]. rewrite K2 in E1. apply some_inj in E1. subst lt. destruct (L _ _ K2) as [_ [L1 L2]].
  split; [exact L1|]. split; [|exact E2]. intros s. apply (L2 0); [pose proof (pow2_pos (S k)); lia|constructor].
Qed.
Lemma split_eqs p st lts exs e : split_levels (S p) st -> levels_1 (S p) (s_lt st) = Ret lts -> levels_1 p (q_lv (s_q st)) = Ret exs ->
  eq_fixed check ts 1 (combine lts (map lv_tr exs)) = Some e -> expl_ok ts e.
Proof.
  intros [[Sq L] [_ B]] E1 E2 E. apply levels_1_nth in E1 as [_ E1]. apply levels_1_nth in E2 as [_ E2].
  eapply (eq_fixed_ok check Hc ts wf Fi Fq); [|exact E]. intros k lt ex H. apply nth_error_combine in H as [H1 H2].
  rewrite nth_error_map in H2. destruct (nth_error exs k) as [lv|] eqn:Ek; [|discriminate]. cbn in H2. apply some_inj in H2. subst ex.
  destruct (E1 _ _ H1) as [_ N1]. destruct (E2 _ _ Ek) as [K N2]. destruct (L _ _ N1) as [_ [L1 L2]]. destruct (proj1 Sq _ _ N2) as [_ [M1 [M2 _]]].
  split; [exact L1|]. split; [apply M1; lia|]. split; [lia|]. split; [exact L2|]. split; [intros s s' St; apply M2, R_steps, St|].
  destruct (B (S k)) as [lt' [lv' [X1 [X2 X3]]]]; [lia|]. rewrite N1 in X1. rewrite N2 in X2. apply some_inj in X1. apply some_inj in X2. subst lt' lv'. exact X3.
Qed.

Lemma split_power_ok fuel p st r st' : split_inv p st -> split_power check itp itp2 elim isimp ts fuel p st = Ret (r, st') ->
  ans_ok r /\ (r = TUnknown -> split_inv (S p) st').
Proof.
  destruct st as [s invs]. intros [L I0] E. cbn [fst snd] in *. unfold split_power in E. apply obind_ret in E as [[r1 s1] [E1 E]].
  pose proof (q_less_ok check Hc itp itp2 Hi Hi2 elim He isimp Hs ts wf _ _ _ _ _ _ _ (proj1 L) Fi Fq E1) as [P1 [P2 P3]]. destruct r1 as [t n|].
  - injection E as <- <-. split; [|discriminate]. destruct P3 as [A1 [A2 [A3 A4]]]. intros H. destruct A2 as [x Hx].
    { destruct H as [[x H]|H]; [left; exists x; apply init_of; assumption|right; exact H]. }
    destruct (A4 x Hx) as [B1 [x0 [B2 B3]]]. exists x0, x. split; [apply of_init, B2|]. split; [exact B3|apply of_bad, B1].
  - destruct P3 as [[lt [X1 X2]] X3].
    assert (L1 : split_levels (S p) s1).
    { apply (split_stronger p _ _ P1 P2) in L. destruct L as [_ [LA LB]]. split; [exact P1|]. split.
      - intros i H. destruct (Nat.eq_dec i (S p)) as [->|N]; [exists lt; auto|apply LA; lia].
      - intros i H. destruct (Nat.eq_dec i p) as [->|N]; [exact X3|apply LB; lia]. }
    clear L. apply obind_ret in E as [lts [E2 E]]. apply obind_ret in E as [[e invs1] [E3 E]].
    pose proof (lt_fixed_ok check Hc ts wf Fi Fq _ _ _ _ (split_curs _ _ _ L1 E2) (proj1 I0) (proj2 I0) E3) as [Y1 Y2]. cbn [fst snd] in Y1, Y2.
    destruct e as [e|]; [injection E as <- <-; split; [exact Y2|discriminate]|].
    apply obind_ret in E as [exs [E4 E]]. destruct (eq_fixed _ _ _ _) as [e|] eqn:E5.
    { injection E as <- <-. split; [right; eapply split_eqs; eauto|discriminate]. }
    clear E5. apply obind_ret in E as [[r2 sq] [E5 E]].
    pose proof (exact_ok check Hc itp Hi elim He isimp Hs ts wf _ _ _ _ _ _ _ (proj1 (proj1 L1)) Fi Fq E5) as [P4 [P5 P6]]. destruct r2 as [t n|].
    + injection E as <- <-. split; [|discriminate]. intros _. destruct P6 as [_ [[x Hx] [-> B]]]. destruct (B x Hx) as [B1 [x0 [B2 B3]]].
      exists x0, x. split; [apply of_init, B2|]. split; [apply R_steps, B3|apply of_bad, B1].
    + assert (L2 : split_levels (S p) (mkS sq (s_lt s1))).
      { apply (split_stronger (S p) s1); [split; [exact P4|apply L1]| |exact L1]. split; [exact P5|apply lt_stronger_refl]. }
      apply obind_ret in E as [exs2 [E6 E]]. destruct (eq_fixed _ _ _ _) as [e|] eqn:E7; injection E as <- <-.
      * split; [right; eapply split_eqs; [exact L2|exact E2|exact E6|exact E7]|discriminate].
      * split; [exact I|]. intros _. split; [exact L2|]. exact Y1.
Qed.

Lemma invs_nil : invs_ok ([], []).
Proof. split; (split; [intros c []|]; split; [intros s c []|]; right; intros s s' s'' _ _ c []). Qed.
Lemma split_start_ok : split_inv 0 (split_start ts, ([], [])).
Proof.
  split; [|exact invs_nil]. split; [|split; [intros; lia|intros; lia]]. split.
  - split; [|intros p f t x n []]. intros p lv H. destruct p as [|[|p]]; try discriminate. apply some_inj in H. subst lv.
    split; [reflexivity|]. split; [lia|]. split; [intros s s' H; apply (proj1 (npow_1 _ _ _) H)|].
    intros r. cbn [lv_tr lv_parts]. rewrite <- two_holds. split; [intros H; inversion H; auto|auto].
  - intros p t H. destruct p as [|[|p]]; try discriminate. apply some_inj in H. subst t. split; [reflexivity|]. split; [apply identity_pure|].
    intros n s s' Hn H. assert (n = 0) by (cbn in Hn; lia). subst n. inversion H; subst. apply rel_identity; auto.
Qed.

Theorem split_run_ok fuel r st : split_run check itp itp2 elim isimp ts fuel = Ret (r, st) -> r <> TUnknown /\ ans_ok r.
Proof. intros E. unfold split_run in E. eapply tpa_solve_ok; [|exact split_start_ok|exact E]. intros. eapply split_power_ok; eauto. Qed.

(** ** TPABasic *)
Notation zero := (basic_zero ts).
Definition any_good (p n : nat) : Prop := n <= Nat.pow 2 (S p).
Lemma zero_transf : transf ts zero.
Proof. apply transf_app. intros t [<-|[<-|[]]]; [apply pure_transf, identity_pure|apply transf_trans, wf]. Qed.
Lemma zero_rel s s' : rel zero s s' <-> same_state ts s s' \/ Step ts s s'.
Proof.
  rewrite <- (identity_rel ts wf), <- (rel_step ts). split.
  - intros [r [A [B H]]]. apply holds_or2 in H as [H|H]; [left|right]; exists r; auto.
  - intros [[r [A [B H]]]|[r [A [B H]]]]; exists r; repeat split; auto; apply holds_or2; auto.
Qed.
Lemma zero_refl s n : npow (rel zero) n s s.
Proof. induction n as [|n IH]; [constructor|]. apply npow_S with s; [apply zero_rel; left; intros v _; reflexivity|exact IH]. Qed.

Lemma same_trans s s' s'' : same_state ts s s' -> same_state ts s' s'' -> same_state ts s s''.
Proof. intros H K v Hv. rewrite (H v Hv). apply K, Hv. Qed.
Lemma Step_same s u s' : same_state ts s u -> Step ts u s' -> Step ts s s'.
Proof.
  intros E [r [A [B H]]]. pose (r' := fun v => if inb v sv then s v else r v). exists r'. split; [|split].
  - intros v Hv. unfold r'. rewrite (proj2 (inb_true v sv) Hv). reflexivity.
  - intros v Hv. unfold r'. destruct (inb_spec (shiftv 1 v) sv) as [K|K]; [|apply B, Hv].
    exfalso. apply (sv0 ts wf) in K. apply (sv0 ts wf) in Hv. destruct v as [i t so]. cbn in Hv. subst t. cbn in K. discriminate.
  - refine (proj1 (TrlRun.holds_ext r r' _ _) H). intros v Hv. unfold r'. destruct (inb_spec v sv) as [K|K]; [|reflexivity].
    rewrite (A v K). symmetry. apply E, K.
Qed.
Lemma zero_steps n : forall s s', npow (rel zero) n s s' -> exists m u, m <= n /\ Steps ts m s u /\ same_state ts u s'.
Proof.
  induction n as [|n IH]; intros s s' H.
  - inversion H; subst. exists 0, s'. split; [lia|]. split; [constructor|intros v _; reflexivity].
  - replace (S n) with (n + 1) in H by lia. apply npow_split in H as [t [H1 H2]]. apply (proj1 (npow_1 _ _ _)) in H2. destruct (IH _ _ H1) as [m [u [A [B C]]]].
    apply zero_rel in H2 as [H2|H2].
    + exists m, u. split; [lia|]. split; [exact B|]. eapply same_trans; eauto.
    + exists (S m), s'. split; [lia|]. split; [|intros v _; reflexivity]. apply Steps_snoc. exists u. split; [exact B|]. eapply Step_same; eauto.
Qed.

Definition bst_ok := st_ok ts zero any_good.
Lemma basic_ok fuel p from to st r st' : bst_ok st -> state_formula ts from -> state_formula ts to ->
  q_basic check itp elim isimp ts fuel p from to st = Ret (r, st') -> post ts zero any_good p from to st r st'.
Proof.
  intros. unfold q_basic in H2. eapply (q_query_ok check Hc itp Hi elim He isimp Hs ts wf zero zero_transf (basic_steps ts) any_good); eauto.
  - intros m. unfold any_good, basic_steps. destruct (holdsb m (identity ts)), (holdsb m (shift 1 (identity ts))); cbn; lia.
  - unfold any_good. intros q a b A B. rewrite (pow2_S (S q)). lia.
Qed.

Definition basic_levels (p : nat) (st : qst) : Prop :=
  bst_ok st /\ forall i, 1 <= i <= p -> exists lv, nth_error (q_lv st) i = Some lv /\ excludes (lv_tr lv).
Definition basic_inv (p : nat) (x : qst * (list term * list term)) : Prop := basic_levels p (fst x) /\ invs_ok (snd x).

(** The answer UNSAFE of the basic version: the number of steps is only bounded. *)
Definition basic_ans_ok (r : tres) : Prop :=
  match r with
  | TUnsafe _ n => exists p m, n <= Nat.pow 2 (S p) /\ m <= Nat.pow 2 (S p) /\ error_path ts m
  | _ => ans_ok r
  end.

Lemma basic_power_ok fuel p st r st' : basic_inv p st -> basic_power check itp elim isimp ts fuel p st = Ret (r, st') ->
  basic_ans_ok r /\ (r = TUnknown -> basic_inv (S p) st').
Proof.
  destruct st as [s invs]. intros [L I0] E. cbn [fst snd] in *. unfold basic_power in E. apply obind_ret in E as [[r1 s1] [E1 E]].
  pose proof (basic_ok _ _ _ _ _ _ _ (proj1 L) Fi Fq E1) as [P1 [P2 P3]]. destruct r1 as [t n|].
  - injection E as <- <-. split; [|discriminate]. destruct P3 as [_ [[x Hx] [G B]]]. destruct (B x Hx) as [B1 [x0 [B2 B3]]].
    destruct (zero_steps _ _ _ B3) as [m [u [C1 [C2 C3]]]]. exists p, m. split; [exact G|]. split; [exact C1|].
    exists x0, u. split; [apply of_init, B2|]. split; [exact C2|]. apply of_bad. eapply (holds_same ts _ x); [exact Fq| |exact B1]. intros v Hv. symmetry. apply C3, Hv.
  - destruct P3 as [lv [X1 X2]].
    assert (L1 : basic_levels (S p) s1).
    { destruct L as [_ LA]. split; [exact P1|]. intros i H. destruct (Nat.eq_dec i (S p)) as [->|N]; [exists lv; auto|].
      destruct (LA i) as [lv' [A1 A2]]; [lia|]. destruct (P2 i lv' A1) as [lv2 [A3 A4]]. exists lv2. split; [exact A3|]. intros y y' K1 K2 K3. apply (A2 y y' K1 K2), A4, K3. }
    clear L. apply obind_ret in E as [lvs [E2 E]]. apply obind_ret in E as [[e invs1] [E3 E]].
    assert (Cu : forall c, In c (map lv_tr lvs) -> pure c /\ (forall s, rel c s s) /\ excludes c).
    { intros c Hc'. apply in_map_iff in Hc' as [lc [<- Hl]]. apply levels_1_nth in E2 as [_ E2]. apply In_nth_error in Hl as [k Hl]. destruct (E2 k lc Hl) as [K1 K2].
      destruct (proj2 L1 (S k)) as [lv2 [Y1 Y2]]; [lia|]. rewrite K2 in Y1. apply some_inj in Y1. subst lv2. destruct (proj1 (proj1 L1) _ _ K2) as [_ [M1 [M2 _]]].
      split; [apply M1; lia|]. split; [|exact Y2]. intros y. apply M2, zero_refl. }
    pose proof (lt_fixed_ok check Hc ts wf Fi Fq _ _ _ _ Cu (proj1 I0) (proj2 I0) E3) as [Y1 Y2]. cbn [fst snd] in Y1, Y2.
    destruct e as [e|]; injection E as <- <-.
    + split; [exact Y2|discriminate].
    + split; [exact I|]. intros _. split; [exact L1|exact Y1].
Qed.
Lemma basic_start_ok : basic_inv 0 (basic_start ts, ([], [])).
Proof.
  split; [|exact invs_nil]. split; [|intros; lia]. split; [|intros p f t x n []]. intros p lv H. destruct p as [|[|p]]; try discriminate. apply some_inj in H. subst lv.
  split; [reflexivity|]. split; [lia|]. split; [intros s s' H; apply (proj1 (npow_1 _ _ _) H)|].
  intros r. cbn [lv_tr lv_parts]. rewrite <- two_holds. split; [intros H; inversion H; auto|auto].
Qed.
Theorem basic_run_ok fuel r st : basic_run check itp elim isimp ts fuel = Ret (r, st) -> r <> TUnknown /\ basic_ans_ok r.
Proof.
  intros E. unfold basic_run, tpa_solve in E. destruct (trivial_check ts) as [e|] eqn:Et.
  - injection E as <- <-. split; [discriminate|]. right. apply trivial_ok, Et.
  - pose proof basic_start_ok as B. revert B E. generalize (basic_start ts, ([] : list term, [] : list term)) as st0. generalize 0 as p.
    assert (G : forall f p st0, basic_inv p st0 -> power_loop (basic_power check itp elim isimp ts fuel) f p st0 = Ret (r, st) -> r <> TUnknown /\ basic_ans_ok r).
    { induction f as [|f IH]; intros p st0 B E; [discriminate|]. cbn [power_loop] in E. apply obind_ret in E as [[r1 st1] [E1 E]].
      destruct (basic_power_ok _ _ _ _ _ B E1) as [B1 B2]. destruct r1; [injection E as <- <-; split; [discriminate|exact B1]..|].
      eapply IH; [apply B2; reflexivity|exact E]. }
    intros p st0 B E. eapply G; eauto.
Qed.
End Run.
