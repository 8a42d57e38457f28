(** * TPA: a solver object that is asked many times *)
From Verif Require Import Syntax Solver TransSys TSLemmas KTo1Model FormulaModel NontermProofs ListLemmas TrlRun Graph GraphOps GraphOpsProofs LinearModel TpaModel TpaProofs TpaQuery TpaLess TpaFix TpaRun DagModel.
Open Scope list_scope.
Open Scope nat_scope.

(** ** Safety explanations *)
Section Expl.
Variable check : check_fn.
Hypothesis Hc : check_ok check.
Variable itp : itp_fn.
Hypothesis Hi : itp_ok itp.
Variable ts : tsys.
Hypothesis wf : ts_wf ts = true.
Hypothesis Fi : state_formula ts (tinit ts).
Hypothesis Fq : state_formula ts (tquery ts).

Lemma safety_explanation_init e t : safety_explanation check itp ts e = Ret t ->
  state_formula ts t /\ forall s, holds s (tinit ts) -> holds s t.
Proof.
  intros E. unfold safety_explanation in E.
  assert (G : forall ti k, match check [tinit ts; ti; shift k (tquery ts)] with
    | UNSAT => match itp [ti; shift k (tquery ts)] [tinit ts] with Some J => Ret (mkNot J) | None => Exc end | _ => Exc end = Ret t ->
    state_formula ts t /\ forall s, holds s (tinit ts) -> holds s t).
  { intros ti k E'. destruct (check _); [discriminate| |discriminate]. destruct (itp _ _) as [J|] eqn:EJ; [|discriminate]. injection E' as <-.
    destruct (Hi _ _ _ EJ) as [A B C]. split.
    - intros v Hv. apply in_vars_app in Hv as [x [[<-|[]] Hv]]. apply C in Hv as [_ Hv]. unfold lvars in Hv. cbn in Hv. rewrite app_nil_r in Hv. apply Fi, Hv.
    - intros s Hs. apply holds_not. intros K. apply (B s K). repeat constructor. exact Hs. }
  destruct e as [[] f ti|[] i ti]; try (apply G in E; exact E); injection E as <-; auto.
Qed.

Lemma safety_explanation_safe e t : expl_ok ts e -> safety_explanation check itp ts e = Ret t ->
  forall s n s', holds s t -> Steps ts n s s' -> ~ holds s' (tquery ts).
Proof.
  intros Ok E s n s' Hs St Hq. unfold safety_explanation in E.
  assert (T : t = tinit ts -> False).
  { intros ->. apply (expl_safe ts Fi Fq e Ok n). exists s, s'. split; [exists s; split; [intros v _; reflexivity|exact Hs]|]. split; [exact St|]. exists s'. split; [intros v _; reflexivity|exact Hq]. }
  assert (G : forall ti k r, match check [tinit ts; ti; shift k (tquery ts)] with
    | UNSAT => match itp [ti; shift k (tquery ts)] [tinit ts] with Some J => Ret (mkNot J) | None => Exc end | _ => Exc end = Ret t ->
    agree_on (svars ts) r s -> holds r ti -> (forall v, In v (svars ts) -> r (shiftv k v) = s' v) -> False).
  { intros ti k r E' A H1 H2. destruct (check _); [discriminate| |discriminate]. destruct (itp _ _) as [J|] eqn:EJ; [|discriminate]. injection E' as <-.
    destruct (Hi _ _ _ EJ) as [IA IB IC]. apply holds_not in Hs. apply Hs. refine (proj1 (holds_agree r s _ _) (IA r _)).
    - intros v Hv. apply A. apply IC in Hv as [_ Hv]. unfold lvars in Hv. cbn in Hv. rewrite app_nil_r in Hv. apply Fi, Hv.
    - repeat constructor; [exact H1|]. apply (sf_at ts _ r k s' Fq H2), Hq. }
  destruct e as [r f ti|r i ti].
  - assert (N : r <> ToInit -> False).
    { intros N. assert (K : rel ts ti s s').
      { assert (Al : allowed ts r s s') by (destruct r; [exact I|congruence|exact Hq]). destruct f; [eapply right_reach|eapply left_reach]; eauto. }
      destruct K as [x [A [B C]]]. destruct r; try congruence; eapply (G ti 1%Z x); eauto. }
    destruct r; [apply N; discriminate| |apply N; discriminate]. injection E as <-. apply T. reflexivity.
  - destruct Ok as [lt [ex Ok]].
    assert (N : r <> ToInit -> False).
    { intros N. assert (Al : allowed ts r s s') by (destruct r; [exact I|congruence|exact Hq]).
      assert (K : exists x, agree_on (svars ts) x s /\ holds x ti /\ forall v, In v (svars ts) -> x (shiftv 2 v) = s' v).
      { pose proof Ok as [-> [Pl [Pe _]]]. destruct (eq_reach ts _ _ _ _ _ _ _ _ Ok Al St) as [K|[s1 [K1 K2]]].
        - destruct (glue_rels ts wf (fun i => if Z.leb i 0 then s else s') [] (NoDup_nil _)) as [u [R0 _]]; [intros ? ? []|].
          assert (A : agree_on (svars ts) u s) by (intros v Hv; specialize (R0 0%Z v Hv); rewrite shiftv_0 in R0; exact R0).
          exists u. split; [exact A|]. split; [|intros v Hv; exact (R0 2%Z v Hv)]. apply holds_or2. left.
          apply (shift_next_rel ts wf lt u s s' Pl A); [intros v Hv; exact (R0 2%Z v Hv)|exact K].
        - destruct (glue_rels ts wf (fun i => if Z.leb i 0 then s else if Z.leb i 1 then s1 else s') [] (NoDup_nil _)) as [u [R0 _]]; [intros ? ? []|].
          assert (A : agree_on (svars ts) u s) by (intros v Hv; specialize (R0 0%Z v Hv); rewrite shiftv_0 in R0; exact R0).
          exists u. split; [exact A|]. split; [|intros v Hv; exact (R0 2%Z v Hv)]. apply holds_or2. right. apply holds_and2. split.
          + eapply pure_hold0; [exact Pl|exact K1|exact A|intros v Hv; exact (R0 1%Z v Hv)].
          + eapply pure_hold; [exact Pe|exact K2|intros v Hv; exact (R0 1%Z v Hv)|intros v Hv; exact (R0 2%Z v Hv)]. }
      destruct K as [x [A [B C]]]. destruct r; try congruence; eapply (G ti 2%Z x); eauto. }
    destruct r; [apply N; discriminate| |apply N; discriminate]. injection E as <-. apply T. reflexivity.
Qed.
End Expl.

(** ** What is asked of a solver object *)
Definition reached_ok (ts : tsys) (from to t : term) (n : nat) : Prop :=
  state_formula ts t /\ (exists s, holds s t) /\ forall s, holds s t -> holds s to /\ exists s0, holds s0 from /\ Steps ts n s0 s.
Definition same_steps (ts ts' : tsys) : Prop := svars ts = svars ts' /\ ttrans ts = ttrans ts'.
Lemma Steps_same ts ts' n s s' : same_steps ts ts' -> Steps ts n s s' -> Steps ts' n s s'.
Proof.
  intros [E1 E2] H. induction H as [s|n s t u H1 _ IH]; [constructor|]. econstructor; [|exact IH]. unfold Step in *. rewrite <- E1, <- E2. exact H1.
Qed.
Lemma with_same ts from to : same_steps ts (with_states ts from to). Proof. split; reflexivity. Qed.
Lemma with_same' ts from to : same_steps (with_states ts from to) ts. Proof. split; reflexivity. Qed.
Lemma with_wf ts from to : ts_wf ts = true -> state_formula ts from -> state_formula ts to -> ts_wf (with_states ts from to) = true.
Proof.
  unfold ts_wf. rewrite !andb_true_iff. intros [[[[[W1 W2] W3] W4] W5] W6] F1 F2. repeat split; auto; apply subsetb_spec; intros v Hv; apply in_app_iff; left; [apply F1|apply F2]; exact Hv.
Qed.

Section Reuse.
Variable check : check_fn.
Hypothesis Hc : check_ok check.
Variable itp itp2 : itp_fn.
Hypothesis Hi : itp_ok itp.
Hypothesis Hi2 : itp_ok itp2.
Variable elim : mbp_fn.
Hypothesis He : mbp_ok elim.
Variable isimp : term -> term.
Hypothesis Hs : simp_ok isimp.

Section One.
Variable ts : tsys.
Hypothesis wf : ts_wf ts = true.
Hypothesis Fi : state_formula ts (tinit ts).
Hypothesis Fq : state_formula ts (tquery ts).
Hypothesis Ne : exists s, holds s (tinit ts).

Definition ask_ans (r : tres) : Prop :=
  match r with
  | TUnsafe t n => reached_ok ts (tinit ts) (tquery ts) t n
  | TSafe e => gave_up check ts \/ expl_ok ts e
  | TUnknown => True
  end.
(** The basic version: the states are reached, the number of steps is not right. *)
Definition ask_ans_basic (r : tres) : Prop :=
  match r with
  | TUnsafe t n => state_formula ts t /\ (exists s, holds s t) /\ forall s, holds s t -> holds s (tquery ts) /\ exists m s0 u, holds s0 (tinit ts) /\ Steps ts m s0 u /\ same_state ts u s
  | _ => ask_ans r
  end.

Definition split_keep (x : sst * (list term * list term)) : Prop := s_ok ts (fst x) /\ invs_ok check ts (snd x).
Lemma split_power_keep fuel p st r st' : split_inv check ts p st -> split_power check itp itp2 elim isimp ts fuel p st = Ret (r, st') ->
  ask_ans r /\ split_keep st' /\ (r = TUnknown -> split_inv check ts (S p) st').
Proof.
  destruct st as [s invs]. intros [L I0] E. cbn [fst snd] in *. unfold split_power in E. apply obind_ret in E as [[r1 s1] [E1 E]].
  pose proof (q_less_ok check Hc itp itp2 Hi Hi2 elim He isimp Hs ts wf _ _ _ _ _ _ _ (proj1 L) Fi Fq E1) as [P1 [P2 P3]]. destruct r1 as [t n|].
  - injection E as <- <-. split; [|split; [split; [exact P1|exact I0]|discriminate]]. destruct P3 as [A1 [A2 [A3 A4]]]. split; [exact A1|]. split; [apply A2; left; exact Ne|exact A4].
  - destruct P3 as [[lt [X1 X2]] X3].
    assert (L1 : split_levels ts (S p) s1).
    { apply (split_stronger ts p _ _ P1 P2) in L. destruct L as [_ [LA LB]]. split; [exact P1|]. split.
      - intros i H. destruct (Nat.eq_dec i (S p)) as [->|N]; [exists lt; auto|apply LA; lia].
      - intros i H. destruct (Nat.eq_dec i p) as [->|N]; [exact X3|apply LB; lia]. }
    clear L. apply obind_ret in E as [lts [E2 E]]. apply obind_ret in E as [[e invs1] [E3 E]].
    pose proof (lt_fixed_ok check Hc ts wf Fi Fq _ _ _ _ (split_curs ts _ _ _ L1 E2) (proj1 I0) (proj2 I0) E3) as [Y1 Y2]. cbn [fst snd] in Y1, Y2.
    destruct e as [e|]; [injection E as <- <-; split; [exact Y2|split; [split; [exact P1|exact Y1]|discriminate]]|].
    apply obind_ret in E as [exs [E4 E]]. destruct (eq_fixed _ _ _ _) as [e|] eqn:E5.
    { injection E as <- <-. split; [right; eapply (split_eqs check Hc ts wf Fi Fq); eauto|]. split; [split; [exact P1|exact Y1]|discriminate]. }
    clear E5. apply obind_ret in E as [[r2 sq] [E5 E]].
    pose proof (exact_ok check Hc itp Hi elim He isimp Hs ts wf _ _ _ _ _ _ _ (proj1 (proj1 L1)) Fi Fq E5) as [P4 [P5 P6]]. destruct r2 as [t n|].
    + injection E as <- <-. split; [|split; [split; [split; [exact P4|apply L1]|exact Y1]|discriminate]]. destruct P6 as [B0 [B1 [-> B]]].
      split; [exact B0|]. split; [exact B1|]. intros x Hx. destruct (B x Hx) as [B2 [x0 [B3 B4]]]. split; [exact B2|]. exists x0. split; [exact B3|]. apply R_steps, B4.
    + assert (L2 : split_levels ts (S p) (mkS sq (s_lt s1))).
      { apply (split_stronger ts (S p) s1); [split; [exact P4|apply L1]| |exact L1]. split; [exact P5|apply lt_stronger_refl]. }
      apply obind_ret in E as [exs2 [E6 E]]. destruct (eq_fixed _ _ _ _) as [e|] eqn:E7; injection E as <- <-.
      * split; [right; eapply (split_eqs check Hc ts wf Fi Fq); [exact L2|exact E2|exact E6|exact E7]|]. split; [split; [exact (proj1 L2)|exact Y1]|discriminate].
      * split; [exact I|]. split; [split; [exact (proj1 L2)|exact Y1]|]. intros _. split; [exact L2|]. exact Y1.
Qed.

Definition basic_keep (x : qst * (list term * list term)) : Prop := bst_ok ts (fst x) /\ invs_ok check ts (snd x).
Lemma basic_power_keep fuel p st r st' : basic_inv check ts p st -> basic_power check itp elim isimp ts fuel p st = Ret (r, st') ->
  ask_ans_basic r /\ basic_keep st' /\ (r = TUnknown -> basic_inv check ts (S p) st').
Proof.
  intros L E. destruct (basic_power_ok check Hc itp Hi elim He isimp Hs ts wf Fi Fq fuel p st r st' L E) as [X1 X2].
  destruct st as [s invs]. destruct L as [L I0]. cbn [fst snd] in *. unfold basic_power in E. apply obind_ret in E as [[r1 s1] [E1 E]].
  pose proof (basic_ok check Hc itp Hi elim He isimp Hs ts wf _ _ _ _ _ _ _ (proj1 L) Fi Fq E1) as [P1 [P2 P3]]. destruct r1 as [t n|].
  - injection E as <- <-. split; [|split; [split; [exact P1|exact I0]|discriminate]]. destruct P3 as [B0 [B1 [_ B]]].
    split; [exact B0|]. split; [exact B1|]. intros x Hx. destruct (B x Hx) as [B2 [x0 [B3 B4]]]. split; [exact B2|].
    destruct (zero_steps ts wf _ _ _ B4) as [m [u [C1 [C2 C3]]]]. exists m, x0, u. auto.
  - apply obind_ret in E as [lvs [E2 E]]. apply obind_ret in E as [[e invs1] [E3 E]].
    assert (L1 : basic_levels ts (S p) s1).
    { destruct P3 as [lv [Y1 Y2]]. destruct L as [_ LA]. split; [exact P1|]. intros i H. destruct (Nat.eq_dec i (S p)) as [->|N]; [exists lv; auto|].
      destruct (LA i) as [lv' [A1 A2]]; [lia|]. destruct (P2 i lv' A1) as [lv2 [A3 A4]]. exists lv2. split; [exact A3|]. intros y y' K1 K2 K3. apply (A2 y y' K1 K2), A4, K3. }
    assert (Cu : forall c, In c (map lv_tr lvs) -> pure ts c /\ (forall s, rel ts c s s) /\ excludes ts c).
    { intros c Hc'. apply in_map_iff in Hc' as [lc [<- Hl]]. apply levels_1_nth in E2 as [_ E2]. apply In_nth_error in Hl as [k Hl]. destruct (E2 k lc Hl) as [K1 K2].
      destruct (proj2 L1 (S k)) as [lv2 [Y1 Y2]]; [lia|]. rewrite K2 in Y1. apply some_inj in Y1. subst lv2. destruct (proj1 (proj1 L1) _ _ K2) as [_ [M1 [M2 _]]].
      split; [apply M1; lia|]. split; [|exact Y2]. intros y. apply M2, (zero_refl ts wf). }
    pose proof (lt_fixed_ok check Hc ts wf Fi Fq _ _ _ _ Cu (proj1 I0) (proj2 I0) E3) as [Y1 Y2]. cbn [fst snd] in Y1, Y2.
    destruct e as [e|]; injection E as <- <-; (split; [assumption|split; [split; [exact P1|exact Y1]|exact X2]]).
Qed.

Section Loop.
Context {St0 : Type} (step : nat -> St0 -> out (tres * St0)) (inv : nat -> St0 -> Prop) (keep : St0 -> Prop) (ans : tres -> Prop).
Hypothesis Hstep : forall p st r st', inv p st -> step p st = Ret (r, st') -> ans r /\ keep st' /\ (r = TUnknown -> inv (S p) st').
Lemma power_loop_keep fuel : forall p st r st', inv p st -> power_loop step fuel p st = Ret (r, st') -> ans r /\ keep st' /\ r <> TUnknown.
Proof.
  induction fuel as [|fuel IH]; intros p st r st' H E; [discriminate|]. cbn [power_loop] in E.
  apply obind_ret in E as [[r1 st1] [E1 E]]. destruct (Hstep _ _ _ _ H E1) as [A [B C]]. destruct r1; [injection E as <- <-; split; [exact A|split; [exact B|discriminate]]..|].
  eapply IH; [apply C; reflexivity|exact E].
Qed.
End Loop.
End One.

(** ** TPASplit *)
Variable ts : tsys.
Hypothesis wf : ts_wf ts = true.
Definition split_state_ok (st : split_object) : Prop := split_keep ts st.

Lemma split_new_ok : split_state_ok (split_new ts).
Proof. destruct (split_start_ok check ts wf) as [A B]. split; [exact (proj1 A)|exact B]. Qed.

Theorem split_ask_ok fuel st from to r st' : split_state_ok st -> state_formula ts from -> state_formula ts to -> (from = tt_false \/ exists s, holds s from) ->
  split_ask check itp itp2 elim isimp fuel ts st from to = Ret (r, st') ->
  split_state_ok st' /\
  match r with
  | TUnsafe t n => from <> tt_false /\ reached_ok ts from to t n
  | TSafe e => gave_up check ts \/ expl_ok (with_states ts from to) e
  | TUnknown => False
  end.
Proof.
  intros [S1 S2] F1 F2 Ne E. pose (ts' := with_states ts from to). assert (wf' : ts_wf ts' = true) by (apply with_wf; assumption).
  assert (Keep : forall x, split_keep ts' x -> split_state_ok x).
  { intros x [[A B] C]. split; [|exact C]. split; [exact A|]. intros p t H. destruct (B p t H) as [B1 [B2 B3]]. split; [exact B1|]. split; [exact B2|].
    intros n s s' Hn St. apply (B3 n s s' Hn). eapply Steps_same; [apply with_same|exact St]. }
  unfold split_ask in E. fold ts' in E.
  assert (K0 : split_inv check ts' 0 (mkS (mkQ (q_lv (s_q (fst st))) []) (s_lt (fst st)), snd st)).
  { split; [|exact S2]. split; [|split; [intros; lia|intros; lia]]. destruct S1 as [[A _] B]. split; [split; [exact A|intros p f t x n []]|].
    intros p t H. destruct (B p t H) as [B1 [B2 B3]]. split; [exact B1|]. split; [exact B2|]. intros n s s' Hn St. apply (B3 n s s' Hn). eapply Steps_same; [apply with_same'|exact St]. }
  unfold tpa_solve in E. destruct (trivial_check ts') as [e|] eqn:Et.
  - injection E as <- <-. split; [apply Keep; split; [exact (proj1 (proj1 K0))|exact S2]|]. right. apply (trivial_ok ts' wf'), Et.
  - assert (Nf : from <> tt_false).
    { intros ->. unfold trivial_check in Et. destruct (term_eqb (tquery ts') tt_false); [discriminate|]. cbn [ts' with_states tinit] in Et.
      destruct (term_eqb_spec tt_false tt_false); [discriminate|congruence]. }
    destruct Ne as [Ne|Ne]; [contradiction|].
    destruct (power_loop_keep _ (split_inv check ts') (split_keep ts') (ask_ans ts') (fun p st r st' => split_power_keep ts' wf' F1 F2 Ne fuel p st r st') fuel 0 _ _ _ K0 E) as [A [B C]].
    split; [apply Keep, B|]. destruct r as [t n|e|]; [|exact A|congruence]. split; [exact Nf|]. destruct A as [A1 [A2 A3]]. split; [exact A1|]. split; [exact A2|].
    intros s Hs'. destruct (A3 s Hs') as [A4 [s0 [A5 A6]]]. split; [exact A4|]. exists s0. split; [exact A5|]. eapply Steps_same; [apply with_same'|exact A6].
Qed.

(** ** TPABasic *)
Definition basic_state_ok (st : basic_object) : Prop := basic_keep ts st.
Lemma basic_new_ok : basic_state_ok (basic_new ts).
Proof. destruct (basic_start_ok check ts) as [A B]. split; [exact (proj1 A)|exact B]. Qed.
Theorem basic_ask_ok fuel st from to r st' : basic_state_ok st -> state_formula ts from -> state_formula ts to ->
  basic_ask check itp elim isimp fuel ts st from to = Ret (r, st') ->
  basic_state_ok st' /\
  match r with
  | TUnsafe t n => from <> tt_false /\ state_formula ts t /\ (exists s, holds s t) /\ forall s, holds s t -> holds s to /\ exists m s0 u, holds s0 from /\ Steps ts m s0 u /\ same_state ts u s
  | TSafe e => gave_up check ts \/ expl_ok (with_states ts from to) e
  | TUnknown => False
  end.
Proof.
  intros [S1 S2] F1 F2 E. pose (ts' := with_states ts from to). assert (wf' : ts_wf ts' = true) by (apply with_wf; assumption).
  unfold basic_ask in E. fold ts' in E.
  assert (K0 : basic_inv check ts' 0 (mkQ (q_lv (fst st)) [], snd st)).
  { split; [|exact S2]. split; [|intros; lia]. destruct S1 as [A _]. split; [exact A|intros p f t x n []]. }
  unfold tpa_solve in E. destruct (trivial_check ts') as [e|] eqn:Et.
  - injection E as <- <-. split; [split; [exact (proj1 (proj1 K0))|exact S2]|]. right. apply (trivial_ok ts' wf'), Et.
  - assert (Nf : from <> tt_false).
    { intros ->. unfold trivial_check in Et. destruct (term_eqb (tquery ts') tt_false); [discriminate|]. cbn [ts' with_states tinit] in Et.
      destruct (term_eqb_spec tt_false tt_false); [discriminate|congruence]. }
    destruct (power_loop_keep _ (basic_inv check ts') (basic_keep ts') (ask_ans_basic ts') (fun p st r st' => basic_power_keep ts' wf' F1 F2 fuel p st r st') fuel 0 _ _ _ K0 E) as [A [B C]].
    split; [exact B|]. destruct r as [t n|e|]; [|exact A|congruence]. split; [exact Nf|]. destruct A as [A1 [A2 A3]]. split; [exact A1|]. split; [exact A2|].
    intros s Hs'. destruct (A3 s Hs') as [A4 [m [s0 [u [A5 [A6 A7]]]]]]. split; [exact A4|]. exists m, s0, u. split; [exact A5|]. split; [eapply Steps_same; [apply with_same'|exact A6]|exact A7].
Qed.
End Reuse.
