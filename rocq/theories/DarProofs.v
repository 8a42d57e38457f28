(** * Proofs about the model of DAR. *)
From Verif Require Import Syntax Solver TransSys TSLemmas KTo1Model KindModel KindProofs DarModel.

(** ** Sequences of formulas *)
Lemma el_set_eq l i t : (i < length l)%nat -> el (set_el l i t) i = t.
Proof.
  unfold el. revert i; induction l as [|x l IH]; intros [|i] H; simpl in *; try lia; auto.
  apply IH. lia.
Qed.
Lemma el_set_neq l i j t : i <> j -> el (set_el l i t) j = el l j.
Proof.
  unfold el. revert i j; induction l as [|x l IH]; intros [|i] [|j] H; simpl; auto; try lia.
Qed.
Lemma set_el_length l i t : length (set_el l i t) = length l.
Proof. revert i; induction l as [|x l IH]; intros [|i]; simpl; auto. Qed.
Lemma el_app_l l x i : (i < length l)%nat -> el (l ++ [x]) i = el l i.
Proof. intros H. unfold el. apply app_nth1, H. Qed.
Lemma el_app_r l x : el (l ++ [x]) (length l) = x.
Proof. unfold el. rewrite app_nth2 by lia. rewrite Nat.sub_diag. reflexivity. Qed.

Lemma el_firstn L i j : (j < i)%nat -> (i <= length L)%nat -> nth j (firstn i L) tt_false = el L j.
Proof.
  intros H1 H2. unfold el. rewrite <- (firstn_skipn i L) at 2. symmetry. apply app_nth1.
  rewrite firstn_length_le; lia.
Qed.

Record seq_ok (ts : tsys) (stp : state -> state -> Prop) (f0 : term) (avoid : state -> Prop)
       (L : list term) : Prop := {
  sq_ne : (0 < length L)%nat;
  sq_0 : el L 0 = f0;
  sq_state : forall i, (i < length L)%nat -> state_formula ts (el L i);
  sq_step : forall i (s s' : state), (S i < length L)%nat -> holds s (el L i) -> stp s s' -> holds s' (el L (S i));
  sq_avoid : forall i (s : state), (i < length L)%nat -> holds s (el L i) -> ~ avoid s
}.

Section S.
Variable ts : tsys.
Variable stp : state -> state -> Prop.
Variable f0 : term.
Variable avoid : state -> Prop.
Notation ok := (seq_ok ts stp f0 avoid).

Lemma seq_conj L i J :
  ok L -> (S i < length L)%nat -> state_formula ts J ->
  (forall s s' : state, holds s (el L i) -> stp s s' -> holds s' J) ->
  ok (set_el L (S i) (mkAnd [el L (S i); J])).
Proof.
  intros [H1 H2 H3 H4 H5] Hi HJ HS. split.
  - rewrite set_el_length. exact H1.
  - rewrite el_set_neq; [exact H2|lia].
  - intros k Hk. rewrite set_el_length in Hk. destruct (Nat.eq_dec (S i) k) as [<-|E].
    + rewrite el_set_eq by exact Hi. apply state_formula_and. intros f [<-|[<-|[]]]; auto.
    + rewrite el_set_neq by exact E. auto.
  - intros k s s' Hk Hs St. rewrite set_el_length in Hk.
    assert (Hs' : holds s (el L k)).
    { destruct (Nat.eq_dec (S i) k) as [<-|E].
      - rewrite el_set_eq in Hs by exact Hi. apply holds_and2 in Hs. apply Hs.
      - rewrite el_set_neq in Hs by exact E. exact Hs. }
    specialize (H4 k s s' Hk Hs' St). destruct (Nat.eq_dec i k) as [<-|E].
    + rewrite el_set_eq by exact Hi. apply holds_and2. split; eauto.
    + rewrite el_set_neq by lia. exact H4.
  - intros k s Hk Hs. rewrite set_el_length in Hk. apply (H5 k s Hk).
    destruct (Nat.eq_dec (S i) k) as [<-|E].
    + rewrite el_set_eq in Hs by exact Hi. apply holds_and2 in Hs. apply Hs.
    + rewrite el_set_neq in Hs by exact E. exact Hs.
Qed.

Lemma seq_push L n J :
  ok L -> length L = S n -> state_formula ts J ->
  (forall s s' : state, holds s (el L n) -> stp s s' -> holds s' J) ->
  (forall s : state, holds s J -> ~ avoid s) ->
  ok (L ++ [J]).
Proof.
  intros [H1 H2 H3 H4 H5] Hn HJ HS HA. split.
  - rewrite app_length. lia.
  - rewrite el_app_l; auto.
  - intros k Hk. rewrite app_length in Hk; simpl in Hk.
    destruct (Nat.eq_dec k (length L)) as [->|E]; [rewrite el_app_r; exact HJ|].
    rewrite el_app_l by lia. apply H3. lia.
  - intros k s s' Hk. rewrite app_length in Hk; simpl in Hk. rewrite (el_app_l L J k) by lia.
    destruct (Nat.eq_dec (S k) (length L)) as [E|E].
    + rewrite E, el_app_r. replace k with n by lia. apply HS.
    + rewrite el_app_l by lia. apply H4. lia.
  - intros k s Hk. rewrite app_length in Hk; simpl in Hk.
    destruct (Nat.eq_dec k (length L)) as [->|E]; [rewrite el_app_r; apply HA|].
    rewrite el_app_l by lia. apply H5. lia.
Qed.

(** Disjunction of the first [i] elements. *)
Lemma holds_firstn L i (s : state) : (i <= length L)%nat ->
  (holds s (mkOr (firstn i L)) <-> exists j, (j < i)%nat /\ holds s (el L j)).
Proof.
  intros Hi. rewrite holds_or, Exists_exists. split.
  - intros [f [Hf Hs]]. apply (In_nth _ _ tt_false) in Hf as [j [Hj <-]].
    rewrite firstn_length_le in Hj by exact Hi. exists j. split; [exact Hj|].
    rewrite el_firstn in Hs by lia. exact Hs.
  - intros [j [Hj Hs]]. exists (el L j). split; [|exact Hs].
    rewrite <- (el_firstn L i j) by lia.
    apply nth_In. rewrite firstn_length_le; lia.
Qed.

Lemma seq_fix check L i :
  check_ok check -> ok L -> check_sequence check L = Some i ->
  state_formula ts (mkOr (firstn i L)) /\
  (forall s : state, holds s f0 -> holds s (mkOr (firstn i L))) /\
  (forall s s' : state, holds s (mkOr (firstn i L)) -> stp s s' -> holds s' (mkOr (firstn i L))) /\
  (forall s : state, holds s (mkOr (firstn i L)) -> ~ avoid s).
Proof.
  intros Hc [H1 H2 H3 H4 H5] E. unfold check_sequence in E.
  apply find_some in E as [Hi Hu]. apply in_seq in Hi.
  assert (Hlt : (i < length L)%nat) by lia.
  assert (Hu' : forall s : state, holds s (el L i) -> holds s (mkOr (firstn i L))).
  { intros s Hs. destruct (check _) eqn:Ec; try discriminate.
    destruct (holds_dec s (mkOr (firstn i L))) as [Y|N]; [exact Y|exfalso].
    apply (check_unsat _ Hc _ Ec s). constructor; [|constructor].
    apply holds_and2. split; [exact Hs|]. apply holds_not, N. }
  split; [|split; [|split]].
  - apply state_formula_or. intros f Hf. apply (In_nth _ _ tt_false) in Hf as [j [Hj <-]].
    rewrite firstn_length_le in Hj by lia. 
    rewrite el_firstn by lia. apply H3; lia.
  - intros s Hs. apply holds_firstn; [lia|]. exists 0%nat. split; [lia|]. rewrite H2. exact Hs.
  - intros s s' Hs St. apply holds_firstn in Hs as [j [Hj Hs]]; [|lia].
    assert (G : holds s' (el L (S j))) by (apply (H4 j s s'); auto; lia).
    destruct (Nat.eq_dec (S j) i) as [<-|N]; [apply Hu', G|].
    apply holds_firstn; [lia|]. exists (S j). split; [lia|exact G].
  - intros s Hs. apply holds_firstn in Hs as [j [Hj Hs]]; [|lia]. apply (H5 j s); auto; lia.
Qed.
End S.

Section D.
Variable ts : tsys.
Hypothesis wf : ts_wf ts = true.
Hypothesis na : no_aux ts = true.
Variable check : check_fn.
Variable itp : itp_fn.
Variable pitp : pitp_fn.
Hypothesis Hc : check_ok check.
Hypothesis Hi : itp_ok itp.
Hypothesis Hp : pitp_ok pitp.

Definition Fok := seq_ok ts (Step ts) (tinit ts) (Bad ts).
Definition Bok := seq_ok ts (fun s s' => Step ts s' s) (tquery ts) (Init ts).

(** Interpolants of one step. *)
Lemma fwd_interp f b j : state_formula ts f -> state_formula ts b ->
  itp [f; ttrans ts] [shift 1 b] = Some j ->
  state_formula ts (shift (-1) j) /\
  (forall s s' : state, holds s f -> Step ts s s' -> holds s' (shift (-1) j)) /\
  (forall s : state, holds s (shift (-1) j) -> ~ holds s b).
Proof.
  intros Hf Hb E. apply Hi in E as [EA EB EV].
  assert (SJ : state_formula ts (shift (-1) j)).
  { apply (unshift_state ts j 1). intros v Hv. destruct (EV v Hv) as [_ H2].
    apply in_lvars in H2 as [t [[<-|[]] H2]]. apply (vars_shift_state ts b 1 v Hb H2). }
  assert (E1 : j = shift 1 (shift (-1) j)) by (rewrite shift_shift; symmetry; apply shift_0).
  split; [exact SJ|]. split.
  - intros s s' Hs St. destruct (glue_step_at ts wf 0 s s' St) as [r [R0 [R1 R2]]].
    assert (holds r j).
    { apply EA. constructor; [|constructor; [exact R2|constructor]].
      rewrite <- (shift_0 f). apply (state_formula_shift ts 0 f r s Hf); [|exact Hs].
      intros v Hv. apply R0; [lia|exact Hv]. }
    rewrite E1 in H. apply (state_formula_shift ts 1 (shift (-1) j) r s' SJ) in H; [exact H|].
    intros v Hv. apply R1; [lia|exact Hv].
  - intros s Hs Hb'. destruct (const_assignment ts wf s) as [r Hr].
    apply (EB r).
    + rewrite E1. apply (state_formula_shift ts 1 _ r s SJ); [|exact Hs]. intros v Hv. apply Hr, Hv.
    + constructor; [|constructor]. apply (state_formula_shift ts 1 _ r s Hb); [|exact Hb']. intros v Hv. apply Hr, Hv.
Qed.

Lemma bwd_interp f b j : state_formula ts f -> state_formula ts b ->
  itp [ttrans ts; shift 1 b] [f] = Some j ->
  state_formula ts j /\
  (forall s s' : state, holds s' b -> Step ts s s' -> holds s j) /\
  (forall s : state, holds s j -> ~ holds s f).
Proof.
  intros Hf Hb E. apply Hi in E as [EA EB EV].
  assert (SJ : state_formula ts j).
  { intros v Hv. destruct (EV v Hv) as [_ H2].
    apply in_lvars in H2 as [t [[<-|[]] H2]]. apply Hf, H2. }
  split; [exact SJ|]. split.
  - intros s s' Hs St. destruct (glue_step_at ts wf 0 s s' St) as [r [R0 [R1 R2]]].
    assert (holds r j).
    { apply EA. constructor; [exact R2|constructor; [|constructor]].
      apply (state_formula_shift ts 1 b r s' Hb); [|exact Hs].
      intros v Hv. apply R1; [lia|exact Hv]. }
    rewrite <- (shift_0 j) in H. apply (state_formula_shift ts 0 j r s SJ) in H; [exact H|].
    intros v Hv. apply R0; [lia|exact Hv].
  - intros s Hs Hb'. apply (EB s Hs). constructor; [exact Hb'|constructor].
Qed.

Lemma interpolate_forward_ok n fi F B j :
  Fok F -> Bok B -> (fi < length F)%nat -> (n - fi < length B)%nat ->
  interpolate_forward check itp ts n fi F B = Ok j ->
  state_formula ts (shift (-1) j) /\
  (forall s s' : state, holds s (el F fi) -> Step ts s s' -> holds s' (shift (-1) j)) /\
  (forall s : state, holds s (shift (-1) j) -> ~ holds s (el B (n - fi))).
Proof.
  intros HF HB H1 H2 E. unfold interpolate_forward in E.
  destruct (check _); try discriminate. destruct (itp _ _) as [j'|] eqn:E'; [|discriminate].
  inversion E; subst. apply fwd_interp; auto; [eapply sq_state; eauto|eapply sq_state; eauto].
Qed.
Lemma interpolate_backward_ok n bi F B j :
  Fok F -> Bok B -> (bi < length B)%nat -> (n - bi < length F)%nat ->
  interpolate_backward check itp ts n bi F B = Ok j ->
  state_formula ts j /\
  (forall s s' : state, holds s' (el B bi) -> Step ts s s' -> holds s j) /\
  (forall s : state, holds s j -> ~ holds s (el F (n - bi))).
Proof.
  intros HF HB H1 H2 E. unfold interpolate_backward in E.
  destruct (check _); try discriminate. destruct (itp _ _) as [j'|] eqn:E'; [|discriminate].
  inversion E; subst. apply bwd_interp; auto; [eapply sq_state; eauto|eapply sq_state; eauto].
Qed.

Lemma strengthen_fwd_ok cnt : forall n fi F B F',
  cnt = (n - fi)%nat -> Fok F -> Bok B -> length F = S n -> length B = S n -> (fi <= n)%nat ->
  strengthen_fwd check itp ts cnt n fi F B = Ok F' -> Fok F' /\ length F' = S n.
Proof.
  induction cnt as [|cnt IH]; intros n fi F B F' Ec HF HB LF LB Hfi E; simpl in E.
  - inversion E; subst; auto.
  - destruct (interpolate_forward check itp ts n fi F B) as [j|] eqn:E1; simpl in E; [|discriminate].
    apply interpolate_forward_ok in E1 as [A1 [A2 A3]]; auto; try lia.
    apply IH in E; auto; try lia.
    + apply seq_conj; auto; lia.
    + rewrite set_el_length. exact LF.
Qed.
Lemma strengthen_bwd_ok cnt : forall n bi F B B',
  cnt = (n - bi)%nat -> Fok F -> Bok B -> (n < length F)%nat -> length B = S n -> (bi <= n)%nat ->
  strengthen_bwd check itp ts cnt n bi F B = Ok B' -> Bok B' /\ length B' = S n.
Proof.
  induction cnt as [|cnt IH]; intros n bi F B B' Ec HF HB LF LB Hbi E; simpl in E.
  - inversion E; subst; auto.
  - destruct (interpolate_backward check itp ts n bi F B) as [j|] eqn:E1; simpl in E; [|discriminate].
    apply interpolate_backward_ok in E1 as [A1 [A2 A3]]; auto; try lia.
    apply IH in E; auto; try lia.
    + apply seq_conj; auto; try lia. intros s s' H H'. eapply A2; eauto.
    + rewrite set_el_length. exact LB.
Qed.

Lemma local_strengthening_ok n fi F B F' B' :
  Fok F -> Bok B -> length F = S n -> length B = S n -> (fi <= n)%nat ->
  local_strengthening check itp ts n fi F B = Ok (F', B') ->
  Fok F' /\ Bok B' /\ length F' = S (S n) /\ length B' = S (S n).
Proof.
  intros HF HB LF LB Hfi E. unfold local_strengthening in E.
  destruct (strengthen_fwd _ _ _ _ _ _ _ _) as [F1|] eqn:E1; simpl in E; [|discriminate].
  apply strengthen_fwd_ok in E1 as [HF1 LF1]; auto.
  destruct (interpolate_forward _ _ _ _ _ F1 B) as [j|] eqn:E2; simpl in E; [|discriminate].
  apply interpolate_forward_ok in E2 as [A1 [A2 A3]]; auto; try lia.
  assert (HF2 : Fok (F1 ++ [shift (-1) j])).
  { apply (seq_push ts _ _ _ F1 n); auto.
    intros s Hs Hb. apply (A3 s Hs). rewrite Nat.sub_diag.
    rewrite (sq_0 _ _ _ _ _ HB). apply (Bad_holds ts s na), Hb. }
  destruct (strengthen_bwd _ _ _ _ _ _ _ _) as [B1|] eqn:E3; simpl in E; [|discriminate].
  apply strengthen_bwd_ok in E3 as [HB1 LB1]; auto; try (rewrite app_length; simpl; lia); try lia.
  destruct (interpolate_backward _ _ _ _ _ _ _) as [j'|] eqn:E4; simpl in E; [|discriminate].
  apply interpolate_backward_ok in E4 as [C1 [C2 C3]]; auto; try lia; [|rewrite app_length; simpl; lia].
  inversion E; subst. split; [exact HF2|]. split; [|rewrite !app_length; simpl; lia].
  apply (seq_push ts _ _ _ B1 n); auto.
  - intros s s' H H'. eapply C2; eauto.
  - intros s Hs Hin. apply (C3 s Hs). rewrite Nat.sub_diag.
    rewrite (sq_0 _ _ _ _ _ HF2). apply (Init_holds ts s na), Hin.
Qed.

(** *** Global strengthening *)
Lemma strengthen_length js : forall k F, length (strengthen_itps k js F) = length F.
Proof. induction js as [|j js IH]; intros k F; simpl; [reflexivity|]. rewrite IH. apply set_el_length. Qed.

(** The rest of the sequence: [P] is the interpolant already conjoined to [F_k] (time [k]),
    [As] are the remaining partitions. *)
Lemma strengthen_chain L : forall k (P : term) rest last js F,
  (1 <= k)%nat ->
  Fok F -> (k + length js < length F)%nat ->
  state_formula ts (shift (- Z.of_nat k) P) ->
  (forall s : state, holds s (el F k) -> holds s (shift (- Z.of_nat k) P)) ->
  rest = map (fun t => [t]) (trans_at (ttrans ts) k L) ++ [last] -> length js = L ->
  itp_chain P rest js ->
  (forall i j, nth_error js i = Some j -> state_formula ts (shift (- Z.of_nat (k + 1 + i)) j)) ->
  Fok (strengthen_itps (S k) js F).
Proof.
  induction L as [|L IH]; intros k P rest last js F Hk HF HL SP HP Er Lj Ch Sj.
  - destruct js; [exact HF|discriminate].
  - destruct js as [|j js]; [discriminate|]. simpl in Er. subst rest.
    inversion Ch as [|? ? ? ? ? C1 C2]; subst. simpl.
    assert (S1 : state_formula ts (shift (- Z.of_nat (S k)) j)).
    { replace (S k) with (k + 1 + 0)%nat by lia. apply (Sj 0%nat j eq_refl). }
    assert (OK1 : Fok (set_el F (S k) (mkAnd [el F (S k); shift (- Z.of_nat (S k)) j]))).
    { apply seq_conj; auto; [simpl in HL; lia|].
      intros s s' Hs St. apply HP in Hs.
      destruct (glue_step_at ts wf (Z.of_nat k) s s' St) as [r [R0 [R1 R2]]].
      assert (Hj : holds r j).
      { apply C1.
        - assert (E1 : P = shift (Z.of_nat k) (shift (- Z.of_nat k) P))
            by (rewrite shift_shift, Z.add_opp_diag_r; symmetry; apply shift_0).
          rewrite E1. apply (state_formula_shift ts (Z.of_nat k) _ r s SP); [|exact Hs].
          intros v Hv. apply R0; [lia|exact Hv].
        - constructor; [exact R2|constructor]. }
      assert (E1 : j = shift (Z.of_nat (S k)) (shift (- Z.of_nat (S k)) j))
        by (rewrite shift_shift, Z.add_opp_diag_r; symmetry; apply shift_0).
      rewrite E1 in Hj. apply (state_formula_shift ts _ _ r s' S1) in Hj; [exact Hj|].
      intros v Hv. apply R1; [lia|exact Hv]. }
    eapply (IH (S k) j _ last js); auto.
    + rewrite set_el_length. simpl in HL. lia.
    + intros s Hs. rewrite el_set_eq in Hs by (simpl in HL; lia). apply holds_and2 in Hs. apply Hs.
    + intros i j' Hj'. replace (S k + 1 + i)%nat with (k + 1 + S i)%nat by lia. apply Sj. exact Hj'.
Qed.

Lemma chain_length P As Js : itp_chain P As Js -> length As = S (length Js).
Proof. induction 1; simpl; auto. Qed.

Lemma parts_upto i : forall n v, (1 <= n)%nat ->
  In v (lvars (concat (firstn i (map (fun t => [t]) (trans_at (ttrans ts) n i))))) ->
  upto ts (Z.of_nat (n + i)) (Var v).
Proof.
  intros n v Hn Hv. apply in_lvars in Hv as [t [Ht Hv]].
  apply in_concat in Ht as [x [Hx Ht]].
  rewrite firstn_all2 in Hx by (rewrite map_length; unfold trans_at; rewrite map_length, seq_length; lia).
  apply in_map_iff in Hx as [t' [<- Hx]]. destruct Ht as [<-|[]].
  unfold trans_at in Hx. apply in_map_iff in Hx as [m [<- Hm]]. apply in_seq in Hm.
  intros w [<-|[]]. apply (upto_trans ts wf (Z.of_nat m) (Z.of_nat (n + i))); [lia|exact Hv].
Qed.

Lemma chain_state (m : nat) (last : list term) js :
  (forall t, In t last -> from (Z.of_nat (S m)) t) ->
  chain_vars ([tinit ts; ttrans ts] :: map (fun t => [t]) (trans_at (ttrans ts) 1 m) ++ [last]) js ->
  length js = S m ->
  forall i j, nth_error js i = Some j -> state_formula ts (shift (- Z.of_nat (1 + i)) j).
Proof.
  intros Hlast CV LJ i j Hj.
  assert (Him : (i < S m)%nat) by (rewrite <- LJ; apply nth_error_Some; congruence).
  assert (Lt : length (map (fun t : term => [t]) (trans_at (ttrans ts) 1 m)) = m)
    by (rewrite map_length; unfold trans_at; rewrite map_length, seq_length; reflexivity).
  apply unshift_state. intros v Hv. destruct (CV i j Hj v Hv) as [H1 H2].
  apply in_lvars in H1 as [t1 [H1 V1]]. apply in_lvars in H2 as [t2 [H2 V2]].
  apply in_concat in H1 as [x1 [X1 H1]]. apply in_concat in H2 as [x2 [X2 H2]].
  assert (U : upto ts (Z.of_nat (1 + i)) t1).
  { simpl in X1. destruct X1 as [<-|X1].
    - destruct H1 as [<-|[<-|[]]].
      + rewrite <- (shift_0 (tinit ts)). apply (upto_state ts wf); [apply (no_aux_init ts na)|lia].
      + rewrite <- (shift_0 (ttrans ts)). apply (upto_trans ts wf). lia.
    - rewrite firstn_app, Lt in X1. replace (i - m)%nat with 0%nat in X1 by lia.
      simpl in X1. rewrite app_nil_r in X1.
      rewrite firstn_map in X1. apply in_map_iff in X1 as [t' [<- X1]].
      destruct H1 as [<-|[]]. unfold trans_at in X1. rewrite firstn_map in X1.
      apply in_map_iff in X1 as [q [<- X1]].
      assert (Hq : (1 <= q < 1 + i)%nat).
      { clear -X1 Him. 
        assert (G : forall m a, In q (firstn i (seq a m)) -> (a <= q < a + i)%nat).
        { clear. induction i as [|i IHi]; intros m a H; [destruct H|].
          destruct m as [|m]; [destruct H|]. simpl in H. destruct H as [<-|H]; [lia|].
          apply IHi in H. lia. }
        apply G in X1. lia. }
      apply (upto_trans ts wf). lia. }
  assert (Fr : from (Z.of_nat (1 + i)) t2).
  { simpl in X2. rewrite skipn_app, Lt in X2. apply in_app_or in X2 as [X2|X2].
    - rewrite skipn_map in X2. apply in_map_iff in X2 as [t' [<- X2]].
      destruct H2 as [<-|[]]. unfold trans_at in X2. rewrite skipn_map in X2.
      apply in_map_iff in X2 as [q [<- X2]].
      assert (Hq : (1 + i <= q)%nat).
      { clear -X2.
        assert (G : forall m a, In q (skipn i (seq a m)) -> (a + i <= q)%nat).
        { clear. induction i as [|i IHi]; intros m a H; [apply in_seq in H; lia|].
          destruct m as [|m]; [destruct H|]. simpl in H. apply IHi in H. lia. }
        apply G in X2. lia. }
      apply (from_trans ts wf). lia.
    - replace (i - m)%nat with 0%nat in X2 by lia. simpl in X2. destruct X2 as [<-|[]].
      intros w Hw. specialize (Hlast t2 H2 w Hw). lia. }
  destruct (U v V1) as [H|H]; [|exact H]. apply Fr in V2. lia.
Qed.

Lemma strengthen_parts_ok (m : nat) (last : list term) js F :
  Fok F -> (S m < length F)%nat ->
  (forall t, In t last -> from (Z.of_nat (S m)) t) ->
  pitp ([tinit ts; ttrans ts] :: map (fun t => [t]) (trans_at (ttrans ts) 1 m) ++ [last]) = Some js ->
  Fok (strengthen_itps 1 js F).
Proof.
  intros HF HL Hlast E. apply Hp in E as [Ch CV].
  assert (LJ : length js = S m).
  { pose proof (chain_length _ _ _ Ch) as H. simpl in H. rewrite app_length, map_length in H.
    unfold trans_at in H. rewrite map_length, seq_length in H. simpl in H. lia. }
  pose proof (chain_state m last js Hlast CV LJ) as SJ.
  destruct js as [|j js]; [discriminate|].
  inversion Ch as [|? ? ? ? ? C1 C2]; subst. simpl.
  assert (S1 : state_formula ts (shift (-1) j)) by apply (SJ 0%nat j eq_refl).
  change (- Z.pos 1) with (-1).
  eapply (strengthen_chain m 1 j); try reflexivity; auto.
  - apply seq_conj; auto; [lia|].
    intros s s' Hs St. rewrite (sq_0 _ _ _ _ _ HF) in Hs.
    destruct (glue_step_at ts wf 0 s s' St) as [r [R0 [R1 R2]]].
    assert (Hj : holds r j).
    { apply C1; [apply holds_true|]. constructor; [|constructor; [exact R2|constructor]].
      rewrite <- (shift_0 (tinit ts)).
      apply (state_formula_shift ts 0 _ r s (no_aux_init ts na)); [|exact Hs].
      intros v Hv. apply R0; [lia|exact Hv]. }
    assert (E1 : j = shift 1 (shift (-1) j)) by (rewrite shift_shift; symmetry; apply shift_0).
    rewrite E1 in Hj. apply (state_formula_shift ts _ _ r s' S1) in Hj; [exact Hj|].
    intros v Hv. apply R1; [lia|exact Hv].
  - rewrite set_el_length. simpl in LJ. lia.
  - intros s Hs. rewrite el_set_eq in Hs by lia. apply holds_and2 in Hs. apply Hs.
  - exact C2.
  - intros i j' Hj'. apply (SJ (S i) j' Hj').
Qed.

Lemma global_parts_ok n i F B js :
  Fok F -> Bok B -> length F = S n -> length B = S n -> (2 <= i <= n + 1)%nat ->
  pitp (global_parts ts n i B) = Some js -> Fok (strengthen_itps 1 js F).
Proof.
  intros HF HB LF LB Hin E. unfold global_parts in E.
  assert (SB : state_formula ts (el B (n + 1 - i))) by (eapply sq_state; [exact HB|lia]).
  destruct (Nat.eqb_spec i (n + 1)) as [Ei|Ei].
  - apply (strengthen_parts_ok (i - 2) _ _ F) in E; auto; [lia|].
    intros t [<-|[<-|[]]]; [apply (from_trans ts wf)|apply (from_state ts wf); [exact SB|]]; lia.
  - apply (strengthen_parts_ok (i - 1) _ _ F) in E; auto; [lia|].
    intros t [<-|[]]. apply (from_state ts wf); [exact SB|lia].
Qed.

Lemma global_loop_ok cnt : forall i n F B u,
  Fok F -> Bok B -> length F = S n -> length B = S n -> (2 <= i)%nat -> (i + cnt = n + 2)%nat ->
  ((cnt = 0)%nat -> u = true \/ error_path ts (n + 1)) ->
  match global_loop check itp pitp ts cnt i n F B u with
  | GStrengthened F' B' => Fok F' /\ Bok B' /\ length F' = S (S n) /\ length B' = S (S n)
  | GFailed u => u = false -> error_path ts (n + 1)
  | GExn => True
  end.
Proof.
  induction cnt as [|cnt IH]; intros i n F B u HF HB LF LB Hi2 Hcnt Hu; simpl.
  - intros Eu. destruct (Hu eq_refl) as [E|E]; [congruence|exact E].
  - assert (SATcase : forall m, check (global_query ts n i B) = SAT m -> (cnt = 0)%nat -> error_path ts (n + 1)).
    { intros m Em E0. apply (check_sat _ Hc) in Em. assert (i = (n + 1)%nat) by lia. subst i.
      apply (base_sat ts (n + 1) m). unfold base_query. unfold global_query in Em.
      rewrite Nat.sub_diag, (sq_0 _ _ _ _ _ HB) in Em. exact Em. }
    destruct (check (global_query ts n i B)) as [m| |] eqn:E.
    + apply IH; auto; try lia. intros E0. right. eapply SATcase; eauto.
    + destruct (pitp _) as [js|] eqn:Ep; [|exact Logic.I].
      destruct (local_strengthening _ _ _ _ _ _ _) as [[F' B']|] eqn:El; [|exact Logic.I].
      apply local_strengthening_ok in El; auto; try lia.
      * eapply global_parts_ok; eauto. lia.
      * rewrite strengthen_length. exact LF.
    + apply IH; auto; try lia.
Qed.

Lemma fixpoint_ok F B inv : Fok F -> Bok B -> fixpoint check F B = Some inv -> safe_inductive ts inv.
Proof.
  intros HF HB E. unfold fixpoint in E.
  destruct (check_sequence check F) as [i|] eqn:E1.
  - inversion E; subst. destruct (seq_fix ts _ _ _ check F i Hc HF E1) as [A1 [A2 [A3 A4]]].
    split; [exact A1| |exact A3|exact A4].
    intros s Hs. apply A2. apply (Init_holds ts s na), Hs.
  - destruct (check_sequence check B) as [i|] eqn:E2; [|discriminate].
    inversion E; subst. destruct (seq_fix ts _ _ _ check B i Hc HB E2) as [A1 [A2 [A3 A4]]].
    split.
    + apply state_formula_not, A1.
    + intros s Hs. apply holds_not. intros H. apply (A4 s H Hs).
    + intros s s' Hs St. apply holds_not. intros H. apply holds_not in Hs. apply Hs. eapply A3; eauto.
    + intros s Hs Hb. apply holds_not in Hs. apply Hs, A2. apply (Bad_holds ts s na), Hb.
Qed.

Definition dar_post (v : verdict * bool) : Prop :=
  match v with
  | (Safe inv, _) => safe_inductive ts inv
  | (Unsafe k, u) => u = false -> error_path ts k
  | _ => True
  end.

Lemma dar_loop_ok fuel : forall n F B, (1 <= n)%nat ->
  Fok F -> Bok B -> length F = S n -> length B = S n ->
  dar_post (dar_loop check itp pitp ts fuel n F B).
Proof.
  induction fuel as [|fuel IH]; intros n F B Hn HF HB LF LB; simpl; [exact Logic.I|].
  destruct (local_index check ts n F B) as [fi|] eqn:E.
  - assert (Hfi : (fi <= n)%nat).
    { unfold local_index in E. destruct (find _ _) as [j|]; [|discriminate]. inversion E. lia. }
    destruct (local_strengthening _ _ _ _ _ _ _) as [[F' B']|] eqn:El; [|exact Logic.I].
    apply local_strengthening_ok in El as [A1 [A2 [A3 A4]]]; auto.
    destruct (fixpoint check F' B') as [inv|] eqn:Ef.
    + simpl. eapply fixpoint_ok; eauto.
    + apply IH; auto; lia.
  - destruct n as [|n']; [lia|]. unfold global_strengthen. set (n := S n') in *.
    pose proof (global_loop_ok n 2 n F B true HF HB LF LB (le_n 2)) as G.
    destruct (global_loop check itp pitp ts n 2 n F B true) as [F' B'|u|] eqn:Eg; [| |exact Logic.I].
    + destruct G as [A1 [A2 [A3 A4]]]; [lia|auto|].
      destruct (fixpoint check F' B') as [inv|] eqn:Ef.
      * simpl. eapply fixpoint_ok; eauto.
      * apply IH; auto; lia.
    + simpl. apply G; [lia|auto].
Qed.

Lemma dar_ok fuel :
  match dar check itp pitp ts fuel with
  | (Safe inv, false) => safe_inductive ts inv
  | (Unsafe k, false) => error_path ts k
  | _ => True
  end.
Proof.
  unfold dar.
  assert (U0 : forall m, check [tinit ts; tquery ts] = SAT m -> error_path ts 0).
  { intros m E. apply (base_sat ts 0 m). apply (check_sat _ Hc) in E. exact E. }
  assert (R : check [tinit ts; tquery ts] = UNSAT -> dar_post (dar_run check itp pitp ts fuel)).
  { intros E0. unfold dar_run. destruct (check [tinit ts; ttrans ts; _]) as [m| |] eqn:E1; [| |exact Logic.I].
    - intros _. apply (base_sat ts 1 m). apply (check_sat _ Hc) in E1. exact E1.
    - destruct (itp _ _) as [f|] eqn:Ef; [|exact Logic.I].
      destruct (itp [ttrans ts; _] _) as [b|] eqn:Eb; [|exact Logic.I].
      pose proof (no_aux_init ts na) as SI. pose proof (no_aux_query ts na) as SQ.
      apply fwd_interp in Ef as [F1 [F2 F3]]; auto. apply bwd_interp in Eb as [B1 [B2 B3]]; auto.
      assert (NB : forall s : state, holds s (tinit ts) -> holds s (tquery ts) -> False).
      { intros s H1 H2. apply (check_unsat _ Hc _ E0 s). repeat constructor; auto. }
      apply dar_loop_ok; auto.
      + split; simpl; [lia|reflexivity| | |].
        * intros [|[|i]] Hlt; simpl in *; auto; lia.
        * intros [|i] s s' Hlt Hs St; [|simpl in Hlt; lia]. apply (F2 s s' Hs St).
        * intros [|[|i]] s Hlt Hs Hb; [| |simpl in Hlt; lia]; apply (Bad_holds ts s na) in Hb.
          -- eapply NB; eauto.
          -- eapply F3; eauto.
      + split; simpl; [lia|reflexivity| | |].
        * intros [|[|i]] Hlt; simpl in *; auto; lia.
        * intros [|i] s s' Hlt Hs St; [|simpl in Hlt; lia]. apply (B2 s' s Hs St).
        * intros [|[|i]] s Hlt Hs Hb; [| |simpl in Hlt; lia]; apply (Init_holds ts s na) in Hb.
          -- eapply NB; eauto.
          -- eapply B3; eauto. }
  destruct (check [tinit ts; tquery ts]) as [m| |].
  - eauto.
  - specialize (R eq_refl). simpl. destruct (dar_run check itp pitp ts fuel) as [v u]; simpl.
    destruct v; try exact Logic.I; simpl in R; destruct u; auto.
  - simpl. destruct (dar_run check itp pitp ts fuel) as [v u]. destruct v; exact Logic.I.
Qed.
End D.
