(** * TPA: inductive invariants from transition invariants *)
From Verif Require Import Syntax Solver TransSys TSLemmas KTo1Model KTo1Proofs KTo1Proofs2 KindProofs FormulaModel NontermProofs ListLemmas TrlRun TpaModel TpaProofs TpaQuery TpaLess TpaFix.
Open Scope list_scope.
Open Scope nat_scope.

Section Inv.
Variable check : check_fn.
Hypothesis Hc : check_ok check.
Variable pitp : pitp_fn.
Hypothesis Hp : pitp_ok pitp.
Variable qe : qe_fn.
Hypothesis Hq : qe_ok qe.
Variable ts : tsys.
Hypothesis wf : ts_wf ts = true.
Hypothesis Fi : state_formula ts (tinit ts).
Hypothesis Fq : state_formula ts (tquery ts).
Notation sv := (svars ts).
Notation rel := (rel ts).
Notation pure := (pure ts).
Notation svat := (svat ts).

Lemma qe_elim_sem f vs g : qe_eliminate qe f vs = Some g ->
  (forall v, In v (vars g) -> In v (vars f) /\ ~ In v vs) /\
  forall r, holds r g <-> exists r', (forall v, ~ In v vs -> r' v = r v) /\ holds r' f.
Proof.
  intros E. unfold qe_eliminate in E. destruct (Hq _ _ _ E) as [V S]. split.
  - intros v H. apply V, filter_In in H as [H1 H2]. split; [exact H1|]. apply negb_true_iff, inb_false in H2. exact H2.
  - intros r. rewrite S. split; intros [r' [A H]].
    + exists (fun v => if inb v vs then r' v else r v). split.
      * intros v N. destruct (inb_spec v vs); [contradiction|reflexivity].
      * refine (proj1 (holds_agree r' _ _ _) H). intros v Hv. destruct (inb_spec v vs) as [|N]; [reflexivity|]. symmetry. apply A, filter_In. split; [exact Hv|].
        apply negb_true_iff. destruct (inb_spec v vs); [contradiction|reflexivity].
    + exists r'. split; [|exact H]. intros v Hv. apply filter_In in Hv as [_ N]. apply negb_true_iff, inb_false in N. symmetry. apply A, N.
Qed.

Lemma in_svat0 v : In v (svat 0) <-> In v sv.
Proof. unfold TpaModel.svat. rewrite (map_ext _ (fun v => v)), map_id by apply shiftv_0. reflexivity. Qed.

Lemma left_inv r ti g : expl_ok ts (LessThanExpl r LEFT ti) -> qe (mkAnd [ti; shift 1 (tquery ts)]) (svat 0) = Some g -> safe_inductive ts (mkNot g).
Proof.
  intros [P [I0 [Ex [Nq C]]]] E. destruct (Hq _ _ _ E) as [V S].
  assert (G : forall s, holds s g <-> exists s', rel ti s s' /\ holds s' (tquery ts)).
  { intros s. rewrite S. split.
    - intros [u [A H]]. apply holds_and2 in H as [H1 H2]. exists (at_time 1 u). split.
      + apply (rel_0 ts u); [intros v Hv; symmetry; apply A, in_svat0, Hv|intros v Hv; reflexivity|exact H1].
      + apply holds_shift_at in H2. exact H2.
    - intros [s' [[u [A [B H1]]] H2]]. exists u. split; [intros v Hv; symmetry; apply A, in_svat0, Hv|]. apply holds_and2. split; [exact H1|]. apply (sf_at ts _ u 1 s' Fq B), H2. }
  split.
  - intros v Hv. apply in_vars_app in Hv as [x [[<-|[]] Hv]]. apply in_svat0, V, Hv.
  - intros s Hs. apply (init_of ts Fi) in Hs. apply holds_not. rewrite G. intros [s' [H1 H2]]. exact (Ex s s' Hs H2 H1).
  - intros s s' H St. apply holds_not. rewrite G. intros [u [H1 H2]]. apply holds_not in H. apply H, G. exists u. split; [|exact H2]. apply (C s s' u); auto.
    destruct r; [exact I|congruence|exact H2].
  - intros s H Hb. apply (bad_of ts Fq) in Hb. apply holds_not in H. apply H, G. exists s. auto.
Qed.
Lemma right_inv r ti g : expl_ok ts (LessThanExpl r RIGHT ti) -> qe (mkAnd [tinit ts; ti]) (svat 1) = Some g -> safe_inductive ts (shift (-1) g).
Proof.
  intros [P [I0 [Ex [Nq C]]]] E. destruct (Hq _ _ _ E) as [V S].
  assert (G : forall s, holds s (shift (-1) g) <-> exists s0, holds s0 (tinit ts) /\ rel ti s0 s).
  { intros s. rewrite holds_shift, S. split.
    - intros [u [A H]]. apply holds_and2 in H as [H1 H2]. exists u. split; [exact H1|]. apply (rel_0 ts u); [intros v Hv; reflexivity| |exact H2].
      intros v Hv. rewrite <- (A (shiftv 1 v)) by (apply in_map, Hv). rewrite shiftv_shiftv. change (-1 + 1)%Z with 0%Z. rewrite shiftv_0. reflexivity.
    - intros [s0 [H1 [u [A [B H2]]]]]. exists u. split.
      + intros v Hv. apply in_map_iff in Hv as [w [<- Hw]]. rewrite shiftv_shiftv. change (-1 + 1)%Z with 0%Z. rewrite shiftv_0. symmetry. apply B, Hw.
      + apply holds_and2. split; [apply (sf_at0 ts _ u s0 Fi A), H1|exact H2]. }
  split.
  - change (-1)%Z with (- (1))%Z. apply unshift_state. intros v Hv. apply V, in_map_iff in Hv as [w [<- Hw]]. eauto.
  - intros s Hs. apply (init_of ts Fi) in Hs. apply G. exists s. auto.
  - intros s s' H St. apply G in H as [s0 [H1 H2]]. apply G. exists s0. split; [exact H1|]. apply (C s0 s s'); auto. destruct r; [exact I|exact H1|congruence].
  - intros s H Hb. apply (bad_of ts Fq) in Hb. apply G in H as [s0 [H1 H2]]. exact (Ex s0 s H1 Hb H2).
Qed.

Lemma equals_sem lt ex f g s : pure lt -> pure ex ->
  qe_eliminate qe (mkAnd [tinit ts; eq_ti ts lt ex]) (svat 0) = Some f -> qe_eliminate qe f (svat 1) = Some g ->
  (forall v, In v (vars g) -> exists w, In w sv /\ v = shiftv 2 w) /\
  (holds s (shift (-2) g) <-> exists s0, holds s0 (tinit ts) /\ (rel lt s0 s \/ exists s1, rel lt s0 s1 /\ rel ex s1 s)).
Proof.
  intros Pl Pe E1 E2. destruct (qe_elim_sem _ _ _ E1) as [V1 S1]. destruct (qe_elim_sem _ _ _ E2) as [V2 S2].
  assert (V0 : forall v, In v (vars (mkAnd [tinit ts; eq_ti ts lt ex])) -> In v (svat 0) \/ In v (svat 1) \/ In v (svat 2)).
  { intros v Hv. apply in_vars_app in Hv as [x [[<-|[<-|[]]] Hv]]; [left; apply in_svat0, Fi, Hv|].
    apply in_vars_app in Hv as [x [[<-|[<-|[]]] Hv]].
    - apply (shift_next_vars ts wf) in Hv; [|exact Pl]. destruct Hv as [Hv|[w [Hw ->]]]; [left; apply in_svat0, Hv|right; right; apply in_map, Hw].
    - apply in_vars_app in Hv as [x [[<-|[<-|[]]] Hv]].
      + destruct (Pl v Hv) as [H|[w [Hw ->]]]; [left; apply in_svat0, H|right; left; apply in_map, Hw].
      + rewrite vars_shift in Hv. apply in_map_iff in Hv as [u [<- Hu]]. destruct (Pe u Hu) as [H|[w [Hw ->]]]; [right; left; apply in_map, H|].
        right; right. rewrite shiftv_shiftv. apply in_map, Hw. }
  split.
  { intros v Hv. apply V2 in Hv as [Hv N1]. apply V1 in Hv as [Hv N0]. destruct (V0 v Hv) as [H|[H|H]]; try contradiction. apply in_map_iff in H as [w [<- Hw]]. eauto. }
  rewrite holds_shift, S2. split.
  - intros [r1 [A1 H]]. apply S1 in H as [r2 [A2 H]]. apply holds_and2 in H as [H1 H2]. exists r2. split; [exact H1|].
    assert (N : forall w, In w sv -> ~ In (shiftv 2 w) (svat 0) /\ ~ In (shiftv 2 w) (svat 1)).
    { intros w Hw. apply (sv0 ts wf) in Hw. split; intros K; apply in_map_iff in K as [u [K Hu]]; apply (sv0 ts wf) in Hu; destruct u as [ui ut us], w as [wi wt ws]; cbn in Hu, Hw, K; subst; cbn in K; discriminate. }
    assert (B : forall w, In w sv -> r2 (shiftv 2 w) = s w).
    { intros w Hw. destruct (N w Hw) as [N0 N1]. rewrite (A2 _ N0), (A1 _ N1), shiftv_shiftv. change (-2 + 2)%Z with 0%Z. rewrite shiftv_0. reflexivity. }
    unfold eq_ti in H2. apply holds_or2 in H2 as [H2|H2].
    + left. apply (shift_next_rel ts wf lt r2 r2 s Pl); [intros v _; reflexivity|exact B|exact H2].
    + right. apply holds_and2 in H2 as [H2 H3]. exists (at_time 1 r2). split.
      * apply (rel_0 ts r2); [intros v _; reflexivity|intros v _; reflexivity|exact H2].
      * apply (rel_shift ts r2 1 ex) in H3. eapply (rel_agree ts); [| |exact H3]; intros v Hv; [reflexivity|apply B, Hv].
  - intros [s0 [H1 H2]].
    assert (G : exists s1 u, agree_on sv u s0 /\ (forall v, In v sv -> u (shiftv 1 v) = s1 v) /\ (forall v, In v sv -> u (shiftv 2 v) = s v) /\ holds u (mkAnd [tinit ts; eq_ti ts lt ex])).
    { destruct H2 as [H2|[s1 [H2 H3]]].
      - destruct (glue_rels ts wf (fun i => if Z.leb i 0 then s0 else s) [] (NoDup_nil _)) as [u [R0 _]]; [intros ? ? []|].
        assert (A : agree_on sv u s0) by (intros v Hv; specialize (R0 0%Z v Hv); rewrite shiftv_0 in R0; exact R0).
        exists s, u. split; [exact A|]. split; [intros v Hv; exact (R0 1%Z v Hv)|]. split; [intros v Hv; exact (R0 2%Z v Hv)|].
        apply holds_and2. split; [apply (sf_at0 ts _ u s0 Fi A), H1|]. apply holds_or2. left. apply (shift_next_rel ts wf lt u s0 s Pl A); [intros v Hv; exact (R0 2%Z v Hv)|exact H2].
      - destruct (glue_rels ts wf (fun i => if Z.leb i 0 then s0 else if Z.leb i 1 then s1 else s) [] (NoDup_nil _)) as [u [R0 _]]; [intros ? ? []|].
        assert (A : agree_on sv u s0) by (intros v Hv; specialize (R0 0%Z v Hv); rewrite shiftv_0 in R0; exact R0).
        exists s1, u. split; [exact A|]. split; [intros v Hv; exact (R0 1%Z v Hv)|]. split; [intros v Hv; exact (R0 2%Z v Hv)|].
        apply holds_and2. split; [apply (sf_at0 ts _ u s0 Fi A), H1|]. apply holds_or2. right. apply holds_and2. split.
        + eapply pure_hold0; [exact Pl|exact H2|exact A|intros v Hv; exact (R0 1%Z v Hv)].
        + eapply pure_hold; [exact Pe|exact H3|intros v Hv; exact (R0 1%Z v Hv)|intros v Hv; exact (R0 2%Z v Hv)]. }
    destruct G as [s1 [u [A [B [C H]]]]].
    pose (r0 := fun v => s (shiftv (-2) v)). pose (r1 := fun v => if inb v (svat 1) then u v else r0 v). pose (r2 := fun v => if inb v (svat 0) then u v else r1 v).
    exists r1. split; [intros v N; unfold r1; destruct (inb_spec v (svat 1)); [contradiction|reflexivity]|]. apply S1. exists r2.
    split; [intros v N; unfold r2; destruct (inb_spec v (svat 0)); [contradiction|reflexivity]|].
    refine (proj1 (holds_agree u r2 _ _) H). intros v Hv. unfold r2, r1, r0. destruct (inb_spec v (svat 0)); [reflexivity|]. destruct (inb_spec v (svat 1)); [reflexivity|].
    destruct (V0 v Hv) as [K|[K|K]]; try contradiction. apply in_map_iff in K as [w [<- Hw]]. rewrite shiftv_shiftv. change (-2 + 2)%Z with 0%Z. rewrite shiftv_0. apply C, Hw.
Qed.

Lemma equals_inv r i ti inv : expl_ok ts (EqualsExpl r i ti) -> r <> ToQuery -> no_aux ts = true -> inv_from_equals check ts pitp qe i ti = Ret (Some inv) -> safe_inductive ts inv.
Proof.
  intros [lt [ex [-> [Pl [Pe [Hi [L [X [C Ex]]]]]]]]] Nr Na E. unfold inv_from_equals in E.
  destruct (qe_eliminate qe _ (svat 0)) as [f|] eqn:E1; [|discriminate]. destruct (qe_eliminate qe f (svat 1)) as [g|] eqn:E2; [|discriminate].
  destruct (kinductive_to_inductive _ _ _ _ _) as [t|] eqn:E3; [|discriminate]. injection E as <-.
  assert (G : forall s, holds s (shift (-2) g) <-> exists s0, holds s0 (tinit ts) /\ (rel lt s0 s \/ exists s1, rel lt s0 s1 /\ rel ex s1 s)).
  { intros s. eapply equals_sem; eauto. }
  assert (K : kinductive ts (shift (-2) g) (Nat.pow 2 i)).
  { split.
    - change (-2)%Z with (- (2))%Z. apply unshift_state. intros v Hv. destruct (proj1 (equals_sem lt ex f g (fun _ => VInt 0) Pl Pe E1 E2) v Hv) as [w [Hw ->]]. eauto.
    - intros n s s' Hn Hs H. apply (init_of ts Fi) in Hs. apply G. exists s. split; [exact Hs|]. left. apply (L n); auto.
    - intros s s' H.
      assert (H0 : holds s (shift (-2) g) /\ Steps ts (Nat.pow 2 i) s s').
      { assert (Hn : 1 <= Nat.pow 2 i) by apply pow2_pos. split; [destruct (Nat.pow 2 i); [lia|inversion H; subst; assumption]|].
        clear - H. induction H; econstructor; eauto. }
      destruct H0 as [H0 H1]. apply G in H0 as [s0 [H2 H3]]. apply X in H1. apply G. exists s0. split; [exact H2|]. right. destruct H3 as [H3|[s1 [H3 H4]]].
      + exists s. auto.
      + exists s1. split; [exact H3|]. apply (C s1 s s'); auto. destruct r; [exact I|exists s0; auto|congruence]. }
  apply kinductive_to_inductive_ok in E3; auto. destruct E3 as [A1 A2 A3 A4]. split; auto.
  intros s Hs Hb. apply A4, G in Hs as [s0 [H1 H2]]. apply (bad_of ts Fq) in Hb. destruct (Ex s0 s H1 Hb) as [X1 X2]. destruct H2 as [H2|[s1 [H2 H3]]]; [exact (X1 H2)|exact (X2 s1 H2 H3)].
Qed.

Theorem inductive_invariant_ok e inv : expl_ok ts e -> (match e with EqualsExpl _ _ _ => no_aux ts = true | _ => True end) ->
  inductive_invariant check ts pitp qe e = Ret (Some inv) -> safe_inductive ts inv.
Proof.
  intros H Na E. destruct e as [r f ti|r i ti]; cbn [inductive_invariant] in E.
  - destruct f; apply obind_ret in E as [g [E1 E]]; injection E as <-.
    + destruct (qe _ _) as [g'|] eqn:Eq in E1; [|discriminate]. injection E1 as <-. eapply right_inv; eauto.
    + destruct (qe _ _) as [g'|] eqn:Eq in E1; [|discriminate]. injection E1 as <-. eapply left_inv; eauto.
  - destruct r; [| |discriminate]; destruct (Nat.ltb 10 i); try discriminate; eapply equals_inv; eauto; discriminate.
Qed.
End Inv.
