From Verif Require Import Syntax Solver TransSys TSLemmas KTo1Model KTo1Proofs KTo1Proofs2 KindModel KindProofs BmcImcModel.

(** ** BMC *)
Section Bmc.
Variable ts : tsys.
Hypothesis wf : ts_wf ts = true.
Hypothesis sep : aux_sep ts = true.

Lemma sep_spec v : In v (avars ts) ->
  (In v (vars (tinit ts)) -> ~ In v (vars (ttrans ts)) /\ ~ In v (vars (tquery ts))) /\
  (In v (vars (tquery ts)) -> ~ In v (vars (ttrans ts))).
Proof.
  intros Hv. unfold aux_sep in sep. rewrite forallb_forall in sep. apply sep in Hv.
  rewrite !andb_true_iff, !orb_true_iff, !negb_true_iff, !inb_false in Hv.
  destruct Hv as [[H1 H2] H3]. split; [intros H; split|intros H].
  - destruct H1; auto.
  - destruct H2; auto.
  - destruct H3; auto.
Qed.

Lemma base_unsat_sep k : unsat (base_query ts k) -> ~ error_path ts k.
Proof.
  intros HU [s [s' [[ri [Ai Hi]] [Hp [rb [Ab Hb]]]]]].
  destruct (steps_seq ts wf k s s' Hp) as [sq [E0 [E1 Hq]]].
  destruct (glue_seq ts wf k sq Hq) as [r [R1 R2]].
  pose (r' := fun v : var =>
     if inb v (avars ts) && inb v (vars (tinit ts)) then ri v
     else if inb (shiftv (- Z.of_nat k) v) (avars ts) && inb (shiftv (- Z.of_nat k) v) (vars (tquery ts))
          then rb (shiftv (- Z.of_nat k) v) else r v).
  assert (S' : forall i v, In v (svars ts) -> r' (shiftv i v) = sq i v).
  { intros i v Hv. unfold r'.
    assert (T0 : forall u j w, In u (avars ts) -> In w (svars ts) -> shiftv j w = u -> False).
    { intros u j w Hu Hw E. apply (f_equal vtime) in E as E2.
      rewrite vtime_shift in E2 by (apply (wf_svars0 ts wf), Hw).
      unfold vtime in E2. rewrite (wf_avars0 ts wf u Hu) in E2. subst j. rewrite shiftv_0 in E. subst u.
      exact (wf_disj ts wf w Hu Hw). }
    destruct (inb_spec (shiftv i v) (avars ts)) as [G|G]; [exfalso; eapply T0; eauto|]. cbn [andb].
    rewrite shiftv_shiftv.
    destruct (inb_spec (shiftv (- Z.of_nat k + i) v) (avars ts)) as [G2|G2]; [exfalso; eapply T0; eauto|]. cbn [andb].
    apply R1, Hv. }
  apply (HU r'). unfold base_query. rewrite Forall_cons_iff, Forall_app. split; [|split].
  - refine (proj1 (holds_agree ri _ _ _) Hi). intros v Hv.
    destruct (wf_init ts wf v Hv) as [H|H].
    + rewrite Ai, <- E0 by exact H. rewrite <- (S' 0 v H), shiftv_0. reflexivity.
    + unfold r'. destruct (inb_spec v (avars ts)); [|contradiction].
      destruct (inb_spec v (vars (tinit ts))); [reflexivity|contradiction].
  - apply Forall_trans_at. intros j Hj. specialize (R2 (Z.of_nat j)).
    refine (proj1 (holds_agree r _ _ _) (R2 _)); [|lia]. intros v Hv.
    rewrite vars_shift in Hv. apply in_map_iff in Hv as [u [<- Hu]].
    destruct (wf_trans ts wf u Hu) as [H|[[w [Hw ->]]|H]].
    + rewrite S', R1; auto.
    + rewrite shiftv_shiftv, S', R1; auto.
    + unfold r'.
      destruct (inb_spec (shiftv (Z.of_nat j) u) (avars ts)) as [G|G]; cbn [andb].
      * destruct (inb_spec (shiftv (Z.of_nat j) u) (vars (tinit ts))) as [G2|G2]; cbn [andb].
        -- exfalso. assert (Ej : j = O).
           { apply (wf_avars0 ts wf) in G. unfold shiftv in G. rewrite (wf_avars0 ts wf u H) in G.
             simpl in G. inversion G. lia. }
           subst j. change (Z.of_nat 0) with 0 in *. rewrite shiftv_0 in *.
           apply sep_spec in H as [H _]. destruct (H G2) as [H' _]. contradiction.
        -- destruct (inb_spec (shiftv (- Z.of_nat k) (shiftv (Z.of_nat j) u)) (avars ts)) as [G3|G3]; cbn [andb]; [|reflexivity].
           exfalso. apply (wf_avars0 ts wf) in G3. unfold shiftv in G3. rewrite (wf_avars0 ts wf u H) in G3.
           simpl in G3. inversion G3. lia.
      * destruct (inb_spec (shiftv (- Z.of_nat k) (shiftv (Z.of_nat j) u)) (avars ts)) as [G3|G3]; cbn [andb]; [|reflexivity].
        exfalso. apply (wf_avars0 ts wf) in G3. unfold shiftv in G3. rewrite (wf_avars0 ts wf u H) in G3.
        simpl in G3. inversion G3. lia.
  - constructor; [|constructor]. apply holds_shift_at.
    refine (proj1 (holds_agree rb _ _ _) Hb). intros v Hv. unfold at_time.
    destruct (wf_query ts wf v Hv) as [H|H].
    + rewrite Ab, <- E1 by exact H. symmetry. apply S', H.
    + unfold r'. rewrite shiftv_shiftv, Z.add_opp_diag_l, shiftv_0.
      destruct (inb_spec v (avars ts)); [|contradiction].
      destruct (inb_spec v (vars (tquery ts))) as [G0|G0]; [|contradiction].
      destruct (inb_spec (shiftv (Z.of_nat k) v) (avars ts)) as [G|G]; cbn [andb]; [|reflexivity].
      destruct (inb_spec (shiftv (Z.of_nat k) v) (vars (tinit ts))) as [G2|G2]; cbn [andb]; [|reflexivity].
      exfalso. assert (Ek : k = O).
      { apply (wf_avars0 ts wf) in G. unfold shiftv in G. rewrite (wf_avars0 ts wf v H) in G.
        simpl in G. inversion G. lia. }
      rewrite Ek in G2. change (Z.of_nat 0) with 0 in *. rewrite shiftv_0 in *.
      apply sep_spec in H as [H _]. destruct (H G2) as [_ H']. contradiction.
Qed.

Section B.
Variable check : check_fn.
Hypothesis Hc : check_ok check.

Lemma bmc_loop_spec fuel : forall k u v u',
  bmc_loop check fuel k u ts = (v, u') ->
  (u' = false -> u = false) /\
  match v with
  | Unsafe n => (k <= n)%nat /\ error_path ts n /\
      (u' = false -> (forall i, (i < k)%nat -> ~ error_path ts i) -> forall i, (i < n)%nat -> ~ error_path ts i)
  | Fuel => u' = false -> (forall i, (i < k)%nat -> ~ error_path ts i) ->
            forall i, (i < k + fuel)%nat -> ~ error_path ts i
  | _ => False
  end.
Proof.
  induction fuel as [|fuel IH]; intros k u v u'; cbn [bmc_loop].
  - intros E; inversion E; subst. split; [auto|]. intros _ H i Hi. apply H. lia.
  - destruct (check (base_query ts k)) as [m| |] eqn:EB.
    + intros E; inversion E; subst. split; [auto|]. split; [lia|]. split; [|auto].
      apply (check_sat _ Hc) in EB. eapply base_sat; eauto.
    + simpl. rewrite orb_false_r. intros H. apply IH in H as [H1 H2]. split; [exact H1|].
      assert (X : ~ error_path ts k) by (apply base_unsat_sep, (check_unsat _ Hc _ EB)).
      assert (Y : (forall i, (i < k)%nat -> ~ error_path ts i) -> forall i, (i < S k)%nat -> ~ error_path ts i).
      { intros Y i Hi. destruct (Nat.eq_dec i k) as [->|E]; [exact X|apply Y; lia]. }
      destruct v; auto.
      * destruct H2 as [A1 [A2 A3]]. split; [lia|]. auto.
      * intros U B i Hi. apply H2; auto. lia.
    + simpl. rewrite orb_true_r. intros H. apply IH in H as [H1 H2].
      assert (X : u' = false -> False) by (intros X; apply H1 in X; discriminate).
      split; [intros Y; exfalso; auto|]. destruct v; auto.
      * destruct H2 as [A1 [A2 A3]]. split; [lia|]. split; [auto|]. intros Y; exfalso; auto.
Qed.
End B.
End Bmc.

(** ** IMC *)
Section Imc.
Variable ts : tsys.
Hypothesis wf : ts_wf ts = true.
Hypothesis na : no_aux ts = true.

Definition no_bad_in (n : nat) (s : state) : Prop := forall s', Steps ts n s s' -> ~ Bad ts s'.

Lemma suffix_from k : (1 <= k)%nat -> from 1 (imc_suffix ts k).
Proof.
  intros Hk. apply from_app. intros f Hf. apply in_app_or in Hf as [Hf|[<-|[]]].
  - unfold trans_at in Hf. apply in_map_iff in Hf as [j [<- Hj]]. apply in_seq in Hj.
    apply (from_trans ts wf). lia.
  - apply (from_state ts wf); [apply no_aux_query, na|lia].
Qed.

(** A state from which Bad is reachable in [k-1] steps satisfies the suffix (placed at time 1). *)
Lemma suffix_sat k s s' : (1 <= k)%nat -> Steps ts (k - 1) s s' -> Bad ts s' ->
  exists r, (forall v, In v (svars ts) -> r (shiftv 1 v) = s v) /\ holds r (imc_suffix ts k).
Proof.
  intros Hk Hp Hb. destruct (steps_seq ts wf _ s s' Hp) as [sq [E0 [E1 Hq]]].
  destruct (glue_seq ts wf _ sq Hq) as [r [R1 R2]].
  exists (fun v => r (shiftv (-1) v)). split.
  - intros v Hv. rewrite shiftv_shiftv. simpl. rewrite R1, E0; auto.
  - apply holds_and. apply Forall_app. split.
    + apply Forall_trans_at. intros j Hj. apply holds_shift_at. specialize (R2 (Z.of_nat j - 1)).
      rewrite holds_shift_at in R2. refine (proj1 (holds_agree _ _ _ _) (R2 _)); [|lia].
      intros v _. unfold at_time. rewrite shiftv_shiftv. f_equal. f_equal. lia.
    + constructor; [|constructor]. apply holds_shift_at. apply Bad_holds in Hb; [|exact na].
      rewrite <- E1 in Hb.
      assert (G : holds (at_time (Z.of_nat (k - 1)) r) (tquery ts)).
      { apply (state_formula_holds ts _ _ (sq (Z.of_nat (k - 1)))); [apply no_aux_query, na| |exact Hb].
        intros v Hv. unfold at_time. apply R1, Hv. }
      refine (proj1 (holds_agree _ _ _ _) G). intros v _. unfold at_time.
      rewrite shiftv_shiftv. f_equal. f_equal. lia.
Qed.

(** Consequences of one interpolation step. *)
Section Itp.
Variable k : nat.
Variable M J0 : term.
Hypothesis Hk : (1 <= k)%nat.
Hypothesis sfM : state_formula ts M.
Hypothesis HJ : interpolant [ttrans ts; M] [imc_suffix ts k] J0.
Let J := shift (-1) J0.

Lemma trans_upto : upto ts 1 (ttrans ts).
Proof. rewrite <- (shift_0 (ttrans ts)). apply (upto_trans ts wf). lia. Qed.

Lemma J_state : state_formula ts J.
Proof.
  unfold J. apply (upto_from_state ts 1 (mkAnd [ttrans ts; M]) (imc_suffix ts k)).
  - apply upto_app. intros f [<-|[<-|[]]]; [apply trans_upto|].
    rewrite <- (shift_0 M). apply (upto_state ts wf); [exact sfM|lia].
  - apply suffix_from, Hk.
  - intros v Hv. destruct (itp_vars _ _ _ HJ v Hv) as [H1 H2]. split.
    + unfold lvars in H1. cbn in H1. cbn. exact H1.
    + unfold lvars in H2. cbn [map concat] in H2. rewrite app_nil_r in H2. exact H2.
Qed.

Lemma J_shift : shift 1 J = J0.
Proof. unfold J. rewrite shift_shift. reflexivity. Qed.

Lemma J_image s s' : holds s M -> Step ts s s' -> holds s' J.
Proof.
  intros Hs Hst. destruct (glue_step_at ts wf 0 s s' Hst) as [r [R0 [R1 R2]]].
  assert (H : holds r J0).
  { apply (itp_A _ _ _ HJ). constructor; [exact R2|]. constructor; [|constructor].
    rewrite <- (shift_0 M). apply (state_formula_shift ts _ _ _ s); [exact sfM| |exact Hs].
    intros v Hv. apply R0; [lia|exact Hv]. }
  rewrite <- J_shift in H. apply (state_formula_shift ts 1 J r s'); auto using J_state.
  intros v Hv. apply R1; [lia|exact Hv].
Qed.

Lemma J_nobad s : holds s J -> no_bad_in (k - 1) s.
Proof.
  intros Hs s' Hp Hb. destruct (suffix_sat k s s' Hk Hp Hb) as [r [R1 R2]].
  apply (itp_B _ _ _ HJ r); [|constructor; auto].
  rewrite <- J_shift. apply (state_formula_shift ts 1 J r s); auto using J_state.
Qed.

Lemma M_nobad s : holds s M -> no_bad_in k s.
Proof.
  intros Hs s' Hp Hb. replace k with (S (k - 1)) in Hp by lia. inversion Hp as [|? ? t ? A1 A2]; subst.
  apply (J_nobad t (J_image s t Hs A1) s' A2 Hb).
Qed.
End Itp.

Section E.
Variable check : check_fn.
Variable pitp : pitp_fn.
Variable itp : itp_fn.
Hypothesis Hc : check_ok check.
Hypothesis Hp : pitp_ok pitp.
Hypothesis Hi : itp_ok itp.

(** Loop invariant of [finiteRun]: everything in [reached] except possibly [moving] has its
    successors in [reached] and no Bad state exactly k steps away. *)
Record run_inv (k iter : nat) (moving reached : term) : Prop := {
  ri_sm : state_formula ts moving;
  ri_sr : state_formula ts reached;
  ri_init : forall s, Init ts s -> holds s reached;
  ri_mov : forall s, holds s moving -> holds s reached;
  ri_step : forall s s', holds s reached -> Step ts s s' -> holds s moving \/ holds s' reached;
  ri_bad : forall s, holds s reached -> holds s moving \/ no_bad_in k s;
  ri_iter0 : iter = O -> moving = tinit ts;
  ri_iter : (0 < iter)%nat -> forall s, Init ts s -> no_bad_in k s
}.

Definition run_post (k : nat) (v : verdict) : Prop :=
  match v with
  | Unsafe n => n = k /\ error_path ts n
  | Unknown => forall s, Init ts s -> no_bad_in k s
  | Safe _ => exists R, state_formula ts R /\ (forall s, Init ts s -> holds s R) /\
       (forall s s', holds s R -> Step ts s s' -> holds s' R) /\ (forall s, holds s R -> no_bad_in k s)
  | _ => True
  end.

Lemma query_path k s0 : (1 <= k)%nat -> Init ts s0 -> ~ no_bad_in k s0 -> ~ ~ error_path ts k.
Proof.
  intros Hk H1 H2 H3. apply H2. intros s' Hs Hb. apply H3. exists s0, s'. auto.
Qed.

Lemma run_loop_ok cw k fuel : (1 <= k)%nat -> forall iter moving reached v,
  run_inv k iter moving reached ->
  imc_run_loop check pitp itp cw fuel iter moving reached k ts = v ->
  run_post k v /\
  (forall inv, v = Safe inv -> cw = true ->
     (forall n, (n < k)%nat -> ~ error_path ts n) -> safe_inductive ts inv).
Proof.
  intros Hk. induction fuel as [|fuel IH]; intros iter moving reached v RI; cbn [imc_run_loop].
  { intros <-. split; [exact Logic.I|]. intros; discriminate. }
  destruct RI as [A1 A2 A3 A4 A5 A6 A7 A8].
  intros HV.
  assert (SATcase : forall m, check [imc_suffix ts k; ttrans ts; moving] = SAT m ->
     (if term_eqb moving (tinit ts) then Unsafe (iter + k) else Unknown) = v ->
     run_post k v /\ (forall inv, v = Safe inv -> cw = true -> 
        (forall n, (n < k)%nat -> ~ error_path ts n) -> safe_inductive ts inv)).
  { clear HV. intros m EC EV. apply (check_sat _ Hc) in EC.
    rewrite !Forall_cons_iff in EC. destruct EC as [C1 [C2 [C3 _]]].
    destruct (term_eqb_spec moving (tinit ts)) as [E|E].
    - subst v. split; [|intros inv Einv; discriminate Einv]. simpl.
      assert (EP : error_path ts k).
      { exists (at_time 0 m), (at_time (Z.of_nat k) m). split; [|split].
        - apply Init_at. rewrite shift_0, <- E. exact C3.
        - apply (steps_of_assignment ts m k 0). intros j Hj.
          apply holds_and, Forall_app in C1 as [C1 _]. rewrite Forall_trans_at in C1.
          destruct (Z.eq_dec j 0) as [->|Hj0]; [rewrite shift_0; exact C2|].
          rewrite <- (Z2Nat.id j) by lia. apply C1. lia.
        - apply holds_and, Forall_app in C1 as [_ C1]. inversion C1; subst. apply Bad_at. assumption. }
      destruct iter as [|iter]; [split; [reflexivity|exact EP]|].
      exfalso. destruct EP as [s [s' [P1 [P2 P3]]]]. exact (A8 (Nat.lt_0_succ _) s P1 s' P2 P3).
    - subst v. split; [|intros; discriminate]. simpl. apply A8.
      destruct iter as [|iter]; [exfalso; apply E; auto|lia]. }
  assert (ITPcase : match itp [ttrans ts; moving] [imc_suffix ts k] with
      | None => Exn
      | Some j0 =>
        let j := shift (-1) j0 in
        if imc_implies check j reached then
          (if cw then match imc_final check pitp reached k ts with Ok i => Safe i | Throw => Exn end
           else Safe tt_true)
        else imc_run_loop check pitp itp cw fuel (S iter) j (mkOr [reached; j]) k ts
      end = v ->
     run_post k v /\ (forall inv, v = Safe inv -> cw = true -> 
        (forall n, (n < k)%nat -> ~ error_path ts n) -> safe_inductive ts inv)).
  { clear HV SATcase. destruct (itp _ _) as [j0|] eqn:EJ; [|intros <-; split; [exact Logic.I|intros; discriminate]].
    apply Hi in EJ. cbv zeta. set (J := shift (-1) j0).
    assert (sJ : state_formula ts J) by (exact (J_state k moving j0 Hk A1 EJ)).
    assert (iJ : forall s s', holds s moving -> Step ts s s' -> holds s' J)
      by (exact (J_image k moving j0 Hk A1 EJ)).
    assert (bM : forall s, holds s moving -> no_bad_in k s) by (exact (M_nobad k moving j0 Hk A1 EJ)).
    destruct (imc_implies check J reached) eqn:EI.
    - unfold imc_implies in EI. destruct (check [mkAnd [J; mkNot reached]]) eqn:EC; try discriminate.
      apply (check_unsat _ Hc) in EC.
      assert (IMP : forall s, holds s J -> holds s reached).
      { intros s Hs. destruct (holds_dec s reached) as [G|G]; [exact G|exfalso].
        apply (EC s). constructor; [|constructor]. apply holds_and2. split; [exact Hs|]. apply holds_not, G. }
      assert (IND : forall s s', holds s reached -> Step ts s s' -> holds s' reached).
      { intros s s' Hs Hst. destruct (A5 s s' Hs Hst) as [H|H]; [|exact H]. apply IMP, (iJ s s' H Hst). }
      assert (NB : forall s, holds s reached -> no_bad_in k s).
      { intros s Hs. destruct (A6 s Hs) as [H|H]; [|exact H]. apply bM, H. }
      intros HV'. split.
      + assert (POST : run_post k (Safe tt_true)) by (exists reached; repeat split; auto).
        subst v. destruct cw; [|exact POST]. destruct (imc_final check pitp reached k ts); [exact POST|exact Logic.I].
      + intros inv Ev Ecw HE. subst cw. rewrite Ev in HV'.
        destruct (imc_final check pitp reached k ts) as [i|] eqn:EF; [|discriminate].
        inversion HV'; subst i. unfold imc_final in EF.
        assert (KI : kinductive ts (mkAnd [reached; mkNot (tquery ts)]) k).
        { split.
          - apply state_formula_and. intros f [<-|[<-|[]]]; [exact A2|]. apply state_formula_not, no_aux_query, na.
          - intros n s s' Hn HI HS. apply holds_and2. split.
            + clear Hn. specialize (A3 s HI). clear HI. induction HS as [|n s t u B1 B2 IHS]; [exact A3|].
              apply IHS. eapply IND; eauto.
            + apply holds_not. intros HB. apply (HE n Hn). exists s, s'. split; [exact HI|]. split; [exact HS|].
              apply Bad_holds; auto.
          - intros s s' HS.
            assert (G : forall m s s', kpath ts (mkAnd [reached; mkNot (tquery ts)]) m s s' ->
                      Steps ts m s s' /\ ((0 < m)%nat -> holds s reached /\ holds s' reached)).
            { clear - IND. induction 1 as [s|m s t u B1 B2 B3 IHm].
              - split; [constructor|lia].
              - destruct IHm as [D1 D2]. split; [econstructor; eauto|]. intros _.
                apply holds_and2 in B1 as [B1 _]. split; [exact B1|].
                destruct m as [|m]; [inversion D1; subst; eapply IND; eauto|]. apply D2. lia. }
            destruct (G k s s' HS) as [D1 D2]. destruct D2 as [D2 D3]; [lia|].
            apply holds_and2. split; [exact D3|]. apply holds_not. intros HB.
            apply (NB s D2 s' D1). apply Bad_holds; auto. }
        assert (K2 : kinductive_to_inductive check pitp (mkAnd [reached; mkNot (tquery ts)]) k ts = Ok inv ->
                     safe_inductive ts inv).
        { intros EK. apply kinductive_to_inductive_ok in EK; auto.
          destruct EK as [D1 D2 D3 D4]. split; auto. intros s Hs Hb. apply D4, holds_and2 in Hs as [_ Hs].
          apply holds_not in Hs. apply Hs, Bad_holds; auto. }
        destruct (check [reached; tquery ts]) eqn:EQ; auto.
        inversion EF; subst inv. apply (check_unsat _ Hc) in EQ. split; auto.
        intros s Hs Hb. apply (EQ s). constructor; [exact Hs|]. constructor; [|constructor]. apply Bad_holds; auto.
    - apply IH. split.
      + exact sJ.
      + apply state_formula_or. intros f [<-|[<-|[]]]; auto.
      + intros s Hs. apply holds_or2. left. auto.
      + intros s Hs. apply holds_or2. right. exact Hs.
      + intros s s' Hs Hst. apply holds_or2 in Hs as [Hs|Hs]; [|left; exact Hs].
        right. apply holds_or2. destruct (A5 s s' Hs Hst) as [H|H]; [right; eapply iJ; eauto|left; exact H].
      + intros s Hs. apply holds_or2 in Hs as [Hs|Hs]; [|left; exact Hs].
        right. destruct (A6 s Hs) as [H|H]; [apply bM, H|exact H].
      + discriminate.
      + intros _ s HI. destruct iter as [|iter].
        * apply bM. rewrite (A7 eq_refl). apply Init_holds; auto.
        * apply A8; [lia|exact HI]. }
  destruct (check [imc_suffix ts k; ttrans ts; moving]) as [m| |] eqn:EC; eauto.
Qed.

Lemma run_inv_init k : run_inv k 0 (tinit ts) (tinit ts).
Proof.
  assert (SI : state_formula ts (tinit ts)) by (apply no_aux_init, na).
  split; auto; try lia; intros s Hs; try (apply Init_holds; auto); auto.
Qed.

Lemma finite_run_ok cw k fuel v : (1 <= k)%nat ->
  imc_finite_run check pitp itp cw fuel k ts = v ->
  run_post k v /\
  (forall inv, v = Safe inv -> cw = true ->
     (forall n, (n < k)%nat -> ~ error_path ts n) -> safe_inductive ts inv).
Proof. intros Hk H. eapply run_loop_ok; eauto using run_inv_init. Qed.

Lemma safe_post_safe k inv : run_post k (Safe inv) -> (forall n, (n < k)%nat -> ~ error_path ts n) -> safe ts.
Proof.
  intros [R [R1 [R2 [R3 R4]]]] HE n. destruct (Nat.lt_ge_cases n k) as [Hn|Hn]; [auto|].
  intros [s [s' [P1 [P2 P3]]]]. replace n with (n - k + k)%nat in P2 by lia.
  assert (Y : exists u, Steps ts (n - k) s u /\ Steps ts k u s').
  { revert P2. clear. generalize (n - k)%nat as m. intros m. revert s. induction m as [|m IHm]; intros s Hs; simpl in Hs.
    - exists s. split; [constructor|exact Hs].
    - inversion Hs as [|? ? t ? A1 A2]; subst. destruct (IHm t A2) as [u [B1 B2]].
      exists u. split; [econstructor; eauto|exact B2]. }
  destruct Y as [u [Y1 Y2]].
  assert (G : holds u R).
  { apply R2 in P1. clear - P1 Y1 R3. induction Y1; eauto. }
  exact (R4 u G s' Y2 P3).
Qed.

Lemma solve_loop_ok cw fuel fr : forall k, (1 <= k)%nat ->
  (forall inv, imc_solve_loop check pitp itp cw fuel fr k ts = Safe inv ->
     (forall n, (n < k)%nat -> ~ error_path ts n) ->
     safe ts /\ (cw = true -> safe_inductive ts inv)) /\
  (forall n, imc_solve_loop check pitp itp cw fuel fr k ts = Unsafe n -> (k <= n)%nat /\ error_path ts n).
Proof.
  induction fuel as [|fuel IH]; intros k Hk; cbn [imc_solve_loop]; [split; intros; discriminate|].
  destruct (finite_run_ok cw k fr _ Hk eq_refl) as [P1 P2].
  destruct (imc_finite_run check pitp itp cw fr k ts) as [i|n| | |] eqn:EV.
  - split; [|intros; discriminate]. intros inv E HE. inversion E; subst i.
    split; [eapply safe_post_safe; eauto|]. intros Ecw. eapply P2; eauto.
  - split; [intros; discriminate|]. intros n0 E; inversion E; subst. destruct P1 as [-> P1]. auto.
  - destruct (IH (S k)) as [I1 I2]; [lia|]. split.
    + intros inv E HE. apply I1; auto. intros n Hn. destruct (Nat.eq_dec n k) as [->|Hnk]; [|apply HE; lia].
      intros [s [s' [Q1 [Q2 Q3]]]]. exact (P1 s Q1 s' Q2 Q3).
    + intros n E. apply I2 in E as [E1 E2]. split; [lia|exact E2].
  - split; intros; discriminate.
  - split; intros; discriminate.
Qed.

Lemma imc_ok cw fuel fr :
  (forall inv, imc check pitp itp cw fuel fr ts = (Safe inv, false) ->
     safe ts /\ (cw = true -> safe_inductive ts inv)) /\
  (forall n u, imc check pitp itp cw fuel fr ts = (Unsafe n, u) -> error_path ts n).
Proof.
  unfold imc. destruct (solve_loop_ok cw fuel fr 1) as [H1 H2]; [lia|].
  destruct (check [tinit ts; tquery ts]) as [m| |] eqn:EC.
  - split; [intros; discriminate|]. intros n u E; inversion E; subst n u.
    apply (check_sat _ Hc) in EC. rewrite !Forall_cons_iff in EC. destruct EC as [C1 [C2 _]].
    exists m, m. split; [apply Init_holds; auto|]. split; [constructor|apply Bad_holds; auto].
  - split.
    + intros inv E. inversion E as [[E1]]. apply H1 in E1; auto.
      intros n Hn. assert (n = O) by lia. subst n. intros [s [s' [Q1 [Q2 Q3]]]]. inversion Q2; subst.
      apply (check_unsat _ Hc _ EC s'). constructor; [apply Init_holds; auto|]. constructor; [apply Bad_holds; auto|constructor].
    + intros n u E. inversion E as [[E1]]. apply H2 in E1. tauto.
  - split; [intros; discriminate|]. intros n u E. inversion E as [[E1]]. apply H2 in E1. tauto.
Qed.
End E.
End Imc.
