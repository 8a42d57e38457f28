(** * The steps that instantiate a clause, and the whole proof. *)
From Verif Require Import Names AletheModel AletheSpec AletheSound AletheNum AletheLet AletheSimp AletheSimp2 AletheBuild.
Open Scope string_scope.
Open Scope list_scope.
Open Scope nat_scope.

(** Constants for the variables of a clause that occur in it, and for no others. *)
Record inst_ok (vs : list (string * string)) (b : atm) (pairs : list (string * string)) : Prop := {
  io_free : letfree b = true;
  io_nodup : NoDup (map fst vs);
  io_cover : forall x, In x vs -> occurs (fst x) b = true -> exists text, slookup pairs (fst x) = Some text /\ const_text (snd x) text /\ const_kind (snd x) (kind_of_value text);
  io_keys : forall s text, slookup pairs s = Some text -> In s (map fst vs) /\ occurs s b = true }.

Lemma filter_length_eq {X} (f : X -> bool) l : length (filter f l) = length l -> filter f l = l.
Proof.
  induction l as [|x l IH]; cbn; [reflexivity|]. destruct (f x); cbn; intros H.
  - f_equal. apply IH. lia.
  - assert (length (filter f l) <= length l) by (clear; induction l as [|y l IH]; cbn; [lia|destruct (f y); cbn; lia]). lia.
Qed.

Section Inst.
Variable props : list string.
Variable asserts : list atm.
Notation inv := (inv props asserts).

Lemma inst_of_ok vs' b pairs args : letfree b = true ->
  mapO (fun v => slookup pairs (fst v)) vs' = Some args ->
  (forall x, In x vs' -> exists text, slookup pairs (fst x) = Some text /\ const_text (snd x) text /\ const_kind (snd x) (kind_of_value text)) ->
  NoDup (map fst vs') ->
  (forall s text, slookup pairs s = Some text -> occurs s b = true -> In s (map fst vs')) ->
  inst_of (map (fun x => (fst (fst x), (snd (fst x), snd x))) (combine vs' args)) b (instantiate pairs b).
Proof.
  intros F EA HC HN. set (m := map (fun x => (fst (fst x), (snd (fst x), snd x))) (combine vs' args)).
  assert (L : forall s, match slookup m s with
                        | Some (sort, text) => slookup pairs s = Some text /\ In (s, sort) vs' /\ const_kind sort (kind_of_value text)
                        | None => ~ In s (map fst vs')
                        end).
  { assert (Hf : map fst m = map fst vs').
    { unfold m. rewrite map_map. apply mapO_Forall2 in EA. clear -EA. induction EA; cbn; [reflexivity|]. f_equal. assumption. }
    intros s. destruct (slookup m s) as [[sort text]|] eqn:E.
    - apply slookup_In in E. unfold m in E. apply in_map_iff in E as ([[n st] tx] & E & Hi). cbn in E. injection E as -> -> ->.
      assert (slookup pairs s = Some text /\ In (s, sort) vs') as [A1 A2].
      { apply mapO_Forall2 in EA. clear -EA Hi. induction EA as [|y z l l' Hy _ IH]; cbn in Hi; [tauto|]. destruct Hi as [[= -> ->]|Hi]; [cbn in Hy; split; [exact Hy|left; reflexivity]|]. destruct (IH Hi). split; [assumption|right; assumption]. }
      destruct (HC _ A2) as (text' & T1 & _ & T3). cbn in T1, T3. rewrite A1 in T1. injection T1 as <-. auto.
    - apply slookup_None in E. rewrite Hf in E. exact E. }
  clearbody m. clear EA HC HN. revert F. induction b using atm_ind'; intros F HK; try discriminate F.
  - cbn in F. specialize (L s). destruct k; try discriminate F; cbn [instantiate]; try (apply inst_other; discriminate).
    pose proof (simple_minus s F) as HM.
    destruct (slookup pairs s) as [text|] eqn:EP.
    + assert (Hi : In s (map fst vs')) by (apply (HK s text EP); cbn; unfold var_name; rewrite HM, String.eqb_refl; reflexivity).
      destruct (slookup m s) as [[sort tx]|] eqn:EM; [|contradiction]. destruct L as (L1 & L2 & L3). injection L1 as <-. eapply inst_var; eassumption.
    + apply inst_other. intros _. unfold var_name. rewrite HM. destruct (slookup m s) as [[sort tx]|]; [destruct L as (L1 & _); discriminate|reflexivity].
  - cbn [instantiate]. constructor. cbn in F, HK. rewrite forallb_forall in F. rewrite Forall_forall in H.
    assert (G : forall l', incl l' l -> Forall2 (inst_of m) l' (map (instantiate pairs) l')).
    { induction l' as [|x l' IH]; intros Hl; cbn; constructor; [|apply IH; intros y Hy; apply Hl; right; exact Hy].
      assert (Hx : In x l) by (apply Hl; left; reflexivity). apply H; auto. intros s tx E Ho. apply (HK s tx E). eapply existsb_In; eassumption. }
    apply G. apply incl_refl.
  - cbn [instantiate]. constructor. cbn in F, HK. rewrite forallb_forall in F. rewrite Forall_forall in H.
    assert (G : forall l', incl l' l -> Forall2 (inst_of m) l' (map (instantiate pairs) l')).
    { induction l' as [|x l' IH]; intros Hl; cbn; constructor; [|apply IH; intros y Hy; apply Hl; right; exact Hy].
      assert (Hx : In x l) by (apply Hl; left; reflexivity). apply H; auto. intros s tx E Ho. apply (HK s tx E). eapply existsb_In; eassumption. }
    apply G. apply incl_refl.
Qed.
Lemma letfree_not_all b : letfree b = true -> is_all b = false.
Proof. destruct b; auto; discriminate. Qed.
Lemma instantiate_nil b : letfree b = true -> instantiate [] b = b.
Proof.
  induction b using atm_ind'; intros F; try discriminate F; cbn [instantiate].
  - destruct k; reflexivity.
  - f_equal. cbn in F. rewrite forallb_forall in F. rewrite Forall_forall in H. clear -F H. induction l as [|x l IH]; cbn; [reflexivity|]. f_equal; [apply H; [left; reflexivity|apply F; left; reflexivity]|]. apply IH; intros; [apply H|apply F]; try (right; assumption); assumption.
  - f_equal. cbn in F. rewrite forallb_forall in F. rewrite Forall_forall in H. clear -F H. induction l as [|x l IH]; cbn; [reflexivity|]. f_equal; [apply H; [left; reflexivity|apply F; left; reflexivity]|]. apply IH; intros; [apply H|apply F]; try (right; assumption); assumption.
Qed.
Lemma slookup_cons_some {X} (l : list (string * X)) : l <> [] -> exists s x, slookup l s = Some x.
Proof. destruct l as [|[n x] l]; [congruence|]. intros _. exists n, x. cbn. rewrite String.eqb_refl. reflexivity. Qed.

(** A quantified clause is instantiated. *)
Lemma instantiation_ok i cl vs b pairs s e cs : inv s e cs -> inst_ok vs b pairs -> vs <> [] ->
  nth_error cs cl = Some [EPos (All vs b)] -> get_name e (NA cl) = Some (All vs b) -> get_name e (NI (i - 1)) = None ->
  exists k s' e' cs', instantiation i cl (All vs b) pairs s = Some ((instantiate pairs b, k), s') /\ inv s' e' cs' /\ gr (fun n => n = NI (i - 1)) e cs e' cs' /\
    nth_error cs' k = Some [EPos (instantiate pairs b)] /\ S k = p_cur s' /\ p_cur s < p_cur s'.
Proof.
  intros HI HO HV HK HA HF. destruct (collect_ok b (io_free _ _ _ HO)) as (used & EC & HU).
  pose proof (letfree_not_all b (io_free _ _ _ HO)) as Hb.
  set (keep := fun x : string * string => sin (fst x) used). set (vs' := filter keep vs).
  assert (KO : forall x, keep x = occurs (fst x) b).
  { intros x. unfold keep. destruct (sin (fst x) used) eqn:E1; destruct (occurs (fst x) b) eqn:E2; try reflexivity; exfalso.
    - apply sin_In, HU in E1. congruence.
    - apply HU, sin_In in E2. congruence. }
  set (cleared := match vs' with [] => b | l => All l b end).
  (* removal of unused variables *)
  assert (X : exists y s1 cs1 ch, remove_unused (All vs b) = Some (cleared, ch) /\
    (if ch : bool then
          _ <- record [Eql (Name (NA cl)) (Raw cleared)] RQntRmUnused [] ;; k <- last_step ;;
          _ <- record [Neg (Name (NA cl)); Pos (Raw cleared)] REquiv1 [k] ;; k' <- last_step ;;
          _ <- record [Pos (Raw cleared)] RResolution [cl; k'] ;; k'' <- last_step ;; ret (Raw cleared, k'')
        else ret (Name (NA cl), cl)) s = Some (y, s1) /\ inv s1 e cs1 /\ grows e cs e cs1 /\ nth_error cs1 (snd y) = Some [EPos cleared] /\
        ex_ref e (fst y) = Some cleared /\ ref_defs (fst y) = [] /\ p_cur s <= p_cur s1 /\ (ch = true -> p_cur s < p_cur s1 /\ S (snd y) = p_cur s1) /\ (ch = false -> vs' = vs)).
  { unfold remove_unused. rewrite EC. fold keep. fold vs'.
    assert (Y : cleared = All vs b \/ exists s1 cs1, (_ <- record [Eql (Name (NA cl)) (Raw cleared)] RQntRmUnused [] ;; k <- last_step ;;
          _ <- record [Neg (Name (NA cl)); Pos (Raw cleared)] REquiv1 [k] ;; k' <- last_step ;;
          _ <- record [Pos (Raw cleared)] RResolution [cl; k'] ;; k'' <- last_step ;; ret (Raw cleared, k'')) s = Some ((Raw cleared, p_cur s1 - 1), s1) /\ inv s1 e cs1 /\ grows e cs e cs1 /\ nth_error cs1 (p_cur s1 - 1) = Some [EPos cleared] /\ p_cur s < p_cur s1).
    { right.
      destruct (record_plain props asserts s e cs [Eql (Name (NA cl)) (Raw cleared)] RQntRmUnused [] [] [] [EEq (All vs b) cleared] HI) as (s1 & E1 & I1 & C1 & _ & _ & G1); [reflexivity|cbn; rewrite HA; reflexivity|reflexivity| |].
      { cbn. split; [reflexivity|]. exists vs, b, keep. split; [apply HO|]. split; [intros x _ Hx; rewrite <- KO; exact Hx|]. split; [exact Hb|]. unfold cleared, vs'. destruct (filter keep vs); reflexivity. }
      destruct (record_plain props asserts s1 e _ [Neg (Name (NA cl)); Pos (Raw cleared)] REquiv1 [p_cur s1 - 1] [] [[EEq (All vs b) cleared]] [ENeg (All vs b); EPos cleared] I1) as (s2 & E2 & I2 & C2 & _ & _ & G2); [reflexivity|cbn; rewrite HA; reflexivity| | |].
      { cbn [mapO]. replace (p_cur s1 - 1) with (p_cur s) by lia. rewrite nth_last by (apply HI). reflexivity. }
      { cbn. eauto. }
      destruct (record_plain props asserts s2 e _ [Pos (Raw cleared)] RResolution [cl; p_cur s2 - 1] [] [[EPos (All vs b)]; [ENeg (All vs b); EPos cleared]] [EPos cleared] I2) as (s3 & E3 & I3 & C3 & _ & _ & G3); [reflexivity|reflexivity| | |].
      { cbn [mapO]. rewrite (grows_nth _ _ _ _ _ _ (grows_trans _ _ _ _ _ _ G1 G2) HK). replace (p_cur s2 - 1) with (p_cur s1) by lia. rewrite nth_last by (apply I1). reflexivity. }
      { apply (res_2 props asserts _ (All vs b)); [left; reflexivity|left; right; left; reflexivity]. }
      exists s3. eexists. unfold bnd, record, last_step, ret. rewrite E1, E2, E3. split; [reflexivity|]. split; [exact I3|]. split; [eapply grows_trans; [exact G1|eapply grows_trans; eassumption]|].
      split; [|lia]. replace (p_cur s3 - 1) with (p_cur s2) by lia. apply nth_last. apply I2. }
    destruct vs' as [|v0 vr] eqn:EV.
    - destruct Y as [Y|(s1 & cs1 & Y1 & Y2 & Y3 & Y4 & Y5)]; [exfalso; unfold cleared in Y; rewrite Y in Hb; discriminate Hb|].
      exists (Raw cleared, p_cur s1 - 1), s1, cs1, true. split; [reflexivity|]. split; [exact Y1|]. split; [exact Y2|]. split; [exact Y3|]. split; [exact Y4|]. split; [reflexivity|]. split; [reflexivity|]. split; [lia|]. split; [intros _; cbn [snd]; lia|discriminate].
    - destruct (Nat.eqb_spec (length (v0 :: vr)) (length vs)) as [EL|NL].
      + assert (E' : v0 :: vr = vs) by (rewrite <- EV; apply filter_length_eq; fold vs'; rewrite EV; exact EL).
        exists (Name (NA cl), cl), s, cs, false. unfold cleared. rewrite E'. destruct vs as [|v1 vs1]; [congruence|]. split; [reflexivity|]. split; [reflexivity|]. split; [exact HI|]. split; [apply grows_refl|]. split; [exact HK|]. split; [exact HA|]. split; [reflexivity|]. split; [lia|]. split; [discriminate|reflexivity].
      + destruct Y as [Y|(s1 & cs1 & Y1 & Y2 & Y3 & Y4 & Y5)]; [exfalso; unfold cleared in Y; injection Y as Y; apply NL; rewrite Y; reflexivity|].
        exists (Raw cleared, p_cur s1 - 1), s1, cs1, true. split; [reflexivity|]. split; [exact Y1|]. split; [exact Y2|]. split; [exact Y3|]. split; [exact Y4|]. split; [reflexivity|]. split; [reflexivity|]. split; [lia|]. split; [intros _; cbn [snd]; lia|discriminate]. }
  destruct X as (y & s1 & cs1 & ch & E0 & E1 & I1 & G1 & R1 & X1 & X2 & X3 & X4 & X5).
  assert (EM : forall A (f : (atm * bool) -> M A), bnd (lift (remove_unused (All vs b))) f s = f (cleared, ch) s) by (intros; unfold bnd, lift; rewrite E0; reflexivity).
  unfold instantiation. rewrite EM. cbn [fst snd]. unfold bnd at 1. rewrite E1.
  assert (COV : forall x, In x vs' -> exists text, slookup pairs (fst x) = Some text /\ const_text (snd x) text /\ const_kind (snd x) (kind_of_value text)).
  { intros x Hx. unfold vs' in Hx. apply filter_In in Hx as [Hx Hk]. rewrite KO in Hk. apply (io_cover _ _ _ HO x Hx Hk). }
  destruct pairs as [|p0 pr] eqn:EP.
  - (* no variable occurs *)
    assert (EV : vs' = []).
    { destruct vs' as [|x l]; [reflexivity|]. destruct (COV x (or_introl eq_refl)) as (text & E & _). discriminate E. }
    assert (ch = true) as -> by (destruct ch; [reflexivity|]; rewrite (X5 eq_refl) in EV; congruence).
    assert (EB : cleared = b) by (unfold cleared; rewrite EV; reflexivity). rewrite (instantiate_nil b (io_free _ _ _ HO)). rewrite EB in *.
    exists (snd y), s1, e, cs1. split; [reflexivity|]. split; [exact I1|]. split; [apply grows_gr; exact G1|]. split; [exact R1|]. destruct (X4 eq_refl). lia.
  - rewrite <- EP in *. assert (Hv : vs' <> []).
    { destruct (slookup_cons_some pairs) as (s0 & x0 & E); [rewrite EP; discriminate|]. destruct (io_keys _ _ _ HO s0 x0 E) as [Hi Ho]. apply in_map_iff in Hi as (x & <- & Hx).
      assert (In x vs') by (unfold vs'; apply filter_In; split; [exact Hx|rewrite KO; exact Ho]). intros C. rewrite C in H. destruct H. }
    assert (EB : cleared = All vs' b) by (unfold cleared; destruct vs'; [congruence|reflexivity]). rewrite EB in *.
    assert (exists args, mapO (fun v => slookup pairs (fst v)) vs' = Some args /\ forall x, In x (combine vs' args) -> const_text (snd (fst x)) (snd x)) as (args & EA & HT).
    { clear -COV. clearbody vs'. induction vs' as [|x l IH]; [exists []; split; [reflexivity|intros ? []]|]. destruct IH as (args & EA & HT); [intros z Hz; apply COV; right; exact Hz|].
      destruct (COV x (or_introl eq_refl)) as (text & T1 & T2 & _). exists (text :: args). cbn. rewrite T1, EA. split; [reflexivity|]. intros z [<-|Hz]; [exact T2|auto]. }
    set (inst := instantiate pairs b) in *. change (instantiate pairs (All vs' b)) with inst. set (n := NI (i - 1)) in *.
    assert (ND : NoDup (map fst vs')) by (apply filter_fst_NoDup; apply HO).
    destruct (record_named props asserts s1 e cs1 [OrNeg (fst y) (Named inst n)] RForallInst [] args [] [EOrNeg (All vs' b) inst] n inst I1) as (s2 & E2 & I2 & C2 & G2 & N2).
    { cbn. rewrite X2. reflexivity. }
    { reflexivity. }
    { exact HF. }
    { cbn. assert (ex_ref ((n, inst) :: e) (fst y) = Some (All vs' b)) as ->; [|reflexivity].
      destruct (fst y) as [t|m|t m]; cbn [ex_ref get_name] in X1 |- *; auto. destruct (nm_eqb n m) eqn:Em; [|exact X1]. apply nm_eqb_eq in Em. subst m. rewrite HF in X1. discriminate X1. }
    { reflexivity. }
    { cbn. split; [reflexivity|]. exists vs', b, inst. split; [reflexivity|]. split; [exact ND|]. split; [apply mapO_Forall2 in EA; clear -EA; induction EA; cbn; congruence|]. split; [exact HT|].
      apply inst_of_ok; auto; [apply HO|]. intros s0 tx E Ho. destruct (io_keys _ _ _ HO s0 tx E) as [Hi _]. apply in_map_iff in Hi as (x & <- & Hx). apply in_map. unfold vs'. apply filter_In. split; [exact Hx|rewrite KO; exact Ho]. }
    set (e2 := (n, inst) :: e) in *.
    assert (X1' : ex_ref e2 (fst y) = Some (All vs' b)).
    { destruct (fst y) as [t|m|t m]; cbn [ex_ref] in X1 |- *; auto. apply G2. exact X1. }
    destruct (record_plain props asserts s2 e2 _ [Neg (fst y); Pos (Name n)] ROr [p_cur s2 - 1] [] [[EOrNeg (All vs' b) inst]] [ENeg (All vs' b); EPos inst] I2) as (s3 & E3 & I3 & C3 & _ & _ & G3).
    { cbn. rewrite X2. reflexivity. }
    { cbn [mapO ex_lit]. rewrite X1'. cbn [ex_ref]. rewrite N2. reflexivity. }
    { cbn [mapO]. replace (p_cur s2 - 1) with (p_cur s1) by lia. rewrite nth_last by (apply I1). reflexivity. }
    { cbn. eauto. }
    destruct (record_plain props asserts s3 e2 _ [Pos (Name n)] RResolution [p_cur s3 - 1; snd y] [] [[ENeg (All vs' b); EPos inst]; [EPos (All vs' b)]] [EPos inst] I3) as (s4 & E4 & I4 & C4 & _ & _ & G4).
    { reflexivity. }
    { cbn [mapO ex_lit ex_ref]. rewrite N2. reflexivity. }
    { cbn [mapO]. replace (p_cur s3 - 1) with (p_cur s2) by lia. rewrite nth_last by (apply I2). rewrite (grows_nth _ _ _ _ _ _ G3 (gr_nth _ _ _ _ _ _ _ G2 R1)). reflexivity. }
    { apply (res_2 props asserts _ (All vs' b)); [right; left; reflexivity|left; left; reflexivity]. }
    exists (p_cur s4 - 1), s4, e2. eexists. split.
    { rewrite EP. rewrite <- EP. unfold bnd at 1, lift. rewrite EA. unfold bnd, record, last_step, ret. fold n. rewrite E2, E3, E4. reflexivity. }
    split; [exact I4|]. split; [|split; [|lia]].
    + eapply gr_trans; [apply grows_gr; exact G1|]. eapply gr_trans; [exact G2|]. apply grows_gr. eapply grows_trans; eassumption.
    + replace (p_cur s4 - 1) with (p_cur s3) by lia. apply nth_last. apply I3.
Qed.
End Inst.
