(** * Chain summarization: back translation of derivations, the whole transformation. *)
From Verif Require Import Syntax Solver TransSys Graph GraphOps GraphOpsProofs ValidatorModel ValidatorProofs FormulaModel FormulaProofs3 GraphSem SimpleTransModel UnreachProofs UnreachProofs2 ReverseProofs SimpleTransProofs SimpleTransProofs2 ListLemmas MergeModel MergeProofs ChainProofs ChainStep ExpandProofs.
Open Scope nat_scope.

(** Two disjoint lists of arguments. *)
Lemma fill_two_gen (la lb : list var) (fa fb : fact) : NoDup la -> NoDup lb -> (forall v, In v la -> ~ In v lb) ->
  fits la (snd fa) -> fits lb (snd fb) ->
  let m := fill la fa ++ fill lb fb in
  well_sorted m /\ (forall r, args (upd r m) la = snd fa /\ args (upd r m) lb = snd fb) /\
  (forall (r : valuation) v, ~ In v la -> ~ In v lb -> eval (upd r m) (Var v) = eval r (Var v)).
Proof.
  intros Na Nb Dj Fa Fb m. split; [|split].
  - apply well_sorted_intro. intros k u Hin r. unfold m in Hin. apply in_app_or in Hin as [Hin|Hin].
    + destruct (fill_well_sorted _ _ Fa _ _ Hin) as [x [-> Hx]]. exact Hx.
    + destruct (fill_well_sorted _ _ Fb _ _ Hin) as [x [-> Hx]]. exact Hx.
  - intros r. split.
    + unfold m. rewrite args_upd_app_l; [apply args_fill; assumption|]. intros v Hv E. apply fill_lookup in E; auto.
    + unfold m. rewrite args_upd_app_r; [apply args_fill; assumption|]. intros v Hv. apply fill_lookup; [exact Fa|]. intros X. exact (Dj v X Hv).
  - intros r v Ha Hb. assert (E : lookup v m = None).
    { apply lookup_none. unfold m. rewrite map_app, in_app_iff, !fill_keys by assumption. tauto. }
    cbn [eval]. unfold upd. rewrite E. reflexivity.
Qed.

Lemma seq_nth_inv n j x : nth_error (seq 0 n) j = Some x -> j < n /\ x = j.
Proof.
  intros H. assert (J : j < n) by (rewrite <- (seq_length n 0); apply nth_error_Some; congruence).
  rewrite nth_error_seq in H by exact J. injection H as <-. auto.
Qed.
Lemma mid_steps_nth i k c : forall (fs : list fact) j x, nth_error (mid_steps i k c fs) j = Some x ->
  exists e f, nth_error c j = Some e /\ nth_error fs j = Some f /\ x = mkStep [match j with O => k | S j' => i + j' end] f (eid e).
Proof.
  intros fs j x H. unfold mid_steps in H. rewrite nth_error_map in H.
  destruct (nth_error (combine (seq 0 (length fs)) (combine c fs)) j) as [[n [e f]]|] eqn:E; [|discriminate]. cbn in H. injection H as <-.
  apply nth_error_combine in E as [E1 E2]. apply nth_error_combine in E2 as [E2 E3]. apply seq_nth_inv in E1 as [_ ->]. exists e, f. auto.
Qed.
Lemma runs_nth g c : forall (f : fact) fs, runs g c f fs -> forall j e fj, nth_error c j = Some e -> nth_error fs j = Some fj ->
  exists fp, follows g e [fp] fj /\ (match j with O => Some f | S j' => nth_error fs j' end) = Some fp.
Proof.
  induction c as [|e0 c IH]; intros f [|f0 fs] H j e fj He Hj; cbn [runs] in H; try tauto; [destruct j; discriminate|].
  destruct H as [H1 H2]. destruct j as [|j]; cbn [nth_error] in *.
  - injection He as <-. injection Hj as <-. exists f. auto.
  - destruct (IH f0 fs H2 j e fj He Hj) as [fp [F1 F2]]. exists fp. split; [exact F1|]. destruct j; exact F2.
Qed.
Lemma removelast_nth {A} (l : list A) j : S j < length l -> nth_error (removelast l) j = nth_error l j.
Proof.
  revert j. induction l as [|x [|y l] IH]; intros j H; cbn [length] in H; [lia|lia|].
  destruct j as [|j]; [reflexivity|]. change (nth_error (removelast (y :: l)) j = nth_error (y :: l) j). apply IH. cbn [length]. lia.
Qed.
Lemma removelast_len {A} (l : list A) : length (removelast l) = length l - 1.
Proof. induction l as [|x [|y l] IH]; [reflexivity|reflexivity|]. change (S (length (removelast (y :: l))) = S (S (length l)) - 1). rewrite IH. cbn [length]. lia. Qed.
Lemma last_nth {A} (l : list A) n d : length l = S n -> nth_error l n = Some (last l d).
Proof.
  revert n. induction l as [|x [|y l] IH]; intros n H; [discriminate|cbn in H; injection H as <-; reflexivity|].
  destruct n as [|n]; [discriminate|]. change (nth_error (y :: l) n = Some (last (y :: l) d)). apply IH. cbn in *. lia.
Qed.

Section Back.
Variable check : check_fn.
Hypothesis Hck : forall l r, check l = SAT r -> Forall (holds r) l.
Variable g : hgraph.
Hypothesis R : rep_wf (gpv g).
Variable c : list hedge.
Hypothesis Len : 2 <= length c.
Hypothesis L : linked (chain_source c) c.
Hypothesis Mx : ~ In exit (mids c).
Variable se : hedge.
Hypothesis Sf : efrom se = [chain_source c].
Hypothesis St : eto se = chain_target c.
Variable G : hgraph.
Hypothesis PV : gpv G = gpv g.
Hypothesis Cin : forall e, In e c -> In e (gedges G).
Hypothesis Sid : eid se <> no_id.
Hypothesis Uniq : forall e, In e (gedges G) -> eid e = eid se -> e = se.
Let F := chain_source c.
Let T := chain_target c.
Let n := length c.

Theorem replace_ok d i s d' : error_derivation G d -> nth_error d i = Some s -> st_clause s = eid se ->
  replace_summarizing check g c d i = Some d' -> error_derivation G d'.
Proof.
  intros D Hi Hcl H. pose proof (ed_ref _ _ D) as RF.
  assert (Pos : 0 < i). { destruct i; [|lia]. exfalso. pose proof (ed_first _ _ D) as X. rewrite Hi in X. cbn in X. injection X as X. congruence. }
  unfold replace_summarizing in H. rewrite Hi in H.
  destruct (ref_steps _ _ RF i s Pos Hi) as [e [ps [He [Hid [HF HL]]]]].
  assert (e = se) by (apply Uniq; [exact He|congruence]). subst e.
  rewrite (follows_pv g G se ps _ PV) in HL.
  destruct (follows_prems _ _ _ _ HL) as [E1 E2]. rewrite Sf in E1. destruct ps as [|f0 [|]]; try discriminate. cbn [map] in E1. injection E1 as E1.
  inversion HF as [|k f0' ks ? [Hk1 Hk2] HF2 Eks]; subst. inversion HF2; subst. rewrite <- Eks in H. 
  destruct (nth_error d k) as [ps|] eqn:Ek; [|discriminate H]. cbn in Hk2. injection Hk2 as Hk2.
  assert (Hne : exists e0 c0, c = e0 :: c0) by (apply ne_cons; intros X; rewrite X in Len; cbn in Len; lia).
  destruct Hne as [e0 [c0 Ec]]. rewrite Ec in H. cbv beta iota zeta in H. rewrite <- Ec in H. destruct (check _) as [r| |] eqn:Ck; try discriminate. injection H as <-.
  apply Hck in Ck. pose proof (Forall_inv Ck) as Hsub. clear Ck.
  set (m := fill (vars_at g (chain_target c) (length c)) (st_fact s) ++ fill (vars_at g (chain_source c) 0) (st_fact ps)) in *.
  apply (follows_single g se F f0 (st_fact s) Sf) in HL as [rr [_ [Ef0 Efs]]].
  assert (FT : fits (vars_at g T n) (snd (st_fact s))).
  { rewrite Efs, St. cbn [snd]. unfold vars_at, tgt_vars, args, T. rewrite map_map. unfold fits. clear.
    induction (gpv g (chain_target c)) as [|v l IH]; constructor; [|exact IH]. apply coerce_sort. }
  assert (FF : fits (vars_at g F 0) (snd (st_fact ps))).
  { rewrite Hk2, Ef0. cbn [snd]. unfold vars_at, src_vars, args. cbn [fst snd]. rewrite map_map. unfold fits. clear.
    induction (gpv g F) as [|v l IH]; constructor; [|exact IH]. apply coerce_sort. }
  destruct (fill_two_gen (vars_at g T n) (vars_at g F 0) (st_fact s) (st_fact ps) (vars_at_nodup g R T n) (vars_at_nodup g R F 0)) as [WS [M1 M2]]; [|exact FT|exact FF|].
  { intros v Hv Hv'. apply in_map_iff in Hv as [a [<- Ha]]. apply in_map_iff in Hv' as [b [Eb Hb]].
    destruct (at_time_inj g R 0 n F T b a Hb Ha Eb) as [X _]. unfold n in X. lia. }
  fold T F n in m. change (fill (vars_at g T n) (st_fact s) ++ fill (vars_at g F 0) (st_fact ps)) with m in WS, M1, M2.
  apply (holds_subst m r _ WS) in Hsub. destruct (M1 r) as [M1a M1b]. clear M1. set (r' := upd r m : valuation) in *.
  assert (HR : runs g c (F, args r' (vars_at g F 0)) (facts_from g r' 0 c)).
  { apply (path_runs g R r' c F 0 L). intros ie Hie. unfold path_constraint in Hsub. exact (proj1 (holds_mkAnd_map r' (fun ie => sent_label g (fst ie) (snd ie)) _) Hsub ie Hie). }
  (* the facts *)
  assert (Fnth : forall j e, nth_error c j = Some e -> nth_error (facts_from g r' 0 c) j = Some (eto e, args r' (vars_at g (eto e) (S j)))).
  { intros j e Hj. unfold facts_from. rewrite nth_error_map.
    rewrite (nth_error_combine_intro (seq 0 (length c)) c j j e); [reflexivity| |exact Hj].
    assert (j < length c) by (apply nth_error_Some; congruence). rewrite nth_error_seq by assumption. reflexivity. }
  set (fs := model_facts g r c).
  assert (Lfs : length fs = n - 1).
  { unfold fs, model_facts. rewrite map_length, combine_length, seq_length, removelast_len. unfold n. lia. }
  assert (Mnth : forall j f, nth_error fs j = Some f -> S j < n /\ nth_error (facts_from g r' 0 c) j = Some f).
  { intros j f Hj. assert (Hl : j < length fs) by (apply nth_error_Some; congruence). rewrite Lfs in Hl. split; [lia|].
    unfold fs, model_facts in Hj. rewrite nth_error_map in Hj.
    destruct (nth_error (combine (seq 0 (length (removelast c))) (removelast c)) j) as [[a e]|] eqn:Ee; [|discriminate]. cbn in Hj. injection Hj as <-.
    apply nth_error_combine in Ee as [Ea Ee]. apply seq_nth_inv in Ea as [_ ->]. rewrite removelast_nth in Ee by (unfold n in Hl; lia).
    rewrite (Fnth j e Ee). f_equal. f_equal. apply args_agree_ev. intros v Hv. apply in_map_iff in Hv as [b [<- Hb]]. apply M2.
    - intros X. apply in_map_iff in X as [a [Ea2 Ha]]. destruct (at_time_inj g R n (0 + S j) T (eto e) a b Ha Hb Ea2) as [X _]. lia.
    - intros X. apply in_map_iff in X as [a [Ea2 Ha]]. destruct (at_time_inj g R 0 (0 + S j) F (eto e) a b Ha Hb Ea2) as [X _]. lia. }
  assert (Flast : nth_error (facts_from g r' 0 c) (n - 1) = Some (st_fact s)).
  { assert (Hn : length c = S (n - 1)) by (unfold n; lia). pose proof (last_nth c (n - 1) se Hn) as X. rewrite (Fnth _ _ X). f_equal.
    rewrite Efs, St. rewrite <- (target_last c se) by (rewrite Ec; discriminate). f_equal. replace (S (n - 1)) with n by (unfold n in *; lia).
    fold T. rewrite M1a, Efs, St. reflexivity. }
  set (ms := mid_steps i k c fs).
  assert (Lms : length ms = n - 1).
  { unfold ms, mid_steps. rewrite map_length, !combine_length, seq_length, Lfs. unfold n. lia. }
  change (error_derivation G (expand d i ms (mkStep [i + length ms - 1] (st_fact s) (eid (last c e0))))).
  assert (Pf : option_map st_fact (nth_error d k) = Some (F, args r' (vars_at g F 0))).
  { rewrite Ek. cbn. f_equal. rewrite M1b, Hk2, Ef0. reflexivity. }
  set (s' := mkStep [i + length ms - 1] (st_fact s) (eid (last c e0))).
  assert (Mfact : forall j f, nth_error fs j = Some f -> option_map st_fact (nth_error (expand d i ms s') (i + j)) = Some f).
  { intros j f Hj. pose proof (Mnth j f Hj) as [Hlt _]. rewrite (expand_mid d i ms s' s Hi) by (rewrite Lms; lia).
    destruct (nth_error ms j) as [x|] eqn:Ex; [|apply nth_error_None in Ex; lia]. apply mid_steps_nth in Ex as [e [f' [_ [Ef ->]]]]. cbn. congruence. }
  apply (expand_ok d i ms s' s Hi eq_refl G G eq_refl (fun e He => He) D Pos).
  - intros j x Hx. pose proof Hx as Hx0. apply mid_steps_nth in Hx as [e [f [He' [Hf ->]]]]. cbn [st_fact]. destruct (Mnth j f Hf) as [Hlt Hf'].
    assert (Hec : In e c) by (eapply nth_error_In; eauto). split.
    + destruct (runs_nth g c _ _ HR j e f He' Hf') as [fp [Fo Fp]]. exists e, [fp]. split; [auto|]. split; [reflexivity|].
      split; [|apply (follows_pv g G e _ _ PV); exact Fo]. cbn [st_premises]. constructor; [|constructor]. destruct j as [|j].
      * injection Fp as <-. split; [lia|]. rewrite (expand_before d i ms s' s Hi) by exact Hk1. exact Pf.
      * split; [lia|]. assert (Hj : exists fj, nth_error fs j = Some fj).
        { destruct (nth_error fs j) eqn:X; [eauto|]. apply nth_error_None in X. lia. }
        destruct Hj as [fj Hj]. rewrite (Mfact j fj Hj). rewrite (proj2 (Mnth j fj Hj)) in Fp. exact Fp.
    + intros X. apply Mx. rewrite (Fnth j e He') in Hf'. injection Hf' as <-. cbn [fst] in X. rewrite <- X.
      unfold mids. apply in_map. apply (nth_error_In (removelast c) j). rewrite removelast_nth by (unfold n in Hlt; exact Hlt). exact He'.
  - assert (Hn : length c = S (n - 1)) by (unfold n; lia). pose proof (last_nth c (n - 1) e0 Hn) as X.
    destruct (runs_nth g c _ _ HR (n - 1) (last c e0) (st_fact s) X Flast) as [fp [Fo Fp]]. exists (last c e0), [fp].
    split; [apply Cin, last_in_ne; rewrite Ec; discriminate|]. split; [reflexivity|]. split; [|apply (follows_pv g G _ _ _ PV); exact Fo].
    cbn [st_premises s']. constructor; [|constructor]. split; [lia|].
    destruct (n - 1) as [|j] eqn:En; [unfold n in *; lia|]. rewrite Lms. replace (i + S j - 1) with (i + j) by lia.
    assert (Hj : exists fj, nth_error fs j = Some fj).
    { destruct (nth_error fs j) eqn:Y; [eauto|]. apply nth_error_None in Y. lia. }
    destruct Hj as [fj Hj]. rewrite (Mfact j fj Hj). rewrite (proj2 (Mnth j fj Hj)) in Fp. exact Fp.
Qed.

Lemma find_step_some p d i : find_step p d = Some i -> exists s, nth_error d i = Some s /\ p s = true.
Proof.
  unfold find_step. intros H. apply find_some in H as [_ H]. destruct (nth_error d i) as [s|]; [eauto|discriminate].
Qed.
Lemma find_step_none p d : find_step p d = None -> forall i s, nth_error d i = Some s -> p s = false.
Proof.
  unfold find_step. intros H i s Hi. pose proof (find_none _ _ H i) as X. cbv beta in X. rewrite Hi in X. apply X. apply in_seq.
  assert (i < length d) by (apply nth_error_Some; congruence). lia.
Qed.
Theorem back_chain_invalid_ok fuel : forall d d', error_derivation G d -> back_chain_invalid check g fuel (c, se) d = Some d' ->
  error_derivation G d' /\ forall i s, nth_error d' i = Some s -> st_clause s <> eid se.
Proof.
  induction fuel as [|fuel IH]; intros d d' D H; [discriminate|]. cbn [back_chain_invalid fst snd] in H.
  destruct (find_step _ d) as [i|] eqn:E.
  - destruct (find_step_some _ _ _ E) as [s [Hs Ps]]. apply Nat.eqb_eq in Ps. destruct (replace_summarizing check g c d i) as [d1|] eqn:E1; [|discriminate].
    apply (IH d1 d'); [|exact H]. eapply replace_ok; eauto.
  - injection H as <-. split; [exact D|]. intros i s Hi. pose proof (find_step_none _ _ E i s Hi) as X. cbv beta in X. apply Nat.eqb_neq in X. exact X.
Qed.
End Back.

(** ** The whole transformation *)
Lemma chain_parts_pv g h c ds dt : gpv h = gpv g -> chain_parts h c ds dt = chain_parts g c ds dt.
Proof. intros E. unfold chain_parts, to_source_map, tgt_vars, src_vars. rewrite E. reflexivity. Qed.
Lemma back_chain_valid_pv check pitp g h ce w : gpv h = gpv g -> back_chain_valid check pitp h ce w = back_chain_valid check pitp g ce w.
Proof.
  intros E. unfold back_chain_valid. destruct (w (hd entry (efrom (snd ce)))) as [ds|]; [|reflexivity]. destruct (w (eto (snd ce))) as [dt|]; [|reflexivity].
  rewrite (chain_parts_pv g h _ _ _ E). reflexivity.
Qed.
Lemma Forall2_rev' {A B} (P : A -> B -> Prop) l l' : Forall2 P l l' -> Forall2 P (rev l) (rev l').
Proof. intros H. induction H as [|a b la lb Hab _ IH]; [constructor|]. cbn [rev]. apply Forall2_app; [exact IH|]. constructor; [exact Hab|constructor]. Qed.
Lemma back_all_ext {A} (bs bs' : list (A -> option A)) : Forall2 (fun b b' => forall a, b a = b' a) bs bs' -> forall a, back_all bs a = back_all bs' a.
Proof.
  intros H. unfold back_all. assert (X : forall o, fold_left (fun o b => match o with Some x => b x | None => None end) bs o = fold_left (fun o b => match o with Some x => b x | None => None end) bs' o).
  { induction H as [|b b' bs bs' Hb _ IH]; [reflexivity|]. intros o. cbn [fold_left]. destruct o as [x|]; [rewrite Hb|]; apply IH. }
  intros a. apply X.
Qed.
Lemma back_all_none {A} (bs : list (A -> option A)) : fold_left (fun o b => match o with Some x => b x | None => None end) bs None = None.
Proof. induction bs as [|b bs IH]; [reflexivity|exact IH]. Qed.
Lemma back_all_cons {A} (b : A -> option A) bs a : back_all (b :: bs) a = match b a with Some x => back_all bs x | None => None end.
Proof. unfold back_all. cbn [fold_left]. destruct (b a); [reflexivity|]. apply back_all_none. Qed.

(** What is needed of one summary for the back translation of derivations. *)
Record summary_ok (g : hgraph) (ce : summarized) : Prop := {
  so_len : 2 <= length (fst ce);
  so_linked : linked (chain_source (fst ce)) (fst ce);
  so_exit : ~ In exit (mids (fst ce));
  so_from : efrom (snd ce) = [chain_source (fst ce)];
  so_to : eto (snd ce) = chain_target (fst ce);
  so_in : forall e, In e (fst ce) -> In e (gedges g);
  so_id : gfree g <= eid (snd ce)
}.

Section Whole.
Variable elim : elim_fn.
Hypothesis Helim : elim_ok elim.
Variable check : check_fn.
Hypothesis Hck : check_ok check.
Variable pitp : pitp_fn.
Hypothesis Hpitp : pitp_ok pitp.
Variable vertices : hgraph -> list sym.

Record loop_inv (g g' : hgraph) (cs : list summarized) : Prop := {
  li_wf : wf_graph g';
  li_pv : gpv g' = gpv g;
  li_verdict : derivable g exit [] <-> derivable g' exit [];
  li_valid : forall w w', solution g' w -> only g' w -> back_all (rev (map (back_chain_valid check pitp g) cs)) w = Some w' -> solution g w' /\ only g w';
  li_sum : Forall (summary_ok g) cs;
  li_ids : NoDup (map (fun ce => eid (snd ce)) cs);
  li_edges : forall e, In e (gedges g') -> In e (gedges g) \/ In e (map snd cs);
  li_triv : forall ce m, In ce cs -> In m (mids (fst ce)) -> is_trivial g m = true;
  li_final : forall v, In v (vertices g') -> is_trivial g' v = false
}.

Lemma edge_touches c x : 2 <= length c -> linked (chain_source c) c -> In x c -> exists m, In m (mids c) /\ (efrom x = [m] \/ eto x = m).
Proof.
  intros Len L Hx. assert (A : forall s c, linked s c -> In x c -> (exists m, In m (mids c) /\ (efrom x = [m] \/ eto x = m)) \/ (length c = 1 /\ efrom x = [s])).
  { clear. intros s c. revert s. induction c as [|y [|z c] IH]; intros s L Hx; [destruct Hx| |].
    - destruct Hx as [->|[]]. right. split; [reflexivity|]. apply L.
    - left. rewrite mids_cons by discriminate. destruct Hx as [->|Hx]; [exists (eto x); split; [left; reflexivity|auto]|].
      destruct L as [_ L]. destruct (IH (eto y) L Hx) as [[m [H1 H2]]|[_ H]]; [exists m; split; [right; exact H1|exact H2]|].
      exists (eto y). split; [left; reflexivity|auto]. }
  destruct (A (chain_source c) c L Hx) as [H|[H _]]; [exact H|lia].
Qed.

Lemma mids_len c : mids c <> [] -> 2 <= length c.
Proof. destruct c as [|x [|y c]]; cbn; try congruence. lia. Qed.
Lemma contract_free g c : gfree (fst (contract_chain elim g c)) = S (gfree g).
Proof. unfold contract_chain, merge_chain, new_edge. cbn [fst]. rewrite (proj1 (proj2 (delete_nodes_pv (mids c) _))). reflexivity. Qed.

Theorem loop_ok fuel : forall g g' cs, wf_graph g -> summarize_loop elim vertices fuel g = Some (g', cs) -> loop_inv g g' cs.
Proof.
  induction fuel as [|fuel IH]; intros g g' cs W H; [discriminate|]. cbn [summarize_loop] in H.
  destruct (find (is_trivial g) (vertices g)) as [v|] eqn:Ev.
  2:{ injection H as <- <-. split.
      - exact W.
      - reflexivity.
      - tauto.
      - intros w w' Sw Ow Hb. cbn in Hb. injection Hb as <-. auto.
      - constructor.
      - constructor.
      - auto.
      - intros ce m [].
      - intros v Hv. exact (find_none _ _ Ev v Hv). }
  apply find_some in Ev as [_ Tv]. destruct (trivial_chain g v) as [ids|] eqn:Ec; [|discriminate].
  destruct (trivial_chain_ok g W v ids Tv Ec) as [c [-> [Em CF]]]. rewrite Em in H.
  destruct (contract_chain elim g c) as [g1 se] eqn:EC. destruct (summarize_loop elim vertices fuel g1) as [[g2 cs2]|] eqn:EL; [|discriminate].
  cbn in H. injection H as <- <-.
  assert (Eg1 : g1 = fst (contract_chain elim g c)) by (rewrite EC; reflexivity).
  assert (Ese : se = snd (contract_chain elim g c)) by (rewrite EC; reflexivity).
  assert (Efree : gfree g1 = S (gfree g)) by (rewrite Eg1; apply contract_free).
  assert (Ese' : se = mkEdge (gfree g) [chain_source c] (chain_target c) (chain_label elim g c)) by (rewrite Ese; reflexivity).
  assert (W1 : wf_graph g1).
  { rewrite Eg1. destruct CF as [CT|FC]; [apply contract_wf; assumption|apply circle_wf; assumption]. }
  assert (PV1 : gpv g1 = gpv g) by (rewrite Eg1; destruct CF as [CT|FC]; [apply pv_contract|apply circle_pv]).
  destruct (IH g1 g2 cs2 W1 EL) as [W2 PV2 V2 S2 SO2 ID2 ED2 TR2 FI2].
  assert (TR1 : forall m, is_trivial g1 m = true -> is_trivial g m = true /\ (In se (gedges g1) -> m <> chain_source c /\ m <> chain_target c)).
  { intros m Hm. rewrite Eg1 in Hm. destruct CF as [CT|FC].
    - destruct (trivial_after elim Helim g W c CT m Hm) as [A [B C]]. split; [exact A|]. auto.
    - split; [apply (circle_trivial elim g W c FC m Hm)|]. intros X. exfalso. rewrite Eg1 in X. apply (circle_edges elim g c FC) in X as [X _].
      pose proof (wf_idlt g W se X) as Y. rewrite Ese' in Y. cbn [eid] in Y. lia. }
  assert (ED1 : forall e, In e (gedges g1) -> In e (gedges g) \/ e = se).
  { intros e He. rewrite Eg1 in He. destruct CF as [CT|FC].
    - apply (kept_inv elim g c CT) in He as [->|[He _]]; [right; symmetry; exact Ese|left; exact He].
    - left. apply (circle_edges elim g c FC) in He. tauto. }
  assert (SO : summary_ok g (c, se)).
  { assert (Lc : 2 <= length c /\ linked (chain_source c) c /\ ~ In exit (mids c)).
    { destruct CF as [CT|FC].
      - split; [apply (co_len g c (ct_ok g c CT))|]. split; [apply (co_linked g c (ct_ok g c CT))|]. apply (mid_exit g W c CT).
      - split; [apply mids_len; intros X; pose proof (fc_source g c FC) as Y; rewrite X in Y; destruct Y|]. split; [apply (fc_linked g c FC)|]. apply (circle_exit g W c FC). }
    destruct Lc as [L1 [L2 L3]]. split; cbn [fst snd]; auto.
    - rewrite Ese'. reflexivity.
    - rewrite Ese'. reflexivity.
    - destruct CF as [CT|FC]; [apply (co_in g c (ct_ok g c CT))|apply (fc_edges g c FC)].
    - rewrite Ese'. cbn [eid]. lia. }
  assert (SOin : forall ce e, In ce cs2 -> In e (fst ce) -> In e (gedges g)).
  { intros ce e Hce He. rewrite Forall_forall in SO2. pose proof (SO2 ce Hce) as O. pose proof (so_in _ _ O e He) as He1.
    destruct (ED1 e He1) as [X| ->]; [exact X|]. exfalso.
    destruct (edge_touches (fst ce) se (so_len _ _ O) (so_linked _ _ O) He) as [m [Hm Hend]].
    destruct (TR1 m (TR2 ce m Hce Hm)) as [_ N]. destruct (N He1) as [N1 N2]. rewrite Ese' in Hend. cbn [efrom eto] in Hend. destruct Hend as [E|E]; [injection E as E|]; congruence. }
  split.
  - exact W2.
  - congruence.
  - rewrite <- V2. rewrite Eg1. destruct CF as [CT|FC]; [apply contract_verdict; assumption|apply circle_verdict; assumption].
  - intros w w' Sw Ow Hb. cbn [map rev] in Hb. unfold backV in Hb. rewrite back_all_snoc in Hb.
    rewrite (back_all_ext _ (rev (map (back_chain_valid check pitp g1) cs2))) in Hb.
    2:{ assert (X : Forall2 (fun b b' => forall a, b a = b' a) (map (back_chain_valid check pitp g) cs2) (map (back_chain_valid check pitp g1) cs2)).
        { clear - PV1. induction cs2 as [|ce cs2 IH]; cbn [map]; constructor; [|exact IH]. intros a. symmetry. apply back_chain_valid_pv, PV1. }
        apply Forall2_rev', X. }
    destruct (back_all _ w) as [w1|] eqn:E1; [|discriminate]. destruct (S2 w w1 Sw Ow E1) as [Sw1 Ow1].
    rewrite Ese in Hb. rewrite Eg1 in Sw1, Ow1. destruct CF as [CT|FC].
    + apply (contract_valid elim g W c CT check pitp Hpitp w1 w' Sw1 Ow1 Hb).
    + pose proof (circle_valid elim g W c FC check pitp w1 Ow1) as X. rewrite X in Hb. discriminate.
  - constructor; [exact SO|]. rewrite Forall_forall in *. intros ce Hce. pose proof (SO2 ce Hce) as O. destruct O as [O1 O2 O3 O4 O5 O6 O7]. split; auto.
    + intros e He. apply (SOin ce e Hce He).
    + lia.
  - cbn [map snd]. constructor; [|exact ID2]. intros X. apply in_map_iff in X as [ce [E Hce]]. rewrite Forall_forall in SO2.
    pose proof (so_id _ _ (SO2 ce Hce)) as Y. rewrite E, Ese' in Y. cbn [eid] in Y. lia.
  - intros e He. cbn [map snd]. destruct (ED2 e He) as [X|X]; [|right; right; exact X]. destruct (ED1 e X) as [Y| ->]; [left; exact Y|right; left; reflexivity].
  - intros ce m [<-|Hce] Hm.
    + cbn [fst] in Hm. destruct CF as [CT|FC]; [apply (ct_triv g c CT m Hm)|apply (fc_triv g c FC m Hm)].
    + apply TR1. apply (TR2 ce m Hce Hm).
  - exact FI2.
Qed.

Lemma invalid_all g cs : wf_graph g -> Forall (summary_ok g) cs -> NoDup (map (fun ce => eid (snd ce)) cs) ->
  forall d d', error_derivation (mkGraph (gedges g ++ map snd cs) (gpv g) (gfree g) (gctr g)) d ->
    back_all (map (fun ce d => back_chain_invalid check g (S (length d)) ce d) cs) d = Some d' -> error_derivation g d'.
Proof.
  intros W. induction cs as [|[c se] cs IH]; intros SO ND d d' D H.
  - cbn in H. injection H as <-. revert D. apply error_derivation_sub; [reflexivity|]. cbn [gedges map]. intros e He. rewrite app_nil_r in He. exact He.
  - cbn [map] in H. rewrite back_all_cons in H. destruct (back_chain_invalid check g _ (c, se) d) as [d1|] eqn:E1; [|discriminate].
    inversion SO as [|? ? O SO']; subst. cbn [map snd] in ND. inversion ND as [|? ? Hn ND']; subst. destruct O as [O1 O2 O3 O4 O5 O6 O7]. cbn [fst snd] in *.
    assert (Uniq : forall e, In e (gedges g ++ map snd ((c, se) :: cs)) -> eid e = eid se -> e = se).
    { intros e He E. cbn [map snd] in He. apply in_app_iff in He as [He|[He|He]]; [|congruence|].
      - pose proof (wf_idlt g W e He). lia.
      - exfalso. apply Hn. rewrite <- E. apply in_map_iff in He as [ce [<- Hce]]. apply in_map_iff. exists ce. auto. }
    destruct (back_chain_invalid_ok check (check_sat check Hck) g (wf_rep g W) c O1 O2 O3 se O4 O5
       (mkGraph (gedges g ++ map snd ((c, se) :: cs)) (gpv g) (gfree g) (gctr g)) eq_refl) with (fuel := S (length d)) (d := d) (d' := d1) as [D1 N1]; auto.
    + intros e He. cbn [gedges]. apply in_app_iff. left. auto.
    + unfold no_id. destruct (gedges g) eqn:Eg; [|pose proof (wf_idlt g W h) as X; rewrite Eg in X; specialize (X (or_introl eq_refl)); lia].
      exfalso. destruct c as [|x c]; [cbn in O1; lia|]. exact (O6 x (or_introl eq_refl)).
    + apply (IH SO' ND' d1 d'); [|exact H]. destruct D1 as [[R1 R2 R3] F1 L1]. split; [split|..]; auto.
      intros i s Hi Hs. destruct (R3 i s Hi Hs) as [e [ps [He [Hid [HF HL]]]]]. exists e, ps. split; [|split; [exact Hid|split; [exact HF|exact HL]]].
      cbn [gedges map snd] in He |- *. apply in_app_iff in He as [He|[He|He]]; apply in_app_iff; auto.
      exfalso. apply (N1 i s Hs). rewrite <- Hid. cbn [snd] in He. congruence.
Qed.

Theorem summarize_good fuel : good (summarize elim check pitp vertices fuel).
Proof.
  intros g t W H. unfold summarize in H. destruct (summarize_loop elim vertices fuel g) as [[g' cs]|] eqn:E; [|discriminate]. injection H as <-. cbn [tr_graph tr_valid tr_invalid].
  destruct (loop_ok fuel g g' cs W E) as [W' PV V S SO ID ED TR FI]. split; [exact W'|]. split; [exact V|exact S|].
  intros d d' D Hb. apply (invalid_all g cs W SO ID d d'); [|exact Hb].
  revert D. apply error_derivation_sub; [cbn; exact PV|]. intros e He. cbn [gedges]. apply in_app_iff. apply ED, He.
Qed.
End Whole.
