(** * Back translation for merged and pruned edges; pipelines: proofs. *)
From Verif Require Import Syntax Solver Graph GraphOps GraphOpsProofs ValidatorModel ValidatorProofs FormulaModel FormulaProofs3 GraphSem SimpleTransModel UnreachProofs UnreachProofs2 ReverseProofs SimpleTransProofs.
Open Scope nat_scope.

(** ** Substituting the arguments of facts *)
Section Fill.
Variable pv : list var.
Variable f : fact.
Lemma fill_lookup v : fits pv (snd f) -> (lookup v (fill pv f) = None <-> ~ In v pv).
Proof. intros H. rewrite lookup_none, fill_keys; tauto. Qed.
End Fill.
Lemma fill_two g p q (fp fq : fact) : rep_wf (gpv g) -> fits (src_vars g (p, 0)) (snd fp) -> fits (tgt_vars g q) (snd fq) ->
  let m := fill (tgt_vars g q) fq ++ fill (src_vars g (p, 0)) fp in
  well_sorted m /\
  (forall r, args (upd r m) (tgt_vars g q) = snd fq /\ args (upd r m) (src_vars g (p, 0)) = snd fp) /\
  (forall r t, args r (tgt_vars g q) = snd fq -> args r (src_vars g (p, 0)) = snd fp -> eval (upd r m) t = eval r t).
Proof.
  intros R Fp Fq m.
  assert (A : forall r, args (upd r m) (tgt_vars g q) = snd fq /\ args (upd r m) (src_vars g (p, 0)) = snd fp).
  { intros r. split.
    - unfold m. rewrite args_upd_app_l; [apply args_fill; [apply tgt_vars_nodup, R|exact Fq]|].
      intros v Hv E. apply fill_lookup in E; auto.
    - unfold m. rewrite args_upd_app_r; [apply args_fill; [apply src_vars_nodup, R|exact Fp]|].
      intros v Hv. apply fill_lookup; [exact Fq|]. intros Ht. eapply (src_tgt_disj g); eauto. }
  split; [|split; [exact A|]].
  - apply well_sorted_intro. intros k u Hin r. unfold m in Hin. apply in_app_or in Hin as [Hin|Hin].
    + destruct (fill_well_sorted _ _ Fq _ _ Hin) as [x [-> Hx]]. exact Hx.
    + destruct (fill_well_sorted _ _ Fp _ _ Hin) as [x [-> Hx]]. exact Hx.
  - intros r t Hq Hp. destruct (A r) as [A1 A2]. apply eval_ext. intros v _.
    destruct (lookup v m) as [u|] eqn:E; [|unfold upd; rewrite E; reflexivity].
    assert (Hv : In v (map fst m)) by (apply lookup_in in E; change v with (fst (v, u)); apply in_map, E).
    unfold m in Hv. rewrite map_app, in_app_iff, !fill_keys in Hv by assumption. destruct Hv as [Hv|Hv].
    + refine (args_eq_ev (upd r m) r (tgt_vars g q) _ v Hv). congruence.
    + refine (args_eq_ev (upd r m) r (src_vars g (p, 0)) _ v Hv). congruence.
Qed.

(** ** Parallel edges, back *)
Section Merge.
Variable g : hgraph.
Hypothesis W : wf_graph g.
Variable check : check_fn.
Variable simp : term -> term.
Hypothesis Hc : check_ok check.
Hypothesis Hs : forall t, equiv (simp t) t.

Lemma single_from e : is_single e = true -> efrom e = [hd entry (efrom e)].
Proof. unfold is_single. intros H. apply Nat.eqb_eq in H. destruct (efrom e) as [|x [|]]; try discriminate. reflexivity. Qed.

(** A step whose clause is a merged edge. *)
Lemma merged_step d i s es me : step_ok (merge_multi g) d i s ->
  find (fun m => Nat.eqb (eid (snd m)) (st_clause s)) (merged_edges g) = Some (es, me) ->
  exists k ps, st_premises s = [k] /\ k < i /\ nth_error d k = Some ps /\
    follows (merge_multi g) me [st_fact ps] (st_fact s) /\ In me (gedges (merge_multi g)) /\
    efrom me = [hd entry (efrom me)] /\ me = merged_edge es (hd me es) /\
    forall e, In e es -> In e (gedges g) /\ efrom e = efrom me /\ eto e = eto me.
Proof.
  intros [e' [prems [He [Hid [HF HL]]]]] Hf. apply find_some in Hf as [Hin Hid']. cbn [snd] in Hid'. apply Nat.eqb_eq in Hid'.
  pose proof Hin as Hspec. apply (merged_edges_spec g W) in Hspec as [e0 [e1 [b [H0 [S [B E]]]]]]. injection E as -> ->.
  assert (e' = merged_edge (e0 :: e1 :: b) e0).
  { destruct (merge_multi_as g W e' He) as [K N _|x0 x1 b' X0 XS XB -> _].
    - exfalso. apply (N _ Hin). cbn [snd]. congruence.
    - cbn [merged_edge eid] in *. assert (x0 = e0) by (apply (wf_edge_eq g); auto; congruence). subst x0. congruence. }
  subst e'. assert (F1 : efrom (merged_edge (e0 :: e1 :: b) e0) = [hd entry (efrom e0)]) by (apply (single_from e0 S)).
  pose proof HL as [r [Hl [Ep Ef]]]. rewrite F1, instances_single in Ep. cbn [map fst] in Ep. subst prems. inversion HF as [|k f ks fs [Hk Hn] HF']; subst.
  inversion HF'; subst. destruct (nth_error d k) as [ps|] eqn:Ek; [|discriminate]. simpl in Hn. injection Hn as Hn.
  exists k, ps. split; [auto|]. split; [exact Hk|]. split; [exact Ek|]. rewrite Hn. split; [exact HL|]. split; [exact He|].
  split; [exact F1|]. split; [reflexivity|]. intros e Hb. rewrite <- B in Hb. apply bucket_spec in Hb as [Y1 [_ [Y2 Y3]]]. auto.
Qed.

Theorem back_merge_ok d d' : error_derivation (merge_multi g) d -> back_merge check simp g d = Some d' -> error_derivation g d'.
Proof.
  intros E B. pose proof (map_opt_nth _ _ _ B) as [L N]. apply (relabel_ok g (merge_multi g) d d' L); [|exact E].
  intros i s Hi. specialize (N i). rewrite Hi in N. destruct N as [s' [Hb Hn]]. exists s'. split; [exact Hn|].
  unfold back_merge_step in Hb.
  destruct (find (fun m => Nat.eqb (eid (snd m)) (st_clause s)) (merged_edges g)) as [[es me]|] eqn:Ef.
  - destruct (st_premises s) as [|k ks] eqn:Ep; [discriminate|]. destruct (nth_error d k) as [ps|] eqn:Ek; [|discriminate].
    destruct (choose_edge check simp _ es) as [e|] eqn:Ec; [|discriminate]. injection Hb as <-. cbn [st_fact st_premises st_clause].
    split; [reflexivity|]. split; [reflexivity|]. split.
    + intros -> Hcl. exfalso. apply find_some in Ef as [Hin Hid]. cbn [snd] in Hid. apply Nat.eqb_eq in Hid.
      apply (merged_edges_spec g W) in Hin as [e0 [e1 [b [H0 [_ [_ Em]]]]]]. injection Em as -> ->. cbn [merged_edge eid] in Hid.
      pose proof (wf_idlt g W e0 H0). unfold no_id in *. lia.
    + intros Hpos Hok. destruct (merged_step d i s es me Hok Ef) as [k' [ps' [X1 [X2 [X3 [X4 [X5 [X6 [_ X7]]]]]]]]].
      rewrite Ep in X1. injection X1 as <- ->. rewrite Ek in X3. injection X3 as <-.
      apply (choose_edge_sat check simp Hc Hs) in Ec as [He [r Hr]]. destruct (X7 e He) as [Y1 [Y2 Y3]].
      destruct X4 as [r0 [Hl0 [Ep0 Ef0]]]. rewrite X6, instances_single in Ep0. cbn [map fst] in Ep0. injection Ep0 as Ep0.
      set (p := hd entry (efrom me)) in *. change (src_vars (merge_multi g)) with (src_vars g) in *. change (tgt_vars (merge_multi g)) with (tgt_vars g) in *.
      assert (Fp : fits (src_vars g (p, 0)) (snd (st_fact ps))) by (rewrite Ep0; apply fits_args).
      assert (Fq : fits (tgt_vars g (eto me)) (snd (st_fact s))) by (rewrite Ef0; apply fits_args).
      destruct (fill_two g p (eto me) _ _ (wf_rep g W) Fp Fq) as [WS [A _]].
      apply (holds_subst _ _ _ WS) in Hr. destruct (A r) as [A1 A2].
      exists e, [st_fact ps]. split; [exact Y1|]. split; [reflexivity|]. split.
      * constructor; [|constructor]. split; [exact X2|]. rewrite Ek. reflexivity.
      * eexists. split; [exact Hr|]. rewrite Y2, Y3, X6, instances_single. cbn [map fst]. rewrite A1, A2. split.
        { rewrite Ep0. reflexivity. }
        { rewrite Ef0. reflexivity. }
  - injection Hb as <-. split; [reflexivity|]. split; [reflexivity|]. split; [auto|].
    intros Hpos [e' [prems [He [Hid [HF HL]]]]]. exists e', prems. split; [|auto].
    destruct (merge_multi_as g W e' He) as [K _ _|x0 x1 b X0 XS XB -> Xin]; [exact K|].
    exfalso. pose proof (find_none _ _ Ef _ Xin) as X. cbn [snd] in X. rewrite <- Hid, Nat.eqb_refl in X. discriminate.
Qed.

(** With a solver that answers, an edge is always found. *)
Theorem back_merge_total d : decisive check -> error_derivation (merge_multi g) d -> exists d', back_merge check simp g d = Some d'.
Proof.
  intros Hd E. apply map_opt_total. intros s Hin. apply In_nth_error in Hin as [i Hi].
  unfold back_merge_step. destruct (find (fun m => Nat.eqb (eid (snd m)) (st_clause s)) (merged_edges g)) as [[es me]|] eqn:Ef; [|discriminate].
  destruct i as [|i].
  { exfalso. pose proof (ed_first _ _ E) as X. rewrite Hi in X. simpl in X. injection X as X.
    apply find_some in Ef as [Hin Hid]. cbn [snd] in Hid. apply Nat.eqb_eq in Hid.
    apply (merged_edges_spec g W) in Hin as [e0 [e1 [b [H0 [_ [_ Em]]]]]]. injection Em as -> ->. cbn [merged_edge eid] in Hid.
    pose proof (wf_idlt g W e0 H0). unfold no_id in *. lia. }
  assert (Hok : step_ok (merge_multi g) d (S i) s) by (apply (ref_steps _ _ (ed_ref _ _ E)); [lia|exact Hi]).
  destruct (merged_step d (S i) s es me Hok Ef) as [k [ps [X1 [X2 [X3 [X4 [X5 [X6 [X8 X7]]]]]]]]].
  rewrite X1, X3. destruct X4 as [r0 [Hl0 [Ep0 Ef0]]]. rewrite X6, instances_single in Ep0. cbn [map fst] in Ep0. injection Ep0 as Ep0.
  set (p := hd entry (efrom me)) in *. change (src_vars (merge_multi g)) with (src_vars g) in *. change (tgt_vars (merge_multi g)) with (tgt_vars g) in *.
  assert (Fp : fits (src_vars g (p, 0)) (snd (st_fact ps))) by (rewrite Ep0; apply fits_args).
  assert (Fq : fits (tgt_vars g (eto me)) (snd (st_fact s))) by (rewrite Ef0; apply fits_args).
  destruct (fill_two g p (eto me) _ _ (wf_rep g W) Fp Fq) as [WS [_ A]].
  rewrite X8 in Hl0. cbn [merged_edge efla] in Hl0. apply holds_or, Exists_exists in Hl0 as [t [Ht Hl0]].
  apply in_map_iff in Ht as [e [<- He]].
  destruct (choose_edge check simp _ es) eqn:Ec; [discriminate|].
  exfalso. revert Ec. eapply (choose_edge_total check simp Hc Hs); [exact Hd|exact He|].
  apply (holds_subst _ _ _ WS). unfold holds, holdsb. rewrite (A r0); [exact Hl0| |].
  - rewrite Ef0. reflexivity.
  - rewrite Ep0. reflexivity.
Qed.

Theorem merge_edges_ok : wf_graph (merge_multi g) /\ correct g (merge_multi g) Some (back_merge check simp g).
Proof.
  split; [apply wf_merge, W|]. split.
  - apply merge_derivable, W.
  - intros w w' S O E. injection E as <-. split; [apply merge_solution; auto|]. intros p Hp. apply (merge_vertex g W), O, Hp.
  - intros d d' E B. eapply back_merge_ok; eauto.
Qed.
End Merge.

(** ** Direct edges *)
Section Prune.
Variable g : hgraph.
Hypothesis W : wf_graph g.
Variable check : check_fn.
Hypothesis Hc : check_ok check.

Lemma is_direct_spec e : is_direct e = true <-> efrom e = [entry] /\ eto e = exit.
Proof.
  unfold is_direct. rewrite andb_true_iff, Nat.eqb_eq. split.
  - intros [H1 H2]. destruct (efrom e) as [|p [|]]; try discriminate. apply Nat.eqb_eq in H2. subst. auto.
  - intros [-> ->]. auto.
Qed.
Definition single_graph (e : hedge) : hgraph := mkGraph [mkEdge 1 (efrom e) (eto e) (efla e)] (fun _ => []) 2 (gctr g).
Lemma wf_single e : In e (gedges g) -> is_direct e = true -> wf_graph (single_graph e).
Proof.
  intros He Hd. apply is_direct_spec in Hd as [F T]. split; cbn [single_graph gedges gpv gfree gctr].
  - split; cbn; auto; try (intros; contradiction). intros; constructor.
  - intros x [<-|[]]. cbn. congruence.
  - cbn. constructor; [auto|constructor].
  - intros x [<-|[]]. cbn. unfold no_id. lia.
  - intros x v [<-|[]] Hv Ho p Hp [b [Hb _]]. cbn in Hb. destruct Hb.
  - intros e1 e2 v [<-|[]] [<-|[]] N. congruence.
  - intros x v [<-|[]] Hv. apply (wf_fresh g W e v He Hv).
  - intros x [<-|[]]. cbn. rewrite T. discriminate.
  - intros x [<-|[]]. cbn. rewrite F. intros [X|[]]. discriminate.
Qed.
Lemma direct_follows h e r : gpv h entry = [] -> gpv h exit = [] -> efrom e = [entry] -> eto e = exit -> holds r (efla e) ->
  follows h e [(entry, [])] (exit, []).
Proof.
  intros H0 H1 F T Hr. exists r. rewrite F, T. split; [exact Hr|]. cbn. unfold src_vars, tgt_vars. cbn. rewrite H0, H1. auto.
Qed.
Lemma single_correct e m : In e (gedges g) -> is_direct e = true -> holds m (efla e) ->
  correct g (single_graph e) (fun _ => None) (back_prune (eid e)).
Proof.
  intros He Hd Hm. pose proof Hd as Hd'. apply is_direct_spec in Hd' as [F T].
  assert (D : dfact g (exit, [])).
  { apply (dfact_follows g e [(entry, [])]); [exact He| |repeat constructor].
    apply (direct_follows g e m); auto; apply (wf_rep g W). }
  assert (D' : dfact (single_graph e) (exit, [])).
  { eapply (dfact_follows (single_graph e) _ [(entry, [])]); [left; reflexivity| |repeat constructor].
    apply (direct_follows (single_graph e) _ m); auto. }
  split.
  - split; [intros _; exact D'|intros _; exact D].
  - intros w w' _ _ E. discriminate.
  - intros d d' [[R0 R1 R2] F0 La] B. destruct d as [|s0 [|s1 rest]]; try discriminate.
    injection B as B. cbn in R0, F0. injection R0 as R0. injection F0 as F0.
    destruct (R2 1 s1) as [x [prems [[<-|[]] [Hid [HF [r [Hl [Ep Ef]]]]]]]]; [lia|reflexivity|]. cbn [efrom eto efla eid] in *.
    rewrite F in Ep. rewrite T in Ef. cbn in Ep, Ef. subst prems.
    assert (Hrest : rest = []).
    { assert (X : 2 = length (s0 :: s1 :: rest)) by (apply (La 1 s1); [reflexivity|rewrite Ef; reflexivity]).
      destruct rest; [reflexivity|discriminate]. }
    subst rest. inversion HF as [|k f ks fs [Hk Hn] HF']; subst. inversion HF'; subst. assert (k = 0) by lia. subst k.
    split; [split|..].
    + cbn. rewrite R0. reflexivity.
    + exists 1. cbn. rewrite Ef. auto.
    + intros i s Hpos Hs. destruct i as [|[|i]]; [lia| |destruct i; discriminate]. cbn in Hs. injection Hs as <-.
      exists e, [(entry, [])]. cbn [st_clause st_premises st_fact]. split; [exact He|]. split; [reflexivity|]. rewrite <- H. split.
      * constructor; [|constructor]. split; [lia|]. cbn. rewrite R0. reflexivity.
      * rewrite Ef. apply (direct_follows g e r); auto; apply (wf_rep g W).
    + cbn. rewrite F0. reflexivity.
    + intros i s Hs Hx. destruct i as [|[|i]]; [|reflexivity|destruct i; discriminate].
      cbn in Hs. injection Hs as <-. rewrite R0 in Hx. discriminate.
Qed.
Lemma prune_loop_ok es : (forall e, In e es -> In e (gedges g) /\ is_direct e = true) ->
  (forall e, In e (gedges g) -> is_direct e = true -> In e es \/ unsat [efla e]) ->
  wf_graph (tr_graph (prune_loop check g es)) /\
  correct g (tr_graph (prune_loop check g es)) (tr_valid (prune_loop check g es)) (tr_invalid (prune_loop check g es)).
Proof.
  induction es as [|e es IH]; intros H1 H2; cbn [prune_loop].
  - cbn [tr_graph tr_valid tr_invalid]. split; [apply wf_filter, W|].
    assert (U : forall e ps f, In e (gedges g) -> is_direct e = true -> ~ follows g e ps f).
    { intros e ps f He Hd [r [Hl _]]. destruct (H2 e He Hd) as [[]|X]. apply (X r). auto. }
    split.
    + change (dfact g (exit, []) <-> dfact (filter_edges (fun e => negb (is_direct e)) g) (exit, [])). split.
      * apply (dfact_ind g (dfact (filter_edges (fun e => negb (is_direct e)) g))); [constructor|]. intros e ps f He Fo _ IH. apply (dfact_follows _ e ps); auto.
        apply filter_In. split; [exact He|]. apply negb_true_iff. destruct (is_direct e) eqn:Ed; [|reflexivity].
        destruct (U e ps f He Ed Fo).
      * apply derivable_sub; [reflexivity|]. intros e He. apply filter_In in He. tauto.
    + intros w w' S O E. injection E as <-. split.
      * pose proof S as S'. apply solution_facts in S' as [_ [E0 [E1 HE]]].
        apply (solution_transfer g (filter_edges (fun e => negb (is_direct e)) g)); [reflexivity| |exact S]. intros e He.
        destruct (is_direct e) eqn:Ed.
        { pose proof Ed as Ed'. apply is_direct_spec in Ed' as [F T]. rewrite F, T. destruct E0 as [d0 [E0 _]], E1 as [d1 [E1 _]].
          split; [intros p [<-|[]]; congruence|]. split; [congruence|]. intros ps f Fo. destruct (U e ps f He Ed Fo). }
        apply (HE e). apply filter_In. rewrite Ed. auto.
      * intros p Hp. apply (vertex_filter _ g p (O p Hp)).
    + intros d d' E B. injection B as <-. revert E. apply error_derivation_sub; [reflexivity|]. intros e He. apply filter_In in He. tauto.
  - destruct (H1 e (or_introl eq_refl)) as [He Hd]. destruct (check [efla e]) as [m| |] eqn:Ec; cbn [tr_graph tr_valid tr_invalid].
    + split; [apply (wf_single e He Hd)|]. apply (single_correct e m He Hd).
      apply (check_sat _ Hc) in Ec. apply Forall_inv in Ec. exact Ec.
    + apply IH; [intros; apply H1; simpl; auto|]. intros x Hx Hdx. destruct (H2 x Hx Hdx) as [[<-|X]|X]; auto.
      right. apply (check_unsat _ Hc), Ec.
    + split; [exact W|]. split; [tauto| |]; intros; match goal with H : Some _ = Some _ |- _ => injection H as <- end; auto.
Qed.
Theorem prune_trivial_ok :
  wf_graph (tr_graph (prune_trivial check g)) /\
  correct g (tr_graph (prune_trivial check g)) (tr_valid (prune_trivial check g)) (tr_invalid (prune_trivial check g)).
Proof.
  assert (H := prune_loop_ok (filter is_direct (gedges g))).
  unfold prune_trivial. destruct (filter is_direct (gedges g)) as [|e es] eqn:E.
  - cbn [tr_graph tr_valid tr_invalid]. split; [exact W|]. split; [tauto| |]; intros; match goal with H : Some _ = Some _ |- _ => injection H as <- end; auto.
  - apply H; rewrite <- E.
    + intros x Hx. apply filter_In in Hx. exact Hx.
    + intros x Hx Hd. left. apply filter_In. auto.
Qed.
(** The back translation of a derivation is never lost. *)
Theorem prune_trivial_total d : error_derivation (tr_graph (prune_trivial check g)) d -> tr_invalid (prune_trivial check g) d <> None.
Proof.
  assert (L : forall es, error_derivation (tr_graph (prune_loop check g es)) d -> tr_invalid (prune_loop check g es) d <> None).
  { induction es as [|e es IH]; cbn [prune_loop]; [discriminate|]. destruct (check [efla e]); cbn [tr_graph tr_invalid]; auto; [|discriminate].
    intros [[R0 [n [Hn R1]] _] _ _]. destruct d as [|s0 [|s1 rest]]; [discriminate| |discriminate].
    cbn in Hn. injection Hn as <-. cbn in R0, R1. rewrite R0 in R1. discriminate. }
  unfold prune_trivial. destruct (filter is_direct (gedges g)) as [|e es]; [discriminate|]. apply L.
Qed.
End Prune.

(** ** Pipelines *)
Lemma correct_id g : correct g g Some Some.
Proof. split; [tauto| |]; intros; match goal with H : Some _ = Some _ |- _ => injection H as <- end; auto. Qed.
Lemma correct_trans g1 g2 g3 bv1 bi1 bv2 bi2 : correct g1 g2 bv1 bi1 -> correct g2 g3 bv2 bi2 ->
  correct g1 g3 (fun w => match bv2 w with Some x => bv1 x | None => None end) (fun d => match bi2 d with Some x => bi1 x | None => None end).
Proof.
  intros [V1 A1 B1] [V2 A2 B2]. split.
  - rewrite V1. exact V2.
  - intros w w' S O E. destruct (bv2 w) as [x|] eqn:Ex; [|discriminate]. destruct (A2 w x S O Ex) as [S' O']. eapply A1; eauto.
  - intros d d' D E. destruct (bi2 d) as [x|] eqn:Ex; [|discriminate]. eapply B1; [|exact E]. eapply B2; eauto.
Qed.
Lemma correct_ext g g' bv bi bv' bi' : (forall w, bv' w = bv w) -> (forall d, bi' d = bi d) -> correct g g' bv bi -> correct g g' bv' bi'.
Proof.
  intros E1 E2 [A B C]. split; [exact A| |].
  - intros w w' S O H. rewrite E1 in H. eapply B; eauto.
  - intros d d' D H. rewrite E2 in H. eapply C; eauto.
Qed.
Lemma back_all_snoc {A} (bs : list (A -> option A)) b a :
  back_all (bs ++ [b]) a = match back_all bs a with Some x => b x | None => None end.
Proof. unfold back_all. rewrite fold_left_app. reflexivity. Qed.

(** A transformation that keeps well-formed graphs well-formed and is correct on them. *)
Definition good (t : hgraph -> option trans) : Prop :=
  forall g r, wf_graph g -> t g = Some r -> wf_graph (tr_graph r) /\ correct g (tr_graph r) (tr_valid r) (tr_invalid r).

Theorem pipeline_good ts : Forall good ts -> good (pipeline ts).
Proof.
  intros H. assert (G : forall g g' bs, wf_graph g -> run_pipeline ts g = Some (g', bs) -> wf_graph g' /\
     correct g g' (back_all (rev (map tr_valid bs))) (back_all (rev (map tr_invalid bs)))).
  { induction H as [|t ts Ht _ IH]; intros g g' bs W E; cbn [run_pipeline] in E.
    - injection E as <- <-. split; [exact W|apply correct_id].
    - destruct (t g) as [r|] eqn:Et; [|discriminate]. destruct (Ht g r W Et) as [W1 C1].
      destruct (run_pipeline ts (tr_graph r)) as [[g2 bs2]|] eqn:E2; [|discriminate]. injection E as <- <-.
      destruct (IH (tr_graph r) g2 bs2 W1 E2) as [W2 C2]. split; [exact W2|].
      eapply correct_ext; [| |eapply correct_trans; [exact C1|exact C2]]; intros x; cbn [map rev]; apply back_all_snoc. }
  intros g r W E. unfold pipeline in E. destruct (run_pipeline ts g) as [[g' bs]|] eqn:Er; [|discriminate].
  injection E as <-. apply (G g g' bs W Er).
Qed.
