(** * Merging two edges: the merged edge and the graph. *)
From Verif Require Import Syntax Solver TransSys Graph GraphOps GraphOpsProofs ValidatorModel ValidatorProofs FormulaModel GraphSem SimpleTransModel UnreachProofs UnreachProofs2 SimpleTransProofs SimpleTransProofs2 ListLemmas MergeModel MergeProofs ChainProofs ChainStep PairProofs.
Open Scope nat_scope.

(** Elimination of variables that are not arguments. *)
Lemma follows_elim elim keep g i from to fla : elim_ok elim ->
  (forall v, In v (own_vars g (mkEdge i from to fla)) -> keep v = true) ->
  forall ps x, follows g (mkEdge i from to (elim keep fla)) ps x <-> follows g (mkEdge i from to fla) ps x.
Proof.
  intros He Hk ps x. destruct (He keep fla) as [_ HE]. set (e := mkEdge i from to fla) in *.
  assert (Q : forall r r1 : valuation, (forall v, keep v = true -> r1 v = r v) ->
    map (fun pi => (fst pi, args r1 (src_vars g pi))) (instances from) = map (fun pi => (fst pi, args r (src_vars g pi))) (instances from) /\ args r1 (tgt_vars g to) = args r (tgt_vars g to)).
  { intros r r1 H. apply (prem_own g e r1 r). intros v Hv. cbn [eval]. rewrite (H v (Hk v Hv)). reflexivity. }
  unfold follows. cbn [efla efrom eto]. split; intros [r [Hr [-> ->]]].
  - destruct (proj2 (HE r)) as [r1 [A1 H1]]; [exists r; auto|]. exists r1. split; [exact H1|]. split; [symmetry; exact (proj1 (Q r r1 A1))|f_equal; symmetry; exact (proj2 (Q r r1 A1))].
  - destruct (proj1 (HE r)) as [r1 [A1 H1]]; [exists r; auto|]. exists r1. split; [exact H1|]. split; [symmetry; exact (proj1 (Q r r1 A1))|f_equal; symmetry; exact (proj2 (Q r r1 A1))].
Qed.

Section Pair.
Variable elim : elim_fn.
Hypothesis Helim : elim_ok elim.
Variable fresh : nat.
Variable g : hgraph.
Hypothesis W : wf_graph g.
Variable e1 e2 : hedge.
Variable s : sym.
Variable l1 l2 : list sym.
Hypothesis P : pair_ok g e1 e2 s l1 l2.
Let R := wf_rep g W.
Let m := eto e1.
Let h := tosrc g [m].
Let nf := new_from s l1 l2.

Lemma nf_in p : In p nf -> p = s \/ In p (l1 ++ l2).
Proof.
  unfold nf, new_from. destruct (Nat.eqb_spec s entry) as [E|N].
  - destruct (l1 ++ l2) eqn:X; [intros [<-|[]]; auto|]. auto.
  - rewrite !in_app_iff. cbn [In]. intros [H|[H|H]]; auto.
Qed.
Lemma nf_ne : nf <> [].
Proof.
  unfold nf, new_from. destruct (Nat.eqb s entry); [destruct (l1 ++ l2); discriminate|]. destruct l1; discriminate.
Qed.
Lemma s_args r : s = entry -> pf g r (s, 0) = (entry, []).
Proof. intros ->. unfold pf, src_vars. cbn [fst snd]. rewrite (rep_entry _ R). reflexivity. Qed.
(** The premises of the merged edge. *)
Lemma map_nf r : map (pf g r) (instances nf) = if Nat.eqb s entry then match l1 ++ l2 with [] => [pf g r (s, 0)] | _ => map (pf g r) (before l1) ++ map (pf g r) (after l1 l2) end else map (pf g r) (before l1) ++ pf g r (s, 0) :: map (pf g r) (after l1 l2).
Proof.
  unfold nf. fold (PairProofs.nf s l1 l2). rewrite (inst_nf g e1 e2 s l1 l2 P). destruct (Nat.eqb s entry).
  - destruct (l1 ++ l2); [reflexivity|]. apply map_app.
  - rewrite map_app. reflexivity.
Qed.
Lemma follows_e1 sf mf : follows g e1 [sf] mf <-> exists r, holds r (efla e1) /\ sf = pf g r (s, 0) /\ mf = (m, args r (tgt_vars g m)).
Proof. apply (follows_single g e1 s sf mf (po_from1 _ _ _ _ _ _ P)). Qed.
Lemma inst_in_nf pi : In pi (instances nf) -> In pi ((s, 0) :: before l1 ++ after l1 l2).
Proof.
  unfold nf. fold (PairProofs.nf s l1 l2). rewrite (inst_nf g e1 e2 s l1 l2 P). destruct (Nat.eqb s entry).
  - destruct (l1 ++ l2); [intros [<-|[]]; left; reflexivity|]. right. assumption.
  - rewrite in_app_iff. cbn [In]. rewrite in_app_iff. tauto.
Qed.
Theorem joined_follows i ps f : follows g (mkEdge i nf (eto e2) (joined g e1 e2)) ps f <-> composed g e1 e2 s l1 l2 ps f.
Proof.
  unfold composed. split.
  - intros [r [Hr [Hps Hf]]]. cbn [efla efrom eto] in *. apply (joined_holds g e1 e2) in Hr as [H1 H2]. fold m h in H1.
    exists (pf g r (s, 0)), (pf g r (m, 0)), (map (pf g r) (before l1)), (map (pf g r) (after l1 l2)).
    split; [|split; [|split; [|split]]].
    + apply follows_e1. exists (fun v => r (h v)). split; [exact H1|]. unfold pf. cbn [fst]. split.
      * f_equal. unfold src_vars. cbn [fst snd]. rewrite <- (args_map r h _ (tosrc_sort g _)), map_map. f_equal. apply map_ext. intros b. symmetry. apply tosrc_src.
      * f_equal. unfold src_vars, tgt_vars. cbn [fst snd]. rewrite <- (args_map r h _ (tosrc_sort g _)), map_map. f_equal. apply map_ext_in. intros b Hb. symmetry. apply (h_tgt g W e1 b Hb).
    + apply (follows_e2 g e1 e2 s l1 l2 P); [rewrite map_length, <- (map_length fst), before_fst; reflexivity|]. exists r. auto.
    + rewrite pf_fst. apply before_fst.
    + rewrite pf_fst. apply after_fst.
    + rewrite Hps. apply (map_nf r).
  - intros [sf [mf [ps1 [ps2 [H1 [H2 [L1 [L2 Hps]]]]]]]].
    apply follows_e1 in H1 as [r1 [Hr1 [-> Em]]].
    apply (follows_e2 g e1 e2 s l1 l2 P) in H2 as [r2 [Hr2 [-> [Em2 [-> ->]]]]]; [|rewrite <- L1, map_length; reflexivity].
    assert (EM : args r1 (tgt_vars g m) = args r2 (src_vars g (m, 0))). { rewrite Em in Em2. unfold pf in Em2. cbn [fst] in Em2. injection Em2 as X. exact X. }
    destruct (pair_glue g W e1 e2 s l1 l2 P r1 r2 Hr1 Hr2 EM) as [r [Q1 Q2]]. fold m h in Q1.
    exists r. cbn [efla efrom eto]. split; [|split].
    + apply (joined_holds g e1 e2). fold m h. split.
      * apply (holds_rename h r _ (tosrc_sort g _)). apply (holds_ren_ext h r r1 _ (tosrc_sort g _)); [|exact Hr1]. intros v Hv. apply Q1. apply in_app_iff. right. exact Hv.
      * unfold holds, holdsb. rewrite (eval_ext r r2); [exact Hr2|]. intros v Hv. apply Q2, in_app_iff. right. exact Hv.
    + rewrite Hps. change (map (fun pi => (fst pi, args r (src_vars g pi))) (instances nf)) with (map (pf g r) (instances nf)). rewrite (map_nf r).
      assert (E1 : pf g r1 (s, 0) = pf g r (s, 0)).
      { unfold pf. cbn [fst]. f_equal. apply args_agree_ev. intros v Hv. rewrite <- (Q1 v).
        - apply in_src_vars in Hv as [b [_ ->]]. unfold h. rewrite tosrc_src. reflexivity.
        - apply in_app_iff. left. apply (own_e1 g e1 e2 s l1 l2 P). left. exact Hv. }
      assert (E2 : forall pi, In pi (instances (efrom e2)) -> pf g r2 pi = pf g r pi).
      { intros pi Hpi. unfold pf. f_equal. apply args_agree_ev. intros v Hv. symmetry. apply Q2. apply in_app_iff. left. unfold own_vars. apply in_app_iff. left.
        apply in_concat. exists (src_vars g pi). split; [apply in_map, Hpi|exact Hv]. }
      rewrite (inst_e2 g e1 e2 s l1 l2 P) in E2.
      assert (E3 : map (pf g r2) (before l1) = map (pf g r) (before l1)) by (apply map_ext_in; intros; apply E2, in_app_iff; auto).
      assert (E4 : map (pf g r2) (after l1 l2) = map (pf g r) (after l1 l2)) by (apply map_ext_in; intros; apply E2, in_app_iff; right; right; assumption).
      rewrite E1, E3, E4. reflexivity.
    + f_equal. apply args_agree_ev. intros v Hv. symmetry. apply Q2. apply in_app_iff. left. unfold own_vars. apply in_app_iff. right. exact Hv.
Qed.
Lemma new_own_not_mid i fla v : In v (own_vars g (mkEdge i nf (eto e2) fla)) -> ~ In v (src_vars g (m, 0)).
Proof.
  intros H X. apply in_src_vars in X as [b [Hb ->]]. cbn [fst snd] in *. unfold own_vars in H. cbn [efrom eto] in H. apply in_app_iff in H as [H|H].
  - apply in_concat in H as [l [Hl H]]. apply in_map_iff in Hl as [[p j] [<- Hp]]. apply in_src_vars in H as [b' [Hb' E]]. cbn [fst snd] in *.
    destruct (src_inj_v g R 0 j m p b b' Hb Hb' E) as [_ [_ <-]]. apply in_instances in Hp. apply nf_in in Hp as [Hp|Hp].
    + apply (po_loop _ _ _ _ _ _ P). symmetry. exact Hp.
    + apply (po_once _ _ _ _ _ _ P). exact Hp.
  - apply in_map_iff in H as [b' [E _]]. symmetry in E. exact (src_tgt_v _ _ _ E).
Qed.
Theorem pair_label_follows i ps f : follows g (mkEdge i nf (eto e2) (pair_label elim fresh g e1 e2)) ps f <-> composed g e1 e2 s l1 l2 ps f.
Proof.
  rewrite <- (joined_follows i ps f). unfold pair_label. fold m. change (mkAnd [rename (vlookup (to_source_map g m)) (efla e1); efla e2]) with (joined g e1 e2).
  set (keep := fun v => negb (inb v (src_vars g (m, 0)))).
  assert (K : forall v, In v (own_vars g (mkEdge i nf (eto e2) (joined g e1 e2))) -> keep v = true).
  { intros v Hv. unfold keep. apply negb_true_iff. destruct (inb v (src_vars g (m, 0))) eqn:E; [|reflexivity]. exfalso. apply inb_true in E. exact (new_own_not_mid i _ v Hv E). }
  rewrite <- (follows_elim elim keep g i nf (eto e2) (joined g e1 e2) Helim K ps f).
  destruct (Nat.eqb (eto e2) m); [|tauto].
  set (auxs := map (fun p => auxg (fresh + fst p) (vsort (snd p))) (combine (seq 0 (length (gpv g m))) (gpv g m))).
  assert (Len : length auxs = length (gpv g m)) by (unfold auxs; rewrite map_length, combine_length, seq_length; lia).
  set (rn := vlookup (combine (src_vars g (m, 0)) auxs)).
  assert (Keys : map fst (combine (src_vars g (m, 0)) auxs) = src_vars g (m, 0)) by (apply fst_combine_len; unfold src_vars; rewrite map_length; cbn [fst]; lia).
  assert (Out : forall v, ~ In v (src_vars g (m, 0)) -> rn v = v) by (intros v Hv; apply vlookup_out; rewrite Keys; exact Hv).
  assert (In1 : forall v, In v (src_vars g (m, 0)) -> exists k b, nth_error (gpv g m) k = Some b /\ v = src 0 b /\ rn v = auxg (fresh + k) (vsort v)).
  { intros v Hv. rewrite <- Keys in Hv. apply vlookup_in in Hv. apply In_nth_error in Hv as [k Hk]. apply nth_error_combine in Hk as [K1 K2]. unfold src_vars in K1. cbn [fst snd] in K1. rewrite nth_error_map in K1.
    destruct (nth_error (gpv g m) k) as [b|] eqn:Eb; [|discriminate]. injection K1 as <-. exists k, b. split; [exact Eb|]. split; [reflexivity|].
    fold rn in K2. unfold auxs in K2. rewrite nth_error_map in K2. rewrite (nth_error_combine_intro (seq 0 (length (gpv g m))) (gpv g m) k k b) in K2; [|apply nth_error_seq; apply nth_error_Some; congruence|exact Eb]. cbn in K2. injection K2 as <-. reflexivity. }
  apply follows_rename_inj.
  - intros v. destruct (in_dec var_dec v (src_vars g (m, 0))) as [H|H]; [|rewrite Out; auto]. destruct (In1 v H) as [k [b [_ [_ ->]]]]. reflexivity.
  - intros v Hv. apply Out. exact (new_own_not_mid i _ v Hv).
  - set (fl := elim keep (joined g e1 e2)).
    assert (NG : forall v, In v (vars fl ++ own_vars g (mkEdge i nf (eto e2) fl)) -> forall k t, v <> auxg k t).
    { intros v Hv k t ->. apply in_app_iff in Hv as [Hv|Hv].
      - apply (proj1 (Helim _ _)) in Hv. unfold joined in Hv. rewrite <- (tosrc_single g (eto e1)) in Hv. apply in_vars_app in Hv as [l [Hl Hv]]. destruct Hl as [<-|[<-|[]]].
        + rewrite vars_rename in Hv. apply in_map_iff in Hv as [u [E Hu]]. fold m h in E.
          destruct (in_dec var_dec u (own_vars g e1)) as [O|N].
          * apply (own_e1 g e1 e2 s l1 l2 P) in O as [O|O]; [apply in_src_vars in O as [b [_ ->]]; unfold h in E; rewrite tosrc_src in E; discriminate E|].
            apply in_map_iff in O as [b [<- Hb]]. unfold h, m in E. rewrite (h_tgt g W e1 b Hb) in E. discriminate E.
          * unfold h, m in E. rewrite (h_aux g W e1 e2 s l1 l2 P u Hu N) in E. apply (proj2 (wf_fresh g W e1 u (po_in1 _ _ _ _ _ _ P) Hu) k t). exact E.
        + exact (proj2 (wf_fresh g W e2 _ (po_in2 _ _ _ _ _ _ P) Hv) k t eq_refl).
      - apply own_has_version in Hv as [p [_ [b [_ [[j X]|X]]]]]; discriminate X. }
    intros v w Hv Hw E. destruct (in_dec var_dec v (src_vars g (m, 0))) as [Iv|Nv]; destruct (in_dec var_dec w (src_vars g (m, 0))) as [Iw|Nw].
    + destruct (In1 v Iv) as [k [b [K1 [-> K2]]]], (In1 w Iw) as [k' [b' [K1' [-> K2']]]]. rewrite K2, K2' in E. apply auxg_inj in E as [E _]. assert (k = k') by lia. subst k'. congruence.
    + destruct (In1 v Iv) as [k [b [_ [_ K2]]]]. rewrite K2, (Out w Nw) in E. destruct (NG w Hw _ _ (eq_sym E)).
    + destruct (In1 w Iw) as [k [b [_ [_ K2]]]]. rewrite K2, (Out v Nv) in E. destruct (NG v Hv _ _ E).
    + rewrite (Out v Nv), (Out w Nw) in E. exact E.
Qed.
(** The case of a chain. *)
Lemma single_parts : length (efrom e2) = 1 -> l1 = [] /\ l2 = [].
Proof.
  intros L. rewrite (po_from2 _ _ _ _ _ _ P) in L. rewrite app_length in L. cbn [length] in L. destruct l1, l2; cbn [length] in L; try lia; auto.
Qed.
Lemma pair_chain : length (efrom e2) = 1 -> eto e2 <> m -> chain_ok g [e1; e2].
Proof.
  intros L N. destruct (single_parts L) as [E1 E2]. pose proof (po_from2 _ _ _ _ _ _ P) as F2. rewrite E1, E2 in F2. cbn [app] in F2.
  pose proof (po_from1 _ _ _ _ _ _ P) as F1. split.
  - cbn. lia.
  - intros e [<-|[<-|[]]]; [apply (po_in1 _ _ _ _ _ _ P)|apply (po_in2 _ _ _ _ _ _ P)].
  - cbn [linked chain_source]. rewrite F1, F2. cbn [hd]. auto.
  - cbn [chain_source mids map removelast]. rewrite F1. cbn [hd]. constructor; [|constructor; [intros []|constructor]]. intros [X|[]]. apply (po_loop _ _ _ _ _ _ P). symmetry. exact X.
  - cbn [chain_target mids map removelast last]. intros [X|[]]. apply N. symmetry. exact X.
Qed.
Lemma pair_chain_follows i : length (efrom e2) = 1 -> eto e2 <> m -> forall ps f,
  follows g (mkEdge i [s] (eto e2) (chain_label elim g [e1; e2])) ps f <-> composed g e1 e2 s l1 l2 ps f.
Proof.
  intros L N ps f. destruct (single_parts L) as [E1 E2]. pose proof (chain_label_iff elim Helim g W [e1; e2] (pair_chain L N)) as CL.
  cbn [chain_source chain_target last] in CL. rewrite (po_from1 _ _ _ _ _ _ P) in CL. cbn [hd] in CL.
  unfold composed. rewrite E1, E2. cbn [app]. split.
  - intros F. destruct (follows_prems _ _ _ _ F) as [Fp _]. cbn [efrom] in Fp. destruct ps as [|sf [|]]; try discriminate.
    apply (follows_single g (mkEdge i [s] (eto e2) (chain_label elim g [e1; e2])) s sf f eq_refl) in F. cbn [efla eto] in F. apply CL in F as [fs [HR HL]].
    destruct fs as [|mf [|f2 [|]]]; cbn [runs] in HR; try tauto. destruct HR as [H1 [H2 _]]. cbn [last] in HL. subst f2.
    exists sf, mf, [], []. split; [exact H1|]. split; [exact H2|]. repeat (split; [reflexivity|]). destruct (Nat.eqb s entry); reflexivity.
  - intros [sf [mf [ps1 [ps2 [H1 [H2 [L1 [L2 Hps]]]]]]]]. destruct ps1; [|discriminate]. destruct ps2; [|discriminate].
    assert (ps = [sf]) as -> by (destruct (Nat.eqb s entry); exact Hps).
    apply (follows_single g (mkEdge i [s] (eto e2) (chain_label elim g [e1; e2])) s sf f eq_refl). cbn [efla eto]. apply CL. exists [mf; f]. split; [|reflexivity].
    cbn [runs]. auto.
Qed.

Let g1 := fst (merge_pair elim fresh g e1 e2).
Let e := snd (merge_pair elim fresh g e1 e2).
Lemma merge_pair_added : exists fla, merge_pair elim fresh g e1 e2 = added g nf (eto e2) fla /\
  forall i ps f, follows g (mkEdge i nf (eto e2) fla) ps f <-> composed g e1 e2 s l1 l2 ps f.
Proof.
  unfold merge_pair. fold m. destruct (Nat.eqb_spec (length (efrom e2)) 1) as [L|L]; destruct (Nat.eqb_spec (eto e2) m) as [E|N]; cbn [andb negb].
  2:{ exists (chain_label elim g [e1; e2]). assert (Ns : nf = [s]).
      { destruct (single_parts L) as [E1 E2]. unfold nf, new_from. rewrite E1, E2. cbn [app]. destruct (Nat.eqb_spec s entry) as [->|]; reflexivity. }
      rewrite Ns. split; [|intros i; apply pair_chain_follows; assumption].
      unfold merge_chain, added. cbn [chain_source chain_target last]. rewrite (po_from1 _ _ _ _ _ _ P). cbn [hd]. reflexivity. }
  all: exists (pair_label elim fresh g e1 e2); split; [|intros i; apply pair_label_follows];
    unfold added; rewrite (po_from1 _ _ _ _ _ _ P); cbn [hd]; unfold m; rewrite (replace_source_eq g e1 e2 s l1 l2 P); reflexivity.
Qed.
Theorem merge_pair_ok : wf_graph g1 /\ gpv g1 = gpv g /\ gedges g1 = gedges g ++ [e] /\ gfree g1 = S (gfree g) /\
  eid e = gfree g /\ efrom e = nf /\ eto e = eto e2 /\ (forall p, vertex g1 p <-> vertex g p) /\
  forall ps f, follows g e ps f <-> composed g e1 e2 s l1 l2 ps f.
Proof.
  destruct merge_pair_added as [fla [Em Hf]]. unfold g1, e. rewrite Em.
  assert (X1 : ~ In exit nf).
  { intros X. apply nf_in in X as [X|X].
    - apply (wf_exit g W e1 (po_in1 _ _ _ _ _ _ P)). rewrite (po_from1 _ _ _ _ _ _ P), X. left. reflexivity.
    - apply (wf_exit g W e2 (po_in2 _ _ _ _ _ _ P)). rewrite (po_from2 _ _ _ _ _ _ P). rewrite in_app_iff in *. cbn [In]. tauto. }
  assert (V1 : forall p, In p nf -> vertex g p).
  { intros p Hp. apply nf_in in Hp as [->|Hp]; [exact (vs g e1 e2 s l1 l2 P)|exact (vl g e1 e2 s l1 l2 P p Hp)]. }
  assert (V2 : vertex g (eto e2)) by apply vertex_tgt, (po_in2 _ _ _ _ _ _ P).
  assert (Fr : no_id < gfree g) by (pose proof (wf_idlt g W e1 (po_in1 _ _ _ _ _ _ P)); lia).
  destruct (added_eq g nf (eto e2) fla) as [Eg [Ei [Ef Et]]].
  split; [apply added_wf; auto; [exact nf_ne|apply (wf_entry g W e2 (po_in2 _ _ _ _ _ _ P))]|].
  rewrite Eg. cbn [gpv gedges gfree]. split; [reflexivity|]. split; [reflexivity|]. split; [reflexivity|].
  split; [exact Ei|]. split; [exact Ef|]. split; [exact Et|]. split.
  - intros p. rewrite <- Eg. apply added_vertex; auto.
  - intros ps f. rewrite added_follows. apply Hf.
Qed.
End Pair.
