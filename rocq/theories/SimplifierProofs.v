(** * Constraint simplification: proofs. *)
From Verif Require Import Syntax Solver Graph GraphOps GraphOpsProofs ValidatorModel ValidatorProofs FormulaModel FormulaProofs FormulaProofs2 FormulaProofs3 GraphSem SimpleTransModel UnreachProofs UnreachProofs2 ReverseProofs SimpleTransProofs.
Open Scope nat_scope.

(** What OpenSMT's rewriters (IteHandler, DivModRewriter, DistinctRewriter) promise: the new variables have no
    tag and no version; for formulas without such variables the result is equisatisfiable, with the same
    values of all other variables. *)
Record rewrite_ok (rw : term -> term) : Prop := {
  rw_vars : forall t v, In v (vars (rw t)) -> In v (vars t) \/ vtag v = TBase;
  rw_sem : forall t r, (forall v, In v (vars t) -> vtag v <> TBase) ->
    (holds r t <-> exists r', (forall v, vtag v <> TBase -> r' v = r v) /\ holds r' (rw t))
}.

(** The elimination of TermUtils meets the specification. *)
Lemma tqe_ok retrieve fractional : retrieve_ok retrieve -> elim_ok (tqe retrieve fractional).
Proof.
  intros H keep t. unfold tqe. destruct (try_eliminate retrieve keep fractional (S (length (vars t))) t) as [u|] eqn:E.
  - destruct (try_eliminate_ok retrieve keep fractional _ t u H E) as [A B]. split; [exact A|exact B].
  - split; [auto|tauto].
Qed.

Lemma version_local_sort : sort_preserving version_local.
Proof. intros v. unfold version_local. destruct (vtag v); reflexivity. Qed.
Lemma version_local_id v : vtag v <> TBase -> version_local v = v.
Proof. unfold version_local. destruct (vtag v); congruence. Qed.

Section Simp.
Variable elim : elim_fn.
Variable rw : term -> term.
Hypothesis He : elim_ok elim.
Hypothesis Hrw : rewrite_ok rw.
Variable g : hgraph.
Hypothesis W : wf_graph g.

(** Labels mention tagged and versioned variables only (the Normalizer's output), and the version-zero name of a
    variable introduced by a rewriter is not already used in the label. *)
Hypothesis tagged : forall e v, In e (gedges g) -> In v (vars (efla e)) -> vtag v <> TBase.
Hypothesis no_clash : forall e v, In e (gedges g) -> In v (vars (rw (efla e))) -> vtag v = TBase -> ~ In (version_local v) (vars (efla e)).

Let g' := tr_graph (simplify_constraints elim rw g).

Lemma own_tag e v : In v (own_vars g e) -> (exists i, vtag v = TSrc i) \/ vtag v = TTgt.
Proof.
  unfold own_vars. rewrite in_app_iff. intros [H|H].
  - apply in_concat in H as [l [Hl H]]. apply in_map_iff in Hl as [pi [<- _]]. apply in_src_vars in H as [b [_ ->]]. left. eexists. reflexivity.
  - unfold tgt_vars in H. apply in_map_iff in H as [b [<- _]]. right. reflexivity.
Qed.
Lemma own_local e v : In v (own_vars g e) -> version_local v = v.
Proof. intros H. apply version_local_id. apply own_tag in H as [[i H]|H]; congruence. Qed.

Definition mid (e : hedge) : term := elim (fun v => inb v (own_vars g e)) (rw (efla e)).
Lemma mid_vars e v : In v (vars (mid e)) -> In v (vars (rw (efla e))).
Proof. apply (He (fun v => inb v (own_vars g e)) (rw (efla e))). Qed.
Lemma local_inj e a b : In e (gedges g) -> In a (vars (mid e) ++ own_vars g e) -> In b (vars (mid e) ++ own_vars g e) ->
  version_local a = version_local b -> a = b.
Proof.
  intros Hin. assert (K : forall a b, In a (vars (mid e) ++ own_vars g e) -> In b (vars (mid e) ++ own_vars g e) ->
    vtag a = TBase -> vtag b <> TBase -> version_local a = version_local b -> False).
  { intros x y Hx Hy Tx Ty E. rewrite (version_local_id y Ty) in E. rewrite in_app_iff in Hx, Hy.
    assert (Hx' : In x (vars (rw (efla e)))).
    { destruct Hx as [Hx|Hx]; [apply mid_vars, Hx|]. apply own_tag in Hx as [[i Hx]|Hx]; congruence. }
    destruct Hy as [Hy|Hy].
    - apply mid_vars, (rw_vars _ Hrw) in Hy as [Hy|Hy]; [|congruence]. apply (no_clash e x Hin Hx' Tx). rewrite E. exact Hy.
    - apply own_tag in Hy. rewrite <- E in Hy. unfold version_local in Hy. rewrite Tx in Hy. cbn in Hy. destruct Hy as [[i Hy]|Hy]; discriminate. }
  intros Ha Hb E. destruct (tag_eqb_spec (vtag a) TBase) as [Ta|Ta], (tag_eqb_spec (vtag b) TBase) as [Tb|Tb].
  - unfold version_local in E. rewrite Ta, Tb in E. destruct a, b; cbn in *. congruence.
  - destruct (K a b); auto.
  - destruct (K b a); auto.
  - rewrite (version_local_id a Ta), (version_local_id b Tb) in E. exact E.
Qed.

Lemma args_own e r r' : (forall v, In v (own_vars g e) -> r v = r' v) ->
  prem_facts g r e = prem_facts g r' e /\ args r (tgt_vars g (eto e)) = args r' (tgt_vars g (eto e)).
Proof.
  intros H. split.
  - apply map_ext_in. intros pi Hpi. f_equal. apply args_agree. intros v Hv. apply H. unfold own_vars. apply in_app_iff. left.
    apply in_concat. exists (src_vars g pi). split; [apply in_map, Hpi|exact Hv].
  - apply args_agree. intros v Hv. apply H. unfold own_vars. apply in_app_iff. auto.
Qed.

Theorem simplify_follows e ps f : In e (gedges g) -> (follows g e ps f <-> follows g' (simplify_edge elim rw g e) ps f).
Proof.
  intros Hin. split.
  - intros [r [Hl [-> ->]]]. apply (rw_sem _ Hrw) in Hl as [r1 [A1 H1]]; [|intros v Hv; apply (tagged e v Hin Hv)].
    destruct (proj1 (proj2 (He (fun v => inb v (own_vars g e)) (rw (efla e))) r1)) as [r2 [A2 H2]]; [exists r1; auto|].
    fold (mid e) in H2.
    destruct (unrename version_local (vars (mid e) ++ own_vars g e) r2 (fun a b => local_inj e a b Hin)) as [r3 A3].
    exists r3. cbn [simplify_edge efla efrom eto]. split.
    + unfold simplify_label. fold (mid e). apply holds_rename; [apply version_local_sort|].
      apply (holds_agree r2); [|exact H2]. intros v Hv. symmetry. apply A3. apply in_app_iff. auto.
    + destruct (args_own e r r3) as [E1 E2]; [|split; [exact E1|rewrite E2; reflexivity]].
      intros v Hv. assert (X := A3 v). rewrite (own_local e v Hv) in X. rewrite X by (apply in_app_iff; auto).
      rewrite A2 by (apply inb_true, Hv). rewrite A1; [reflexivity|]. apply own_tag in Hv as [[i Hv]|Hv]; congruence.
  - intros [r3 [Hl [-> ->]]]. cbn [simplify_edge efla efrom eto] in *. unfold simplify_label in Hl. fold (mid e) in Hl.
    apply (holds_rename version_local r3 (mid e) version_local_sort) in Hl.
    destruct (proj2 (proj2 (He (fun v => inb v (own_vars g e)) (rw (efla e))) (fun v => r3 (version_local v)))) as [r1 [A1 H1]]; [eexists; split; [reflexivity|exact Hl]|].
    exists r1. split.
    + apply (rw_sem _ Hrw); [intros v Hv; apply (tagged e v Hin Hv)|]. exists r1. auto.
    + destruct (args_own e r1 r3) as [E1 E2]; [|split; [symmetry; exact E1|rewrite E2; reflexivity]].
      intros v Hv. rewrite A1 by (apply inb_true, Hv). rewrite (own_local e v Hv). reflexivity.
Qed.

Lemma simplify_edges e' : In e' (gedges g') <-> exists e, In e (gedges g) /\ e' = simplify_edge elim rw g e.
Proof. cbn. rewrite in_map_iff. split; intros [e [A B]]; eauto. Qed.

Theorem simplify_derivable p vs : derivable g p vs <-> derivable g' p vs.
Proof.
  change (dfact g (p, vs) <-> dfact g' (p, vs)). split.
  - apply (dfact_ind g (dfact g')); [constructor|]. intros e ps f Hin F _ IH.
    apply (dfact_follows g' (simplify_edge elim rw g e) ps); [apply simplify_edges; eauto| |exact IH].
    apply (proj1 (simplify_follows e ps f Hin) F).
  - apply (dfact_ind g' (dfact g)); [constructor|]. intros e' ps f Hin F _ IH. apply simplify_edges in Hin as [e [Hin ->]].
    apply (dfact_follows g e ps); auto. apply (proj2 (simplify_follows e ps f Hin) F).
Qed.
Theorem simplify_solution w : solution g' w <-> solution g w.
Proof.
  rewrite !solution_facts. split; intros [V [E0 [E1 H]]]; (split; [exact V|split; [exact E0|split; [exact E1|]]]).
  - intros e Hin. destruct (H (simplify_edge elim rw g e)) as [A [B C]]; [apply simplify_edges; eauto|].
    split; [exact A|]. split; [exact B|]. intros ps f F Hp. apply (C ps f); [apply (proj1 (simplify_follows e ps f Hin) F)|exact Hp].
  - intros e' Hin. apply simplify_edges in Hin as [e [Hin ->]]. destruct (H e Hin) as [A [B C]].
    split; [exact A|]. split; [exact B|]. intros ps f F Hp. apply (C ps f); [apply (proj2 (simplify_follows e ps f Hin) F)|exact Hp].
Qed.
Theorem simplify_error d : error_derivation g' d <-> error_derivation g d.
Proof.
  split; intros [[R0 R1 R2] F0 La]; (split; [split|..]; auto); intros i s Hi Hs;
    destruct (R2 i s Hi Hs) as [e [ps [Hin [Hid [HF HL]]]]].
  - apply simplify_edges in Hin as [e0 [Hin ->]]. exists e0, ps. split; [exact Hin|]. split; [exact Hid|]. split; [exact HF|].
    apply (proj2 (simplify_follows e0 ps _ Hin) HL).
  - exists (simplify_edge elim rw g e), ps. split; [apply simplify_edges; eauto|]. split; [exact Hid|]. split; [exact HF|].
    apply (proj1 (simplify_follows e ps _ Hin) HL).
Qed.
Lemma simplify_vertex p : vertex g' p <-> vertex g p.
Proof.
  unfold vertex, vertex_in. split; (intros [X|[X|[e [Hin X]]]]; [auto|auto|right; right]).
  - apply simplify_edges in Hin as [e0 [Hin ->]]. exists e0. auto.
  - exists (simplify_edge elim rw g e). split; [apply simplify_edges; eauto|exact X].
Qed.
Theorem simplify_correct : correct g g' Some Some.
Proof.
  split.
  - apply simplify_derivable.
  - intros w w' S O E. injection E as <-. split; [apply simplify_solution, S|]. intros p Hp. apply simplify_vertex, O, Hp.
  - intros d d' E B. injection B as <-. apply simplify_error, E.
Qed.

(** The variables introduced for different clauses must differ, and differ from the graph's other auxiliary
    variables, for the result to be well-formed again (the FIXME of src/transformers/ConstraintSimplifier.cc:74). *)
Hypothesis apart : forall e e2 v, In e (gedges g) -> In e2 (gedges g) -> eid e <> eid e2 ->
  In v (vars (rw (efla e))) -> vtag v = TBase -> ~ In v (vars (rw (efla e2))) /\ ~ In (version_local v) (vars (efla e2)).
Hypothesis fresh_new : forall e v, In e (gedges g) -> In v (vars (rw (efla e))) -> vtag v = TBase ->
  (forall k s, gctr g <= k -> version_local v <> gaux k s) /\ (forall k s, version_local v <> auxg k s).

Lemma simplified_var e v : In e (gedges g) -> In v (vars (simplify_label elim rw g e)) ->
  (In v (vars (efla e)) /\ vtag v <> TBase) \/ exists b, In b (vars (rw (efla e))) /\ vtag b = TBase /\ v = version_local b.
Proof.
  intros Hin Hv. unfold simplify_label in Hv. fold (mid e) in Hv. rewrite vars_rename in Hv. apply in_map_iff in Hv as [b [<- Hb]].
  apply mid_vars in Hb. destruct (tag_eqb_spec (vtag b) TBase) as [T|T]; [right; eauto|].
  left. rewrite (version_local_id b T). apply (rw_vars _ Hrw) in Hb as [Hb|Hb]; [auto|congruence].
Qed.
Theorem simplify_wf : wf_graph g'.
Proof.
  assert (O : forall e, own_vars g' (simplify_edge elim rw g e) = own_vars g e) by reflexivity.
  split.
  - apply (wf_rep g W).
  - intros e' Hin. apply simplify_edges in Hin as [e [Hin ->]]. apply (wf_from g W e Hin).
  - cbn. rewrite map_map. cbn. apply (wf_ids g W).
  - intros e' Hin. apply simplify_edges in Hin as [e [Hin ->]]. apply (wf_idlt g W e Hin).
  - intros e' v Hin Hv Ho p Hp. apply simplify_edges in Hin as [e [Hin ->]]. rewrite O in Ho. apply simplify_vertex in Hp.
    cbn [simplify_edge efla] in Hv. apply (simplified_var e v Hin) in Hv as [[Hv _]|[b [_ [Tb ->]]]].
    + apply (wf_label g W e v Hin Hv Ho p Hp).
    + intros [x [_ X]]. unfold version_local in X. rewrite Tb in X. destruct X as [[i X]|X]; discriminate X.
  - intros e1' e2' v H1 H2 Hne Hv1 Hv2. apply simplify_edges in H1 as [e1 [H1 ->]]. apply simplify_edges in H2 as [e2 [H2 ->]].
    rewrite !O. cbn [simplify_edge efla eid] in *.
    apply (simplified_var e1 v H1) in Hv1 as [[Hv1 T1]|[b1 [B1 [T1 ->]]]].
    + apply (simplified_var e2 v H2) in Hv2 as [[Hv2 T2]|[b2 [B2 [T2 ->]]]].
      * apply (wf_priv g W); auto.
      * destruct (apart e2 e1 b2 H2 H1) as [_ X]; auto. destruct X. exact Hv1.
    + apply (simplified_var e2 _ H2) in Hv2 as [[Hv2 T2]|[b2 [B2 [T2 E]]]].
      * destruct (apart e1 e2 b1 H1 H2) as [_ X]; auto. destruct X. exact Hv2.
      * assert (b1 = b2) by (unfold version_local in E; rewrite T1, T2 in E; destruct b1, b2; cbn in *; congruence). subst b2.
        destruct (apart e1 e2 b1 H1 H2) as [X _]; auto. destruct (X B2).
  - intros e' v Hin Hv. apply simplify_edges in Hin as [e [Hin ->]]. cbn [simplify_edge efla] in Hv.
    apply (simplified_var e v Hin) in Hv as [[Hv _]|[b [B [T ->]]]]; [apply (wf_fresh g W e v Hin Hv)|].
    apply (fresh_new e b Hin B T).
  - intros e' Hin. apply simplify_edges in Hin as [e [Hin ->]]. apply (wf_entry g W e Hin).
  - intros e' Hin. apply simplify_edges in Hin as [e [Hin ->]]. apply (wf_exit g W e Hin).
Qed.
End Simp.
