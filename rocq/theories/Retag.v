(** * Variables left over by the transformations are version-zero variables.

    Chain summarization leaves source variables of removed vertices in the labels.  Their name is [b__s##0], which every reader
    of names takes for version zero of a variable [b__s].  [retag] writes the same names with the tag of a version. *)
From Verif Require Import Syntax Solver TransSys Graph GraphOps GraphOpsProofs ValidatorModel FormulaModel GraphSem Names SimpleTransModel UnreachProofs UnreachProofs2 SimpleTransProofs SimpleTransProofs2 SimplifierProofs ListLemmas MergeModel MergeProofs ChainProofs ChainStep ChainBack ElimModel PairProofs PairLabel ElimProofs ElimLoop InlineModel InlineProofs InlineStep PipelineModel PipelineProofs LinearModel LinearProofs.
Open Scope list_scope.
Open Scope nat_scope.

(** ** The two ways to write a name *)
Definition as_time (v : var) : var :=
  match vtag v with TSrc i => mkVar (vbase v ++ "__s")%string (TTime (Z.of_nat i)) (vsort v) | _ => v end.
Lemma as_time_name v : encode (as_time v) = encode v.
Proof. unfold as_time, encode. destruct v as [b t s]. cbn [vtag]. destruct t; cbn [vtag vbase]; try reflexivity. rewrite source_shape. reflexivity. Qed.
Lemma as_time_sort : sort_preserving as_time.
Proof. intros v. unfold as_time. destruct (vtag v); reflexivity. Qed.
Definition own_or_time (g : hgraph) (e : hedge) (v : var) : var := if inb v (own_vars g e) then v else as_time v.
Definition retag_edge (g : hgraph) (e : hedge) : hedge := mkEdge (eid e) (efrom e) (eto e) (rename (own_or_time g e) (efla e)).
Definition retag (g : hgraph) : hgraph := mkGraph (map (retag_edge g) (gedges g)) (gpv g) (gfree g) (gctr g).
(** The names are the same, so the graph is. *)
Lemma own_or_time_name g e v : encode (own_or_time g e v) = encode v.
Proof. unfold own_or_time. destruct (inb v (own_vars g e)); [reflexivity|apply as_time_name]. Qed.
Theorem retag_names g : map (fun e => (eid e, efrom e, eto e, map encode (vars (efla e)))) (gedges (retag g)) =
  map (fun e => (eid e, efrom e, eto e, map encode (vars (efla e)))) (gedges g).
Proof.
  cbn [retag gedges]. rewrite map_map. apply map_ext. intros e. cbn [retag_edge eid efrom eto efla]. rewrite vars_rename, map_map. f_equal.
  apply map_ext. apply own_or_time_name.
Qed.

(** ** Tidy graphs *)
Definition aux_fine (g : hgraph) (v : var) : Prop :=
  (vtag v = TTime 0 /\ plain (vbase v) = true /\ forall p b, In b (gpv g p) -> vbase b <> vbase v) \/ (vtag v = TSrc 0 /\ plain (vbase v) = true).
Record tidy (g : hgraph) : Prop := {
  td_plain : forall p b, In b (gpv g p) -> plain (vbase b) = true;
  td_gaux : forall p b k s, In b (gpv g p) -> vbase b <> vbase (gaux k s);
  td_aux : forall e v, In e (gedges g) -> In v (vars (efla e)) -> ~ In v (own_vars g e) -> aux_fine g v
}.
Lemma tag_not_plain b : plain (b ++ "__s")%string = false.
Proof.
  destruct (plain (b ++ "__s")%string) eqn:E; [|reflexivity]. apply plain_under in E. change (b ++ "__s")%string with (b ++ "__" ++ "s")%string in E.
  rewrite rfind_tag in E by reflexivity. discriminate.
Qed.
Lemma str_length_app a b : String.length (a ++ b)%string = String.length a + String.length b.
Proof. induction a as [|x a IH]; cbn; [reflexivity|rewrite IH; reflexivity]. Qed.
Lemma append_inj_r a : forall b c, (a ++ c)%string = (b ++ c)%string -> a = b.
Proof.
  induction a as [|x a IH]; intros [|y b] c E; cbn in E; auto.
  - exfalso. apply (f_equal String.length) in E. cbn in E. rewrite str_length_app in E. lia.
  - exfalso. apply (f_equal String.length) in E. cbn in E. rewrite str_length_app in E. lia.
  - injection E as -> E. f_equal. exact (IH b c E).
Qed.
Lemma gaux_plain k s : plain (vbase (gaux k s)) = true.
Proof. destruct (plain_numbered "gaux"%string (Z.of_nat k) eq_refl) as [H|[q H]]; [exact H|]. exfalso. destruct q as [|a [|b [|c [|d [|]]]]]; discriminate H. Qed.
Lemma auxg_plain k s : plain (vbase (auxg k s)) = true.
Proof. destruct (plain_numbered "aux#g"%string (Z.of_nat k) eq_refl) as [H|[q H]]; [exact H|]. exfalso. destruct q as [|a [|b [|c [|d [|e [|]]]]]]; discriminate H. Qed.

Section Retag.
Variable g : hgraph.
Hypothesis W : wf_graph g.
Hypothesis T : tidy g.
Let g' := retag g.
Lemma own_tags e v : In v (own_vars g e) -> vtag v = TTgt \/ exists i, vtag v = TSrc i.
Proof. intros H. apply own_has_version in H as [p [_ [b [_ [[i ->]| ->]]]]]; cbn; eauto. Qed.
Lemma fine_time v : aux_fine g v -> vtag (as_time v) = TTime 0.
Proof. intros [[H _]|[H _]]; unfold as_time; rewrite H; [exact H|reflexivity]. Qed.
Lemma fine_inj v w : aux_fine g v -> aux_fine g w -> as_time v = as_time w -> v = w.
Proof.
  intros [[A1 [A2 _]]|[A1 A2]] [[B1 [B2 _]]|[B1 B2]] E; unfold as_time in E; rewrite A1, B1 in E.
  - exact E.
  - exfalso. rewrite E in A2. cbn [vbase] in A2. rewrite tag_not_plain in A2. discriminate.
  - exfalso. rewrite <- E in B2. cbn [vbase] in B2. rewrite tag_not_plain in B2. discriminate.
  - injection E as E1 E2. apply append_inj_r in E1. destruct v, w. cbn in *. congruence.
Qed.
Lemma own_same e v : In v (own_vars g e) -> own_or_time g e v = v.
Proof. intros H. unfold own_or_time. apply inb_true in H. rewrite H. reflexivity. Qed.
Lemma other_time e v : ~ In v (own_vars g e) -> own_or_time g e v = as_time v.
Proof. intros H. unfold own_or_time. destruct (inb v (own_vars g e)) eqn:E; [exfalso; apply H, inb_true, E|reflexivity]. Qed.
Lemma retag_inj e : In e (gedges g) -> forall v w, In v (vars (efla e) ++ own_vars g e) -> In w (vars (efla e) ++ own_vars g e) ->
  own_or_time g e v = own_or_time g e w -> v = w.
Proof.
  intros He v w Hv Hw E. assert (F : forall u, In u (vars (efla e) ++ own_vars g e) -> ~ In u (own_vars g e) -> aux_fine g u).
  { intros u Hu N. apply in_app_iff in Hu as [Hu|Hu]; [exact (td_aux g T e u He Hu N)|contradiction]. }
  destruct (in_dec var_dec v (own_vars g e)) as [A|A], (in_dec var_dec w (own_vars g e)) as [B|B].
  - rewrite (own_same e v A), (own_same e w B) in E. exact E.
  - exfalso. rewrite (own_same e v A), (other_time e w B) in E. pose proof (fine_time w (F w Hw B)) as X. rewrite <- E in X. destruct (own_tags e v A) as [Y|[i Y]]; congruence.
  - exfalso. rewrite (other_time e v A), (own_same e w B) in E. pose proof (fine_time v (F v Hv A)) as X. rewrite E in X. destruct (own_tags e w B) as [Y|[i Y]]; congruence.
  - rewrite (other_time e v A), (other_time e w B) in E. apply fine_inj; auto.
Qed.
Lemma retag_sort e : sort_preserving (own_or_time g e).
Proof. intros v. unfold own_or_time. destruct (inb v (own_vars g e)); [reflexivity|apply as_time_sort]. Qed.
Theorem retag_follows e ps f : In e (gedges g) -> (follows g e ps f <-> follows g' (retag_edge g e) ps f).
Proof.
  intros He. pose proof (follows_rename_inj g (eid e) (efrom e) (eto e) (efla e) (own_or_time g e) (retag_sort e)) as X. destruct e as [i from to fla].
  cbn [eid efrom eto efla] in X. symmetry. rewrite (follows_pv g g' (retag_edge g _) ps f eq_refl). apply X; [apply own_same|exact (retag_inj _ He)].
Qed.
Lemma retag_edges e' : In e' (gedges g') <-> exists e, In e (gedges g) /\ e' = retag_edge g e.
Proof. cbn. rewrite in_map_iff. split; intros [e [A B]]; eauto. Qed.
Lemma retag_own e : own_vars g' (retag_edge g e) = own_vars g e.
Proof. reflexivity. Qed.
Lemma retag_var e v : In e (gedges g) -> In v (vars (efla (retag_edge g e))) ->
  (In v (own_vars g e) /\ In v (vars (efla e))) \/ (exists u, In u (vars (efla e)) /\ ~ In u (own_vars g e) /\ aux_fine g u /\ v = as_time u).
Proof.
  intros He Hv. cbn [retag_edge efla] in Hv. rewrite vars_rename in Hv. apply in_map_iff in Hv as [u [<- Hu]].
  destruct (in_dec var_dec u (own_vars g e)) as [A|A]; [left; rewrite own_same; auto|]. right. exists u. rewrite other_time by exact A. repeat split; auto. exact (td_aux g T e u He Hu A).
Qed.
Lemma retag_vertex p : vertex g' p <-> vertex g p.
Proof.
  unfold vertex, vertex_in. split; (intros [X|[X|[e [Hin X]]]]; [auto|auto|right; right]).
  - apply retag_edges in Hin as [e0 [Hin ->]]. exists e0. auto.
  - exists (retag_edge g e). split; [apply retag_edges; eauto|exact X].
Qed.
Lemma fine_base u : aux_fine g u -> (vtag u = TTime 0 /\ as_time u = u) \/ plain (vbase (as_time u)) = false.
Proof. intros [[H _]|[H H2]]; unfold as_time; rewrite H; [auto|right; apply tag_not_plain]. Qed.
Theorem retag_wf : wf_graph g'.
Proof.
  split; cbn [retag gpv gedges gfree gctr g'].
  - apply (wf_rep g W).
  - intros e' H. apply retag_edges in H as [e [H ->]]. apply (wf_from g W e H).
  - rewrite map_map. cbn [retag_edge eid]. apply (wf_ids g W).
  - intros e' H. apply retag_edges in H as [e [H ->]]. apply (wf_idlt g W e H).
  - intros e' v H Hv N p _ [b [_ Hb]]. apply retag_edges in H as [e [H ->]]. destruct (retag_var e v H Hv) as [[A _]|[u [_ [_ [F ->]]]]]; [apply N, A|].
    apply fine_time in F. destruct Hb as [[i Hb]|Hb]; rewrite Hb in F; discriminate.
  - intros e1' e2' v H1 H2 N V1 V2. apply retag_edges in H1 as [e1 [H1 ->]], H2 as [e2 [H2 ->]]. cbn [retag_edge eid] in N.
    change (own_vars _ (retag_edge g e1)) with (own_vars g e1). change (own_vars _ (retag_edge g e2)) with (own_vars g e2).
    destruct (retag_var e1 v H1 V1) as [[A A2]|[u [Hu [Nu [F E]]]]], (retag_var e2 v H2 V2) as [[B B2]|[u' [Hu' [Nu' [F' E']]]]].
    + auto.
    + exfalso. apply fine_time in F'. rewrite <- E' in F'. destruct (own_tags e1 v A) as [Y|[i Y]]; congruence.
    + exfalso. apply fine_time in F. rewrite <- E in F. destruct (own_tags e2 _ B) as [Y|[i Y]]; congruence.
    + exfalso. rewrite E in E'. apply (fine_inj u u' F F') in E'. subst u'. apply Nu, (wf_priv g W e1 e2 u H1 H2 N Hu Hu').
  - intros e' v H Hv. apply retag_edges in H as [e [H ->]]. destruct (retag_var e v H Hv) as [[_ A]|[u [Hu [_ [F ->]]]]]; [exact (wf_fresh g W e v H A)|].
    destruct (fine_base u F) as [[_ E]|E]; [rewrite E; exact (wf_fresh g W e u H Hu)|].
    split; intros k; intros; intros X; rewrite X in E; [rewrite gaux_plain in E|rewrite auxg_plain in E]; discriminate.
  - intros e' H. apply retag_edges in H as [e [H ->]]. apply (wf_entry g W e H).
  - intros e' H. apply retag_edges in H as [e [H ->]]. apply (wf_exit g W e H).
Qed.
Theorem retag_versioned : aux_versioned g'.
Proof.
  intros e' v H Hv N. apply retag_edges in H as [e [H ->]]. destruct (retag_var e v H Hv) as [[A _]|[u [Hu [Nu [F ->]]]]]; [destruct (N A)|].
  split; [apply fine_time, F|]. intros p _ X. apply in_map_iff in X as [b [X Hb]]. cbn [retag gpv] in Hb.
  destruct F as [[F1 [F2 F3]]|[F1 F2]]; unfold as_time in X; rewrite F1 in X.
  - apply (F3 p b Hb). rewrite <- X. reflexivity.
  - unfold cur in X. injection X as X _. pose proof (td_plain g T p b Hb) as P. rewrite X, tag_not_plain in P. discriminate.
Qed.
Theorem retag_derivable p vs : derivable g p vs <-> derivable g' p vs.
Proof.
  change (dfact g (p, vs) <-> dfact g' (p, vs)). split.
  - apply (dfact_ind g (dfact g')); [constructor|]. intros e ps f Hin F _ IH.
    apply (dfact_follows g' (retag_edge g e) ps); [apply retag_edges; eauto| |exact IH]. apply (proj1 (retag_follows e ps f Hin) F).
  - apply (dfact_ind g' (dfact g)); [constructor|]. intros e' ps f Hin F _ IH. apply retag_edges in Hin as [e [Hin ->]].
    apply (dfact_follows g e ps); auto. apply (proj2 (retag_follows e ps f Hin) F).
Qed.
Theorem retag_solution w : solution g' w <-> solution g w.
Proof.
  rewrite !solution_facts. split; intros [V [E0 [E1 H]]]; (split; [exact V|split; [exact E0|split; [exact E1|]]]).
  - intros e Hin. destruct (H (retag_edge g e)) as [A [B C]]; [apply retag_edges; eauto|].
    split; [exact A|]. split; [exact B|]. intros ps f F Hp. apply (C ps f); [apply (proj1 (retag_follows e ps f Hin) F)|exact Hp].
  - intros e' Hin. apply retag_edges in Hin as [e [Hin ->]]. destruct (H e Hin) as [A [B C]].
    split; [exact A|]. split; [exact B|]. intros ps f F Hp. apply (C ps f); [apply (proj2 (retag_follows e ps f Hin) F)|exact Hp].
Qed.
Theorem retag_error d : error_derivation g' d <-> error_derivation g d.
Proof.
  split; intros [[R0 R1 R2] F0 La]; (split; [split|..]; auto); intros i s Hi Hs;
    destruct (R2 i s Hi Hs) as [e [ps [Hin [Hid [HF HL]]]]].
  - apply retag_edges in Hin as [e0 [Hin ->]]. exists e0, ps. split; [exact Hin|]. split; [exact Hid|]. split; [exact HF|].
    apply (proj2 (retag_follows e0 ps _ Hin) HL).
  - exists (retag_edge g e), ps. split; [apply retag_edges; eauto|]. split; [exact Hid|]. split; [exact HF|].
    apply (proj1 (retag_follows e ps _ Hin) HL).
Qed.
Lemma retag_only w : only g' w <-> only g w.
Proof. split; intros H p Hp; apply retag_vertex, H, Hp. Qed.
Lemma retag_normal : is_normal g' = is_normal g.
Proof. unfold is_normal. cbn [g' retag gedges]. induction (gedges g) as [|e l IH]; [reflexivity|]. cbn. rewrite IH. reflexivity. Qed.
End Retag.
