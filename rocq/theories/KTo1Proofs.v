(** * Proofs about reversal and the k-inductive to inductive conversions. *)
From Verif Require Import Syntax Solver TransSys TSLemmas KTo1Model.

(** ** Reversal *)
Definition swapv (ts : tsys) (v : var) : var :=
  if inb v (svars ts) then shiftv 1 v
  else if inb (shiftv (-1) v) (svars ts) then shiftv (-1) v else v.

Section Rev.
Variable ts : tsys.
Hypothesis wf : ts_wf ts = true.

Lemma sv_time v i : In v (svars ts) -> vtime (shiftv i v) = i.
Proof. intros H. apply vtime_shift, (wf_svars0 ts wf), H. Qed.
Lemma sv_time0 v : In v (svars ts) -> vtime v = 0.
Proof. intros H. rewrite <- (shiftv_0 v). apply sv_time, H. Qed.
Lemma av_time0 v : In v (avars ts) -> vtime v = 0.
Proof. intros H. unfold vtime. rewrite (wf_avars0 ts wf v H). reflexivity. Qed.

Lemma reverse_rename :
  reverse_transition ts =
  rename (fun v => vlookup (helper_to_next ts) (vlookup (next_to_state ts) (vlookup (helpervars_map ts) v)))
         (ttrans ts).
Proof. unfold reverse_transition. rewrite !subst_vsub, !rename_rename. reflexivity. Qed.

Lemma id_inj : forall a b : var, (fun x => x) a = (fun x => x) b -> a = b.
Proof. auto. Qed.

Lemma rev_state v : In v (svars ts) ->
  vlookup (helper_to_next ts) (vlookup (next_to_state ts) (vlookup (helpervars_map ts) v)) = shiftv 1 v.
Proof.
  intros Hv. unfold helpervars_map. rewrite (vlookup_map (fun x => x) (shiftv 2) _ v id_inj Hv).
  unfold next_to_state. rewrite (vlookup_map_not (shiftv 1) (fun x => x)).
  - unfold helper_to_next. apply (vlookup_map (shiftv 2) (shiftv 1)); [apply shiftv_inj|exact Hv].
  - intros w Hw E. apply (f_equal vtime) in E. rewrite !sv_time in E by assumption. lia.
Qed.

Lemma rev_next v : In v (svars ts) ->
  vlookup (helper_to_next ts) (vlookup (next_to_state ts) (vlookup (helpervars_map ts) (shiftv 1 v))) = v.
Proof.
  intros Hv. unfold helpervars_map. rewrite (vlookup_map_not (fun x => x) (shiftv 2)).
  - unfold next_to_state. rewrite (vlookup_map (shiftv 1) (fun x => x)); [|apply shiftv_inj|exact Hv].
    unfold helper_to_next. apply (vlookup_map_not (shiftv 2) (shiftv 1)).
    intros w Hw E. apply (f_equal vtime) in E. rewrite sv_time, sv_time0 in E by assumption. lia.
  - intros w Hw E. apply (f_equal vtime) in E. rewrite sv_time, sv_time0 in E by assumption. lia.
Qed.

Lemma rev_aux v : In v (avars ts) ->
  vlookup (helper_to_next ts) (vlookup (next_to_state ts) (vlookup (helpervars_map ts) v)) = v.
Proof.
  intros Hv. unfold helpervars_map. rewrite (vlookup_map_not (fun x => x) (shiftv 2)).
  - unfold next_to_state. rewrite (vlookup_map_not (shiftv 1) (fun x => x)).
    + unfold helper_to_next. apply (vlookup_map_not (shiftv 2) (shiftv 1)).
      intros w Hw E. apply (f_equal vtime) in E. rewrite sv_time, av_time0 in E by assumption. lia.
    + intros w Hw E. apply (f_equal vtime) in E. rewrite sv_time, av_time0 in E by assumption. lia.
  - intros w Hw E. subst w. exact (wf_disj ts wf v Hv Hw).
Qed.

Lemma swapv_state v : In v (svars ts) -> swapv ts v = shiftv 1 v.
Proof. intros H. unfold swapv. destruct (inb_spec v (svars ts)); [reflexivity|contradiction]. Qed.
Lemma swapv_next v : In v (svars ts) -> swapv ts (shiftv 1 v) = v.
Proof.
  intros H. unfold swapv.
  assert (E : shiftv (-1) (shiftv 1 v) = v) by (rewrite shiftv_shiftv; simpl; apply shiftv_0).
  destruct (inb_spec (shiftv 1 v) (svars ts)) as [G|G].
  - apply sv_time0 in G. rewrite sv_time in G by assumption. lia.
  - rewrite E. destruct (inb_spec v (svars ts)); [reflexivity|contradiction].
Qed.
Lemma swapv_aux v : In v (avars ts) -> swapv ts v = v.
Proof.
  intros H. unfold swapv. destruct (inb_spec v (svars ts)) as [G|G]; [exfalso; eapply wf_disj; eauto|].
  destruct (inb_spec (shiftv (-1) v) (svars ts)) as [G'|G']; [|reflexivity].
  apply sv_time0 in G'. rewrite vtime_shift in G' by (apply (wf_avars0 ts wf), H). lia.
Qed.
Lemma swapv_sort : sort_preserving (swapv ts).
Proof.
  intros v. unfold swapv. destruct (inb v _); [apply shiftv_sort|].
  destruct (inb _ _); [apply shiftv_sort|reflexivity].
Qed.

Lemma reverse_swap : reverse_transition ts = rename (swapv ts) (ttrans ts).
Proof.
  rewrite reverse_rename. apply rename_ext. intros v Hv.
  destruct (wf_trans ts wf v Hv) as [H|[[w [Hw ->]]|H]].
  - rewrite swapv_state by assumption. apply rev_state, H.
  - rewrite swapv_next by assumption. apply rev_next, Hw.
  - rewrite swapv_aux by assumption. apply rev_aux, H.
Qed.

Lemma reverse_wf : ts_wf (reverse_ts ts) = true.
Proof.
  pose proof wf as W. unfold ts_wf in W |- *. rewrite !andb_true_iff in W |- *. simpl.
  destruct W as [[[[[H1 H2] H3] H4] H5] H6]. repeat split; auto.
  unfold is_transition_formula. apply subsetb_spec. simpl. intros v Hv.
  rewrite reverse_swap, vars_rename in Hv. apply in_map_iff in Hv as [u [<- Hu]].
  destruct (wf_trans ts wf u Hu) as [H|[[w [Hw ->]]|H]].
  - rewrite swapv_state by assumption. apply in_or_app. right. apply in_or_app. left.
    unfold nextvars; simpl. apply in_map, H.
  - rewrite swapv_next by assumption. apply in_or_app; auto.
  - rewrite swapv_aux by assumption. apply in_or_app. right. apply in_or_app; auto.
Qed.

Lemma holds_reverse r : holds r (reverse_transition ts) <-> holds (fun v => r (swapv ts v)) (ttrans ts).
Proof. rewrite reverse_swap. apply holds_rename, swapv_sort. Qed.

Lemma swapv_invol v : In v (vars (ttrans ts)) -> swapv ts (swapv ts v) = v.
Proof.
  intros Hv. destruct (wf_trans ts wf v Hv) as [H|[[w [Hw ->]]|H]].
  - rewrite (swapv_state v H). apply swapv_next, H.
  - rewrite (swapv_next w Hw). apply swapv_state, Hw.
  - rewrite (swapv_aux v H). apply swapv_aux, H.
Qed.

Lemma Step_reverse s s' : Step (reverse_ts ts) s s' <-> Step ts s' s.
Proof.
  split.
  - intros [r [H0 [H1 H2]]]. simpl in *. apply holds_reverse in H2.
    exists (fun v => r (swapv ts v)). repeat split.
    + intros v Hv. rewrite swapv_state by assumption. apply H1, Hv.
    + intros v Hv. rewrite swapv_next by assumption. apply H0, Hv.
    + exact H2.
  - intros [r [H0 [H1 H2]]]. exists (fun v => r (swapv ts v)). simpl. repeat split.
    + intros v Hv. rewrite swapv_state by assumption. apply H1, Hv.
    + intros v Hv. rewrite swapv_next by assumption. apply H0, Hv.
    + apply holds_reverse. refine (proj1 (holds_agree _ _ _ _) H2).
      intros v Hv. simpl. rewrite swapv_invol by assumption. reflexivity.
Qed.

Lemma Steps_reverse n s s' : Steps (reverse_ts ts) n s s' <-> Steps ts n s' s.
Proof.
  revert s s'. induction n as [|n IH]; intros s s'.
  - split; intros H; inversion H; subst; constructor.
  - split.
    + intros H. inversion H as [|? ? t ? H1 H2]; subst. apply Steps_snoc. exists t.
      split; [apply IH, H2|apply Step_reverse, H1].
    + intros H. apply Steps_snoc in H as [t [H1 H2]]. econstructor; [apply Step_reverse, H2|apply IH, H1].
Qed.

End Rev.

Lemma reverse_reverse_equiv ts r : ts_wf ts = true ->
  (holds r (ttrans (reverse_ts (reverse_ts ts))) <-> holds r (ttrans ts)).
Proof.
  intros wf. simpl. rewrite (holds_reverse (reverse_ts ts) (reverse_wf ts wf)). simpl.
  rewrite (holds_reverse ts wf). apply holds_agree. intros v Hv. cbn beta.
  change (swapv (reverse_ts ts) (swapv ts v)) with (swapv ts (swapv ts v)).
  rewrite swapv_invol by assumption. reflexivity.
Qed.
