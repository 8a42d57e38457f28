(** * Oracles that decide propositional queries.

    Used only to run the models on concrete (Boolean) inputs: they show that the hypotheses on the oracles can be met and
    that the engines reach their verdicts.  On a query with a variable of another sort they give up. *)
From Verif Require Import Syntax Solver.
Open Scope list_scope.

Definition boolv (v : var) : bool := sort_eqb (vsort v) SBool.
Definition nvars (t : term) : list var := nodup var_dec (vars t).
Fixpoint assigns (vs : list var) : list valuation :=
  match vs with
  | [] => [fun _ => VBool false]
  | v :: vs' => flat_map (fun m => [m; fun u => if var_eqb u v then VBool true else m u]) (assigns vs')
  end.
Definition cube (m : valuation) (vs : list var) : term := mkAnd (map (fun v => if asb (coerce SBool (m v)) then Var v else mkNot (Var v)) vs).

Definition bcheck : check_fn := fun q =>
  let vs := nvars (mkAnd q) in
  if forallb boolv vs then match find (fun m => forallb (holdsb m) q) (assigns vs) with Some m => SAT m | None => UNSAT end else UNKNOWN.
Definition kept (f : term) (keep : list var) : list var := filter (fun v => inb v keep) (nvars f).
Definition bqe : qe_fn := fun f keep =>
  if forallb boolv (nvars f) then Some (mkOr (map (fun m => cube m (kept f keep)) (filter (fun m => holdsb m f) (assigns (nvars f))))) else None.
Definition bmbp : mbp_fn := fun f keep m => if forallb boolv (kept f keep) then Some (match kept f keep with [] => tt_true | vs => cube m vs end) else None.
Definition bitp : itp_fn := fun A B => match bcheck (A ++ B) with UNSAT => bqe (mkAnd A) (lvars B) | _ => None end.

Lemma coerce_bool v : exists b, coerce SBool v = VBool b.
Proof. pose proof (coerce_sort SBool v) as H. destruct (coerce SBool v); try discriminate. eauto. Qed.
Lemma assigns_complete vs r : forallb boolv vs = true -> NoDup vs -> exists m, In m (assigns vs) /\ forall v, In v vs -> coerce (vsort v) (r v) = coerce (vsort v) (m v).
Proof.
  induction vs as [|v vs IH]; intros B N; [exists (fun _ => VBool false); split; [left; reflexivity|intros v []]|].
  cbn [forallb] in B. apply andb_true_iff in B as [B1 B2]. apply NoDup_cons_iff in N as [N1 N2]. destruct (IH B2 N2) as [m [Hm Ag]].
  assert (Def : forall vs m, In m (assigns vs) -> forall v, ~ In v vs -> m v = VBool false).
  { clear. induction vs as [|u vs IH]; intros m Hm v Hv; [destruct Hm as [<-|[]]; reflexivity|]. cbn [assigns] in Hm. apply in_flat_map in Hm as [m0 [H0 [<-|[<-|[]]]]].
    - apply IH; [exact H0|]. intros H; apply Hv; right; exact H.
    - destruct (var_eqb_spec v u) as [->|]; [exfalso; apply Hv; left; reflexivity|]. apply IH; [exact H0|]. intros H; apply Hv; right; exact H. }
  unfold boolv in B1. destruct (sort_eqb_spec (vsort v) SBool) as [Ev|]; [|discriminate]. destruct (coerce_bool (r v)) as [[|] Eb].
  - exists (fun u => if var_eqb u v then VBool true else m u). split; [cbn [assigns]; apply in_flat_map; exists m; split; [exact Hm|right; left; reflexivity]|].
    intros u [<-|Hu]; [rewrite var_eqb_refl, Ev, Eb; reflexivity|]. destruct (var_eqb_spec u v) as [->|]; [contradiction|]. apply Ag, Hu.
  - exists m. split; [cbn [assigns]; apply in_flat_map; exists m; split; [exact Hm|left; reflexivity]|].
    intros u [<-|Hu]; [|apply Ag, Hu]. rewrite Ev, Eb, (Def vs m Hm v N1). reflexivity.
Qed.
Lemma nvars_in t v : In v (nvars t) <-> In v (vars t). Proof. apply nodup_In. Qed.
Lemma nvars_nodup t : NoDup (nvars t). Proof. apply NoDup_nodup. Qed.
Lemma eval_coerced r m t : (forall v, In v (vars t) -> coerce (vsort v) (r v) = coerce (vsort v) (m v)) -> eval r t = eval m t.
Proof. intros H. apply eval_ext. exact H. Qed.
Lemma holds_coerced r m t : (forall v, In v (vars t) -> coerce (vsort v) (r v) = coerce (vsort v) (m v)) -> (holds r t <-> holds m t).
Proof. intros H. unfold holds, holdsb. rewrite (eval_coerced r m t H). tauto. Qed.
Lemma cube_sem r m vs : forallb boolv vs = true -> (holds r (cube m vs) <-> forall v, In v vs -> coerce (vsort v) (r v) = coerce (vsort v) (m v)).
Proof.
  intros B. unfold cube. rewrite holds_and, Forall_map, Forall_forall. rewrite forallb_forall in B.
  assert (X : forall v, In v vs -> (holds r (if asb (coerce SBool (m v)) then Var v else mkNot (Var v)) <-> coerce (vsort v) (r v) = coerce (vsort v) (m v))).
  { intros v Hv. specialize (B v Hv). unfold boolv in B. destruct (sort_eqb_spec (vsort v) SBool) as [Ev|]; [|discriminate]. rewrite Ev.
    destruct (coerce_bool (m v)) as [b Eb], (coerce_bool (r v)) as [b' Eb']. rewrite Eb, Eb'. cbn [asb].
    assert (Y : holds r (Var v) <-> b' = true) by (unfold holds, holdsb; cbn [eval]; rewrite Ev, Eb'; tauto).
    destruct b; [rewrite Y|rewrite holds_not, Y]; destruct b'; split; intros H; try congruence; exfalso; apply H; reflexivity. }
  split; intros H v Hv; apply X; auto.
Qed.
Lemma cube_vars m vs v : In v (vars (cube m vs)) -> In v vs.
Proof.
  unfold cube, mkAnd. intros H. apply in_vars_app in H as [t [Ht Hv]]. apply in_map_iff in Ht as [u [<- Hu]]. destruct (asb _); cbn in Hv.
  - destruct Hv as [<-|[]]. exact Hu.
  - destruct Hv as [<-|[]]. exact Hu.
Qed.
Lemma kept_in f keep v : In v (kept f keep) <-> In v (vars f) /\ In v keep.
Proof. unfold kept. rewrite filter_In, nvars_in, inb_true. tauto. Qed.
Lemma vars_in_and q t v : In t q -> In v (vars t) -> In v (nvars (mkAnd q)).
Proof. intros H1 H2. apply nvars_in. unfold mkAnd. apply in_vars_app. eauto. Qed.

Lemma bcheck_ok : check_ok bcheck.
Proof.
  split; intros q; unfold bcheck.
  - intros m. destruct (forallb boolv _); [|discriminate]. destruct (find _ _) as [m'|] eqn:E; [|discriminate]. intros E'. injection E' as <-.
    apply find_some in E as [_ E]. rewrite forallb_forall in E. apply Forall_forall. intros t Ht. apply E, Ht.
  - destruct (forallb boolv _) eqn:B; [|discriminate]. destruct (find _ _) as [m'|] eqn:E; [discriminate|]. intros _ r H.
    destruct (assigns_complete _ r B (nvars_nodup _)) as [m [Hm Ag]]. pose proof (find_none _ _ E m Hm) as F. cbv beta in F. rewrite <- not_true_iff_false in F. apply F.
    apply forallb_forall. intros t Ht. rewrite Forall_forall in H. apply (holds_coerced r m t); [|apply H, Ht]. intros v Hv. apply Ag. eapply vars_in_and; eauto.
Qed.
Lemma merge_agree (f : term) (keep : list var) (r m : valuation) : holds m f -> (forall v, In v (kept f keep) -> coerce (vsort v) (r v) = coerce (vsort v) (m v)) ->
  exists r', agree_on keep r r' /\ holds r' f.
Proof.
  intros H Ag. exists (fun v => if inb v keep then r v else m v). split.
  - intros v Hv. apply inb_true in Hv. rewrite Hv. reflexivity.
  - apply (holds_coerced m _ f); [|exact H]. intros v Hv. destruct (inb_spec v keep) as [Hk|Hk]; [|reflexivity]. symmetry. apply Ag. apply kept_in. auto.
Qed.
Lemma bqe_ok : qe_ok bqe.
Proof.
  intros f keep h. unfold bqe. destruct (forallb boolv (nvars f)) eqn:B; [|discriminate]. intros E. injection E as <-.
  assert (Bk : forallb boolv (kept f keep) = true).
  { rewrite forallb_forall in *. intros v Hv. apply B. apply kept_in in Hv as [Hv _]. apply nvars_in, Hv. }
  split.
  - intros v Hv. unfold mkOr in Hv. apply in_vars_app in Hv as [t [Ht Hv]]. apply in_map_iff in Ht as [m [<- _]]. apply cube_vars in Hv. apply kept_in in Hv. apply Hv.
  - intros r. rewrite holds_or, Exists_exists. split.
    + intros [t [Ht H]]. apply in_map_iff in Ht as [m [<- Hm]]. apply filter_In in Hm as [_ Hm]. apply (merge_agree f keep r m Hm (proj1 (cube_sem r m _ Bk) H)).
    + intros [r' [Ag H]]. destruct (assigns_complete _ r' B (nvars_nodup _)) as [m [Hm Am]]. exists (cube m (kept f keep)). split.
      * apply (in_map (fun m => cube m (kept f keep))). apply filter_In. split; [exact Hm|]. apply (holds_coerced r' m f); [|exact H]. intros v Hv. apply Am, nvars_in, Hv.
      * apply (cube_sem r m _ Bk). intros v Hv. apply kept_in in Hv as [H1 H2]. rewrite (Ag v H2). apply Am, nvars_in, H1.
Qed.
Lemma bmbp_ok : mbp_ok bmbp.
Proof.
  intros f keep m h. unfold bmbp. destruct (forallb boolv (kept f keep)) eqn:B; [|discriminate]. intros E. injection E as <-. intros H.
  assert (X : match kept f keep with [] => tt_true | vs => cube m vs end = tt_true /\ kept f keep = [] \/ match kept f keep with [] => tt_true | vs => cube m vs end = cube m (kept f keep)) by (destruct (kept f keep); auto).
  destruct X as [[-> Ek]| ->].
  { split; [intros v []|reflexivity|]. intros r _. apply (merge_agree f keep r m H). rewrite Ek. intros v []. }
  split.
  - intros v Hv. apply cube_vars in Hv. apply kept_in in Hv. apply Hv.
  - intros _. apply (cube_sem m m _ B). reflexivity.
  - intros r Hr. apply (merge_agree f keep r m H (proj1 (cube_sem r m _ B) Hr)).
Qed.
Lemma bitp_ok : itp_ok bitp.
Proof.
  intros A B J. unfold bitp. destruct (bcheck (A ++ B)) eqn:E; try discriminate. intros Eq. apply (check_unsat _ bcheck_ok) in E. pose proof (bqe_ok _ _ _ Eq) as [P1 P2].
  split.
  - intros r H. apply P2. exists r. split; [intros v _; reflexivity|]. apply holds_and, H.
  - intros r H HB. apply P2 in H as [r' [Ag H]]. apply holds_and in H. apply (E r'). apply Forall_app. split; [exact H|].
    rewrite Forall_forall in *. intros t Ht. apply (holds_agree r r' t); [|apply HB, Ht]. intros v Hv. apply Ag. apply in_lvars. eauto.
  - intros v Hv. split; [|apply P1, Hv]. revert Eq Hv. unfold bqe. destruct (forallb boolv _); [|discriminate]. intros Eq. injection Eq as <-.
    intros Hv. unfold mkOr in Hv. apply in_vars_app in Hv as [t [Ht Hv]]. apply in_map_iff in Ht as [m [<- _]]. apply cube_vars in Hv. apply kept_in in Hv as [Hv _].
    unfold mkAnd in Hv. apply in_vars_app in Hv as [t [Ht Hv]]. apply in_lvars. eauto.
Qed.
