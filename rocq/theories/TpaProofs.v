(** * TPA: relations denoted by formulas over two copies of the state variables *)
From Verif Require Import Syntax Solver TransSys TSLemmas KTo1Model FormulaModel FormulaProofs2 InlineModel InlineProofs TrlProofs TrlRun TpaModel.
Open Scope list_scope.
Open Scope nat_scope.

Section Rel.
Variable ts : tsys.
Hypothesis wf : ts_wf ts = true.
Notation sv := (svars ts).
Notation av := (avars ts).

(** The relation between two states denoted by [t] (other variables are existentially quantified). *)
Definition rel (t : term) (s s' : state) : Prop :=
  exists r, agree_on sv r s /\ (forall v, In v sv -> r (shiftv 1 v) = s' v) /\ holds r t.
Definition transf (t : term) : Prop := forall v, In v (vars t) -> In v sv \/ (exists w, In w sv /\ v = shiftv 1 w) \/ In v av.
Definition pure (t : term) : Prop := forall v, In v (vars t) -> In v sv \/ exists w, In w sv /\ v = shiftv 1 w.

Lemma pure_transf t : pure t -> transf t.
Proof. intros H v Hv. destruct (H v Hv); auto. Qed.
Lemma transf_trans : transf (ttrans ts).
Proof. intros v Hv. apply (wf_trans ts wf v Hv). Qed.
Lemma pure_trans_spec t : pure_trans ts t = true <-> pure t.
Proof.
  unfold pure_trans, svat. rewrite subsetb_spec. split; intros H v Hv; specialize (H v Hv).
  - apply in_app_iff in H as [H|H]; [auto|]. apply in_map_iff in H as [w [<- Hw]]. eauto.
  - apply in_app_iff. destruct H as [H|[w [Hw ->]]]; [auto|]. right. apply in_map, Hw.
Qed.
Lemma pure_mono t u : (forall v, In v (vars u) -> In v (vars t)) -> pure t -> pure u.
Proof. intros H P v Hv. apply P, H, Hv. Qed.
Lemma pure_app f l : (forall t, In t l -> pure t) -> pure (App f l).
Proof. intros H v Hv. apply in_vars_app in Hv as [t [Ht Hv]]. exact (H t Ht v Hv). Qed.
Lemma pure_app_inv f l t : pure (App f l) -> In t l -> pure t.
Proof. intros H Ht v Hv. apply H. apply in_vars_app. eauto. Qed.
Lemma state_pure t : state_formula ts t -> pure t.
Proof. intros H v Hv. left. apply H, Hv. Qed.
Lemma transf_app f l : (forall t, In t l -> transf t) -> transf (App f l).
Proof. intros H v Hv. apply in_vars_app in Hv as [t [Ht Hv]]. exact (H t Ht v Hv). Qed.

Lemma sv0 v : In v sv -> vtag v = TTime 0.
Proof. apply (wf_svars0 ts wf). Qed.

Lemma rel_step s s' : rel (ttrans ts) s s' <-> Step ts s s'.
Proof. reflexivity. Qed.

Lemma rel_shift r i t : holds r (shift i t) -> rel t (at_time i r) (at_time (i + 1) r).
Proof.
  intros H. apply holds_shift_at in H. exists (at_time i r). split; [|split].
  - intros v _. reflexivity.
  - intros v _. unfold at_time. rewrite shiftv_shiftv. reflexivity.
  - exact H.
Qed.
Lemma rel_agree t s s' u u' : agree_on sv s u -> agree_on sv s' u' -> rel t s s' -> rel t u u'.
Proof.
  intros A B [r [R0 [R1 R2]]]. exists r. repeat split; auto.
  - intros v Hv. rewrite R0; auto.
  - intros v Hv. rewrite R1; auto.
Qed.
Lemma rel_0 r t s s' : agree_on sv r s -> (forall v, In v sv -> r (shiftv 1 v) = s' v) -> holds r t -> rel t s s'.
Proof. intros. exists r. auto. Qed.

Lemma pure_hold t r i s s' : pure t -> rel t s s' ->
  (forall v, In v sv -> r (shiftv i v) = s v) -> (forall v, In v sv -> r (shiftv (i + 1) v) = s' v) -> holds r (shift i t).
Proof.
  intros P [r0 [R0 [R1 R2]]] A B. apply holds_shift. refine (proj1 (holds_agree r0 _ _ _) R2).
  intros v Hv. destruct (P v Hv) as [H|[w [H ->]]].
  - rewrite A by exact H. apply R0, H.
  - rewrite shiftv_shiftv. rewrite B by exact H. apply R1, H.
Qed.
Lemma pure_hold0 t r s s' : pure t -> rel t s s' -> agree_on sv r s -> (forall v, In v sv -> r (shiftv 1 v) = s' v) -> holds r t.
Proof.
  intros P H A B. rewrite <- (shift_0 t). eapply pure_hold; [exact P|exact H| |exact B].
  intros v Hv. rewrite shiftv_0. apply A, Hv.
Qed.

(** [shiftOnlyNextVars] *)
Lemma next_lookup v : In v sv -> vlookup (map (fun v => (shiftv 1 v, shiftv 2 v)) sv) v = v.
Proof.
  intros Hv. apply vlookup_map_not. intros w Hw E.
  assert (vtime (shiftv 1 w) = 1%Z) by (apply vtime_shift, sv0, Hw).
  assert (vtime v = 0%Z) by (unfold vtime; rewrite (sv0 v Hv); reflexivity). rewrite E in H. lia.
Qed.
Lemma next_lookup1 v : In v sv -> vlookup (map (fun v => (shiftv 1 v, shiftv 2 v)) sv) (shiftv 1 v) = shiftv 2 v.
Proof. intros Hv. apply (vlookup_map (shiftv 1) (shiftv 2)); [|exact Hv]. intros a b; apply shiftv_inj. Qed.
Lemma vlookup_sort (f g : var -> var) l : (forall v, vsort (g v) = vsort (f v)) -> sort_preserving (vlookup (map (fun v => (f v, g v)) l)).
Proof.
  intros H v. induction l as [|w l IH]; simpl; [reflexivity|].
  destruct (var_eqb_spec v (f w)) as [->|N]; [apply H|exact IH].
Qed.
Lemma shiftv_sorts i j v : vsort (shiftv i v) = vsort (shiftv j v).
Proof. rewrite !shiftv_sort. reflexivity. Qed.
Lemma shift_next_rel t r s s2 : pure t -> agree_on sv r s -> (forall v, In v sv -> r (shiftv 2 v) = s2 v) ->
  (holds r (shift_next ts t) <-> rel t s s2).
Proof.
  intros P A B. unfold shift_next. rewrite subst_vsub, holds_rename by (apply vlookup_sort; intros; apply shiftv_sorts). split.
  - intros H. eapply rel_0; [| |exact H].
    + intros v Hv. rewrite next_lookup by exact Hv. apply A, Hv.
    + intros v Hv. cbv beta. rewrite next_lookup1 by exact Hv. apply B, Hv.
  - intros H. eapply pure_hold0; [exact P|exact H| |].
    + intros v Hv. rewrite next_lookup by exact Hv. apply A, Hv.
    + intros v Hv. cbv beta. rewrite next_lookup1 by exact Hv. apply B, Hv.
Qed.
Lemma shift_next_vars t v : pure t -> In v (vars (shift_next ts t)) -> In v sv \/ exists w, In w sv /\ v = shiftv 2 w.
Proof.
  intros P Hv. unfold shift_next in Hv. rewrite subst_vsub, vars_rename in Hv. apply in_map_iff in Hv as [u [<- Hu]].
  destruct (P u Hu) as [H|[w [H ->]]]; [rewrite next_lookup by exact H|rewrite next_lookup1 by exact H]; eauto.
Qed.

(** [cleanInterpolant] *)
Definition pure02 (t : term) : Prop := forall v, In v (vars t) -> In v sv \/ exists w, In w sv /\ v = shiftv 2 w.
Lemma clean_lookup v : In v sv -> vlookup (map (fun v => (shiftv 2 v, shiftv 1 v)) sv) v = v.
Proof.
  intros Hv. apply vlookup_map_not. intros w Hw E.
  assert (vtime (shiftv 2 w) = 2%Z) by (apply vtime_shift, sv0, Hw).
  assert (vtime v = 0%Z) by (unfold vtime; rewrite (sv0 v Hv); reflexivity). rewrite E in H. lia.
Qed.
Lemma clean_lookup2 v : In v sv -> vlookup (map (fun v => (shiftv 2 v, shiftv 1 v)) sv) (shiftv 2 v) = shiftv 1 v.
Proof. intros Hv. apply (vlookup_map (shiftv 2) (shiftv 1)); [|exact Hv]. intros a b; apply shiftv_inj. Qed.
Lemma clean_pure t : pure02 t -> pure (clean ts t).
Proof.
  intros P v Hv. unfold clean in Hv. rewrite subst_vsub, vars_rename in Hv. apply in_map_iff in Hv as [u [<- Hu]].
  destruct (P u Hu) as [H|[w [H ->]]]; [rewrite clean_lookup by exact H|rewrite clean_lookup2 by exact H]; eauto.
Qed.
Lemma clean_rel t r s s2 : pure02 t -> agree_on sv r s -> (forall v, In v sv -> r (shiftv 2 v) = s2 v) ->
  (holds r t <-> rel (clean ts t) s s2).
Proof.
  intros P A B. unfold clean. rewrite subst_vsub. split.
  - intros H. pose (r' := fun v => if Z.eqb (vtime v) 1 then r (shiftv 1 v) else r v). exists r'.
    assert (E0 : forall v, In v sv -> r' v = r v).
    { intros v Hv. unfold r'. replace (vtime v) with 0%Z by (unfold vtime; rewrite (sv0 v Hv); reflexivity). reflexivity. }
    assert (E1 : forall v, In v sv -> r' (shiftv 1 v) = r (shiftv 2 v)).
    { intros v Hv. unfold r'. rewrite vtime_shift by (apply sv0, Hv). rewrite shiftv_shiftv. reflexivity. }
    split; [intros v Hv; rewrite E0 by exact Hv; apply A, Hv|]. split; [intros v Hv; rewrite E1 by exact Hv; apply B, Hv|].
    rewrite holds_rename by (apply vlookup_sort; intros; apply shiftv_sorts).
    refine (proj1 (holds_agree r _ _ _) H). intros v Hv. destruct (P v Hv) as [K|[w [K ->]]].
    + rewrite clean_lookup by exact K. rewrite E0 by exact K. reflexivity.
    + rewrite clean_lookup2 by exact K. rewrite E1 by exact K. reflexivity.
  - intros [r' [R0 [R1 R2]]]. rewrite holds_rename in R2 by (apply vlookup_sort; intros; apply shiftv_sorts).
    refine (proj1 (holds_agree _ r _ _) R2). intros v Hv. cbv beta. destruct (P v Hv) as [K|[w [K ->]]].
    + rewrite clean_lookup by exact K. rewrite (R0 v K), (A v K). reflexivity.
    + rewrite clean_lookup2 by exact K. rewrite (R1 w K), (B w K). reflexivity.
Qed.

(** An assignment for a sequence of states and relations between consecutive states. *)
Lemma glue_rels (sq : Z -> state) L :
  NoDup (map fst L) -> (forall i t, In (i, t) L -> transf t /\ rel t (sq i) (sq (i + 1)%Z)) ->
  exists r, (forall i v, In v sv -> r (shiftv i v) = sq i v) /\ (forall i t, In (i, t) L -> holds r (shift i t)).
Proof.
  intros N H.
  assert (A : exists aq : Z -> valuation, forall i t, In (i, t) L -> exists r, agree_on sv r (sq i)
     /\ (forall v, In v sv -> r (shiftv 1 v) = sq (i + 1)%Z v) /\ (forall v, In v av -> r v = aq i v) /\ holds r t).
  { clear - N H. induction L as [|[j u] L IH].
    - exists (fun _ => sq 0%Z). intros i t [].
    - simpl in N. apply NoDup_cons_iff in N as [N1 N2]. destruct IH as [aq Ha]; [exact N2|intros i t Hi; apply H; right; exact Hi|].
      destruct (H j u (or_introl eq_refl)) as [_ [r [R0 [R1 R2]]]].
      exists (fun i => if Z.eqb i j then r else aq i). intros i t [E|Hi].
      + injection E as -> ->. exists r. rewrite Z.eqb_refl. auto.
      + destruct (Z.eqb_spec i j) as [E|E]; [|apply Ha, Hi]. exfalso. subst i. apply N1. apply in_map_iff. exists (j, t). auto. }
  destruct A as [aq Ha]. exists (glue sv sq aq). split.
  - intros i v Hv. apply glue_state; [exact Hv|apply sv0, Hv].
  - intros i t Hi. destruct (Ha i t Hi) as [r [R0 [R1 [R2 R3]]]]. destruct (H i t Hi) as [T _].
    apply holds_shift. refine (proj1 (holds_agree r _ _ _) R3). intros v Hv. destruct (T v Hv) as [K|[[w [K ->]]|K]].
    + rewrite glue_state; [apply R0, K|exact K|apply sv0, K].
    + rewrite shiftv_shiftv, glue_state; [apply R1, K|exact K|apply sv0, K].
    + rewrite glue_aux; [apply R2, K|apply (wf_disj ts wf), K|apply (wf_avars0 ts wf), K].
Qed.

(** ** The identity *)
Definition same_state (s s' : state) : Prop := forall v, In v sv -> coerce (vsort v) (s v) = coerce (vsort v) (s' v).
Lemma identity_holds r : holds r (identity ts) <-> same_state r (at_time 1 r).
Proof.
  unfold identity. rewrite holds_and, Forall_forall. split.
  - intros H v Hv. specialize (H (mkEq (Var v) (Var (shiftv 1 v))) (in_map _ _ _ Hv)). apply holds_eq in H.
    simpl in H. rewrite shiftv_sort in H. exact H.
  - intros H t Ht. apply in_map_iff in Ht as [v [<- Hv]]. apply holds_eq. simpl. rewrite shiftv_sort. apply H, Hv.
Qed.
Lemma identity_pure : pure (identity ts).
Proof.
  unfold identity. apply pure_app. intros t Ht. apply in_map_iff in Ht as [v [<- Hv]]. apply pure_app.
  intros u [<-|[<-|[]]] x [<-|[]]; eauto.
Qed.
Lemma identity_rel s s' : rel (identity ts) s s' <-> same_state s s'.
Proof.
  split.
  - intros [r [R0 [R1 R2]]] v Hv. apply identity_holds in R2. specialize (R2 v Hv). rewrite R0 in R2 by exact Hv.
    unfold at_time in R2. rewrite R1 in R2 by exact Hv. exact R2.
  - intros H. destruct (glue_rels (fun i => if Z.leb i 0 then s else s') [] (NoDup_nil _)) as [r [R0 _]]; [intros ? ? []|].
    exists r. assert (A : agree_on sv r s) by (intros v Hv; specialize (R0 0%Z v Hv); rewrite shiftv_0 in R0; exact R0).
    assert (B : forall v, In v sv -> r (shiftv 1 v) = s' v) by (intros v Hv; exact (R0 1%Z v Hv)).
    split; [exact A|]. split; [exact B|]. apply identity_holds. intros v Hv. unfold at_time. rewrite (A v Hv), (B v Hv). apply H, Hv.
Qed.
Lemma rel_identity s : rel (identity ts) s s.
Proof. apply identity_rel. intros v _. reflexivity. Qed.

Lemma holds_same f s s' : state_formula ts f -> same_state s s' -> holds s f -> holds s' f.
Proof.
  intros F E H. pose (u := fun v => if inb v sv then s' v else s v).
  assert (K : holds u f).
  { refine (proj1 (TrlRun.holds_ext s u f _) H). intros v Hv. unfold u. destruct (inb_spec v sv) as [I0|I0]; [|reflexivity].
    apply E, I0. }
  refine (proj1 (holds_agree u s' f _) K). intros v Hv. unfold u. destruct (inb_spec v sv) as [I0|I0]; [reflexivity|].
  exfalso. apply I0, F, Hv.
Qed.
End Rel.
