(** * Proofs about PD-kind. *)
From Verif Require Import Syntax Solver TransSys TSLemmas KTo1Model KindModel KindProofs PdkModel.

Definition order_ok (order : list elem -> list elem) : Prop := forall l e, In e (order l) <-> In e l.

Section P.
Variable c : ctors.
Variable check : check_fn.
Variable itp : itp_fn.
Variable pitp : pitp_fn.
Variable mbp : mbp_fn.
Variable order : list elem -> list elem.
Variable ts : tsys.
Hypothesis Hctors : ctors_ok c.
Hypothesis Hc : check_ok check.
Hypothesis Hi : itp_ok itp.
Hypothesis Hm : mbp_ok mbp.
Hypothesis Ho : order_ok order.
Hypothesis wf : ts_wf ts = true.
Hypothesis Hq : state_formula ts (tquery ts).

(** Some service gave no answer. *)
Definition services_fail : Prop :=
  (exists q, check q = UNKNOWN) \/ (exists A B, unsat (A ++ B) /\ itp A B = None) \/
  (exists f l m, holds m f /\ mbp f l m = None).

Definition rb (j : nat) (s : state) : Prop := exists s0, Init ts s0 /\ Steps ts j s0 s.
Notation sf := (state_formula ts).

Lemma rb_step j s s' : rb j s -> Step ts s s' -> rb (S j) s'.
Proof. intros [s0 [I H]] St. exists s0. split; [exact I|]. apply Steps_snoc. eauto. Qed.
Lemma rb_steps j k s s' : rb j s -> Steps ts k s s' -> rb (j + k) s'.
Proof. intros [s0 [I H]] St. exists s0. split; [exact I|]. eapply Steps_app; eauto. Qed.
Lemma rb_0 s : rb 0 s <-> Init ts s.
Proof. split; [intros [s0 [I H]]; inversion H; subst; exact I|]. intros I. exists s. split; [exact I|constructor]. Qed.
Lemma rb_S j s : rb (S j) s <-> exists t, rb j t /\ Step ts t s.
Proof.
  split; [|intros [t [A B]]; eapply rb_step; eauto]. intros [s0 [I H]]. apply Steps_snoc in H as [t [A B]]. exists t. split; [exists s0; auto|exact B].
Qed.
Lemma Steps_split a b s s' : Steps ts (a + b) s s' -> exists t, Steps ts a s t /\ Steps ts b t s'.
Proof.
  revert s. induction a as [|a IH]; intros s H; cbn in H; [exists s; split; [constructor|exact H]|]. inversion H as [|? ? u ? H1 H2]; subst.
  destruct (IH u H2) as [t [A B]]. exists t. split; [econstructor; eauto|exact B].
Qed.
Lemma rb_split a b s : rb (a + b) s -> exists t, rb a t /\ Steps ts b t s.
Proof. intros [s0 [I H]]. apply Steps_split in H as [t [A B]]. exists t. split; [exists s0; auto|exact B]. Qed.

Lemma cand_forall r l : holds r (cand c l) <-> forall t, In t l -> holds r t.
Proof. rewrite (cand_sem c Hctors). apply Forall_forall. Qed.
Lemma sf_cand l : (forall t, In t l -> sf t) -> sf (cand c l).
Proof. intros H v Hv. apply (cand_vars c Hctors) in Hv as [t [Ht Hv]]. apply (H t Ht v Hv). Qed.

(** *** Single steps *)
Lemma ktransition_steps k r : holds r (ktransition c ts k) -> Steps ts k (at_time 0 r) (at_time (Z.of_nat k) r).
Proof.
  intros Hk. unfold ktransition in Hk. rewrite (cand_sem c Hctors) in Hk. rewrite Forall_trans_at in Hk.
  pose proof (steps_of_assignment ts r k 0) as St. cbn [Z.add] in St. apply St. intros j Hj.
  specialize (Hk (Z.to_nat j)). rewrite Z2Nat.id in Hk by lia. apply Hk. lia.
Qed.
Lemma mbp_ksteps k f m g : (0 < k)%nat ->
  holds m (cand c [ktransition c ts k; shift (Z.of_nat k) f]) -> mbp (cand c [ktransition c ts k; shift (Z.of_nat k) f]) (svars ts) m = Some g ->
  sf g /\ holds m g /\ (forall s, holds s g -> exists s', Steps ts k s s' /\ holds s' f).
Proof.
  intros K0 Hh E. destruct (Hm _ _ _ _ E Hh) as [V M U]. split; [exact V|]. split; [apply M, Hh|]. intros s Hs.
  destruct (U s Hs) as [r [Ag Hr]]. rewrite cand_forall in Hr. pose proof (Hr _ (or_introl eq_refl)) as Hk. pose proof (Hr _ (or_intror (or_introl eq_refl))) as Hf.
  apply ktransition_steps in Hk. exists (at_time (Z.of_nat k) r). split; [|apply holds_shift_at, Hf].
  destruct k as [|k]; [lia|]. inversion Hk as [|? ? t ? S1 S2]; subst. econstructor; [|exact S2].
  apply (Step_agree ts (at_time 0 r) s t t); [|intros v _; reflexivity|exact S1].
  intros v Hv. unfold at_time. rewrite shiftv_0. symmetry. apply Ag, Hv.
Qed.
Lemma mbp_step f m g :
  holds m (cand c [ttrans ts; shift 1 f]) -> mbp (cand c [ttrans ts; shift 1 f]) (svars ts) m = Some g ->
  sf g /\ (forall s, holds s g -> exists s', Step ts s s' /\ holds s' f).
Proof.
  intros Hh E. destruct (Hm _ _ _ _ E Hh) as [V M U]. split; [exact V|]. intros s Hs.
  destruct (U s Hs) as [r [Ag Hr]]. rewrite cand_forall in Hr. pose proof (Hr _ (or_introl eq_refl)) as Ht. pose proof (Hr _ (or_intror (or_introl eq_refl))) as Hf.
  exists (at_time 1 r). split; [|apply holds_shift_at, Hf]. exists r. split; [intros v Hv; symmetry; apply Ag, Hv|]. split; [intros v _; reflexivity|exact Ht].
Qed.
Lemma itp_step L f i : sf L -> sf f -> itp [L; ttrans ts] [shift 1 f] = Some i ->
  sf (shift (-1) i) /\ (forall s s', Step ts s s' -> holds s L -> holds s' (shift (-1) i)) /\ (forall s, holds s (shift (-1) i) -> ~ holds s f).
Proof.
  intros SL Sf E. destruct (Hi _ _ _ E) as [HA HB HV].
  assert (Vi : forall v, In v (vars i) -> exists w, In w (svars ts) /\ v = shiftv 1 w).
  { intros v Hv. destruct (HV v Hv) as [_ X]. unfold lvars in X. cbn in X. rewrite app_nil_r in X. apply (vars_shift_state ts f 1 v Sf X). }
  split; [apply (unshift_state ts i 1), Vi|]. split.
  - intros s s' [r [A0 [A1 Ht]]] HL. rewrite holds_shift. 
    assert (Hr : holds r i). { apply HA. constructor; [|constructor; [exact Ht|constructor]]. apply (state_formula_holds ts L r s SL A0), HL. }
    refine (proj1 (holds_agree r (fun v => s' (shiftv (-1) v)) i _) Hr). intros v Hv. destruct (Vi v Hv) as [w [Hw ->]].
    rewrite shiftv_shiftv, shiftv_0. apply A1, Hw.
  - intros s Hs Hf. rewrite holds_shift in Hs. apply (HB _ Hs). constructor; [|constructor]. rewrite holds_shift.
    refine (proj2 (holds_agree _ s f _) Hf). intros v Hv. rewrite shiftv_shiftv, shiftv_0. reflexivity.
Qed.

(** *** Reachability *)
Definition unreach_upto (k : nat) (f : term) : Prop := forall j s, (j <= k)%nat -> rb j s -> ~ holds s f.
Definition FI (R : frames) : Prop := forall j e, In e (R j) -> sf e /\ forall i s, (i <= j)%nat -> rb i s -> holds s e.
Definition expl (k : nat) (f e : term) : Prop :=
  sf e /\ (forall i s, (i <= k)%nat -> rb i s -> holds s e) /\ (forall s, holds s e -> ~ holds s f).
Lemma expl_unreach k f e : expl k f e -> unreach_upto k f.
Proof. intros [_ [H1 H2]] j s Hj Hr Hf. apply (H2 s); auto. apply (H1 j); auto. Qed.

Lemma zero_step_ok f : sf f ->
  match zero_step check itp ts f with
  | RReach _ => exists s, rb 0 s /\ holds s f
  | RUnreach e => expl 0 f e
  | RExn => services_fail
  | RFuel => False
  end.
Proof.
  intros Sf. unfold zero_step. destruct (check [tinit ts; f]) as [m| |] eqn:E.
  - apply (check_sat _ Hc) in E. apply Forall_cons_iff in E as [E1 E2]. apply Forall_inv in E2. exists m. split; [|exact E2]. apply rb_0.
    exists m. split; [intros v _; reflexivity|exact E1].
  - destruct (itp [tinit ts] [f]) as [e|] eqn:Ei; [|right; left; exists [tinit ts], [f]; split; [apply (check_unsat _ Hc), E|exact Ei]].
    destruct (Hi _ _ _ Ei) as [HA HB HV].
    assert (Se : sf e). { intros v Hv. destruct (HV v Hv) as [_ X]. unfold lvars in X. cbn in X. rewrite app_nil_r in X. apply Sf, X. }
    split; [exact Se|]. split.
    + intros i s Hi0 Hr. assert (i = 0)%nat by lia. subst i. apply rb_0 in Hr as [r [Ag Hr]]. apply (state_formula_holds ts e r s Se Ag). apply HA. constructor; [exact Hr|constructor].
    + intros s Hs Hf. apply (HB s Hs). constructor; [exact Hf|constructor].
  - left. eauto.
Qed.

Lemma FI_add R k e : FI R -> sf e -> (forall i s, (i <= k)%nat -> rb i s -> holds s e) -> FI (add_lemma R k e).
Proof.
  intros F Se He j x Hx. unfold add_lemma in Hx. destruct (Nat.eqb_spec j k) as [->|]; [|apply F, Hx].
  apply in_app_or in Hx as [Hx|[<-|[]]]; [apply F, Hx|]. split; assumption.
Qed.
Lemma FI_cand R k : FI R -> sf (cand c (R k)) /\ forall i s, (i <= k)%nat -> rb i s -> holds s (cand c (R k)).
Proof.
  intros F. split; [apply sf_cand; intros t Ht; apply (F k t Ht)|]. intros i s Hi0 Hr. apply cand_forall. intros t Ht. apply (proj2 (F k t Ht) i s Hi0 Hr).
Qed.

Lemma reachable_ok fuel : forall k f R a R', FI R -> sf f -> reachable c check itp mbp ts fuel k f R = (a, R') ->
  FI R' /\
  match a with
  | RReach _ => exists s, rb k s /\ holds s f
  | RUnreach e => expl k f e
  | RExn => (forall j s, (j < k)%nat -> rb j s -> ~ holds s f) -> services_fail
  | RFuel => True
  end.
Proof.
  induction fuel as [|fuel IH]; intros k f R a R' HF Sf E; cbn [reachable] in E; [injection E as <- <-; auto|].
  destruct k as [|k].
  - injection E as <- <-. split; [exact HF|]. pose proof (zero_step_ok f Sf) as Z. destruct (zero_step check itp ts f); auto.
  - destruct (FI_cand R k HF) as [SL VL].
    destruct (check [cand c (R k); ttrans ts; shift 1 f]) as [m| |] eqn:Ec.
    + apply (check_sat _ Hc) in Ec. apply Forall_cons_iff in Ec as [_ Ec].
      assert (Hh : holds m (cand c [ttrans ts; shift 1 f])) by (apply (cand_sem c Hctors), Ec).
      destruct (mbp (cand c [ttrans ts; shift 1 f]) (svars ts) m) as [g|] eqn:Em.
      2:{ injection E as <- <-. split; [exact HF|]. intros _. right; right. eauto. }
      destruct (mbp_step f m g Hh Em) as [Sg Hg].
      destruct (reachable c check itp mbp ts fuel k g R) as [a1 R1] eqn:E1. destruct (IH k g R a1 R1 HF Sg E1) as [F1 H1].
      destruct a1 as [i|e| |].
      * injection E as <- <-. split; [exact F1|]. destruct H1 as [s [Hr Hs]]. destruct (Hg s Hs) as [s' [St Hs']]. exists s'. split; [apply (rb_step k s s' Hr St)|exact Hs'].
      * apply (IH (Datatypes.S k) f (add_lemma R1 k e) a R' (FI_add R1 k e F1 (proj1 H1) (proj1 (proj2 H1))) Sf E).
      * injection E as <- <-. split; [exact F1|]. intros Pre. apply H1. intros j s Hj Hr Hs. destruct (Hg s Hs) as [s' [St Hs']].
        apply (Pre (Datatypes.S j) s'); [lia|apply (rb_step j s s' Hr St)|exact Hs'].
      * injection E as <- <-. auto.
    + destruct (itp [cand c (R k); ttrans ts] [shift 1 f]) as [i|] eqn:Ei.
      2:{ injection E as <- <-. split; [exact HF|]. intros _. right; left. exists [cand c (R k); ttrans ts], [shift 1 f]. split; [apply (check_unsat _ Hc), Ec|exact Ei]. }
      destruct (itp_step _ f i SL Sf Ei) as [Si [I1 I2]]. pose proof (zero_step_ok f Sf) as Z.
      destruct (zero_step check itp ts f) as [x|e| |]; injection E as <- <-; (split; [exact HF|]).
      * intros Pre. exfalso. destruct Z as [s [Hr Hs]]. apply (Pre 0%nat s); [lia|exact Hr|exact Hs].
      * destruct Z as [Se [Z1 Z2]]. split; [|split].
        -- intros v Hv. apply (cor_vars c Hctors) in Hv as [t [Ht Hv]]. destruct Ht as [<-|[<-|[]]]; auto.
        -- intros j s Hj Hr. apply (cor_sem c Hctors). destruct j as [|j]; [right; left; apply (Z1 0%nat s); [lia|exact Hr]|].
           left. apply rb_S in Hr as [t [Hr St]]. apply (I1 t s St), (VL j t); [lia|exact Hr].
        -- intros s Hs. apply (cor_sem c Hctors) in Hs. apply Exists_cons in Hs as [Hs|Hs]; [apply I2, Hs|]. apply Exists_cons in Hs as [Hs|Hs]; [apply Z2, Hs|inversion Hs].
      * intros _. exact Z.
      * destruct Z.
    + injection E as <- <-. split; [exact HF|]. intros _. left. eauto.
Qed.

Lemma check_reach_ok fuel : forall count i f R a R', FI R -> sf f -> check_reach c check itp mbp ts fuel count i f R = (a, R') ->
  FI R' /\
  match a with
  | RReach j => (i <= j < i + count)%nat /\ (exists s, rb j s /\ holds s f) /\ ((i < j)%nat -> unreach_upto (j - 1) f)
  | RUnreach e => (0 < count)%nat /\ expl (i + count - 1) f e
  | RExn => (0 < count)%nat -> (forall j s, (j < i)%nat -> rb j s -> ~ holds s f) -> services_fail
  | RFuel => True
  end.
Proof.
  induction count as [|count IH]; intros i f R a R' HF Sf E; cbn [check_reach] in E; [injection E as <- <-; split; [exact HF|lia]|].
  destruct (reachable c check itp mbp ts fuel i f R) as [a1 R1] eqn:E1. destruct (reachable_ok fuel i f R a1 R1 HF Sf E1) as [F1 H1].
  destruct a1 as [x|e| |].
  - injection E as <- <-. split; [exact F1|]. split; [lia|]. split; [exact H1|lia].
  - destruct count as [|count].
    + injection E as <- <-. split; [exact F1|]. split; [lia|]. replace (i + 1 - 1)%nat with i by lia. exact H1.
    + destruct (IH (Datatypes.S i) f R1 a R' F1 Sf E) as [F2 H2]. split; [exact F2|]. pose proof (expl_unreach i f e H1) as U. destruct a as [j|e'| |]; auto.
      * destruct H2 as [B [X Y]]. split; [lia|]. split; [exact X|]. intros _. destruct (Nat.eq_dec j (Datatypes.S i)) as [->|Nj].
        -- replace (Datatypes.S i - 1)%nat with i by lia. exact U.
        -- apply Y. lia.
      * destruct H2 as [B X]. split; [lia|]. replace (i + Datatypes.S (Datatypes.S count) - 1)%nat with (Datatypes.S i + Datatypes.S count - 1)%nat by lia. exact X.
      * intros _ Pre. apply H2; [lia|]. intros j s Hj Hr. apply (U j s); [lia|exact Hr].
  - injection E as <- <-. split; [exact F1|]. intros _ Pre. apply H1, Pre.
  - injection E as <- <-. auto.
Qed.
Lemma check_reachability_ok fuel from to f R a R' : FI R -> sf f -> (from <= to)%nat -> check_reachability c check itp mbp ts fuel from to f R = (a, R') ->
  FI R' /\
  match a with
  | RReach j => (from <= j <= to)%nat /\ (exists s, rb j s /\ holds s f) /\ ((from < j)%nat -> unreach_upto (j - 1) f)
  | RUnreach e => expl to f e
  | RExn => (forall j s, (j < from)%nat -> rb j s -> ~ holds s f) -> services_fail
  | RFuel => True
  end.
Proof.
  intros HF Sf Le E. unfold check_reachability in E. destruct (check_reach_ok fuel _ _ _ _ _ _ HF Sf E) as [F1 H]. split; [exact F1|].
  destruct a as [j|e| |]; auto.
  - destruct H as [B H]. split; [lia|exact H].
  - destruct H as [B H]. replace (from + (to + 1 - from) - 1)%nat with to in H by lia. exact H.
  - apply H. lia.
Qed.

(** *** Frames *)
Notation lconj F := (cand c (map el_lemma (order F))).
Lemma lconj_sem F s : holds s (lconj F) <-> forall e, In e F -> holds s (el_lemma e).
Proof.
  rewrite cand_forall. split; intros H.
  - intros e He. apply H. apply in_map, Ho, He.
  - intros t Ht. apply in_map_iff in Ht as [e [<- He]]. apply H, Ho, He.
Qed.
Lemma elem_eqb_spec a b : elem_eqb a b = true <-> el_lemma a = el_lemma b /\ el_ctx a = el_ctx b.
Proof.
  unfold elem_eqb. destruct (term_eqb_spec (el_lemma a) (el_lemma b)), (term_eqb_spec (el_ctx a) (el_ctx b)); cbn; intuition congruence.
Qed.
Lemma has_spec l e : has l e = true <-> exists x, In x l /\ el_lemma e = el_lemma x /\ el_ctx e = el_ctx x.
Proof.
  unfold has. rewrite existsb_exists. split; intros [x [H1 H2]]; exists x; (split; [exact H1|]); apply elem_eqb_spec, H2.
Qed.
Lemma in_has l e : In e l -> has l e = true.
Proof. intros H. apply has_spec. eauto. Qed.
Lemma in_finsert e l x : In x (finsert e l) -> x = e \/ In x l.
Proof. unfold finsert. destruct (has l e); [auto|]. rewrite in_app_iff. cbn. intuition. Qed.
Lemma finsert_in e l x : In x l -> In x (finsert e l).
Proof. unfold finsert. destruct (has l e); [auto|]. rewrite in_app_iff. auto. Qed.
Lemma finsert_has e l : has (finsert e l) e = true.
Proof. unfold finsert. destruct (has l e) eqn:E; [exact E|]. apply in_has, in_app_iff. right; left; reflexivity. Qed.
Lemma has_mono l l' e : (forall x, In x l -> In x l') -> has l e = true -> has l' e = true.
Proof. intros H. rewrite !has_spec. intros [x [Hx E]]. exists x. auto. Qed.
Lemma in_ferase e l x : In x (ferase e l) <-> In x l /\ elem_eqb e x = false.
Proof. unfold ferase. rewrite filter_In. rewrite negb_true_iff. reflexivity. Qed.

Definition valid (n : nat) (t : term) : Prop := forall j s, (j <= n)%nat -> rb j s -> holds s t.
Lemma valid_le n m t : (m <= n)%nat -> valid n t -> valid m t.
Proof. intros L H j s Hj. apply H. lia. Qed.
Definition relind (k : nat) (F : list elem) (t : term) : Prop := forall s s', kpath ts (lconj F) k s s' -> holds s' t.
Lemma kpath_mono K K' n s s' : (forall u, holds u K' -> holds u K) -> kpath ts K' n s s' -> kpath ts K n s s'.
Proof. intros H P. induction P as [|n s t u Hs St _ IH]; [constructor|]. econstructor; eauto. Qed.
Lemma kpath_suffix K a b s s' : kpath ts K (a + b) s s' -> exists t, kpath ts K b t s'.
Proof. revert s. induction a as [|a IH]; intros s H; cbn in H; [eauto|]. inversion H; subst. eauto. Qed.
Lemma steps_kpath K k : forall j t s, rb j t -> Steps ts k t s -> (forall i u, (i < j + k)%nat -> rb i u -> holds u K) -> kpath ts K k t s.
Proof.
  induction k as [|k IH]; intros j t s Hr H HK; inversion H as [|? ? u ? St Ss]; subst; [constructor|].
  econstructor; [apply (HK j t); [lia|exact Hr]|exact St|]. apply (IH (Datatypes.S j) u s); [apply (rb_step j t u Hr St)|exact Ss|].
  intros i w Hi0. apply HK. lia.
Qed.
Lemma relind_unsat k F f : sf f -> (forall e, In e F -> sf (el_lemma e)) ->
  unsat [ktransition c ts k; restriction c order F k; shift (Z.of_nat k) f] -> forall s s', kpath ts (lconj F) k s s' -> ~ holds s' f.
Proof.
  intros Sf SF U s s' P Hf. apply (kpath_seq ts) in P as [sq [E0 [E1 Hs]]].
  destruct (glue_seq ts wf k sq) as [r [R1 R2]]; [intros i Hi0; apply Hs, Hi0|].
  assert (Sl : sf (lconj F)).
  { apply sf_cand. intros t Ht. apply in_map_iff in Ht as [e [<- He]]. apply SF, Ho, He. }
  apply (U r). constructor; [|constructor; [|constructor; [|constructor]]].
  - unfold ktransition. apply (cand_sem c Hctors). apply Forall_trans_at. intros j Hj. apply R2. lia.
  - unfold restriction. apply (cand_sem c Hctors). apply Forall_trans_at. intros j Hj. apply (state_at ts r sq _ _ Sl R1). apply Hs. lia.
  - apply (state_at ts r sq _ _ Sf R1). rewrite E1. exact Hf.
Qed.

(** Elements: conditions that hold always, and those that depend on UNSAT answers. *)
Record egood (e : elem) : Prop := {
  eg_lemma : sf (el_lemma e);
  eg_ctx : sf (el_ctx e);
  eg_leads : forall s, holds s (el_ctx e) -> exists s', Steps ts (el_steps e) s s' /\ Bad ts s'
}.
Definition PA (F G q : list elem) : Prop := forall e, In e F \/ In e G \/ In e q -> egood e.
Record PB (n : nat) (F G q : list elem) (np : nat) : Prop := {
  pb_disj : forall e, In e F \/ In e G \/ In e q -> (forall s, holds s (el_lemma e) -> ~ holds s (el_ctx e)) /\ valid n (el_lemma e);
  pb_ind : forall e, In e G -> relind (n + 1) F (el_lemma e);
  pb_cov : forall e, In e F -> has q e = true \/ has G e = true \/ valid (np - 1) (el_lemma e);
  pb_query : exists e, (In e q \/ In e G) /\ forall s, Bad ts s -> holds s (el_ctx e);
  pb_np : (n + 1 <= np)%nat
}.

Lemma relind_mono k F F' t : (forall s, holds s (lconj F') -> holds s (lconj F)) -> relind k F t -> relind k F' t.
Proof. intros H R s s' P. apply (R s s'). apply (kpath_mono _ _ _ _ _ H P). Qed.
Lemma lconj_insert e F s : holds s (lconj (finsert e F)) -> holds s (lconj F).
Proof. rewrite !lconj_sem. intros H x Hx. apply H, finsert_in, Hx. Qed.

Lemma PB_prove n F G q' ob np : PB n F G (ob :: q') np -> relind (n + 1) F (el_lemma ob) -> PB n F (finsert ob G) q' np.
Proof.
  intros [P1 P2 P3 P4 P5] RI. split; [| | | |exact P5].
  - intros e [He|[He|He]]; apply P1; [auto| |right; right; right; exact He]. apply in_finsert in He as [->|He]; [right; right; left; reflexivity|auto].
  - intros e He. apply in_finsert in He as [->|He]; auto.
  - intros e He. destruct (P3 e He) as [H|[H|H]]; [|right; left; revert H; apply has_mono; intros; apply finsert_in; assumption|auto].
    apply has_spec in H as [x [[<-|Hx] E]]; [|left; apply has_spec; eauto]. right; left.
    pose proof (finsert_has ob G) as X. apply has_spec in X as [y [Hy Ey]]. apply has_spec. exists y. split; [exact Hy|]. destruct E, Ey. split; congruence.
  - destruct P4 as [e [[[<-|He]|He] Hb]]; [|eauto|exists e; split; [right; apply finsert_in, He|exact Hb]].
    pose proof (finsert_has ob G) as X. apply has_spec in X as [y [Hy [_ Ey]]]. exists y. split; [auto|]. intros s Hs. rewrite <- Ey. apply Hb, Hs.
Qed.

Lemma push_ok n fuel : forall F G q np R u res R' u',
  FI R -> PA F G q -> push_loop c check itp mbp order ts fuel n (n + 1) F G q np R u = (res, R', u') ->
  FI R' /\ (u' = false -> u = false) /\
  match res with PInvalid s => error_path ts s | PDone F' G' _ => PA F' G' [] | _ => True end /\
  (u' = false -> PB n F G q np -> match res with PDone F' G' np' => PB n F' G' [] np' | PExn => services_fail | _ => True end).
Proof.
  induction fuel as [|fuel IH]; intros F G q np R u res R' u' HF HA E; cbn [push_loop] in E; [injection E as <- <- <-; auto|].
  destruct q as [|ob q']; [injection E as <- <- <-; auto|].
  pose proof (HA ob (or_intror (or_intror (or_introl eq_refl)))) as [OL OC OS].
  assert (SF : forall e, In e F -> sf (el_lemma e)) by (intros e He; apply (eg_lemma e (HA e (or_introl He)))).
  assert (SN : sf (cnot c (el_lemma ob))) by (intros v Hv; apply OL, (cnot_vars c Hctors), Hv).
  destruct (check [ktransition c ts (n + 1); restriction c order F (n + 1); shift (Z.of_nat (n + 1)) (cnot c (el_lemma ob))]) as [m1| |] eqn:E1.
  - (* not inductive *)
    apply (check_sat _ Hc) in E1. apply Forall_cons_iff in E1 as [K1 E1]. apply Forall_cons_iff in E1 as [K2 E1]. apply Forall_inv in E1.
    assert (Second : forall u1, (u1 = false -> u = false /\ forall s s', kpath ts (lconj F) (n + 1) s s' -> ~ holds s' (el_ctx ob)) ->
      match mbp (cand c [ktransition c ts (n + 1); shift (Z.of_nat (n + 1)) (cnot c (el_lemma ob))]) (svars ts) m1 with
      | None => (PExn, R, u1)
      | Some g =>
        match check_reachability c check itp mbp ts (Datatypes.S fuel) (n + 1 - (n + 1)) n g R with
        | (RReach j, R') =>
            match check_reachability c check itp mbp ts (Datatypes.S fuel) (n + 1) (j + (n + 1)) (cnot c (el_lemma ob)) R' with
            | (RReach j', R'') =>
                let nob := mkElem (cnot c (el_ctx ob)) (el_ctx ob) (el_steps ob) in
                push_loop c check itp mbp order ts fuel n (n + 1) (finsert nob F) (finsert nob G) q' (Nat.min np j') R'' u1
            | (RUnreach _, R'') => (PExn, R'', u1)
            | (RExn, R'') => (PExn, R'', u1)
            | (RFuel, R'') => (PFuel, R'', u1)
            end
        | (RUnreach e, R') =>
            let nob := mkElem (cand c [el_lemma ob; e]) (el_ctx ob) (el_steps ob) in
            push_loop c check itp mbp order ts fuel n (n + 1) (ferase ob (finsert nob F)) G (q' ++ [nob]) np R' u1
        | (RExn, R') => (PExn, R', u1)
        | (RFuel, R') => (PFuel, R', u1)
        end
      end = (res, R', u') ->
      FI R' /\ (u' = false -> u = false) /\
      match res with PInvalid s => error_path ts s | PDone F' G' _ => PA F' G' [] | _ => True end /\
      (u' = false -> PB n F G (ob :: q') np -> match res with PDone F' G' np' => PB n F' G' [] np' | PExn => services_fail | _ => True end)).
    { clear E. intros u1 Hu1 E.
      assert (Hh : holds m1 (cand c [ktransition c ts (n + 1); shift (Z.of_nat (n + 1)) (cnot c (el_lemma ob))])) by (apply (cand_sem c Hctors); repeat constructor; assumption).
      destruct (mbp (cand c [ktransition c ts (n + 1); shift (Z.of_nat (n + 1)) (cnot c (el_lemma ob))]) (svars ts) m1) as [g|] eqn:Em.
      2:{ injection E as <- <- <-. split; [exact HF|]. split; [intros X; apply Hu1, X|]. split; [exact Logic.I|]. intros _ _. right; right; eauto. }
      destruct (mbp_ksteps (n + 1) _ m1 g ltac:(lia) Hh Em) as [Sg [Mg Hg]].
      destruct (check_reachability c check itp mbp ts (Datatypes.S fuel) (n + 1 - (n + 1)) n g R) as [a R1] eqn:Er.
      assert (Hr := check_reachability_ok (Datatypes.S fuel) (n + 1 - (n + 1)) n g R a R1 HF Sg ltac:(lia) Er). destruct Hr as [F1 Hr].
      destruct a as [j|e| |].
      - destruct (check_reachability c check itp mbp ts (Datatypes.S fuel) (n + 1) (j + (n + 1)) (cnot c (el_lemma ob)) R1) as [a R2] eqn:Er2.
        assert (Hr2 := check_reachability_ok (Datatypes.S fuel) (n + 1) (j + (n + 1)) _ R1 a R2 F1 SN ltac:(lia) Er2). destruct Hr2 as [F2 Hr2].
        destruct a as [j'|e| |].
        + cbv zeta in E. set (nob := mkElem (cnot c (el_ctx ob)) (el_ctx ob) (el_steps ob)) in *.
          assert (GN : egood nob) by (split; [intros v Hv; apply OC, (cnot_vars c Hctors), Hv|exact OC|exact OS]).
          assert (HA' : PA (finsert nob F) (finsert nob G) q').
          { intros x [Hx|[Hx|Hx]]; [apply in_finsert in Hx as [->|Hx]; auto|apply in_finsert in Hx as [->|Hx]; auto|apply HA; right; right; right; exact Hx]. }
          destruct (IH _ _ _ _ _ _ _ _ _ F2 HA' E) as [H1 [H2 [H3 H4]]]. split; [exact H1|]. split; [intros X; apply Hu1, H2, X|]. split; [exact H3|].
          intros Hu P. apply H4; [exact Hu|]. destruct (Hu1 (H2 Hu)) as [_ Wk]. destruct P as [P1 P2 P3 P4 P5].
          destruct (P1 ob (or_intror (or_intror (or_introl eq_refl)))) as [D1 V1]. destruct Hr2 as [B2 [_ U2]].
          assert (DN : (forall s, holds s (el_lemma nob) -> ~ holds s (el_ctx nob)) /\ valid n (el_lemma nob)).
          { split; [intros s Hs; cbn [nob el_lemma el_ctx] in *; apply (cnot_sem c Hctors), Hs|]. intros i s Hi0 Hs. apply (cnot_sem c Hctors), D1, (V1 i s Hi0 Hs). }
          assert (V2 : valid (j' - 1) (el_lemma ob)).
          { destruct (Nat.eq_dec j' (n + 1)) as [->|Nj]; [replace (n + 1 - 1)%nat with n by lia; exact V1|].
            assert (X := U2 ltac:(lia)). intros i s Hi0 Hs. destruct (holds_dec s (el_lemma ob)) as [H|H]; [exact H|]. exfalso. apply (X i s Hi0 Hs). apply (cnot_sem c Hctors), H. }
          split.
          * intros x [Hx|[Hx|Hx]]; [apply in_finsert in Hx as [->|Hx]; auto|apply in_finsert in Hx as [->|Hx]; auto|apply P1; right; right; right; exact Hx].
          * intros x Hx. apply (relind_mono _ F); [apply lconj_insert|]. apply in_finsert in Hx as [->|Hx]; [|apply P2, Hx].
            intros s s' Pt. apply (cnot_sem c Hctors). apply (Wk s s' Pt).
          * intros x Hx. apply in_finsert in Hx as [->|Hx]; [right; left; apply finsert_has|].
            destruct (P3 x Hx) as [X|[X|X]].
            -- apply has_spec in X as [y [[<-|Hy] [Ey1 Ey2]]].
               ++ right; right. rewrite Ey1. apply (valid_le (j' - 1)); [lia|exact V2].
               ++ left. apply has_spec. eauto.
            -- right; left. revert X. apply has_mono. intros; apply finsert_in; assumption.
            -- right; right. apply (valid_le (np - 1)); [lia|exact X].
          * destruct P4 as [x [[[<-|Hx]|Hx] Hb]].
            -- pose proof (finsert_has nob G) as X. apply has_spec in X as [y [Hy [_ Ey]]]. exists y. split; [auto|]. intros s Hs. rewrite <- Ey. apply Hb, Hs.
            -- exists x. auto.
            -- exists x. split; [right; apply finsert_in, Hx|exact Hb].
          * lia.
        + injection E as <- <- <-. split; [exact F2|]. split; [intros X; apply Hu1, X|]. split; [exact Logic.I|]. intros _ _. exfalso.
          destruct Hr as [_ [[s [Hs Hgs]] _]]. destruct (Hg s Hgs) as [s1 [St1 H1]]. apply (expl_unreach _ _ _ Hr2 (j + (n + 1))%nat s1); [lia|apply (rb_steps j (n + 1) s s1 Hs St1)|exact H1].
        + injection E as <- <- <-. split; [exact F2|]. split; [intros X; apply Hu1, X|]. split; [exact Logic.I|]. intros _ [P1 _ _ _ _]. apply Hr2.
          destruct (P1 ob (or_intror (or_intror (or_introl eq_refl)))) as [_ V1]. intros i s Hi0 Hs Hn. apply (cnot_sem c Hctors) in Hn. apply Hn, (V1 i s); [lia|exact Hs].
        + injection E as <- <- <-. split; [exact F2|]. split; [intros X; apply Hu1, X|]. auto.
      - cbv zeta in E. set (nob := mkElem (cand c [el_lemma ob; e]) (el_ctx ob) (el_steps ob)) in *. destruct Hr as [Se [V D]].
        assert (GN : egood nob).
        { split; [|exact OC|exact OS]. apply sf_cand. intros t [<-|[<-|[]]]; assumption. }
        assert (HA' : PA (ferase ob (finsert nob F)) G (q' ++ [nob])).
        { intros x [Hx|[Hx|Hx]]; [apply in_ferase in Hx as [Hx _]; apply in_finsert in Hx as [->|Hx]; auto|auto|]. apply in_app_or in Hx as [Hx|[<-|[]]]; [apply HA; right; right; right; exact Hx|exact GN]. }
        destruct (IH _ _ _ _ _ _ _ _ _ F1 HA' E) as [H1 [H2 [H3 H4]]]. split; [exact H1|]. split; [intros X; apply Hu1, H2, X|]. split; [exact H3|].
        intros Hu P. apply H4; [exact Hu|]. destruct P as [P1 P2 P3 P4 P5].
        destruct (P1 ob (or_intror (or_intror (or_introl eq_refl)))) as [D1 V1].
        assert (DN : (forall s, holds s (el_lemma nob) -> ~ holds s (el_ctx nob)) /\ valid n (el_lemma nob)).
        { split.
          - intros s Hs. cbn [nob el_lemma el_ctx] in *. rewrite cand_forall in Hs. apply D1, Hs. left; reflexivity.
          - intros i s Hi0 Hs. cbn [nob el_lemma]. apply cand_forall. intros t [<-|[<-|[]]]; [apply (V1 i s Hi0 Hs)|apply (V i s Hi0 Hs)]. }
        assert (Mono : forall s, holds s (lconj (ferase ob (finsert nob F))) -> holds s (lconj F)).
        { intros s Hs. rewrite lconj_sem in Hs |- *. intros x Hx. destruct (elem_eqb ob x) eqn:Ex.
          - apply elem_eqb_spec in Ex as [Ex1 Ex2]. destruct (elem_eqb ob nob) eqn:En.
            + exfalso. apply elem_eqb_spec in En as [En _]. cbn [nob el_lemma] in En.
              (* the model satisfies the lemma and the projection *)
              assert (M0 : holds m1 (el_lemma ob)).
              { unfold restriction in K2. rewrite (cand_sem c Hctors) in K2. rewrite Forall_trans_at in K2. specialize (K2 0%nat ltac:(lia)). cbn [Z.of_nat] in K2. rewrite shift_0 in K2.
                rewrite lconj_sem in K2. rewrite Ex1. apply K2, Hx. }
              rewrite En in M0. rewrite cand_forall in M0. apply (D m1); [apply M0; right; left; reflexivity|exact Mg].
            + pose proof (finsert_has nob F) as X. apply has_spec in X as [y [Hy [Ey1 Ey2]]].
              assert (Hy' : In y (ferase ob (finsert nob F))).
              { apply in_ferase. split; [exact Hy|]. destruct (elem_eqb ob y) eqn:Eq; [|reflexivity]. apply elem_eqb_spec in Eq as [Q1 Q2].
                assert (elem_eqb ob nob = true) by (apply elem_eqb_spec; split; congruence). congruence. }
              specialize (Hs y Hy'). rewrite <- Ey1 in Hs. cbn [nob el_lemma] in Hs. rewrite cand_forall in Hs. rewrite <- Ex1. apply Hs. left; reflexivity.
          - apply Hs, in_ferase. split; [apply finsert_in, Hx|exact Ex]. }
        split.
        + intros x [Hx|[Hx|Hx]]; [apply in_ferase in Hx as [Hx _]; apply in_finsert in Hx as [->|Hx]; auto|auto|]. apply in_app_or in Hx as [Hx|[<-|[]]]; [apply P1; right; right; right; exact Hx|exact DN].
        + intros x Hx. apply (relind_mono _ F); [exact Mono|apply P2, Hx].
        + intros x Hx. apply in_ferase in Hx as [Hx Ne]. apply in_finsert in Hx as [->|Hx]; [left; apply in_has, in_app_iff; right; left; reflexivity|].
          destruct (P3 x Hx) as [X|X]; [left|right; exact X]. apply has_spec in X as [y [[<-|Hy] [Ey1 Ey2]]].
          * exfalso. assert (elem_eqb ob x = true) by (apply elem_eqb_spec; split; congruence). congruence.
          * apply has_spec. exists y. split; [apply in_app_iff; left; exact Hy|auto].
        + destruct P4 as [x [[[<-|Hx]|Hx] Hb]]; [exists nob|exists x|exists x]; (split; [|exact Hb]); [left; apply in_app_iff; right; left; reflexivity|left; apply in_app_iff; left; exact Hx|right; exact Hx].
        + exact P5.
      - injection E as <- <- <-. split; [exact F1|]. split; [intros X; apply Hu1, X|]. split; [exact Logic.I|]. intros _ _. apply Hr. intros j s Hj. lia.
      - injection E as <- <- <-. split; [exact F1|]. split; [intros X; apply Hu1, X|]. auto. }
    destruct (check [ktransition c ts (n + 1); restriction c order F (n + 1); shift (Z.of_nat (n + 1)) (el_ctx ob)]) as [m2| |] eqn:E2.
    + apply (check_sat _ Hc) in E2. apply Forall_cons_iff in E2 as [K1b E2]. apply Forall_cons_iff in E2 as [_ E2]. apply Forall_inv in E2.
      assert (Hh : holds m2 (cand c [ktransition c ts (n + 1); shift (Z.of_nat (n + 1)) (el_ctx ob)])) by (apply (cand_sem c Hctors); repeat constructor; assumption).
      destruct (mbp (cand c [ktransition c ts (n + 1); shift (Z.of_nat (n + 1)) (el_ctx ob)]) (svars ts) m2) as [g|] eqn:Em.
      2:{ injection E as <- <- <-. split; [exact HF|]. split; [auto|]. split; [exact Logic.I|]. intros _ _. right; right; eauto. }
      destruct (mbp_ksteps (n + 1) _ m2 g ltac:(lia) Hh Em) as [Sg [_ Hg]].
      destruct (check_reachability c check itp mbp ts (Datatypes.S fuel) (n + 1 - (n + 1)) n g R) as [a R1] eqn:Er.
      assert (Hr := check_reachability_ok (Datatypes.S fuel) (n + 1 - (n + 1)) n g R a R1 HF Sg ltac:(lia) Er). destruct Hr as [F1 Hr].
      destruct a as [j|e| |].
      * injection E as <- <- <-. split; [exact F1|]. split; [auto|]. split; [|auto].
        destruct Hr as [_ [[s [Hs Hgs]] _]]. destruct (Hg s Hgs) as [s1 [St1 H1]]. destruct (OS s1 H1) as [s2 [St2 B]].
        destruct Hs as [s0 [I St0]]. exists s0, s2. split; [exact I|]. split; [|exact B].
        replace (el_steps ob + (n + 1) + j)%nat with (j + ((n + 1) + el_steps ob))%nat by lia. eapply Steps_app; [exact St0|]. eapply Steps_app; eauto.
      * set (nob := mkElem e g (el_steps ob + (n + 1))) in *. destruct Hr as [Se [V D]].
        assert (GN : egood nob).
        { split; [exact Se|exact Sg|]. intros s Hs. cbn [el_ctx el_steps nob] in *. destruct (Hg s Hs) as [s1 [St1 H1]]. destruct (OS s1 H1) as [s2 [St2 B]].
          exists s2. split; [|exact B]. rewrite Nat.add_comm. eapply Steps_app; eauto. }
        assert (HA' : PA (finsert nob F) G (q' ++ [nob; ob])).
        { intros x [Hx|[Hx|Hx]]; [apply in_finsert in Hx as [->|Hx]; [exact GN|auto]|auto|]. apply in_app_or in Hx as [Hx|[<-|[<-|[]]]]; [apply HA; right; right; right; exact Hx|exact GN|split; assumption]. }
        destruct (IH _ _ _ _ _ _ _ _ _ F1 HA' E) as [H1 [H2 [H3 H4]]]. split; [exact H1|]. split; [exact H2|]. split; [exact H3|]. intros Hu [P1 P2 P3 P4 P5]. apply H4; [exact Hu|]. split.
        -- assert (DN : (forall s, holds s (el_lemma nob) -> ~ holds s (el_ctx nob)) /\ valid n (el_lemma nob)) by (split; [exact D|exact V]).
           intros x [Hx|[Hx|Hx]]; [apply in_finsert in Hx as [->|Hx]; [exact DN|auto]|auto|]. apply in_app_or in Hx as [Hx|[<-|[<-|[]]]]; [apply P1; right; right; right; exact Hx|exact DN|apply P1; right; right; left; reflexivity].
        -- intros x Hx. apply (relind_mono _ F); [apply lconj_insert|apply P2, Hx].
        -- intros x Hx. apply in_finsert in Hx as [->|Hx]; [left; apply in_has, in_app_iff; right; left; reflexivity|].
           destruct (P3 x Hx) as [X|X]; [left|right; exact X]. revert X. apply has_mono. intros y [<-|Hy]; apply in_app_iff; [right; right; left; reflexivity|left; exact Hy].
        -- destruct P4 as [x [[[<-|Hx]|Hx] Hb]]; [exists ob|exists x|exists x]; (split; [|exact Hb]); [left; apply in_app_iff; right; right; left; reflexivity|left; apply in_app_iff; left; exact Hx|right; exact Hx].
        -- exact P5.
      * injection E as <- <- <-. split; [exact F1|]. split; [auto|]. split; [exact Logic.I|]. intros _ _. apply Hr. intros j s Hj. lia.
      * injection E as <- <- <-. auto.
    + apply (Second (u || is_unknown UNSAT)%bool); [|exact E]. intros Hu. split; [destruct u; [discriminate|reflexivity]|].
      apply relind_unsat; [exact OC|exact SF|apply (check_unsat _ Hc), E2].
    + apply (Second (u || is_unknown UNKNOWN)%bool); [|exact E]. intros Hu. destruct u; discriminate.
  - apply (check_unsat _ Hc) in E1.
    assert (HA' : PA F (finsert ob G) q').
    { intros x [Hx|[Hx|Hx]]; [auto| |apply HA; right; right; right; exact Hx]. apply in_finsert in Hx as [->|Hx]; [split; assumption|auto]. }
    destruct (IH _ _ _ _ _ _ _ _ _ HF HA' E) as [H1 [H2 [H3 H4]]]. split; [exact H1|]. split; [exact H2|]. split; [exact H3|]. intros Hu P. apply H4; [exact Hu|]. apply PB_prove; [exact P|].
    intros s s' Pt. destruct (holds_dec s' (el_lemma ob)) as [H|H]; [exact H|]. exfalso. apply (relind_unsat (n + 1) F _ SN SF E1 s s' Pt). apply (cnot_sem c Hctors), H.
  - injection E as <- <- <-. split; [exact HF|]. split; [auto|]. split; [exact Logic.I|]. intros _ _. left. eauto.
Qed.

(** After a round with an empty queue. *)
Lemma round_valid n F G np : PB n F G [] np -> forall e, In e G -> valid np (el_lemma e).
Proof.
  intros [P1 P2 P3 _ P5]. 
  assert (X : forall j, (j <= np)%nat -> forall e s, In e G -> rb j s -> holds s (el_lemma e)).
  { induction j as [j IH] using lt_wf_ind. intros Hj e s He Hr. destruct (le_lt_dec j n) as [L|L]; [apply (proj2 (P1 e (or_intror (or_introl He))) j s L Hr)|].
    replace j with ((j - (n + 1)) + (n + 1))%nat in Hr by lia. apply rb_split in Hr as [t [Ht St]]. apply (P2 e He t s).
    apply (steps_kpath _ (n + 1) (j - (n + 1)) t s Ht St). intros i w Hi0 Hw. apply lconj_sem. intros x Hx. destruct (P3 x Hx) as [Y|[Y|Y]].
    - discriminate Y.
    - apply has_spec in Y as [y [Hy [Ey _]]]. rewrite Ey. apply (IH i); [lia|lia|exact Hy|exact Hw].
    - apply (Y i w); [lia|exact Hw]. }
  intros e He j s Hj Hr. apply (X j Hj e s He Hr).
Qed.
Lemma round_fixed n F G np : PB n F G [] np -> fequal F G = true ->
  (forall j s, rb j s -> holds s (lconj F)) /\ (forall s s', kpath ts (lconj F) (n + 1) s s' -> holds s' (lconj F)) /\ (forall s, holds s (lconj F) -> ~ Bad ts s).
Proof.
  intros P E. unfold fequal in E. apply andb_prop in E as [E1 E2]. rewrite forallb_forall in E1, E2. destruct P as [P1 P2 P3 P4 P5].
  assert (K : forall s s', kpath ts (lconj F) (n + 1) s s' -> holds s' (lconj F)).
  { intros s s' Pt. apply lconj_sem. intros e He. specialize (E1 e He). apply has_spec in E1 as [y [Hy [Ey _]]]. rewrite Ey. apply (P2 y Hy s s' Pt). }
  split; [|split; [exact K|]].
  - induction j as [j IH] using lt_wf_ind. intros s Hr. destruct (le_lt_dec j n) as [L|L].
    + apply lconj_sem. intros e He. apply (proj2 (P1 e (or_introl He)) j s L Hr).
    + replace j with ((j - (n + 1)) + (n + 1))%nat in Hr by lia. apply rb_split in Hr as [t [Ht St]]. apply (K t s).
      apply (steps_kpath _ (n + 1) (j - (n + 1)) t s Ht St). intros i w Hi0 Hw. apply (IH i); [lia|exact Hw].
  - intros s Hs B. destruct P4 as [e [[[]|He] Hb]]. specialize (E2 e He). apply has_spec in E2 as [y [Hy [Ey1 Ey2]]].
    rewrite lconj_sem in Hs. specialize (Hs y Hy). rewrite <- Ey1 in Hs. apply (proj1 (P1 e (or_intror (or_introl He))) s Hs). apply Hb, B.
Qed.

(** What is known at the start of a round. *)
Definition start (n : nat) (F : list elem) : Prop :=
  (forall e, In e F -> (forall s, holds s (el_lemma e) -> ~ holds s (el_ctx e)) /\ valid n (el_lemma e)) /\
  exists e, In e F /\ forall s, Bad ts s -> holds s (el_ctx e).
Lemma start_PB n F : start n F -> PB n F [] (order F) (n + (n + 1)).
Proof.
  intros [S1 S2]. split.
  - intros e [He|[[]|He]]; apply S1; [exact He|apply Ho, He].
  - intros e [].
  - intros e He. left. apply in_has, Ho, He.
  - destruct S2 as [e [He Hb]]. exists e. split; [left; apply Ho, He|exact Hb].
  - lia.
Qed.
Lemma PB_start n F G np : PB n F G [] np -> start np G.
Proof.
  intros P. pose proof (round_valid n F G np P) as V. destruct P as [P1 P2 P3 P4 P5]. split.
  - intros e He. split; [apply (proj1 (P1 e (or_intror (or_introl He))))|apply V, He].
  - destruct P4 as [e [[[]|He] Hb]]. eauto.
Qed.

Variable computeWitness : bool.
Definition answer_ok (v : verdict) : Prop :=
  match v with
  | Safe inv => safe ts /\ (computeWitness = true -> pitp_ok pitp -> no_aux ts = true -> safe_inductive ts inv)
  | Exn => services_fail \/ exists As, pitp As = None
  | _ => True
  end.
Lemma pdk_loop_ok fuel : forall n F R u v u', FI R -> (forall e, In e F -> egood e) -> pdk_loop c check itp pitp mbp order computeWitness ts fuel n F R u = (v, u') ->
  (forall k, v = Unsafe k -> error_path ts k) /\ (u' = false -> u = false /\ (start n F -> answer_ok v)).
Proof.
  induction fuel as [|fuel IH]; intros n F R u v u' HF HG E; [injection E as <- <-; split; [discriminate|split; [auto|intros; exact Logic.I]]|].
  cbn [pdk_loop] in E.
  destruct (push_loop c check itp mbp order ts (Datatypes.S fuel) n (n + 1) F [] (order F) (n + (n + 1)) R u) as [[res R1] u1] eqn:Ep.
  assert (HA : PA F [] (order F)) by (intros e [He|[[]|He]]; apply HG; [exact He|apply Ho, He]).
  destruct (push_ok n (Datatypes.S fuel) _ _ _ _ _ _ _ _ _ HF HA Ep) as [F1 [U1 [H1 H2]]].
  destruct res as [s|F' G' np| |].
  - injection E as <- <-. split; [intros k X; injection X as <-; exact H1|]. intros Hu. split; [auto|]. intros _. exact Logic.I.
  - destruct (fequal F' G') eqn:Ef.
    + assert (SAFE : u1 = false -> start n F -> safe ts /\ kinductive ts (lconj F') np /\ forall s, holds s (lconj F') -> ~ Bad ts s).
      { intros Hu St. pose proof (H2 Hu (start_PB n F St)) as P. destruct (round_fixed n F' G' np P Ef) as [V [K B]]. split; [|split; [|exact B]].
        - intros j [s0 [s [I0 [St0 Bd]]]]. apply (B s); [apply (V j s); exists s0; auto|exact Bd].
        - split.
          + apply sf_cand. intros t Ht. apply in_map_iff in Ht as [e [<- He]]. apply (eg_lemma e (H1 e (or_introl (proj1 (Ho _ _) He)))).
          + intros i s s' _ I0 St0. apply (V i s'). exists s; auto.
          + intros s s' Pt. pose proof (pb_np _ _ _ _ _ P) as Np. replace np with ((np - (n + 1)) + (n + 1))%nat in Pt by lia. apply kpath_suffix in Pt as [t Pt]. apply (K t s' Pt). }
      destruct computeWitness eqn:Ecw.
      * destruct (get_invariant c check pitp order ts F' np) as [i|] eqn:Eg; injection E as <- <-; (split; [discriminate|]); intros Hu; (split; [auto|]); intros St; destruct (SAFE Hu St) as [S1 [S2 S3]].
        -- split; [exact S1|]. intros _ Hp na. unfold get_invariant in Eg. pose proof (kinductive_to_inductive_ok check pitp _ np ts i Hc Hp wf na S2 Eg) as [I1 I2 I3 I4].
           split; auto.
        -- unfold get_invariant, kinductive_to_inductive in Eg. destruct (Nat.eqb np 1); [discriminate|].
           apply (KTo1Proofs2.single_query_throw ts (lconj F') np S2 check pitp Hc) in Eg. destruct Eg as [Eg|Eg]; [left; left; eauto|right; eauto].
      * injection E as <- <-. split; [discriminate|]. intros Hu. split; [auto|]. intros St. destruct (SAFE Hu St) as [S1 _]. split; [exact S1|]. intros X. congruence.
    + assert (HG' : forall e, In e G' -> egood e) by (intros e He; apply H1; auto).
      destruct (IH np G' R1 u1 v u' F1 HG' E) as [A B]. split; [exact A|]. intros Hu. destruct (B Hu) as [B1 B2]. split; [auto|]. intros St. apply B2, (PB_start n F' G' np).
      apply (H2 B1 (start_PB n F St)).
  - injection E as <- <-. split; [discriminate|]. intros Hu. split; [auto|]. intros St. left. apply (H2 Hu (start_PB n F St)).
  - injection E as <- <-. split; [discriminate|]. intros Hu. split; [auto|]. intros St. exact Logic.I.
Qed.

Theorem pdkind_ok fuel v u : pdkind c check itp pitp mbp order computeWitness ts fuel = (v, u) ->
  (forall k, v = Unsafe k -> error_path ts k) /\ (u = false -> answer_ok v).
Proof.
  assert (Loop : forall a, (a = UNSAT \/ a = UNKNOWN) -> (a = UNSAT -> unsat [tinit ts; tquery ts]) ->
     pdk_loop c check itp pitp mbp order computeWitness ts fuel 0 [mkElem (cnot c (tquery ts)) (tquery ts) 0] (fun _ => []) (is_unknown a) = (v, u) ->
     (forall k, v = Unsafe k -> error_path ts k) /\ (u = false -> answer_ok v)).
  { intros a Ha Hun E. destruct (pdk_loop_ok fuel 0%nat [mkElem (cnot c (tquery ts)) (tquery ts) 0] (fun _ => []) (is_unknown a) v u) as [A B]; [| |exact E|].
    - intros j e [].
    - intros e [<-|[]]. split; cbn; [intros x Hx; apply Hq, (cnot_vars c Hctors), Hx|exact Hq|].
      intros s Hs. exists s. split; [constructor|]. exists s. split; [intros x _; reflexivity|exact Hs].
    - split; [exact A|]. intros Hu. destruct (B Hu) as [B1 B2]. apply B2. destruct Ha as [->| ->]; [|discriminate B1]. specialize (Hun eq_refl). split.
      + intros e [<-|[]]. cbn [el_lemma el_ctx]. split; [intros s Hs; apply (cnot_sem c Hctors), Hs|].
        intros j s Hj Hr. assert (j = 0)%nat by lia. subst j. apply rb_0 in Hr as [r [Ag Hr]]. apply (cnot_sem c Hctors). intros Hs.
        apply (Hun r). constructor; [exact Hr|constructor; [|constructor]]. apply (state_formula_holds ts _ r s Hq Ag), Hs.
      + exists (mkElem (cnot c (tquery ts)) (tquery ts) 0). split; [left; reflexivity|]. intros s [r [Ag Hr]]. cbn. apply (state_formula_holds ts _ r s Hq Ag), Hr. }
  intros E. unfold pdkind in E.
  assert (E0 : check [tinit ts] = UNSAT -> (Safe tt_false, false) = (v, u) -> (forall k, v = Unsafe k -> error_path ts k) /\ (u = false -> answer_ok v)).
  { intros EI X. injection X as <- <-. split; [discriminate|]. intros _. apply (check_unsat _ Hc) in EI.
    assert (SI : safe_inductive ts tt_false).
    { split; [intros x []| | |].
      - intros s [r [Ag Hr]]. exfalso. apply (EI r). constructor; [exact Hr|constructor].
      - intros s s' Hs. exfalso. exact (holds_false s Hs).
      - intros s Hs. exfalso. exact (holds_false s Hs). }
    split; [eapply safe_inductive_safe; eauto|auto]. }
  assert (Rest : (match check [tinit ts; tquery ts] with
    | SAT _ => (Unsafe 0, false)
    | a => pdk_loop c check itp pitp mbp order computeWitness ts fuel 0 [mkElem (cnot c (tquery ts)) (tquery ts) 0] (fun _ => []) (is_unknown a)
    end) = (v, u) -> (forall k, v = Unsafe k -> error_path ts k) /\ (u = false -> answer_ok v)).
  { destruct (check [tinit ts; tquery ts]) as [m| |] eqn:Eq; intros X.
    - injection X as <- <-. split; [|intros; exact Logic.I]. intros k X. injection X as <-. apply (check_sat _ Hc) in Eq. apply Forall_cons_iff in Eq as [Q1 Q2]. apply Forall_inv in Q2.
      exists m, m. split; [exists m; split; [intros x _; reflexivity|exact Q1]|]. split; [constructor|]. exists m. split; [intros x _; reflexivity|exact Q2].
    - apply (Loop UNSAT); auto. intros _. apply (check_unsat _ Hc), Eq.
    - apply (Loop UNKNOWN); auto. discriminate. }
  destruct (check [tinit ts]) eqn:EI; [apply Rest, E|apply E0; [reflexivity|exact E]|apply Rest, E].
Qed.
End P.
