(** * Proofs about the witness validator. *)
From Verif Require Import Syntax Solver Graph ValidatorModel FormulaProofs3.
Open Scope nat_scope.

Section V.
Variable check : check_fn.
Hypothesis Hc : check_ok check.
Variable g : hgraph.

Lemma body_parts_ok w l ps : body_parts w l = Some ps ->
  (forall p i, In (p, i) l -> wlookup w p <> None) /\
  forall r, Forall (holds r) ps <-> (forall p i d, In (p, i) l -> wlookup w p = Some d -> holds r (rename (src i) d)).
Proof.
  revert ps. induction l as [|[p i] l IH]; intros ps; simpl.
  - intros E. injection E as <-. split; [intros ? ? []|]. intros r. split; [intros _ ? ? ? []|constructor].
  - destruct (wlookup w p) as [d|] eqn:Ed; [|discriminate].
    destruct (body_parts w l) as [qs|]; [|discriminate]. intros E. injection E as <-.
    destruct (IH qs eq_refl) as [N H]. split.
    + intros q j [E|Hin]; [inversion E; subst; congruence|eauto].
    + intros r. rewrite Forall_cons_iff, H. split.
      * intros [H1 H2] q j d' [E|Hin] Hd; [inversion E; subst q j; rewrite Ed in Hd; inversion Hd; subst; exact H1|eauto].
      * intros H'. split; [apply (H' p i d); auto|]. intros q j d' Hin. apply H'. auto.
Qed.

Definition as_defs (w : list (sym * term)) : defs_t := wlookup w.

Lemma wlookup_in w p d : wlookup w p = Some d -> In (p, d) w.
Proof.
  induction w as [|[q e] w IH]; simpl; [discriminate|]. destruct (Nat.eqb_spec q p) as [->|].
  - intros E. injection E as ->. auto.
  - auto.
Qed.

Lemma validated_edges w : validate_validity check g w = VALIDATED ->
  (forall p d, as_defs w p = Some d -> forall v, In v (vars d) -> In v (gpv g p)) /\
  forall e, In e (gedges g) ->
      (forall p, In p (efrom e) -> as_defs w p <> None) /\
      exists dt, as_defs w (eto e) = Some dt /\
        forall r, holds r (efla e) ->
          (forall p i d, In (p, i) (instances (efrom e)) -> as_defs w p = Some d -> holds r (rename (src i) d)) ->
          holds r (rename tgt dt).
Proof.
  unfold validate_validity. destruct (forallb (def_vars_ok g) w && forallb (edge_valid check w) (gedges g)) eqn:E; [|discriminate].
  intros _. apply andb_true_iff in E as [E1 E2]. rewrite forallb_forall in E1, E2. split.
  - intros p d Hd v Hv. apply wlookup_in in Hd. specialize (E1 _ Hd). unfold def_vars_ok in E1. simpl in E1.
    rewrite forallb_forall in E1. apply inb_true. apply E1, Hv.
  - intros e He. specialize (E2 e He). unfold edge_valid, edge_query in E2.
    destruct (body_parts w (instances (efrom e))) as [ps|] eqn:Eb; [|discriminate].
    destruct (wlookup w (eto e)) as [dt|] eqn:Et; [|discriminate].
    destruct (body_parts_ok w _ ps Eb) as [N H]. split.
    + intros p Hp. destruct (instances_in _ _ Hp) as [i Hi]. exact (N p i Hi).
    + exists dt. split; [exact Et|]. intros r Hl Hb.
      destruct (check _) as [| |] eqn:Ec; try discriminate.
      apply (check_unsat _ Hc) in Ec.
      destruct (holdsb r (rename tgt dt)) eqn:Eh; [exact Eh|exfalso]. apply (Ec r).
      constructor; [|constructor]. apply holds_and. constructor; [|constructor; [|constructor]].
      * apply holds_and. constructor; [exact Hl|]. apply H. exact Hb.
      * apply holds_not. unfold holds. rewrite Eh. discriminate.
Qed.

Lemma validated_solution w d0 d1 : validate_validity check g w = VALIDATED ->
  wlookup w entry = Some d0 -> (forall r, holds r d0) ->
  wlookup w exit = Some d1 -> (forall r, ~ holds r d1) ->
  solution g (as_defs w).
Proof.
  intros V E0 T0 E1 T1. destruct (validated_edges w V) as [A B]. split; eauto.
Qed.

(** ** Derivations *)
Definition fits (vs : list var) (vals : list value) : Prop := Forall2 (fun v x => sort_of x = vsort v) vs vals.

Lemma fill_well_sorted vs f : fits vs (snd f) -> forall k u, In (k, u) (fill vs f) -> exists x, u = Const x /\ sort_of x = vsort k.
Proof.
  unfold fill, fits. destruct f as [p xs]. simpl. intros H. induction H as [|v x vs xs E H IH]; simpl; [intros ? ? []|].
  intros k u [E'|Hin]; [inversion E'; subst; eauto|eauto].
Qed.
Lemma fill_keys vs f : fits vs (snd f) -> map fst (fill vs f) = vs.
Proof.
  unfold fill, fits. destruct f as [p xs]. simpl. intros H. induction H; simpl; congruence.
Qed.

Lemma lookup_app_l v a b u : lookup v a = Some u -> lookup v (a ++ b) = Some u.
Proof.
  induction a as [|[w t] a IH]; simpl; [discriminate|]. destruct (var_eqb v w); auto.
Qed.
Lemma lookup_app_r v a b : lookup v a = None -> lookup v (a ++ b) = lookup v b.
Proof.
  induction a as [|[w t] a IH]; simpl; [reflexivity|]. destruct (var_eqb v w); [discriminate|auto].
Qed.

Lemma args_fill r vs f : NoDup vs -> fits vs (snd f) -> args (upd r (fill vs f)) vs = snd f.
Proof.
  intros N H. destruct f as [p xs]. unfold fits in H. simpl in *.
  enough (G : forall pre preval, NoDup (pre ++ vs) -> length pre = length preval ->
     args (upd r (combine (pre ++ vs) (map Const (preval ++ xs)))) vs = xs) by (apply (G [] []); auto).
  clear N. induction H as [|v x vs xs E H IH]; intros pre preval N L; [reflexivity|].
  unfold args. cbn [map]. f_equal.
  - unfold upd. simpl.
    assert (Hl : lookup v (combine (pre ++ v :: vs) (map Const (preval ++ x :: xs))) = Some (Const x)).
    { clear IH. revert preval L N. induction pre as [|q pre IHp]; intros [|y preval] L N; try discriminate; simpl.
      - rewrite var_eqb_refl. reflexivity.
      - inversion N as [|? ? Hn N']; subst. destruct (var_eqb_spec v q) as [->|].
        + exfalso. apply Hn. apply in_or_app. simpl. auto.
        + apply IHp; auto. }
    rewrite Hl. simpl. apply coerce_id. exact E.
  - specialize (IH (pre ++ [v]) (preval ++ [x])). rewrite <- !app_assoc in IH. simpl in IH.
    unfold args in IH. apply IH; [exact N|rewrite !app_length; simpl; lia].
Qed.

Lemma args_upd_app_l r a b vs : (forall v, In v vs -> lookup v a <> None) -> args (upd r (a ++ b)) vs = args (upd r a) vs.
Proof.
  intros H. apply args_agree. intros v Hv. unfold upd. specialize (H v Hv).
  destruct (lookup v a) as [u|] eqn:E; [|congruence]. rewrite (lookup_app_l v a b u E). reflexivity.
Qed.
Lemma args_upd_app_r r a b vs : (forall v, In v vs -> lookup v a = None) -> args (upd r (a ++ b)) vs = args (upd r b) vs.
Proof.
  intros H. apply args_agree. intros v Hv. unfold upd. rewrite lookup_app_r by (apply H, Hv). reflexivity.
Qed.

(** The shape golem only asserts in debug builds (src/Validator.cc:99-103, 105): premises
    have the symbols of the clause's sources, facts have arguments of the right sorts; and, not checked
    anywhere, premises are earlier steps. *)
Record shaped (d : derivation) (i : nat) (s : step) (e : hedge) (ps : list step) : Prop := {
  sh_edge : find_edge g (st_clause s) = Some e;
  sh_prems : Forall2 (fun k p => k < i /\ nth_error d k = Some p) (st_premises s) ps;
  sh_syms : map (fun p => fst (st_fact p)) ps = efrom e;
  sh_args : Forall2 (fun pi p => fits (src_vars g pi) (snd (st_fact p))) (instances (efrom e)) ps;
  sh_tgt : fst (st_fact s) = eto e;
  sh_targs : fits (tgt_vars g (eto e)) (snd (st_fact s))
}.

Hypothesis Hrep : rep_wf (gpv g).

Lemma premise_subst_ok d i l ks ps m : premise_subst g d l ks = Some m -> NoDup l ->
  Forall2 (fun k p => k < i /\ nth_error d k = Some p) ks ps ->
  Forall2 (fun pi p => fits (src_vars g pi) (snd (st_fact p))) l ps ->
  (forall v, In v (map fst m) <-> exists pi, In pi l /\ In v (src_vars g pi)) /\
  (forall k u, In (k, u) m -> exists x, u = Const x /\ sort_of x = vsort k) /\
  forall r, Forall2 (fun pi p => args (upd r m) (src_vars g pi) = snd (st_fact p)) l ps.
Proof.
  intros E N F F2. revert ks ps m E F F2. induction l as [|pi l IH]; intros ks ps m E F F2.
  - inversion F2; subst. simpl in E. injection E as <-. split; [|split].
    + intros v. simpl. split; [tauto|]. intros [? [[] _]].
    + intros ? ? [].
    + intros r. constructor.
  - inversion F2 as [|? p ? ps' Hf F2' X1 X2]; subst. inversion F as [|k ? ks' ? [Hk Ek] F' Y1 Y2]; subst.
    simpl in E. rewrite Ek in E. destruct (premise_subst g d l ks') as [m'|] eqn:Em; [|discriminate].
    injection E as <-. inversion N as [|? ? Hn N']; subst.
    destruct (IH N' ks' ps' m' Em F' F2') as [K [S A]].
    assert (KF : map fst (fill (src_vars g pi) (st_fact p)) = src_vars g pi) by (apply fill_keys, Hf).
    split; [|split].
    + intros v. rewrite map_app, in_app_iff, KF, K. split.
      * intros [H|[pi' [H1 H2]]]; [exists pi; simpl; auto|exists pi'; simpl; auto].
      * intros [pi' [[->|H1] H2]]; eauto.
    + intros q u Hin. apply in_app_or in Hin as [Hin|Hin]; [eapply fill_well_sorted; eauto|eauto].
    + intros r. constructor.
      * rewrite args_upd_app_l; [apply args_fill; [apply src_vars_nodup, Hrep|exact Hf]|].
        intros v Hv E. apply lookup_none in E. apply E. rewrite KF. exact Hv.
      * assert (Hd : forall pi', In pi' l -> forall v, In v (src_vars g pi') -> lookup v (fill (src_vars g pi) (st_fact p)) = None).
        { intros pi' Hp v Hv. apply lookup_none. rewrite KF. intros H. apply Hn.
          rewrite (src_vars_disj g Hrep pi pi' v H Hv). exact Hp. }
        specialize (A r). clear - A Hd. induction A as [|q p' l ps E A IHA]; constructor.
        -- rewrite args_upd_app_r; [exact E|]. apply Hd. simpl; auto.
        -- apply IHA. intros q' Hq. apply Hd. simpl; auto.
Qed.

Lemma find_edge_in c e : find_edge g c = Some e -> In e (gedges g) /\ eid e = c.
Proof.
  unfold find_edge. intros H. apply find_some in H as [H1 H2]. apply Nat.eqb_eq in H2. auto.
Qed.

Lemma validate_step_ok d i s e ps : shaped d i s e ps -> validate_step check g d s = VALIDATED -> step_ok g d i s.
Proof.
  intros [He Hp Hs Ha Ht Hta]. unfold validate_step. rewrite He.
  destruct (premise_subst g d (instances (efrom e)) (st_premises s)) as [m|] eqn:Em; [|discriminate].
  set (M := m ++ fill (tgt_vars g (eto e)) (st_fact s)).
  destruct (premise_subst_ok d i _ _ ps m Em (instances_nodup _) Hp Ha) as [K [S A]].
  intros V.
  assert (Hsat : exists r, holds r (subst M (efla e))).
  { destruct (term_eqb_spec (subst M (efla e)) tt_true) as [E|_].
    - exists (fun _ => VBool true). rewrite E. reflexivity.
    - destruct (term_eqb (subst M (efla e)) tt_false); [discriminate|].
      destruct (check [subst M (efla e)]) as [r| |] eqn:Ec; try discriminate.
      apply (check_sat _ Hc) in Ec. apply Forall_inv in Ec. exists r. exact Ec. }
  destruct Hsat as [r Hr].
  assert (KT : map fst (fill (tgt_vars g (eto e)) (st_fact s)) = tgt_vars g (eto e)) by (apply fill_keys, Hta).
  rewrite holds_subst in Hr.
  2:{ apply well_sorted_intro. intros k u Hin r'. unfold M in Hin. apply in_app_or in Hin as [Hin|Hin].
      - destruct (S _ _ Hin) as [x [-> Hx]]. exact Hx.
      - destruct (fill_well_sorted _ _ Hta _ _ Hin) as [x [-> Hx]]. exact Hx. }
  destruct (find_edge_in _ _ He) as [Hin Hid].
  exists e, (map st_fact ps). split; [exact Hin|]. split; [exact Hid|]. split.
  - clear - Hp. induction Hp as [|k p ks ps [H1 H2] _ IH]; constructor; auto. split; auto. rewrite H2. reflexivity.
  - exists (upd r M). split; [exact Hr|]. split.
    + specialize (A r). rewrite <- (instances_fst (efrom e)) in Hs.
      assert (HA : Forall2 (fun pi p => args (upd r M) (src_vars g pi) = snd (st_fact p)) (instances (efrom e)) ps).
      { assert (KK : forall pi, In pi (instances (efrom e)) -> forall v, In v (src_vars g pi) -> lookup v m <> None).
        { intros pi Hpi v Hv E. apply lookup_none in E. apply E. apply K. eauto. }
        clear - A KK. induction A as [|q p' l ps E A IHA]; constructor.
        - unfold M. rewrite args_upd_app_l; [exact E|]. apply KK. simpl; auto.
        - apply IHA. intros q' Hq. apply KK. simpl; auto. }
      clear - HA Hs. revert Hs. induction HA as [|pi p l ps E HA IH]; intros Hs; [reflexivity|].
      cbn [map] in *. injection Hs as H1 H2. rewrite E. f_equal; [|apply IH, H2].
      destruct (st_fact p) as [q xs]. simpl in *. congruence.
    + destruct (st_fact s) as [q xs] eqn:Es. simpl in Ht. subst q. f_equal.
      unfold M. rewrite args_upd_app_r.
      * symmetry. apply (args_fill r (tgt_vars g (eto e)) (eto e, xs)); [apply tgt_vars_nodup, Hrep|exact Hta].
      * intros v Hv. apply lookup_none. rewrite K. intros [pi [_ Hpi]]. eapply src_tgt_disj; eauto.
Qed.

Lemma fact_eqb_eq a b : fact_eqb a b = true <-> a = b.
Proof.
  destruct a as [p x], b as [q y]. unfold fact_eqb. simpl. rewrite andb_true_iff, Nat.eqb_eq.
  assert (H : forall x y, (fix go x y := match x, y with [], [] => true | v :: x', w :: y' => value_eqb v w && go x' y' | _, _ => false end) x y = true <-> x = y).
  { clear. induction x as [|a x IH]; intros [|b y]; try (split; congruence).
    rewrite andb_true_iff, IH. destruct (value_eqb_spec a b) as [->|N]; split; try (intros [? ?]; congruence).
    - intros E. inversion E. auto.
    - intros E. inversion E. congruence. }
  rewrite H. split; [intros [-> ->]; reflexivity|intros E; inversion E; auto].
Qed.

Lemma validate_steps_all d l : validate_steps check g d l = VALIDATED -> forall s, In s l -> validate_step check g d s = VALIDATED.
Proof.
  induction l as [|s l IH]; simpl; [intros _ ? []|]. destruct (validate_step check g d s) eqn:E; try discriminate.
  intros H x [<-|Hx]; auto.
Qed.

Lemma nth_error_last {A} (l : list A) (x : A) : l <> [] -> nth_error l (pred (length l)) = Some (last l x).
Proof.
  induction l as [|a l IH]; [congruence|]. intros _. destruct l as [|b l]; [reflexivity|].
  change (pred (length (a :: b :: l))) with (S (pred (length (b :: l)))). cbn [nth_error].
  rewrite IH by discriminate. reflexivity.
Qed.

Lemma validated_refutation d : validate_invalidity check g d = VALIDATED ->
  (forall i s, 0 < i -> nth_error d i = Some s -> exists e ps, shaped d i s e ps) ->
  refutation g d.
Proof.
  unfold validate_invalidity. destruct d as [|s0 rest]; [discriminate|].
  destruct (fact_eqb (st_fact s0) (entry, [])) eqn:E0; [|discriminate].
  destruct (fact_eqb (st_fact (last (s0 :: rest) s0)) (exit, [])) eqn:E1; [|discriminate].
  cbn [negb]. intros V Hsh. apply fact_eqb_eq in E0. apply fact_eqb_eq in E1. split.
  - simpl. rewrite E0. reflexivity.
  - exists (length rest). split; [reflexivity|].
    pose proof (nth_error_last (s0 :: rest) s0) as Hl. simpl pred in Hl. rewrite Hl by discriminate.
    cbn [option_map]. rewrite E1. reflexivity.
  - intros i s Hi Hs. destruct (Hsh i s Hi Hs) as [e [ps Hps]].
    apply (validate_step_ok _ i s e ps Hps). apply (validate_steps_all _ _ V).
    destruct i as [|i]; [lia|]. simpl in Hs. eapply nth_error_In, Hs.
Qed.
End V.
