(** * Spacer: reconstruction of the derivation, the main loop. *)
From Coq Require Import Permutation.
From Verif Require Import Syntax Solver Graph GraphOps GraphOpsProofs ValidatorModel ValidatorProofs GraphSem SimpleTransModel SimpleTransProofs UnreachProofs ChainProofs NontermProofs EntailModel PropEntail PdkModel SpacerModel SpacerProofs.
Open Scope nat_scope.
Open Scope list_scope.

Lemma forall2_cons {A B} (P : A -> B -> Prop) a l b m : Forall2 P (a :: l) (b :: m) -> P a b /\ Forall2 P l m.
Proof. intros H. inversion H. auto. Qed.
Lemma fits_map f vs xs : sort_preserving f -> (fits (map f vs) xs <-> fits vs xs).
Proof.
  intros Hf. unfold fits. revert xs. induction vs as [|v vs IH]; intros xs; cbn [map].
  - split; intros H; destruct xs as [|x xs]; try constructor; inversion H.
  - split; intros H; destruct xs as [|x xs]; try (inversion H; fail); apply forall2_cons in H as [H1 H2]; constructor; try (rewrite Hf in *; exact H1); try (apply IH; exact H2).
Qed.
Lemma step_ok_app g d d' i s : step_ok g d i s -> step_ok g (d ++ d') i s.
Proof.
  intros [e [ps [H1 [H2 [H3 H4]]]]]. exists e, ps. split; [exact H1|]. split; [exact H2|]. split; [|exact H4]. clear H4.
  induction H3 as [|k f ks fs [L E] H IH]; constructor; [|exact IH]. split; [exact L|]. destruct (nth_error d k) as [s'|] eqn:En; [|discriminate].
  rewrite nth_error_app1 by (apply nth_error_Some; congruence). rewrite En. exact E.
Qed.

Section Rec.
Variable check : check_fn. Hypothesis Hc : check_ok check.
Variable g : hgraph. Hypothesis W : wf_graph g.
Variable db : list dentry. Hypothesis Hdb : db_ok g db.
Variable root : nat.
Variable dr : dentry. Hypothesis Hroot : nth_error db root = Some dr. Hypothesis Hexit : de_node dr = exit.

Definition concl (de : dentry) (inst : fact) : fact := if Nat.eqb (de_node de) exit then (exit, []) else inst.
Definition inst_ok (f : fact) : Prop := fits (tgt_vars g (fst f)) (snd f).
Definition prems_ok (de : dentry) (inst : fact) (ps : list fact) : Prop :=
  exists e, In e (gedges g) /\ eid e = de_edge de /\ follows g e ps (concl de inst).
Definition frame_ok (fr : frame) (de : dentry) : Prop :=
  nth_error db (f_id fr) = Some de /\ (f_prems fr = [] \/ prems_ok de (f_inst fr) (f_prems fr)).
Definition inner (fr : frame) : Prop := exists de, frame_ok fr de /\ de_node de <> exit /\ fst (f_inst fr) = de_node de /\ inst_ok (f_inst fr).

Lemma premise_preds_ok ks i l : Forall2 (fun k p => k < i /\ exists d', nth_error db k = Some d' /\ de_node d' = p) ks (map fst l) -> premise_preds db ks l = Some l.
Proof.
  revert l. induction ks as [|k ks IH]; intros [|[p j] l] H; cbn [premise_preds map fst] in *; try (inversion H; fail); [reflexivity|].
  assert (H' := H). apply forall2_cons in H' as [[_ [d' [E1 E2]]] H2]. rewrite E1, (IH l H2), E2. reflexivity.
Qed.
Lemma follows_insts e ps f : follows g e ps f -> Forall inst_ok ps /\ map fst ps = efrom e.
Proof.
  intros Fo. split; [|apply (follows_prems g e ps f Fo)]. destruct Fo as [r [_ [-> _]]]. apply Forall_forall. intros x Hx. apply in_map_iff in Hx as [[p i] [<- _]].
  unfold inst_ok, tgt_vars, src_vars. cbn [fst snd]. apply (fits_map tgt _ _ tgt_sort). apply (fits_map (src i) _ _ (src_sort i)). apply fits_args.
Qed.
Lemma prem_instances_ok id de inst ps : 0 < id -> nth_error db id = Some de -> (de_node de <> exit -> fst inst = de_node de /\ inst_ok inst) ->
  prem_instances check g db de inst = Some ps -> prems_ok de inst ps.
Proof.
  intros Hid Hde Hin E. destruct (proj2 Hdb id de Hid Hde) as [e [He [Ee [Et Fk]]]]. unfold prem_instances in E.
  rewrite <- Ee, (hfind_in g (wf_ids g W) e He) in E.
  rewrite <- (instances_fst (efrom e)) in Fk. rewrite (premise_preds_ok _ _ _ Fk) in E.
  destruct (premise_constraints db (de_prems de) (instances (efrom e))) as [cs|]; [|discriminate].
  destruct (check _) as [m| |] eqn:Ec; [|discriminate|discriminate]. injection E as <-. apply (check_sat _ Hc) in Ec. apply Forall_app in Ec as [_ Ec]. apply Forall_inv in Ec.
  exists e. split; [exact He|]. split; [exact Ee|]. unfold concl. rewrite Et in *. destruct (Nat.eqb_spec (de_node de) exit) as [Ex|Nx].
  - exists m. split; [exact Ec|]. split; [reflexivity|]. rewrite Et, Ex. unfold tgt_vars. rewrite (rep_exit _ (wf_rep g W)). reflexivity.
  - destruct (Hin Nx) as [H1 H2]. unfold inst_ok in H2. rewrite H1 in H2.
    assert (Ws : well_sorted (fill (tgt_vars g (de_node de)) inst)).
    { intros v u Hl r. apply lookup_in in Hl. destruct (fill_well_sorted _ _ H2 v u Hl) as [x [-> Hx]]. exact Hx. }
    exists (upd m (fill (tgt_vars g (de_node de)) inst)). split; [apply holds_subst; assumption|]. split.
    + apply map_ext. intros [p i]. cbn [fst]. f_equal. apply args_agree. intros v Hv. unfold upd. destruct (lookup v (fill (tgt_vars g (de_node de)) inst)) as [u|] eqn:El; [|reflexivity].
      exfalso. apply lookup_in in El. apply (in_map fst) in El. rewrite fill_keys in El by exact H2. cbn [fst] in El.
      apply in_map_iff in El as [y [Ey _]]. apply in_map_iff in Hv as [z [Ez _]]. rewrite <- Ey in Ez. discriminate Ez.
    + rewrite Et. rewrite args_fill; [rewrite <- H1; destruct inst; reflexivity| |exact H2].
      unfold tgt_vars. pose proof (rep_nodup _ (wf_rep g W) (de_node de)) as N. pose proof (fun v => rep_base _ (wf_rep g W) (de_node de) v) as Bs. clear -N Bs.
      induction N as [|x l Hx N IH]; cbn [map]; constructor; [|apply IH; intros v Hv; apply Bs; right; exact Hv].
      intros Hi. apply in_map_iff in Hi as [y [Ey Hy]]. apply Hx. replace x with y; [exact Hy|].
      pose proof (Bs y (or_intror Hy)) as By. pose proof (Bs x (or_introl eq_refl)) as Bx. destruct x as [a ta sa], y as [b tb sb]. cbn in *. subst. injection Ey as -> ->. reflexivity.
Qed.

(** The derivation under construction. *)
Record dinv (ds : list (fact * nat)) (d : derivation) : Prop := {
  d_map : forall f i, step_of ds f = Some i -> option_map st_fact (nth_error d i) = Some f;
  d_first : (ds = [] /\ d = []) \/ (option_map st_fact (nth_error d 0) = Some (entry, []) /\ known ds (entry, []) = true /\ option_map st_clause (nth_error d 0) = Some no_id);
  d_steps : forall i s, 0 < i -> nth_error d i = Some s -> step_ok g d i s
}.
Lemma step_of_app ds f i f' : step_of (ds ++ [(f, i)]) f' = match step_of ds f' with Some k => Some k | None => if fact_eqb f f' then Some i else None end.
Proof. induction ds as [|[f0 k] ds IH]; cbn [step_of app]; [reflexivity|]. destruct (fact_eqb f0 f'); [reflexivity|exact IH]. Qed.
Lemma map_ext_steps ds d s : dinv ds d -> forall f i, step_of (ds ++ [(st_fact s, length d)]) f = Some i -> option_map st_fact (nth_error (d ++ [s]) i) = Some f.
Proof.
  intros D f i E. rewrite step_of_app in E. destruct (step_of ds f) as [k|] eqn:Ek.
  - injection E as <-. pose proof (d_map ds d D f k Ek) as H. destruct (nth_error d k) as [s'|] eqn:En; [|discriminate].
    rewrite nth_error_app1 by (apply nth_error_Some; congruence). rewrite En. exact H.
  - destruct (fact_eqb (st_fact s) f) eqn:Ef; [|discriminate]. injection E as <-. rewrite nth_error_app2 by lia. rewrite Nat.sub_diag. cbn. apply fact_eqb_eq in Ef. congruence.
Qed.
Lemma known_app ds x f : known ds f = true -> known (ds ++ [x]) f = true.
Proof. destruct x as [f' i]. unfold known. rewrite step_of_app. destruct (step_of ds f); [reflexivity|discriminate]. Qed.
(** A step that follows from known facts. *)
Lemma add_step ds d e ps f : dinv ds d -> In e (gedges g) -> follows g e ps f -> Forall (fun p => known ds p = true) ps ->
  dinv (ds ++ [(f, length d)]) (d ++ [mkStep (flat_map (fun p => match step_of ds p with Some i => [i] | None => [] end) ps) f (eid e)]).
Proof.
  intros D He Fo Kn.
  assert (Ne : ps <> []).
  { intros E. destruct Fo as [r [_ [Ep _]]]. rewrite Ep in E. apply map_eq_nil in E. pose proof (wf_from g W e He) as N. apply N. rewrite <- (instances_fst (efrom e)), E. reflexivity. }
  split.
  - apply (map_ext_steps ds d (mkStep _ f (eid e)) D).
  - right. destruct (d_first ds d D) as [[-> ->]|[F1 [F2 F3]]].
    + exfalso. destruct ps as [|p ps]; [destruct (Ne eq_refl)|]. apply Forall_inv in Kn. discriminate Kn.
    + destruct (nth_error d 0) as [s'|] eqn:En; [|discriminate]. rewrite nth_error_app1 by (apply nth_error_Some; congruence). rewrite En.
      split; [exact F1|]. split; [apply known_app, F2|exact F3].
  - intros i s Hi E. destruct (Nat.lt_ge_cases i (length d)) as [L|L].
    + rewrite nth_error_app1 in E by exact L. apply step_ok_app. apply (d_steps ds d D i s Hi E).
    + rewrite nth_error_app2 in E by exact L. destruct (i - length d) as [|n] eqn:En; [|destruct n; discriminate E]. injection E as <-. assert (i = length d) by lia. subst i.
      exists e, ps. split; [exact He|]. split; [reflexivity|]. split; [|exact Fo]. cbn [st_premises]. clear Fo Ne En Hi. match goal with |- Forall2 (fun k f0 => _ /\ option_map _ (nth_error (d ++ [?S]) k) = _) _ _ => generalize S end. intros s0.
      induction Kn as [|p ps Hk Kn IH]; cbn [flat_map]; [constructor|]. unfold known in Hk. destruct (step_of ds p) as [k|] eqn:Ek; [|discriminate]. cbn [app].
      constructor; [|exact IH]. pose proof (d_map ds d D p k Ek) as Hm. destruct (nth_error d k) as [s'|] eqn:En; [|discriminate].
      assert (k < length d) by (apply nth_error_Some; congruence). split; [exact H|]. rewrite nth_error_app1 by exact H. rewrite En. exact Hm.
Qed.

Definition root_frame (fr : frame) : Prop := f_id fr = root /\ frame_ok fr dr.
Lemma root_pos : 0 < root.
Proof. destruct root; [|lia]. exfalso. rewrite (proj1 Hdb) in Hroot. injection Hroot as <-. cbn in Hexit. discriminate Hexit. Qed.

(** No step derives [false] yet. *)
Definition no_exit (d : derivation) : Prop := forall i s, nth_error d i = Some s -> fst (st_fact s) <> exit.
Lemma no_exit_snoc d s : no_exit d -> fst (st_fact s) <> exit -> no_exit (d ++ [s]).
Proof.
  intros H N i s' E. destruct (Nat.lt_ge_cases i (length d)) as [L|L].
  - rewrite nth_error_app1 in E by exact L. exact (H i s' E).
  - rewrite nth_error_app2 in E by exact L. destruct (i - length d) as [|n]; [injection E as <-; exact N|destruct n; discriminate E].
Qed.
Lemma rec_loop_ok fuel : forall fs rf ds d, Forall inner fs -> root_frame rf -> dinv ds d -> no_exit d ->
  match rec_loop check g fuel db root (fs ++ [rf]) ds d with
  | SpUnsafe (Some d') => error_derivation g d'
  | SpNoProof | SpFuel => True
  | _ => False
  end.
Proof.
  induction fuel as [|n IH]; intros fs rf ds d Hfs Hrf D NX; cbn [rec_loop]; [exact Logic.I|].
  (* the premises of the head of the stack *)
  assert (Common : forall fr de, frame_ok fr de -> (de_node de <> exit -> fst (f_inst fr) = de_node de /\ inst_ok (f_inst fr)) -> 0 < f_id fr ->
     match (match de_prems de, f_prems fr with _ :: _, [] => prem_instances check g db de (f_inst fr) | _, ps => Some ps end) with
     | None => True
     | Some ps => prems_ok de (f_inst fr) ps /\ length ps = length (de_prems de) /\
         forall k p, In (k, p) (combine (de_prems de) ps) -> exists de', nth_error db k = Some de' /\ de_node de' <> exit /\ fst p = de_node de' /\ inst_ok p
     end).
  { intros fr de [F1 F2] F3 Pos. destruct (proj2 Hdb (f_id fr) de Pos F1) as [e [He [Ee [Et Fk]]]].
    assert (Fin : forall ps, prems_ok de (f_inst fr) ps -> prems_ok de (f_inst fr) ps /\ length ps = length (de_prems de) /\
         forall k p, In (k, p) (combine (de_prems de) ps) -> exists de', nth_error db k = Some de' /\ de_node de' <> exit /\ fst p = de_node de' /\ inst_ok p).
    { intros ps P. split; [exact P|]. destruct P as [e' [He' [Ee' Fo]]]. assert (e' = e) by (apply (wf_edge_eq g); auto; congruence). subst e'.
      destruct (follows_insts e ps _ Fo) as [Io Mf]. rewrite <- Mf in Fk. assert (Ns : forall p, In p ps -> fst p <> exit).
      { intros p Hp E. apply (wf_exit g W e He). rewrite <- Mf, <- E. apply in_map, Hp. }
      clear -Fk Io Ns. remember (map fst ps) as qs eqn:Eq. revert ps Eq Io Ns. induction Fk as [|k q ks qs [_ [d' [E1 E2]]] F IH]; intros [|p ps] Eq Io Ns; try discriminate; [split; [reflexivity|intros k p []]|].
      cbn [map] in Eq. injection Eq as Eq1 Eq2. apply Forall_cons_iff in Io as [Io1 Io2]. destruct (IH ps Eq2 Io2 (fun p Hp => Ns p (or_intror Hp))) as [I1 I2].
      split; [cbn [length]; congruence|]. intros k' p' [E|Hin]; [|apply I2, Hin]. injection E as <- <-. exists d'. split; [exact E1|].
      split; [rewrite E2, Eq1; apply Ns; left; reflexivity|]. split; [congruence|exact Io1]. }
    destruct (de_prems de) as [|k0 ks0] eqn:Ep.
    { exfalso. destruct (efrom e) as [|p l] eqn:Ef; [apply (wf_from g W e He Ef)|]. inversion Fk. }
    destruct (f_prems fr) as [|p0 ps0] eqn:Efp.
    - destruct (prem_instances check g db de (f_inst fr)) as [ps|] eqn:Epi; [|exact Logic.I]. apply Fin. eapply prem_instances_ok; eauto.
    - apply Fin. destruct F2 as [F2|F2]; [discriminate|exact F2]. }
  assert (Push : forall (ms : list (nat * fact)), (forall k p, In (k, p) ms -> exists de', nth_error db k = Some de' /\ de_node de' <> exit /\ fst p = de_node de' /\ inst_ok p) ->
     Forall inner (rev (map (fun kp => mkF (fst kp) (snd kp) []) ms))).
  { intros ms H. apply Forall_rev. apply Forall_forall. intros x Hx. apply in_map_iff in Hx as [[k p] [<- Hk]]. destruct (H k p Hk) as [de' [H1 [H2 [H3 H4]]]].
    exists de'. split; [split; [exact H1|left; reflexivity]|]. auto. }
  assert (Miss : forall (de : dentry) ps, length ps = length (de_prems de) -> filter (fun kp : nat * fact => negb (known ds (snd kp))) (combine (de_prems de) ps) = [] -> Forall (fun p => known ds p = true) ps).
  { intros de ps L E. apply Forall_forall. intros p Hp. destruct (known ds p) eqn:Ek; [reflexivity|]. exfalso. apply In_nth_error in Hp as [j Hj].
    destruct (nth_error (de_prems de) j) as [k|] eqn:Hk; [|apply nth_error_None in Hk; assert (j < length ps) by (apply nth_error_Some; congruence); lia].
    assert (X : In (k, p) (combine (de_prems de) ps)) by (apply (nth_error_In _ j); apply nth_combine; auto).
    assert (Y : In (k, p) []) by (rewrite <- E; apply filter_In; cbn [snd]; rewrite Ek; auto). destruct Y. }
  destruct fs as [|fr fs]; cbn [app].
  - (* the root *)
    destruct Hrf as [Er Fr]. rewrite Er, Nat.eqb_refl. cbn [negb andb]. rewrite Hroot.
    pose proof (Common rf dr Fr) as C. rewrite Er in C. specialize (C (fun N => match N Hexit with end) root_pos).
    destruct (match de_prems dr, f_prems rf with _ :: _, [] => prem_instances check g db dr (f_inst rf) | _, ps => Some ps end) as [ps|]; [|exact Logic.I].
    destruct C as [C1 [C2 C3]]. destruct (filter _ _) as [|kp missing] eqn:Em.
    + destruct C1 as [e [He [Ee Fo]]]. unfold concl in Fo. rewrite Hexit in Fo. rewrite Hexit. cbn [Nat.eqb]. change (Nat.eqb exit exit) with true in *. cbv iota in *.
      rewrite <- Ee. pose proof (add_step ds d e ps (exit, []) D He Fo (Miss dr ps C2 Em)) as D'.
      destruct n; cbn [rec_loop]; [exact Logic.I|]. split; [split| |].
      * destruct (d_first _ _ D') as [[X _]|[X _]]; [destruct ds; discriminate X|exact X].
      * eexists. split; [rewrite app_length; cbn; rewrite Nat.add_1_r; reflexivity|]. rewrite nth_error_app2 by lia. rewrite Nat.sub_diag. reflexivity.
      * apply (d_steps _ _ D').
      * destruct (d_first _ _ D') as [[X _]|[_ [_ X]]]; [destruct ds; discriminate X|exact X].
      * intros i s E Ex. rewrite app_length. cbn [length]. destruct (Nat.lt_ge_cases i (length d)) as [L|L].
        -- exfalso. rewrite nth_error_app1 in E by exact L. exact (NX i s E Ex).
        -- rewrite nth_error_app2 in E by exact L. destruct (i - length d) as [|m] eqn:Em'; [lia|destruct m; discriminate E].
    + apply IH; [apply Push| |exact D|exact NX].
      * intros k p Hk. rewrite <- Em in Hk. apply filter_In in Hk as [Hk _]. apply C3, Hk.
      * split; [reflexivity|]. split; [exact Hroot|]. right. exact C1.
  - (* an inner frame *)
    apply Forall_cons_iff in Hfs as [[de [Fr [Nx [Ef Io]]]] Hfs].
    assert (Nr : f_id fr <> root) by (intros E; destruct Fr as [Fr _]; rewrite E, Hroot in Fr; injection Fr as ->; contradiction).
    replace (Nat.eqb (f_id fr) root) with false by (symmetry; apply Nat.eqb_neq, Nr). cbn [negb andb].
    destruct (known ds (f_inst fr)) eqn:Ek; [apply IH; auto|].
    pose proof Fr as [Fr1 Fr2]. rewrite Fr1.
    destruct (Nat.eq_dec (f_id fr) 0) as [Z|Pos].
    + (* the entry *)
      rewrite Z, (proj1 Hdb) in Fr1. injection Fr1 as <-. cbn [de_prems de_node de_edge combine filter]. replace (Nat.eqb entry exit) with false by reflexivity.
      cbn [de_node] in *. assert (Ei : f_inst fr = (entry, [])).
      { destruct (f_inst fr) as [p xs]. cbn [fst] in Ef. subst p. unfold inst_ok, tgt_vars in Io. cbn [fst snd] in Io. rewrite (rep_entry _ (wf_rep g W)) in Io. inversion Io. reflexivity. }
      rewrite Ei in *. destruct (d_first ds d D) as [[-> ->]|[_ [X _]]]; [|congruence].
      apply IH; [exact Hfs|exact Hrf| |intros [|i] s E; [injection E as <-; discriminate|destruct i; discriminate E]]. split; [|right; split; [|split]; reflexivity|].
      * intros f i E. cbn [app step_of] in E. destruct (fact_eqb (entry, []) f) eqn:Eq; [|discriminate]. injection E as <-. apply fact_eqb_eq in Eq. subst f. reflexivity.
      * intros i s Hi E. destruct i as [|i]; [lia|]. cbn in E. destruct i; discriminate E.
    + pose proof (Common fr de Fr (fun _ => conj Ef Io) ltac:(lia)) as C.
      destruct (match de_prems de, f_prems fr with _ :: _, [] => prem_instances check g db de (f_inst fr) | _, ps => Some ps end) as [ps|]; [|exact Logic.I].
      destruct C as [C1 [C2 C3]]. destruct (filter _ _) as [|kp missing] eqn:Em.
      * replace (Nat.eqb (de_node de) exit) with false by (symmetry; apply Nat.eqb_neq, Nx). destruct C1 as [e [He [Ee Fo]]]. unfold concl in Fo.
        replace (Nat.eqb (de_node de) exit) with false in Fo by (symmetry; apply Nat.eqb_neq, Nx). rewrite <- Ee.
        apply IH; [exact Hfs|exact Hrf| |apply no_exit_snoc; [exact NX|cbn [st_fact]; rewrite Ef; exact Nx]]. apply add_step; auto. apply (Miss de ps C2 Em).
      * assert (Eq : forall (A : Type) (a : list A) x b y, a ++ x :: b ++ [y] = (a ++ x :: b) ++ [y]) by (intros; rewrite <- app_assoc; reflexivity).
        rewrite Eq. apply IH; [|exact Hrf|exact D|exact NX]. apply Forall_app. split.
        -- apply Push. intros k p Hk. rewrite <- Em in Hk. apply filter_In in Hk as [Hk _]. apply C3, Hk.
        -- constructor; [|exact Hfs]. exists de. split; [split; [exact Fr1|right; exact C1]|]. auto.
Qed.
End Rec.

Section Run.
Variable c : ctors. Hypothesis Hct : ctors_ok c.
Variable check : check_fn. Hypothesis Hc : check_ok check.
Variable itp : itp_fn. Hypothesis Hi : itp_ok itp.
Variable mbp : mbp_fn. Hypothesis Hm : mbp_ok mbp.
Variable simp : term -> term. Hypothesis Hs : simp_ok simp.
Variable ord : list term -> list term. Hypothesis Ho : ord_ok ord.
Variable pick : list pob -> option (pob * list pob). Hypothesis Hp : pick_ok pick.
Variable logProof : bool.
Variable g : hgraph. Hypothesis W : wf_graph g. Hypothesis Na : labels_no_act g.

Lemma entry_under_known st K : inv c ord logProof g K st -> id_for (s_db st) tt_true entry <> None.
Proof.
  intros V. pose proof (proj1 (i_db _ _ _ _ _ _ V)) as E. destruct (s_db st) as [|d db]; [discriminate|]. cbn in E. injection E as ->. cbn. discriminate.
Qed.
Lemma add_entry_ok K st : inv c ord logProof g K st -> inv c ord logProof g (S K) (add_entry st (S K)).
Proof.
  intros V. split; unfold add_entry; cbn [s_under s_over s_db].
  - intros b v t Ht x Hx. apply ainsert_in in Ht as [Ht|[_ [-> ->]]]; [apply (i_uv _ _ _ _ _ _ V b v t Ht x Hx)|destruct Hx].
  - intros b v t r Ht H. apply ainsert_in in Ht as [Ht|[_ [-> ->]]]; [apply (i_us _ _ _ _ _ _ V b v t r Ht H)|]. rewrite (rep_entry _ (wf_rep g W)). constructor.
  - intros b Hb. apply ainsert_in. destruct (Nat.eq_dec b (S K)) as [->|N]; [right; auto|]. left. apply (i_ue _ _ _ _ _ _ V). lia.
  - intros b v t Ht x Hx. apply ainsert_in in Ht as [Ht|[_ [-> ->]]]; [apply (i_ov _ _ _ _ _ _ V b v t Ht x Hx)|destruct Hx].
  - intros v Hv Nv. apply ainsert_in. left. apply (i_o0 _ _ _ _ _ _ V); assumption.
  - intros b t r Ht. apply ainsert_in in Ht as [Ht|[_ [_ ->]]]; [apply (i_oe _ _ _ _ _ _ V b t r Ht)|reflexivity].
  - intros b e t r He Ht H. apply ainsert_in in Ht as [Ht|[_ [Ee _]]]; [|exfalso; apply (wf_entry g W e He), Ee].
    apply (i_os _ _ _ _ _ _ V b e t r He Ht). eapply (edge_may_le c Hct ord Ho st); [|exact H]. intros b' v' t' H'. cbn [s_over]. apply ainsert_in. left. exact H'.
  - apply (i_db _ _ _ _ _ _ V).
  - intros L b v t r Ht H. apply ainsert_in in Ht as [Ht|[_ [-> ->]]]; [apply (i_ud _ _ _ _ _ _ V L b v t r Ht H)|]. eapply entry_under_known, V.
Qed.
Lemma entry_vertex : smem entry (hnodes g) = true.
Proof. apply smem_in. apply (hnodes_spec g (wf_ids g W)). left. reflexivity. Qed.
Lemma init_inv : inv c ord logProof g 0 (init_state g).
Proof.
  assert (X : forall b v t, In t (init_map g b v) -> b = 0 /\ vertex g v /\ (v = entry /\ t = tt_true \/ v <> entry /\ t = tt_false)).
  { intros b v t Ht. unfold init_map in Ht. destruct (Nat.eqb_spec b 0) as [->|]; [|destruct Ht]. cbn [andb] in Ht. destruct (smem v (hnodes g)) eqn:Sv; [|destruct Ht].
    split; [reflexivity|]. split; [apply (hnodes_spec g (wf_ids g W)), smem_in, Sv|]. destruct (Nat.eqb_spec v entry) as [->|N]; destruct Ht as [<-|[]]; auto. }
  split; unfold init_state; cbn [s_under s_over s_db].
  - intros b v t Ht x Hx. apply X in Ht as [_ [_ [[_ ->]|[_ ->]]]]; destruct Hx.
  - intros b v t r Ht H. apply X in Ht as [_ [_ [[-> ->]|[_ ->]]]]; [|discriminate H]. rewrite (rep_entry _ (wf_rep g W)). constructor.
  - intros b Hb. assert (b = 0) by lia. subst b. unfold init_map. rewrite entry_vertex. left. reflexivity.
  - intros b v t Ht x Hx. apply X in Ht as [_ [_ [[_ ->]|[_ ->]]]]; destruct Hx.
  - intros v Hv Nv. unfold init_map. replace (smem v (hnodes g)) with true by (symmetry; apply smem_in, (hnodes_spec g (wf_ids g W)), Hv).
    cbn [Nat.eqb andb]. replace (Nat.eqb v entry) with false by (symmetry; apply Nat.eqb_neq, Nv). left. reflexivity.
  - intros b t r Ht. apply X in Ht as [_ [_ [[_ ->]|[N _]]]]; [reflexivity|contradiction].
  - intros b e t r He Ht H. apply X in Ht as [E _]. discriminate E.
  - split; [reflexivity|]. intros i d Hpos E. destruct i as [|i]; [lia|]. destruct i; discriminate E.
  - intros _ b v t r Ht H. apply X in Ht as [_ [_ [[-> ->]|[_ ->]]]]; [cbn; discriminate|discriminate H].
Qed.

Lemma reconstruct_ok fuel st : db_ok g (s_db st) ->
  match reconstruct check logProof g fuel st with
  | SpUnsafe None => logProof = false
  | SpUnsafe (Some d) => error_derivation g d
  | SpNoProof | SpFuel => True
  | _ => False
  end.
Proof.
  intros D. unfold reconstruct. destruct logProof; [|reflexivity].
  destruct (id_for (s_db st) tt_true exit) as [root|] eqn:E; [|exact Logic.I]. apply id_for_some in E as [dr [E1 [E2 _]]].
  pose proof (rec_loop_ok check Hc g W (s_db st) D root dr E1 E2 fuel [] (mkF root (entry, []) []) [] []) as X. cbn [app] in X.
  assert (Y : match rec_loop check g fuel (s_db st) root [mkF root (entry, []) []] [] [] with SpUnsafe (Some d') => error_derivation g d' | SpNoProof | SpFuel => True | _ => False end).
  { apply X; [constructor| | |intros i s E; destruct i; discriminate E].
    - split; [reflexivity|]. split; [exact E1|left; reflexivity].
    - split; [intros f i E; discriminate E|left; auto|intros i s _ E; destruct i; discriminate E]. }
  destruct (rec_loop _ _ _ _ _ _ _ _) as [w|[d|]| | |]; auto; contradiction.
Qed.

Lemma definitions_only st l : only g (definitions c simp ord g st l).
Proof.
  intros q H. unfold definitions in H. destruct (Nat.eqb q entry) eqn:E1; [apply Nat.eqb_eq in E1; left; exact E1|].
  destruct (Nat.eqb q exit) eqn:E2; [apply Nat.eqb_eq in E2; right; left; exact E2|].
  destruct (smem q (hnodes g)) eqn:Eh; [|congruence]. apply smem_in in Eh. apply hnodes_spec; [apply (wf_ids g W)|exact Eh].
Qed.
Lemma run_ok fuel inner : forall st k, inv c ord logProof g k st -> (forall b, b <= k -> exit_blocked st b) ->
  match run c check itp mbp simp ord pick logProof g fuel inner st (S k) with
  | SpSafe w => solution g w /\ only g w
  | SpUnsafe None => logProof = false /\ (unknown check \/ derivable g exit [])
  | SpUnsafe (Some d) => error_derivation g d
  | SpThrow => oracle_failed check itp mbp
  | SpNoProof => unknown check \/ derivable g exit []
  | SpFuel => True
  end.
Proof.
  induction fuel as [|f IH]; intros st k V Bk; cbn [run]; [exact Logic.I|]. unfold bound_safety.
  pose proof (add_entry_ok k st V) as V1. set (st1 := add_entry st (S k)) in *.
  assert (V2 : inv c ord logProof g (S k) (mkS (s_under st1) (s_over st1) (s_db st1) (S k))) by (destruct V1; split; assumption).
  assert (Le : over_le st (mkS (s_under st1) (s_over st1) (s_db st1) (S k))) by (intros b v t H; cbn [s_over]; unfold st1, add_entry; cbn [s_over]; apply ainsert_in; left; exact H).
  pose proof (bound_loop_ok c Hct check Hc itp Hi mbp Hm ord Ho pick Hp logProof g W (S k) inner ltac:(lia) _ [mkPob exit (S k) tt_true] V2) as X.
  assert (Y : forall p, In p [mkPob exit (S k) tt_true] -> pob_ok check g (S k) p).
  { intros p [<-|[]]. split; [right; left; reflexivity|]. split; [cbn; lia|]. split; [cbn; lia|]. split; [intros x []|]. split; [reflexivity|]. cbn. discriminate. }
  specialize (X Y (or_introl (or_introl eq_refl))).
  destruct (bound_loop _ _ _ _ _ _ _ _ _ _ _) as [st'|st'| |]; auto.
  - destruct X as [V' [Le' Ex]]. unfold is_inductive.
    pose proof (ind_levels_ok c Hct check Hc ord Ho logProof g W Na (S k) (seq (s_low st') (S (S k) - s_low st')) st' V') as Z.
    assert (Bk' : forall b, b <= S k -> exit_blocked st' b).
    { intros b Hb. destruct (Nat.eq_dec b (S k)) as [->|N]; [exact Ex|]. eapply blocked_le; [|apply Bk; lia]. eapply over_le_trans; eauto. }
    destruct (ind_levels _ _ _ _ _ _) as [st'' l|st''|].
    + destruct Z as [V'' [Le'' [Hl Cl]]]. apply in_seq in Hl. split; [|apply definitions_only].
      eapply definitions_solution; eauto. eapply blocked_le; [exact Le''|]. apply Bk'. lia.
    + destruct Z as [V'' Le'']. apply IH; [exact V''|]. intros b Hb. eapply blocked_le; [exact Le''|]. apply Bk', Hb.
    + left. exact Z.
  - destruct X as [V' D]. pose proof (reconstruct_ok inner st' (i_db _ _ _ _ _ _ V')) as Z.
    destruct (reconstruct _ _ _ _ _) as [w|[d|]| | |]; auto; contradiction.
Qed.
Theorem spacer_ok fuel inner :
  match spacer c check itp mbp simp ord pick logProof g fuel inner with
  | SpSafe w => solution g w /\ only g w
  | SpUnsafe None => logProof = false /\ (unknown check \/ derivable g exit [])
  | SpUnsafe (Some d) => error_derivation g d
  | SpThrow => oracle_failed check itp mbp
  | SpNoProof => unknown check \/ derivable g exit []
  | SpFuel => True
  end.
Proof.
  unfold spacer. apply run_ok; [apply init_inv|]. intros b Hb r H. assert (b = 0) by lia. subst b. rewrite Forall_forall in H.
  assert (X : In tt_false (s_over (init_state g) 0 exit)) by (apply (i_o0 _ _ _ _ _ _ init_inv); [right; left; reflexivity|discriminate]).
  apply H in X. discriminate X.
Qed.
End Run.
