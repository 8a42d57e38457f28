(** * Node elimination: solutions. *)
From Verif Require Import Syntax Solver TransSys Graph GraphOps GraphOpsProofs ValidatorModel ValidatorProofs FormulaModel GraphSem SimpleTransModel UnreachProofs UnreachProofs2 SimpleTransProofs SimpleTransProofs2 ListLemmas MergeModel MergeProofs ChainProofs ChainStep ChainBack ExpandProofs ElimModel PairProofs PairLabel ElimProofs.
Open Scope nat_scope.

Lemma map_opt_in {A B} (f : A -> option B) l l' : map_opt f l = Some l' -> forall x, In x l -> exists y, f x = Some y /\ In y l'.
Proof.
  revert l'. induction l as [|a l IH]; intros l' H x Hx; [destruct Hx|]. cbn [map_opt] in H. destruct (f a) as [b|] eqn:Ea; [|discriminate].
  destruct (map_opt f l) as [k|] eqn:Ek; [|discriminate]. injection H as <-. destruct Hx as [->|Hx]; [exists b; split; [exact Ea|left; reflexivity]|].
  destruct (IH k eq_refl x Hx) as [y [H1 H2]]. exists y. split; [exact H1|right; exact H2].
Qed.
Lemma map_opt_out {A B} (f : A -> option B) l l' : map_opt f l = Some l' -> forall y, In y l' -> exists x, In x l /\ f x = Some y.
Proof.
  revert l'. induction l as [|a l IH]; intros l' H y Hy; cbn [map_opt] in H; [injection H as <-; destruct Hy|]. destruct (f a) as [b|] eqn:Ea; [|discriminate].
  destruct (map_opt f l) as [k|] eqn:Ek; [|discriminate]. injection H as <-. destruct Hy as [->|Hy]; [exists a; split; [left; reflexivity|exact Ea]|].
  destruct (IH k eq_refl y Hy) as [x [H1 H2]]. exists x. split; [right; exact H1|exact H2].
Qed.
Lemma other_defs_spec w l : forall ds, other_defs w l = Some ds ->
  (forall p i, In (p, i) l -> exists d, w p = Some d /\ In (rename (src i) d) ds) /\
  (forall t, In t ds -> exists p i d, In (p, i) l /\ w p = Some d /\ t = rename (src i) d).
Proof.
  induction l as [|[p i] l IH]; intros ds H; cbn [other_defs fst snd] in H; [injection H as <-; split; [intros ? ? []|intros ? []]|].
  destruct (w p) as [d|] eqn:Ed; [|discriminate]. destruct (other_defs w l) as [k|] eqn:Ek; [|discriminate]. injection H as <-.
  destruct (IH k eq_refl) as [A B]. split.
  - intros q j [X|X]; [injection X as <- <-; exists d; split; [exact Ed|left; reflexivity]|]. destruct (A q j X) as [d' [H1 H2]]. exists d'. split; [exact H1|right; exact H2].
  - intros t [<-|Ht]; [exists p, i, d; split; [left; reflexivity|auto]|]. destruct (B t Ht) as [q [j [d' [H1 H2]]]]. exists q, j, d'. split; [right; exact H1|exact H2].
Qed.
Lemma count_sym_split (v : sym) (l1 l2 : list sym) : ~ In v (l1 ++ l2) -> @filter sym (fun p : nat => negb (Nat.eqb p v)) (l1 ++ v :: l2) = l1 ++ l2 /\ count_sym v (l1 ++ v :: l2) = 1.
Proof.
  intros N.
  assert (Q : forall l : list sym, ~ In v l -> @filter sym (fun p : nat => negb (Nat.eqb p v)) l = l /\ @filter sym (Nat.eqb v) l = []).
  { induction l as [|a l IH]; intros H; [auto|]. cbn [filter]. destruct IH as [I1 I2]; [intros X; apply H; right; exact X|].
    assert (a <> v) by (intros ->; apply H; left; reflexivity).
    destruct (Nat.eqb_spec a v); [contradiction|]. destruct (Nat.eqb_spec v a); [congruence|]. cbn [negb]. rewrite I1, I2. auto. }
  rewrite in_app_iff in N. destruct (Q l1) as [A1 A2]; [tauto|]. destruct (Q l2) as [B1 B2]; [tauto|]. split.
  - rewrite filter_app. cbn [filter]. rewrite Nat.eqb_refl. cbn [negb]. rewrite A1, B1. reflexivity.
  - unfold count_sym. rewrite filter_app. cbn [filter]. rewrite Nat.eqb_refl, A2, B2. reflexivity.
Qed.

Section Node.
Variable elim : elim_fn.
Hypothesis Helim : elim_ok elim.
Variable fresh : nat.
Variable g : hgraph.
Hypothesis W : wf_graph g.
Variable v : sym.
Hypothesis E : eliminable g v.
Variable check : check_fn.
Variable itp : itp_fn.
Hypothesis Hitp : itp_ok itp.
Let R := wf_rep g W.
Let l := list_prod (ins g v) (outs g v).
Let g1 := fst (merge_pairs elim fresh g l).
Let rs := snd (merge_pairs elim fresh g l).
Let g' := delete_nodes [v] g1.
Let totgt := vlookup (combine (src_vars g (v, 0)) (tgt_vars g v)).

Lemma totgt_sort : sort_preserving totgt.
Proof. apply vlookup_sort. intros a b H. unfold src_vars, tgt_vars in H. cbn [fst snd] in H. apply combine_map_in in H as [x [_ [-> ->]]]. reflexivity. Qed.
Lemma totgt_keys : map fst (combine (src_vars g (v, 0)) (tgt_vars g v)) = src_vars g (v, 0).
Proof. apply fst_combine_len. unfold src_vars, tgt_vars. rewrite !map_length. cbn [fst]. lia. Qed.
Lemma src_vars_nodup p i : NoDup (src_vars g (p, i)).
Proof. unfold src_vars. cbn [fst snd]. apply NoDup_map_inj_in; [|apply (rep_nodup _ R)]. intros a b Ha Hb X. apply (src_inj_v g R i i p p a b Ha Hb X). Qed.
Lemma totgt_src b : In b (gpv g v) -> totgt (src 0 b) = tgt b.
Proof.
  intros Hb. unfold totgt. apply vlookup_combine; [apply src_vars_nodup|]. unfold src_vars, tgt_vars. cbn [fst snd]. apply in_combine_map, Hb.
Qed.
Lemma totgt_out u : ~ In u (src_vars g (v, 0)) -> totgt u = u.
Proof. intros H. apply vlookup_out. rewrite totgt_keys. exact H. Qed.

(** The variables of the two sides. *)
Lemma def_src_vars w p i d u : wvars g w -> w p = Some d -> In u (vars (rename (src i) d)) -> exists b, In b (gpv g p) /\ u = src i b.
Proof. intros V H X. rewrite vars_rename in X. apply in_map_iff in X as [b [<- Hb]]. exists b. split; [apply (V p d H b Hb)|reflexivity]. Qed.
Lemma def_tgt_vars w p d u : wvars g w -> w p = Some d -> In u (vars (rename tgt d)) -> exists b, In b (gpv g p) /\ u = tgt b.
Proof. intros V H X. rewrite vars_rename in X. apply in_map_iff in X as [b [<- Hb]]. exists b. split; [apply (V p d H b Hb)|reflexivity]. Qed.

Inductive in_var : var -> Prop :=
| iv_src e s b : In e (ins g v) -> efrom e = [s] -> In b (gpv g s) -> in_var (src 0 b)
| iv_tgt b : vertex g v -> In b (gpv g v) -> in_var (tgt b)
| iv_aux e u : In e (ins g v) -> In u (vars (efla e)) -> ~ In u (own_vars g e) -> in_var u.
Lemma in_formula_vars w e t u : wvars g w -> In e (ins g v) -> in_formula w e = Some t -> In u (vars t) -> in_var u.
Proof.
  intros V He Ht Hu. unfold in_formula in Ht. destruct (efrom e) as [|s [|]] eqn:Ef; try discriminate. destruct (w s) as [d|] eqn:Ed; [|discriminate]. injection Ht as <-.
  apply in_vars_app in Hu as [x [Hx Hu]]. destruct Hx as [<-|[<-|[]]].
  - apply (def_src_vars w s 0 d u V Ed) in Hu as [b [Hb ->]]. eapply iv_src; eauto.
  - destruct (in_dec var_dec u (own_vars g e)) as [O|N]; [|eapply iv_aux; eauto]. apply (own_single g e s u Ef) in O as [O|O].
    + apply in_src_vars in O as [b [Hb ->]]. eapply iv_src; eauto.
    + apply in_map_iff in O as [b [<- Hb]]. apply ins_in in He as [Hi T]. rewrite <- T in *. apply iv_tgt; rewrite T in *; [rewrite <- T; apply vertex_tgt, Hi|exact Hb].
Qed.
Definition others (l1 l2 : list sym) : Prop := ~ In v (l1 ++ l2) /\ forall e1 s, In e1 (gedges g) -> eto e1 = v -> efrom e1 = [s] -> ~ In s (l1 ++ l2).
Inductive out_var : var -> Prop :=
| ov_mid b : In b (gpv g v) -> out_var (src 0 b)
| ov_src e l1 l2 p i b : In e (outs g v) -> efrom e = l1 ++ v :: l2 -> others l1 l2 -> In p (l1 ++ l2) -> In b (gpv g p) -> out_var (src i b)
| ov_tgt e b : In e (outs g v) -> In b (gpv g (eto e)) -> out_var (tgt b)
| ov_aux e u : In e (outs g v) -> In u (vars (efla e)) -> ~ In u (own_vars g e) -> out_var u.
Lemma own_out e u : In e (outs g v) -> In u (own_vars g e) -> out_var u.
Proof.
  intros He O. pose proof He as He'. apply outs_in in He' as [Hi Hv]. destruct (el_out _ _ E e Hi Hv) as [_ [l1 [l2 [Fl [Nl Gd]]]]].
  assert (Ot : others l1 l2) by (split; assumption). unfold own_vars in O. apply in_app_iff in O as [O|O].
  - apply in_concat in O as [k [Hk O]]. apply in_map_iff in Hk as [[p i] [<- Hp]]. apply in_src_vars in O as [b [Hb ->]]. cbn [fst snd] in *.
    rewrite Fl, instances_split in Hp by (intros X; apply Nl, in_app_iff; auto). apply in_app_iff in Hp as [Hp|[Hp|Hp]].
    + apply before_in in Hp. eapply ov_src; eauto. apply in_app_iff. auto.
    + injection Hp as <- <-. apply ov_mid, Hb.
    + apply after_in in Hp. eapply ov_src; eauto. apply in_app_iff. auto.
  - apply in_map_iff in O as [b [<- Hb]]. eapply ov_tgt; eauto.
Qed.
Lemma is_hyper_false e : In e (outs g v) -> is_hyper e = false -> efrom e = [v].
Proof.
  intros He H. apply outs_in in He as [Hi Hv]. unfold is_hyper in H. apply Nat.ltb_ge in H.
  pose proof (wf_from g W e Hi) as N. destruct (efrom e) as [|a [|b k]]; [congruence| |cbn in H; lia]. destruct Hv as [->|[]]. reflexivity.
Qed.
(** What an outgoing formula consists of. *)
Lemma out_formula_spec w e t : In e (outs g v) -> out_formula v w e = Some t -> exists dt ds l1 l2,
  w (eto e) = Some dt /\ efrom e = l1 ++ v :: l2 /\ others l1 l2 /\ t = mkAnd (efla e :: mkNot (rename tgt dt) :: ds) /\ other_defs w (before l1 ++ after l1 l2) = Some ds.
Proof.
  intros He H. unfold out_formula in H. destruct (w (eto e)) as [dt|] eqn:Et; [|discriminate].
  destruct (is_hyper e) eqn:Hh.
  - pose proof He as He'. apply outs_in in He' as [Hi Hv]. destruct (el_out _ _ E e Hi Hv) as [_ [l1 [l2 [Fl [Nl Gd]]]]].
    rewrite Fl in H. destruct (count_sym_split v l1 l2 Nl) as [C1 C2]. rewrite C2 in H. replace (filter (fun p => negb (Nat.eqb p v)) (l1 ++ v :: l2)) with (l1 ++ l2) in H by (symmetry; exact C1). cbn [Nat.eqb] in H. rewrite instances_app2 in H.
    destruct (other_defs w (before l1 ++ after l1 l2)) as [ds|] eqn:Ed; [|discriminate]. injection H as <-. exists dt, ds, l1, l2. split; [reflexivity|]. split; [exact Fl|]. split; [split; assumption|auto].
  - injection H as <-. exists dt, [], [], []. rewrite (is_hyper_false e He Hh). split; [reflexivity|]. split; [reflexivity|]. split; [split; [intros []|intros ? ? _ _ _ []]|auto].
Qed.
Lemma out_formula_vars w e t u : wvars g w -> In e (outs g v) -> out_formula v w e = Some t -> In u (vars t) -> out_var u.
Proof.
  intros V He Ht Hu. destruct (out_formula_spec w e t He Ht) as [dt [ds [l1 [l2 [Et [Fl [Nl [-> Ed]]]]]]]].
  apply in_vars_app in Hu as [x [Hx Hu]]. destruct Hx as [<-|[<-|Hx]].
  - destruct (in_dec var_dec u (own_vars g e)) as [O|N]; [apply (own_out e u He O)|eapply ov_aux; eauto].
  - apply in_vars_app in Hu as [y [[<-|[]] Hu]]. apply (def_tgt_vars w _ dt u V Et) in Hu as [b [Hb ->]]. eapply ov_tgt; eauto.
  - destruct (other_defs_spec w _ _ Ed) as [_ Q]. destruct (Q x Hx) as [p [i [d [Hp [Hd ->]]]]]. apply (def_src_vars w p i d u V Hd) in Hu as [b [Hb ->]].
    eapply ov_src; eauto. apply in_app_iff in Hp. rewrite in_app_iff. destruct Hp as [Hp|Hp]; [left; eapply before_in; eauto|right; eapply after_in; eauto].
Qed.
Lemma out_not_tgt u : out_var u -> ~ In u (tgt_vars g v).
Proof.
  intros H X. apply in_map_iff in X as [b [Eb Hb]]. destruct H as [c Hc|e l1 l2 p i c He Fl Nl Hp Hc|e c He Hc|e u He Hu No].
  - exact (src_tgt_v _ _ _ (eq_sym Eb)).
  - exact (src_tgt_v _ _ _ (eq_sym Eb)).
  - apply outs_in in He as [Hi Hv]. destruct (tgt_inj_v g R v (eto e) b c Hb Hc Eb) as [_ X]. exact (proj1 (el_out _ _ E e Hi Hv) (eq_sym X)).
  - apply outs_in in He as [Hi Hv]. apply (wf_label g W e _ Hi Hu No v); [eapply vertex_src; eauto|]. exists b. auto.
Qed.
Lemma out_vertex e : In e (outs g v) -> vertex g v.
Proof. intros H. apply outs_in in H as [Hi Hv]. eapply vertex_src; eauto. Qed.
Lemma common u u' : in_var u -> out_var u' -> totgt u' = u -> In u (tgt_vars g v).
Proof.
  intros Hi Ho Et.
  assert (Lab : forall e x, In e (gedges g) -> In x (vars (efla e)) -> ~ In x (own_vars g e) -> forall p, vertex g p -> ~ version_of g p x) by (intros e x A B C p; apply (wf_label g W e x A B C p)).
  assert (InV : forall x, in_var x -> (exists p, vertex g p /\ version_of g p x) \/ exists e, In e (ins g v) /\ In x (vars (efla e)) /\ ~ In x (own_vars g e)).
  { intros x [e s b He Fs Hb|b Vv Hb|e y He Hu No]; [left|left|right; eauto].
    - exists s. apply ins_in in He as [Hin _]. split; [apply (vertex_src g e s Hin); rewrite Fs; left; reflexivity|]. exists b. eauto.
    - exists v. split; [exact Vv|]. exists b. auto. }
  destruct Ho as [b Hb|e l1 l2 p i b He Fl [Nl Gd] Hp Hb|e b He Hb|e x He Hx No].
  - rewrite (totgt_src b Hb) in Et. subst u. apply in_map, Hb.
  - pose proof He as He'. apply outs_in in He' as [Hin Hv].
    assert (Npv : p <> v) by (intros ->; contradiction).
    rewrite totgt_out in Et by (intros X; apply in_src_vars in X as [c [Hc X]]; cbn [fst snd] in *; apply (src_inj_v g R i 0 p v b c Hb Hc) in X; tauto).
    exfalso. assert (Vp : vertex g p) by (apply (vertex_src g e p Hin); rewrite Fl; rewrite in_app_iff in *; cbn [In]; tauto).
    destruct Hi as [e1 s c H1 F1 Hc|c _ Hc|e1 x H1 Hx No].
    + destruct (src_inj_v g R 0 i s p c b Hc Hb (eq_sym Et)) as [_ [_ ->]]. apply ins_in in H1 as [H1 T1]. exact (Gd e1 p H1 T1 F1 Hp).
    + exact (src_tgt_v _ _ _ Et).
    + apply ins_in in H1 as [H1 _]. apply (Lab e1 _ H1 Hx No p Vp). exists b. rewrite <- Et. eauto.
  - pose proof He as He'. apply outs_in in He' as [Hin Hv].
    rewrite totgt_out in Et by (intros X; apply in_src_vars in X as [c [_ X]]; exact (src_tgt_v _ _ _ (eq_sym X))).
    exfalso. destruct Hi as [e1 s c H1 F1 Hc|c _ Hc|e1 x H1 Hx No].
    + exact (src_tgt_v _ _ _ (eq_sym Et)).
    + destruct (tgt_inj_v g R v (eto e) c b Hc Hb (eq_sym Et)) as [_ X]. exact (proj1 (el_out _ _ E e Hin Hv) (eq_sym X)).
    + apply ins_in in H1 as [H1 _]. apply (Lab e1 _ H1 Hx No (eto e)); [apply vertex_tgt, Hin|]. exists b. rewrite <- Et. eauto.
  - pose proof He as He'. apply outs_in in He' as [Hin Hv].
    rewrite totgt_out in Et by (intros X; apply in_src_vars in X as [c [Hc X]]; apply (Lab e x Hin Hx No v (out_vertex e He)); exists c; eauto).
    subst u. exfalso. destruct (InV x Hi) as [[p [Vp Vx]]|[e1 [H1 [Hx1 No1]]]]; [exact (Lab e x Hin Hx No p Vp Vx)|].
    apply ins_in in H1 as [H1 T1]. destruct (Nat.eq_dec (eid e1) (eid e)) as [Ei|Ni].
    + apply (wf_edge_eq g e1 e W H1 Hin) in Ei. subst e1. exact (proj1 (el_out _ _ E e Hin Hv) T1).
    + destruct (wf_priv g W e1 e x H1 Hin Ni Hx1 Hx). contradiction.
Qed.
Lemma untag_tgt J : (forall u, In u (vars J) -> In u (tgt_vars g v)) -> rename tgt (rename untag J) = J /\ forall u, In u (vars (rename untag J)) -> In u (gpv g v).
Proof.
  intros H. assert (X : forall b, In b (gpv g v) -> untag (tgt b) = b).
  { intros b Hb. pose proof (rep_base _ R v b Hb) as Eb. unfold untag, tgt. destruct b; cbn in *. congruence. }
  split.
  - rewrite rename_rename. apply rename_id. intros u Hu. apply H in Hu. apply in_map_iff in Hu as [b [<- Hb]]. rewrite (X b Hb). reflexivity.
  - intros u Hu. rewrite vars_rename in Hu. apply in_map_iff in Hu as [y [<- Hy]]. apply H in Hy. apply in_map_iff in Hy as [b [<- Hb]]. rewrite (X b Hb). exact Hb.
Qed.
Hypothesis Vv : vertex g v.
Theorem node_valid w w' rs0 : solution g' w -> only g' w -> back_node_valid check itp g (mkContr v (ins g v) (outs g v) rs0) w = Some w' -> solution g w' /\ only g w'.
Proof.
  intros Sw Ow H. unfold back_node_valid in H. cbn [cn_node cn_in cn_out] in H.
  destruct (map_opt (in_formula w) (ins g v)) as [fi|] eqn:Ei; [|discriminate]. destruct (map_opt (out_formula v w) (outs g v)) as [fo|] eqn:Eo; [|discriminate].
  fold totgt in H. set (A := mkOr fi) in *. set (B := rename totgt (mkOr fo)) in *.
  destruct (check [A; B]); try discriminate. destruct (itp [A] [B]) as [J|] eqn:EJ; [|discriminate].
  apply Hitp in EJ. destruct EJ as [JA JB JV].
  apply solution_facts in Sw as [V [S0 [S1 SE]]]. pose proof (el_pv elim Helim fresh g W v E) as PV. fold l g1 g' in PV.
  assert (V' : wvars g w) by (intros p d Ed u Hu; rewrite <- PV; exact (V p d Ed u Hu)).
  assert (Wv : w v = None). { destruct (w v) as [d|] eqn:Ed; [|reflexivity]. exfalso. assert (vertex g' v) as X by (apply Ow; congruence). apply (el_vertex elim Helim fresh g W v E) in X. tauto. }
  rewrite Wv in H. injection H as <-.
  assert (JVs : forall u, In u (vars J) -> In u (tgt_vars g v)).
  { intros u Hu. destruct (JV u Hu) as [HA HB]. unfold lvars in HA, HB. cbn [map concat] in HA, HB. rewrite app_nil_r in HA, HB.
    apply in_vars_app in HA as [t [Ht Hu1]]. destruct (map_opt_out _ _ _ Ei t Ht) as [e1 [He1 Hf1]]. pose proof (in_formula_vars w e1 t u V' He1 Hf1 Hu1) as I1.
    unfold B in HB. rewrite vars_rename in HB. apply in_map_iff in HB as [u' [Eu Hu2]]. apply in_vars_app in Hu2 as [t2 [Ht2 Hu2]]. destruct (map_opt_out _ _ _ Eo t2 Ht2) as [e2 [He2 Hf2]].
    apply (common u u' I1); [eapply out_formula_vars; eauto|exact Eu]. }
  destruct (untag_tgt J JVs) as [UJ UV].
  set (w' := wset w v (rename untag J)).
  assert (W1 : forall p, p <> v -> w' p = w p) by (intros p Np; unfold w', wset; destruct (Nat.eqb_spec p v); [contradiction|reflexivity]).
  assert (W2 : w' v = Some (rename untag J)) by (unfold w', wset; rewrite Nat.eqb_refl; reflexivity).
  assert (VW : wvars g w').
  { intros p d Ed u Hu. destruct (Nat.eq_dec p v) as [->|Np]; [rewrite W2 in Ed; injection Ed as <-; auto|rewrite (W1 p Np) in Ed; exact (V' p d Ed u Hu)]. }
  assert (WT : forall f, fst f <> v -> (wtrue g w' f <-> wtrue g w f)) by (intros f Nf; unfold wtrue; rewrite (W1 _ Nf); tauto).
  assert (Defd : forall p, p <> v -> w p <> None -> w' p <> None) by (intros p Np Hp; rewrite (W1 p Np); exact Hp).
  split.
  2:{ intros p Hp. destruct (Nat.eq_dec p v) as [->|Np].
      - exact Vv.
      - rewrite (W1 p Np) in Hp. apply Ow in Hp. apply (el_vertex elim Helim fresh g W v E) in Hp. tauto. }
  apply solution_facts. split; [exact VW|].
  split; [destruct S0 as [d0 [E0 H0]]; exists d0; split; [rewrite W1 by (intros X; exact (el_entry _ _ E (eq_sym X))); exact E0|exact H0]|].
  split; [destruct S1 as [d0 [E0 H0]]; exists d0; split; [rewrite W1 by (intros X; exact (el_exit _ _ E (eq_sym X))); exact E0|exact H0]|].
  intros e He. destruct (Nat.eq_dec (eto e) v) as [Te|Te]; [|destruct (in_dec Nat.eq_dec v (efrom e)) as [Fe|Fe]].
  - (* incoming *)
    assert (Hin : In e (ins g v)) by (apply ins_in; auto). destruct (el_in _ _ E e He Te) as [s [Fs Ns]].
    destruct (map_opt_in _ _ _ Ei e Hin) as [t [Ht It]]. pose proof Ht as Ht'. unfold in_formula in Ht'. rewrite Fs in Ht'. destruct (w s) as [d|] eqn:Ed; [|discriminate]. injection Ht' as <-.
    split; [intros p Hp; rewrite Fs in Hp; destruct Hp as [<-|[]]; apply Defd; congruence|]. split; [rewrite Te, W2; discriminate|].
    intros ps f F Hps. destruct (follows_prems g e ps f F) as [Fp Ff]. rewrite Fs in Fp. destruct ps as [|sf [|]]; try discriminate. injection Fp as Fp.
    apply (follows_single g e s sf f Fs) in F as [r [Hr [-> ->]]]. pose proof (Forall_inv Hps) as H1. apply (WT (s, args r (src_vars g (s, 0))) Ns) in H1. apply (wtrue_src g w s 0 r V') in H1 as [d' [Ed' Hd']].
    rewrite Ed in Ed'. injection Ed' as <-. apply wtrue_tgt; [exact VW|]. rewrite Te. exists (rename untag J). split; [exact W2|]. rewrite UJ. apply JA. constructor; [|constructor].
    unfold A. apply holds_or. apply Exists_exists. exists (mkAnd [rename (src 0) d; efla e]). split; [exact It|]. apply holds_and. constructor; [exact Hd'|]. constructor; [exact Hr|constructor].
  - (* outgoing *)
    assert (Hout : In e (outs g v)) by (apply outs_in; auto).
    destruct (map_opt_in _ _ _ Eo e Hout) as [t [Ht It]]. pose proof Ht as Ht'. destruct (out_formula_spec w e t Hout Ht) as [dt [ds [l1 [l2 [Et [Fl [[Nl _] [Et2 Eds]]]]]]]].
    destruct (other_defs_spec w _ _ Eds) as [Q1 Q2].
    assert (Ni : forall p i, In (p, i) (before l1 ++ after l1 l2) -> p <> v) by (intros p i Hp ->; apply Nl; apply in_app_iff in Hp as [Hp|Hp]; apply in_app_iff; [left; eapply before_in; eauto|right; eapply after_in; eauto]).
    assert (Ins : instances (efrom e) = before l1 ++ (v, 0) :: after l1 l2) by (rewrite Fl; apply instances_split; intros X; apply Nl, in_app_iff; auto).
    split; [|split; [apply Defd; congruence|]].
    { intros p Hp. destruct (Nat.eq_dec p v) as [->|Np]; [rewrite W2; discriminate|]. apply Defd; [exact Np|].
      rewrite <- (instances_fst (efrom e)), Ins in Hp. apply in_map_iff in Hp as [[q i] [<- Hq]]. cbn [fst] in *. assert (Hq' : In (q, i) (before l1 ++ after l1 l2)).
      { apply in_app_iff in Hq as [Hq|[Hq|Hq]]; apply in_app_iff; auto. injection Hq as <- <-. congruence. }
      destruct (Q1 q i Hq') as [d [Hd _]]. congruence. }
    intros ps f [r [Hr [-> ->]]] Hps. rewrite Ins in Hps.
    assert (Hm : wtrue g w' (v, args r (src_vars g (v, 0)))). { rewrite Forall_forall in Hps. apply Hps. apply in_map_iff. exists (v, 0). split; [reflexivity|]. apply in_app_iff. right. left. reflexivity. }
    assert (Ho : forall p i, In (p, i) (before l1 ++ after l1 l2) -> wtrue g w (p, args r (src_vars g (p, i)))).
    { intros p i Hp. apply WT; [exact (Ni p i Hp)|]. rewrite Forall_forall in Hps. apply Hps. apply in_map_iff. exists (p, i). split; [reflexivity|]. rewrite in_app_iff in *. cbn [In]. tauto. }
    (* the same valuation with the target arguments of the vertex set *)
    set (r2 := fun u => match find (fun b => var_eqb u (tgt b)) (gpv g v) with Some b => r (src 0 b) | None => r u end).
    assert (R1 : forall b, In b (gpv g v) -> r2 (tgt b) = r (src 0 b)).
    { intros b Hb. unfold r2. destruct (find (fun b0 => var_eqb (tgt b) (tgt b0)) (gpv g v)) as [c|] eqn:Ef.
      - apply find_some in Ef as [Hc Ec]. destruct (var_eqb_spec (tgt b) (tgt c)) as [Ec'|]; [|discriminate]. destruct (tgt_inj_v g R v v b c Hb Hc Ec') as [-> _]. reflexivity.
      - pose proof (find_none _ _ Ef b Hb) as X. cbv beta in X. destruct (var_eqb_spec (tgt b) (tgt b)); [discriminate|congruence]. }
    assert (R2 : forall u, ~ In u (tgt_vars g v) -> r2 u = r u).
    { intros u Nu. unfold r2. destruct (find (fun b0 => var_eqb u (tgt b0)) (gpv g v)) as [c|] eqn:Ef; [|reflexivity]. apply find_some in Ef as [Hc Ec].
      destruct (var_eqb_spec u (tgt c)) as [->|]; [|discriminate]. exfalso. apply Nu, in_map, Hc. }
    assert (HJ : holds r2 J).
    { apply (wtrue_src g w' v 0 r VW) in Hm as [dj [Edj Hj]]. rewrite W2 in Edj. injection Edj as <-. rewrite <- UJ.
      apply (holds_rename tgt r2 _ tgt_sort). apply (holds_rename (src 0) r _ (src_sort 0)) in Hj. unfold holds, holdsb in *. rewrite (eval_ext (fun u => r2 (tgt u)) (fun u => r (src 0 u))); [exact Hj|].
      intros u Hu. apply UV in Hu. cbn [eval]. rewrite (R1 u Hu). reflexivity. }
    assert (Agree : forall u, out_var u -> eval (fun x => r2 (totgt x)) (Var u) = eval r (Var u)).
    { intros u Ou. cbn [eval]. destruct (in_dec var_dec u (src_vars g (v, 0))) as [X|X].
      - apply in_src_vars in X as [b [Hb ->]]. cbn [fst snd] in *. rewrite (totgt_src b Hb), (R1 b Hb). reflexivity.
      - rewrite (totgt_out u X), (R2 u (out_not_tgt u Ou)). reflexivity. }
    apply WT; [exact Te|]. apply wtrue_tgt; [exact V'|]. exists dt. split; [exact Et|].
    destruct (holdsb r (rename tgt dt)) eqn:Eh; [exact Eh|]. exfalso. apply (JB r2 HJ). constructor; [|constructor].
    unfold B. apply (holds_rename totgt r2 _ totgt_sort). apply holds_or. apply Exists_exists. exists t. split; [exact It|].
    assert (Hol : holds r t).
    { rewrite Et2. apply holds_and. constructor; [exact Hr|]. constructor; [apply holds_not; unfold holds; rewrite Eh; discriminate|]. apply Forall_forall. intros x Hx.
      destruct (Q2 x Hx) as [p [i [d [Hp [Hd ->]]]]]. destruct (proj1 (wtrue_src g w p i r V') (Ho p i Hp)) as [d' [Hd' Hh]]. congruence. }
    unfold holds, holdsb in *. rewrite (eval_ext (fun x => r2 (totgt x)) r); [exact Hol|]. intros u Hu. apply Agree. exact (out_formula_vars w e t u V' Hout Ht Hu).
  - (* other edges *)
    assert (Hg' : In e (gedges g')) by (apply (el_edges elim Helim fresh g W v E); auto).
    destruct (SE e Hg') as [D1 [D2 D3]].
    assert (Np : forall p, In p (efrom e) -> p <> v) by (intros p Hp ->; contradiction).
    split; [intros p Hp; apply Defd; auto|]. split; [apply Defd; auto|]. intros ps f F Hps. destruct (follows_prems g e ps f F) as [Fp Ff].
    apply WT; [congruence|]. apply (wtrue_pv g g' w f PV). apply (D3 ps f); [apply (follows_pv g g' e ps f PV), F|].
    apply Forall_forall. intros x Hx. rewrite Forall_forall in Hps. apply (wtrue_pv g g' w x PV). apply WT; [|apply Hps, Hx].
    apply Np. rewrite <- Fp. apply in_map, Hx.
Qed.
End Node.
