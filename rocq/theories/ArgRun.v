(** * Predicate abstraction: counterexamples and the main loop. *)
From Verif Require Import Syntax Solver Graph GraphOps GraphOpsProofs ValidatorModel ValidatorProofs Names GraphSem SimpleTransModel UnreachProofs ReverseProofs SimplifierProofs ListLemmas EntailModel PropEntail PdkModel SpacerModel SpacerProofs SpacerRun ArgModel ArgClean ArgTree ArgInv ArgRefine.
Open Scope list_scope.
Open Scope nat_scope.

Section Run.
Variable c : ctors.
Hypothesis Hctors : ctors_ok c.
Variable check : check_fn.
Hypothesis Hc : check_ok check.
Variable titp : titp_fn.
Hypothesis Ht : titp_ok titp.
Variable ord : list term -> list term.
Hypothesis Hord : forall l t, In t (ord l) <-> In t l.
Variable cord : list (nat * nat) -> list (nat * nat).
Hypothesis Hcord : forall l x, In x (cord l) <-> In x l.
Variable cw : bool.
Variable h : hgraph.
Hypothesis W : arg_wf h.
Notation core := (core h).
Notation valid := (valid h).
Notation ginv := (ginv h).

(** ** A candidate counterexample *)
Section Proof.
Variable st : gst.
Variable C : core st.
Let G := co_shape _ _ C.
Variable e0 : hedge.
Variable srcs0 : list nat.
Hypothesis V : valid st (e0, srcs0).
Hypothesis Ex : eto e0 = exit.
Variable fuel : nat.
Variable T : list tnode.
Hypothesis ET : make_tree fuel st e0 srcs0 = Some T.
Variable ver : nat -> option nat.
Hypothesis Ev : versions fuel T = Some ver.
Let He0 : In e0 (gedges h) := proj1 V.
Let Ls0 : forall s, In s srcs0 -> s < length (g_nodes st) := proj1 (proj2 V).
Let Ss0 : map (nsym st) srcs0 = efrom e0 := proj2 (proj2 V).
Let Tn : tnodes st e0 T := proj1 (make_tree_ok h st G e0 srcs0 Ls0 fuel T ET).
Let Kd : forall i, i < length T -> map (argof T) (kids T i) = nz (tsrcs st srcs0 T i) := proj2 (make_tree_ok h st G e0 srcs0 Ls0 fuel T ET).
Let Vi := proj1 (versions_ok st e0 T Tn fuel ver Ev).
Let Vt := proj2 (versions_ok st e0 T Tn fuel ver Ev).

Section Spurious.
Variable Is : list term.
Hypothesis EI : titp (combine (map t_parent T) (labels h ver T)) = Some Is.
Let inf := info (learnt T Is).
Lemma in_inf s p : In p (inf s) <-> In (s, p) (learnt T Is).
Proof.
  unfold inf, info. rewrite add_terms_spec, in_map_iff. split.
  - intros [[]|[[s' p'] [E H]]]. apply filter_In in H as [H E']. cbn in E, E'. apply Nat.eqb_eq in E'. subst. exact H.
  - intros H. right. exists (s, p). split; [reflexivity|]. apply filter_In. split; [exact H|]. cbn. apply Nat.eqb_refl.
Qed.
Lemma in_learnt s p : In (s, p) (learnt T Is) <-> exists i n J, nth_error T i = Some n /\ nth_error Is i = Some J /\ t_parent n <> None /\ J <> tt_true /\ s = eto (t_edge n) /\ p = rename base J.
Proof.
  unfold learnt. rewrite in_flat_map. split.
  - intros [[n J] [H E]]. apply combine_in_nth in H as [i [H1 H2]]. cbn [fst snd] in E. destruct (t_parent n) as [x|] eqn:P; [|destruct E]. destruct (term_eqb_spec J tt_true) as [->|N]; [destruct E|].
    destruct E as [E|[]]. injection E as <- <-. exists i, n, J. rewrite P. repeat split; auto. discriminate.
  - intros [i [n [J [H1 [H2 [P [N [-> ->]]]]]]]]. exists (n, J). split; [apply combine_in_nth; eauto|]. cbn [fst snd]. destruct (t_parent n); [|congruence]. destruct (term_eqb_spec J tt_true); [contradiction|left; reflexivity].
Qed.
Lemma inf_vars s p v : In p (inf s) -> In v (vars p) -> In v (gpv h s).
Proof.
  intros Hp Hv. apply in_inf, in_learnt in Hp as [i [n [J [H1 [H2 [P [N [-> ->]]]]]]]].
  pose proof (itp_base_vars h W st G e0 srcs0 He0 Ls0 Ss0 T Tn Kd ver Vi Vt Ex titp Ht Is EI i J v H2 Hv) as X. unfold t_sym in X. rewrite H1 in X. exact X.
Qed.
Hypothesis K0 : g_unk st = false -> complete st.
Let st1 := refine_arg c check ord inf st.
Lemma interpolants_learnt : g_unk st1 = false -> forall k i J, length T <= i + k -> 0 < i < length T -> nth_error Is i = Some J -> J = tt_true \/ In (rename base J) (n_preds (nd st1 (argof T i))).
Proof.
  intros U k. induction k as [|k IH]; intros i J Lk Li HJ; [lia|]. destruct (term_eqb_spec J tt_true) as [E|N]; [left; exact E|right].
  destruct (nth_error T i) as [n|] eqn:Hn; [|apply nth_error_None in Hn; lia]. destruct (tn_node _ _ _ Tn i n (proj1 Li) Hn) as [p [Pp [Lp [La Le]]]].
  assert (Ea : argof T i = t_arg n) by (unfold argof; rewrite Hn; reflexivity). rewrite Ea. set (a := t_arg n) in *.
  destruct (like1 c Hctors check Hc ord Hord h W st C K0 inf inf_vars) as [A [B [D [F _]]]]. fold st1 in A, B, D, F.
  assert (Se : eto (t_edge n) = nsym st a) by (rewrite Le; apply (gs_edge _ _ G a La)).
  apply (complete1 c Hctors check Hc ord Hord h W st C K0 inf inf_vars U a).
  - fold st1. rewrite A. exact La.
  - apply (gp1 c Hctors check Hc ord Hord h W st C K0 inf inf_vars). right. apply in_inf, in_learnt. exists i, n, J. repeat split; auto; [congruence|]. fold st1. rewrite B. symmetry. exact Se.
  - fold st1. rewrite D, F. rewrite <- Le. intros r Hl Hs.
    refine (proj1 (itp_step h W st G e0 srcs0 He0 Ls0 Ss0 T Tn Kd ver Vi Vt Ex titp Ht Is EI i n r Hn Hl _) (proj1 Li) J HJ).
    intros j q kk Jj Hj HJj. destruct (combine_kid h W st G e0 srcs0 He0 Ls0 Ss0 T Tn Kd i n j q kk Hn Hj) as [Kj _].
    pose proof (kid_gt st e0 T Tn i j Kj) as Lj. pose proof (kids_lt T i j Kj) as Lj'.
    destruct (IH j Jj) as [->|Hp]; [lia|lia|exact HJj|intros; reflexivity|].
    apply (Hs (argof T j) q kk); [|exact Hp].
    destruct (kids_align h W st G e0 srcs0 He0 Ls0 Ss0 T Tn Kd i n Hn) as [[_ E]|[E _]]; [rewrite E in Kj; destruct Kj|].
    assert (Et : tsrcs st srcs0 T i = n_srcs (nd st a)) by (unfold tsrcs; destruct i; [lia|]; cbn [Nat.eqb]; rewrite Ea; reflexivity).
    rewrite <- Et, <- E. apply combine_in_nth in Hj as [x [X1 X2]]. apply combine_in_nth. exists x. split; [rewrite nth_error_map, X1; reflexivity|exact X2].
Qed.
Theorem spurious_removed : g_unk st1 = false -> infeasible st1 (e0, srcs0).
Proof.
  intros U r Hl Hs. cbn [fst snd] in *. pose proof (tn_root _ _ _ Tn) as H0.
  refine (proj2 (itp_step h W st G e0 srcs0 He0 Ls0 Ss0 T Tn Kd ver Vi Vt Ex titp Ht Is EI 0 _ r H0 Hl _) eq_refl). cbn [t_edge].
  intros j q kk Jj Hj HJj. destruct (combine_kid h W st G e0 srcs0 He0 Ls0 Ss0 T Tn Kd 0 _ j q kk H0 Hj) as [Kj _].
  pose proof (kid_gt st e0 T Tn 0 j Kj) as Lj. pose proof (kids_lt T 0 j Kj) as Lj'.
  destruct (interpolants_learnt U (length T) j Jj) as [->|Hp]; [lia|lia|exact HJj|intros; reflexivity|].
  apply (Hs (argof T j) q kk); [|exact Hp].
  destruct (kids_align h W st G e0 srcs0 He0 Ls0 Ss0 T Tn Kd 0 _ H0) as [[_ E]|[E _]]; [rewrite E in Kj; destruct Kj|].
  change (tsrcs st srcs0 T 0) with srcs0 in E. rewrite <- E. apply combine_in_nth in Hj as [x [X1 X2]]. apply combine_in_nth. exists x. split; [rewrite nth_error_map, X1; reflexivity|exact X2].
Qed.
End Spurious.

Section Real.
Variable m : valuation.
Hypothesis Hm : Forall (holds m) (labels h ver T).
Notation nf := (node_fact h ver T m).
Definition fact_at (d : derivation) (k : nat) (f : fact) : Prop := k < length d /\ option_map st_fact (nth_error d k) = Some f.
Record binv (n : nat) (d : derivation) (ds : list (fact * nat)) (pm : nat -> list nat) : Prop := {
  b_first : option_map st_fact (nth_error d 0) = Some (entry, []);
  b_steps : forall i s, 0 < i -> nth_error d i = Some s -> step_ok h d i s;
  b_ds : forall f k, step_of ds f = Some k -> fact_at d k f;
  b_ne : forall f k, step_of ds f = Some k -> fst f <> exit;
  b_pm : forall p, Forall2 (fun k j => fact_at d k (nf j)) (pm p) (filter (fun j => Nat.leb n j) (kids T p))
}.
Lemma fact_at_app d s k f : fact_at d k f -> fact_at (d ++ [s]) k f.
Proof. intros [L H]. split; [rewrite app_length; lia|]. rewrite nth_error_app1 by exact L. exact H. Qed.
Lemma step_ok_app d s i s0 : i < length d -> step_ok h d i s0 -> step_ok h (d ++ [s]) i s0.
Proof.
  intros L [e [ps [A [B [F D]]]]]. exists e, ps. split; [exact A|]. split; [exact B|]. split; [|exact D]. clear D.
  induction F as [|k f ks fs [Lk H] F IH]; constructor; [|exact IH]. split; [exact Lk|]. rewrite nth_error_app1 by lia. exact H.
Qed.
Lemma premises_app d s ks js : Forall2 (fun k j => fact_at d k (nf j)) ks js -> Forall2 (fun k f => k < length d /\ option_map st_fact (nth_error (d ++ [s]) k) = Some f) ks (map nf js).
Proof. intros X. induction X as [|k j ks js [L H] X IH]; cbn [map]; constructor; [|exact IH]. split; [exact L|]. rewrite nth_error_app1 by exact L. exact H. Qed.
Lemma filter_all_kids i : filter (fun j => Nat.leb (S i) j) (kids T i) = kids T i.
Proof. apply filter_keep. intros j Hj. apply Nat.leb_le. apply (kid_gt st e0 T Tn i j Hj). Qed.
Lemma kids_step i p : filter (fun j => Nat.leb i j) (kids T p) = (if existsb (Nat.eqb i) (kids T p) then [i] else []) ++ filter (fun j => Nat.leb (S i) j) (kids T p).
Proof.
  unfold kids. set (f := fun j : nat => match nth_error T j with Some n => match t_parent n with Some p0 => Nat.eqb p0 p | None => false end | None => false end).
  generalize (length T). intros N. assert (Q : forall l a, filter (fun j => Nat.leb i j) (filter f (seq a l)) = (if existsb (Nat.eqb i) (filter f (seq a l)) then [i] else []) ++ filter (fun j => Nat.leb (S i) j) (filter f (seq a l))).
  { induction l as [|l IH]; intros a; [reflexivity|]. cbn [seq filter]. destruct (f a) eqn:Fa; [|apply IH]. cbn [filter existsb]. rewrite IH. destruct (Nat.eqb_spec i a) as [->|N'].
    - assert (X : Nat.leb a a = true) by (apply Nat.leb_le; lia). assert (Y : Nat.leb (S a) a = false) by (apply Nat.leb_gt; lia). rewrite X, Y. cbn [orb app].
      assert (Z : existsb (Nat.eqb a) (filter f (seq (S a) l)) = false).
      { destruct (existsb _ _) eqn:Z; [|reflexivity]. apply existsb_exists in Z as [x [H E]]. apply Nat.eqb_eq in E. subst x. apply filter_In in H as [H _]. apply in_seq in H. lia. }
      rewrite Z. reflexivity.
    - cbn [orb]. destruct (existsb (Nat.eqb i) (filter f (seq (S a) l))) eqn:Z.
      + apply existsb_exists in Z as [x [H E]]. apply Nat.eqb_eq in E. subst x. apply filter_In in H as [H _]. apply in_seq in H.
        assert (X : Nat.leb i a = false) by (apply Nat.leb_gt; lia). assert (Y : Nat.leb (S i) a = false) by (apply Nat.leb_gt; lia). rewrite X, Y. reflexivity.
      + cbn [app]. assert (X : Nat.leb i a = Nat.leb (S i) a); [|rewrite X; reflexivity]. destruct (Nat.leb_spec i a), (Nat.leb_spec (S i) a); try reflexivity; lia. }
  apply Q.
Qed.
Lemma build_node i n d ds pm : nth_error T i = Some n -> binv (S i) d ds pm ->
  let f := nf i in
  exists d' ds' k, (match step_of ds f with Some k => (d, ds, k) | None => let k := length d in
      let clause := match nth_error T i with Some n => eid (t_edge n) | None => no_id end in
      (d ++ [mkStep (match pm i with [] => [0] | l => l end) f clause], ds ++ [(f, k)], k) end) = (d', ds', k) /\
    fact_at d' k f /\ (i = 0 -> k = length d' - 1 /\ 0 < length d') /\ (0 < i -> binv i d' ds' (match t_parent n with Some p => fun j => if Nat.eqb j p then k :: pm p else pm j | None => pm end)) /\
    option_map st_fact (nth_error d' 0) = Some (entry, []) /\ (forall j s, 0 < j -> nth_error d' j = Some s -> step_ok h d' j s).
Proof.
  intros Hi Bi f.
  assert (Fol : follows h (t_edge n) (match kids T i with [] => [(entry, [])] | l => map nf l end) f) by (apply (node_follows h W st G e0 srcs0 He0 Ls0 Ss0 T Tn Kd ver Ex m Hm i n Hi)).
  assert (Sym : fst f = t_sym T i) by reflexivity.
  assert (Se : t_sym T i = eto (t_edge n)) by (unfold t_sym; rewrite Hi; reflexivity).
  assert (Pm : forall d' k, (forall k0 f0, fact_at d k0 f0 -> fact_at d' k0 f0) -> fact_at d' k f -> 0 < i -> forall p,
    Forall2 (fun k j => fact_at d' k (nf j)) ((match t_parent n with Some p => fun j => if Nat.eqb j p then k :: pm p else pm j | None => pm end) p) (filter (fun j => Nat.leb i j) (kids T p))).
  { intros d' k Mono Fk Li p. rewrite kids_step. assert (Old : Forall2 (fun k j => fact_at d' k (nf j)) (pm p) (filter (fun j => Nat.leb (S i) j) (kids T p))).
    { pose proof (b_pm _ _ _ _ Bi p) as X. revert X. generalize (pm p) (filter (fun j => Nat.leb (S i) j) (kids T p)). intros l1 l2 X. induction X; constructor; auto. }
    destruct (parent_kid st e0 T Tn i n Li Hi) as [q [P [_ Kq]]]. rewrite P. destruct (Nat.eqb_spec p q) as [->|N].
    - assert (X : existsb (Nat.eqb i) (kids T q) = true) by (apply existsb_exists; exists i; split; [exact Kq|apply Nat.eqb_refl]). rewrite X. cbn [app]. constructor; [exact Fk|exact Old].
    - assert (X : existsb (Nat.eqb i) (kids T p) = false); [|rewrite X; exact Old]. destruct (existsb _ _) eqn:X; [|reflexivity]. exfalso. apply existsb_exists in X as [x [Hx E]]. apply Nat.eqb_eq in E. subst x.
      apply kids_spec in Hx as [n' [Hn' P']]. congruence. }
  destruct (step_of ds f) as [k|] eqn:Es.
  - exists d, ds, k. split; [reflexivity|]. pose proof (b_ds _ _ _ _ Bi f k Es) as Fk. split; [exact Fk|]. split; [|split; [|split; [apply (b_first _ _ _ _ Bi)|apply (b_steps _ _ _ _ Bi)]]].
    + intros ->. exfalso. apply (b_ne _ _ _ _ Bi f k Es). rewrite Sym, Se. rewrite (tn_root _ _ _ Tn) in Hi. injection Hi as <-. exact Ex.
    + intros Li. destruct Bi. split; auto.
  - cbv zeta. rewrite Hi. set (s := mkStep (match pm i with [] => [0] | l => l end) f (eid (t_edge n))). exists (d ++ [s]), (ds ++ [(f, length d)]), (length d). split; [reflexivity|].
    assert (Fk : fact_at (d ++ [s]) (length d) f) by (split; [rewrite app_length; cbn; lia|rewrite nth_error_app2, Nat.sub_diag by lia; reflexivity]).
    assert (Ld : 0 < length d) by (apply nth_error_Some; pose proof (b_first _ _ _ _ Bi) as X; destruct (nth_error d 0); [discriminate|discriminate X]).
    assert (F0 : option_map st_fact (nth_error (d ++ [s]) 0) = Some (entry, [])) by (rewrite nth_error_app1 by exact Ld; apply (b_first _ _ _ _ Bi)).
    assert (St : forall j s0, 0 < j -> nth_error (d ++ [s]) j = Some s0 -> step_ok h (d ++ [s]) j s0).
    { intros j s0 Lj Hj. destruct (Nat.lt_ge_cases j (length d)) as [L|L].
      - rewrite nth_error_app1 in Hj by exact L. apply step_ok_app; [exact L|]. apply (b_steps _ _ _ _ Bi j s0 Lj Hj).
      - rewrite nth_error_app2 in Hj by exact L. destruct (j - length d) as [|x] eqn:Dx; [|destruct x; discriminate]. cbn in Hj. injection Hj as <-. assert (j = length d) by lia. subst j.
        eexists. eexists. split; [apply (proj1 (node_edge h st G e0 srcs0 He0 Ls0 Ss0 T Tn i n Hi))|]. split; [reflexivity|]. split; [|exact Fol]. unfold s at 1. cbn [st_premises].
        pose proof (b_pm _ _ _ _ Bi i) as X. rewrite filter_all_kids in X. destruct X as [|k j ks js Hkj X].
        + constructor; [|constructor]. split; [exact Ld|exact F0].
        + cbn [map]. constructor; [split; [apply Hkj|rewrite nth_error_app1 by apply Hkj; apply Hkj]|]. apply premises_app, X. }
    split; [exact Fk|]. split; [intros _; rewrite app_length; cbn; lia|]. split; [|split; [exact F0|exact St]].
    intros Li. split.
    + exact F0.
    + exact St.
    + intros f' k'. rewrite step_of_app. destruct (step_of ds f') as [k0|] eqn:E0; [intros E; injection E as <-; apply fact_at_app, (b_ds _ _ _ _ Bi f' k0 E0)|].
      destruct (fact_eqb f f') eqn:Ef; [|discriminate]. intros E. injection E as <-. apply fact_eqb_eq in Ef. subst f'. exact Fk.
    + intros f' k'. rewrite step_of_app. destruct (step_of ds f') as [k0|] eqn:E0; [intros _; apply (b_ne _ _ _ _ Bi f' k0 E0)|].
      destruct (fact_eqb f f') eqn:Ef; [|discriminate]. intros _. apply fact_eqb_eq in Ef. subst f'. rewrite Sym, Se. destruct (tn_node _ _ _ Tn i n Li Hi) as [p [_ [_ [La Le]]]]. rewrite Le.
      destruct (gs_edge _ _ G (t_arg n) La) as [_ [-> X]]. exact X.
    + apply Pm; [intros k0 f0; apply fact_at_app|exact Fk|exact Li].
Qed.
Lemma rev_seq_S n : rev (seq 0 (S n)) = n :: rev (seq 0 n).
Proof. rewrite seq_S, rev_app_distr. reflexivity. Qed.
Lemma build_ok n : forall d ds pm, S n <= length T -> binv (S n) d ds pm -> refutation h (build h ver T m (rev (seq 0 (S n))) d ds pm).
Proof.
  induction n as [|n IH]; intros d ds pm L B; rewrite rev_seq_S; cbn [build].
  - destruct (nth_error T 0) as [n0|] eqn:Hn; [|apply nth_error_None in Hn; lia]. destruct (build_node 0 n0 d ds pm Hn B) as [d' [ds' [k [E [Fk [K0 [_ [F0 St]]]]]]]]. rewrite Hn in E. cbv zeta in E |- *. rewrite E. cbn [seq rev build].
    destruct (K0 eq_refl) as [Ek Lk]. split; [exact F0| |exact St]. exists (length d' - 1). split; [lia|]. rewrite <- Ek. rewrite (proj2 Fk). f_equal. unfold node_fact, inst_vars, t_sym. rewrite Hn.
    rewrite (tn_root _ _ _ Tn) in Hn. injection Hn as <-. cbn [t_edge]. rewrite Ex, (rep_exit _ (aw_rep h W)). reflexivity.
  - destruct (nth_error T (S n)) as [nn|] eqn:Hn; [|apply nth_error_None in Hn; lia]. destruct (build_node (S n) nn d ds pm Hn B) as [d' [ds' [k [E [_ [_ [B' _]]]]]]]. rewrite Hn in E. cbv zeta in E |- *. rewrite E. apply IH; [lia|apply B'; lia].
Qed.
Theorem witness_ok : refutation h (arg_witness h ver T m).
Proof.
  unfold arg_witness. assert (L : 0 < length T) by (apply nth_error_Some; rewrite (tn_root _ _ _ Tn); discriminate). assert (Hn : exists n, length T = S n) by (exists (length T - 1); lia). destruct Hn as [n El]. rewrite El. apply build_ok; [lia|]. split.
  - reflexivity.
  - intros i s Li Hs. destruct i as [|i]; [lia|]. destruct i; discriminate.
  - intros f k. cbn [step_of]. destruct (fact_eqb (entry, []) f) eqn:Ef; [|discriminate]. intros E. injection E as <-. apply fact_eqb_eq in Ef. subst f. split; [cbn; lia|reflexivity].
  - intros f k. cbn [step_of]. destruct (fact_eqb (entry, []) f) eqn:Ef; [|discriminate]. intros _. apply fact_eqb_eq in Ef. subst f. discriminate.
  - intros p. assert (X : filter (fun j => Nat.leb (S n) j) (kids T p) = []); [|rewrite X; constructor].
    destruct (filter _ (kids T p)) as [|j l] eqn:Ej; [reflexivity|]. exfalso. assert (H : In j (filter (fun j => Nat.leb (S n) j) (kids T p))) by (rewrite Ej; left; reflexivity).
    apply filter_In in H as [H1 H2]. apply kids_lt in H1. apply Nat.leb_le in H2. lia.
Qed.
End Real.
End Proof.

(** ** The main loop *)
Lemma init_ok : ginv arg_init (fold_left (fun q e => enqueue q (e, [0])) (outs h entry) []).
Proof.
  assert (Sh : gshape h arg_init) by (split; cbn; try reflexivity; intros; lia).
  assert (Q : forall es q, (forall e, In e es -> In e (outs h entry)) -> (forall y, In y q -> valid arg_init y) ->
    let q' := fold_left (fun q e => enqueue q (e, [0])) es q in (forall y, In y q' -> valid arg_init y) /\ (forall y, In y q -> In y q') /\ (forall e, In e es -> In (e, [0]) q')).
  { induction es as [|e es IH]; intros q He V; cbn [fold_left]; [repeat split; auto; try apply (V _ H); intros ? []|].
    destruct (IH (enqueue q (e, [0]))) as [A [B D]].
    - intros e' H'. apply He. right. exact H'.
    - intros y Hy. apply in_enqueue in Hy as [->|Hy]; [|apply V, Hy]. assert (Ho := He e (or_introl eq_refl)). apply (in_outs h W) in Ho as [H1 H2].
      split; [exact H1|]. split; [intros s [<-|[]]; cbn; lia|]. cbn [fst snd map]. rewrite (aw_alone h W e H1 H2). reflexivity.
    - split; [exact A|]. split; [intros y Hy; apply B, in_enqueue; auto|]. intros e' [<-|H']; [apply B, in_enqueue; auto|apply D, H']. }
  destruct (Q (outs h entry) [] (fun e H => H)) as [A [_ D]]; [intros ? []|]. split.
  - split; auto; try (cbn; intros; lia); cbn; intros; contradiction.
  - exact A.
  - intros _ j p L. cbn in L. lia.
  - intros _ e srcs [H1 [H2 H3]] _. cbn [fst snd] in *. left. assert (Z : forall s, In s srcs -> s = 0) by (intros s Hs; specialize (H2 s Hs); cbn in H2; lia).
    destruct srcs as [|s l]; [exfalso; cbn in H3; apply (aw_from h W e H1); auto|]. assert (s = 0) by (apply Z; left; reflexivity). subst s.
    assert (En : In entry (efrom e)) by (rewrite <- H3; left; reflexivity). pose proof (aw_alone h W e H1 En) as Ea. rewrite Ea in H3. cbn in H3. destruct l; [|discriminate]. apply D. apply (in_outs h W). auto.
Qed.

(** The states of the instances are a solution when nothing is left to explore. *)
Lemma final_solution st : ginv st [] -> g_unk st = false -> solution h (arg_defs c ord h st).
Proof.
  intros Q U. pose proof (gi_core _ _ _ Q) as C. pose proof (co_shape _ _ C) as Sh. pose proof (gi_explored _ _ _ Q U) as Xp.
  assert (Dp : forall p, p <> entry -> p <> exit -> vertex h p -> arg_defs c ord h st p = Some (cor c (map (reached c ord st) (insts st p)))).
  { intros p N1 N2 Vp. unfold arg_defs. destruct (Nat.eqb_spec p entry) as [Ep|_]; [contradiction|]. destruct (Nat.eqb_spec p exit) as [Ep|_]; [contradiction|].
    assert (X : smem p (hnodes h) = true) by (apply smem_in, (hnodes_spec h (aw_ids h W)), Vp). rewrite X. reflexivity. }
  assert (De : arg_defs c ord h st entry = Some tt_true) by reflexivity.
  assert (Dx : arg_defs c ord h st exit = Some tt_false) by reflexivity.
  split.
  - intros p d Ed v Hv. unfold arg_defs in Ed. destruct (Nat.eqb_spec p entry) as [Ep|_]; [injection Ed as <-; destruct Hv|]. destruct (Nat.eqb_spec p exit) as [Ep|_]; [injection Ed as <-; destruct Hv|].
    destruct (smem p (hnodes h)); [|discriminate]. injection Ed as <-. apply (cor_vars c Hctors) in Hv as [t [H1 H2]]. apply in_map_iff in H1 as [i [<- Hi]]. apply in_insts in Hi as [Li Si].
    unfold reached in H2. apply (cand_vars c Hctors) in H2 as [t [H3 H4]]. apply (proj1 (Hord _ _)) in H3. destruct i as [|i]; [rewrite (co_root _ _ C) in H3; destruct H3|].
    pose proof (co_preds _ _ C (S i) t (conj (Nat.lt_0_succ i) Li) H3) as X. rewrite Si in X. apply (co_vars _ _ C p t v X H4).
  - exists tt_true. split; [exact De|]. intros r. reflexivity.
  - exists tt_false. split; [exact Dx|]. intros r H. discriminate H.
  - intros e He. assert (Vs : forall p, In p (efrom e) -> vertex h p) by (intros p Hp; apply (vertex_src h e p He Hp)).
    assert (Xs : forall p, In p (efrom e) -> p <> exit) by (intros p Hp ->; apply (aw_exit h W e He Hp)). split.
    { intros p Hp. destruct (Nat.eq_dec p entry) as [->|N]; [rewrite De; discriminate|]. rewrite (Dp p N (Xs p Hp) (Vs p Hp)). discriminate. }
    assert (Key : forall r, holds r (efla e) -> (forall p i d, In (p, i) (instances (efrom e)) -> arg_defs c ord h st p = Some d -> holds r (rename (src i) d)) ->
      exists j, 0 < j < length (g_nodes st) /\ nsym st j = eto e /\ forall t, In t (n_preds (nd st j)) -> holds r (rename tgt t)).
    { intros r Hl Hs.
      (* choose uncovered instances *)
      assert (Ch : exists srcs, Forall2 (fun i pk => i < length (g_nodes st) /\ nsym st i = fst pk /\ gcovered st i = false /\ forall t, In t (n_preds (nd st i)) -> holds r (rename (src (snd pk)) t)) srcs (instances (efrom e))).
      { assert (Hall : forall p k, In (p, k) (instances (efrom e)) -> exists i, i < length (g_nodes st) /\ nsym st i = p /\ gcovered st i = false /\ forall t, In t (n_preds (nd st i)) -> holds r (rename (src k) t)).
        { intros p k Hp. assert (Hp' : In p (efrom e)) by (rewrite <- (instances_fst (efrom e)); apply in_map_iff; exists (p, k); auto).
          assert (Hi : exists i, i < length (g_nodes st) /\ nsym st i = p /\ forall t, In t (n_preds (nd st i)) -> holds r (rename (src k) t)).
          { destruct (Nat.eq_dec p entry) as [->|N].
            - exists 0. split; [apply (gs_len _ _ Sh)|]. split; [apply (gs_root _ _ Sh)|]. rewrite (co_root _ _ C). intros t [].
            - specialize (Hs p k _ Hp (Dp p N (Xs p Hp') (Vs p Hp'))). apply (proj1 (holds_rename _ r _ (src_sort k))) in Hs. apply (cor_sem c Hctors) in Hs. apply Exists_exists in Hs as [t [H1 H2]].
              apply in_map_iff in H1 as [i [<- Hi]]. apply in_insts in Hi as [Li Si]. exists i. split; [exact Li|]. split; [exact Si|]. apply (reached_holds c Hctors ord Hord st i r (src k) (src_sort k)).
              apply holds_rename; [apply src_sort|exact H2]. }
          destruct Hi as [i [Li [Si Hi]]]. destruct (uncovered_below h st C i Li) as [u [A [B [D F]]]]. exists u. split; [exact A|]. split; [congruence|]. split; [exact B|]. intros t Ht'. apply Hi, F, Ht'. }
        clear -Hall. induction (instances (efrom e)) as [|[p k] l IH]; [exists []; constructor|]. destruct (Hall p k (or_introl eq_refl)) as [i Hi]. destruct IH as [is His]; [intros p' k' H'; apply Hall; right; exact H'|].
        exists (i :: is). constructor; [exact Hi|exact His]. }
      destruct Ch as [srcs Ch].
      assert (Ms : map (nsym st) srcs = efrom e) by (rewrite <- (instances_fst (efrom e)); clear -Ch; induction Ch as [|i pk is l [_ [H _]] _ IH]; cbn [map]; congruence).
      assert (Fs : forall s, In s srcs -> s < length (g_nodes st) /\ gcovered st s = false).
      { clear -Ch. induction Ch as [|i pk is l [H1 [_ [H2 _]]] _ IH]; intros s Hs; [destruct Hs|]. destruct Hs as [<-|Hs]; auto. }
      assert (Sh' : shold st e srcs r).
      { intros i p k t Hi Ht'. clear -Ch Hi Ht'. induction Ch as [|i0 pk is l [_ [_ [_ H]]] _ IH]; [destruct Hi|]. cbn [combine] in Hi. destruct Hi as [E|Hi]; [|auto]. inversion E; subst. apply (H t Ht'). }
      destruct (Xp e srcs) as [[]|[I|[j [Lj [E1 E2]]]]].
      - split; [exact He|]. split; [intros s Hs'; apply Fs, Hs'|exact Ms].
      - intros s Hs'. apply Fs, Hs'.
      - destruct (I r Hl Sh').
      - exists j. split; [exact Lj|]. split; [rewrite <- E1; symmetry; apply (gs_edge _ _ Sh j Lj)|]. intros t Ht'. apply (co_sound _ _ C j t Lj Ht' r); [rewrite E1; exact Hl|rewrite E1, E2; exact Sh']. }
    destruct (Nat.eq_dec (eto e) exit) as [Ex|Nx].
    + exists tt_false. rewrite Ex. split; [exact Dx|]. intros r Hl Hs. exfalso. destruct (Key r Hl Hs) as [j [Lj [Sj _]]]. apply (proj2 (proj2 (gs_edge _ _ Sh j Lj))). congruence.
    + eexists. split; [apply (Dp (eto e) (aw_entry h W e He) Nx (vertex_tgt h e He))|]. intros r Hl Hs. destruct (Key r Hl Hs) as [j [Lj [Sj Hj]]].
      apply holds_rename; [apply tgt_sort|]. apply (cor_sem c Hctors). apply Exists_exists. exists (reached c ord st j). split; [apply in_map, in_insts; split; [lia|exact Sj]|].
      apply (proj1 (holds_rename _ r _ tgt_sort)). apply (reached_holds c Hctors ord Hord st j r tgt tgt_sort). exact Hj.
Qed.

Theorem arg_loop_ok fuel : forall st q, ginv st q ->
  match arg_loop c check titp ord cord cw h fuel st q with
  | ASafe unk w => (unk = false -> exists d, solution h d /\ w = (if cw then Some d else None)) /\ (w = None <-> cw = false)
  | AUnsafe w => exists d, refutation h d /\ w = (if cw then Some d else None)
  | AThrow => (exists qy, check qy = UNKNOWN) \/ exists T, titp T = None
  | AFuel => True
  end.
Proof.
  induction fuel as [|f IH]; intros st q Q; cbn [arg_loop]; [exact I|]. destruct q as [|[e srcs] q'].
  - split; [intros U; exists (arg_defs c ord h st); split; [apply (final_solution st Q U)|reflexivity]|]. destruct cw; split; congruence.
  - pose proof (gi_queue _ _ _ Q (e, srcs) (or_introl eq_refl)) as V. pose proof (gi_core _ _ _ Q) as C. destruct (feasible c check ord st e srcs) eqn:Fe; cbn [negb].
    + destruct (Nat.eqb_spec (eto e) exit) as [Ex|Nx].
      * unfold real_proof. destruct (make_tree f st e srcs) as [T|] eqn:ET; [|exact I]. destruct (versions f T) as [ver|] eqn:Ev; [|exact I].
        destruct (check (labels h ver T)) as [m| |] eqn:Ec.
        -- exists (arg_witness h ver T m). split; [|destruct cw; reflexivity]. apply (witness_ok st C e srcs V Ex f T ET). apply (check_sat _ Hc), Ec.
        -- destruct (titp (combine (map t_parent T) (labels h ver T))) as [Is|] eqn:EI; [|right; eauto].
           pose proof (inf_vars st C e srcs V Ex f T ET ver Ev Is EI) as Hv.
           destruct (refine c check ord cord h (info (learnt T Is)) st q') as [st' q''] eqn:Er. apply IH.
           pose proof (refine_ok c Hctors check Hc ord Hord cord Hcord h W st C (gi_complete _ _ _ Q) (info (learnt T Is)) Hv (e, srcs) q') as X. rewrite Er in X. apply X.
           ++ apply (gi_explored _ _ _ Q).
           ++ intros y Hy. apply (gi_queue _ _ _ Q). right. exact Hy.
           ++ apply (spurious_removed st C e srcs V Ex f T ET ver Ev Is EI (gi_complete _ _ _ Q)).
        -- left. eauto.
      * destruct (compute_target c check ord st e srcs) as [st' covd] eqn:Ei. apply IH. apply (insert_ok c Hctors check Hc ord Hord h W st ((e, srcs) :: q') Q e srcs V Nx st' covd Ei q' eq_refl).
    + apply IH. split.
      * exact C.
      * intros x Hx. apply (gi_queue _ _ _ Q). right. exact Hx.
      * apply (gi_complete _ _ _ Q).
      * intros U e1 s1 V1 U1. destruct (gi_explored _ _ _ Q U e1 s1 V1 U1) as [[H|H]|H]; [|left; exact H|right; exact H].
        injection H as <- <-. right. left. intros r Hl Hs. cbn [fst snd] in *. unfold feasible in Fe. destruct (check (efla e :: src_states c ord st srcs)) as [| |] eqn:Ec; try discriminate.
        apply (check_unsat _ Hc _ Ec r). constructor; [exact Hl|]. apply (src_states_holds c Hctors ord Hord st e srcs r); [apply V|exact Hs].
Qed.
Theorem arg_run_ok fuel :
  match arg_run c check titp ord cord cw h fuel with
  | ASafe unk w => (unk = false -> exists d, solution h d /\ w = (if cw then Some d else None)) /\ (w = None <-> cw = false)
  | AUnsafe w => exists d, refutation h d /\ w = (if cw then Some d else None)
  | AThrow => (exists qy, check qy = UNKNOWN) \/ exists T, titp T = None
  | AFuel => True
  end.
Proof. apply arg_loop_ok, init_ok. Qed.
End Run.
