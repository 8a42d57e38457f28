(** * LAWI: the search and the final interpretation. *)
From Coq Require Import Permutation.
From Verif Require Import Syntax Solver TransSys TSLemmas Graph GraphOps GraphOpsProofs DfsProofs GraphSem SimpleTransModel MergeModel MergeProofs ListLemmas LinearModel LinearProofs LinearPath LinearTS NontermProofs SymExModel SymExProofs PdkModel LawiModel LawiTree LawiProofs.
Open Scope list_scope.
Open Scope nat_scope.

Section Run.
Variable c : ctors.
Hypothesis Hct : ctors_ok c.
Variable check : check_fn.
Hypothesis Hc : check_ok check.
Variable pitp : pitp_fn.
Hypothesis Hp : pitp_ok pitp.
Variable simp : term -> term.
Hypothesis Hs : simp_ok simp.
Variable part : list ledge -> list ledge.
Hypothesis Hpart : forall l, Permutation (part l) l.
Variable forced computeWitness : bool.
Variable g : lgraph.
Hypothesis W : lwf g.

Definition tinv (st : lst) : Prop := twf g (l_tree st) /\ forall v, In v (l_leaves st) -> v < length (l_tree st).
Definition error_run (ids : list nat) : Prop :=
  exists es r, ids = map lid es /\ (forall e, In e es -> In e (ledges g)) /\ connected entry es exit /\ check (path_labels 0 es) = SAT r.

Lemma nca_loop_anc t preds fuel : twf g t -> forall v, v < length t -> anc t (nca_loop fuel t preds v) v.
Proof.
  intros T. induction fuel as [|f IH]; intros v L; cbn [nca_loop]; destruct (Nat.eqb_spec v 0) as [E|N]; try (rewrite E; constructor).
  - destruct (existsb (Nat.eqb v) preds); [constructor|apply (anc_root g t T v L)].
  - destruct (existsb (Nat.eqb v) preds); [constructor|]. destruct (up_total g t T v L N) as [p [e U]]. pose proof (up_some g t T v p e U) as X.
    assert (E : parent t v = p) by (unfold parent; rewrite U; reflexivity). rewrite E. apply (anc_step t _ p e v); [apply IH; lia|exact U].
Qed.
Lemma force_tree st v : twf g (l_tree st) -> v < length (l_tree st) ->
  match force c check pitp st v with
  | Some st' => l_tree st' = l_tree st /\ l_leaves st' = l_leaves st
  | None => gave_up check pitp
  end.
Proof.
  intros T L. unfold force. destruct (earlier (l_tree st) v) as [|w us]; [auto|]. destruct (covered st w); [auto|].
  destruct (path_to_total g _ T v (nca (l_tree st) w v) (nca_loop_anc _ _ _ T v L)) as [l ->]. destruct (check _); auto.
  destruct (path_itps pitp _ _) as [its|] eqn:Ei.
  - pose proof (strengthen_tree c check (combine l (normalize 1 its)) st []) as X. destruct (strengthen c check st (combine l (normalize 1 its)) []) as [st' vs]. exact X.
  - right. unfold path_itps in Ei. destruct (length _ - 1); [discriminate|]. destruct (pitp _) eqn:Ep; [discriminate|eauto].
Qed.
Lemma force_all_tree vs : forall st, twf g (l_tree st) -> (forall v, In v vs -> v < length (l_tree st)) ->
  match force_all c check pitp st vs with
  | Some st' => l_tree st' = l_tree st /\ l_leaves st' = l_leaves st
  | None => gave_up check pitp
  end.
Proof.
  induction vs as [|v vs IH]; intros st T L; cbn [force_all]; [auto|]. pose proof (force_tree st v T (L v (or_introl eq_refl))) as X. destruct (force c check pitp st v) as [s|]; [|exact X].
  destruct X as [X1 X2]. specialize (IH s). rewrite X1, X2 in IH. apply IH; [exact T|]. intros u Hu. apply L. right. exact Hu.
Qed.

Definition dfs_post (st : lst) (r : dres) : Prop :=
  match r with
  | DCont st' => tinv st' /\ length (l_tree st) <= length (l_tree st') /\ (forced = false -> inv g st -> inv g st')
  | DUnsafe ids => error_run ids
  | DThrow => gave_up check pitp
  | DFuel => True
  end.
Lemma still_tinv st st' : still st st' -> tinv st -> tinv st'.
Proof. intros [S1 [S2 S3]] [T L]. split; rewrite ?S1, ?S3; assumption. Qed.
Lemma dfs_ok fuel : forall st v, tinv st -> v < length (l_tree st) -> dfs_post st (dfs c check pitp part forced g fuel st v).
Proof.
  induction fuel as [|f IH]; intros st v Ti Lv; cbn [dfs]; [exact Logic.I|]. pose proof (close_still c check st v) as Sc. set (s1 := close c check st v) in *.
  pose proof (still_tinv _ _ Sc Ti) as Ti1. pose proof Sc as [St _]. assert (I1 : inv g st -> inv g s1) by (intros I; apply (close_ok c Hct check Hc g); assumption).
  assert (Lv1 : v < length (l_tree s1)) by (rewrite St; exact Lv). destruct (covered s1 v).
  { split; [exact Ti1|]. split; [rewrite St; lia|auto]. }
  destruct (Nat.eqb_spec (loc (l_tree s1) v) exit) as [Ex|Nx].
  - pose proof (refine_tree c check pitp g s1 v (proj1 Ti1) Lv1 Ex) as X. pose proof (fun I => refine_ok c Hct check Hc pitp Hp g W s1 v I Lv1 Ex) as Y.
    destruct (refine c check pitp s1 v) as [ids|s2 vs|]; [exact X| |exact X]. destruct X as [X1 X2]. pose proof (close_all_still c check vs s2) as Sa.
    assert (Ti2 : tinv s2). { split; rewrite X1; [apply Ti1|]. intros u Hu. apply (proj2 Ti1), X2, Hu. }
    split; [apply (still_tinv _ _ Sa Ti2)|]. split; [destruct Sa as [-> _]; rewrite X1, St; lia|]. intros _ I. destruct (Y (I1 I)) as [Y1 [Y2 Y3]].
    apply (close_all_ok c Hct check Hc g); [exact Y1|]. intros u Hu. rewrite Y2. apply Y3, Hu.
  - pose proof (expand_twf part Hpart g W s1 v (proj1 Ti1) Lv1) as T2. pose proof (expand_leaves part g s1 v (proj2 Ti1)) as L2.
    assert (I2 : inv g s1 -> inv g (expand part g s1 v)) by (intros I; apply (expand_ok part Hpart g W); assumption).
    assert (Len : length (l_tree s1) <= length (l_tree (expand part g s1 v))) by (unfold expand; cbn [remove_leaf l_tree]; rewrite app_length; lia).
    set (s2 := expand part g s1 v) in *. set (kids := children (l_tree s2) v).
    assert (Lk : forall k, In k kids -> k < length (l_tree s2)) by (intros k Hk; apply filter_In in Hk as [Hk _]; apply in_seq in Hk; lia).
    assert (F : match (if forced then force_all c check pitp s2 kids else Some s2) with
                | Some s3 => l_tree s3 = l_tree s2 /\ l_leaves s3 = l_leaves s2 /\ (forced = false -> s3 = s2)
                | None => gave_up check pitp end).
    { destruct forced; [|auto]. pose proof (force_all_tree kids s2 T2 Lk) as X. destruct (force_all c check pitp s2 kids); [|exact X]. destruct X. split; [assumption|]. split; [assumption|discriminate]. }
    destruct (if forced then force_all c check pitp s2 kids else Some s2) as [s3|]; [|exact F]. destruct F as [F1 [F2 F3]].
    assert (Ti3 : tinv s3) by (split; rewrite F1; [exact T2|rewrite F2; exact L2]).
    assert (Ln3 : length (l_tree st) <= length (l_tree s3)) by (rewrite F1; rewrite St in Len; exact Len).
    assert (I3 : forced = false -> inv g st -> inv g s3) by (intros Ef I; rewrite (F3 Ef); auto).
    rewrite <- F1 in Lk. clear - IH Ti3 Ln3 I3 Lk. revert s3 Ti3 Ln3 I3 Lk. generalize kids. clear kids. intros kids.
    induction kids as [|k kids IHk]; intros s Ti Ln I Lk; [split; [exact Ti|]; split; assumption|].
    pose proof (IH s k Ti (Lk k (or_introl eq_refl))) as X. destruct (dfs c check pitp part forced g f s k) as [s'|ids| |]; cbn in X; try exact X. destruct X as [X1 [X2 X3]].
    apply IHk; [exact X1|lia|auto|]. intros u Hu. specialize (Lk u (or_intror Hu)). lia.
Qed.

(** ** The final interpretation *)
Section Final.
Variable st : lst.
Hypothesis I : inv g st.
Hypothesis Done : uncovered_leaf st = None.
Let t := l_tree st.
Let T : twf g t := iv_tree _ _ (iv_0 _ _ I).
Definition open_vertex (v : nat) : Prop := v < length t /\ covered st v = false.
Lemma leaf_covered v : In v (l_leaves st) -> covered st v = true.
Proof.
  intros H. unfold uncovered_leaf in Done. rewrite in_rev in H. pose proof (find_none _ _ Done v H) as X. apply negb_false_iff in X. exact X.
Qed.
Lemma not_covered v : v < length t -> covered st v = false -> forall a w, anc t a v -> ~ In (a, w) (l_cov st).
Proof. intros L N a w Ha Hw. assert (X : covered st v = true); [|congruence]. apply (covered_spec g t T _ v L). eauto. Qed.
Lemma coverer_open v w : In (v, w) (l_cov st) -> open_vertex w.
Proof.
  intros H. destruct (iv_cov _ _ (iv_0 _ _ I) v w H) as [_ [Lw [_ [_ N]]]]. split; [exact Lw|]. destruct (covered st w) eqn:C; [|reflexivity]. exfalso.
  apply (covered_spec g t T _ w Lw) in C as [a [x [Ha Hx]]]. exact (N a x Ha Hx).
Qed.
Lemma root_open : open_vertex 0.
Proof.
  pose proof (tree_pos g t T) as L. split; [exact L|]. destruct (covered st 0) eqn:C; [|reflexivity]. exfalso. apply (covered_spec g t T _ 0 L) in C as [a [w [Ha Hw]]].
  destruct (iv_cov _ _ (iv_0 _ _ I) a w Hw) as [_ [Lw [_ [_ N]]]]. apply (N a w); [|exact Hw]. apply (anc_le g t T) in Ha. assert (a = 0) by lia. subst a. apply (anc_root g t T w Lw).
Qed.
Lemma final_step v e r : open_vertex v -> In e (ledges g) -> lfrom e = loc t v -> holds r (l_lab st v) -> holds r (lfla e) ->
  lto e <> exit /\ exists w, open_vertex w /\ loc t w = lto e /\ holds r (shift 1 (l_lab st w)).
Proof.
  intros [Lv Cv] He Ef Hv Hl. destruct (iv_done _ _ I v Lv) as [X|[[X _]|[X1 X2]]].
  - apply leaf_covered in X. congruence.
  - exfalso. apply (lwf_exit g W e He). unfold t in *. congruence.
  - destruct (X2 e He Ef) as [u U]. pose proof (up_some g t T u v e U) as [Lu [_ [_ [_ Eu]]]]. pose proof (iv_edge _ _ I u v e U r Hv Hl) as Hu.
    assert (Y : exists w, open_vertex w /\ loc t w = lto e /\ holds r (shift 1 (l_lab st w))).
    { destruct (covered st u) eqn:Cu; [|exists u; split; [split; assumption|auto]]. apply (covered_spec g t T _ u Lu) in Cu as [a [w [Ha Hw]]].
      destruct (anc_inv t a u v e Ha U) as [->|Ha']; [|exfalso; exact (not_covered v Lv Cv a w Ha' Hw)].
      destruct (iv_cov _ _ (iv_0 _ _ I) u w Hw) as [_ [_ [El [Im _]]]]. exists w. split; [apply (coverer_open u w Hw)|]. split; [unfold t in *; congruence|].
      apply holds_shift. apply Im. apply holds_shift. exact Hu. }
    split; [|exact Y]. intros Ex. destruct Y as [w [[Lw Cw] [Ew Hw]]]. destruct (iv_done _ _ I w Lw) as [Z|[[_ Z]|[Z _]]].
    + apply leaf_covered in Z. congruence.
    + rewrite holds_shift in Hw. exact (Z _ Hw).
    + apply Z. unfold t in *. congruence.
Qed.
Lemma final_in p f : In f (final_labels st p) <-> exists v, open_vertex v /\ loc t v = p /\ f = l_lab st v.
Proof.
  unfold final_labels. rewrite in_map_iff. fold t. split.
  - intros [v [<- H]]. apply filter_In in H as [H E]. apply andb_true_iff in E as [E1 E2]. apply negb_true_iff in E1. apply Nat.eqb_eq in E2.
    assert (L : v < length t). { destruct (Nat.lt_ge_cases v (length t)) as [L|L]; [exact L|]. apply (desc_spec g t T) in H. inversion H as [x E|a p' e' x H' U]; subst; [apply (tree_pos g t T)|]. apply (up_some g t T) in U. lia. }
    exists v. split; [split; assumption|]. auto.
  - intros [v [[L C] [E ->]]]. exists v. split; [reflexivity|]. apply filter_In. split; [apply (descendants_spec g t T 0 v L), (anc_root g t T v L)|]. rewrite C, E, Nat.eqb_refl. reflexivity.
Qed.
Lemma def_ok p : p <> entry -> p <> exit ->
  (forall x, In x (vars (lawi_def c simp st p)) -> In x (lpv g p)) /\
  forall r, holds r (rename cur (lawi_def c simp st p)) <-> exists v, open_vertex v /\ loc t v = p /\ holds r (l_lab st v).
Proof.
  intros N1 N2. unfold lawi_def. destruct (final_labels st p) as [|f0 fs] eqn:F.
  - split; [intros x []|]. intros r. split; [discriminate|]. intros [v [O [E _]]]. assert (X : In (l_lab st v) (final_labels st p)) by (apply final_in; eauto). rewrite F in X. destruct X.
  - rewrite <- F. set (l := final_labels st p). set (d := cor c l).
    assert (D : forall r, holds r (if is_junct d then simp d else d) <-> exists v, open_vertex v /\ loc t v = p /\ holds r (l_lab st v)).
    { intros r. assert (X : holds r (if is_junct d then simp d else d) <-> holds r d) by (destruct (is_junct d); [destruct (Hs d) as [X _]; apply X|tauto]).
      rewrite X. unfold d. rewrite (cor_sem c Hct), Exists_exists. split.
      - intros [f [Hf Hr]]. apply final_in in Hf as [v [O [E ->]]]. eauto.
      - intros [v [O [E Hr]]]. exists (l_lab st v). split; [apply final_in; eauto|exact Hr]. }
    assert (V : forall x, In x (vars (if is_junct d then simp d else d)) -> In x (map cur (lpv g p))).
    { intros x Hx. assert (Y : In x (vars d)) by (destruct (is_junct d); [destruct (Hs d) as [_ X]; apply X, Hx|exact Hx]). apply (cor_vars c Hct) in Y as [f [Hf Hx']].
      apply final_in in Hf as [v [[L _] [E ->]]]. rewrite <- E. apply (iv_vars _ _ (iv_0 _ _ I) v L x Hx'). }
    destruct (untag_cur (lpv g p) _ (rep_base _ (lwf_rep g W) p) V) as [E1 E2]. split; [exact E2|]. rewrite E1. exact D.
Qed.
Lemma nxt_shift d : rename nxt d = shift 1 (rename cur d).
Proof. rewrite shift_rename, rename_rename. apply rename_ext. intros v _. reflexivity. Qed.
Theorem final_solution : lsolution g (lawi_defs c simp g st).
Proof.
  assert (Dv : forall p, lvertex g p -> lawi_defs c simp g st p = Some (if Nat.eqb p entry then tt_true else if Nat.eqb p exit then tt_false else lawi_def c simp st p)).
  { intros p V. unfold lawi_defs, trivial_defs. destruct (Nat.eqb p entry); [reflexivity|]. destruct (Nat.eqb p exit); [reflexivity|].
    assert (M : smem p (lvertices g) = true); [|rewrite M; reflexivity]. unfold smem, lvertices. apply existsb_exists. exists p. split; [|apply Nat.eqb_refl]. apply nodup_In.
    destruct V as [->|[->|[e [He X]]]]; [left; reflexivity|right; left; reflexivity|]. right. right. apply in_concat. exists [lfrom e; lto e]. split; [apply in_map_iff; eauto|].
    destruct X as [->| ->]; [left|right; left]; reflexivity. }
  split.
  - intros p d E x Hx. unfold lawi_defs, trivial_defs in E. destruct (Nat.eqb_spec p entry) as [|N1]; [injection E as <-; destruct Hx|]. destruct (Nat.eqb_spec p exit) as [|N2]; [injection E as <-; destruct Hx|].
    destruct (smem p (lvertices g)); [|discriminate]. assert (Ed : d = lawi_def c simp st p) by congruence. subst d. apply (def_ok p N1 N2), Hx.
  - exists tt_true. split; [apply (Dv entry); left; reflexivity|]. intros r. reflexivity.
  - exists tt_false. split; [apply (Dv exit); right; left; reflexivity|]. intros r H. discriminate H.
  - intros e He. assert (Vf : lvertex g (lfrom e)) by (right; right; eauto). assert (Vt : lvertex g (lto e)) by (right; right; eauto).
    rewrite (Dv _ Vf), (Dv _ Vt). eexists _, _. split; [reflexivity|]. split; [reflexivity|]. intros r Hl Hd.
    assert (X : exists v, open_vertex v /\ loc t v = lfrom e /\ holds r (l_lab st v)).
    { destruct (Nat.eqb_spec (lfrom e) entry) as [E|N1]; [exists 0; split; [apply root_open|]; split; [rewrite E; apply (loc_root g t T)|apply (iv_root _ _ I)]|].
      destruct (Nat.eqb_spec (lfrom e) exit) as [E|N2]; [exfalso; exact (lwf_exit g W e He E)|]. apply (proj2 (def_ok _ N1 N2)), Hd. }
    destruct X as [v [O [E Hv]]]. destruct (final_step v e r O He (eq_sym E) Hv Hl) as [Nx [w [Ow [Ew Hw]]]].
    destruct (Nat.eqb_spec (lto e) entry) as [E1|N1]; [exfalso; exact (lwf_entry g W e He E1)|]. destruct (Nat.eqb_spec (lto e) exit) as [E2|_]; [contradiction|].
    rewrite nxt_shift. apply holds_shift. apply (proj2 (def_ok _ N1 Nx)). exists w. split; [exact Ow|]. split; [exact Ew|]. apply holds_shift. exact Hw.
Qed.
End Final.

(** ** Runs *)
Lemma init_tinv : tinv lawi_init.
Proof.
  split; [split; [reflexivity|]|]; cbn.
  - intros v n E N. destruct v as [|v]; [contradiction|destruct v; discriminate].
  - intros v [<-|[]]. lia.
Qed.
Lemma init_inv : inv g lawi_init.
Proof.
  destruct init_tinv as [T L]. split; [split|..]; cbn; auto.
  - intros v _ x [].
  - intros v w [].
  - intros a b [].
  - intros r. reflexivity.
  - intros v L'. left. left. lia.
Qed.
Definition run_post (r : lres) : Prop :=
  match r with
  | LSafe w => forced = false -> (exists d, lsolution g d) /\ match w with Some d => lsolution g d | None => computeWitness = false end
  | LUnsafe d => (exists d', lrefutation g d') /\ match d with Some d' => lrefutation g d' | None => computeWitness = false end
  | LUnknown => False
  | LThrow => gave_up check pitp
  | LFuel => True
  end.
Lemma unwind_ok fuel : forall st, tinv st -> (forced = false -> inv g st) -> run_post (unwind c check pitp simp part forced computeWitness g fuel st).
Proof.
  induction fuel as [|f IH]; intros st Ti I; cbn [unwind]; [exact Logic.I|]. destruct (uncovered_leaf st) as [v|] eqn:U.
  - assert (Lv : v < length (l_tree st)). { unfold uncovered_leaf in U. apply find_some in U as [U _]. rewrite <- in_rev in U. apply (proj2 Ti), U. }
    set (s1 := close_all c check st (ancestors_excl (l_tree st) v)). pose proof (close_all_still c check (ancestors_excl (l_tree st) v) st) as Sa. fold s1 in Sa.
    pose proof (still_tinv _ _ Sa Ti) as Ti1. assert (Lv1 : v < length (l_tree s1)) by (destruct Sa as [-> _]; exact Lv).
    assert (I1 : forced = false -> inv g s1). { intros Ef. apply (close_all_ok c Hct check Hc g); [auto|]. intros a Ha. apply (ancestors_excl_lt g _ (proj1 Ti) v a Lv Ha). }
    pose proof (dfs_ok f s1 v Ti1 Lv1) as X. destruct (dfs c check pitp part forced g f s1 v) as [s2|ids| |]; cbn in X; try exact X.
    + destruct X as [X1 [_ X2]]. apply IH; auto.
    + destruct X as [es [r [-> [He [Ce Ec]]]]]. pose proof (check_sat _ Hc _ _ Ec) as Hr. pose proof (path_derivation_ok g W es r Ce He Hr) as D.
      destruct computeWitness eqn:Cw; [|split; [eauto|exact Cw]].
      unfold from_error_path. destruct (map lid es) as [|i l] eqn:E; [destruct es; [discriminate Ce|discriminate]|]. rewrite <- E, (path_edges_total g W es He), Ec. split; [eauto|exact D].
  - destruct computeWitness eqn:Cw; intros Ef; (split; [exists (lawi_defs c simp g st); apply final_solution; auto|]); [apply final_solution; auto|exact Cw].
Qed.
Theorem lawi_run_ok fuel : run_post (lawi_run c check pitp simp part forced computeWitness g fuel).
Proof. apply unwind_ok; [apply init_tinv|intros _; apply init_inv]. Qed.
End Run.
