(** * LAWI: the invariant of the unwinding and the steps that keep it. *)
From Coq Require Import Permutation.
From Verif Require Import Syntax Solver TransSys TSLemmas Graph GraphOps GraphOpsProofs DfsProofs GraphSem SimpleTransModel MergeModel ListLemmas LinearModel LinearProofs LinearPath LinearTS PdkModel LawiModel LawiTree.
Open Scope list_scope.
Open Scope nat_scope.

Section Proofs.
Variable c : ctors.
Hypothesis Hct : ctors_ok c.
Variable check : check_fn.
Hypothesis Hc : check_ok check.
Variable pitp : pitp_fn.
Hypothesis Hp : pitp_ok pitp.
Variable part : list ledge -> list ledge.
Hypothesis Hpart : forall l, Permutation (part l) l.
Variable g : lgraph.
Hypothesis W : lwf g.

Definition cache_ok (st : lst) : Prop := forall a b, In (a, b, true) (l_cache st) -> forall r, holds r a -> holds r b.
(** What strengthening keeps by itself. *)
Record inv0 (st : lst) : Prop := {
  iv_tree : twf g (l_tree st);
  iv_leaves : forall v, In v (l_leaves st) -> v < length (l_tree st);
  iv_vars : forall v, v < length (l_tree st) -> forall x, In x (vars (l_lab st v)) -> In x (cur_vars g (loc (l_tree st) v));
  iv_cov : forall v w, In (v, w) (l_cov st) -> v < length (l_tree st) /\ w < length (l_tree st) /\ loc (l_tree st) v = loc (l_tree st) w /\
     (forall r, holds r (l_lab st v) -> holds r (l_lab st w)) /\ forall a x, anc (l_tree st) a w -> ~ In (a, x) (l_cov st);
  iv_cache : cache_ok st
}.
Record inv (st : lst) : Prop := {
  iv_0 : inv0 st;
  iv_root : forall r, holds r (l_lab st 0);
  iv_edge : forall v p e, up (l_tree st) v = Some (p, e) -> forall r, holds r (l_lab st p) -> holds r (lfla e) -> holds r (shift 1 (l_lab st v));
  iv_done : forall v, v < length (l_tree st) -> In v (l_leaves st) \/
     (loc (l_tree st) v = exit /\ forall r, ~ holds r (l_lab st v)) \/
     (loc (l_tree st) v <> exit /\ forall e, In e (ledges g) -> lfrom e = loc (l_tree st) v -> exists u, up (l_tree st) u = Some (v, e))
}.

(** ** Implications *)
Lemma quick_ok st a b : cache_ok st -> quick st a b = Some true -> forall r, holds r a -> holds r b.
Proof.
  intros K. unfold quick. destruct (term_eqb_spec a b) as [->|]; [auto|]. destruct (term_eqb_spec a tt_false) as [->|]; [intros _ r H; discriminate H|].
  destruct (term_eqb_spec b tt_true) as [->|]; [intros _ r _; reflexivity|]. cbn [orb]. destruct (term_eqb a tt_true || term_eqb b tt_false); [discriminate|].
  unfold cached. destruct (find _ (l_cache st)) as [[[a' b'] x]|] eqn:F; cbn; [|discriminate]. intros E. injection E as ->.
  apply find_some in F as [F E]. apply andb_true_iff in E as [E1 E2]. cbn in E1, E2. destruct (term_eqb_spec a' a) as [->|]; [|discriminate]. destruct (term_eqb_spec b' b) as [->|]; [|discriminate].
  apply (K a b F).
Qed.
Lemma unsat_implies a b : check [cand c [a; cnot c b]] = UNSAT -> forall r, holds r a -> holds r b.
Proof.
  intros E r H. destruct (holdsb r b) eqn:B; [exact B|]. exfalso. apply (check_unsat _ Hc _ E r). constructor; [|constructor]. apply (cand_sem c Hct).
  constructor; [exact H|]. constructor; [|constructor]. apply (cnot_sem c Hct). unfold holds. congruence.
Qed.
Definition same (st st' : lst) : Prop := l_tree st' = l_tree st /\ l_lab st' = l_lab st /\ l_cov st' = l_cov st /\ l_leaves st' = l_leaves st.
Lemma remember_ok st a b x : cache_ok st -> (x = true -> forall r, holds r a -> holds r b) -> same st (remember st a b x) /\ cache_ok (remember st a b x).
Proof. intros K H. split; [repeat split|]. intros a' b' [E|I]; [injection E as <- <- ->; apply H; reflexivity|apply K, I]. Qed.
Lemma same_refl st : same st st. Proof. repeat split. Qed.
Lemma implies_ok st a b x st' : cache_ok st -> implies c check st a b = (x, st') -> same st st' /\ cache_ok st' /\ (x = true -> forall r, holds r a -> holds r b).
Proof.
  intros K. unfold implies. destruct (quick st a b) as [y|] eqn:Q.
  - intros E. injection E as <- <-. split; [apply same_refl|]. split; [exact K|]. intros ->. apply (quick_ok st a b K Q).
  - destruct (check [cand c [a; cnot c b]]) as [m| |] eqn:C; intros E; injection E as <- <-.
    + destruct (remember_ok st a b false K) as [S K']; [discriminate|]. split; [exact S|]. split; [exact K'|discriminate].
    + destruct (remember_ok st a b true K) as [S K']; [intros _; apply (unsat_implies a b C)|]. split; [exact S|]. split; [exact K'|]. intros _. apply (unsat_implies a b C).
    + split; [apply same_refl|]. split; [exact K|discriminate].
Qed.
Lemma implies_hints_ok st ms a b x st' ms' : cache_ok st -> implies_hints c check st ms a b = (x, st', ms') ->
  same st st' /\ cache_ok st' /\ (x = true -> forall r, holds r a -> holds r b).
Proof.
  intros K. unfold implies_hints. destruct (quick st a b) as [y|] eqn:Q.
  - intros E. injection E as <- <- <-. split; [apply same_refl|]. split; [exact K|]. intros ->. apply (quick_ok st a b K Q).
  - destruct (existsb _ ms); [intros E; injection E as <- <- <-; destruct (remember_ok st a b false K) as [S K']; [discriminate|]; split; [exact S|]; split; [exact K'|discriminate]|].
    destruct (check [cand c [a; cnot c b]]) as [m| |] eqn:C; intros E; injection E as <- <- <-.
    + destruct (remember_ok st a b false K) as [S K']; [discriminate|]. split; [exact S|]. split; [exact K'|discriminate].
    + destruct (remember_ok st a b true K) as [S K']; [intros _; apply (unsat_implies a b C)|]. split; [exact S|]. split; [exact K'|]. intros _. apply (unsat_implies a b C).
    + split; [apply same_refl|]. split; [exact K|discriminate].
Qed.
Lemma same_inv0 st st' : same st st' -> cache_ok st' -> inv0 st -> inv0 st'.
Proof. intros [S1 [S2 [S3 S4]]] K [I1 I2 I3 I4 I5]. split; [rewrite S1..|exact K]; rewrite ?S2, ?S3, ?S4; assumption. Qed.
Lemma same_inv st st' : same st st' -> cache_ok st' -> inv st -> inv st'.
Proof.
  intros S K [I1 I2 I3 I4]. pose proof S as [S1 [S2 [S3 S4]]]. split; [apply (same_inv0 st st' S K I1)|..]; rewrite ?S1, ?S2, ?S3, ?S4; assumption.
Qed.

(** ** Covering *)
(** Only the covering relation and the cache change. *)
Definition still (st st' : lst) : Prop := l_tree st' = l_tree st /\ l_lab st' = l_lab st /\ l_leaves st' = l_leaves st.
Lemma still_trans a b d : still a b -> still b d -> still a d.
Proof. intros [A1 [A2 A3]] [B1 [B2 B3]]. repeat split; congruence. Qed.
Lemma still_inv st st' : still st st' -> inv0 st' -> inv st -> inv st'.
Proof. intros [S1 [S2 S3]] K [I1 I2 I3 I4]. split; [exact K|..]; rewrite ?S1, ?S2, ?S3; assumption. Qed.
Lemma cover_still st v w ms b st' ms' : cover c check st v w ms = (b, st', ms') -> still st st'.
Proof.
  unfold cover. destruct (covered st v); [intros E; injection E as <- <- <-; repeat split|].
  destruct (negb _ || _); [intros E; injection E as <- <- <-; repeat split|].
  assert (X : forall x s m, implies_hints c check st ms (l_lab st v) (l_lab st w) = (x, s, m) -> still st s).
  { intros x s m. unfold implies_hints. destruct (quick _ _ _); [intros E; injection E as <- <- <-; repeat split|]. destruct (existsb _ ms); [intros E; injection E as <- <- <-; repeat split|].
    destruct (check _); intros E; injection E as <- <- <-; repeat split. }
  destruct (implies_hints c check st ms (l_lab st v) (l_lab st w)) as [[x s] m]. specialize (X x s m eq_refl). destruct x; intros E; injection E as <- <- <-; exact X.
Qed.
Lemma cover_ok st v w ms b st' ms' : inv0 st -> v < length (l_tree st) -> w < length (l_tree st) -> covered st w = false ->
  cover c check st v w ms = (b, st', ms') -> inv0 st'.
Proof.
  intros I Lv Lw Nw. unfold cover. destruct (covered st v) eqn:Cv; [intros E; injection E as <- <- <-; exact I|].
  destruct (Nat.eqb_spec (loc (l_tree st) v) (loc (l_tree st) w)) as [El|]; cbn [negb orb]; [|intros E; injection E as <- <- <-; exact I].
  destruct (is_ancestor (l_tree st) v w) eqn:An; [intros E; injection E as <- <- <-; exact I|].
  destruct (implies_hints c check st ms (l_lab st v) (l_lab st w)) as [[x s] m] eqn:J. apply implies_hints_ok in J as [S [K V]]; [|apply (iv_cache _ I)].
  pose proof (same_inv0 st s S K I) as I'. destruct x; intros E; injection E as <- <- <-; [|exact I'].
  pose proof S as [S1 [S2 [S3 S4]]]. pose proof (iv_tree _ I') as T. split; cbn [set_cov l_tree l_lab l_cov l_leaves l_cache]; try apply I'.
  assert (Nanc : ~ anc (l_tree s) v w). { intros H. rewrite S1 in H. apply (is_ancestor_spec g _ (iv_tree _ I)) in H. congruence. }
  assert (Ncov : forall a x, anc (l_tree s) a w -> ~ In (a, x) (l_cov s)).
  { intros a x Ha Hx. rewrite S1 in Ha. rewrite S3 in Hx. assert (Y : covered st w = true); [|congruence]. apply (covered_spec g _ (iv_tree _ I) _ _ Lw). eauto. }
  intros a b Hab. unfold cov_update in Hab. apply in_app_iff in Hab as [Hab|[E|[]]].
  - apply filter_In in Hab as [Hab Nd]. destruct (iv_cov _ I' a b Hab) as [H1 [H2 [H3 [H4 H5]]]]. split; [exact H1|]. split; [exact H2|]. split; [exact H3|]. split; [exact H4|].
    intros a' x Ha' Hx. unfold cov_update in Hx. apply in_app_iff in Hx as [Hx|[E|[]]]; [apply filter_In in Hx as [Hx _]; apply (H5 a' x Ha' Hx)|]. injection E as <- <-.
    apply negb_true_iff in Nd. cbn [snd] in Nd. assert (Y : existsb (Nat.eqb b) (descendants (l_tree s) v) = true); [|congruence].
    apply existsb_exists. exists b. split; [apply (descendants_spec g _ T v b H2), Ha'|apply Nat.eqb_refl].
  - injection E as <- <-. rewrite S1, S2. split; [exact Lv|]. split; [exact Lw|]. split; [exact El|]. split; [apply V; reflexivity|].
    rewrite <- S1. intros a x Ha Hx. unfold cov_update in Hx. apply in_app_iff in Hx as [Hx|[E|[]]]; [apply filter_In in Hx as [Hx _]; apply (Ncov a x Ha Hx)|]. injection E as <- <-. exact (Nanc Ha).
Qed.
Lemma close_loop_still v us : forall st ms, still st (close_loop c check st v us ms).
Proof.
  induction us as [|u us IH]; intros st ms; cbn [close_loop]; [repeat split|]. destruct (covered st u); [apply IH|].
  destruct (cover c check st v u ms) as [[b s] m] eqn:C. apply cover_still in C. destruct b; [exact C|]. apply (still_trans _ _ _ C). apply IH.
Qed.
Lemma close_still st v : still st (close c check st v).
Proof. apply close_loop_still. Qed.
Lemma close_loop_ok v us : forall st ms, inv0 st -> v < length (l_tree st) -> (forall u, In u us -> u < length (l_tree st)) -> inv0 (close_loop c check st v us ms).
Proof.
  induction us as [|u us IH]; intros st ms I Lv Lu; cbn [close_loop]; [exact I|]. destruct (covered st u) eqn:Cu; [apply IH; auto; intros x Hx; apply Lu; right; exact Hx|].
  destruct (cover c check st v u ms) as [[b s] m] eqn:C. pose proof (cover_still _ _ _ _ _ _ _ C) as [S _]. apply cover_ok in C; [|exact I|exact Lv|apply Lu; left; reflexivity|exact Cu].
  destruct b; [exact C|]. apply IH; rewrite ?S; auto. intros x Hx. apply Lu. right. exact Hx.
Qed.
Lemma close_ok st v : inv st -> v < length (l_tree st) -> inv (close c check st v).
Proof.
  intros I Lv. apply (still_inv st); [apply close_still| |exact I]. apply close_loop_ok; [apply I|exact Lv|]. intros u Hu. apply earlier_spec in Hu. lia.
Qed.
Lemma close_all_still vs : forall st, still st (close_all c check st vs).
Proof. induction vs as [|v vs IH]; intros st; cbn [close_all fold_left]; [repeat split|]. apply (still_trans _ _ _ (close_still st v)). apply IH. Qed.
Lemma close_all_ok vs : forall st, inv st -> (forall v, In v vs -> v < length (l_tree st)) -> inv (close_all c check st vs).
Proof.
  induction vs as [|v vs IH]; intros st I L; cbn [close_all fold_left]; [exact I|]. apply IH; [apply close_ok; [exact I|apply L; left; reflexivity]|].
  intros u Hu. destruct (close_still st v) as [-> _]. apply L. right. exact Hu.
Qed.

(** ** Strengthening *)
Lemma strengthen1_ok st v itp st' b : inv0 st -> v < length (l_tree st) -> (forall x, In x (vars itp) -> In x (cur_vars g (loc (l_tree st) v))) ->
  strengthen1 c check st v itp = (st', b) ->
  inv0 st' /\ l_tree st' = l_tree st /\ l_leaves st' = l_leaves st /\
  forall u r, holds r (l_lab st' u) <-> holds r (l_lab st u) /\ (u = v -> holds r itp).
Proof.
  intros I Lv Vi. unfold strengthen1. destruct (implies c check st (l_lab st v) itp) as [x s] eqn:J. apply implies_ok in J as [S [K V]]; [|apply (iv_cache _ I)].
  pose proof (same_inv0 st s S K I) as I'. pose proof S as [S1 [S2 [S3 S4]]]. destruct x; intros E; injection E as <- <-.
  - split; [exact I'|]. split; [exact S1|]. split; [exact S4|]. intros u r. rewrite S2. split; [|tauto]. intros H. split; [exact H|]. intros ->. apply V; auto.
  - cbn [set_cov set_lab l_tree l_lab l_cov l_leaves l_cache].
    assert (Sem : forall u r, holds r (if Nat.eqb u v then cand c [itp; l_lab s v] else l_lab s u) <-> holds r (l_lab s u) /\ (u = v -> holds r itp)).
    { intros u r. destruct (Nat.eqb_spec u v) as [->|N]; [|tauto]. rewrite (cand_sem c Hct). split.
      - intros H. inversion H as [|? ? H1 H2]; subst. inversion H2; subst. auto.
      - intros [H1 H2]. repeat constructor; auto. }
    split; [|split; [exact S1|]; split; [exact S4|]; rewrite S2; rewrite S2 in Sem; exact Sem].
    split; cbn [set_cov set_lab l_tree l_lab l_cov l_leaves l_cache]; try apply I'.
    + intros u Lu x Hx. destruct (Nat.eqb_spec u v) as [->|N]; [|apply (iv_vars _ I' u Lu x Hx)]. apply (cand_vars c Hct) in Hx as [t [[<-|[<-|[]]] Hx]]; [rewrite S1; apply Vi, Hx|apply (iv_vars _ I' v Lu x Hx)].
    + intros a w Haw. unfold cov_strengthened in Haw. apply filter_In in Haw as [Haw Nw]. cbn in Nw. apply negb_true_iff, Nat.eqb_neq in Nw.
      destruct (iv_cov _ I' a w Haw) as [H1 [H2 [H3 [H4 H5]]]]. split; [exact H1|]. split; [exact H2|]. split; [exact H3|]. split.
      * intros r Hr. apply Sem in Hr as [Hr _]. apply Sem. split; [apply H4, Hr|]. intros ->. contradiction.
      * intros a' x Ha' Hx. apply filter_In in Hx as [Hx _]. apply (H5 a' x Ha' Hx).
Qed.
Lemma strengthen_ok l : forall st acc st' vs, inv0 st -> (forall v itp, In (v, itp) l -> v < length (l_tree st) /\ forall x, In x (vars itp) -> In x (cur_vars g (loc (l_tree st) v))) ->
  strengthen c check st l acc = (st', vs) ->
  inv0 st' /\ l_tree st' = l_tree st /\ l_leaves st' = l_leaves st /\ (forall v, In v vs -> In v acc \/ In v (map fst l)) /\
  forall u r, holds r (l_lab st' u) <-> holds r (l_lab st u) /\ forall itp, In (u, itp) l -> holds r itp.
Proof.
  induction l as [|[v itp] l IH]; intros st acc st' vs I H E; cbn in E.
  - injection E as <- <-. split; [exact I|]. split; [reflexivity|]. split; [reflexivity|]. split; [auto|]. intros u r. split; [|tauto]. intros X. split; [exact X|intros ? []].
  - destruct (strengthen1 c check st v itp) as [s b] eqn:E1. destruct (H v itp (or_introl eq_refl)) as [Lv Vi]. destruct (strengthen1_ok st v itp s b I Lv Vi E1) as [I1 [T1 [L1 S1]]].
    destruct (IH s (if b then acc ++ [v] else acc) st' vs I1) with (2 := E) as [I2 [T2 [L2 [A2 S2]]]]; [intros u x Hx; rewrite T1; apply H; right; exact Hx|].
    split; [exact I2|]. split; [congruence|]. split; [congruence|]. split.
    + intros u Hu. cbn [map fst In]. destruct (A2 u Hu) as [Ha|Ha]; [|tauto]. destruct b; [|tauto]. apply in_app_iff in Ha as [Ha|[<-|[]]]; tauto.
    + intros u r. rewrite S2, S1. split.
      * intros [[H1 H2] H3]. split; [exact H1|]. intros x [X|X]; [injection X as <- <-; auto|auto].
      * intros [H1 H2]. split; [split; [exact H1|intros ->; apply H2; left; reflexivity]|]. intros x X. apply H2. right. exact X.
Qed.
Lemma strengthen_tree l : forall st acc, l_tree (fst (strengthen c check st l acc)) = l_tree st /\ l_leaves (fst (strengthen c check st l acc)) = l_leaves st.
Proof.
  induction l as [|[v itp] l IH]; intros st acc; cbn; [auto|]. destruct (strengthen1 c check st v itp) as [s b] eqn:E. destruct (IH s (if b then acc ++ [v] else acc)) as [-> ->].
  unfold strengthen1, implies in E. destruct (quick st (l_lab st v) itp) as [[]|]; [injection E as <- <-; auto..|]. destruct (check _); injection E as <- <-; auto.
Qed.

(** ** Interpolants along a path *)
Inductive nchain : term -> list ledge -> list term -> Prop :=
| nc_nil N : nchain N [] []
| nc_cons N e es M Ms : (forall r, holds r N -> holds r (lfla e) -> holds r (shift 1 M)) -> nchain M es Ms -> nchain N (e :: es) (M :: Ms).
Lemma chain_norm es : forall i J Js, itp_chain J (map (fun t => [t]) (path_labels i es)) Js -> nchain (shift (- i) J) es (normalize (i + 1) (Js ++ [tt_false])).
Proof.
  assert (Tm : forall i r J e, holds r (shift (- i) J) -> holds r (lfla e) -> holds (fun v => r (shiftv (- i) v)) J /\ Forall (holds (fun v => r (shiftv (- i) v))) [shift i (lfla e)]).
  { intros i r J e H1 H2. rewrite holds_shift in H1. split; [exact H1|]. constructor; [|constructor]. apply holds_shift. apply (holds_agree r); [|exact H2].
    intros v _. rewrite shiftv_shiftv, Z.add_opp_diag_l, shiftv_0. reflexivity. }
  induction es as [|e es IH]; intros i J Js H.
  - inversion H.
  - cbn [path_labels map] in H. inversion H as [J0 A Hf E1 E2 E3|J0 A As J1 Js1 Hs Hr E1 E2 E3]; subst.
    + assert (es = []) by (destruct es; [reflexivity|discriminate]). subst es. cbn [app normalize]. constructor; [|constructor]. intros r H1 H2.
      exfalso. destruct (Tm i r J e H1 H2) as [X1 X2]. exact (Hf _ X1 X2).
    + cbn [app normalize]. constructor; [|apply IH, Hr]. intros r H1 H2. destruct (Tm i r J e H1 H2) as [X1 X2]. specialize (Hs _ X1 X2).
      rewrite shift_shift, holds_shift. replace (1 + - (i + 1))%Z with (- i)%Z by lia. exact Hs.
Qed.
Lemma nchain_pairs t (T : twf g t) p l q : tpath t p l q -> forall N Ms, nchain N (edges_of t l) Ms -> forall w M p' e, In (w, M) (combine l Ms) -> up t w = Some (p', e) ->
  (p' = p /\ (forall r, holds r N -> holds r (lfla e) -> holds r (shift 1 M))) \/
  exists M', In (p', M') (combine l Ms) /\ forall r, holds r M' -> holds r (lfla e) -> holds r (shift 1 M).
Proof.
  intros P. induction P as [v|p e v l q U P IH]; intros N Ms C w M p' e' Hw U'; [destruct Hw|].
  unfold edges_of in C. cbn [flat_map] in C. rewrite U in C. cbn [app] in C. inversion C as [|N0 e0 es M0 Ms0 Hs Hr E1 E2 E3]; subst. cbn [combine In] in Hw. destruct Hw as [E|Hw].
  - injection E as <- <-. rewrite U in U'. injection U' as <- <-. left. split; [reflexivity|exact Hs].
  - destruct (IH M0 Ms0 Hr w M p' e' Hw U') as [[-> X]|[M' [X1 X2]]]; right.
    + exists M0. split; [left; reflexivity|exact X].
    + exists M'. split; [right; exact X1|exact X2].
Qed.
Lemma nth_normalize l : forall i k, nth_error (normalize i l) k = option_map (shift (- (i + Z.of_nat k))) (nth_error l k).
Proof.
  induction l as [|t l IH]; intros i k; [destruct k; reflexivity|]. destruct k as [|k]; cbn [normalize nth_error option_map].
  - rewrite Z.add_0_r. reflexivity.
  - rewrite IH. f_equal. f_equal. lia.
Qed.
Lemma concat_singles {A} (l : list A) n : concat (firstn n (map (fun t => [t]) l)) = firstn n l /\ concat (skipn n (map (fun t => [t]) l)) = skipn n l.
Proof.
  revert n. induction l as [|x l IH]; intros n; [rewrite firstn_nil, skipn_nil, firstn_nil, skipn_nil; auto|]. destruct n as [|n].
  - split; [reflexivity|]. destruct (IH 0) as [_ H]. cbn [skipn map concat app] in *. rewrite H. reflexivity.
  - destruct (IH n) as [H1 H2]. cbn [firstn skipn map concat app]. rewrite H1. auto.
Qed.
Lemma seg_vars es j v t : (forall e, In e es -> In e (ledges g)) -> nth_error (path_labels 0 es) j = Some t -> In v (vars t) ->
  exists e u, nth_error es j = Some e /\ v = shiftv (Z.of_nat j) u /\ (vtag u = TTime 0 \/ In u (nxt_vars g (lto e))).
Proof.
  intros He E Hv. rewrite nth_labels in E. destruct (nth_error es j) as [e|] eqn:Ej; [|discriminate]. injection E as <-. rewrite vars_shift in Hv. apply in_map_iff in Hv as [u [<- Hu]].
  exists e, u. split; [reflexivity|]. split; [reflexivity|]. destruct (lwf_label g W e u (He e (nth_error_In _ _ Ej)) Hu) as [X|[X|[X _]]]; [left|right; exact X|left; exact X].
  apply in_map_iff in X as [b [<- _]]. reflexivity.
Qed.
Lemma nth_in_firstn {A} (l : list A) n x : In x (firstn n l) -> exists j, j < n /\ nth_error l j = Some x.
Proof.
  revert n. induction l as [|y l IH]; intros n H; [rewrite firstn_nil in H; destruct H|]. destruct n as [|n]; [destruct H|]. destruct H as [<-|H]; [exists 0; split; [lia|reflexivity]|].
  destruct (IH n H) as [j [L E]]. exists (S j). split; [lia|exact E].
Qed.
Lemma nth_in_skipn {A} (l : list A) n x : In x (skipn n l) -> exists j, n <= j /\ nth_error l j = Some x.
Proof.
  revert n. induction l as [|y l IH]; intros n H; [rewrite skipn_nil in H; destruct H|]. destruct n as [|n].
  - apply In_nth_error in H as [j E]. exists j. split; [lia|exact E].
  - destruct (IH n H) as [j [L E]]. exists (S j). split; [lia|exact E].
Qed.
(** The variables of the interpolant after edge number i are next-state variables of that edge. *)
Lemma itp_path_vars es i J : (forall e, In e es -> In e (ledges g)) ->
  (forall v, In v (vars J) -> In v (lvars (firstn (S i) (path_labels 0 es))) /\ In v (lvars (skipn (S i) (path_labels 0 es)))) ->
  forall e, nth_error es i = Some e -> forall v, In v (vars (shift (- (1 + Z.of_nat i)) J)) -> In v (cur_vars g (lto e)).
Proof.
  intros He H e Ei v Hv. rewrite vars_shift in Hv. apply in_map_iff in Hv as [u [<- Hu]]. destruct (H u Hu) as [H1 H2].
  apply in_lvars in H1 as [t1 [H1 V1]]. apply in_lvars in H2 as [t2 [H2 V2]]. apply nth_in_firstn in H1 as [j [Lj E1]]. apply nth_in_skipn in H2 as [k [Lk E2]].
  destruct (seg_vars es j u t1 He E1 V1) as [e1 [u1 [Ej [Eu1 K1]]]]. destruct (seg_vars es k u t2 He E2 V2) as [e2 [u2 [Ek [Eu2 K2]]]].
  assert (Tg : forall x n, vtag x = TTime n -> forall z, vtag (shiftv z x) = TTime (n + z)) by (intros x n Hx z; unfold shiftv; rewrite Hx; reflexivity).
  assert (Nx : forall x p, In x (nxt_vars g p) -> vtag x = TTime 1) by (intros x p Hx; apply in_map_iff in Hx as [b [<- _]]; reflexivity).
  assert (B2 : exists z, vtag u = TTime z /\ (Z.of_nat (S i) <= z)%Z).
  { assert (K2' : exists n, vtag u2 = TTime n /\ (0 <= n)%Z) by (destruct K2 as [K2|K2]; [exists 0%Z; split; [exact K2|lia]|exists 1%Z; split; [exact (Nx _ _ K2)|lia]]).
    destruct K2' as [n [K3 Ln]]. exists (n + Z.of_nat k)%Z. rewrite Eu2. split; [apply (Tg _ _ K3)|]. lia. }
  destruct B2 as [z [Tz Bz]]. destruct K1 as [K1|K1].
  - exfalso. rewrite Eu1, (Tg _ _ K1) in Tz. injection Tz as Tz. lia.
  - pose proof (Nx _ _ K1) as K1'. rewrite Eu1, (Tg _ _ K1') in Tz. assert (Tz' : (1 + Z.of_nat j = z)%Z) by congruence. assert (j = i) by lia. subst j. assert (e1 = e) by congruence. subst e1.
    apply in_map_iff in K1 as [b [<- Hb]]. rewrite Eu1, shiftv_nxt, shiftv_shiftv. replace (- (1 + Z.of_nat i) + (Z.of_nat i + 1))%Z with 0%Z by lia. rewrite shiftv_0. apply in_map. exact Hb.
Qed.
Lemma chain_length P As Is : itp_chain P As Is -> length As = S (length Is).
Proof. intros H. induction H; cbn; auto. Qed.
Lemma path_itps_ok segs its : check segs = UNSAT -> segs <> [] -> path_itps pitp segs (length segs) = Some its ->
  exists Js, its = Js ++ [tt_false] /\ itp_chain tt_true (map (fun t => [t]) segs) Js /\ chain_vars (map (fun t => [t]) segs) Js.
Proof.
  intros Ec N. unfold path_itps. destruct (length segs - 1) as [|m] eqn:L.
  - intros E. injection E as <-. destruct segs as [|t [|? ?]]; [contradiction| |cbn in L; lia]. exists []. split; [reflexivity|]. split.
    + constructor. intros r _ H. apply (check_unsat _ Hc _ Ec r H).
    + intros i J H. destruct i; discriminate.
  - destruct (pitp (map (fun t => [t]) segs)) as [Js|] eqn:E; cbn [option_map]; [|discriminate]. intros X. apply Hp in E as [E1 E2]. pose proof (chain_length _ _ _ E1) as Ln. rewrite map_length in Ln.
    exists Js. rewrite (firstn_all2 (n := S m) Js) in X by lia. split; [congruence|auto].
Qed.
Lemma labels_length i es : length (path_labels i es) = length es.
Proof. revert i. induction es as [|e es IH]; intros i; cbn; [|rewrite IH]; reflexivity. Qed.
Lemma normalize_length i l : length (normalize i l) = length l.
Proof. revert i. induction l as [|t l IH]; intros i; cbn; [|rewrite IH]; reflexivity. Qed.
Lemma edges_nth t p l q : tpath t p l q -> forall i v, nth_error l i = Some v -> exists u e, up t v = Some (u, e) /\ nth_error (edges_of t l) i = Some e.
Proof.
  intros P. induction P as [v|p e v l q U P IH]; intros i w H; [destruct i; discriminate|]. unfold edges_of. cbn [flat_map]. rewrite U. cbn [app]. destruct i as [|i]; cbn in H |- *.
  - injection H as <-. exists p, e. auto.
  - apply IH, H.
Qed.
Lemma combine_nth {A B} (l : list A) (m : list B) a b : In (a, b) (combine l m) -> exists i, nth_error l i = Some a /\ nth_error m i = Some b.
Proof.
  revert m. induction l as [|x l IH]; intros [|y m] H; try destruct H. 
  - injection H as <- <-. exists 0. auto.
  - destruct (IH m H) as [i Hi]. exists (S i). exact Hi.
Qed.
Lemma tpath_last t p l q : tpath t p l q -> l <> [] -> exists l0, l = l0 ++ [q].
Proof.
  intros P. induction P as [v|p e v l q U P IH]; intros N; [contradiction|]. destruct l as [|x l].
  - inversion P; subst. exists []. reflexivity.
  - destruct IH as [l0 ->]; [discriminate|]. exists (v :: l0). reflexivity.
Qed.
Lemma combine_app_last {A B} (l : list A) (m : list B) a b : length l = length m -> combine (l ++ [a]) (m ++ [b]) = combine l m ++ [(a, b)].
Proof. revert m. induction l as [|x l IH]; intros [|y m] H; try discriminate; cbn; [reflexivity|]. rewrite IH; auto. Qed.
Lemma normalize_app i l m : normalize i (l ++ m) = normalize i l ++ normalize (i + Z.of_nat (length l)) m.
Proof.
  revert i. induction l as [|t l IH]; intros i; cbn [app normalize length]; [rewrite Z.add_0_r; reflexivity|]. rewrite IH. f_equal. f_equal. f_equal. lia.
Qed.

Definition gave_up : Prop := (exists q, check q = UNKNOWN) \/ (exists q, pitp q = None).
Lemma refine_tree st v : twf g (l_tree st) -> v < length (l_tree st) -> loc (l_tree st) v = exit ->
  match refine c check pitp st v with
  | RUnsafe ids => exists es r, ids = map lid es /\ (forall e, In e es -> In e (ledges g)) /\ connected entry es exit /\ check (path_labels 0 es) = SAT r
  | RRefined st' vs => l_tree st' = l_tree st /\ incl (l_leaves st') (l_leaves st)
  | RThrow => gave_up
  end.
Proof.
  intros T Lv Ev. unfold refine. destruct (path_to_total g _ T v 0 (anc_root g _ T v Lv)) as [l El]. rewrite El. pose proof (path_to_ok _ _ _ _ El) as P.
  destruct (edges_of_path g _ T _ _ _ P) as [Le [He Ce]]. rewrite (loc_root g _ T), Ev in Ce. destruct (check (path_labels 0 (edges_of (l_tree st) l))) as [r| |] eqn:Ec.
  - eauto 10.
  - destruct (path_itps pitp _ _) as [its|] eqn:Ei.
    + pose proof (strengthen_tree (combine l (normalize 1 its)) st []) as [X1 X2]. destruct (strengthen c check st (combine l (normalize 1 its)) []) as [st' vs]. cbn in *. split; [exact X1|].
      intros u Hu. apply filter_In in Hu as [Hu _]. rewrite <- X2. exact Hu.
    + right. unfold path_itps in Ei. destruct (length _ - 1); [discriminate|]. destruct (pitp _) eqn:Ep; [discriminate|eauto].
  - left. eauto.
Qed.
Lemma refine_ok st v : inv st -> v < length (l_tree st) -> loc (l_tree st) v = exit ->
  match refine c check pitp st v with
  | RRefined st' vs => inv st' /\ l_tree st' = l_tree st /\ forall u, In u vs -> u < length (l_tree st)
  | _ => True
  end.
Proof.
  intros I Lv Ev. pose proof (iv_tree _ (iv_0 _ I)) as T. unfold refine. destruct (path_to_total g _ T v 0 (anc_root g _ T v Lv)) as [l El]. rewrite El. pose proof (path_to_ok _ _ _ _ El) as P.
  destruct (edges_of_path g _ T _ _ _ P) as [Le [He Ce]]. set (es := edges_of (l_tree st) l) in *. destruct (check (path_labels 0 es)) as [r| |] eqn:Ec; [exact Logic.I| |exact Logic.I].
  destruct (path_itps pitp (path_labels 0 es) (length es)) as [its|] eqn:Ei; [|exact Logic.I].
  assert (Nl : l <> []). { intros ->. inversion P; subst. rewrite (loc_root g _ T) in Ev. discriminate Ev. }
  assert (Nes : path_labels 0 es <> []). { intros E. apply (f_equal (@length _)) in E. rewrite labels_length, Le in E. destruct l; [contradiction|discriminate]. }
  rewrite <- (labels_length 0 es) in Ei. destruct (path_itps_ok _ _ Ec Nes Ei) as [Js [-> [Ch Cv]]].
  pose proof (chain_length _ _ _ Ch) as Ln. rewrite map_length, labels_length, Le in Ln.
  pose proof (chain_norm es 0 tt_true Js Ch) as Nc. cbn [Z.opp] in Nc. change (0 + 1)%Z with 1%Z in Nc. rewrite shift_0 in Nc.
  set (Ns := normalize 1 (Js ++ [tt_false])) in *.
  assert (LN : length Ns = length l). { unfold Ns. rewrite normalize_length, app_length. cbn. lia. }
  assert (Hl : forall u N, In (u, N) (combine l Ns) -> u <> 0 /\ u < length (l_tree st) /\ forall x, In x (vars N) -> In x (cur_vars g (loc (l_tree st) u))).
  { intros u N Hu. apply combine_nth in Hu as [i [E1 E2]]. destruct (edges_nth _ _ _ _ P i u E1) as [p [e [U Ee]]]. pose proof (up_some g _ T u p e U) as [X1 [X2 [X3 [X4 X5]]]].
    split; [lia|]. split; [exact X1|]. intros x Hx. unfold Ns in E2. rewrite nth_normalize in E2. destruct (nth_error (Js ++ [tt_false]) i) as [J|] eqn:EJ; [|discriminate]. injection E2 as <-.
    destruct (Nat.lt_ge_cases i (length Js)) as [Li|Li].
    - rewrite nth_error_app1 in EJ by exact Li. rewrite <- X5. apply (itp_path_vars es i J He) with (e := e); [|exact Ee|exact Hx].
      intros y Hy. destruct (concat_singles (path_labels 0 es) (S i)) as [C1 C2]. rewrite <- C1, <- C2. exact (Cv i J EJ y Hy).
    - rewrite nth_error_app2 in EJ by exact Li. destruct (i - length Js) as [|k]; [|destruct k; discriminate]. injection EJ as <-. rewrite vars_shift in Hx. destruct Hx. }
  destruct (strengthen c check st (combine l Ns) []) as [st' vs] eqn:Es.
  assert (Hl0 : forall u N, In (u, N) (combine l Ns) -> u < length (l_tree st) /\ forall x, In x (vars N) -> In x (cur_vars g (loc (l_tree st) u))) by (intros u N Hu; apply Hl in Hu; tauto).
  destruct (strengthen_ok (combine l Ns) st [] st' vs (iv_0 _ I) Hl0 Es) as [I' [T' [L' [A' S']]]].
  assert (Fal : forall r, ~ holds r (l_lab st' v)).
  { intros r Hr. apply S' in Hr as [_ Hr]. destruct (tpath_last _ _ _ _ P Nl) as [l0 E0]. specialize (Hr (shift (- (1 + Z.of_nat (length Js))) tt_false)).
    assert (X : holds r (shift (- (1 + Z.of_nat (length Js))) tt_false)); [|rewrite holds_shift in X; discriminate X]. apply Hr. unfold Ns. rewrite normalize_app, E0. cbn [normalize].
    rewrite combine_app_last; [|rewrite normalize_length; rewrite E0, app_length in Ln; cbn in Ln; lia]. apply in_app_iff. right. left. reflexivity. }
  split; [|split; [exact T'|]].
  - destruct I as [I0 Ir Ie Id]. split.
    + destruct I' as [J1 J2 J3 J4 J5]. split; cbn [remove_leaf l_tree l_lab l_cov l_leaves l_cache]; try assumption. intros u Hu. apply filter_In in Hu as [Hu _]. apply J2, Hu.
    + cbn [remove_leaf l_lab]. intros r. apply S'. split; [apply Ir|]. intros N Hu. apply Hl in Hu. destruct Hu as [Hu _]. contradiction.
    + cbn [remove_leaf l_tree l_lab]. rewrite T'. intros u p e U r H1 H2. apply holds_shift. apply S'. rewrite <- holds_shift. apply S' in H1 as [H1 H1']. split; [apply (Ie u p e U r H1 H2)|].
      intros N Hu. rewrite <- holds_shift. destruct (nchain_pairs _ T _ _ _ P _ _ Nc u N p e Hu U) as [[-> X]|[M' [X1 X2]]]; [apply X; [reflexivity|exact H2]|]. apply X2; [apply H1', X1|exact H2].
    + cbn [remove_leaf l_tree l_lab l_leaves]. rewrite T'. intros u Lu. destruct (Nat.eq_dec u v) as [->|Nu]; [right; left; auto|]. destruct (Id u Lu) as [X|[[X1 X2]|X]]; [left|right; left|right; right; exact X].
      * apply filter_In. rewrite L'. split; [exact X|]. apply negb_true_iff, Nat.eqb_neq, Nu.
      * split; [exact X1|]. intros r Hr. apply S' in Hr as [Hr _]. exact (X2 r Hr).
  - intros u Hu. destruct (A' u Hu) as [[]|X]. apply in_map_iff in X as [[u' N] [<- X]]. apply Hl in X. tauto.
Qed.

(** ** Expansion *)
Lemma out_edges_spec p e : In e (out_edges g p) <-> In e (ledges g) /\ lfrom e = p.
Proof.
  unfold out_edges. rewrite in_flat_map. split.
  - intros [i [Hi He]]. apply out_ids_spec in Hi as [e' [H1 [H2 H3]]]. rewrite <- H2, (lfind_in g e' (lwf_ids g W) H1) in He. destruct He as [<-|[]]. auto.
  - intros [H1 H2]. exists (lid e). split; [apply out_ids_spec; eauto|]. rewrite (lfind_in g e (lwf_ids g W) H1). left. reflexivity.
Qed.
Lemma expand_twf st v : twf g (l_tree st) -> v < length (l_tree st) -> twf g (l_tree (expand part g st v)).
Proof.
  intros T Lv. unfold expand. cbn [remove_leaf l_tree]. apply twf_app; [exact T|]. intros n Hn. apply in_map_iff in Hn as [e [<- He]].
  apply (Permutation_in _ (Hpart _)), out_edges_spec in He as [H1 H2]. exists v, e. cbn. auto.
Qed.
Lemma expand_leaves st v : (forall u, In u (l_leaves st) -> u < length (l_tree st)) -> forall u, In u (l_leaves (expand part g st v)) -> u < length (l_tree (expand part g st v)).
Proof.
  intros L u Hu. unfold expand in *. cbn [remove_leaf l_tree l_leaves] in *. apply filter_In in Hu as [Hu _]. rewrite app_length, map_length. apply in_app_iff in Hu as [Hu|Hu]; [specialize (L u Hu); lia|].
  apply in_seq in Hu. lia.
Qed.
Lemma expand_ok st v : inv st -> v < length (l_tree st) -> loc (l_tree st) v <> exit -> inv (expand part g st v).
Proof.
  intros I Lv Nv. pose proof (iv_0 _ I) as I0. pose proof (iv_tree _ I0) as T. pose proof (expand_twf st v T Lv) as T'. pose proof (expand_leaves st v (iv_leaves _ I0)) as L'.
  unfold expand in *. set (es := part (out_edges g (loc (l_tree st) v))) in *. set (x := map (fun e => mkNode (lto e) (Some (v, e))) es) in *. cbn [remove_leaf l_tree l_leaves] in T', L'.
  assert (Hes : forall e, In e es <-> In e (ledges g) /\ lfrom e = loc (l_tree st) v).
  { intros e. rewrite <- out_edges_spec. split; apply Permutation_in; [apply Hpart|apply Permutation_sym, Hpart]. }
  assert (New : forall u, length (l_tree st) <= u -> forall n, nth_error (l_tree st ++ x) u = Some n -> exists e, In e es /\ n = mkNode (lto e) (Some (v, e))).
  { intros u Lu n E. rewrite nth_error_app2 in E by exact Lu. apply nth_error_In, in_map_iff in E as [e [<- He]]. eauto. }
  split; [split|..]; cbn [remove_leaf l_tree l_lab l_cov l_leaves l_cache].
  - exact T'.
  - exact L'.
  - intros u Lu y Hy. destruct (Nat.ltb_spec u (length (l_tree st))) as [L|L]; [|destruct Hy]. destruct (nth_up_app (l_tree st) x u L) as [_ ->]. apply (iv_vars _ I0 u L y Hy).
  - intros a w Haw. destruct (iv_cov _ I0 a w Haw) as [H1 [H2 [H3 [H4 H5]]]]. rewrite app_length. destruct (nth_up_app (l_tree st) x a H1) as [_ ->]. destruct (nth_up_app (l_tree st) x w H2) as [_ ->].
    split; [lia|]. split; [lia|]. split; [exact H3|]. split.
    + destruct (Nat.ltb_spec a (length (l_tree st))); [|lia]. destruct (Nat.ltb_spec w (length (l_tree st))); [|lia]. exact H4.
    + intros b y Hb. apply (anc_app g _ _ _ _ T H2) in Hb. apply (H5 b y Hb).
  - apply (iv_cache _ I0).
  - intros r. pose proof (tree_pos g _ T). destruct (Nat.ltb_spec 0 (length (l_tree st))); [|lia]. apply (iv_root _ I).
  - intros u p e U r H1 H2. destruct (Nat.ltb_spec u (length (l_tree st))) as [L|L]; [|apply holds_shift; reflexivity].
    destruct (nth_up_app (l_tree st) x u L) as [X _]. rewrite X in U. pose proof (up_some g _ T u p e U) as [_ [Lp _]]. destruct (Nat.ltb_spec p (length (l_tree st))) as [Lp'|]; [|lia].
    apply (iv_edge _ I u p e U r H1 H2).
  - intros u Lu. destruct (Nat.lt_ge_cases u (length (l_tree st))) as [L|L].
    + destruct (nth_up_app (l_tree st) x u L) as [_ ->]. destruct (Nat.eq_dec u v) as [->|N].
      * right. right. split; [exact Nv|]. intros e He Ee. assert (X : In e es) by (apply Hes; auto). apply In_nth_error in X as [k Ek]. exists (length (l_tree st) + k).
        unfold up. rewrite nth_error_app2 by lia. replace (length (l_tree st) + k - length (l_tree st)) with k by lia. unfold x. rewrite nth_error_map, Ek. reflexivity.
      * destruct (Nat.ltb_spec u (length (l_tree st))) as [_|]; [|lia]. destruct (iv_done _ I u L) as [X|[X|[X1 X2]]]; [left|right; left; exact X|right; right].
        -- apply filter_In. split; [apply in_app_iff; left; exact X|]. apply negb_true_iff, Nat.eqb_neq, N.
        -- split; [exact X1|]. intros e He Ee. destruct (X2 e He Ee) as [w Uw]. exists w. destruct (nth_up_app (l_tree st) x w) as [-> _]; [apply (up_some g _ T) in Uw; lia|exact Uw].
    + left. apply filter_In. split; [apply in_app_iff; right; apply in_seq; rewrite app_length in Lu; unfold x in Lu; rewrite map_length in Lu; lia|]. apply negb_true_iff, Nat.eqb_neq. lia.
Qed.
End Proofs.
