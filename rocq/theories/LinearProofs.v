(** * Linear graphs and hypergraphs have the same meaning. *)
From Verif Require Import Syntax Solver TransSys Graph GraphOps GraphOpsProofs GraphSem SimpleTransModel MergeModel MergeProofs LinearModel.
Open Scope list_scope.
Open Scope nat_scope.

Lemma vlookup_app m1 m2 v : vlookup (m1 ++ m2) v = if in_dec var_dec v (map fst m1) then vlookup m1 v else vlookup m2 v.
Proof.
  induction m1 as [|[a b] m IH]; cbn [app vlookup map fst]; [destruct (in_dec var_dec v []) as [[]|]; reflexivity|].
  destruct (var_eqb_spec v a) as [->|N].
  - destruct (in_dec var_dec a (a :: map fst m)) as [|X]; [reflexivity|]. exfalso. apply X. left; reflexivity.
  - rewrite IH. destruct (in_dec var_dec v (map fst m)) as [I|I], (in_dec var_dec v (a :: map fst m)) as [J|J]; auto.
    + exfalso. apply J. right. exact I.
    + exfalso. destruct J as [->|J]; auto.
Qed.
Lemma vlookup_map_in (f h : var -> var) l v :
  (forall a b, f a = f b -> h a = h b) -> In v l -> vlookup (map (fun x => (f x, h x)) l) (f v) = h v.
Proof.
  intros Hf. induction l as [|w l IH]; cbn [map vlookup]; [intros []|]. intros [->|H].
  - rewrite var_eqb_refl. reflexivity.
  - destruct (var_eqb_spec (f v) (f w)) as [E|E]; [symmetry; apply Hf, E|auto].
Qed.
Lemma map_fst_pair {A B C} (f : A -> B) (h : A -> C) l : map fst (map (fun x => (f x, h x)) l) = map f l.
Proof. rewrite map_map. reflexivity. Qed.
Lemma cur_sort : sort_preserving cur. Proof. intros v. reflexivity. Qed.
Lemma nxt_sort : sort_preserving nxt. Proof. intros v. reflexivity. Qed.

(** An injective renaming does not change what a label says about its interface. *)
Lemma ren_valuation (f : var -> var) (D : list var) (r : valuation) :
  (forall a b, In a D -> In b D -> f a = f b -> a = b) -> exists r' : valuation, forall v, In v D -> r' (f v) = r v.
Proof.
  intros Inj. exists (fun u => match find (fun d => var_eqb (f d) u) D with Some d => r d | None => r u end).
  intros v Hv. destruct (find (fun d => var_eqb (f d) (f v)) D) as [d|] eqn:E.
  - apply find_some in E as [E1 E2]. destruct (var_eqb_spec (f d) (f v)) as [X|]; [|discriminate]. rewrite (Inj d v E1 Hv X). reflexivity.
  - exfalso. pose proof (find_none _ _ E v Hv) as X. cbv beta in X. rewrite var_eqb_refl in X. discriminate.
Qed.
Lemma ren_label (f : var -> var) (D : list var) t l1 l2 (a1 a2 : list value) : sort_preserving f ->
  (forall a b, In a D -> In b D -> f a = f b -> a = b) ->
  incl (vars t) D -> incl l1 D -> incl l2 D ->
  ((exists r, holds r t /\ a1 = args r l1 /\ a2 = args r l2) <->
   (exists r, holds r (rename f t) /\ a1 = args r (map f l1) /\ a2 = args r (map f l2))).
Proof.
  intros Hf Inj It I1 I2. split; intros [r [H [-> ->]]].
  - destruct (ren_valuation f D r Inj) as [r' Hr].
    assert (E : forall v, In v D -> eval r' (Var (f v)) = eval r (Var v)) by (intros v Hv; cbn; rewrite Hf, Hr; auto).
    exists r'. split; [|split; symmetry; apply args_ren_ext; auto].
    refine (proj2 (holds_ren_ext f r' r t Hf _) H). auto.
  - exists (fun v => r (f v)). split; [apply (holds_rename f r t Hf), H|].
    split; apply args_map, Hf.
Qed.

(** ** From hypergraphs to linear graphs *)
(** Auxiliary variables are version-zero variables and not the versions that the conversion introduces (the
    Normalizer's output, see C29). *)
Definition aux_versioned (g : hgraph) : Prop := forall e v, In e (gedges g) -> In v (vars (efla e)) -> ~ In v (own_vars g e) ->
  vtag v = TTime 0 /\ forall p, vertex g p -> ~ In v (map cur (gpv g p)).

Section ToNormal.
Variable g : hgraph.
Hypothesis W : wf_graph g.
Hypothesis Nm : is_normal g = true.
Hypothesis Av : aux_versioned g.

Lemma normal_from e : In e (gedges g) -> exists p, efrom e = [p].
Proof.
  intros He. unfold is_normal in Nm. rewrite forallb_forall in Nm. specialize (Nm e He). apply Nat.eqb_eq in Nm.
  destruct (efrom e) as [|p [|q l]]; try discriminate. eauto.
Qed.

Lemma normal_map_src e p b : efrom e = [p] -> In b (gpv g p) -> vlookup (normal_map g e) (src 0 b) = cur b.
Proof.
  intros E Hb. unfold normal_map. rewrite E. cbn [hd]. rewrite vlookup_app, map_fst_pair.
  destruct (in_dec var_dec (src 0 b) (map (src 0) (gpv g p))) as [I|I]; [|exfalso; apply I, in_map, Hb].
  apply vlookup_map_in; [|exact Hb]. unfold src, cur. intros x y X. injection X as -> ->. reflexivity.
Qed.
Lemma normal_map_tgt e p b : efrom e = [p] -> In b (gpv g (eto e)) -> vlookup (normal_map g e) (tgt b) = nxt b.
Proof.
  intros E Hb. unfold normal_map. rewrite E. cbn [hd]. rewrite vlookup_app, map_fst_pair.
  destruct (in_dec var_dec (tgt b) (map (src 0) (gpv g p))) as [I|I].
  - exfalso. apply in_map_iff in I as [x [X _]]. unfold src, tgt in X. discriminate.
  - apply vlookup_map_in; [|exact Hb]. unfold tgt, nxt. intros x y X. injection X as -> ->. reflexivity.
Qed.
Lemma normal_map_out e p v : efrom e = [p] -> ~ In v (own_vars g e) -> vlookup (normal_map g e) v = v.
Proof.
  intros E Hv. apply vlookup_out. intros H. apply Hv. unfold normal_map in H. rewrite map_app, !map_fst_pair, E in H.
  unfold own_vars. rewrite E. cbn. rewrite app_nil_r. exact H.
Qed.
Lemma normal_map_sort e : sort_preserving (vlookup (normal_map g e)).
Proof.
  apply vlookup_sort. intros a b H. unfold normal_map in H. apply in_app_or in H as [H|H]; apply in_map_iff in H as [x [X _]]; injection X as <- <-; reflexivity.
Qed.
Lemma base_eq p q (a b : var) : In a (gpv g p) -> In b (gpv g q) -> vbase a = vbase b -> vsort a = vsort b -> a = b.
Proof.
  intros Ha Hb E1 E2. pose proof (rep_base _ (wf_rep g W) _ _ Ha). pose proof (rep_base _ (wf_rep g W) _ _ Hb).
  destruct a, b; cbn in *; congruence.
Qed.
Lemma normal_map_inj e p : In e (gedges g) -> efrom e = [p] -> forall a b, In a (own_vars g e ++ vars (efla e)) -> In b (own_vars g e ++ vars (efla e)) ->
  vlookup (normal_map g e) a = vlookup (normal_map g e) b -> a = b.
Proof.
  intros He E. set (f := vlookup (normal_map g e)).
  assert (C : forall a, In a (own_vars g e ++ vars (efla e)) ->
     (exists x, In x (gpv g p) /\ a = src 0 x /\ f a = cur x) \/ (exists x, In x (gpv g (eto e)) /\ a = tgt x /\ f a = nxt x) \/
     (f a = a /\ vtag a = TTime 0 /\ ~ In a (map cur (gpv g p)))).
  { intros a Ha. destruct (in_dec var_dec a (own_vars g e)) as [O|O].
    - unfold own_vars in O. rewrite E in O. cbn in O. rewrite app_nil_r in O. apply in_app_or in O as [O|O].
      + left. apply in_map_iff in O as [x [<- Hx]]. exists x. split; [exact Hx|]. split; [reflexivity|]. apply (normal_map_src e p x E Hx).
      + right; left. apply in_map_iff in O as [x [<- Hx]]. exists x. split; [exact Hx|]. split; [reflexivity|]. apply (normal_map_tgt e p x E Hx).
    - right; right. apply in_app_or in Ha as [Ha|Ha]; [contradiction|]. split; [apply (normal_map_out e p a E O)|].
      destruct (Av e a He Ha O) as [T1 T2]. split; [exact T1|]. apply T2. unfold vertex. right; right. exists e. rewrite E. cbn. auto. }
  intros a b Ha Hb X.
  destruct (C a Ha) as [[x [Hx [-> Fx]]]|[[x [Hx [-> Fx]]]|[Fa [Ta Na]]]], (C b Hb) as [[y [Hy [-> Fy]]]|[[y [Hy [-> Fy]]]|[Fb [Tb Nb]]]];
    fold f in X; try rewrite Fx in X; try rewrite Fy in X; try rewrite Fa in X; try rewrite Fb in X.
  - unfold cur in X. injection X as X1 X2. rewrite (base_eq p p x y Hx Hy X1 X2). reflexivity.
  - discriminate.
  - exfalso. apply Nb. rewrite <- X. apply in_map, Hx.
  - discriminate.
  - unfold nxt in X. injection X as X1 X2. rewrite (base_eq _ _ x y Hx Hy X1 X2). reflexivity.
  - rewrite <- X in Tb. discriminate.
  - exfalso. apply Na. rewrite X. apply in_map, Hy.
  - rewrite X in Ta. discriminate.
  - exact X.
Qed.

Theorem normal_follows e p f f' : In e (gedges g) -> efrom e = [p] ->
  (follows g e [f] f' <-> lfollows (to_normal g) (normal_edge g e) f f').
Proof.
  intros He E.
  assert (R := ren_label (vlookup (normal_map g e)) (own_vars g e ++ vars (efla e)) (efla e) (src_vars g (p, 0)) (tgt_vars g (eto e)) (snd f) (snd f')
     (normal_map_sort e) (normal_map_inj e p He E)).
  assert (Es : map (vlookup (normal_map g e)) (src_vars g (p, 0)) = map cur (gpv g p)).
  { unfold src_vars. cbn [fst snd]. rewrite map_map. apply map_ext_in. intros b Hb. apply (normal_map_src e p b E Hb). }
  assert (Et : map (vlookup (normal_map g e)) (tgt_vars g (eto e)) = map nxt (gpv g (eto e))).
  { unfold tgt_vars. rewrite map_map. apply map_ext_in. intros b Hb. apply (normal_map_tgt e p b E Hb). }
  rewrite Es, Et in R.
  assert (R' := R (fun v Hv => in_or_app _ _ _ (or_intror Hv))). clear R.
  assert (O1 : incl (src_vars g (p, 0)) (own_vars g e ++ vars (efla e))).
  { intros v Hv. apply in_or_app. left. unfold own_vars. rewrite E. cbn. rewrite app_nil_r. apply in_or_app. auto. }
  assert (O2 : incl (tgt_vars g (eto e)) (own_vars g e ++ vars (efla e))).
  { intros v Hv. apply in_or_app. left. unfold own_vars. apply in_or_app. auto. }
  specialize (R' O1 O2). unfold follows, lfollows. rewrite E. cbn [instances inst_from map fst snd count_occ].
  unfold normal_edge, cur_vars, nxt_vars. cbn [lfrom lto lfla lpv to_normal]. rewrite E. cbn [hd].
  split; intros [r [H [H1 H2]]].
  - assert (Hx : exists r, holds r (efla e) /\ snd f = args r (src_vars g (p, 0)) /\ snd f' = args r (tgt_vars g (eto e))).
    { exists r. split; [exact H|]. injection H1 as ->. rewrite H2. auto. }
    apply R' in Hx as [r' [H' [A1 A2]]]. exists r'. split; [exact H'|]. injection H1 as Hf. rewrite Hf in A1. rewrite H2 in A2. cbn [snd] in A1, A2.
    rewrite Hf, H2. rewrite A1, A2. auto.
  - assert (Hx : exists r, holds r (rename (vlookup (normal_map g e)) (efla e)) /\ snd f = args r (map cur (gpv g p)) /\ snd f' = args r (map nxt (gpv g (eto e)))).
    { exists r. split; [exact H|]. rewrite H1, H2. auto. }
    apply R' in Hx as [r' [H' [A1 A2]]]. exists r'. split; [exact H'|]. rewrite H1 in *. rewrite H2 in *. cbn [snd] in A1, A2. rewrite A1, A2. auto.
Qed.

Lemma normal_in e' : In e' (ledges (to_normal g)) <-> exists e, In e (gedges g) /\ e' = normal_edge g e.
Proof. cbn. rewrite in_map_iff. split; intros [e [H1 H2]]; eauto. Qed.

Theorem normal_derivable f : derivable g (fst f) (snd f) <-> lderivable (to_normal g) f.
Proof.
  split.
  - intros H. change (dfact g f) in H. apply (dfact_ind g (lderivable (to_normal g))) in H; [exact H|constructor|].
    intros e ps f0 He F _ IH. destruct (normal_from e He) as [p E]. pose proof (follows_prems g e ps f0 F) as [P _].
    rewrite E in P. destruct ps as [|q [|q' ps]]; try discriminate.
    apply (lder_edge _ (normal_edge g e) q); [apply normal_in; eauto| |apply (normal_follows e p); assumption].
    apply Forall_inv in IH. exact IH.
  - intros H. induction H as [|e' f0 f' He _ IH F]; [constructor|]. apply normal_in in He as [e [He ->]].
    destruct (normal_from e He) as [p E]. apply (normal_follows e p f0 f' He E) in F. apply (dfact_follows g e [f0] f' He F). constructor; [exact IH|constructor].
Qed.

Theorem normal_refutation d : refutation g d <-> lrefutation (to_normal g) d.
Proof.
  split; intros [H1 H2 H3]; (split; [exact H1|exact H2|]); intros i s Hi Hs.
  - destruct (H3 i s Hi Hs) as [e [ps [He [Ei [F2 F]]]]]. destruct (normal_from e He) as [p E]. pose proof (follows_prems g e ps _ F) as [P _].
    rewrite E in P. destruct ps as [|q [|q' ps]]; try discriminate. inversion F2 as [|k ? ? ? [K1 K2] F2' Ek]; subst. inversion F2'; subst.
    exists (normal_edge g e), k, q. split; [apply normal_in; eauto|]. split; [exact Ei|]. split; [auto|]. split; [exact K1|]. split; [exact K2|].
    apply (normal_follows e p); assumption.
  - destruct (H3 i s Hi Hs) as [e' [k [f [He [Ei [Ep [K1 [K2 F]]]]]]]]. apply normal_in in He as [e [He ->]].
    destruct (normal_from e He) as [p E]. apply (normal_follows e p _ _ He E) in F. exists e, [f]. split; [exact He|]. split; [exact Ei|]. split; [|exact F].
    rewrite Ep. constructor; [auto|constructor].
Qed.

Lemma lsolution_facts w : lsolution (to_normal g) w <->
  wvars g w /\ (exists d, w entry = Some d /\ forall r, holds r d) /\ (exists d, w exit = Some d /\ forall r, ~ holds r d) /\
  forall e, In e (ledges (to_normal g)) -> w (lfrom e) <> None /\ w (lto e) <> None /\
    forall f f', lfollows (to_normal g) e f f' -> wtrue g w f -> wtrue g w f'.
Proof.
  split.
  - intros [V E0 E1 HE]. split; [exact V|]. split; [exact E0|]. split; [exact E1|]. intros e He.
    destruct (HE e He) as [ds [dt [Es [Et Ht]]]]. split; [congruence|]. split; [congruence|]. intros f f' [r [Hl [-> ->]]] T.
    unfold cur_vars, nxt_vars in *. cbn [lpv to_normal] in *.
    apply (wtrue_args g w _ r cur V cur_sort) in T as [d [Ed T]]. apply (wtrue_args g w _ r nxt V nxt_sort). exists dt. split; [exact Et|].
    apply Ht; [exact Hl|]. rewrite Es in Ed. injection Ed as <-. exact T.
  - intros [V [E0 [E1 HE]]]. split; [exact V|exact E0|exact E1|]. intros e He. destruct (HE e He) as [N1 [N2 H]].
    destruct (w (lfrom e)) as [ds|] eqn:Es; [|congruence]. destruct (w (lto e)) as [dt|] eqn:Et; [|congruence]. exists ds, dt.
    split; [reflexivity|]. split; [reflexivity|]. intros r Hl Hs.
    specialize (H (lfrom e, args r (map cur (gpv g (lfrom e)))) (lto e, args r (map nxt (gpv g (lto e))))).
    assert (T : wtrue g w (lto e, args r (map nxt (gpv g (lto e))))).
    { apply H; [exists r; auto|]. apply (wtrue_args g w _ r cur V cur_sort). eauto. }
    apply (wtrue_args g w _ r nxt V nxt_sort) in T as [d [Ed T]]. rewrite Et in Ed. injection Ed as <-. exact T.
Qed.
Theorem normal_solution w : solution g w <-> lsolution (to_normal g) w.
Proof.
  rewrite lsolution_facts, solution_facts. split; intros [V [E0 [E1 HE]]]; (split; [exact V|]; split; [exact E0|]; split; [exact E1|]).
  - intros e' He'. apply normal_in in He' as [e [He ->]]. destruct (normal_from e He) as [p E]. destruct (HE e He) as [D1 [D2 H]].
    cbn [lfrom lto normal_edge]. rewrite E. cbn [hd]. split; [apply D1; rewrite E; left; reflexivity|]. split; [exact D2|].
    intros f f' F T. apply (normal_follows e p f f' He E) in F. apply (H [f] f' F). constructor; [exact T|constructor].
  - intros e He. destruct (normal_from e He) as [p E]. destruct (HE (normal_edge g e)) as [D1 [D2 H]]; [apply normal_in; eauto|].
    cbn [lfrom lto normal_edge] in D1, D2. rewrite E in D1 |- *. cbn [hd] in D1. split; [intros q [<-|[]]; exact D1|]. split; [exact D2|].
    intros ps f' F T. pose proof (follows_prems g e ps f' F) as [P _]. rewrite E in P. destruct ps as [|q [|q' ps]]; try discriminate.
    apply (normal_follows e p q f' He E) in F. apply (H q f' F). apply Forall_inv in T. exact T.
Qed.

Lemma normal_vertex p : lvertex (to_normal g) p -> vertex g p.
Proof.
  intros [->|[->|[e' [He' H]]]]; [left; reflexivity|right; left; reflexivity|]. apply normal_in in He' as [e [He ->]].
  destruct (normal_from e He) as [q E]. right; right. exists e. split; [exact He|]. cbn [lfrom lto normal_edge] in H. rewrite E in H |- *. cbn in H |- *. destruct H as [->|H]; auto.
Qed.
Theorem normal_wf : lwf (to_normal g).
Proof.
  split.
  - exact (wf_rep g W).
  - cbn. rewrite map_map. cbn. exact (wf_ids g W).
  - intros e' v' He' Hv'. apply normal_in in He' as [e [He ->]]. destruct (normal_from e He) as [p E].
    cbn [lfrom lto lfla normal_edge] in *. rewrite E. cbn [hd]. rewrite vars_rename in Hv'. apply in_map_iff in Hv' as [v [<- Hv]].
    destruct (in_dec var_dec v (own_vars g e)) as [O|O].
    + unfold own_vars in O. rewrite E in O. cbn in O. rewrite app_nil_r in O. apply in_app_or in O as [O|O]; apply in_map_iff in O as [x [<- Hx]].
      * left. change (src (snd (p, 0)) x) with (src 0 x); rewrite (normal_map_src e p x E Hx). unfold cur_vars. apply in_map, Hx.
      * right; left. rewrite (normal_map_tgt e p x E Hx). unfold nxt_vars. apply in_map, Hx.
    + right; right. rewrite (normal_map_out e p v E O). destruct (Av e v He Hv O) as [T1 T2]. split; [exact T1|]. intros q Hq. apply T2, normal_vertex, Hq.
  - intros e' He'. apply normal_in in He' as [e [He ->]]. apply (wf_entry g W e He).
  - intros e' He'. apply normal_in in He' as [e [He ->]]. destruct (normal_from e He) as [q E]. cbn. rewrite E. cbn.
    pose proof (wf_exit g W e He) as X. rewrite E in X. intros ->. apply X. left; reflexivity.
Qed.
End ToNormal.
