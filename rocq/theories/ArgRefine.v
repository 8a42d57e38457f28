(** * Predicate abstraction: new nodes and refinement keep the invariants. *)
From Verif Require Import Syntax Solver Graph GraphOps GraphOpsProofs ValidatorModel Names GraphSem SimpleTransModel UnreachProofs ReverseProofs SimplifierProofs ListLemmas EntailModel PropEntail PdkModel SpacerModel SpacerProofs ArgModel ArgClean ArgTree ArgInv.
Open Scope list_scope.
Open Scope nat_scope.

Section Steps.
Variable c : ctors.
Hypothesis Hctors : ctors_ok c.
Variable check : check_fn.
Hypothesis Hc : check_ok check.
Variable ord : list term -> list term.
Hypothesis Hord : forall l t, In t (ord l) <-> In t l.
Variable cord : list (nat * nat) -> list (nat * nat).
Hypothesis Hcord : forall l x, In x (cord l) <-> In x l.
Variable h : hgraph.
Hypothesis W : arg_wf h.
Lemma ord_in l t : In t (ord l) -> In t l. Proof. apply Hord. Qed.
Lemma in_ord l t : In t l -> In t (ord l). Proof. apply Hord. Qed.
Notation core := (core h).
Notation valid := (valid h).
Notation ginv := (ginv h).

(** Only the nodes of the sources matter. *)
Lemma shold_mono st st' e srcs r : (forall s, In s srcs -> incl (n_preds (nd st s)) (n_preds (nd st' s))) -> shold st' e srcs r -> shold st e srcs r.
Proof. intros H S i p k t Hi Ht. apply (S i p k t Hi). apply (H i); [|exact Ht]. apply in_combine_l in Hi. exact Hi. Qed.
Lemma entailed_mono st st' e srcs p : (forall s, In s srcs -> incl (n_preds (nd st s)) (n_preds (nd st' s))) -> entailed st e srcs p -> entailed st' e srcs p.
Proof. intros H E r H1 H2. apply E; [exact H1|]. apply (shold_mono st st'); assumption. Qed.
Lemma infeasible_mono st st' x : (forall s, In s (snd x) -> incl (n_preds (nd st s)) (n_preds (nd st' s))) -> infeasible st x -> infeasible st' x.
Proof. intros H E r H1 H2. apply (E r H1). apply (shold_mono st st'); assumption. Qed.
Lemma valid_same st st' x : length (g_nodes st) <= length (g_nodes st') -> (forall s, s < length (g_nodes st) -> nsym st' s = nsym st s) -> valid st x -> valid st' x.
Proof.
  intros L N [A [B D]]. split; [exact A|]. split; [intros s Hs; specialize (B s Hs); lia|]. rewrite <- D. apply map_ext_in. intros s Hs. apply N, B, Hs.
Qed.

(** ** A new node *)
Section Insert.
Variable st : gst.
Variable q : list uedge.
Hypothesis Q : ginv st q.
Variable e : hedge.
Variable srcs : list nat.
Hypothesis V : valid st (e, srcs).
Hypothesis Nx : eto e <> exit.
Let cands := ord (g_preds st (eto e)).
Let preds := add_terms [] (propagated c check ord st cands srcs (efla e)).
Let unk := undecided c check ord st cands srcs (efla e).
Variable st' : gst.
Variable covd : bool.
Hypothesis E : insert_node st e srcs preds unk = (st', covd).
Let len := length (g_nodes st).
Let C := gi_core _ _ _ Q.
Let Sh := co_shape _ _ C.

Lemma ins_nodes : g_nodes st' = g_nodes st ++ [mkGN (eto e) preds e srcs] /\ g_preds st' = g_preds st /\ g_unk st' = g_unk st || unk.
Proof. unfold insert_node in E. destruct (find _ _); injection E as <- <-; auto. Qed.
Lemma ins_len : length (g_nodes st') = S len.
Proof. destruct ins_nodes as [-> _]. rewrite app_length. cbn. unfold len. lia. Qed.
Lemma ins_old j : j < len -> nd st' j = nd st j.
Proof. intros L. unfold nd. destruct ins_nodes as [-> _]. apply app_nth1, L. Qed.
Lemma ins_new : nd st' len = mkGN (eto e) preds e srcs.
Proof. unfold nd. destruct ins_nodes as [-> _]. unfold len. rewrite app_nth2, Nat.sub_diag by lia. reflexivity. Qed.
Lemma ins_sym j : j < len -> nsym st' j = nsym st j.
Proof. intros L. unfold nsym. rewrite ins_old by exact L. reflexivity. Qed.
Lemma ins_cov : (covd = false /\ g_cov st' = g_cov st) \/
  (covd = true /\ exists w, w < len /\ nsym st w = eto e /\ incl (n_preds (nd st w)) preds /\ g_cov st' = g_cov st ++ [(len, w)]).
Proof.
  unfold insert_node in E. destruct (find _ _) as [w|] eqn:F; injection E as <- <-; [right|left; auto]. split; [reflexivity|]. exists w.
  apply find_some in F as [F1 F2]. apply in_insts in F1 as [L S]. apply covers_spec in F2. auto.
Qed.
Lemma ins_gcov j : j < len -> gcovered st' j = gcovered st j.
Proof.
  intros L. unfold gcovered. destruct ins_cov as [[_ ->]|[_ [w [_ [_ [_ ->]]]]]]; [reflexivity|]. rewrite existsb_app. cbn [existsb fst].
  assert (X : Nat.eqb len j = false) by (apply Nat.eqb_neq; lia). rewrite X. cbn. apply orb_false_r.
Qed.
Lemma old_cov_lt : gcovered st len = false.
Proof.
  destruct (gcovered st len) eqn:G; [|reflexivity]. unfold gcovered in G. apply existsb_exists in G as [[v w] [Hin X]]. cbn in X. apply Nat.eqb_eq in X. subst v.
  destruct (co_cov _ _ C len w Hin) as [L _]. unfold len in L. lia.
Qed.
Lemma ins_gcov_new : gcovered st' len = covd.
Proof.
  unfold gcovered. destruct ins_cov as [[Ed Ec]|[Ed [w [_ [_ [_ Ec]]]]]]; rewrite Ed, Ec; [apply old_cov_lt|]. rewrite existsb_app. cbn [existsb fst]. rewrite Nat.eqb_refl. rewrite orb_true_r. reflexivity.
Qed.
Lemma cands_vars p : In p cands -> forall v, In v (vars p) -> In v (gpv h (eto e)).
Proof. intros H v Hv. apply ord_in in H. apply (co_vars _ _ C _ p v H Hv). Qed.
Lemma Ssyms : map (nsym st) srcs = efrom e. Proof. apply V. Qed.
Lemma preds_in p : In p preds <-> In p (propagated c check ord st cands srcs (efla e)).
Proof. unfold preds. rewrite add_terms_spec. cbn. tauto. Qed.
Lemma ins_srcs j s : 0 < j < len -> In s (n_srcs (nd st j)) -> s < len.
Proof. intros L H. pose proof (gs_srcs _ _ Sh j s L H). lia. Qed.
Lemma vsrcs s : In s srcs -> s < len. Proof. apply V. Qed.
Lemma old_incl l : (forall s, In s l -> s < len) -> forall s, In s l -> incl (n_preds (nd st s)) (n_preds (nd st' s)).
Proof. intros H s Hs. rewrite ins_old by (apply H, Hs). apply incl_refl. Qed.
Lemma old_incl' l : (forall s, In s l -> s < len) -> forall s, In s l -> incl (n_preds (nd st' s)) (n_preds (nd st s)).
Proof. intros H s Hs. rewrite ins_old by (apply H, Hs). apply incl_refl. Qed.

Lemma insert_core : core st'.
Proof.
  assert (L := ins_len). assert (Lp := gs_len _ _ Sh). split.
  - split.
    + lia.
    + rewrite ins_sym by exact Lp. apply (gs_root _ _ Sh).
    + intros j Lj. destruct (Nat.eq_dec j len) as [->|N].
      * rewrite ins_new. cbn. unfold nsym. rewrite ins_new. cbn. split; [apply V|]. split; [reflexivity|exact Nx].
      * rewrite ins_old, ins_sym by lia. apply (gs_edge _ _ Sh). unfold len in *; lia.
    + intros j s Lj. destruct (Nat.eq_dec j len) as [->|N].
      * rewrite ins_new. cbn. apply vsrcs.
      * rewrite ins_old by lia. apply (gs_srcs _ _ Sh). unfold len in *; lia.
    + intros j Lj. destruct (Nat.eq_dec j len) as [->|N].
      * rewrite ins_new. cbn. rewrite <- Ssyms. apply map_ext_in. intros s Hs. apply ins_sym, vsrcs, Hs.
      * rewrite ins_old by lia. rewrite <- (gs_syms _ _ Sh j) by (unfold len in *; lia). apply map_ext_in. intros s Hs. apply ins_sym. apply (ins_srcs j); [lia|exact Hs].
  - rewrite ins_old by exact Lp. apply (co_root _ _ C).
  - intros j p Lj. destruct ins_nodes as [_ [-> _]]. destruct (Nat.eq_dec j len) as [->|N].
    + rewrite ins_new. unfold nsym. rewrite ins_new. cbn. intros Hp. apply preds_in in Hp. apply (propagated_in c Hctors check Hc ord Hord h W st cands e srcs (eto e) p Ssyms cands_vars) in Hp as [Hp _].
      apply ord_in, Hp.
    + rewrite ins_old, ins_sym by lia. apply (co_preds _ _ C). unfold len in *; lia.
  - destruct ins_nodes as [_ [-> _]]. apply (co_vars _ _ C).
  - intros j p Lj. destruct (Nat.eq_dec j len) as [->|N].
    + rewrite ins_new. cbn. intros Hp. apply preds_in in Hp. apply (propagated_in c Hctors check Hc ord Hord h W st cands e srcs (eto e) p Ssyms cands_vars) in Hp as [_ Hp].
      apply (entailed_mono st); [|exact Hp]. apply old_incl, vsrcs.
    + rewrite ins_old by lia. intros Hp. apply (entailed_mono st); [apply old_incl; intros s; apply (ins_srcs j); lia|]. apply (co_sound _ _ C); [unfold len in *; lia|exact Hp].
  - intros v w Hin. assert (O : In (v, w) (g_cov st) -> v < length (g_nodes st') /\ w < length (g_nodes st') /\ nsym st' v = nsym st' w /\ incl (n_preds (nd st' w)) (n_preds (nd st' v)) /\ (w < v \/ gcovered st' w = false)).
    { intros H. destruct (co_cov _ _ C v w H) as [A [B [D [F G]]]]. rewrite !ins_sym, !ins_old, ins_gcov by assumption. unfold len in *. repeat split; try lia; assumption. }
    destruct ins_cov as [[_ Ec]|[_ [w' [Lw [Sw [Iw Ec]]]]]]; rewrite Ec in Hin; [apply O, Hin|]. apply in_app_iff in Hin as [Hin|[Hin|[]]]; [apply O, Hin|]. injection Hin as <- <-.
    split; [lia|]. split; [lia|]. rewrite (ins_sym w' Lw), (ins_old w' Lw). unfold nsym at 1. rewrite ins_new. cbn. split; [congruence|]. split; [exact Iw|left; exact Lw].
Qed.
Lemma insert_unk : g_unk st' = false -> g_unk st = false /\ unk = false.
Proof. destruct ins_nodes as [_ [_ ->]]. apply orb_false_iff. Qed.
Lemma insert_complete : g_unk st' = false -> complete st'.
Proof.
  intros U. apply insert_unk in U as [U1 U2]. intros j p Lj. rewrite ins_len in Lj. destruct ins_nodes as [_ [-> _]]. destruct (Nat.eq_dec j len) as [->|N].
  - unfold nsym. rewrite ins_new. cbn. intros Hp En. apply preds_in. apply (propagated_all c Hctors check Hc ord Hord h W st cands e srcs (eto e) p Ssyms cands_vars U2); [apply in_ord, Hp|].
    apply (entailed_mono st'); [|exact En]. apply old_incl', vsrcs.
  - rewrite ins_sym, ins_old by lia. intros Hp En. apply (gi_complete _ _ _ Q U1); [unfold len in *; lia|exact Hp|]. apply (entailed_mono st'); [|exact En]. apply old_incl'. intros s. apply (ins_srcs j). lia.
Qed.
Lemma insert_valid x : valid st x -> valid st' x.
Proof. apply valid_same; [rewrite ins_len; unfold len; lia|apply ins_sym]. Qed.
Theorem insert_ok q0 : q = (e, srcs) :: q0 -> ginv st' (if covd then q0 else new_edges h st' len q0).
Proof.
  intros Eq.
  assert (V0 : forall y, In y q0 -> valid st' y) by (intros y Hy; apply insert_valid, (gi_queue _ _ _ Q); rewrite Eq; right; exact Hy).
  destruct (new_edges_ok h W st' len q0 V0) as [A [B D]]. split.
  - apply insert_core.
  - destruct covd; assumption.
  - apply insert_complete.
  - intros U e1 s1 Vx Ux. pose proof (proj1 (insert_unk U)) as U1. destruct (in_dec Nat.eq_dec len s1) as [I|N].
    + assert (covd = false) by (rewrite <- ins_gcov_new; apply Ux, I). assert (X : covd = false) by assumption. rewrite X. left. apply D. split; [exact Vx|]. split; [exact Ux|exact I].
    + assert (Vo : valid st (e1, s1)).
      { destruct Vx as [A1 [B1 D1]]. cbn [fst snd] in *. assert (Lo : forall s, In s s1 -> s < len) by (intros s Hs; specialize (B1 s Hs); rewrite ins_len in B1; assert (s <> len) by congruence; lia).
        split; [exact A1|]. split; [exact Lo|]. cbn [fst snd]. rewrite <- D1. apply map_ext_in. intros s Hs. symmetry. apply ins_sym, Lo, Hs. }
      assert (Lo : forall s, In s s1 -> s < len) by apply Vo.
      destruct (gi_explored _ _ _ Q U1 e1 s1 Vo) as [H|[H|[j [Lj [E1 E2]]]]].
      * intros s Hs. rewrite <- ins_gcov by (apply Lo, Hs). apply Ux, Hs.
      * rewrite Eq in H. destruct H as [H|H].
        -- injection H as <- <-. right. right. exists len. rewrite ins_new, ins_len. cbn. split; [|auto]. pose proof (gs_len _ _ Sh). unfold len in *. lia.
        -- left. destruct covd; [exact H|apply B, H].
      * right. left. apply (infeasible_mono st); [|exact H]. apply old_incl, Lo.
      * right. right. exists j. rewrite ins_old, ins_len by (unfold len in *; lia). unfold len in *. split; [lia|auto].
Qed.
End Insert.

(** ** Refinement *)
Section Refine.
Variable st0 : gst.
Variable C0 : core st0.
Hypothesis K0 : g_unk st0 = false -> complete st0.
Variable inf : sym -> list term.
Hypothesis Hinf : forall s p v, In p (inf s) -> In v (vars p) -> In v (gpv h s).
Let len := length (g_nodes st0).
Let Sh := co_shape _ _ C0.
Definition like (st : gst) : Prop := length (g_nodes st) = len /\ (forall j, nsym st j = nsym st0 j) /\ (forall j, n_edge (nd st j) = n_edge (nd st0 j)) /\ (forall j, n_srcs (nd st j) = n_srcs (nd st0 j)) /\
  g_cov st = g_cov st0.
Record rinv (i : nat) (st : gst) (ch : list nat) : Prop := {
  ri_like : like st;
  ri_gp : g_preds st = g_preds st0;
  ri_incl : forall j, incl (n_preds (nd st0 j)) (n_preds (nd st j));
  ri_later : forall j, j = 0 \/ i <= j -> n_preds (nd st j) = n_preds (nd st0 j);
  ri_ch : forall j, ~ In j ch -> n_preds (nd st j) = n_preds (nd st0 j);
  ri_preds : forall j p, 0 < j < len -> In p (n_preds (nd st j)) -> In p (g_preds st0 (nsym st0 j)) \/ In p (inf (nsym st0 j));
  ri_sound : forall j p, 0 < j < len -> In p (n_preds (nd st j)) -> entailed st (n_edge (nd st0 j)) (n_srcs (nd st0 j)) p;
  ri_unk : g_unk st = false -> g_unk st0 = false;
  ri_comp : g_unk st = false -> forall j p, 0 < j < i -> j < len -> In p (g_preds st0 (nsym st0 j)) \/ In p (inf (nsym st0 j)) ->
     entailed st (n_edge (nd st0 j)) (n_srcs (nd st0 j)) p -> In p (n_preds (nd st j))
}.
Lemma nd_set st i ps u j : i < length (g_nodes st) -> nd (set_preds st i ps u) j = if Nat.eqb j i then mkGN (n_sym (nd st i)) ps (n_edge (nd st i)) (n_srcs (nd st i)) else nd st j.
Proof. intros L. unfold nd at 1, set_preds. cbn [g_nodes]. rewrite nth_set_nth by exact L. reflexivity. Qed.
Lemma like_set st i ps u : i < length (g_nodes st) -> like st -> like (set_preds st i ps u).
Proof.
  intros L [A [B [D [F G]]]]. split; [unfold set_preds; cbn [g_nodes]; rewrite set_nth_length; exact A|].
  assert (X : forall j, n_sym (nd (set_preds st i ps u) j) = n_sym (nd st j) /\ n_edge (nd (set_preds st i ps u) j) = n_edge (nd st j) /\ n_srcs (nd (set_preds st i ps u) j) = n_srcs (nd st j)).
  { intros j. rewrite nd_set by exact L. destruct (Nat.eqb_spec j i) as [->|N]; auto. }
  unfold nsym. split; [intros j; rewrite (proj1 (X j)); apply B|]. split; [intros j; rewrite (proj1 (proj2 (X j))); apply D|]. split; [intros j; rewrite (proj2 (proj2 (X j))); apply F|exact G].
Qed.
Lemma srcs_lt j s : 0 < j < len -> In s (n_srcs (nd st0 j)) -> s < j.
Proof. apply (gs_srcs _ _ Sh). Qed.

Lemma refine_node_ok i st ch : 0 < i < len -> rinv i st ch -> let x := refine_node c check ord inf (st, ch) i in rinv (S i) (fst x) (snd x).
Proof.
  intros Li R. destruct (ri_like _ _ _ R) as [A [B [D [F G]]]].
  set (ee := n_edge (nd st0 i)). set (ss := n_srcs (nd st0 i)). set (s := nsym st0 i).
  assert (Lss : forall x, In x ss -> x < i) by (intros x Hx; apply (srcs_lt i x Li Hx)).
  assert (Ss : map (nsym st) ss = efrom ee) by (rewrite (map_ext _ _ B); apply (gs_syms _ _ Sh); exact Li).
  cbn [refine_node]. rewrite (D i), (F i). change (n_sym (nd st i)) with (nsym st i). rewrite (B i), (ri_gp _ _ _ R). fold ee ss s.
  set (srcch := existsb (fun s1 => existsb (Nat.eqb s1) ch) ss). set (old := g_preds st0 s).
  set (cands := filter (fun t => negb (mem_term t old)) (inf s) ++ (if srcch then filter (fun t => negb (mem_term t (n_preds (nd st i)))) old else [])).
  assert (Pi : n_preds (nd st i) = n_preds (nd st0 i)) by (apply (ri_later _ _ _ R); right; lia).
  assert (Cin : forall p, In p cands -> In p old \/ In p (inf s)).
  { intros p Hp. unfold cands in Hp. apply in_app_iff in Hp as [Hp|Hp]; [apply filter_In in Hp; tauto|]. destruct srcch; [apply filter_In in Hp; tauto|destruct Hp]. }
  assert (Cv : forall p, In p cands -> forall v, In v (vars p) -> In v (gpv h s)).
  { intros p Hp v Hv. apply Cin in Hp as [Hp|Hp]; [apply (co_vars _ _ C0 _ p v Hp Hv)|apply (Hinf s p v Hp Hv)]. }
  assert (Cv' : forall p, In p (ord cands) -> forall v, In v (vars p) -> In v (gpv h s)) by (intros p Hp; apply Cv, ord_in, Hp).
  (* what is entailed and not a candidate is already there *)
  assert (Old : g_unk st0 = false -> forall p, In p old \/ In p (inf s) -> entailed st ee ss p -> ~ In p cands -> In p (n_preds (nd st i))).
  { intros U p Hp En Nc. destruct (in_term_dec p old) as [Ho|No].
    - destruct (in_term_dec p (n_preds (nd st i))) as [Hi|Ni]; [exact Hi|]. destruct srcch eqn:Sc.
      + exfalso. apply Nc. unfold cands. apply in_app_iff. right. apply filter_In. split; [exact Ho|]. apply negb_true_iff, mem_term_false, Ni.
      + rewrite Pi. apply (K0 U i p Li Ho). apply (entailed_mono st); [|exact En]. intros x Hx. rewrite (ri_ch _ _ _ R x); [apply incl_refl|].
        intros Hch. assert (X : srcch = true); [|congruence]. unfold srcch. apply existsb_exists. exists x. split; [exact Hx|]. apply existsb_exists. exists x. split; [exact Hch|apply Nat.eqb_refl].
    - exfalso. apply Nc. unfold cands. apply in_app_iff. left. apply filter_In. split; [tauto|]. apply negb_true_iff, mem_term_false, No. }
  destruct cands as [|c0 cs] eqn:Ec.
  - (* nothing to test *)
    cbn [fst snd]. destruct R. split; auto.
    + intros j [Hj|Hj]; apply ri_later0; [auto|right; lia].
    + intros U j p Lj Lj' Hp En. destruct (Nat.eq_dec j i) as [->|N]; [|apply ri_comp0; auto; lia]. apply (Old (ri_unk0 U) p Hp En). intros [].
  - rewrite <- Ec in *. clear Ec c0 cs. set (imp := propagated c check ord st (ord cands) ss (efla ee)). set (u := undecided c check ord st (ord cands) ss (efla ee)).
    set (st' := set_preds st i (add_terms (n_preds (nd st i)) imp) u). cbn [fst snd].
    assert (Lst : i < length (g_nodes st)) by lia.
    assert (Nd : forall j, nd st' j = if Nat.eqb j i then mkGN (n_sym (nd st i)) (add_terms (n_preds (nd st i)) imp) (n_edge (nd st i)) (n_srcs (nd st i)) else nd st j) by (intros j; apply nd_set, Lst).
    assert (Np : forall j, j <> i -> n_preds (nd st' j) = n_preds (nd st j)) by (intros j N; rewrite Nd; destruct (Nat.eqb_spec j i); [contradiction|reflexivity]).
    assert (Ni : n_preds (nd st' i) = add_terms (n_preds (nd st i)) imp) by (rewrite Nd, Nat.eqb_refl; reflexivity).
    assert (Gr : forall j, incl (n_preds (nd st j)) (n_preds (nd st' j))).
    { intros j. destruct (Nat.eq_dec j i) as [->|N]; [|rewrite Np by exact N; apply incl_refl]. rewrite Ni. intros t Ht. apply add_terms_spec. auto. }
    assert (Imp : forall p, In p imp -> In p cands /\ entailed st ee ss p).
    { intros p Hp. apply (propagated_in c Hctors check Hc ord Hord h W st (ord cands) ee ss s p Ss Cv') in Hp as [X Y]. split; [apply ord_in, X|exact Y]. }
    assert (Un : g_unk st' = false -> g_unk st = false /\ u = false) by (unfold st', set_preds; cbn [g_unk]; apply orb_false_iff).
    assert (Src : forall j x, 0 < j < len -> j <= i -> In x (n_srcs (nd st0 j)) -> n_preds (nd st' x) = n_preds (nd st x)).
    { intros j x Lj Le Hx. apply Np. pose proof (srcs_lt j x Lj Hx). lia. }
    split.
    + apply like_set; [exact Lst|apply (ri_like _ _ _ R)].
    + exact (ri_gp _ _ _ R).
    + intros j t Ht. apply Gr, (ri_incl _ _ _ R), Ht.
    + intros j Hj. assert (N : j <> i) by lia. rewrite Np by exact N. apply (ri_later _ _ _ R). lia.
    + intros j Hj. destruct (Nat.eq_dec j i) as [->|N].
      * rewrite Ni. destruct imp as [|x l]; [|exfalso; apply Hj; left; reflexivity]. cbn [add_terms fold_left]. apply (ri_ch _ _ _ R), Hj.
      * rewrite Np by exact N. apply (ri_ch _ _ _ R). intros X. apply Hj. destruct imp; [exact X|right; exact X].
    + intros j p Lj Hp. destruct (Nat.eq_dec j i) as [->|N]; [|rewrite Np in Hp by exact N; apply (ri_preds _ _ _ R j p Lj Hp)].
      rewrite Ni in Hp. apply add_terms_spec in Hp as [Hp|Hp]; [apply (ri_preds _ _ _ R i p Lj Hp)|apply Cin, Imp, Hp].
    + intros j p Lj Hp. apply (entailed_mono st); [intros x _; apply Gr|]. destruct (Nat.eq_dec j i) as [->|N]; [|rewrite Np in Hp by exact N; apply (ri_sound _ _ _ R j p Lj Hp)].
      rewrite Ni in Hp. apply add_terms_spec in Hp as [Hp|Hp]; [apply (ri_sound _ _ _ R i p Lj Hp)|apply Imp, Hp].
    + intros U. apply (ri_unk _ _ _ R), Un, U.
    + intros U j p Lj Lj' Hp En. destruct (Un U) as [U1 U2].
      assert (En' : entailed st (n_edge (nd st0 j)) (n_srcs (nd st0 j)) p).
      { apply (entailed_mono st'); [|exact En]. intros x Hx. rewrite (Src j x) by (auto; lia). apply incl_refl. }
      destruct (Nat.eq_dec j i) as [->|N]; [|apply Gr; apply (ri_comp _ _ _ R U1 j p); auto; lia].
      rewrite Ni. apply add_terms_spec. destruct (in_term_dec p cands) as [Hcd|Ncd].
      * right. apply (propagated_all c Hctors check Hc ord Hord h W st (ord cands) ee ss s p Ss Cv' U2); [apply in_ord, Hcd|exact En'].
      * left. apply (Old (ri_unk _ _ _ R U1) p Hp En' Ncd).
Qed.
Lemma refine_fold_ok k : forall i st ch, i + k = len -> 0 < i -> rinv i st ch ->
  let x := fold_left (refine_node c check ord inf) (seq i k) (st, ch) in rinv len (fst x) (snd x).
Proof.
  induction k as [|k IH]; intros i st ch Ek Li R; cbn [seq fold_left].
  - assert (X : len = i) by lia. rewrite X. exact R.
  - pose proof (refine_node_ok i st ch) as Y. cbv zeta in Y. destruct (refine_node c check ord inf (st, ch) i) as [st1 ch1]. cbn [fst snd] in Y. apply (IH (S i)); [lia|lia|]. apply Y; [lia|exact R].
Qed.
Lemma refine_nodes_ok : exists ch, rinv len (refine_nodes c check ord inf st0) ch.
Proof.
  pose proof (gs_len _ _ Sh) as Lp. unfold refine_nodes. fold len. exists (snd (fold_left (refine_node c check ord inf) (seq 1 (len - 1)) (st0, []))).
  apply (refine_fold_ok (len - 1) 1); [unfold len; lia|lia|]. split; auto.
  - repeat split; auto.
  - intros j. apply incl_refl.
  - intros j p Lj Hp. left. apply (co_preds _ _ C0 j p Lj Hp).
  - intros j p Lj Hp. apply (co_sound _ _ C0 j p Lj Hp).
  - intros _ j p Lj. lia.
Qed.

Let st1 := refine_arg c check ord inf st0.
Lemma like1 : like st1.
Proof. destruct refine_nodes_ok as [ch [[A [B [D [F G]]]] _ _ _ _ _ _ _ _]]. repeat split; assumption. Qed.
Lemma incl1 j : incl (n_preds (nd st0 j)) (n_preds (nd st1 j)).
Proof. destruct refine_nodes_ok as [ch R]. apply (ri_incl _ _ _ R j). Qed.
Lemma gp1 s p : In p (g_preds st1 s) <-> In p (g_preds st0 s) \/ In p (inf s).
Proof. destruct refine_nodes_ok as [ch R]. unfold st1, refine_arg. cbn [g_preds]. rewrite add_terms_spec, (ri_gp _ _ _ R). reflexivity. Qed.
Lemma unk1 : g_unk st1 = false -> g_unk st0 = false.
Proof. destruct refine_nodes_ok as [ch R]. apply (ri_unk _ _ _ R). Qed.
Lemma complete1 : g_unk st1 = false -> complete st1.
Proof.
  intros U j p. destruct like1 as [A [B [D [F G]]]]. rewrite A, B, D, F. intros Lj Hp En. apply gp1 in Hp. destruct refine_nodes_ok as [ch R]. apply (ri_comp _ _ _ R U j p); auto. lia.
Qed.
Lemma shape1 : gshape h st1.
Proof.
  destruct like1 as [A [B [D [F G]]]]. split.
  - rewrite A. apply (gs_len _ _ Sh).
  - rewrite B. apply (gs_root _ _ Sh).
  - rewrite A. intros j Lj. rewrite D, B. apply (gs_edge _ _ Sh j Lj).
  - rewrite A. intros j s Lj. rewrite F. apply (gs_srcs _ _ Sh j s Lj).
  - rewrite A. intros j Lj. rewrite F, D, (map_ext _ _ B). apply (gs_syms _ _ Sh j Lj).
Qed.

(** *** Covering after refinement *)
Let st2 := fst (recheck cord st1).
Lemma nd2 j : nd st2 j = nd st1 j. Proof. reflexivity. Qed.
Lemma cov2 v w : In (v, w) (g_cov st2) <-> exists w0, In (v, w0) (g_cov st0) /\ recheck1 st1 (v, w0) = Some (v, w).
Proof.
  destruct like1 as [_ [_ [_ [_ G]]]]. unfold st2, recheck. cbn [fst g_cov]. rewrite G, in_flat_map. split.
  - intros [[v0 w0] [Hin H]]. destruct (recheck1 st1 (v0, w0)) as [y|] eqn:E; [|destruct H]. destruct H as [->|[]]. exists w0.
    assert (v = v0); [|subst; auto]. unfold recheck1 in E. cbn [fst] in E. destruct (still_covered _ _); [congruence|]. destruct (other_coverer _ _); cbn in E; congruence.
  - intros [w0 [Hin H]]. exists (v, w0). split; [exact Hin|]. rewrite H. left. reflexivity.
Qed.
Lemma gcov2_mono j : gcovered st0 j = false -> gcovered st2 j = false.
Proof.
  intros H. destruct (gcovered st2 j) eqn:E; [|reflexivity]. unfold gcovered in E. apply existsb_exists in E as [[v w] [Hin X]]. cbn in X. apply Nat.eqb_eq in X. subst v.
  apply cov2 in Hin as [w0 [Hin _]]. assert (Y : gcovered st0 j = true); [|congruence]. unfold gcovered. apply existsb_exists. exists (j, w0). split; [exact Hin|]. cbn. apply Nat.eqb_refl.
Qed.
Lemma gcov1 j : gcovered st1 j = gcovered st0 j.
Proof. unfold gcovered. destruct like1 as [_ [_ [_ [_ ->]]]]. reflexivity. Qed.
Lemma core2 : core st2.
Proof.
  destruct like1 as [A [B [D [F G]]]]. destruct refine_nodes_ok as [ch R]. pose proof shape1 as S1. split.
  - destruct S1. split; assumption.
  - rewrite nd2. change (nd st1 0) with (nd (refine_nodes c check ord inf st0) 0). rewrite (ri_later _ _ _ R 0 (or_introl eq_refl)). apply (co_root _ _ C0).
  - intros j p Lj Hp. change (g_preds st2) with (g_preds st1). change (nsym st2 j) with (nsym st1 j). rewrite B. apply gp1. change (length (g_nodes st2)) with (length (g_nodes st1)) in Lj. rewrite A in Lj.
    apply (ri_preds _ _ _ R j p Lj Hp).
  - intros s p v Hp. change (g_preds st2) with (g_preds st1) in Hp. apply gp1 in Hp as [Hp|Hp]; [apply (co_vars _ _ C0 s p v Hp)|apply (Hinf s p v Hp)].
  - intros j p Lj Hp. change (length (g_nodes st2)) with (length (g_nodes st1)) in Lj. rewrite A in Lj. rewrite nd2, D, F. apply (ri_sound _ _ _ R j p Lj Hp).
  - intros v w Hin. apply cov2 in Hin as [w0 [Hin E]]. destruct (co_cov _ _ C0 v w0 Hin) as [Lv [Lw [Sv [_ Wf]]]].
    change (length (g_nodes st2)) with (length (g_nodes st1)). change (nsym st2) with (nsym st1). rewrite !A, !B, !nd2. unfold recheck1 in E. cbn [fst] in E. destruct (still_covered st1 (v, w0)) eqn:Sc.
    + injection E as <-. unfold still_covered in Sc. cbn [fst snd] in Sc. apply covers_spec in Sc. split; [exact Lv|]. split; [exact Lw|]. split; [exact Sv|]. split; [exact Sc|].
      destruct Wf as [X|X]; [left; exact X|right; apply gcov2_mono, X].
    + destruct (other_coverer st1 v) as [o|] eqn:Oc; [|discriminate]. cbn in E. injection E as <-. unfold other_coverer in Oc. apply find_some in Oc as [Oi Oc].
      apply in_insts in Oi as [Lo So]. apply andb_true_iff in Oc as [Oc O3]. apply andb_true_iff in Oc as [O1 O2]. apply negb_true_iff in O2. rewrite gcov1 in O2. apply covers_spec in O3. rewrite A in Lo. rewrite !B in So.
      split; [exact Lv|]. split; [exact Lo|]. split; [symmetry; exact So|]. split; [exact O3|right; apply gcov2_mono, O2].
Qed.
Let un := snd (recheck cord st1).
Lemma un_spec v : gcovered st0 v = true -> gcovered st2 v = false -> In v un.
Proof.
  intros H N. unfold gcovered in H. apply existsb_exists in H as [[v' w] [Hin X]]. cbn in X. apply Nat.eqb_eq in X. subst v'.
  unfold un, recheck. cbn [snd]. apply in_flat_map. exists (v, w). split; [apply Hcord; destruct like1 as [_ [_ [_ [_ ->]]]]; exact Hin|].
  destruct (recheck1 st1 (v, w)) as [[v' w']|] eqn:E; [|left; reflexivity]. exfalso.
  assert (v' = v) by (unfold recheck1 in E; cbn [fst] in E; destruct (still_covered _ _); [congruence|]; destruct (other_coverer _ _); cbn in E; congruence). subst v'.
  assert (Y : gcovered st2 v = true); [|congruence]. unfold gcovered. apply existsb_exists. exists (v, w'). split; [apply cov2; eauto|]. cbn. apply Nat.eqb_refl.
Qed.
Lemma new_edges_fold us : forall q, (forall y, In y q -> valid st2 y) -> let q' := fold_left (fun q v => new_edges h st2 v q) us q in
  (forall y, In y q' -> valid st2 y) /\ (forall y, In y q -> In y q') /\ (forall v y, In v us -> wanted h st2 v y -> In y q').
Proof.
  induction us as [|u us IH]; intros q V; cbn [fold_left]; [repeat split; auto; try apply (V _ H); intros ? ? []|].
  destruct (new_edges_ok h W st2 u q V) as [A [B D]]. destruct (IH _ A) as [A2 [B2 D2]]. split; [exact A2|]. split; [auto|].
  intros v y [<-|Hv] Hy; [apply B2, D, Hy|apply (D2 v y Hv Hy)].
Qed.
(** The refined graph keeps the invariant, if the refinement removes the edge in hand. *)
Theorem refine_ok x q : (g_unk st0 = false -> explored h st0 (x :: q)) -> (forall y, In y q -> valid st0 y) -> (g_unk st1 = false -> infeasible st1 x) ->
  ginv (fst (refine c check ord cord h inf st0 q)) (snd (refine c check ord cord h inf st0 q)).
Proof.
  intros Ex Vq Rem. unfold refine. fold st1. assert (Er : recheck cord st1 = (st2, un)) by (unfold st2, un; apply surjective_pairing). rewrite Er. cbn [fst snd].
  destruct like1 as [A [B [D [F G]]]].
  assert (Vs : forall y, valid st0 y -> valid st2 y) by (intros y; apply valid_same; [change (g_nodes st2) with (g_nodes st1); rewrite A; unfold len; lia|intros s _; change (nsym st2 s) with (nsym st1 s); apply B]).
  assert (Vs' : forall y, valid st2 y -> valid st0 y) by (intros y; apply valid_same; [change (g_nodes st2) with (g_nodes st1); rewrite A; unfold len; lia|intros s _; change (nsym st2 s) with (nsym st1 s); symmetry; apply B]).
  destruct (new_edges_fold un q (fun y Hy => Vs y (Vq y Hy))) as [Q1 [Q2 Q3]]. split.
  - exact core2.
  - exact Q1.
  - intros U. pose proof (complete1 U) as K. exact K.
  - intros U e srcs Vx Ux. pose proof (unk1 U) as U0. change (g_unk st2) with (g_unk st1) in U.
    assert (Dc : (forall s, In s srcs -> gcovered st0 s = false) \/ exists s, In s srcs /\ gcovered st0 s = true).
    { clear. induction srcs as [|s l IH]; [left; intros ? []|]. destruct (gcovered st0 s) eqn:E; [right; exists s; split; [left; reflexivity|exact E]|].
      destruct IH as [IH|[s' [H1 H2]]]; [left; intros x [<-|H]; auto|right; exists s'; split; [right; exact H1|exact H2]]. }
    destruct Dc as [Dc|[s [Hs Cs]]].
    + destruct (Ex U0 e srcs (Vs' _ Vx) Dc) as [[H|H]|[H|[j [Lj [E1 E2]]]]].
      * right. left. rewrite <- H. apply (Rem U).
      * left. apply Q2, H.
      * right. left. apply (infeasible_mono st0); [|exact H]. intros s _. apply incl1.
      * right. right. exists j. change (g_nodes st2) with (g_nodes st1). rewrite A, nd2, D, F. auto.
    + left. apply (Q3 s); [apply un_spec; [exact Cs|apply Ux, Hs]|]. split; [exact Vx|]. split; [exact Ux|exact Hs].
Qed.
End Refine.
End Steps.
