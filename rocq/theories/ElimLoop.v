(** * Node elimination: the predicates and the whole transformation. *)
From Verif Require Import DfsProofs Syntax Solver TransSys Graph GraphOps GraphOpsProofs ValidatorModel ValidatorProofs FormulaModel GraphSem SimpleTransModel UnreachProofs UnreachProofs2 SimpleTransProofs SimpleTransProofs2 ListLemmas FormulaProofs3 MergeModel MergeProofs ChainProofs ChainStep ChainBack ExpandProofs ElimModel PairProofs PairLabel ElimProofs ElimValid ElimBack.
Open Scope nat_scope.

Lemma count_sym_one v l : count_sym v l = 1 -> exists l1 l2, l = l1 ++ v :: l2 /\ ~ In v (l1 ++ l2).
Proof.
  unfold count_sym. induction l as [|a l IH]; cbn [filter]; [discriminate|]. destruct (Nat.eqb_spec v a) as [<-|N]; cbn [length].
  - intros H. injection H as H. exists [], l. split; [reflexivity|]. cbn [app]. intros X. apply length_zero_iff_nil in H.
    assert (In v (filter (Nat.eqb v) l)) as Y by (apply filter_In; split; [exact X|apply Nat.eqb_refl]). rewrite H in Y. destruct Y.
  - intros H. destruct (IH H) as [l1 [l2 [-> Q]]]. exists (a :: l1), l2. split; [reflexivity|]. cbn [app In]. intros [X|X]; [congruence|contradiction].
Qed.

Section Preds.
Variable g : hgraph.
Hypothesis W : wf_graph g.
Variable v : sym.
Let Nid := wf_ids g W.
Lemma nonloop_spec : is_nonloop g v = true -> forall e, In e (gedges g) -> In v (efrom e) -> eto e <> v.
Proof.
  unfold is_nonloop. rewrite forallb_forall. intros H e He Hv. specialize (H (eid e)). rewrite (htarget_in g W e He) in H. apply Nat.eqb_neq, negb_true_iff, H.
  apply (out_edges_spec g Nid). eauto.
Qed.
Lemma no_hyper_spec : has_hyper g v = false -> (forall e, In e (gedges g) -> eto e = v \/ In v (efrom e) -> length (efrom e) = 1).
Proof.
  unfold has_hyper. intros H e He Hv. apply orb_false_iff in H as [H1 H2].
  assert (L : length (efrom e) <= 1).
  { destruct (Nat.ltb 1 (length (efrom e))) eqn:El; [|apply Nat.ltb_ge, El]. exfalso. destruct Hv as [Hv|Hv].
    - assert (X : existsb (fun i => Nat.ltb 1 (length (hsources g i))) (in_edges g v) = true); [|congruence]. apply existsb_exists. exists (eid e). split; [apply (in_edges_spec g Nid); eauto|]. rewrite (hsources_in g W e He). exact El.
    - assert (X : existsb (fun i => Nat.ltb 1 (length (hsources g i))) (out_edges g v) = true); [|congruence]. apply existsb_exists. exists (eid e). split; [apply (out_edges_spec g Nid); eauto|]. rewrite (hsources_in g W e He). exact El. }
  pose proof (wf_from g W e He). destruct (efrom e); [congruence|cbn [length] in *; lia].
Qed.
Lemma no_hyper_eliminable : v <> entry -> v <> exit -> is_nonloop g v = true -> has_hyper g v = false -> eliminable g v.
Proof.
  intros N1 N2 NL NH. pose proof (nonloop_spec NL) as L. pose proof (no_hyper_spec NH) as S. split; auto.
  - intros e He Te. specialize (S e He (or_introl Te)). destruct (efrom e) as [|s [|]] eqn:Ef; try discriminate. exists s. split; [reflexivity|].
    intros ->. apply (L e He); [rewrite Ef; left; reflexivity|exact Te].
  - intros e He Hv. split; [apply (L e He Hv)|]. specialize (S e He (or_intror Hv)). destruct (efrom e) as [|s [|]] eqn:Ef; try discriminate. destruct Hv as [->|[]].
    exists [], []. split; [reflexivity|]. split; [intros []|intros ? ? _ _ _ []].
Qed.
Lemma len_single {A} (l : list A) d : length l = 1 -> l = [hd d l].
Proof. destruct l as [|x [|]]; try discriminate. reflexivity. Qed.
Theorem simple_pred_ok : v <> entry -> v <> exit -> simple_pred g v = true -> eliminable g v /\ (existsb is_hyper (outs g v) = true -> length (ins g v) = 1).
Proof.
  intros N1 N2 H. unfold simple_pred in H. destruct (is_simple g v && is_nonloop g v) eqn:E; [|discriminate]. apply andb_true_iff in E as [_ NL].
  destruct (has_hyper g v) eqn:HH; cbn [negb] in H.
  - rewrite (in_edges_eq g W v) in H. fold (ins g v) in H. destruct (ins g v) as [|i [|]] eqn:Ei; cbn [map] in H; try discriminate.
    assert (Hi : In i (gedges g) /\ eto i = v) by (apply ins_in; rewrite Ei; left; reflexivity). destruct Hi as [Hi Ti]. rewrite (hsources_in g W i Hi) in H.
    destruct (Nat.eqb_spec (length (efrom i)) 1) as [L1|]; [|discriminate].
    assert (Uniq : forall e, In e (gedges g) -> eto e = v -> e = i). { intros e He Te. assert (X : In e (ins g v)) by (apply ins_in; auto). rewrite Ei in X. destruct X as [X|[]]. auto. }
    rewrite (out_edges_eq g W v), forallb_forall in H.
    assert (Q : forall e, In e (gedges g) -> In v (efrom e) -> eto e <> v /\ count_sym v (efrom e) = 1 /\ ~ In (hd entry (efrom i)) (efrom e)).
    { intros e He Hv. specialize (H (eid e)). rewrite (htarget_in g W e He), (hsources_in g W e He) in H.
      assert (X : In (eid e) (map eid (filter (fun e => smem v (efrom e)) (gedges g)))) by (apply in_map, filter_In; split; [exact He|apply smem_in, Hv]).
      apply H in X. apply andb_true_iff in X as [X X3]. apply andb_true_iff in X as [X1 X2]. apply Nat.eqb_eq in X2. apply negb_true_iff, Nat.eqb_neq in X1. apply negb_true_iff, smem_nin in X3. auto. }
    split; [|intros _; reflexivity]. split; auto.
    + intros e He Te. rewrite (Uniq e He Te). exists (hd entry (efrom i)). split; [apply len_single, L1|]. intros X.
      assert (Hv : In v (efrom i)) by (rewrite (len_single _ entry L1), X; left; reflexivity). exact (proj1 (Q i Hi Hv) Ti).
    + intros e He Hv. destruct (Q e He Hv) as [Q1 [Q2 Q3]]. split; [exact Q1|]. destruct (count_sym_one v _ Q2) as [l1 [l2 [Fl Nl]]]. exists l1, l2. split; [exact Fl|]. split; [exact Nl|].
      intros e1 s H1 T1 F1 X. apply Q3. rewrite (Uniq e1 H1 T1) in F1. rewrite F1, Fl. cbn [hd]. rewrite in_app_iff in *. cbn [In]. tauto.
  - split; [apply no_hyper_eliminable; assumption|]. intros X. apply existsb_exists in X as [e [He Hh]]. apply outs_in in He as [He Hv].
    unfold is_hyper in Hh. rewrite (no_hyper_spec HH e He (or_intror Hv)) in Hh. discriminate.
Qed.
Theorem better_pred_ok : v <> entry -> v <> exit -> better_pred g v = true -> eliminable g v /\ (existsb is_hyper (outs g v) = true -> length (ins g v) = 1).
Proof.
  intros N1 N2 H. unfold better_pred in H. apply andb_true_iff in H as [H _]. apply andb_true_iff in H as [NL HH]. apply negb_true_iff in HH.
  split; [apply no_hyper_eliminable; assumption|]. intros X. apply existsb_exists in X as [e [He Hh]]. apply outs_in in He as [He Hv].
  unfold is_hyper in Hh. rewrite (no_hyper_spec HH e He (or_intror Hv)) in Hh. discriminate.
Qed.
End Preds.

(** What is required of the predicate. *)
Definition pred_ok (pred : hgraph -> sym -> bool) : Prop := forall g v, wf_graph g -> v <> entry -> v <> exit -> pred g v = true ->
  eliminable g v /\ (existsb is_hyper (outs g v) = true -> length (ins g v) = 1).

(** Every inner vertex has an incoming edge. *)
Definition fed (g : hgraph) : Prop := forall v, vertex g v -> v <> entry -> v <> exit ->
  exists e, In e (gedges g) /\ eto e = v.

Section Whole.
Variable elim : elim_fn.
Hypothesis Helim : elim_ok elim.
Variable fresh : nat.
Variable check : check_fn.
Hypothesis Hck : check_ok check.
Variable itp : itp_fn.
Hypothesis Hitp : itp_ok itp.
Variable pred : hgraph -> sym -> bool.
Hypothesis Hpred : pred_ok pred.

Lemma contract_eq g v : wf_graph g -> v <> entry -> v <> exit -> pred g v = true ->
  contract_vertex elim fresh g v = Some (delete_nodes [v] (fst (merge_pairs elim fresh g (list_prod (ins g v) (outs g v)))),
    mkContr v (ins g v) (outs g v) (snd (merge_pairs elim fresh g (list_prod (ins g v) (outs g v))))).
Proof.
  intros W N1 N2 H. destruct (Hpred g v W N1 N2 H) as [E Hy]. unfold contract_vertex. rewrite (find_ins g W v), (find_outs g W v).
  assert (X : existsb is_hyper (ins g v) || (existsb is_hyper (outs g v) && Nat.ltb 1 (length (ins g v))) = false).
  { apply orb_false_iff. split.
    - destruct (existsb is_hyper (ins g v)) eqn:X; [|reflexivity]. apply existsb_exists in X as [e [He Hh]]. apply ins_in in He as [He Te]. destruct (el_in _ _ E e He Te) as [s [Fs _]].
      unfold is_hyper in Hh. rewrite Fs in Hh. discriminate.
    - destruct (existsb is_hyper (outs g v)) eqn:X; [|reflexivity]. rewrite (Hy eq_refl). reflexivity. }
  rewrite X. destruct (merge_pairs elim fresh g (list_prod (ins g v) (outs g v))) as [g1 rs]. reflexivity.
Qed.
Lemma fed_contract g v : wf_graph g -> vertex g v -> fed g -> eliminable g v ->
  let g' := delete_nodes [v] (fst (merge_pairs elim fresh g (list_prod (ins g v) (outs g v)))) in
  fed g' /\ forall p, vertex g p -> p <> v -> vertex g' p.
Proof.
  intros W Vv L E g'.
  destruct (L v Vv (el_entry _ _ E) (el_exit _ _ E)) as [ei [Hei Tei]].
  assert (Ii : In ei (ins g v)) by (apply ins_in; auto).
  assert (InE : forall p, p <> v -> (exists e, In e (gedges g) /\ eto e = p) -> exists e, In e (gedges g') /\ eto e = p).
  { intros p Np [e [He Te]]. destruct (in_dec Nat.eq_dec v (efrom e)) as [Fv|Nv].
    - assert (Ho : In e (outs g v)) by (apply outs_in; auto). destruct (pair_new elim Helim fresh g W v E ei e Ii Ho) as [x [s [l1 [l2 [Hx [_ [_ [Tx _]]]]]]]]. exists x. split; [exact Hx|congruence].
    - exists e. split; [|exact Te]. apply (el_edges elim Helim fresh g W v E). split; [auto|]. split; [congruence|exact Nv]. }
  split.
  - intros p Vp N1 N2. destruct (el_vertex elim Helim fresh g W v E p Vp) as [Vg Np]. apply InE; [exact Np|]. exact (L p Vg N1 N2).
  - intros p Vp Np. destruct (Nat.eq_dec p entry) as [->|N1]; [left; reflexivity|]. destruct (Nat.eq_dec p exit) as [->|N2]; [right; left; reflexivity|].
    destruct (InE p Np (L p Vp N1 N2)) as [e [He <-]]. apply vertex_tgt, He.
Qed.

(** What a replaced edge looks like in a graph that contains both its parts. *)
Definition repl_ok (H : hgraph) (x : replacing) : Prop :=
  exists s l1 l2, pair_ok H (fst (snd x)) (snd (snd x)) s l1 l2 /\ efrom (fst x) = new_from s l1 l2 /\ eto (fst x) = eto (snd (snd x)) /\
    eto (fst (snd x)) <> exit /\ eto (snd (snd x)) <> eto (fst (snd x)).
Definition all_repl (cs : list contraction) : list replacing := concat (map cn_repl cs).
Record elim_inv (g g' : hgraph) (vs : list sym) (cs : list contraction) : Prop := {
  ei_wf : wf_graph g';
  ei_pv : gpv g' = gpv g;
  ei_verdict : derivable g exit [] <-> derivable g' exit [];
  ei_valid : forall w w', solution g' w -> only g' w -> back_all (rev (map (back_node_valid check itp g) cs)) w = Some w' -> solution g w' /\ only g w';
  ei_edges : forall e, In e (gedges g') -> In e (gedges g) \/ In e (map fst (all_repl cs));
  ei_ids : forall e, In e (map fst (all_repl cs)) -> gfree g <= eid e;
  ei_nodup : NoDup (map eid (map fst (all_repl cs)));
  ei_repl : forall H, (forall e, In e (gedges g) -> In e (gedges H)) -> (forall e, In e (map fst (all_repl cs)) -> In e (gedges H)) -> Forall (repl_ok H) (all_repl cs);
  ei_ne : all_repl cs <> [] -> gedges g <> [];
  ei_vertex : forall p, vertex g' p -> vertex g p;
  ei_final : exists left, (forall v, In v left -> In v vs /\ pred g' v = false) /\ (forall v, In v vs -> In v left \/ ~ vertex g' v)
}.
Lemma back_node_valid_pv g h c w : gpv h = gpv g -> back_node_valid check itp h c w = back_node_valid check itp g c w.
Proof. intros E. unfold back_node_valid, src_vars, tgt_vars. rewrite E. reflexivity. Qed.

Lemma find_node_some g vs v : find_node pred g vs = Some (Some v) -> In v vs /\ pred g v = true /\ In v (hnodes g).
Proof.
  induction vs as [|u vs IH]; cbn [find_node]; [discriminate|]. destruct (smem u (hnodes g)) eqn:Em; [|discriminate]. destruct (pred g u) eqn:Ep.
  - intros H. injection H as <-. split; [left; reflexivity|]. split; [exact Ep|apply smem_in, Em].
  - intros H. destruct (IH H) as [H1 H2]. split; [right; exact H1|exact H2].
Qed.
Lemma find_node_none g vs : find_node pred g vs = Some None -> forall v, In v vs -> pred g v = false.
Proof.
  induction vs as [|u vs IH]; cbn [find_node]; [intros _ ? []|]. destruct (smem u (hnodes g)); [|discriminate]. destruct (pred g u) eqn:Ep; [discriminate|].
  intros H v [<-|Hv]; auto.
Qed.
Lemma find_node_total g vs : (forall v, In v vs -> In v (hnodes g)) -> find_node pred g vs <> None.
Proof.
  induction vs as [|u vs IH]; intros H; cbn [find_node]; [discriminate|]. assert (X : smem u (hnodes g) = true) by (apply smem_in, H; left; reflexivity). rewrite X.
  destruct (pred g u); [discriminate|]. apply IH. intros v Hv. apply H. right. exact Hv.
Qed.
Lemma remove_first_in v l x : In x (remove_first v l) -> In x l.
Proof. induction l as [|a l IH]; cbn [remove_first]; [auto|]. destruct (Nat.eqb a v); [right; assumption|]. intros [<-|H]; [left; reflexivity|right; auto]. Qed.
Lemma remove_first_keep v l x : In x l -> x <> v -> In x (remove_first v l).
Proof. induction l as [|a l IH]; cbn [remove_first]; [auto|]. intros [<-|H] N; destruct (Nat.eqb_spec a v) as [E|E]; try contradiction; [left; reflexivity|exact H|right; auto]. Qed.
Lemma remove_first_len v l : In v l -> S (length (remove_first v l)) = length l.
Proof. induction l as [|a l IH]; [intros []|]. cbn [remove_first length]. destruct (Nat.eqb_spec a v) as [->|N]; [reflexivity|]. intros [X|X]; [congruence|]. cbn [length]. rewrite (IH X). reflexivity. Qed.
Lemma remove_first_nodup v l : NoDup l -> NoDup (remove_first v l) /\ ~ In v (remove_first v l).
Proof.
  induction l as [|a l IH]; intros N; cbn [remove_first]; [split; [constructor|intros []]|]. inversion N as [|? ? Ha N']; subst. destruct (Nat.eqb_spec a v) as [->|Ne]; [auto|].
  destruct (IH N') as [I1 I2]. split; [constructor; [intros X; apply Ha; eapply remove_first_in, X|exact I1]|]. intros [X|X]; [congruence|contradiction].
Qed.

Theorem eliminate_loop_ok fuel : forall g vs g' cs, wf_graph g -> (forall v, In v vs -> v <> entry /\ v <> exit) ->
  eliminate_loop elim fresh pred fuel g vs = Some (g', cs) -> elim_inv g g' vs cs.
Proof.
  induction fuel as [|fuel IH]; intros g vs g' cs W Hvs H; [discriminate|]. cbn [eliminate_loop] in H.
  destruct (find_node pred g vs) as [[v|]|] eqn:Ef; [| |discriminate].
  2:{ injection H as <- <-. split; auto.
      - tauto.
      - intros w w' Sw Ow E. cbn in E. injection E as <-. auto.
      - intros e [].
      - constructor.
      - intros H _ _. constructor.
      - exists vs. split; [intros v Hv; split; [exact Hv|eapply find_node_none; eauto]|auto]. }
  apply find_node_some in Ef as [Hv [Pv Nv]]. destruct (Hvs v Hv) as [N1 N2]. rewrite (contract_eq g v W N1 N2 Pv) in H.
  destruct (Hpred g v W N1 N2 Pv) as [E _].
  set (l := list_prod (ins g v) (outs g v)) in *. set (g1 := delete_nodes [v] (fst (merge_pairs elim fresh g l))) in *. set (rs := snd (merge_pairs elim fresh g l)) in *.
  destruct (eliminate_loop elim fresh pred fuel g1 (remove_first v vs)) as [[g2 cs2]|] eqn:El; [|discriminate]. cbn [option_map fst snd] in H. injection H as <- <-.
  pose proof (el_wf elim Helim fresh g W v E) as W1. fold l g1 in W1.
  destruct (IH g1 (remove_first v vs) g2 cs2 W1) as [J1 J2 J3 J4 J5 J6 J7 J8 JN JV J9]; [intros u Hu; apply Hvs; eapply remove_first_in; eauto|exact El|].
  pose proof (el_pv elim Helim fresh g W v E) as PV1. fold l g1 in PV1.
  pose proof (el_free elim Helim fresh g W v E) as FR1. fold l g1 rs in FR1.
  pose proof (merge_pairs_ok elim Helim fresh l g W (pairs_eliminable g v E)) as PO. fold rs in PO.
  assert (IdsRs : forall e, In e (map fst rs) -> gfree g <= eid e /\ eid e < gfree g1).
  { intros e He. assert (X : In (eid e) (map eid (map fst rs))) by apply in_map, He. rewrite (ps_ids _ _ _ _ PO) in X. apply in_seq in X. rewrite FR1. lia. }
  assert (All : all_repl (mkContr v (ins g v) (outs g v) rs :: cs2) = rs ++ all_repl cs2) by reflexivity.
  split.
  - exact J1.
  - congruence.
  - rewrite <- J3. apply (el_verdict elim Helim fresh g W v E).
  - intros w w' Sw Ow Hb. cbn [map rev] in Hb. unfold backV in Hb. rewrite back_all_snoc in Hb.
    rewrite (back_all_ext _ (rev (map (back_node_valid check itp g1) cs2))) in Hb.
    2:{ assert (X : Forall2 (fun b b' => forall a, b a = b' a) (map (back_node_valid check itp g) cs2) (map (back_node_valid check itp g1) cs2)).
        { clear - PV1. induction cs2 as [|c cs2 IH]; cbn [map]; constructor; [|exact IH]. intros a. symmetry. apply back_node_valid_pv, PV1. }
        apply Forall2_rev', X. }
    destruct (back_all (rev (map (back_node_valid check itp g1) cs2)) w) as [w1|] eqn:Eb; [|discriminate].
    destruct (J4 w w1 Sw Ow Eb) as [Sw1 Ow1].
    assert (Vv : vertex g v) by (apply (hnodes_spec g (wf_ids g W) v), Nv).
    exact (node_valid elim Helim fresh g W v E check itp Hitp Vv w1 w' rs Sw1 Ow1 Hb).
  - rewrite All, map_app. intros e He. rewrite in_app_iff. destruct (J5 e He) as [X|X]; [|auto].
    apply (el_edges elim Helim fresh g W v E) in X as [[X|X] _]; auto.
  - rewrite All, map_app. intros e He. apply in_app_iff in He as [He|He]; [apply IdsRs, He|]. specialize (J6 e He). lia.
  - rewrite All, !map_app. assert (NR : NoDup (map eid (map fst rs))) by (pose proof (ps_ids _ _ _ _ PO) as IdL; rewrite IdL; apply seq_NoDup). apply NoDup_app_intro; [exact NR|exact J7|].
    intros i Hi Hj. apply in_map_iff in Hi as [e [<- He]]. apply in_map_iff in Hj as [e' [E' He']]. apply IdsRs in He. apply J6 in He'. lia.
  - intros H Hg Hall. rewrite All in *. rewrite map_app in Hall. apply Forall_app. split.
    + apply Forall_forall. intros [x [e1 e2]] Hx. destruct (ps_merges _ _ _ _ PO _ _ _ Hx) as [s [l1 [l2 [P [M1 [M2 _]]]]]]. exists s, l1, l2. cbn [fst snd].
      assert (Hp : In (e1, e2) l) by (rewrite <- (ps_snd _ _ _ _ PO); apply (in_map snd _ _ Hx)). unfold l in Hp. apply in_prod_iff in Hp as [Hp1 Hp2]. apply ins_in in Hp1 as [_ T1]. apply outs_in in Hp2 as [I2 F2].
      split; [apply (pair_ok_mono g H); assumption|]. split; [exact M1|]. split; [exact M2|]. split; [congruence|]. rewrite T1. apply (el_out _ _ E e2 I2 F2).
    + apply J8.
      * intros e He. apply (el_edges elim Helim fresh g W v E) in He as [[He|He] _]; [apply Hg, He|apply Hall, in_app_iff; left; exact He].
      * intros e He. apply Hall, in_app_iff. right. exact He.
  - intros _ X. assert (Vv : vertex g v) by (apply (hnodes_spec g (wf_ids g W) v), Nv). destruct Vv as [Y|[Y|[e [He _]]]]; [contradiction|contradiction|]. rewrite X in He. destruct He.
  - intros p Vp. apply (el_vertex elim Helim fresh g W v E p), JV, Vp.
  - destruct J9 as [left [L1 L2]]. exists left. split.
    + intros u Hu. destruct (L1 u Hu) as [X Y]. split; [eapply remove_first_in; eauto|exact Y].
    + intros u Hu. destruct (Nat.eq_dec u v) as [->|Ne]; [|apply L2, remove_first_keep; assumption].
      (* deleted vertices do not come back *)
      right. intros X. apply JV in X. apply (el_vertex elim Helim fresh g W v E v X). reflexivity.
Qed.

Lemma no_step p d : find_step p d = None -> forall i s, nth_error d i = Some s -> p s = false.
Proof.
  unfold find_step. intros H i s Hi. pose proof (find_none _ _ H i) as X. cbv beta in X. rewrite Hi in X. apply X. apply in_seq.
  assert (i < length d) by (apply nth_error_Some; congruence). lia.
Qed.
Lemma nodup_eid_inj (l : list hedge) a b : NoDup (map eid l) -> In a l -> In b l -> eid a = eid b -> a = b.
Proof.
  induction l as [|x l IH]; intros N Ha Hb E; [destruct Ha|]. cbn [map] in N. inversion N as [|? ? Nx N']; subst.
  destruct Ha as [->|Ha], Hb as [->|Hb]; auto; exfalso; apply Nx; [rewrite E|rewrite <- E]; apply in_map; assumption.
Qed.
Lemma back_elim_invalid_ok g rs : wf_graph g -> gedges g <> [] \/ rs = [] ->
  (forall e, In e (map fst rs) -> gfree g <= eid e) -> NoDup (map eid (map fst rs)) ->
  let H := mkGraph (gedges g ++ map fst rs) (gpv g) (gfree g) (gctr g) in
  Forall (repl_ok H) rs -> forall fuel d d', error_derivation H d -> back_elim_invalid check g rs fuel d = Some d' -> error_derivation g d'.
Proof.
  intros W Ne Ids ND H RO. induction fuel as [|fuel IH]; intros d d' D E; [discriminate|]. cbn [back_elim_invalid] in E.
  destruct (find_step _ d) as [i|] eqn:Ef.
  - destruct (nth_error d i) as [st|] eqn:Ei; [|discriminate]. destruct (find_repl rs (st_clause st)) as [[e [e1 e2]]|] eqn:Er; [|discriminate].
    unfold find_repl in Er. apply find_some in Er as [Hin Hid]. apply Nat.eqb_eq in Hid. cbn [fst] in Hid.
    rewrite Forall_forall in RO. destruct (RO _ Hin) as [s [l1 [l2 [P [F [T [Mx Nl]]]]]]]. cbn [fst snd] in *.
    assert (Hinm : In e (map fst rs)) by (apply (in_map fst _ _ Hin)).
    assert (Sid : eid e <> no_id).
    { destruct Ne as [Ne|Ne]; [|subst rs; destruct Hin]. destruct (gedges g) as [|x l] eqn:Eg; [congruence|]. pose proof (wf_idlt g W x) as X. rewrite Eg in X. specialize (X (or_introl eq_refl)). pose proof (Ids e Hinm). unfold no_id. lia. }
    assert (Uniq : forall x, In x (gedges H) -> eid x = eid e -> x = e).
    { intros x Hx Ex. unfold H in Hx. cbn [gedges] in Hx. apply in_app_iff in Hx as [Hx|Hx].
      - pose proof (wf_idlt g W x Hx). pose proof (Ids e Hinm). lia.
      - apply (nodup_eid_inj (map fst rs)); assumption. }
    destruct (Nat.eqb_spec (length (efrom e2)) 1) as [L1|L1].
    + assert (E12 : l1 = [] /\ l2 = []).
      { pose proof (po_from2 _ _ _ _ _ _ P) as X. rewrite X, app_length in L1. cbn [length] in L1. destruct l1, l2; cbn [length] in L1; try lia. auto. }
      destruct E12 as [-> ->]. pose proof (po_from1 _ _ _ _ _ _ P) as F1. pose proof (po_from2 _ _ _ _ _ _ P) as F2. cbn [app] in F2.
      destruct (replace_summarizing check g [e1; e2] d i) as [d1|] eqn:E1; [|discriminate]. apply (IH d1 d'); [|exact E].
      assert (CS : chain_source [e1; e2] = s) by (cbn [chain_source]; rewrite F1; reflexivity).
      refine (replace_ok check (check_sat check Hck) g (wf_rep g W) [e1; e2] (le_n 2) _ _ e _ _ H eq_refl _ Sid Uniq d i st d1 D Ei (eq_sym Hid) E1).
      * rewrite CS. cbn [linked]. auto.
      * cbn [mids removelast map In]. intros [X|[]]. contradiction.
      * rewrite CS, F. unfold new_from. cbn [app]. destruct (Nat.eqb_spec s entry) as [->|]; reflexivity.
      * rewrite T. reflexivity.
      * intros x [<-|[<-|[]]]; [apply (po_in1 _ _ _ _ _ _ P)|apply (po_in2 _ _ _ _ _ _ P)].
    + destruct (expand_hyper check g e e1 e2 d i) as [d1|] eqn:E1; [|discriminate]. apply (IH d1 d'); [|exact E].
      exact (expand_hyper_ok check (check_sat check Hck) g H (wf_rep g W) eq_refl e e1 e2 s l1 l2 P F T L1 Mx Sid Uniq d i st d1 D Ei (eq_sym Hid) E1).
  - injection E as <-. destruct D as [[R1 R2 R3] F1 L1]. split; [split|..]; auto.
    intros i st Hi Hs. destruct (R3 i st Hi Hs) as [x [ps [Hx [Hid [HF HL]]]]]. exists x, ps. split; [|split; [exact Hid|split; [exact HF|exact HL]]].
    unfold H in Hx. cbn [gedges] in Hx. apply in_app_iff in Hx as [Hx|Hx]; [exact Hx|]. exfalso.
    pose proof (no_step _ _ Ef i st Hs) as X. cbv beta in X. destruct (find_repl rs (st_clause st)) eqn:Y; [discriminate|].
    unfold find_repl in Y. apply in_map_iff in Hx as [y [<- Hy]]. pose proof (find_none _ _ Y y Hy) as Z. cbv beta in Z. apply Nat.eqb_neq in Z. congruence.
Qed.

Lemma inner_vs (l : list sym) : forall v, In v (filter (fun v => negb (Nat.eqb v entry || Nat.eqb v exit)) l) -> v <> entry /\ v <> exit.
Proof. intros v Hv. apply filter_In in Hv as [_ Hv]. apply negb_true_iff, orb_false_iff in Hv as [X Y]. apply Nat.eqb_neq in X. apply Nat.eqb_neq in Y. auto. Qed.
Variable vertices : hgraph -> list sym.
Theorem eliminate_good dfuel : good (eliminate elim fresh check itp pred vertices dfuel).
Proof.
  intros g t W H. unfold eliminate in H. destruct (eliminate_loop elim fresh pred _ g _) as [[g' cs]|] eqn:E; [|discriminate]. injection H as <-. cbn [tr_graph tr_valid tr_invalid].
  destruct (eliminate_loop_ok _ g _ g' cs W (inner_vs _) E) as [J1 J2 J3 J4 J5 J6 J7 J8 JN JV J9].
  split; [exact J1|]. split; [exact J3|exact J4|]. intros d d' D Hb.
  refine (back_elim_invalid_ok g (all_repl cs) W _ J6 J7 _ dfuel d d' _ Hb).
  - destruct (all_repl cs) as [|x l]; [right; reflexivity|left; apply JN; discriminate].
  - apply J8; cbn [gedges]; intros e He; apply in_app_iff; auto.
  - revert D. apply error_derivation_sub; [cbn [gpv]; exact J2|]. intros e He. cbn [gedges]. apply in_app_iff, J5, He.
Qed.
Theorem eliminate_final dfuel g t : wf_graph g -> eliminate elim fresh check itp pred vertices dfuel g = Some t ->
  (forall v, vertex g v -> In v (vertices g)) -> forall v, vertex (tr_graph t) v -> v <> entry -> v <> exit -> pred (tr_graph t) v = false.
Proof.
  intros W H Hv v Vv N1 N2. unfold eliminate in H. destruct (eliminate_loop elim fresh pred _ g _) as [[g' cs]|] eqn:E; [|discriminate]. injection H as <-. cbn [tr_graph] in *.
  destruct (eliminate_loop_ok _ g _ g' cs W (inner_vs _) E) as [J1 J2 J3 J4 J5 J6 J7 J8 JN JV [left [L1 L2]]].
  destruct (L2 v) as [X|X]; [|apply L1, X|contradiction]. apply filter_In. split; [apply Hv, JV, Vv|]. apply negb_true_iff, orb_false_iff. split; apply Nat.eqb_neq; assumption.
Qed.
Lemma eliminate_loop_total : forall fuel g vs, wf_graph g -> fed g -> (forall v, In v vs -> vertex g v /\ v <> entry /\ v <> exit) -> NoDup vs -> length vs < fuel ->
  eliminate_loop elim fresh pred fuel g vs <> None.
Proof.
  induction fuel as [|fuel IH]; intros g vs W L Hvs ND Lt; [lia|]. cbn [eliminate_loop].
  pose proof (find_node_total g vs (fun v Hv => proj2 (hnodes_spec g (wf_ids g W) v) (proj1 (Hvs v Hv)))) as F.
  destruct (find_node pred g vs) as [[v|]|] eqn:Ef; [|discriminate|congruence].
  apply find_node_some in Ef as [Hv [Pv Nv]]. destruct (Hvs v Hv) as [Vv [N1 N2]]. rewrite (contract_eq g v W N1 N2 Pv).
  destruct (Hpred g v W N1 N2 Pv) as [E _]. destruct (fed_contract g v W Vv L E) as [L1 V1]. cbv zeta in L1, V1.
  destruct (remove_first_nodup v vs ND) as [ND1 Nin]. pose proof (remove_first_len v vs Hv) as Len.
  pose proof (IH (delete_nodes [v] (fst (merge_pairs elim fresh g (list_prod (ins g v) (outs g v))))) (remove_first v vs) (el_wf elim Helim fresh g W v E) L1) as X.
  destruct (eliminate_loop _ _ _ fuel _ _) as [[g2 cs2]|]; [cbn; discriminate|]. exfalso. apply X; auto; [|lia].
  intros u Hu. pose proof (remove_first_in _ _ _ Hu) as Hu'. destruct (Hvs u Hu') as [Vu Q]. split; [|exact Q]. apply V1; [exact Vu|]. intros ->. contradiction.
Qed.
Theorem eliminate_total dfuel g : wf_graph g -> fed g -> NoDup (vertices g) -> (forall v, In v (vertices g) -> vertex g v) ->
  exists t, eliminate elim fresh check itp pred vertices dfuel g = Some t.
Proof.
  intros W L ND Hv. unfold eliminate.
  pose proof (eliminate_loop_total (S (length (vertices g))) g (filter (fun v => negb (Nat.eqb v entry || Nat.eqb v exit)) (vertices g)) W L) as X.
  destruct (eliminate_loop _ _ _ _ _ _) as [[g' cs]|]; [eauto|]. exfalso. apply X; [|apply NoDup_filter, ND| |reflexivity].
  - intros v Hin. apply filter_In in Hin as [Hin Hb]. split; [apply Hv, Hin|]. apply negb_true_iff, orb_false_iff in Hb as [A B]. apply Nat.eqb_neq in A. apply Nat.eqb_neq in B. auto.
  - apply Nat.lt_succ_r, filter_len_le.
Qed.
End Whole.
