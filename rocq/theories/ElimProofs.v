(** * Node elimination: one vertex. *)
From Verif Require Import Syntax Solver TransSys Graph GraphOps GraphOpsProofs ValidatorModel ValidatorProofs FormulaModel GraphSem SimpleTransModel UnreachProofs UnreachProofs2 SimpleTransProofs SimpleTransProofs2 ListLemmas MergeModel MergeProofs ChainProofs ChainStep ChainBack ElimModel PairProofs PairLabel.
Open Scope nat_scope.

Lemma composed_pv g h e1 e2 s l1 l2 ps f : gpv h = gpv g -> (composed h e1 e2 s l1 l2 ps f <-> composed g e1 e2 s l1 l2 ps f).
Proof.
  intros E. unfold composed. split; intros [sf [mf [ps1 [ps2 [H1 [H2 H3]]]]]]; exists sf, mf, ps1, ps2; (split; [|split; [|exact H3]]);
  (apply (follows_pv g h) in H1; [|exact E]) || apply (follows_pv g h _ _ _ E) in H1; eauto; apply (follows_pv g h _ _ _ E); assumption.
Qed.
Lemma pair_ok_mono g h e1 e2 s l1 l2 : (forall e, In e (gedges g) -> In e (gedges h)) -> pair_ok g e1 e2 s l1 l2 -> pair_ok h e1 e2 s l1 l2.
Proof. intros H [A1 A2 A3 A4 A5 A6 A7]. split; auto. Qed.

(** A new edge stands for two others. *)
Definition merges (g : hgraph) (e e1 e2 : hedge) (s : sym) (l1 l2 : list sym) : Prop :=
  efrom e = new_from s l1 l2 /\ eto e = eto e2 /\ forall ps f, follows g e ps f <-> composed g e1 e2 s l1 l2 ps f.
Lemma merges_pv g h e e1 e2 s l1 l2 : gpv h = gpv g -> merges h e e1 e2 s l1 l2 -> merges g e e1 e2 s l1 l2.
Proof.
  intros E [A [B C]]. split; [exact A|]. split; [exact B|]. intros ps f. rewrite <- (composed_pv g h _ _ _ _ _ _ _ E), <- C. symmetry. apply (follows_pv g h), E.
Qed.

Section Pairs.
Variable elim : elim_fn.
Hypothesis Helim : elim_ok elim.
Variable fresh : nat.
Record pairs_ok (g0 : hgraph) (l : list (hedge * hedge)) (g1 : hgraph) (rs : list replacing) : Prop := {
  ps_wf : wf_graph g1;
  ps_pv : gpv g1 = gpv g0;
  ps_edges : gedges g1 = gedges g0 ++ map fst rs;
  ps_free : gfree g1 = gfree g0 + length rs;
  ps_ids : map eid (map fst rs) = seq (gfree g0) (length rs);
  ps_snd : map snd rs = l;
  ps_vertex : forall p, vertex g1 p <-> vertex g0 p;
  ps_merges : forall e e1 e2, In (e, (e1, e2)) rs -> exists s l1 l2, pair_ok g0 e1 e2 s l1 l2 /\ merges g0 e e1 e2 s l1 l2
}.
Theorem merge_pairs_ok : forall l g0, wf_graph g0 -> (forall e1 e2, In (e1, e2) l -> exists s l1 l2, pair_ok g0 e1 e2 s l1 l2) ->
  pairs_ok g0 l (fst (merge_pairs elim fresh g0 l)) (snd (merge_pairs elim fresh g0 l)).
Proof.
  induction l as [|[e1 e2] l IH]; intros g0 W H.
  - split; cbn; auto; [rewrite app_nil_r; reflexivity|tauto|intros ? ? ? []].
  - destruct (H e1 e2 (or_introl eq_refl)) as [s [l1 [l2 P]]].
    destruct (merge_pair_ok elim Helim fresh g0 W e1 e2 s l1 l2 P) as [W1 [E1 [E2 [E3 [E4 [E5 [E6 [E7 E8]]]]]]]].
    cbn [merge_pairs]. destruct (merge_pair elim fresh g0 e1 e2) as [g1 e] eqn:Em. cbn [fst snd] in *.
    assert (Mono : forall x, In x (gedges g0) -> In x (gedges g1)) by (intros x Hx; rewrite E2; apply in_app_iff; auto).
    destruct (IH g1 W1) as [A1 A2 A3 A4 A5 A6 A7 A8].
    { intros a b Hab. destruct (H a b (or_intror Hab)) as [s' [k1 [k2 P']]]. exists s', k1, k2. apply (pair_ok_mono g0 g1); assumption. }
    destruct (merge_pairs elim fresh g1 l) as [g2 rs] eqn:Er. cbn [fst snd] in *. split; cbn [map fst snd length].
    + exact A1.
    + congruence.
    + rewrite A3, E2, <- app_assoc. reflexivity.
    + lia.
    + cbn [seq]. rewrite E4, A5, E3. reflexivity.
    + rewrite A6. reflexivity.
    + intros p. rewrite A7. apply E7.
    + intros x a b [X|X].
      * injection X as <- <- <-. exists s, l1, l2. split; [exact P|]. split; [exact E5|]. split; [exact E6|exact E8].
      * destruct (A8 x a b X) as [s' [k1 [k2 [P' M']]]]. assert (In (a, b) l) as Hab by (rewrite <- A6; apply (in_map snd _ _ X)).
        destruct (H a b (or_intror Hab)) as [s2 [j1 [j2 P2]]].
        exists s', k1, k2. split; [|apply (merges_pv g0 g1); assumption].
        destruct P' as [B1 B2 B3 B4 B5 B6 B7]. split; auto; [apply (po_in1 _ _ _ _ _ _ P2)|apply (po_in2 _ _ _ _ _ _ P2)].
Qed.
End Pairs.

(** ** Vertices that can be eliminated *)
Record eliminable (g : hgraph) (v : sym) : Prop := {
  el_entry : v <> entry;
  el_exit : v <> exit;
  el_in : forall e, In e (gedges g) -> eto e = v -> exists s, efrom e = [s] /\ s <> v;
  el_out : forall e, In e (gedges g) -> In v (efrom e) -> eto e <> v /\
    exists l1 l2, efrom e = l1 ++ v :: l2 /\ ~ In v (l1 ++ l2) /\ forall e1 s, In e1 (gedges g) -> eto e1 = v -> efrom e1 = [s] -> ~ In s (l1 ++ l2)
}.

Section Contraction.
Variable elim : elim_fn.
Hypothesis Helim : elim_ok elim.
Variable fresh : nat.
Variable g : hgraph.
Hypothesis W : wf_graph g.
Variable v : sym.
Hypothesis E : eliminable g v.
Let Nid := wf_ids g W.
Definition ins := filter (fun e => Nat.eqb (eto e) v) (gedges g).
Definition outs := filter (fun e => smem v (efrom e)) (gedges g).
Lemma ins_in e : In e ins <-> In e (gedges g) /\ eto e = v.
Proof. unfold ins. rewrite filter_In, Nat.eqb_eq. tauto. Qed.
Lemma outs_in e : In e outs <-> In e (gedges g) /\ In v (efrom e).
Proof. unfold outs. rewrite filter_In. rewrite smem_in. tauto. Qed.
Lemma map_opt_find l : (forall e, In e l -> In e (gedges g)) -> map_opt (hfind g) (map eid l) = Some l.
Proof.
  induction l as [|e l IH]; intros H; [reflexivity|]. cbn [map map_opt]. rewrite (hfind_in g Nid e) by (apply H; left; reflexivity).
  rewrite IH; [reflexivity|]. intros x Hx. apply H. right. exact Hx.
Qed.
Lemma find_ins : map_opt (hfind g) (in_edges g v) = Some ins.
Proof. rewrite (in_edges_eq g W). apply map_opt_find. intros e He. apply ins_in in He. tauto. Qed.
Lemma find_outs : map_opt (hfind g) (out_edges g v) = Some outs.
Proof. rewrite (out_edges_eq g W). apply map_opt_find. intros e He. apply outs_in in He. tauto. Qed.
Lemma pairs_eliminable e1 e2 : In (e1, e2) (list_prod ins outs) -> exists s l1 l2, pair_ok g e1 e2 s l1 l2.
Proof.
  intros H. apply in_prod_iff in H as [H1 H2]. apply ins_in in H1 as [I1 T1]. apply outs_in in H2 as [I2 F2].
  destruct (el_in _ _ E e1 I1 T1) as [s [Fs Ns]]. destruct (el_out _ _ E e2 I2 F2) as [_ [l1 [l2 [Fl [Nl Ns2]]]]].
  exists s, l1, l2. split; auto.
  - rewrite T1. exact Fl.
  - rewrite T1. exact Nl.
  - apply (Ns2 e1 s); auto.
  - rewrite T1. exact Ns.
Qed.
Let g1 := fst (merge_pairs elim fresh g (list_prod ins outs)).
Let rs := snd (merge_pairs elim fresh g (list_prod ins outs)).
Let g' := delete_nodes [v] g1.
Let PO : pairs_ok g (list_prod ins outs) g1 rs := merge_pairs_ok elim Helim fresh _ g W pairs_eliminable.
Lemma el_wf : wf_graph g'.
Proof. unfold g'. cbn [delete_nodes fold_left]. apply wf_filter, (ps_wf _ _ _ _ PO). Qed.
Lemma el_pv : gpv g' = gpv g.
Proof. unfold g'. cbn [delete_nodes fold_left]. unfold delete_node, filter_edges. cbn [gpv]. apply (ps_pv _ _ _ _ PO). Qed.
Lemma el_free : gfree g' = gfree g + length rs.
Proof. unfold g'. cbn [delete_nodes fold_left]. unfold delete_node, filter_edges. cbn [gfree]. apply (ps_free _ _ _ _ PO). Qed.
Lemma el_edges x : In x (gedges g') <-> (In x (gedges g) \/ In x (map fst rs)) /\ eto x <> v /\ ~ In v (efrom x).
Proof.
  unfold g'. rewrite delete_nodes_edges. rewrite (ps_edges _ _ _ _ PO), in_app_iff. split.
  - intros [H1 H2]. split; [exact H1|]. apply H2. left. reflexivity.
  - intros [H1 H2]. split; [exact H1|]. intros u [<-|[]]. exact H2.
Qed.
Lemma new_in x : In x (map fst rs) -> exists e1 e2 s l1 l2, In (x, (e1, e2)) rs /\ In e1 ins /\ In e2 outs /\ pair_ok g e1 e2 s l1 l2 /\ merges g x e1 e2 s l1 l2.
Proof.
  intros H. apply in_map_iff in H as [[y [e1 e2]] [<- H]]. destruct (ps_merges _ _ _ _ PO _ _ _ H) as [s [l1 [l2 [P M]]]].
  assert (X : In (e1, e2) (list_prod ins outs)) by (rewrite <- (ps_snd _ _ _ _ PO); apply (in_map snd _ _ H)). apply in_prod_iff in X as [X1 X2].
  exists e1, e2, s, l1, l2. auto.
Qed.
Lemma new_kept x : In x (map fst rs) -> In x (gedges g').
Proof.
  intros H. apply el_edges. split; [auto|]. destruct (new_in x H) as [e1 [e2 [s [l1 [l2 [_ [H1 [H2 [P [M1 [M2 _]]]]]]]]]]].
  apply ins_in in H1 as [_ T1]. apply outs_in in H2 as [I2 F2]. split.
  - rewrite M2. apply (el_out _ _ E e2 I2 F2).
  - rewrite M1. intros X. apply (nf_in s l1 l2) in X as [X|X].
    + apply (po_loop _ _ _ _ _ _ P). congruence.
    + apply (po_once _ _ _ _ _ _ P). rewrite T1. exact X.
Qed.
Lemma pair_new e1 e2 : In e1 ins -> In e2 outs -> exists x s l1 l2, In x (gedges g') /\ pair_ok g e1 e2 s l1 l2 /\ merges g x e1 e2 s l1 l2.
Proof.
  intros H1 H2. assert (X : In (e1, e2) (map snd rs)) by (rewrite (ps_snd _ _ _ _ PO); apply in_prod; assumption).
  apply in_map_iff in X as [[x [a b]] [X H]]. cbn [snd] in X. injection X as -> ->. destruct (ps_merges _ _ _ _ PO _ _ _ H) as [s [l1 [l2 [P M]]]].
  exists x, s, l1, l2. split; [apply new_kept, (in_map fst _ _ H)|auto].
Qed.
(** The vertex disappears. *)
Lemma el_vertex p : vertex g' p -> vertex g p /\ p <> v.
Proof.
  intros H. split.
  - apply (ps_vertex _ _ _ _ PO). unfold g' in H. cbn [delete_nodes fold_left] in H. eapply vertex_filter, H.
  - intros ->. destruct H as [H|[H|[x [Hx H]]]]; [exact (el_entry _ _ E H)|exact (el_exit _ _ E H)|]. apply el_edges in Hx as [_ [N1 N2]]. destruct H; auto.
Qed.

Lemma composed_dfact h e1 e2 s l1 l2 ps f : (forall e ps f, e = e1 \/ e = e2 -> follows g e ps f -> Forall (dfact h) ps -> dfact h f) ->
  pair_ok g e1 e2 s l1 l2 -> composed g e1 e2 s l1 l2 ps f -> Forall (dfact h) ps -> dfact h f.
Proof.
  intros H P [sf [mf [ps1 [ps2 [F1 [F2 [L1 [L2 Hps]]]]]]]] D.
  assert (X : dfact h sf /\ Forall (dfact h) ps1 /\ Forall (dfact h) ps2).
  { destruct (Nat.eqb_spec s entry) as [Es|Ns].
    - assert (Esf : sf = (entry, [])). { apply (follows_e1 g e1 e2 s l1 l2 P) in F1 as [r [_ [-> _]]]. eapply s_args; eauto. }
      destruct (l1 ++ l2) eqn:X.
      + apply app_eq_nil in X as [-> ->]. destruct ps1; [|discriminate]. destruct ps2; [|discriminate]. rewrite Hps in D. inversion D; subst. auto.
      + rewrite Hps in D. apply Forall_app in D as [D1 D2]. rewrite Esf. split; [apply dfact_entry|auto].
    - rewrite Hps in D. apply Forall_app in D as [D1 D2]. inversion D2; subst. auto. }
  destruct X as [X1 [X2 X3]]. apply (H e2 (ps1 ++ mf :: ps2)); [auto|exact F2|]. apply Forall_app. split; [exact X2|]. constructor; [|exact X3].
  apply (H e1 [sf]); [auto|exact F1|]. constructor; [exact X1|constructor].
Qed.
Lemma el_back f : dfact g' f -> dfact g f.
Proof.
  apply derivable_sim. intros e ps x He F D. rewrite (follows_pv g g' e ps x el_pv) in F. apply el_edges in He as [[He|He] _].
  - exact (dfact_follows g e ps x He F D).
  - destruct (new_in e He) as [e1 [e2 [s [l1 [l2 [_ [H1 [H2 [P [_ [_ M]]]]]]]]]]]. apply M in F.
    apply (composed_dfact g e1 e2 s l1 l2 ps x); auto. intros a qs y [->| ->] Fa Da; (eapply dfact_follows; [|exact Fa|exact Da]).
    + apply ins_in in H1. tauto.
    + apply outs_in in H2. tauto.
Qed.
Definition via_node (f : fact) : Prop :=
  (fst f <> v -> dfact g' f) /\ (fst f = v -> exists e1 sf, In e1 ins /\ follows g e1 [sf] f /\ dfact g' sf).
Lemma el_forth f : dfact g f -> via_node f.
Proof.
  apply (dfact_ind g via_node).
  - split; [intros _; apply dfact_entry|]. cbn [fst]. intros X. exfalso. apply (el_entry _ _ E). auto.
  - intros e ps x He F _ IH. destruct (follows_prems g e ps x F) as [Fp Ft]. split.
    + intros Nx. rewrite Ft in Nx. destruct (in_dec Nat.eq_dec v (efrom e)) as [Hv|Hv].
      * assert (Ho : In e outs) by (apply outs_in; auto). destruct (el_out _ _ E e He Hv) as [_ [l1 [l2 [Fl [Nl _]]]]].
        (* the premise at the vertex *)
        rewrite Fl in Fp. apply map_eq_app in Fp as [ps1 [qs [-> [Q1 Q2]]]]. destruct qs as [|mf ps2]; [discriminate|]. cbn [map] in Q2. injection Q2 as Q2 Q3.
        apply Forall_app in IH as [IH1 IH2]. inversion IH2 as [|? ? IHm IH3]; subst.
        destruct (proj2 IHm Q2) as [e1 [sf [H1 [F1 D1]]]].
        destruct (pair_new e1 e H1 Ho) as [n [s [k1 [k2 [Hn [P [M1 [M2 M3]]]]]]]].
        assert (K : k1 = map fst ps1 /\ k2 = map fst ps2).
        { pose proof (po_from2 _ _ _ _ _ _ P) as X. rewrite Fl in X. pose proof (po_once _ _ _ _ _ _ P) as Y. rewrite (proj2 (proj1 (ins_in e1) H1)) in *.
          assert (Sp : forall a b c d (m : sym), a ++ m :: b = c ++ m :: d -> ~ In m (a ++ b) -> ~ In m (c ++ d) -> c = a /\ d = b).
          { clear. induction a as [|y a IH]; intros b c d m H N1 N2; destruct c as [|z c]; cbn in *.
            - injection H as ->. auto.
            - injection H as <- H. exfalso. apply N2. left. reflexivity.
            - injection H as -> H. exfalso. apply N1. left. reflexivity.
            - injection H as -> H. destruct (IH b c d m H) as [-> ->]; [tauto|tauto|auto]. }
          apply (Sp _ _ _ _ _ X Nl Y). }
        destruct K as [-> ->].
        assert (DD : forall l, (forall p, In p (map fst l) -> p <> v) -> Forall via_node l -> Forall (dfact g') l).
        { intros l Hl Fl'. apply Forall_forall. intros y Hy. rewrite Forall_forall in Fl'. apply (proj1 (Fl' y Hy)). apply Hl, in_map, Hy. }
        assert (D2 : Forall (dfact g') ps1 /\ Forall (dfact g') ps2).
        { split; apply DD; auto; intros p Hp Ep; subst p; apply Nl, in_app_iff; auto. }
        destruct D2 as [D2 D3].
        set (qs := if Nat.eqb s entry then match map fst ps1 ++ map fst ps2 with [] => [sf] | _ => ps1 ++ ps2 end else ps1 ++ sf :: ps2).
        apply (dfact_follows g' n qs); [exact Hn| |].
        -- rewrite (follows_pv g g' n qs x el_pv). apply M3. exists sf, mf, ps1, ps2. repeat (split; [solve [auto]|]). reflexivity.
        -- unfold qs. destruct (Nat.eqb s entry); [destruct (map fst ps1 ++ map fst ps2); [constructor; [exact D1|constructor]|apply Forall_app; auto]|].
           apply Forall_app. split; [exact D2|constructor; [exact D1|exact D3]].
      * apply (dfact_follows g' e ps).
        -- apply el_edges. auto.
        -- rewrite (follows_pv g g' e ps x el_pv). exact F.
        -- apply Forall_forall. intros y Hy. rewrite Forall_forall in IH. apply (proj1 (IH y Hy)). intros X. apply Hv. rewrite <- X, <- Fp. apply in_map, Hy.
    + intros Ex. rewrite Ft in Ex. destruct (el_in _ _ E e He Ex) as [s [Fs Ns]]. rewrite Fs in Fp. destruct ps as [|sf [|]]; try discriminate. cbn in Fp. injection Fp as Fp.
      exists e, sf. split; [apply ins_in; auto|]. split; [exact F|]. inversion IH as [|? ? IH1 _]; subst. apply (proj1 IH1). exact Ns.
Qed.
Theorem el_verdict : derivable g exit [] <-> derivable g' exit [].
Proof.
  split; intros D.
  - apply (proj1 (el_forth (exit, []) D)). cbn. intros X. exact (el_exit _ _ E (eq_sym X)).
  - exact (el_back (exit, []) D).
Qed.
End Contraction.
