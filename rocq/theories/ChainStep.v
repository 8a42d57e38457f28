(** * SimpleChainSummarizer: contracting one chain. *)
From Verif Require Import Syntax Solver TransSys Graph GraphOps GraphOpsProofs ValidatorModel ValidatorProofs FormulaModel FormulaProofs3 GraphSem SimpleTransModel UnreachProofs UnreachProofs2 SimpleTransProofs MergeModel MergeProofs ChainProofs ListLemmas.
Open Scope nat_scope.

Lemma last_app_ne {A} (a b : list A) d : b <> [] -> last (a ++ b) d = last b d.
Proof.
  intros N. induction a as [|x a IH]; [reflexivity|]. cbn [app]. destruct (a ++ b) as [|y z] eqn:E; [destruct a; [contradiction|discriminate]|].
  change (last (x :: y :: z) d) with (last (y :: z) d). exact IH.
Qed.
Lemma runs_app g a : forall b f fs gs, runs g a f fs -> runs g b (last fs f) gs -> runs g (a ++ b) f (fs ++ gs).
Proof.
  induction a as [|e a IH]; intros b f [|f' fs] gs H1 H2; cbn [runs app] in *; try tauto.
  destruct H1 as [H1 H3]. split; [exact H1|]. apply IH; [exact H3|]. destruct fs as [|f2 fs]; [exact H2|].
  change (last (f' :: f2 :: fs) f) with (last (f2 :: fs) f) in H2. rewrite (last_default (f2 :: fs) f' f) by discriminate. exact H2.
Qed.
Lemma runs_targets g c : forall f fs, runs g c f fs -> map fst fs = map eto c.
Proof.
  induction c as [|e c IH]; intros f [|f' fs] H; cbn [runs] in H; try tauto. destruct H as [H1 H2].
  cbn [map]. f_equal; [|eapply IH; eauto]. apply follows_prems in H1. tauto.
Qed.
Lemma runs_dfact g c : forall f fs, (forall e, In e c -> In e (gedges g)) -> runs g c f fs -> dfact g f -> Forall (dfact g) fs.
Proof.
  induction c as [|e c IH]; intros f [|f' fs] Hc H D; cbn [runs] in H; try tauto; [constructor|]. destruct H as [H1 H2].
  assert (D' : dfact g f') by (apply (dfact_follows g e [f]); [apply Hc; left; reflexivity|exact H1|repeat constructor; exact D]).
  constructor; [exact D'|]. apply (IH f' fs); auto. intros x Hx. apply Hc. right. exact Hx.
Qed.
Lemma runs_pv g h c : gpv h = gpv g -> forall f fs, runs h c f fs <-> runs g c f fs.
Proof.
  intros E. induction c as [|e c IH]; intros f [|f' fs]; cbn [runs]; try tauto. rewrite IH. rewrite (follows_pv g h e [f] f' E). tauto.
Qed.
Lemma last_in_ne {A} (l : list A) d : l <> [] -> In (last l d) l.
Proof. induction l as [|x [|y l] IH]; [congruence|left; reflexivity|]. intros _. right. apply IH. discriminate. Qed.
Lemma target_last c d : c <> [] -> chain_target c = eto (last c d).
Proof. intros N. unfold chain_target. destruct c as [|e c]; [congruence|]. f_equal. apply last_default. discriminate. Qed.

Lemma ne_cons {A} (l : list A) : l <> [] -> exists a l', l = a :: l'.
Proof. destruct l; [congruence|eauto]. Qed.
Section Contract.
Variable elim : elim_fn.
Hypothesis Helim : elim_ok elim.
Variable g : hgraph.
Hypothesis W : wf_graph g.
Variable c : list hedge.
Hypothesis CT : contractible g c.
Let C := ct_ok g c CT.
Let F := chain_source c.
Let T := chain_target c.
Let g' := fst (contract_chain elim g c).
Let se := snd (contract_chain elim g c).

Lemma se_eq : se = mkEdge (gfree g) [F] T (chain_label elim g c).
Proof. reflexivity. Qed.
Lemma pv_contract : gpv g' = gpv g.
Proof. unfold g', contract_chain, merge_chain, new_edge. cbn [fst]. rewrite (proj1 (delete_nodes_pv (mids c) _)). reflexivity. Qed.
Lemma contract_edges x : In x (gedges g') <-> (In x (gedges g) \/ x = se) /\ ~ In (eto x) (mids c) /\ forall p, In p (efrom x) -> ~ In p (mids c).
Proof.
  unfold g', contract_chain, merge_chain, new_edge. cbn [fst]. rewrite delete_nodes_edges. cbn [gedges]. rewrite in_app_iff. fold F T. rewrite se_eq.
  split.
  - intros [[H|[H|[]]] N]; (split; [auto|]); (split; [intros X; apply (proj1 (N _ X)); reflexivity|intros p Hp X; apply (proj2 (N _ X)); exact Hp]).
  - intros [[H|H] [N1 N2]]; (split; [simpl; auto|]); intros m Hm; (split; [intros <-; contradiction|intros X; exact (N2 m X Hm)]).
Qed.
Lemma F_mid : ~ In F (mids c).
Proof. pose proof (co_nodup g c C) as N. inversion N; assumption. Qed.
Lemma T_mid : ~ In T (mids c).
Proof. exact (co_target g c C). Qed.
Lemma se_in : In se (gedges g').
Proof. apply contract_edges. split; [right; reflexivity|]. rewrite se_eq. cbn [eto efrom]. split; [apply T_mid|]. intros p [<-|[]]. apply F_mid. Qed.
Lemma ne : c <> [].
Proof. apply (chain_nonempty g c C). Qed.
Lemma from_uniq e e' : In e c -> In e' c -> efrom e = efrom e' -> e = e'.
Proof.
  intros H H' E. apply (NoDup_map_eq efrom c); auto. rewrite (linked_froms F c (co_linked g c C) ne).
  apply NoDup_map_inj_in; [|apply (co_nodup g c C)]. intros u v _ _ X. injection X as X. exact X.
Qed.
Lemma kept x : In x (gedges g) -> ~ In x c -> In x (gedges g').
Proof.
  intros H N. apply contract_edges. split; [auto|]. split.
  - intros X. apply N. apply (ct_in g c CT); assumption.
  - intros p Hp X. apply N. eapply (ct_out g c CT); eauto.
Qed.
Lemma kept_inv x : In x (gedges g') -> x = se \/ (In x (gedges g) /\ ~ In x c).
Proof.
  intros H. apply contract_edges in H as [[H|H] [N1 N2]]; [right|left; exact H]. split; [exact H|]. intros X.
  pose proof (co_len g c C) as Len. destruct (linked_ends F c x (co_linked g c C) X) as [[p [P1 P2]] P3].
  destruct P3 as [P3|P3]; [contradiction|]. destruct P2 as [P2|P2]; [|apply (N2 p); [rewrite P1; left; reflexivity|exact P2]].
  (* the only edge from the source to the target of the chain would be the whole chain *)
  assert (Hab : exists a b c', c = a :: b :: c') by (destruct c as [|a [|b c']]; [cbn in Len; lia|cbn in Len; lia|eauto]).
  destruct Hab as [a [b [c' Ec]]].
  assert (Hx : x = a).
  { apply from_uniq; [exact X|rewrite Ec; left; reflexivity|]. rewrite P1, <- P2. pose proof (co_linked g c C) as L. fold F in L. rewrite Ec in L. symmetry. exact (proj1 L). }
  subst x. apply N1. rewrite Ec. left. reflexivity.
Qed.
Lemma in_chain_dec x : In x (gedges g) -> In x c \/ ~ In x c.
Proof.
  intros H. destruct (in_dec Nat.eq_dec (eid x) (map eid c)) as [X|X]; [left|right; intros Y; apply X, in_map, Y].
  apply in_map_iff in X as [y [E Y]]. rewrite <- (wf_edge_eq g y x W); auto. apply (co_in g c C y Y).
Qed.
Lemma mid_entry : ~ In entry (mids c).
Proof. intros X. destruct (mids_in _ _ X) as [e [He E]]. apply (wf_entry g W e (co_in g c C e He) E). Qed.
Lemma mid_exit : ~ In exit (mids c).
Proof. intros X. destruct (linked_succ F c exit (co_linked g c C) X) as [e [He E]]. apply (wf_exit g W e (co_in g c C e He)). rewrite E. left. reflexivity. Qed.
Lemma mid_vertex m : In m (mids c) -> vertex g m.
Proof. intros X. destruct (mids_in _ _ X) as [e [He <-]]. eapply vertex_tgt, (co_in g c C e He). Qed.
Lemma vertex_F : vertex g F.
Proof.
  pose proof (co_linked g c C) as L. fold F in L. assert (Hab : exists a c', c = a :: c') by (pose proof ne as N; destruct c as [|a c']; [congruence|eauto]).
  destruct Hab as [a [c' Ec]]. apply (vertex_src g a); [apply (co_in g c C); rewrite Ec; left; reflexivity|]. rewrite Ec in L. rewrite (proj1 L). left. reflexivity.
Qed.
Lemma vertex_T : vertex g T.
Proof. unfold T. rewrite (target_last c se ne). apply vertex_tgt, (co_in g c C), last_in_ne, ne. Qed.
Lemma contract_vertex p : vertex g' p <-> vertex g p /\ ~ In p (mids c).
Proof.
  split.
  - intros [->|[->|[x [Hx Hp]]]].
    + split; [left; reflexivity|apply mid_entry].
    + split; [right; left; reflexivity|apply mid_exit].
    + apply contract_edges in Hx as [Hx [N1 N2]]. split; [|destruct Hp as [Hp| ->]; [exact (N2 p Hp)|exact N1]].
      destruct Hx as [Hx|Hx]; [right; right; eauto|]. rewrite Hx, se_eq in Hp. cbn [efrom eto] in Hp. destruct Hp as [[<-|[]]| ->]; [apply vertex_F|apply vertex_T].
  - intros [[->|[->|[x [Hx Hp]]]] N]; [left; reflexivity|right; left; reflexivity|].
    destruct (in_chain_dec x Hx) as [X|X].
    + destruct (linked_ends F c x (co_linked g c C) X) as [[q [Q1 Q2]] Q3]. destruct Hp as [Hp| ->].
      * rewrite Q1 in Hp. destruct Hp as [<-|[]]. destruct Q2 as [<-|Q2]; [|contradiction]. apply (vertex_src g' se); [apply se_in|left; reflexivity].
      * destruct Q3 as [Q3| ->]; [contradiction|]. apply (vertex_tgt g' se), se_in.
    + right. right. exists x. split; [apply kept; assumption|exact Hp].
Qed.

(** ** Inferences *)
Lemma se_follows f f' : follows g se [f] f' <-> exists fs, runs g c f fs /\ last fs f = f'.
Proof.
  rewrite <- (chain_label_iff elim Helim g W c C f f'). rewrite (follows_single g se F f f' eq_refl). rewrite se_eq. cbn [efla eto]. reflexivity.
Qed.
Lemma se_prems ps f : follows g se ps f -> exists p, ps = [p].
Proof. intros H. apply follows_prems in H as [H _]. rewrite se_eq in H. cbn [efrom] in H. destruct ps as [|p [|]]; try discriminate. eauto. Qed.
Lemma back_dfact f : dfact g' f -> dfact g f.
Proof.
  apply derivable_sim. intros e ps f' He Hf D. rewrite (follows_pv g g' e ps f' pv_contract) in Hf. destruct (kept_inv e He) as [->|[H _]].
  - destruct (se_prems _ _ Hf) as [p ->]. apply se_follows in Hf as [fs [HR <-]]. inversion D as [|? ? D1 _]; subst.
    pose proof (runs_dfact g c p fs (co_in g c C) HR D1) as A. rewrite Forall_forall in A. apply A. apply last_in_ne.
    intros ->. apply runs_length in HR. apply ne. destruct c; [reflexivity|discriminate].
  - eapply dfact_follows; eauto.
Qed.
(** Facts about the inner vertices come from a fact about the source of the chain. *)
Definition via (f : fact) : Prop :=
  (~ In (fst f) (mids c) /\ dfact g' f) \/
  (exists c1 c2 f0 fs, c = c1 ++ c2 /\ c1 <> [] /\ c2 <> [] /\ fst f = chain_target c1 /\ dfact g' f0 /\ runs g c1 f0 fs /\ last fs f0 = f).
Lemma linked_app s a b : linked s (a ++ b) -> linked s a /\ linked (match a with [] => s | _ => chain_target a end) b.
Proof.
  revert s. induction a as [|x a IH]; intros s L; [split; [exact I|exact L]|]. cbn [app linked] in L. destruct L as [E L].
  destruct (IH _ L) as [I1 I2]. split; [split; assumption|]. destruct a as [|y a]; [exact I2|]. rewrite target_cons by discriminate. exact I2.
Qed.
Lemma split_at m : In m (mids c) -> exists c1 c2, c = c1 ++ c2 /\ c1 <> [] /\ c2 <> [] /\ chain_target c1 = m.
Proof.
  generalize c. induction c0 as [|e [|e' c0] IH]; intros H; [destruct H|destruct H|]. rewrite mids_cons in H by discriminate. destruct H as [<-|H].
  - exists [e], (e' :: c0). repeat (split; [reflexivity || discriminate|]). reflexivity.
  - destruct (IH H) as [c1 [c2 [E [N1 [N2 Ht]]]]]. exists (e :: c1), c2. cbn [app]. rewrite E. split; [reflexivity|]. split; [discriminate|]. split; [exact N2|].
    rewrite target_cons by exact N1. exact Ht.
Qed.
Lemma mids_app a b : a <> [] -> b <> [] -> mids (a ++ b) = mids a ++ chain_target a :: mids b.
Proof.
  intros Na Nb. induction a as [|x a IH]; [congruence|]. cbn [app]. destruct a as [|y a].
  - cbn [app]. rewrite mids_cons by exact Nb. reflexivity.
  - rewrite mids_cons, mids_cons, target_cons by discriminate. rewrite IH by discriminate. reflexivity.
Qed.
Lemma forth_via f : dfact g f -> via f.
Proof.
  apply (dfact_ind g via).
  - left. split; [apply mid_entry|constructor].
  - intros e ps f' He Hf _ IH. destruct (in_chain_dec e He) as [X|X].
    + destruct (linked_ends F c e (co_linked g c C) X) as [[p [P1 P2]] _].
      assert (Hp : exists q, ps = [q] /\ fst q = p).
      { apply follows_prems in Hf as [Hf _]. rewrite P1 in Hf. destruct ps as [|q [|]]; try discriminate. cbn [map] in Hf. injection Hf as Hf. eauto. }
      destruct Hp as [q [-> Eq]]. inversion IH as [|? ? V _]; subst.
      (* the part of the chain before [e] *)
      assert (Hq : exists c1 c2 f0 fs, c = c1 ++ e :: c2 /\ dfact g' f0 /\ runs g c1 f0 fs /\ last fs f0 = q).
      { destruct V as [[N D]|[c1 [c2 [f0 [fs [Ec [N1 [N2 [Et [D [R1 R2]]]]]]]]]]].
        - destruct P2 as [P2|P2]; [|contradiction]. exists [].
          destruct (ne_cons c ne) as [a [c' Ec]].
          exists c', q, []. cbn [app last]. pose proof (co_linked g c C) as L. fold F in L. rewrite Ec in L.
          assert (a = e) by (apply from_uniq; [rewrite Ec; left; reflexivity|exact X|]; rewrite P1, <- P2; exact (proj1 L)). subst a.
          split; [exact Ec|]. split; [exact D|]. split; [exact I|reflexivity].
        - destruct c2 as [|a c2]; [congruence|]. exists c1, c2, f0, fs.
          assert (a = e).
          { apply from_uniq; [rewrite Ec; apply in_app_iff; right; left; reflexivity|exact X|].
            pose proof (co_linked g c C) as L. rewrite Ec in L. destruct (linked_app _ _ _ L) as [_ L2]. destruct c1 as [|y c1]; [congruence|].
            rewrite (proj1 L2), P1, Et. reflexivity. }
          subst a. auto. }
      destruct Hq as [c1 [c2 [f0 [fs [Ec [D [R1 R2]]]]]]].
      assert (R3 : runs g (c1 ++ [e]) f0 (fs ++ [f'])) by (apply runs_app; [exact R1|rewrite R2; split; [exact Hf|exact I]]).
      assert (L3 : last (fs ++ [f']) f0 = f') by (rewrite last_app_ne by discriminate; reflexivity).
      destruct c2 as [|b c2].
      * left. destruct (follows_prems _ _ _ _ Hf) as [_ Ef]. split.
        -- rewrite Ef. replace (eto e) with T; [apply T_mid|]. unfold T. rewrite (target_last c e ne), Ec, last_app_ne by discriminate. reflexivity.
        -- apply (dfact_follows g' se [f0]); [apply se_in| |repeat constructor; exact D]. apply (follows_pv g g' se [f0] f' pv_contract).
           apply se_follows. exists (fs ++ [f']). rewrite Ec. auto.
      * right. exists (c1 ++ [e]), (b :: c2), f0, (fs ++ [f']). rewrite <- app_assoc. cbn [app]. split; [exact Ec|].
        split; [destruct c1; discriminate|]. split; [discriminate|]. split; [|auto].
        rewrite (target_last (c1 ++ [e]) e) by (destruct c1; discriminate). rewrite last_app_ne by discriminate. apply (follows_prems _ _ _ _ Hf).
    + left. pose proof (kept e He X) as K. destruct (proj1 (contract_edges e) K) as [_ [N1 N2]]. destruct (follows_prems _ _ _ _ Hf) as [E1 E2].
      split; [rewrite E2; exact N1|]. apply (dfact_follows g' e ps); [exact K|apply (follows_pv g g' e ps f' pv_contract); exact Hf|].
      rewrite Forall_forall in *. intros q Hq. destruct (IH q Hq) as [[_ D]|[c1 [c2 [f0 [fs [Ec [M1 [M2 [Et _]]]]]]]]]; [exact D|].
      exfalso. apply (N2 (fst q)); [rewrite <- E1; apply in_map, Hq|]. rewrite Et, Ec, mids_app by assumption. apply in_app_iff. right. left. reflexivity.
Qed.
Theorem contract_verdict : derivable g exit [] <-> derivable g' exit [].
Proof.
  split.
  - intros D. destruct (forth_via (exit, []) D) as [[_ D']|[c1 [c2 [f0 [fs [Ec [M1 [M2 [Et _]]]]]]]]]; [exact D'|].
    exfalso. apply mid_exit. cbn [fst] in Et. rewrite Et, Ec, mids_app by assumption. apply in_app_iff. right. left. reflexivity.
  - intros D. exact (back_dfact (exit, []) D).
Qed.

(** ** Well-formedness *)
Let R := wf_rep g W.
Lemma version_uniq p q v : version_of g p v -> version_of g q v -> p = q.
Proof.
  intros [a [Ha [[i Ei]|Ei]]] [b [Hb [[j Ej]|Ej]]]; rewrite Ei in Ej.
  - apply (src_inj_v g R i j p q a b Ha Hb) in Ej. tauto.
  - exfalso. exact (src_tgt_v _ _ _ Ej).
  - exfalso. symmetry in Ej. exact (src_tgt_v _ _ _ Ej).
  - apply (tgt_inj_v g R p q a b Ha Hb) in Ej. tauto.
Qed.
(** Variables of a label of the chain, after the renaming of the inner vertices. *)
Lemma label_var v : In v (vars (chain_label elim g c)) ->
  In v (own_vars g se) \/ (exists e, In e c /\ In v (vars (efla e)) /\ ~ In v (own_vars g e)) \/ (exists m, In m (mids c) /\ In v (src_vars g (m, 0))).
Proof.
  intros H. unfold chain_label in H. apply (proj1 (Helim _ _)) in H. change (vlookup (concat (map (to_source_map g) (mids c)))) with (tosrc g (mids c)) in H.
  rewrite vars_rename in H. apply in_map_iff in H as [u [<- H]]. unfold mkAnd in H. apply in_vars_app in H as [t [Ht Hu]].
  apply in_map_iff in Ht as [e [<- He]]. destruct (linked_ends F c e (co_linked g c C) He) as [[p [P1 P2]] P3].
  destruct (in_dec var_dec u (own_vars g e)) as [O|O].
  - apply (own_single g e p u P1) in O as [O|O].
    + apply in_src_vars in O as [b [Hb ->]]. cbn [fst snd] in *. rewrite tosrc_src.
      assert (X : In (src 0 b) (src_vars g (p, 0))) by (unfold src_vars; apply in_map; exact Hb).
      destruct P2 as [<-|P2]; [left; apply (own_single g se F _ eq_refl); left; exact X|right; right; eauto].
    + apply in_map_iff in O as [b [<- Hb]]. destruct P3 as [P3|P3].
      * right. right. exists (eto e). split; [exact P3|]. rewrite (tosrc_in g R (mids c) (eto e) b P3 Hb). unfold src_vars. apply in_map. exact Hb.
      * left. rewrite (tosrc_tgt_out g R (mids c) (eto e) b); [|rewrite P3; apply T_mid|exact Hb].
        apply (own_single g se F _ eq_refl). right. unfold tgt_vars. apply in_map. change (eto se) with T. unfold T. rewrite <- P3. exact Hb.
  - right. left. exists e. rewrite tosrc_out; [auto|]. intros m Hm Hx. apply (wf_label g W e u (co_in g c C e He) Hu O m (mid_vertex m Hm)).
    apply in_map_iff in Hx as [b [<- Hb]]. exists b. auto.
Qed.
Lemma own_has_version h e v : In v (own_vars h e) -> exists p, (In p (efrom e) \/ p = eto e) /\ version_of h p v.
Proof.
  unfold own_vars. rewrite in_app_iff, in_concat. intros [[l [Hl H]]|H].
  - apply in_map_iff in Hl as [[p i] [<- Hp]]. apply in_src_vars in H as [b [Hb ->]]. exists p. split; [left; eapply in_instances; eauto|]. exists b. cbn [fst snd] in *. eauto.
  - apply in_map_iff in H as [b [<- Hb]]. exists (eto e). split; [right; reflexivity|]. exists b. auto.
Qed.
Lemma F_own v : In v (own_vars g se) -> exists p, (p = F \/ p = T) /\ version_of g p v.
Proof. intros H. apply own_has_version in H as [p [[[<-|[]]| ->] V]]; eauto. Qed.
Theorem contract_wf : wf_graph g'.
Proof.
  unfold g', contract_chain. destruct (merge_chain elim g c) as [g1 e1] eqn:EM. cbn [fst].
  (* the graph with the summary is well formed once the chain is removed *)
  assert (PV : gpv g' = gpv g) by apply pv_contract.
  assert (OV : forall e, own_vars g' e = own_vars g e) by (intros; apply own_vars_pv, PV).
  assert (VV : forall p v, version_of g' p v <-> version_of g p v) by (intros; unfold version_of; rewrite PV; tauto).
  assert (G : g' = delete_nodes (mids c) g1) by (unfold g', contract_chain; rewrite EM; reflexivity). rewrite <- G. clear G EM.
  assert (Nse : forall x, In x (gedges g) -> eid x <> gfree g) by (intros x Hx; pose proof (wf_idlt g W x Hx); lia).
  split.
  - rewrite PV. apply (wf_rep g W).
  - intros e He. destruct (kept_inv e He) as [->|[H _]]; [discriminate|apply (wf_from g W e H)].
  - unfold g', contract_chain, merge_chain, new_edge. cbn [fst].
    assert (X : forall vs h, NoDup (map eid (gedges h)) -> NoDup (map eid (gedges (delete_nodes vs h)))).
    { induction vs as [|v vs IH]; intros h N; [exact N|]. cbn [delete_nodes fold_left]. apply IH. apply NoDup_map_filter, N. }
    apply X. cbn [gedges]. rewrite map_app. cbn [map eid]. apply NoDup_app_intro.
    + apply (wf_ids g W).
    + constructor; [intros []|constructor].
    + intros x Hx [<-|[]]. apply in_map_iff in Hx as [y [Ey Hy]]. exact (Nse y Hy Ey).
  - intros e He. replace (gfree g') with (S (gfree g)) by (unfold g', contract_chain, merge_chain, new_edge; cbn [fst]; rewrite (proj1 (proj2 (delete_nodes_pv (mids c) _))); reflexivity).
    destruct (kept_inv e He) as [->|[H _]].
    + rewrite se_eq. cbn [eid]. unfold no_id. destruct (ne_cons c ne) as [a [c' Ec]]. 
      pose proof (wf_idlt g W a). assert (In a (gedges g)) by (apply (co_in g c C); rewrite Ec; left; reflexivity). unfold no_id in *. intuition lia.
    + pose proof (wf_idlt g W e H). lia.
  - intros e v He Hv Ho p Hp. rewrite OV in Ho. rewrite VV. apply contract_vertex in Hp as [Hp Np].
    destruct (kept_inv e He) as [->|[H _]]; [|exact (wf_label g W e v H Hv Ho p Hp)].
    rewrite se_eq in Hv. cbn [efla] in Hv. destruct (label_var v Hv) as [O|[[x [Hx [Vx Ox]]]|[m [Hm Hmv]]]]; [contradiction|exact (wf_label g W x v (co_in g c C x Hx) Vx Ox p Hp)|].
    intros V. apply Np. replace p with m; [exact Hm|]. apply (version_uniq m p v); [|exact V]. apply in_src_vars in Hmv as [b [Hb ->]]. exists b. cbn [fst snd] in *. eauto.
  - assert (K : forall e v, In e (gedges g) -> ~ In e c -> In v (vars (chain_label elim g c)) -> In v (vars (efla e)) -> In v (own_vars g se) /\ In v (own_vars g e)).
    { intros e v He Ne Hv Hv'. pose proof (kept e He Ne) as Ke. destruct (proj1 (contract_edges e) Ke) as [_ [N1 N2]].
      assert (Oe : forall p, vertex g p -> version_of g p v -> In v (own_vars g e)).
      { intros p Hp V. destruct (in_dec var_dec v (own_vars g e)) as [O|O]; [exact O|]. exfalso. exact (wf_label g W e v He Hv' O p Hp V). }
      destruct (label_var v Hv) as [O|[[x [Hx [Vx Ox]]]|[m [Hm Hmv]]]].
      - split; [exact O|]. destruct (F_own v O) as [p [Ep V]]. apply (Oe p); [destruct Ep as [->| ->]; [apply vertex_F|apply vertex_T]|exact V].
      - exfalso. apply Ox. assert (Nid : eid x <> eid e) by (intros E; apply Ne; rewrite <- (wf_edge_eq g x e W (co_in g c C x Hx) He E); exact Hx).
        exact (proj1 (wf_priv g W x e v (co_in g c C x Hx) He Nid Vx Hv')).
      - exfalso. assert (Vm : version_of g m v) by (apply in_src_vars in Hmv as [b [Hb ->]]; exists b; cbn [fst snd] in *; eauto).
        pose proof (Oe m (mid_vertex m Hm) Vm) as O. apply own_has_version in O as [p [Ep Vp]]. rewrite (version_uniq p m v Vp Vm) in Ep.
        destruct Ep as [Ep|Ep]; [exact (N2 m Ep Hm)|]. apply N1. rewrite <- Ep. exact Hm. }
    intros e1' e2 v H1 H2 Ni V1 V2. rewrite !OV. destruct (kept_inv e1' H1) as [->|[K1 K1']], (kept_inv e2 H2) as [->|[K2 K2']].
    + congruence.
    + apply K; assumption.
    + rewrite and_comm. apply K; assumption.
    + apply (wf_priv g W); assumption.
  - intros e v He Hv. replace (gctr g') with (gctr g) by (unfold g', contract_chain, merge_chain, new_edge; cbn [fst]; rewrite (proj2 (proj2 (delete_nodes_pv (mids c) _))); reflexivity).
    destruct (kept_inv e He) as [->|[H _]]; [|exact (wf_fresh g W e v H Hv)].
    rewrite se_eq in Hv. cbn [efla] in Hv. 
    assert (X : (exists p, version_of g p v) -> (forall k s, gctr g <= k -> v <> gaux k s) /\ (forall k s, v <> auxg k s)).
    { intros [p [b [_ [[i ->]| ->]]]]; split; intros; unfold src, tgt, gaux, auxg; intros E; discriminate E. }
    destruct (label_var v Hv) as [O|[[x [Hx [Vx Ox]]]|[m [Hm Hmv]]]].
    + apply X. destruct (F_own v O) as [p [_ V]]. eauto.
    + exact (wf_fresh g W x v (co_in g c C x Hx) Vx).
    + apply X. exists m. apply in_src_vars in Hmv as [b [Hb ->]]; exists b; cbn [fst snd] in *; eauto.
  - intros e He. destruct (kept_inv e He) as [->|[H _]]; [|apply (wf_entry g W e H)].
    rewrite se_eq. cbn [eto]. unfold T. rewrite (target_last c se ne). apply (wf_entry g W). apply (co_in g c C), last_in_ne, ne.
  - intros e He. destruct (kept_inv e He) as [->|[H _]]; [|apply (wf_exit g W e H)].
    rewrite se_eq. cbn [efrom]. intros [E|[]]. destruct (ne_cons c ne) as [a [c' Ec]]. pose proof (co_linked g c C) as L. fold F in L. rewrite Ec in L.
    apply (wf_exit g W a); [apply (co_in g c C); rewrite Ec; left; reflexivity|]. rewrite (proj1 L), E. left. reflexivity.
Qed.

(** ** Solutions *)
Definition to_src (e : hedge) : term := rename (tosrc g [eto e]) (efla e).
Lemma to_src_eq e : rename (vlookup (to_source_map g (eto e))) (efla e) = to_src e.
Proof. unfold to_src. rewrite tosrc_single. reflexivity. Qed.
(** Consecutive steps through the interpolants. *)
Fixpoint isteps (D : term) (ls js : list term) (lst : term) : Prop :=
  match ls, js with
  | [l], [] => forall r, holds r D -> holds r l -> holds r lst
  | l :: ls', J :: js' => (forall r, holds r D -> holds r l -> holds r J) /\ isteps J ls' js' lst
  | _, _ => False
  end.
Definition tail_parts (ls : list term) (d neg : term) : list (list term) := map (fun x => [x]) (removelast ls) ++ [[last ls d; neg]].
Lemma tail_parts_cons x y ls d neg : tail_parts (x :: y :: ls) d neg = [x] :: tail_parts (y :: ls) d neg.
Proof. reflexivity. Qed.
Lemma tail_steps lst d ls : forall J js, ls <> [] -> itp_chain J (tail_parts ls d (mkNot lst)) js -> isteps J ls js lst.
Proof.
  induction ls as [|x [|y ls] IH]; intros J js N H; [congruence| |].
  - cbn in H. inversion H as [? ? Hf|? ? ? ? ? ? Hc]; subst; [|inversion Hc].
    cbn [isteps]. intros r H1 H2. destruct (holds_dec r lst) as [X|X]; [exact X|]. exfalso. apply (Hf r H1). constructor; [exact H2|]. constructor; [|constructor]. apply holds_not. exact X.
  - rewrite tail_parts_cons in H. inversion H as [? ? Hf E|? ? ? ? ? Hs Hc]; subst.
    { match goal with E : _ = tail_parts (y :: ls) d (mkNot lst) |- _ => exfalso; unfold tail_parts in E; symmetry in E; apply app_eq_nil in E as [_ E]; discriminate end. }
    split; [|apply IH; [discriminate|exact Hc]]. intros r H1 H2. apply (Hs r H1). constructor; [exact H2|constructor].
Qed.
Lemma tail_first d neg ls : forall i t, i < length ls -> In t (concat (firstn i (tail_parts ls d neg))) -> In t (firstn i ls).
Proof.
  induction ls as [|x [|y ls] IH]; intros [|i] t Hi H; cbn [firstn concat length] in *; try (cbn in H; contradiction); try lia.
  rewrite tail_parts_cons in H. cbn [firstn concat app] in H. destruct H as [<-|H]; [left; reflexivity|]. right. apply IH; [lia|exact H].
Qed.
Lemma tail_skip d neg ls : forall i t, In t (concat (skipn i (tail_parts ls d neg))) -> ls <> [] -> In t (skipn i ls ++ [neg]).
Proof.
  induction ls as [|x [|y ls] IH]; intros i t H N; [congruence| |].
  - destruct i as [|[|i]]; cbn in H |- *; tauto.
  - destruct i as [|i]; [|rewrite tail_parts_cons in H; cbn [skipn] in *; apply IH; [exact H|discriminate]].
    rewrite tail_parts_cons in H. cbn [skipn concat app] in *. destruct H as [<-|H]; [left; reflexivity|]. right. apply (IH 0 t H). discriminate.
Qed.

(** Variables of the two sides of a cut. *)
Definition on_chain (c0 : list hedge) (s : sym) (v : var) : Prop :=
  (exists e, In e c0 /\ In v (vars (efla e)) /\ ~ In v (own_vars g e)) \/ (exists p, In p (s :: map eto c0) /\ In v (src_vars g (p, 0))).
Lemma to_src_var s c0 e v : linked s c0 -> In e c0 -> (forall x, In x c0 -> In x c) -> In v (vars (to_src e)) -> on_chain c0 s v.
Proof.
  intros L He Hc H. unfold to_src in H. rewrite vars_rename in H. apply in_map_iff in H as [u [<- Hu]].
  destruct (linked_ends s c0 e L He) as [[p [P1 P2]] _].
  destruct (in_dec var_dec u (own_vars g e)) as [O|O].
  - right. apply (own_single g e p u P1) in O as [O|O].
    + exists p. apply in_src_vars in O as [b [Hb ->]]. cbn [fst snd] in *. rewrite tosrc_src. split; [|unfold src_vars; apply in_map; exact Hb].
      destruct P2 as [<-|P2]; [left; reflexivity|]. right. destruct (mids_in _ _ P2) as [x [Hx <-]]. apply in_map, Hx.
    + apply in_map_iff in O as [b [<- Hb]]. exists (eto e). split; [right; apply in_map, He|]. rewrite (tosrc_in g R [eto e] (eto e) b (or_introl eq_refl) Hb).
      unfold src_vars. apply in_map. exact Hb.
  - left. exists e. split; [exact He|]. rewrite tosrc_out; [auto|]. intros m [<-|[]] Hx. apply (wf_label g W e u (co_in g c C e (Hc e He)) Hu O (eto e)); [eapply vertex_tgt, (co_in g c C e (Hc e He))|].
    apply in_map_iff in Hx as [b [<- Hb]]. exists b. auto.
Qed.
Lemma targets_mids c0 : c0 <> [] -> forall p, In p (map eto c0) <-> In p (mids c0) \/ p = chain_target c0.
Proof.
  intros N p. induction c0 as [|x [|y c0] IH]; [congruence|cbn; intuition|]. rewrite mids_cons, target_cons by discriminate.
  cbn [map In]. cbn [map In] in IH. rewrite IH by discriminate. cbn [In]. tauto.
Qed.
Lemma target_app a b : b <> [] -> chain_target (a ++ b) = chain_target b.
Proof.
  intros N. induction a as [|x a IH]; [reflexivity|]. cbn [app]. rewrite target_cons; [exact IH|]. destruct a; [exact N|discriminate].
Qed.
Lemma cut_vars c1 c2 v : c = c1 ++ c2 -> c1 <> [] -> c2 <> [] -> on_chain c1 F v -> on_chain c2 (chain_target c1) v -> In v (src_vars g (chain_target c1, 0)).
Proof.
  intros Ec N1 N2 H1 H2.
  pose proof (co_nodup g c C) as ND. rewrite Ec, mids_app in ND by assumption.
  assert (I1 : forall e, In e c1 -> In e c) by (intros; rewrite Ec; apply in_app_iff; auto).
  assert (I2 : forall e, In e c2 -> In e c) by (intros; rewrite Ec; apply in_app_iff; auto).
  assert (VT : forall e p, In e c -> (p = F \/ In p (map eto c)) -> vertex g p).
  { intros e p He [->|Hp]; [apply vertex_F|]. apply in_map_iff in Hp as [x [<- Hx]]. apply vertex_tgt, (co_in g c C x Hx). }
  assert (V1 : forall p, In p (F :: map eto c1) -> vertex g p).
  { intros p [<-|Hp]; [apply vertex_F|]. apply in_map_iff in Hp as [x [<- Hx]]. apply vertex_tgt, (co_in g c C x), I1, Hx. }
  assert (V2 : forall p, In p (chain_target c1 :: map eto c2) -> vertex g p).
  { intros p [<-|Hp]; [apply V1; right; apply targets_mids; auto|]. apply in_map_iff in Hp as [x [<- Hx]]. apply vertex_tgt, (co_in g c C x), I2, Hx. }
  assert (SV : forall p u, In u (src_vars g (p, 0)) -> version_of g p u).
  { intros p u Hu. apply in_src_vars in Hu as [b [Hb ->]]. exists b. cbn [fst snd] in *. eauto. }
  destruct H1 as [[e [He [Vv Ov]]]|[p [Hp Hv]]], H2 as [[e' [He' [Vv' Ov']]]|[p' [Hp' Hv']]].
  - exfalso. assert (Ne : eid e <> eid e').
    { intros E. apply (wf_edge_eq g e e' W) in E; [|apply (co_in g c C), I1, He|apply (co_in g c C), I2, He']. subst e'.
      assert (NF : NoDup (map efrom c)).
      { rewrite (linked_froms F c (co_linked g c C) ne). apply NoDup_map_inj_in; [|apply (co_nodup g c C)]. intros a b _ _ X. injection X as X. exact X. }
      rewrite Ec, map_app in NF. clear - NF He He'. induction c1 as [|x c1 IH]; [destruct He|]. cbn [map app] in NF. inversion NF as [|? ? Hn N]; subst.
      destruct He as [->|He]; [apply Hn, in_app_iff; right; apply in_map, He'|auto]. }
    apply Ov. exact (proj1 (wf_priv g W e e' v (co_in g c C e (I1 e He)) (co_in g c C e' (I2 e' He')) Ne Vv Vv')).
  - exfalso. exact (wf_label g W e v (co_in g c C e (I1 e He)) Vv Ov p' (V2 p' Hp') (SV _ _ Hv')).
  - exfalso. exact (wf_label g W e' v (co_in g c C e' (I2 e' He')) Vv' Ov' p (V1 p Hp) (SV _ _ Hv)).
  - pose proof (src_vars_disj g R (p, 0) (p', 0) v Hv Hv') as E. injection E as <-.
    replace (chain_target c1) with p; [exact Hv|].
    assert (TT : chain_target c2 = T) by (unfold T; rewrite Ec, target_app by exact N2; reflexivity).
    assert (Hp1 : p = F \/ In p (mids c1) \/ p = chain_target c1) by (destruct Hp as [<-|Hp]; [auto|apply (targets_mids c1 N1) in Hp; tauto]).
    assert (Hp2 : p = chain_target c1 \/ In p (mids c2) \/ p = T).
    { destruct Hp' as [<-|Hp']; [auto|]. apply (targets_mids c2 N2) in Hp'. rewrite TT in Hp'. tauto. }
    destruct Hp2 as [Hp2|[Hp2|Hp2]]; [exact Hp2| |].
    + exfalso. inversion ND as [|? ? HF ND']; subst. destruct Hp1 as [->|[Hp1|Hp1]].
      * apply HF. apply in_app_iff. right. right. exact Hp2.
      * clear - ND' Hp1 Hp2. induction (mids c1) as [|x l IH]; [destruct Hp1|]. cbn [app] in ND'. inversion ND' as [|? ? Hn N]; subst.
        destruct Hp1 as [->|Hp1]; [apply Hn, in_app_iff; right; right; exact Hp2|auto].
      * apply NoDup_remove_2 in ND'. apply ND'. apply in_app_iff. right. rewrite <- Hp1. exact Hp2.
    + exfalso. destruct Hp1 as [E|[E|E]].
      * apply (ct_ends g c CT). fold F T. congruence.
      * apply T_mid. rewrite Ec, mids_app by assumption. apply in_app_iff. left. congruence.
      * apply T_mid. rewrite Ec, mids_app by assumption. apply in_app_iff. right. left. congruence.
Qed.

Lemma isteps_length ls : forall D js lst, isteps D ls js lst -> length ls = S (length js).
Proof.
  induction ls as [|l ls IH]; intros D js lst H; [destruct H|]. destruct js as [|J js].
  - destruct ls; [reflexivity|destruct H].
  - cbn [isteps] in H. destruct ls; [destruct H as [_ []]|]. destruct H as [_ H]. cbn [length]. f_equal. eapply IH; eauto.
Qed.
Lemma add_defs_spec l : forall w w', add_defs l w = Some w' -> forall p,
  (exists d, In (p, d) l /\ w p = None /\ w' p = Some d) \/ (~ In p (map fst l) /\ w' p = w p).
Proof.
  induction l as [|[q d] l IH]; intros w w' H p; cbn [add_defs] in H.
  - injection H as <-. right. split; [intros []|reflexivity].
  - destruct (w q) eqn:Eq; [discriminate|]. destruct (IH _ _ H p) as [[d' [H1 [H2 H3]]]|[H1 H2]].
    + left. exists d'. split; [right; exact H1|]. split; [|exact H3]. unfold wset in H2. destruct (Nat.eqb p q); [discriminate|exact H2].
    + unfold wset in H2. destruct (Nat.eqb_spec p q) as [->|N].
      * left. exists d. split; [left; reflexivity|auto].
      * right. split; [intros [X|X]; [cbn in X; congruence|contradiction]|exact H2].
Qed.
Lemma untag_src J m : (forall v, In v (vars J) -> In v (src_vars g (m, 0))) -> rename (src 0) (rename untag J) = J /\ forall v, In v (vars (rename untag J)) -> In v (gpv g m).
Proof.
  intros H. assert (X : forall b, In b (gpv g m) -> untag (src 0 b) = b).
  { intros b Hb. pose proof (rep_base _ R m b Hb) as E. unfold untag, src. destruct b; cbn in *. congruence. }
  split.
  - rewrite rename_rename. apply rename_id. intros v Hv.
    apply H in Hv. apply in_src_vars in Hv as [b [Hb ->]]. cbn [fst snd] in *. rewrite X by exact Hb. reflexivity.
  - intros v Hv. rewrite vars_rename in Hv. apply in_map_iff in Hv as [u [<- Hu]]. apply H in Hu. apply in_src_vars in Hu as [b [Hb ->]]. cbn [fst snd] in *. rewrite X by exact Hb. exact Hb.
Qed.
(** One edge, from the interpolants to the definitions. *)
Lemma edge_step w e p : wvars g w -> In e c -> efrom e = [p] -> p <> eto e ->
  (forall d d', w p = Some d -> w (eto e) = Some d' -> forall r, holds r (rename (src 0) d) -> holds r (to_src e) -> holds r (rename (src 0) d')) ->
  w (eto e) <> None ->
  forall f f', follows g e [f] f' -> wtrue g w f -> wtrue g w f'.
Proof.
  intros V He Ep Np H Nw f f' Hf Ht. apply (follows_single g e p f f' Ep) in Hf as [r [Hr [-> ->]]].
  apply (wtrue_src g w p 0 r V) in Ht as [d [Ed Hd]]. destruct (w (eto e)) as [d'|] eqn:Ed'; [|congruence].
  apply (wtrue_tgt g w (eto e) r V). exists d'. split; [exact Ed'|].
  (* one valuation for the renamed label *)
  destruct (glue (map (fun v => (tosrc g [eto e] v, eval r (Var v))) (zone g e))) as [r2 H2].
  - intros x a b Ha Hb. apply in_map_iff in Ha as [u [Eu Hu]]. apply in_map_iff in Hb as [v [Ev Hv]]. injection Eu as E1 <-. injection Ev as E2 <-.
    rewrite <- E2 in E1. clear E2. enough (u = v) by congruence.
    assert (K : forall u, In u (zone g e) -> (In u (vars (efla e)) /\ ~ In u (own_vars g e) /\ tosrc g [eto e] u = u) \/ (exists b, In b (gpv g p) /\ u = src 0 b /\ tosrc g [eto e] u = src 0 b) \/ (exists b, In b (gpv g (eto e)) /\ u = tgt b /\ tosrc g [eto e] u = src 0 b)).
    { clear - He Ep C W R. intros u Hu. destruct (in_dec var_dec u (own_vars g e)) as [O|O].
      - right. apply (own_single g e p u Ep) in O as [O|O].
        + left. apply in_src_vars in O as [b [Hb ->]]. cbn [fst snd] in *. exists b. rewrite tosrc_src. auto.
        + right. apply in_map_iff in O as [b [<- Hb]]. exists b. rewrite (tosrc_in g R [eto e] (eto e) b (or_introl eq_refl) Hb). auto.
      - left. unfold zone in Hu. apply in_app_iff in Hu as [Hu|Hu]; [contradiction|]. split; [exact Hu|]. split; [exact O|]. apply tosrc_out. intros m [<-|[]] Hx.
        apply (wf_label g W e u (co_in g c C e He) Hu O (eto e)); [apply vertex_tgt, (co_in g c C e He)|]. apply in_map_iff in Hx as [b [<- Hb]]. exists b. auto. }
    assert (KV : forall q b0, In b0 (gpv g q) -> (q = p \/ q = eto e) -> forall u, In u (vars (efla e)) -> ~ In u (own_vars g e) -> u <> src 0 b0).
    { intros q b0 Hb0 Hq u0 Hu0 O0 ->. apply (wf_label g W e _ (co_in g c C e He) Hu0 O0 q); [|exists b0; eauto].
      destruct Hq as [->| ->]; [apply (vertex_src g e); [apply (co_in g c C e He)|rewrite Ep; left; reflexivity]|apply vertex_tgt, (co_in g c C e He)]. }
    destruct (K u Hu) as [[A1 [A2 A3]]|[[b [A1 [A2 A3]]]|[b [A1 [A2 A3]]]]], (K v Hv) as [[B1 [B2 B3]]|[[b' [B1 [B2 B3]]]|[b' [B1 [B2 B3]]]]]; rewrite A3, B3 in E1.
    + exact E1.
    + exfalso. eapply (KV p b' B1); eauto.
    + exfalso. eapply (KV (eto e) b' B1); eauto.
    + exfalso. symmetry in E1. eapply (KV p b A1); eauto.
    + congruence.
    + exfalso. apply (src_inj_v g R 0 0 p (eto e) b b' A1 B1) in E1. tauto.
    + exfalso. symmetry in E1. eapply (KV (eto e) b A1); eauto.
    + exfalso. apply (src_inj_v g R 0 0 (eto e) p b b' A1 B1) in E1 as [_ [_ E1]]. congruence.
    + apply (src_inj_v g R 0 0 (eto e) (eto e) b b' A1 B1) in E1 as [_ [E1 _]]. congruence.
  - intros x a Ha. apply in_map_iff in Ha as [v [E _]]. pose proof (f_equal fst E) as E1. pose proof (f_equal snd E) as E2. cbn [fst snd] in E1, E2. rewrite <- E1, <- E2, eval_var_sort. symmetry. apply tosrc_sort.
  - assert (H3 : forall v, In v (zone g e) -> eval r2 (Var (tosrc g [eto e] v)) = eval r (Var v)).
    { intros v Hv. apply H2. apply in_map_iff. exists v. auto. }
    assert (Z1 : forall b, In b (gpv g p) -> eval r2 (Var (src 0 b)) = eval r (Var (src 0 b))).
    { intros b Hb. rewrite <- (H3 (src 0 b)), tosrc_src; [reflexivity|]. apply in_app_iff. left. apply (own_single g e p _ Ep). left. unfold src_vars. apply in_map. exact Hb. }
    assert (Z2 : forall b, In b (gpv g (eto e)) -> eval r2 (Var (src 0 b)) = eval r (Var (tgt b))).
    { intros b Hb. rewrite <- (H3 (tgt b)), (tosrc_in g R [eto e] (eto e) b (or_introl eq_refl) Hb); [reflexivity|]. apply in_app_iff. left. apply (own_single g e p _ Ep). right. unfold tgt_vars. apply in_map. exact Hb. }
    assert (Y : holds r2 (rename (src 0) d')).
    { apply (H d d' Ed eq_refl r2).
      - rewrite holds_rename in Hd by apply src_sort. apply (holds_ren_ext (src 0) r2 (fun v => r (src 0 v))); [apply src_sort| |exact Hd].
        intros v Hv. rewrite (eval_var_ren (src 0) r v (src_sort 0)). apply Z1, (V p d Ed v Hv).
      - unfold to_src. apply (holds_ren_ext (tosrc g [eto e]) r2 r); [apply tosrc_sort| |exact Hr]. intros v Hv. apply H3. apply in_app_iff. right. exact Hv. }
    rewrite holds_rename in Y by apply src_sort. apply (holds_ren_ext tgt r (fun v => r2 (src 0 v))); [apply tgt_sort| |exact Y].
    intros v Hv. rewrite (eval_var_ren (src 0) r2 v (src_sort 0)). symmetry. apply Z2, (V (eto e) d' Ed' v Hv).
Qed.

Variable check : check_fn.
Variable pitp : pitp_fn.
Hypothesis Hpitp : pitp_ok pitp.

Lemma isteps_edges w : forall c0 s js dl d0, linked s c0 -> c0 <> [] -> w s = Some d0 -> w (chain_target c0) = Some dl ->
  isteps (rename (src 0) d0) (map to_src c0) js (rename (src 0) dl) ->
  Forall2 (fun m J => exists d, w m = Some d /\ rename (src 0) d = J) (mids c0) js ->
  forall e p, In e c0 -> efrom e = [p] -> exists d d', w p = Some d /\ w (eto e) = Some d' /\
    forall r, holds r (rename (src 0) d) -> holds r (to_src e) -> holds r (rename (src 0) d').
Proof.
  induction c0 as [|x c0 IH]; intros s js dl d0 L N Es El H A e p He Ep; [congruence|]. destruct L as [Ex L]. cbn [map] in H.
  destruct c0 as [|y c0].
  - destruct He as [->|[]]. rewrite Ex in Ep. injection Ep as <-. destruct js as [|J js]; [|destruct H as [_ []]].
    exists d0, dl. split; [exact Es|]. split; [exact El|]. exact H.
  - rewrite mids_cons, target_cons in * by discriminate. inversion A as [|? J ? js' [d [Ed EJ]] A']; subst. cbn [map] in H. destruct H as [H1 H2].
    destruct He as [->|He].
    + rewrite Ex in Ep. injection Ep as <-. exists d0, d. split; [exact Es|]. split; [exact Ed|exact H1].
    + apply (IH (eto x) js' dl d); auto. discriminate.
Qed.

Theorem contract_valid w w' : solution g' w -> only g' w -> back_chain_valid check pitp g (c, se) w = Some w' -> solution g w' /\ only g w'.
Proof.
  intros Sw Ow H. unfold back_chain_valid in H. cbn [fst snd] in H. rewrite se_eq in H. cbn [efrom eto hd] in H.
  destruct (w F) as [ds|] eqn:EF; [|discriminate]. destruct (w T) as [dt|] eqn:ET; [|discriminate].
  destruct (check (concat (chain_parts g c ds dt))) eqn:Ek; try discriminate.
  destruct (pitp (chain_parts g c ds dt)) as [js|] eqn:Ep; [|discriminate]. destruct (Hpitp _ _ Ep) as [HI HV]. clear Ep Ek.
  apply solution_facts in Sw as [Vw [E0 [E1 HE]]].
  assert (Vg : wvars g w) by (intros p d Hd v Hv; rewrite <- pv_contract; eapply Vw; eauto).
  set (ls := map to_src c).
  assert (Hls : map (fun e => rename (vlookup (to_source_map g (eto e))) (efla e)) c = ls) by (apply map_ext; intros; apply to_src_eq).
  assert (Hparts : exists l1 l2 lr, ls = l1 :: l2 :: lr /\ chain_parts g c ds dt = [rename (src 0) ds; l1] :: tail_parts (l2 :: lr) l1 (mkNot (rename (src 0) dt))).
  { unfold chain_parts. rewrite Hls. pose proof (co_len g c C) as Len. assert (Ll : length ls = length c) by apply map_length.
    destruct ls as [|l1 [|l2 lr]]; cbn in Ll; try lia. exists l1, l2, lr. split; reflexivity. }
  destruct Hparts as [l1 [l2 [lr [El EP]]]]. rewrite EP in HI, HV.
  assert (HS : isteps (rename (src 0) ds) ls js (rename (src 0) dt)).
  { rewrite El. inversion HI as [? ? Hf E|? ? ? J js' Hs Hc]; subst.
    { exfalso. match goal with E : _ = tail_parts (l2 :: lr) _ _ |- _ => unfold tail_parts in E; symmetry in E; apply app_eq_nil in E as [_ E]; discriminate end. }
    split.
    - intros r H1 H2. apply (Hs r); [apply holds_true|]. repeat constructor; assumption.
    - apply (tail_steps _ l1); [discriminate|exact Hc]. }
  pose proof (isteps_length _ _ _ _ HS) as HL.
  assert (Lm : length (mids c) = length js).
  { assert (X : forall c0 : list hedge, c0 <> [] -> S (length (mids c0)) = length c0).
    { induction c0 as [|x [|y c0] IH]; intros; [congruence|reflexivity|]. rewrite mids_cons by discriminate. cbn [length]. f_equal. apply IH. discriminate. }
    specialize (X c ne). unfold ls in HL. rewrite map_length in HL. lia. }
  (* variables of the interpolants *)
  assert (JV : Forall2 (fun m J => forall v, In v (vars J) -> In v (src_vars g (m, 0))) (mids c) js).
  { apply Forall2_nth_intro; [exact Lm|]. intros i m J Hm HJ v Hv.
    destruct (HV i J HJ v Hv) as [V1 V2].
    assert (Hi : S i < length c) by (apply nth_error_Some_lt in HJ; unfold ls in HL; rewrite map_length in HL; lia).
    set (c1 := firstn (S i) c). set (c2 := skipn (S i) c).
    assert (Ec : c = c1 ++ c2) by (symmetry; apply firstn_skipn).
    assert (N1 : c1 <> []) by (unfold c1; destruct (ne_cons c ne) as [a [c' ->]]; discriminate).
    assert (N2 : c2 <> []) by (intros X; assert (Y : length c2 = length c - S i) by apply skipn_length; rewrite X in Y; cbn in Y; lia).
    assert (Et : chain_target c1 = m).
    { rewrite Ec, mids_app in Hm by assumption. assert (X : length (mids c1) = i).
      { assert (X : forall c0 : list hedge, c0 <> [] -> S (length (mids c0)) = length c0).
        { induction c0 as [|x [|y c0] IH]; intros; [congruence|reflexivity|]. rewrite mids_cons by discriminate. cbn [length]. f_equal. apply IH. discriminate. }
        specialize (X c1 N1). unfold c1 in X at 2. rewrite firstn_length_le in X by lia. lia. }
      rewrite nth_error_app2 in Hm by lia. rewrite X, Nat.sub_diag in Hm. injection Hm. auto. }
    rewrite <- Et. pose proof (co_linked g c C) as L. fold F in L. rewrite Ec in L. destruct (linked_app _ _ _ L) as [L1 L2].
    assert (L2' : linked (chain_target c1) c2) by (destruct c1; [congruence|exact L2]). clear L2.
    assert (I1 : forall e, In e c1 -> In e c) by (intros; rewrite Ec; apply in_app_iff; auto).
    assert (I2 : forall e, In e c2 -> In e c) by (intros; rewrite Ec; apply in_app_iff; auto).
    apply (cut_vars c1 c2 v Ec N1 N2).
    - apply in_lvars in V1 as [t [Ht Vt]]. cbn [firstn concat] in Ht. apply in_app_iff in Ht as [[<-|[<-|[]]]|Ht].
      + right. exists F. split; [left; reflexivity|]. rewrite vars_rename in Vt. apply in_map_iff in Vt as [b [<- Hb]]. unfold src_vars. apply in_map. exact (Vg F ds EF b Hb).
      + destruct (ne_cons c ne) as [a [c' Ea]]. assert (l1 = to_src a) by (unfold ls in El; rewrite Ea in El; cbn [map] in El; injection El; auto). subst l1.
        apply (to_src_var F c1 a v L1); [unfold c1; rewrite Ea; left; reflexivity|exact I1|exact Vt].
      + apply tail_first in Ht; [|cbn [length]; apply nth_error_Some_lt in HJ; rewrite El in HL; cbn [length] in HL; lia].
        assert (X : In t (map to_src c1)). { unfold c1. rewrite <- firstn_map. fold ls. rewrite El. cbn [firstn]. right. exact Ht. }
        apply in_map_iff in X as [x [<- Hx]]. apply (to_src_var F c1 x v L1 Hx I1 Vt).
    - apply in_lvars in V2 as [t [Ht Vt]]. cbn [skipn] in Ht. apply tail_skip in Ht; [|discriminate].
      assert (X : In t (map to_src c2 ++ [mkNot (rename (src 0) dt)])). { unfold c2. rewrite <- skipn_map. fold ls. rewrite El. cbn [skipn]. exact Ht. }
      apply in_app_iff in X as [X|[<-|[]]].
      + apply in_map_iff in X as [x [<- Hx]]. apply (to_src_var (chain_target c1) c2 x v L2' Hx I2 Vt).
      + right. exists T. split; [right; unfold T; rewrite Ec, target_app by exact N2; apply targets_mids; [exact N2|auto]|].
        unfold mkNot in Vt. apply in_vars_app in Vt as [t [[<-|[]] Vt]]. rewrite vars_rename in Vt. apply in_map_iff in Vt as [b [<- Hb]].
        unfold src_vars. apply in_map. exact (Vg T dt ET b Hb). }
  (* the new definitions *)
  pose proof (add_defs_spec _ _ _ H) as AD.
  assert (Kf : forall l : list term, length (mids c) = length l -> map fst (combine (mids c) l) = mids c) by (intros; apply fst_combine_len; assumption).
  assert (Hw' : forall p, ~ In p (mids c) -> w' p = w p).
  { intros p Np. destruct (AD p) as [[d [Hd _]]|[_ X]]; [|exact X]. exfalso. apply Np. apply in_combine_l in Hd. exact Hd. }
  assert (Hmid : Forall2 (fun m J => exists d, w' m = Some d /\ rename (src 0) d = J /\ forall v, In v (vars d) -> In v (gpv g m)) (mids c) js).
  { pose proof (co_nodup g c C) as ND. inversion ND as [|? ? _ ND']; subst. clear ND.
    apply Forall2_nth_intro; [exact Lm|]. intros i m J Hm HJ. destruct (untag_src J m) as [U1 U2].
    { eapply Forall2_nth_elim in JV; eauto. }
    exists (rename untag J). split; [|auto]. destruct (AD m) as [[d [Hd [_ Hd']]]|[X _]].
    - rewrite Hd'. f_equal. apply In_nth_error in Hd as [j Hj]. apply nth_error_combine in Hj as [J1 J2]. rewrite nth_error_map in J2.
      assert (i = j). { apply (proj1 (NoDup_nth_error (mids c)) ND'); [apply nth_error_Some_lt in Hm; exact Hm|congruence]. } subst j. rewrite HJ in J2. injection J2. auto.
    - exfalso. apply X. rewrite Kf by (rewrite map_length; exact Lm). eapply nth_error_In; eauto. }
  assert (V' : wvars g w').
  { intros p d Hd v Hv. destruct (in_dec Nat.eq_dec p (mids c)) as [X|X].
    - apply In_nth_error in X as [i Hi]. destruct (nth_error js i) as [J|] eqn:HJ; [|apply nth_error_None in HJ; apply nth_error_Some_lt in Hi; unfold sym in *; lia].
      destruct (Forall2_nth_elim _ _ _ Hmid i p J Hi HJ) as [d' [D1 [_ D2]]]. rewrite D1 in Hd. injection Hd as <-. exact (D2 v Hv).
    - rewrite (Hw' p X) in Hd. exact (Vg p d Hd v Hv). }
  split.
  - apply solution_facts. split; [exact V'|]. rewrite !Hw' by (apply mid_entry || apply mid_exit). split; [exact E0|]. split; [exact E1|].
    intros e He. destruct (in_chain_dec e He) as [X|X].
    + destruct (linked_ends F c e (co_linked g c C) X) as [[p [P1 P2]] P3].
      destruct (isteps_edges w' c F js dt ds (co_linked g c C) ne) with (e := e) (p := p) as [d [d' [D1 [D2 D3]]]]; auto.
      * rewrite Hw' by apply F_mid. exact EF.
      * fold T. rewrite Hw' by apply T_mid. exact ET.
      * eapply Forall2_imp; [|exact Hmid]. cbn. intros a b [d [A1 [A2 _]]]. eauto.
      * split; [intros q Hq; rewrite P1 in Hq; destruct Hq as [<-|[]]; congruence|]. split; [congruence|].
        intros ps f Hf Hps. assert (Hp : exists q, ps = [q]) by (apply follows_prems in Hf as [Hf _]; rewrite P1 in Hf; destruct ps as [|q [|]]; try discriminate; eauto).
        destruct Hp as [q ->]. inversion Hps as [|? ? Hq _]; subst.
        apply (edge_step w' e p V' X P1) with (f := q); auto; [|intros a b Ha Hb; rewrite D1 in Ha; rewrite D2 in Hb; injection Ha as <-; injection Hb as <-; exact D3|congruence].
        (* an edge of the chain is no self loop *)
        intros ->. destruct P3 as [P3|P3].
        -- destruct (linked_pred F c (eto e) (co_linked g c C) P3) as [x [p' [H1 [H2 [H3 H4]]]]].
           (* the vertices of the chain are distinct *)
           pose proof (co_nodup g c C) as ND. 
           assert (Q : forall c0 s, linked s c0 -> NoDup (s :: mids c0) -> ~ In (chain_target c0) (s :: mids c0) -> forall e0, In e0 c0 -> efrom e0 <> [eto e0]).
           { clear. induction c0 as [|a [|b c0] IH]; intros s L ND NT e0 He0; [destruct He0| |].
             - destruct He0 as [<-|[]]. destruct L as [-> _]. intros E. injection E as ->. apply NT. left. reflexivity.
             - rewrite mids_cons, target_cons in * by discriminate. destruct L as [La L]. inversion ND as [|? ? Hn ND']; subst. destruct He0 as [<-|He0].
               + rewrite La. intros E. injection E as ->. apply Hn. left. reflexivity.
               + apply (IH (eto a)); auto. intros Hx. apply NT. right. exact Hx. }
           apply (Q c F (co_linked g c C) ND) in X; [congruence|]. intros [Y|Y]; [apply (ct_ends g c CT); exact Y|apply T_mid; exact Y].
        -- destruct P2 as [P2|P2]; [apply (ct_ends g c CT); fold F; congruence|apply T_mid; unfold T; rewrite <- P3; exact P2].
    + destruct (proj1 (contract_edges e) (kept e He X)) as [_ [N1 N2]]. destruct (HE e (kept e He X)) as [H1 [H2 H3]].
      split; [intros p Hp; rewrite Hw' by (apply N2, Hp); auto|]. split; [rewrite Hw' by exact N1; exact H2|].
      intros ps f Hf Hps. assert (WT : forall q, ~ In (fst q) (mids c) -> (wtrue g w' q <-> wtrue g' w q)).
      { intros q Hq. rewrite (wtrue_pv g g' w q pv_contract). unfold wtrue. rewrite Hw' by exact Hq. tauto. }
      destruct (follows_prems _ _ _ _ Hf) as [Fp Ff]. apply WT; [rewrite Ff; exact N1|]. apply (H3 ps); [apply (follows_pv g g' e ps f pv_contract); exact Hf|].
      rewrite Forall_forall in *. intros q Hq. apply WT; [apply N2; rewrite <- Fp; apply in_map, Hq|auto].
  - intros p Hp. destruct (in_dec Nat.eq_dec p (mids c)) as [X|X]; [apply mid_vertex, X|]. rewrite Hw' in Hp by exact X. apply contract_vertex, Ow, Hp.
Qed.

(** ** Trivial vertices afterwards *)
Lemma se_new : ~ In se (gedges g).
Proof. intros H. pose proof (wf_idlt g W se H) as X. rewrite se_eq in X. cbn [eid] in X. lia. Qed.
Lemma last_edge e : In e c -> eto e = T -> e = last c e.
Proof.
  intros H E. assert (Q : forall c0, In e c0 -> ~ In (eto e) (mids c0) -> e = last c0 e).
  { clear. induction c0 as [|x [|y c0] IH]; intros H N; [destruct H|destruct H as [->|[]]; reflexivity|]. rewrite mids_cons in N by discriminate.
    destruct H as [->|H]; [exfalso; apply N; left; reflexivity|]. apply IH; [exact H|]. intros X. apply N. right. exact X. }
  apply Q; [exact H|]. rewrite E. apply T_mid.
Qed.
Theorem trivial_after v : is_trivial g' v = true -> is_trivial g v = true /\ v <> F /\ v <> T.
Proof.
  intros H. apply (is_trivial_spec g' contract_wf) in H as [i [o [Hi Ho Ti Fo Ui Uo [p [Fi [N1 N2]]]]]].
  destruct (proj1 (contract_edges i) Hi) as [_ [Mi1 Mi2]]. destruct (proj1 (contract_edges o) Ho) as [_ [Mo1 Mo2]].
  assert (FT : F <> T) by apply (ct_ends g c CT).
  assert (Nv : ~ In v (mids c)) by (rewrite <- Ti; exact Mi1).
  assert (In_c : forall e, In e c -> eto e = v -> v = T).
  { intros e He E. destruct (linked_ends F c e (co_linked g c C) He) as [_ [X|X]]; [rewrite E in X; contradiction|]. unfold T. congruence. }
  assert (Out_c : forall e, In e c -> In v (efrom e) -> v = F).
  { intros e He E. destruct (linked_ends F c e (co_linked g c C) He) as [[q [Q1 Q2]] _]. rewrite Q1 in E. destruct E as [<-|[]]. destruct Q2 as [<-|Q2]; [reflexivity|contradiction]. }
  assert (Mi : v <> T -> In i (gedges g) /\ ~ In i c).
  { intros N. destruct (kept_inv i Hi) as [->|X]; [|exact X]. exfalso. apply N. rewrite <- Ti. reflexivity. }
  assert (Mo : v <> F -> In o (gedges g) /\ ~ In o c).
  { intros N. destruct (kept_inv o Ho) as [->|X]; [|exact X]. exfalso. apply N. rewrite se_eq in Fo. cbn in Fo. congruence. }
  assert (UI : v <> T -> forall e, In e (gedges g) -> eto e = v -> e = i).
  { intros N e He E. apply Ui; [|exact E]. apply kept; [exact He|]. intros X. apply N. eapply In_c; eauto. }
  assert (UO : v <> F -> forall e, In e (gedges g) -> In v (efrom e) -> e = o).
  { intros N e He E. apply Uo; [|exact E]. apply kept; [exact He|]. intros X. apply N. eapply Out_c; eauto. }
  destruct (Nat.eq_dec v T) as [EvT|NvT]; [|destruct (Nat.eq_dec v F) as [EvF|NvF]].
  - (* the target of the chain *) exfalso. assert (NvF : v <> F) by congruence. destruct (Mo NvF) as [Mo3 Mo4].
    assert (i = se) by (symmetry; apply Ui; [apply se_in|rewrite se_eq; symmetry; exact EvT]). subst i.
    assert (p = F) by (rewrite se_eq in Fi; cbn in Fi; congruence). subst p.
    set (e := last c se). assert (He : In e c) by apply (last_in_ne c se ne).
    assert (Te : eto e = v) by (rewrite EvT; unfold T; rewrite (target_last c se ne); reflexivity).
    destruct (linked_ends F c e (co_linked g c C) He) as [[q [Q1 Q2]] _].
    pose proof (ct_target g c CT) as X. fold T in X. rewrite <- EvT in X.
    assert (Y : is_trivial g v = true); [|congruence]. apply (is_trivial_spec g W). exists e, o. split.
    + apply (co_in g c C e He).
    + exact Mo3.
    + exact Te.
    + exact Fo.
    + intros x Hx Ex. destruct (in_chain_dec x Hx) as [Xc|Xc].
      * unfold e. rewrite (last_edge x Xc) by congruence. apply last_default, ne.
      * exfalso. assert (x = se) by (apply Ui; [apply kept; assumption|exact Ex]). subst x. exact (se_new Hx).
    + exact (UO NvF).
    + exists q. split; [exact Q1|]. destruct Q2 as [<-|Q2].
      * split; [exact N1|congruence].
      * split; [intros ->; contradiction|intros ->; contradiction].
  - (* the source of the chain *) exfalso. destruct (Mi NvT) as [Mi3 Mi4].
    assert (o = se) by (symmetry; apply Uo; [apply se_in|rewrite EvF; left; reflexivity]). subst o.
    destruct (ne_cons c ne) as [e [c' Ec]]. pose proof (co_linked g c C) as L. fold F in L. rewrite Ec in L. destruct L as [L1 _].
    assert (He : In e c) by (rewrite Ec; left; reflexivity).
    assert (Y : is_trivial g v = true).
    { apply (is_trivial_spec g W). exists i, e. split; auto.
      - apply (co_in g c C e He).
      - congruence.
      - intros x Hx Ex. destruct (in_chain_dec x Hx) as [Xc|Xc].
        + apply from_uniq; [exact Xc|exact He|]. destruct (linked_ends F c x (co_linked g c C) Xc) as [[q [Q1 Q2]] _]. rewrite Q1 in Ex |- *. destruct Ex as [->|[]]. congruence.
        + exfalso. assert (x = se) by (apply Uo; [apply kept; assumption|exact Ex]). subst x. exact (se_new Hx).
      - exists p. split; [exact Fi|]. split; [|exact N2]. intros ->.
        destruct (linked_ends F c e (co_linked g c C) He) as [_ [X|X]].
        + apply (Mi2 (eto e)); [rewrite Fi; left; reflexivity|exact X].
        + apply N1. rewrite X. reflexivity. }
    destruct (ct_source g c CT) as [X|[x [Hx [Tx Fx]]]]; [fold F in X; congruence|]. fold F in Tx. fold T in Fx.
    assert (x = i) by (apply (UI NvT); [exact Hx|congruence]). subst x. rewrite Fx in Fi. apply N1. injection Fi as <-. reflexivity.
  - split; [|auto]. apply (is_trivial_spec g W). exists i, o. split; auto; try (apply Mi; assumption); try (apply Mo; assumption). eauto.
Qed.
End Contract.

(** ** An isolated cycle *)
Section Circle.
Variable elim : elim_fn.
Variable g : hgraph.
Hypothesis W : wf_graph g.
Variable c : list hedge.
Hypothesis FC : full_circle g c.
Let g' := fst (contract_chain elim g c).
Let se := snd (contract_chain elim g c).
Lemma circle_pv : gpv g' = gpv g.
Proof. unfold g', contract_chain, merge_chain, new_edge. cbn [fst]. rewrite (proj1 (delete_nodes_pv (mids c) _)). reflexivity. Qed.
Lemma circle_edges x : In x (gedges g') <-> In x (gedges g) /\ ~ In (eto x) (mids c) /\ forall p, In p (efrom x) -> ~ In p (mids c).
Proof.
  unfold g', contract_chain, merge_chain, new_edge. cbn [fst]. rewrite delete_nodes_edges. cbn [gedges]. rewrite in_app_iff. split.
  - intros [[H|[H|[]]] N].
    + split; [exact H|]. split; [intros X; apply (proj1 (N _ X)); reflexivity|intros p Hp X; apply (proj2 (N _ X)); exact Hp].
    + exfalso. destruct (N _ (fc_target g c FC)) as [X _]. apply X. rewrite <- H. reflexivity.
  - intros [H [N1 N2]]. split; [auto|]. intros m Hm. split; [intros <-; contradiction|intros X; exact (N2 m X Hm)].
Qed.
Lemma circle_entry : ~ In entry (mids c).
Proof. intros X. destruct (mids_in _ _ X) as [e [He E]]. apply (wf_entry g W e (fc_edges g c FC e He) E). Qed.
Lemma circle_exit : ~ In exit (mids c).
Proof.
  intros X. pose proof (fc_triv g c FC exit X) as T. apply (is_trivial_spec g W) in T as [i [o Tr]].
  apply (wf_exit g W o (tv_o _ _ _ _ Tr)). rewrite (tv_from _ _ _ _ Tr). left. reflexivity.
Qed.
Lemma circle_wf : wf_graph g'.
Proof.
  unfold g', contract_chain, merge_chain, new_edge. cbn [fst].
  (* the summary is deleted: same edges as without it *)
  match goal with |- wf_graph (delete_nodes _ ?h) => set (g1 := h) end.
  assert (E : gedges (delete_nodes (mids c) g1) = gedges (delete_nodes (mids c) g)).
  { assert (X : forall vs h, gedges (delete_nodes vs h) = filter (fun e => forallb (fun v => negb (touches v e)) vs) (gedges h)).
    { induction vs as [|v vs IH]; intros h; cbn [delete_nodes fold_left forallb].
      - induction (gedges h) as [|x l IHl]; [reflexivity|]. cbn [filter]. f_equal. exact IHl.
      - change (fold_left (fun h v0 => delete_node v0 h) vs (delete_node v h)) with (delete_nodes vs (delete_node v h)). rewrite IH.
        unfold delete_node, filter_edges. cbn [gedges]. induction (gedges h) as [|x l IHl]; [reflexivity|]. cbn [filter]. destruct (touches v x); cbn [negb andb filter]; [exact IHl|].
        destruct (forallb (fun v0 => negb (touches v0 x)) vs); [f_equal|]; exact IHl. }
    rewrite !X. unfold g1. cbn [gedges]. rewrite filter_app. cbn [filter].
    destruct (forallb _ (mids c)) eqn:B; [|rewrite app_nil_r; reflexivity]. exfalso. rewrite forallb_forall in B. specialize (B _ (fc_target g c FC)).
    apply negb_true_iff in B. assert (Y : touches (chain_target c) (mkEdge (gfree g) [chain_source c] (chain_target c) (chain_label elim g c)) = true) by (apply touches_spec; left; reflexivity).
    unfold g1 in B. rewrite Y in B. discriminate. }
  pose proof (wf_delete_nodes (mids c) g W) as Wd. destruct (delete_nodes_pv (mids c) g1) as [P1 [P2 P3]]. destruct (delete_nodes_pv (mids c) g) as [Q1 [Q2 Q3]].
  assert (OV : forall e, own_vars (delete_nodes (mids c) g1) e = own_vars (delete_nodes (mids c) g) e) by (intros; apply own_vars_pv; rewrite P1, Q1; reflexivity).
  destruct Wd as [w1 w2 w3 w4 w5 w6 w7 w8 w9]. split.
  - rewrite P1. rewrite Q1 in w1. exact w1.
  - rewrite E. exact w2.
  - rewrite E. exact w3.
  - rewrite E. intros e He. specialize (w4 e He). rewrite P2. rewrite Q2 in w4. cbn. lia.
  - rewrite E. intros e v He Hv Ho p Hp. rewrite OV in Ho. unfold version_of. rewrite P1. specialize (w5 e v He Hv Ho p). unfold version_of in w5. rewrite Q1 in w5. apply w5.
    unfold vertex, vertex_in in *. rewrite E in Hp. exact Hp.
  - rewrite E. intros. rewrite !OV. apply w6; assumption.
  - rewrite E, P3. rewrite Q3 in w7. exact w7.
  - rewrite E. exact w8.
  - rewrite E. exact w9.
Qed.
Lemma circle_dfact f : dfact g f -> ~ In (fst f) (mids c) /\ dfact g' f.
Proof.
  apply (dfact_ind g (fun f => ~ In (fst f) (mids c) /\ dfact g' f)).
  - split; [apply circle_entry|constructor].
  - intros e ps f0 He Hf _ IH. rewrite Forall_forall in IH. destruct (follows_prems _ _ _ _ Hf) as [E1 E2].
    assert (Ns : forall p, In p (efrom e) -> ~ In p (mids c)) by (intros p Hp; rewrite <- E1 in Hp; apply in_map_iff in Hp as [q [<- Hq]]; apply (IH q Hq)).
    assert (Nt : ~ In (eto e) (mids c)) by (intros X; destruct (fc_pred g c FC e He X) as [p [P1 P2]]; apply (Ns p); [rewrite P1; left; reflexivity|exact P2]).
    split; [rewrite E2; exact Nt|]. apply (dfact_follows g' e ps); [apply circle_edges; auto|apply (follows_pv g g' e ps f0 circle_pv); exact Hf|].
    apply Forall_forall. intros q Hq. apply (IH q Hq).
Qed.
Theorem circle_verdict : derivable g exit [] <-> derivable g' exit [].
Proof.
  split; intros D; [exact (proj2 (circle_dfact (exit, []) D))|]. apply (derivable_sub g g' circle_pv (fun e He => proj1 (proj1 (circle_edges e) He)) (exit, [])). exact D.
Qed.
Lemma circle_vertex p : vertex g' p -> vertex g p /\ ~ In p (mids c).
Proof.
  intros [->|[->|[x [Hx Hp]]]]; [split; [left; reflexivity|apply circle_entry]|split; [right; left; reflexivity|apply circle_exit]|].
  apply circle_edges in Hx as [Hx [N1 N2]]. split; [right; right; eauto|]. destruct Hp as [Hp| ->]; [exact (N2 p Hp)|exact N1].
Qed.
Theorem circle_valid check pitp w : only g' w -> back_chain_valid check pitp g (c, se) w = None.
Proof.
  intros O. unfold back_chain_valid. cbn [fst snd]. change (hd entry (efrom se)) with (chain_source c).
  destruct (w (chain_source c)) as [d|] eqn:E; [|reflexivity]. exfalso. destruct (circle_vertex (chain_source c)) as [_ X]; [apply O; congruence|]. exact (X (fc_source g c FC)).
Qed.
Theorem circle_trivial v : is_trivial g' v = true -> is_trivial g v = true.
Proof.
  intros H. apply (is_trivial_spec g' circle_wf) in H as [i [o [Hi Ho Ti Fo Ui Uo [p [Fi [N1 N2]]]]]].
  destruct (proj1 (circle_edges i) Hi) as [Hi' [Mi1 Mi2]]. destruct (proj1 (circle_edges o) Ho) as [Ho' _].
  assert (Nv : ~ In v (mids c)) by (rewrite <- Ti; exact Mi1).
  apply (is_trivial_spec g W). exists i, o. split; auto.
  - intros e He E. apply Ui; [|exact E]. apply circle_edges. split; [exact He|]. rewrite E. split; [exact Nv|]. intros q Hq X.
    apply Nv. rewrite <- E. exact (fc_succ g c FC e q He Hq X).
  - intros e He E. apply Uo; [|exact E]. apply circle_edges. split; [exact He|].
    assert (X : ~ In (eto e) (mids c)). { intros X. destruct (fc_pred g c FC e He X) as [q [Q1 Q2]]. rewrite Q1 in E. destruct E as [<-|[]]. contradiction. }
    split; [exact X|]. intros q Hq Y. exact (X (fc_succ g c FC e q He Hq Y)).
  - eauto.
Qed.
End Circle.
