(** * Chain summarization keeps the infinite runs. *)
From Verif Require Import Syntax Solver TransSys Graph GraphOps GraphOpsProofs ValidatorModel FormulaModel GraphSem SimpleTransModel UnreachProofs UnreachProofs2 SimpleTransProofs SimpleTransProofs2 ListLemmas MergeModel MergeProofs ChainProofs ChainStep ChainBack TermRuns.
From Coq Require Import Relation_Operators.
Open Scope list_scope.
Open Scope nat_scope.

Lemma runs_path g c : forall a fs, c <> [] -> (forall e, In e c -> In e (gedges g)) -> runs g c a fs -> clos_trans_1n _ (gstep g) a (last fs a).
Proof.
  induction c as [|e c IH]; intros a fs N Hc R; [congruence|]. destruct fs as [|b fs]; [destruct R|]. cbn [runs] in R. destruct R as [R1 R2].
  assert (S : gstep g a b) by (exists e; split; [apply Hc; left; reflexivity|exact R1]). destruct c as [|e2 c].
  - destruct fs; [|destruct R2]. apply t1n_step. exact S.
  - eapply t1n_trans; [exact S|]. destruct fs as [|b2 fs]; [destruct R2|].
    change (last (b :: b2 :: fs) a) with (last (b2 :: fs) a). rewrite (last_default (b2 :: fs) a b) by discriminate.
    apply (IH b (b2 :: fs)); [discriminate|intros x Hx; apply Hc; right; exact Hx|exact R2].
Qed.

Section Contract.
Variable elim : elim_fn.
Hypothesis Helim : elim_ok elim.
Variable g : hgraph.
Hypothesis W : wf_graph g.
Hypothesis L : linear g.
Variable c : list hedge.
Hypothesis CT : contractible g c.
Let C := ct_ok g c CT.
Let F := chain_source c.
Let T := chain_target c.
Let g' := fst (contract_chain elim g c).
Let se := snd (contract_chain elim g c).
Lemma along c2 : forall c1 a, c = c1 ++ c2 -> c1 <> [] -> fst a = chain_target c1 -> endless (gstep g) a ->
  exists fs, runs g c2 a fs /\ endless (gstep g) (last fs a).
Proof.
  induction c2 as [|e c2 IH]; intros c1 a Ec N Fa Ea; [exists []; split; [exact I|exact Ea]|].
  destruct (endless_inv _ _ Ea) as [b [[x [Hx Fx]] Eb]]. destruct (follows_from _ _ _ _ Fx) as [F1 F2].
  assert (M : In (fst a) (mids c)) by (rewrite Ec, mids_app by (exact N || discriminate); apply in_app_iff; right; left; symmetry; exact Fa).
  assert (He : In e (gedges g)) by (apply (co_in g c C); rewrite Ec; apply in_app_iff; right; left; reflexivity).
  pose proof (co_linked g c C) as Lk. rewrite Ec in Lk. destruct (linked_app _ _ _ Lk) as [_ L2]. destruct c1 as [|y c1]; [congruence|]. cbn [linked] in L2.
  assert (x = e). { apply (triv_out g W (fst a)); auto; [apply (ct_triv g c CT); exact M|rewrite F1; left; reflexivity|rewrite (proj1 L2), Fa; left; reflexivity]. }
  subst x. destruct (IH ((y :: c1) ++ [e]) b) as [fs [R1 R2]].
  - rewrite <- app_assoc. exact Ec.
  - discriminate.
  - rewrite F2. rewrite (target_last ((y :: c1) ++ [e]) e) by discriminate. rewrite last_app_ne by discriminate. reflexivity.
  - exact Eb.
  - exists (b :: fs). split; [split; assumption|]. destruct fs as [|b2 fs]; [exact R2|].
    change (last (b :: b2 :: fs) a) with (last (b2 :: fs) a). rewrite (last_default (b2 :: fs) a b) by discriminate. exact R2.
Qed.
Theorem contract_runs : runs_forever g <-> runs_forever g'.
Proof.
  split.
  - intros E. apply (endless_coind (gstep g') (fun a => ~ In (fst a) (mids c) /\ endless (gstep g) a)); [|split; [apply (mid_entry g W c CT)|exact E]].
    intros a [Na Ea]. destruct (endless_inv _ _ Ea) as [b [[x [Hx Fx]] Eb]]. destruct (follows_from _ _ _ _ Fx) as [F1 F2].
    destruct (in_chain_dec g W c CT x Hx) as [X|X].
    + (* the first edge of the chain *)
      destruct (linked_ends F c x (co_linked g c C) X) as [[p [P1 P2]] _]. rewrite F1 in P1. injection P1 as P1.
      destruct P2 as [P2|P2]; [|rewrite <- P1 in P2; contradiction]. destruct (ne_cons c (ne g c CT)) as [e0 [c' Ec]].
      pose proof (co_linked g c C) as Lk. fold F in Lk. rewrite Ec in Lk.
      assert (x = e0). { apply (from_uniq g c CT); [exact X|rewrite Ec; left; reflexivity|]. rewrite F1, (proj1 Lk), P1, P2. reflexivity. }
      subst e0. destruct (along c' [x] b Ec) as [fs [R1 R2]]; [discriminate|exact F2|exact Eb|].
      assert (R : runs g c a (b :: fs)) by (rewrite Ec; split; assumption).
      assert (El : last (b :: fs) a = last fs b) by (destruct fs as [|b2 fs]; [reflexivity|change (last (b :: b2 :: fs) a) with (last (b2 :: fs) a); apply last_default; discriminate]).
      exists (last fs b). split; [|split; [|exact R2]].
      * exists se. split; [apply (se_in elim g c CT)|]. apply (follows_pv g g' _ _ _ (pv_contract elim g c)).
        apply (se_follows elim Helim g W c CT). exists (b :: fs). split; [exact R|exact El].
      * assert (G : last (map fst (b :: fs)) F = T).
        { rewrite (runs_targets g c a (b :: fs) R). unfold T. rewrite (target_last c x (ne g c CT)). rewrite Ec. clear. generalize F. 
          assert (Z : forall l d d', l <> [] -> last (map eto l) d = eto (last l d')).
          { induction l as [|u [|v l] IH]; intros d d' N; [congruence|reflexivity|]. cbn [map] in *. change (last (eto u :: eto v :: map eto l) d) with (last (eto v :: map eto l) d).
            rewrite (IH d d') by discriminate. reflexivity. }
          intros d. apply Z. discriminate. }
        assert (Z : forall l (d : fact) d', l <> [] -> last (map fst l) d' = fst (last l d)).
        { clear. induction l as [|u [|v l] IH]; intros d d' N; [congruence|reflexivity|]. cbn [map] in *. change (last (fst u :: fst v :: map fst l) d') with (last (fst v :: map fst l) d').
          rewrite (IH d d') by discriminate. reflexivity. }
        rewrite <- El. assert (Z2 : fst (last (b :: fs) a) = T) by (rewrite <- G; symmetry; apply Z; discriminate).
        change (~ In (fst (last (b :: fs) a)) (mids c)). rewrite Z2. apply (T_mid g c CT).
    + pose proof (kept elim g c CT x Hx X) as K. exists b. split; [exists x; split; [exact K|apply (follows_pv g g' _ _ _ (pv_contract elim g c)); exact Fx]|].
      split; [|exact Eb]. rewrite F2. apply (contract_edges elim g c) in K as [_ [K _]]. exact K.
  - apply endless_path. intros a b [x [Hx Fx]]. apply (follows_pv g g' _ _ _ (pv_contract elim g c)) in Fx. destruct (kept_inv elim g c CT x Hx) as [->|[H _]].
    + apply (se_follows elim Helim g W c CT) in Fx as [fs [R <-]]. apply (runs_path g c a fs (ne g c CT) (co_in g c C) R).
    + apply t1n_step. exists x. auto.
Qed.
Theorem contract_linear : linear g'.
Proof.
  split; intros x Hx; destruct (kept_inv elim g c CT x Hx) as [->|[H _]].
  - exists F. reflexivity.
  - apply (ln_single g L x H).
  - change (eto (snd (contract_chain elim g c))) with (chain_target c). rewrite (target_last c se (ne g c CT)). apply (ln_noexit g L), (co_in g c C), last_in_ne, (ne g c CT).
  - apply (ln_noexit g L x H).
Qed.
End Contract.

Theorem circle_runs elim g c : wf_graph g -> full_circle g c -> (runs_forever g <-> runs_forever (fst (contract_chain elim g c))).
Proof.
  intros W FC. apply sub_runs; [apply circle_pv|intros e He; apply (circle_edges elim g c FC) in He; tauto|].
  intros e a b He F D _. destruct (follows_from _ _ _ _ F) as [F1 F2]. apply (circle_edges elim g c FC). split; [exact He|].
  pose proof (proj1 (circle_dfact elim g W c FC a D)) as Na.
  pose proof (proj1 (circle_dfact elim g W c FC b (gstep_dfact g a b (ex_intro _ e (conj He F)) D))) as Nb. rewrite F2 in Nb.
  split; [exact Nb|]. rewrite F1. intros p [<-|[]]. exact Na.
Qed.

Section Loop.
Variable elim : elim_fn.
Hypothesis Helim : elim_ok elim.
Variable vertices : hgraph -> list sym.
Theorem summarize_runs fuel : forall g g' cs, wf_graph g -> linear g -> summarize_loop elim vertices fuel g = Some (g', cs) ->
  (runs_forever g <-> runs_forever g') /\ linear g'.
Proof.
  induction fuel as [|fuel IH]; intros g g' cs W L H; [discriminate|]. cbn [summarize_loop] in H.
  destruct (find (is_trivial g) (vertices g)) as [v|] eqn:Ev; [|injection H as <- <-; split; [tauto|exact L]].
  apply find_some in Ev as [_ Tv]. destruct (trivial_chain g v) as [ids|] eqn:Ec; [|discriminate].
  destruct (trivial_chain_ok g W v ids Tv Ec) as [c [-> [Em CF]]]. rewrite Em in H.
  destruct (contract_chain elim g c) as [g1 se] eqn:EC. destruct (summarize_loop elim vertices fuel g1) as [[g2 cs2]|] eqn:EL; [|discriminate].
  cbn in H. injection H as <- <-. assert (Eg1 : g1 = fst (contract_chain elim g c)) by (rewrite EC; reflexivity).
  assert (W1 : wf_graph g1) by (rewrite Eg1; destruct CF as [CT|FC]; [apply contract_wf; assumption|apply circle_wf; assumption]).
  assert (R1 : (runs_forever g <-> runs_forever g1) /\ linear g1).
  { rewrite Eg1. destruct CF as [CT|FC]; [split; [apply contract_runs; assumption|apply contract_linear; assumption]|].
    split; [apply circle_runs; assumption|]. apply (linear_sub g _ L). intros e He. apply (circle_edges elim g c FC) in He. tauto. }
  destruct R1 as [R1 L1]. destruct (IH g1 g2 cs2 W1 L1 EL) as [R2 L2]. split; [rewrite R1; exact R2|exact L2].
Qed.
End Loop.
