(** * Edge inlining: one edge. *)
From Verif Require Import Syntax Solver TransSys Graph GraphOps GraphOpsProofs ValidatorModel ValidatorProofs FormulaModel FormulaProofs FormulaProofs2 GraphSem Names SimpleTransModel UnreachProofs UnreachProofs2 SimpleTransProofs SimpleTransProofs2 ListLemmas MergeModel MergeProofs ChainProofs ChainStep ChainBack PairProofs PairLabel ElimModel ElimProofs InlineModel.
Open Scope list_scope.
Open Scope nat_scope.

(** ** Known values *)
Lemma known_of_sound c v x r : known_of c v = Some x -> holds r c -> eval r (Var v) = x.
Proof.
  unfold known_of. destruct c as [u|k|f ts].
  - destruct (var_eqb_spec u v) as [->|]; [|discriminate]. intros E H. injection E as <-. unfold holds, holdsb in H.
    destruct (eval r (Var v)) as [[]| |]; try discriminate. reflexivity.
  - discriminate.
  - destruct f; try discriminate.
    + destruct ts as [|t [|]]; try discriminate; destruct t as [u| |]; try discriminate. destruct (var_eqb_spec u v) as [->|]; [|discriminate].
      destruct (sort_eqb_spec (vsort v) SBool) as [Es|]; [|discriminate]. intros E H. injection E as <-. apply holds_not in H.
      pose proof (coerce_sort (vsort v) (r v)) as Hs. rewrite Es in Hs at 2. unfold holds, holdsb in H. cbn [eval] in *.
      destruct (coerce (vsort v) (r v)) as [[]| |]; try discriminate; [|reflexivity]. destruct (H eq_refl).
    + destruct ts as [|a ts]; [discriminate|]. destruct ts as [|b [|]]; [destruct a; discriminate| |destruct a; try discriminate; destruct b; discriminate].
      intros E H. apply holds_eq in H. destruct a as [u|k|]; try discriminate; destruct b as [u'|k'|]; try discriminate.
      * destruct (var_eqb_spec u v) as [->|]; [|discriminate]. injection E as <-. exact H.
      * destruct (var_eqb_spec u' v) as [->|]; [|discriminate]. injection E as <-. symmetry. exact H.
Qed.
Lemma conjuncts_hold r t : holds r t -> Forall (holds r) (conjuncts t).
Proof.
  unfold conjuncts. destruct (top_juncts_ok Conj t) as [out [-> E]]. intros H. apply (E r) in H. cbn [mkJunction] in H. apply holds_and, H.
Qed.
Lemma known_value_sound t v x r : known_value t v = Some x -> holds r t -> eval r (Var v) = x.
Proof.
  unfold known_value. intros E H. apply conjuncts_hold in H. revert E H. generalize (conjuncts t) as l. intros l E H.
  assert (G : forall acc, (forall y, acc = Some y -> eval r (Var v) = y) -> fold_left (fun acc c => match known_of c v with Some x => Some x | None => acc end) l acc = Some x -> eval r (Var v) = x).
  { clear E. induction H as [|c l Hc _ IH]; intros acc Ha E; cbn [fold_left] in E; [apply Ha, E|].
    apply (IH _) in E; [exact E|]. destruct (known_of c v) as [y|] eqn:K; [|exact Ha]. intros z Ez. injection Ez as <-. apply (known_of_sound c v y r K Hc). }
  apply (G None); [discriminate|exact E].
Qed.
Lemma args_map_in r1 r2 (f1 f2 : var -> var) l b : args r1 (map f1 l) = args r2 (map f2 l) -> In b l -> eval r1 (Var (f1 b)) = eval r2 (Var (f2 b)).
Proof.
  unfold args. rewrite !map_map. induction l as [|a l IH]; intros E H; [destruct H|]. cbn [map] in E. injection E as E1 E2. destruct H as [->|H]; [exact E1|auto].
Qed.
(** An edge and a predecessor that is not feasible do not compose. *)
Lemma infeasible g e x s ps mf f : efrom e = [s] -> eto x = s -> not_false x && may_follow g e x = false ->
  follows g x ps mf -> follows g e [mf] f -> False.
Proof.
  intros Fe Tx H Fx Ff. destruct Fx as [r1 [H1 [_ E1]]]. apply (follows_single g e s mf f Fe) in Ff as [r2 [H2 [E2 _]]].
  apply andb_false_iff in H as [H|H].
  - unfold not_false in H. apply negb_false_iff in H. apply term_eqb_iff in H. rewrite H in H1. exact (holds_false r1 H1).
  - unfold may_follow in H. rewrite Fe in H. cbn [hd] in H.
    assert (X : exists b, In b (gpv g s) /\ compatible (known_value (efla e) (src 0 b)) (known_value (efla x) (tgt b)) = false).
    { revert H. generalize (gpv g s). intros l. induction l as [|b l IH]; [discriminate|]. cbn [forallb]. intros H. apply andb_false_iff in H as [H|H]; [exists b; split; [left; reflexivity|exact H]|].
      destruct (IH H) as [c [Hc Q]]. exists c. split; [right; exact Hc|exact Q]. }
    destruct X as [b [Hb Hc]]. unfold compatible in Hc. destruct (known_value (efla e) (src 0 b)) as [a|] eqn:Ka; [|discriminate]. destruct (known_value (efla x) (tgt b)) as [c|] eqn:Kc; [|discriminate].
    pose proof (known_value_sound _ _ _ r2 Ka H2) as Q1. pose proof (known_value_sound _ _ _ r1 Kc H1) as Q2.
    rewrite E1, Tx in E2. injection E2 as E2. unfold tgt_vars, src_vars in E2. cbn [fst snd] in E2. pose proof (args_map_in r1 r2 _ _ _ b E2 Hb) as Q3.
    rewrite Q1, Q2 in Q3. destruct (value_eqb_spec a c); congruence.
Qed.

Lemma incoming_eq g v : wf_graph g -> incoming_of g v = ins g v.
Proof. intros W. unfold incoming_of. rewrite (find_ins g W v). reflexivity. Qed.
(** Predecessors outside the feasible list do not compose with the edge. *)
Lemma not_feasible g e s x ps mf f : efrom e = [s] -> In x (ins g s) -> ~ In x (feasible g (ins g s) e) ->
  follows g x ps mf -> follows g e [mf] f -> False.
Proof.
  intros Fe Hx N Fx Ff. assert (Tx : eto x = s) by (apply ins_in in Hx; tauto). apply (infeasible g e x s ps mf f Fe Tx); try assumption.
  unfold feasible in N. destruct (ins g s) as [|y [|z l]] eqn:E; [destruct Hx| |].
  - destruct Hx as [->|[]]. destruct (not_false x); [exfalso; apply N; left; reflexivity|reflexivity].
  - rewrite filter_In in N. destruct (not_false x && may_follow g e x); [exfalso; apply N; auto|reflexivity].
Qed.
Lemma feasible_in g e s x : In x (feasible g (ins g s) e) -> In x (ins g s).
Proof.
  unfold feasible. destruct (ins g s) as [|y [|z l]]; [intros []| |intros H; apply filter_In in H; tauto].
  destruct (not_false y); [auto|intros []].
Qed.

(** ** Edges without base variables in their labels *)
Definition unbased (g : hgraph) : Prop := forall e v, In e (gedges g) -> In v (vars (efla e)) -> vtag v <> TBase.
Lemma delete_edges g i e : In e (gedges (delete_edge i g)) <-> In e (gedges g) /\ eid e <> i.
Proof. unfold delete_edge, filter_edges. cbn [gedges]. rewrite filter_In, negb_true_iff, Nat.eqb_neq. tauto. Qed.

(** Facts of [g] with their last inference. *)
Lemma dfact_last g (P : fact -> Prop) : (forall e ps f, In e (gedges g) -> follows g e ps f -> Forall P ps -> Forall (fun f => f = (entry, []) \/ exists e ps, In e (gedges g) /\ follows g e ps f /\ Forall P ps) ps -> P f) -> P (entry, []) ->
  forall f, dfact g f -> P f.
Proof.
  intros HS H0 f D. assert (X : P f /\ (f = (entry, []) \/ exists e ps, In e (gedges g) /\ follows g e ps f /\ Forall P ps)); [|exact (proj1 X)].
  revert f D. apply dfact_ind; [split; [exact H0|left; reflexivity]|]. intros e ps f He F _ IH.
  assert (I1 : Forall P ps) by (eapply Forall_impl; [|exact IH]; intros a [A _]; exact A).
  split; [|right; exists e, ps; auto]. apply (HS e ps f He F I1). eapply Forall_impl; [|exact IH]. intros a [_ A]. exact A.
Qed.

Section Step.
Variable elim : elim_fn.
Hypothesis Helim : elim_ok elim.
Variable fresh : nat.
Variable g : hgraph.
Hypothesis W : wf_graph g.
Hypothesis U : unbased g.
Variable e : hedge.
Hypothesis He : In e (gedges g).
Variable s : sym.
Hypothesis Fe : efrom e = [s].
Hypothesis Ns : s <> entry.
Let R := wf_rep g W.

Lemma entry_args (f : fact) : fst f = s -> f <> (entry, []).
Proof. intros E ->. cbn in E. congruence. Qed.

(** *** Deletion *)
Section Deletion.
Hypothesis Inf : feasible g (ins g s) e = [].
Let g' := delete_edge (eid e) g.
Lemma del_verdict f : dfact g f <-> dfact g' f.
Proof.
  split; [|apply derivable_sub; [reflexivity|intros x Hx; apply delete_edges in Hx; tauto]].
  revert f. apply dfact_last; [|constructor]. intros x ps f Hx F H1 H2. destruct (Nat.eq_dec (eid x) (eid e)) as [E|N].
  - apply (wf_edge_eq g x e W Hx He) in E. subst x. exfalso.
    destruct (follows_prems g e ps f F) as [Fp _]. rewrite Fe in Fp. destruct ps as [|mf [|]]; try discriminate. injection Fp as Fp.
    destruct (Forall_inv H2) as [X|[x [ps' [Hx' [F' _]]]]]; [exact (entry_args mf Fp X)|].
    assert (Tx : eto x = s) by (destruct (follows_prems g x ps' mf F'); congruence).
    apply (not_feasible g e s x ps' mf f Fe); [apply ins_in; auto|rewrite Inf; intros []|exact F'|exact F].
  - apply (dfact_follows g' x ps f); [apply delete_edges; auto|exact F|exact H1].
Qed.
Lemma del_wf : wf_graph g'.
Proof. apply wf_filter, W. Qed.
End Deletion.

(** *** Replacement *)
Section Replacement.
Variable p : hedge.
Hypothesis Fea : feasible g (ins g s) e = [p].
Variable q : sym.
Hypothesis Fp : efrom p = [q].
Hypothesis Nq : q <> eto p.
Lemma p_in : In p (gedges g) /\ eto p = s.
Proof. apply ins_in. apply (feasible_in g e s). rewrite Fea. left. reflexivity. Qed.
Lemma p_pair : pair_ok g p e q [] [].
Proof. destruct p_in as [H T]. split; auto; cbn; rewrite ?T; auto. Qed.
Let g1 := fst (merge_pair elim fresh g p e).
Let a := snd (merge_pair elim fresh g p e).
Let g' := delete_edge (eid e) g1.
Lemma rep_facts : wf_graph g1 /\ gpv g1 = gpv g /\ gedges g1 = gedges g ++ [a] /\ eid a = gfree g /\ efrom a = [q] /\ eto a = eto e /\
  (forall x, vertex g1 x <-> vertex g x) /\ forall sf f, follows g a [sf] f <-> exists mf, follows g p [sf] mf /\ follows g e [mf] f.
Proof.
  destruct (merge_pair_ok elim Helim fresh g W p e q [] [] p_pair) as [A1 [A2 [A3 [A4 [A5 [A6 [A7 [A8 A9]]]]]]]]. fold g1 in A1, A2, A3, A4, A8. fold a in A3, A5, A6, A7, A9.
  repeat (split; [assumption|]). split; [rewrite A6; unfold new_from; cbn [app]; destruct (Nat.eqb_spec q entry) as [->|]; reflexivity|].
  split; [exact A7|]. split; [exact A8|]. intros sf f. rewrite A9. unfold composed. cbn [app]. split.
  - intros [sf' [mf [ps1 [ps2 [H1 [H2 [E1 [E2 E3]]]]]]]]. destruct ps1; [|discriminate]. destruct ps2; [|discriminate]. cbn [app] in *.
    assert (sf = sf') as -> by (destruct (Nat.eqb q entry); congruence). exists mf. auto.
  - intros [mf [H1 H2]]. exists sf, mf, [], []. cbn [app map]. split; [exact H1|]. split; [exact H2|]. destruct (Nat.eqb q entry); auto.
Qed.
Lemma rep_edges x : In x (gedges g') <-> (In x (gedges g) /\ x <> e) \/ x = a.
Proof.
  destruct rep_facts as [W1 [_ [E1 [Ia _]]]]. unfold g'. rewrite delete_edges, E1, in_app_iff. cbn [In].
  assert (Q : In a (gedges g1)) by (rewrite E1; apply in_app_iff; right; left; reflexivity).
  assert (Ne : eid a <> eid e) by (pose proof (wf_idlt g W e He); lia).
  split.
  - intros [[H|[<-|[]]] N]; [left; split; [exact H|intros ->; congruence]|right; reflexivity].
  - intros [[H N]| ->]; [|split; [auto|exact Ne]]. split; [auto|]. intros E. apply N, (wf_edge_eq g x e W H He E).
Qed.
Lemma rep_wf' : wf_graph g' /\ gpv g' = gpv g.
Proof. destruct rep_facts as [W1 [E _]]. split; [apply wf_filter, W1|exact E]. Qed.
Lemma rep_verdict f : dfact g f <-> dfact g' f.
Proof.
  destruct rep_facts as [W1 [PV [E1 [Ia [Fa [Ta [_ Fo]]]]]]]. destruct rep_wf' as [_ PV']. split.
  - revert f. apply dfact_last; [|constructor]. intros x ps f Hx F H1 H2. destruct (Nat.eq_dec (eid x) (eid e)) as [E|N].
    + apply (wf_edge_eq g x e W Hx He) in E. subst x.
      destruct (follows_prems g e ps f F) as [Fq _]. rewrite Fe in Fq. destruct ps as [|mf [|]]; try discriminate. injection Fq as Fq.
      destruct (Forall_inv H2) as [X|[x [ps' [Hx' [F' Hp']]]]]; [exfalso; exact (entry_args mf Fq X)|].
      assert (Tx : eto x = s) by (destruct (follows_prems g x ps' mf F'); congruence).
      destruct (Nat.eq_dec (eid x) (eid p)) as [Ex|Nx].
      * apply (wf_edge_eq g x p W Hx' (proj1 p_in)) in Ex. subst x. destruct (follows_prems g p ps' mf F') as [Fq' _]. rewrite Fp in Fq'. destruct ps' as [|sf [|]]; try discriminate.
        apply (dfact_follows g' a [sf] f); [apply rep_edges; auto| |exact Hp']. apply (follows_pv g g' a); [exact PV'|]. apply Fo. exists mf. auto.
      * exfalso. apply (not_feasible g e s x ps' mf f Fe); [apply ins_in; auto| |exact F'|exact F]. rewrite Fea. intros [<-|[]]. congruence.
    + apply (dfact_follows g' x ps f); [apply rep_edges; left; split; [exact Hx|congruence]| |exact H1]. apply (follows_pv g g' x); [exact PV'|exact F].
  - revert f. apply dfact_ind; [constructor|]. intros x ps f Hx F _ IH. apply (follows_pv g g' x _ _ PV') in F. apply rep_edges in Hx as [[Hx _]| ->]; [apply (dfact_follows g x ps f Hx F IH)|].
    destruct (follows_prems g a ps f F) as [Fq _]. rewrite Fa in Fq. destruct ps as [|sf [|]]; try discriminate. apply Fo in F as [mf [H1 H2]].
    apply (dfact_follows g e [mf] f He H2). constructor; [|constructor]. apply (dfact_follows g p [sf] mf (proj1 p_in) H1 IH).
Qed.
Variable check : check_fn.
Hypothesis Hck : check_ok check.
Lemma exit_not_source : s <> exit.
Proof. intros ->. apply (wf_exit g W e He). rewrite Fe. left. reflexivity. Qed.
Lemma rep_invalid fuel d d' : error_derivation g' d -> back_chain_invalid check g fuel ([p; e], a) d = Some d' -> error_derivation g d'.
Proof.
  intros D H. destruct rep_facts as [W1 [PV [E1 [Ia [Fa [Ta [_ Fo]]]]]]]. destruct p_in as [Hp Tp].
  assert (D1 : error_derivation g1 d) by (revert D; apply error_derivation_sub; [reflexivity|intros x Hx; unfold g' in Hx; apply delete_edges in Hx; tauto]).
  assert (CS : chain_source [p; e] = q) by (cbn [chain_source]; rewrite Fp; reflexivity).
  destruct (back_chain_invalid_ok check (check_sat check Hck) g R [p; e] (le_n 2)) with (se := a) (G := g1) (fuel := fuel) (d := d) (d' := d') as [D2 N]; auto.
  - rewrite CS. cbn [linked]. rewrite Tp. auto.
  - cbn [mids removelast map In]. intros [X|[]]. apply exit_not_source. congruence.
  - rewrite CS. exact Fa.
  - intros x [<-|[<-|[]]]; rewrite E1; apply in_app_iff; auto.
  - pose proof (wf_idlt g W e He). unfold no_id in *. lia.
  - intros x Hx E. apply (wf_edge_eq g1 x a W1 Hx); [rewrite E1; apply in_app_iff; right; left; reflexivity|exact E].
  - destruct D2 as [[R1 R2 R3] F1 L1]. split; [split|..]; auto. intros i st Hi Hs. destruct (R3 i st Hi Hs) as [x [ps [Hx [Hid [HF HL]]]]].
    exists x, ps. split; [|split; [exact Hid|split; [exact HF|apply (follows_pv g g1 x _ _ PV); exact HL]]].
    rewrite E1 in Hx. apply in_app_iff in Hx as [Hx|[<-|[]]]; [exact Hx|]. exfalso. apply (N i st Hs). congruence.
Qed.
End Replacement.
End Step.
