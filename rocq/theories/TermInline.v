(** * Edge inlining keeps the infinite runs. *)
From Verif Require Import Syntax Solver TransSys Graph GraphOps GraphOpsProofs ValidatorModel FormulaModel GraphSem SimpleTransModel UnreachProofs UnreachProofs2 SimpleTransProofs SimpleTransProofs2 ListLemmas MergeModel MergeProofs ChainProofs ChainStep ChainBack ElimModel PairProofs PairLabel ElimProofs InlineModel InlineProofs InlineStep TermRuns TermElim.
From Coq Require Import Relation_Operators.
Open Scope list_scope.
Open Scope nat_scope.

Lemma dfact_inv g f : dfact g f -> f = (entry, []) \/ exists x ps, In x (gedges g) /\ follows g x ps f.
Proof. revert f. apply dfact_ind; [auto|]. intros e ps f He F _ _. right. exists e, ps. auto. Qed.
Section Step.
Variable elim : elim_fn.
Hypothesis Helim : elim_ok elim.
Variable fresh : nat.
Variable g : hgraph.
Hypothesis W : wf_graph g.
Hypothesis L : linear g.
Variable e : hedge.
Hypothesis He : In e (gedges g).
Variable s : sym.
Hypothesis Fe : efrom e = [s].
Hypothesis Ns : s <> entry.
Theorem delete_runs : feasible g (ins g s) e = [] -> (runs_forever g <-> runs_forever (delete_edge (eid e) g)).
Proof.
  intros Inf. apply sub_runs; [reflexivity|intros x Hx; apply delete_edges in Hx; tauto|]. intros x a b Hx F D _. apply delete_edges. split; [exact Hx|].
  intros E. apply (wf_edge_eq g x e W Hx He) in E. subst x. destruct (follows_from _ _ _ _ F) as [F1 _]. rewrite Fe in F1. injection F1 as F1.
  destruct (dfact_inv g a D) as [->|[x [ps [Hx' Fx]]]]; [cbn in F1; congruence|].
  apply (not_feasible g e s x ps a b Fe); [apply ins_in; split; [exact Hx'|destruct (follows_prems _ _ _ _ Fx); congruence]|rewrite Inf; intros []|exact Fx|exact F].
Qed.
Section Replacement.
Variable p : hedge.
Hypothesis Fea : feasible g (ins g s) e = [p].
Variable q : sym.
Hypothesis Fp : efrom p = [q].
Hypothesis Nq : q <> eto p.
Let a := snd (merge_pair elim fresh g p e).
Let g' := delete_edge (eid e) (fst (merge_pair elim fresh g p e)).
(** Only the predecessor [p] can be followed by [e]. *)
Lemma only_p x m b c : In x (gedges g) -> follows g x [m] b -> follows g e [b] c -> x = p.
Proof.
  intros Hx F1 F2. destruct (follows_from _ _ _ _ F1) as [_ A]. destruct (follows_from _ _ _ _ F2) as [B _]. rewrite Fe in B. injection B as B.
  destruct (Nat.eq_dec (eid x) (eid p)) as [E|N]; [apply (wf_edge_eq g x p W Hx (proj1 (p_in g e s p Fea)) E)|].
  exfalso. apply (not_feasible g e s x [m] b c Fe); [apply ins_in; split; congruence| |exact F1|exact F2]. rewrite Fea. intros [->|[]]. congruence.
Qed.
Lemma p_not_e : p <> e.
Proof. destruct (p_in g e s p Fea) as [_ T]. intros ->. rewrite Fe in Fp. injection Fp as <-. congruence. Qed.
Theorem replace_runs : runs_forever g <-> runs_forever g'.
Proof.
  destruct (rep_facts elim Helim fresh g W e He s Fe p Fea q Fp Nq) as [W1 [PV [E1 [Ia [Fa [Ta [_ Fo]]]]]]].
  destruct (rep_wf' elim Helim fresh g W e He s Fe p Fea q Fp Nq) as [_ PV'].
  pose proof (rep_edges elim Helim fresh g W e He s Fe Ns p Fea q Fp Nq) as RE. fold a in Fa, Ta, Fo, RE. fold g' in PV', RE.
  assert (Dec : forall x, In x (gedges g) -> x = e \/ x <> e).
  { intros x Hx. destruct (Nat.eq_dec (eid x) (eid e)) as [E|N]; [left; apply (wf_edge_eq g x e W Hx He E)|right; congruence]. }
  split.
  - intros R. apply (endless_coind (gstep g') (fun m => exists x b, In x (gedges g) /\ x <> e /\ follows g x [m] b /\ endless (gstep g) b)).
    + intros m [x [b [Hx [Nx [Fx Eb]]]]]. destruct (endless_inv _ _ Eb) as [c [[y [Hy Fy]] Ec]]. destruct (Dec y Hy) as [->|Ny].
      * pose proof (only_p x m b c Hx Fx Fy) as ->. exists c. split.
        -- exists a. split; [apply RE; auto|]. apply (follows_pv g g' _ _ _ PV'). apply Fo. eauto.
        -- destruct (endless_inv _ _ Ec) as [d [[z [Hz Fz]] Ed]]. destruct (Dec z Hz) as [->|Nz]; [|exists z, d; auto].
           exfalso. apply p_not_e. symmetry. exact (only_p e b c d He Fy Fz).
      * exists b. split; [exists x; split; [apply RE; auto|apply (follows_pv g g' _ _ _ PV'); exact Fx]|]. exists y, c. auto.
    + destruct (endless_inv _ _ R) as [b [[x [Hx Fx]] Eb]]. exists x, b. repeat (split; [assumption|]). split; [|auto].
      intros ->. apply follows_from in Fx as [X _]. rewrite Fe in X. injection X as X. exact (Ns X).
  - apply endless_path. intros m b [x [Hx Fx]]. apply (follows_pv g g' _ _ _ PV') in Fx. apply RE in Hx as [[Hx _]| ->]; [apply t1n_step; exists x; auto|].
    apply Fo in Fx as [c [F1 F2]]. eapply t1n_trans; [|apply t1n_step]; [exists p; split; [apply (proj1 (p_in g e s p Fea))|exact F1]|exists e; auto].
Qed.
Theorem replace_linear : linear g'.
Proof.
  destruct (rep_facts elim Helim fresh g W e He s Fe p Fea q Fp Nq) as [W1 [PV [E1 [Ia [Fa [Ta [_ Fo]]]]]]].
  pose proof (rep_edges elim Helim fresh g W e He s Fe Ns p Fea q Fp Nq) as RE. fold a in Fa, Ta, Fo, RE. fold g' in RE.
  split; intros x Hx; apply RE in Hx as [[Hx _]| ->]; [apply (ln_single g L x Hx)|eauto|apply (ln_noexit g L x Hx)|rewrite Ta; apply (ln_noexit g L e He)].
Qed.
End Replacement.
End Step.
Section Loop.
Variable elim : elim_fn.
Hypothesis Helim : elim_ok elim.
Variable fresh : nat.
Lemma inline_one_runs g e g' x : wf_graph g -> linear g -> In e (gedges g) -> inline_one elim fresh g e = Some (g', x) ->
  (runs_forever g <-> runs_forever g') /\ linear g'.
Proof.
  intros W L He H. unfold inline_one in H. destruct (efrom e) as [|s [|]] eqn:Fe; try discriminate. destruct (Nat.eqb_spec s entry) as [|Ns]; [discriminate|].
  rewrite (incoming_eq g s W) in H. destruct (feasible g (ins g s) e) as [|p [|]] eqn:Fea; try discriminate.
  - injection H as <- _. split; [apply (delete_runs g W e He s Fe Ns Fea)|]. apply (linear_sub g _ L). intros y Hy. apply delete_edges in Hy. tauto.
  - destruct (efrom p) as [|q [|]] eqn:Fp; try discriminate. destruct (Nat.eqb_spec q (eto p)) as [|Nq]; [discriminate|].
    unfold inline_edge in H. destruct (merge_pair elim fresh g p e) as [g1 a] eqn:Em. injection H as <- _.
    pose proof (replace_runs elim Helim fresh g W e He s Fe Ns p Fea q Fp Nq) as A. pose proof (replace_linear elim Helim fresh g W L e He s Fe Ns p Fea q Fp Nq) as B.
    rewrite Em in A, B. cbn [fst] in A, B. auto.
Qed.
Variable check : check_fn.
Hypothesis Hck : check_ok check.
Variable itp : itp_fn.
Hypothesis Hitp : itp_ok itp.
Lemma inline_pass_runs : forall es g g' l, wf_graph g -> unbased g -> linear g -> (forall e, In e es -> In e (gedges g)) -> NoDup (map eid es) ->
  inline_pass elim fresh g es = (g', l) -> (runs_forever g <-> runs_forever g') /\ linear g'.
Proof.
  induction es as [|e es IH]; intros g g' l W U L Hes N H; cbn [inline_pass] in H; [injection H as <- <-; split; [tauto|exact L]|].
  cbn [map] in N. inversion N as [|? ? Ne N']; subst. destruct (inline_one elim fresh g e) as [[g1 x]|] eqn:E1.
  - destruct (inline_pass elim fresh g1 es) as [g2 l2] eqn:E2. injection H as <- <-.
    destruct (inline_one_ok elim Helim fresh check Hck itp Hitp g e g1 x W U (Hes e (or_introl eq_refl)) E1) as [I1 [Sub _]].
    destruct (inline_one_runs g e g1 x W L (Hes e (or_introl eq_refl)) E1) as [R1 L1].
    destruct (IH g1 g2 l2 (in_wf _ _ _ _ _ I1) (in_unbased _ _ _ _ _ I1) L1) as [R2 L2]; [|exact N'|exact E2|split; [rewrite R1; exact R2|exact L2]].
    intros y Hy. apply Sub; [apply Hes; right; exact Hy|]. intros ->. apply Ne, in_map, Hy.
  - apply (IH g g' l W U L); auto. intros y Hy. apply Hes. right. exact Hy.
Qed.
Theorem inline_runs : forall fuel g g' l, wf_graph g -> unbased g -> linear g -> inline_loop elim fresh fuel g = Some (g', l) ->
  (runs_forever g <-> runs_forever g') /\ linear g'.
Proof.
  induction fuel as [|fuel IH]; intros g g' l W U L H; [discriminate|]. cbn [inline_loop] in H.
  destruct (inline_pass elim fresh g (gedges g)) as [g1 l1] eqn:E1.
  destruct (inline_pass_runs _ g g1 l1 W U L (fun e He => He) (wf_ids g W) E1) as [R1 L1].
  pose proof (inline_pass_ok elim Helim fresh check Hck itp Hitp _ g g1 l1 W U (fun e He => He) (wf_ids g W) E1) as I1.
  destruct l1 as [|x l1]; [injection H as <- <-; auto|]. destruct (inline_loop elim fresh fuel g1) as [[g2 l2]|] eqn:E2; [|discriminate]. injection H as <- <-.
  destruct (IH g1 g2 l2 (in_wf _ _ _ _ _ I1) (in_unbased _ _ _ _ _ I1) L1 E2) as [R2 L2]. split; [rewrite R1; exact R2|exact L2].
Qed.
End Loop.
