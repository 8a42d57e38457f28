(** * C57: bounded model checking of linear graphs. *)
From Coq Require Import Permutation.
From Verif Require Import Syntax Solver TransSys TSLemmas KindModel KindProofs Graph GraphOps GraphOpsProofs DfsProofs GraphSem GraphEx SimpleTransModel MergeModel MergeProofs LinearModel LinearProofs LinearPath LinearTS PropGraph PropChain PropLinear ContractModel NontermProofs SingleLoopProofs SingleLoopPath PropSingleLoop BmcImcModel BmcImcProofs BmcGraphModel BmcGraphProofs BoolOracle.
Open Scope list_scope.
Open Scope nat_scope.

(** Specification: [false] is derivable by [n] consecutive clause applications. *)
Definition error_run (g : lgraph) (n : nat) : Prop := exists es, length es = n /\ lruns g es (entry, []) (exit, []).
Lemma error_run_derivable g n : error_run g n -> lderivable g (exit, []).
Proof. intros [es [_ R]]. apply (lruns_derivable g es _ _ R). constructor. Qed.

(** UNSAFE after [n] levels: [false] is derivable in [n] steps, and in no fewer unless a query was not answered; a derivation that is
    returned is a refutation of length [n], an exception means the solver gave up on the path's formula, and the witness is never
    empty.  Exploring [fuel] levels without an answer excludes all derivations of at most that length. *)
Theorem C57_bmc_graph :
  forall check g needs_witness fuel, check_ok check -> lwf g ->
    match bmc_graph check g needs_witness fuel with
    | (GUnsafe w n, unknown) =>
        error_run g n /\ lderivable g (exit, []) /\ n <= fuel /\
        (unknown = false -> forall i, i < n -> ~ error_run g i) /\
        match w with
        | None => needs_witness = false
        | Some (PathDerivation d) => lrefutation g d /\ length d = S n
        | Some PathThrows => exists q, check q = UNKNOWN
        | Some NoPath => False
        end
    | (GFuel, unknown) => unknown = false -> forall i, i <= fuel -> ~ error_run g i
    end.
Proof.
  intros check g nw fuel Hc W. destruct (bmc_graph check g nw fuel) as [res u] eqn:E.
  apply (bmcg_loop_spec g W check Hc nw fuel 0) in E as [_ H].
  assert (N0 : forall i, i <= 0 -> no_run g i) by (intros i L; assert (i = 0) by lia; subst i; apply no_run_0).
  destruct res as [w n|].
  - destruct H as [H1 [H2 [[F1 F2] H3]]]. split; [exact F1|]. split; [apply (error_run_derivable g n), F1|]. split; [exact H2|]. split.
    + intros U i L [es [Le R]]. apply (H3 U N0 i L es Le R).
    + destruct w as [[| |d]|]; [exact F2|apply F2| |exact F2]. split; apply F2.
  - intros U i L [es [Le R]]. apply (H U N0 i L es Le R).
Qed.
Print Assumptions C57_bmc_graph.

(** Every derivable error is found, unless the solver gives up on some query before. *)
Theorem C57_finds_errors :
  forall check g needs_witness, check_ok check -> lwf g -> lderivable g (exit, []) ->
    exists n, forall fuel, n <= fuel ->
      match bmc_graph check g needs_witness fuel with
      | (GUnsafe _ _, _) => True
      | (GFuel, unknown) => unknown = true
      end.
Proof.
  intros check g nw Hc W D. destruct (derivable_lruns g _ D) as [es R]. exists (length es). intros fuel L.
  pose proof (C57_bmc_graph check g nw fuel Hc W) as H. destruct (bmc_graph check g nw fuel) as [[w n|] u]; [exact I|].
  destruct u; [reflexivity|]. exfalso. apply (H eq_refl (length es) L). exists es. auto.
Qed.
Print Assumptions C57_finds_errors.

Lemma bmc_ts_ok check fuel ts : check_ok check -> ts_wf ts = true -> ts_answer_ok ts (bmc_ts check fuel ts).
Proof.
  intros Hc Wf. unfold bmc_ts, bmc.
  assert (G : forall f k u, match fst (bmc_loop check f k u ts) with Safe _ => False | Unsafe n => error_path ts n | _ => True end).
  { induction f as [|f IH]; intros k u; cbn [bmc_loop]; [exact I|]. destruct (check (base_query ts k)) as [m| |] eqn:E; [|apply IH|apply IH].
    cbn. apply (check_sat _ Hc) in E. eapply base_sat; eauto. }
  destruct (check [tinit ts]) eqn:E.
  - specialize (G fuel 0 false). destruct (fst (bmc_loop check fuel 0 false ts)); cbn; tauto || exact I.
  - cbn. apply (check_unsat _ Hc) in E. split.
    + intros v [].
    + intros s [r [_ Hr]]. exfalso. apply (E r). constructor; [exact Hr|constructor].
    + intros s s' H. discriminate H.
    + intros s H. discriminate H.
  - specialize (G fuel 0 false). destruct (fst (bmc_loop check fuel 0 false ts)); cbn; tauto || exact I.
Qed.
(** The whole engine: trivial graphs, transition systems, general graphs and, with the option that forces it, the single-loop
    transformation.  An answer comes with a solution (a refutation) of the graph. *)
Theorem C57_bmc_engine :
  forall elim qe simp nv nid ctr ord check force fuel g,
    elim_ok elim -> check_ok check -> lwf g -> all_reachable g ->
    (force = true -> qe_ok qe /\ simp_ok simp /\ sl_input g /\ no_parallel g /\ fresh_in g nv nid /\ forall l, Permutation (ord l) l) ->
    lgraph_answer_ok g check qe (bmc_solve elim qe simp nv nid ctr ord check force fuel g).
Proof.
  intros elim qe simp nv nid ctr ord check force fuel g He Hc W Re Hf. unfold bmc_solve. destruct (is_trivial_graph g) eqn:Et.
  { unfold solve_trivial. pose proof (solve_trivial_ok check g (ledges g) Hc W Et (incl_refl _) (fun e H N => False_ind _ (N H))) as H.
    destruct (solve_trivial_edges check (ledges g)); cbn; try destruct H; auto; split; auto. }
  destruct (is_transition_system g) eqn:Ei.
  { destruct (C44_extraction elim g He W Re Ei) as [ts [Ets [Wts H]]]. rewrite Ets. destruct (H ts (or_introl eq_refl)) as [_ [Hd [Hi Hu]]].
    pose proof (bmc_ts_ok check fuel ts Hc Wts) as A. unfold translate_ts_result. destruct (bmc_ts check fuel ts) as [inv|n|]; cbn [ts_answer_ok] in A.
    - destruct (Hi inv A) as [w [-> Hw]]. exact Hw.
    - specialize (Hu check n Hc A). destruct (from_ts_steps check g n); [destruct Hu|left; exact Hu|exact Hu].
    - exact I. }
  destruct force.
  { destruct (Hf eq_refl) as [Hq [Hs [Hg [Np [Fr Ho]]]]]. destruct (C36_single_loop elim g nv nid ctr ord He Hg Fr Ho) as [ts [Ets [Wts [Hd [Hi Hu]]]]]. rewrite Ets.
    pose proof (bmc_ts_ok check fuel ts Hc Wts) as A. unfold sl_translate. destruct (bmc_ts check fuel ts) as [inv|n|]; cbn [ts_answer_ok] in A.
    - specialize (Hi qe simp inv Hq Hs A). destruct (sl_invariant qe simp g inv); [exact Hi|right; exact Hi].
    - specialize (Hu check n Hc Np A). destruct (sl_path nv nid ord check g n); [destruct Hu|left; exact Hu|exact Hu].
    - exact I. }
  pose proof (C57_bmc_graph check g true fuel Hc W) as H. destruct (bmc_graph check g true fuel) as [[w n|] u]; cbn [fst]; [|exact I].
  destruct H as [_ [_ [_ [_ H]]]]. destruct w as [[| |d]|]; [exact H|left; exact H|apply H|discriminate H].
Qed.
Print Assumptions C57_bmc_engine.

(** ** Non-vacuity *)
Module ExBmcG.
Definition a := mkVar "a" TBase SBool.
Definition b := mkVar "b" TBase SBool.
Definition A : sym := 2. Definition B : sym := 3.
(** a starts true, b copies a and then alternates; error when b is false: reached over entry, A, B, B, exit. *)
Definition g := mkLGraph
  [mkLEdge 1 entry A (Var (nxt a)); mkLEdge 2 A B (mkEq (Var (nxt b)) (Var (cur a)));
   mkLEdge 3 B B (mkEq (Var (nxt b)) (mkNot (Var (cur b)))); mkLEdge 4 B exit (mkNot (Var (cur b)))]
  (pv_of [(A, [a]); (B, [b])]).
(** The same with an error that is not reachable. *)
Definition g2 := mkLGraph
  [mkLEdge 1 entry A (Var (nxt a)); mkLEdge 2 A B (mkEq (Var (nxt b)) (Var (cur a)));
   mkLEdge 3 B B (mkEq (Var (nxt b)) (Var (cur b))); mkLEdge 4 B exit (mkNot (Var (cur b)))]
  (pv_of [(A, [a]); (B, [b])]).
Lemma g_lwf x : In x [g; g2] -> lwf x.
Proof.
  intros Hx. assert (R : rep_wf (pv_of [(A, [a]); (B, [b])])) by (apply rep_check_ok; vm_compute; reflexivity).
  destruct Hx as [<-|[<-|[]]]; (split; [exact R|cbn; repeat constructor; cbn; intuition discriminate| | |]).
  1, 4: intros e v He Hv; cbn in He; decompose [or] He; subst; cbn in Hv; decompose [or] Hv; subst; try tauto; first [solve [left; vm_compute; auto] | solve [right; left; vm_compute; auto]].
  all: intros e He; cbn in He; decompose [or] He; subst; cbn; try discriminate; try tauto.
Qed.
Example run : fst (bmc_graph bcheck g true 10) = GUnsafe (Some (PathDerivation [mkStep [] (entry, []) 0; mkStep [0] (A, [VBool true]) 1;
  mkStep [1] (B, [VBool true]) 2; mkStep [2] (B, [VBool false]) 3; mkStep [3] (exit, []) 4])) 4 /\ snd (bmc_graph bcheck g true 10) = false.
Proof. vm_compute. split; reflexivity. Qed.
Example run2 : bmc_graph bcheck g2 true 4 = (GFuel, false).
Proof. vm_compute. reflexivity. Qed.
Example general : is_trivial_graph g = false /\ is_transition_system g = false.
Proof. vm_compute. split; reflexivity. Qed.
End ExBmcG.
