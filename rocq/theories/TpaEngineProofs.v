(** * The TPA engine: the systems it solves are Boolean formulas, and the branches are right. *)
From Coq Require Import Permutation.
From Verif Require Import Syntax Solver TransSys TSLemmas KTo1Model FormulaModel FormulaProofs NontermProofs Graph GraphOps GraphOpsProofs GraphSem SimpleTransModel MergeModel MergeProofs LinearModel LinearProofs LinearPath LinearTS PropGraph PropChain PropLinear ContractModel ContractProofs ContractLabels ContractSem ContractWf LMerge SingleLoopProofs SingleLoopPath PropSingleLoop.
From Verif Require Import TpaModel TpaFix TpaTop DagModel TpaEngineModel PropTpa PropDag.
Open Scope list_scope.
Open Scope nat_scope.

(** ** Boolean formulas *)
Lemma typeof_rename f t : sort_preserving f -> typeof (rename f t) = typeof t.
Proof.
  intros Hf. induction t as [v|c|g ts IH] using term_ind'; cbn [rename typeof]; [rewrite Hf; reflexivity|reflexivity|].
  assert (E : map typeof (map (rename f) ts) = map typeof ts) by (rewrite map_map; apply map_ext_in; intros x Hx; rewrite Forall_forall in IH; apply IH, Hx).
  rewrite E. reflexivity.
Qed.
Lemma is_bool_rename f t : sort_preserving f -> is_bool (rename f t) = is_bool t.
Proof. intros H. unfold is_bool. rewrite (typeof_rename f t H). reflexivity. Qed.
Lemma is_bool_all f l : (f = FAnd \/ f = FOr) -> (forall t, In t l -> is_bool t = true) -> is_bool (App f l) = true.
Proof. intros Hf H. apply (is_bool_junct f l Hf), forallb_forall, H. Qed.
Definition bool_g (g : lgraph) : Prop := forall e, In e (ledges g) -> is_bool (lfla e) = true.
Ltac conj_bool := apply is_bool_all; [auto|let t := fresh in let H := fresh in intros t H; repeat (destruct H as [<-|H]); [..|destruct H]].

Lemma translate_bool g V ctr e : is_bool (lfla e) = true -> is_bool (translate_edge g V ctr e) = true.
Proof.
  intros H. unfold translate_edge. conj_bool.
  - reflexivity.
  - rewrite is_bool_rename by apply f_sort. exact H.
  - reflexivity.
  - apply is_bool_all; [auto|]. intros t Ht. unfold updated_location in Ht. apply in_concat in Ht as [l [Hl Ht]]. apply in_map_iff in Hl as [v [<- _]].
    apply in_app_iff in Ht as [Ht|Ht]; [destruct (Nat.eqb v (lto e))|destruct (Nat.eqb v (lfrom e))]; (destruct Ht as [<-|[]] || destruct Ht); reflexivity.
Qed.
Lemma loop_parts_bool g V es : (forall e, In e es -> is_bool (lfla e) = true) -> forall ctr t, In t (loop_parts g V ctr es) -> is_bool t = true.
Proof.
  induction es as [|e es IH]; intros H ctr t Ht; [destruct Ht|]. cbn [loop_parts] in Ht. destruct (internal V e); [destruct Ht as [<-|Ht]|].
  - apply translate_bool, H. left; reflexivity.
  - eapply IH; [intros x Hx; apply H; right; exact Hx|exact Ht].
  - eapply IH; [intros x Hx; apply H; right; exact Hx|exact Ht].
Qed.
Lemma contract_bool g V nv nid ord : bool_g g -> bool_g (contract g V nv nid ord).
Proof.
  intros Hb e He. cbn [ledges contract] in He. apply in_app_iff in He as [He|[<-|[]]].
  - apply in_map_iff in He as [e0 [<- He]]. apply filter_In in He as [He _]. unfold cross_edge. destruct (mem V (lfrom e0)); [|destruct (mem V (lto e0)); [|apply Hb, He]].
    + cbn [out_edge lfla]. rewrite is_bool_rename by apply fo_sort. conj_bool; [apply Hb, He|reflexivity].
    + cbn [in_edge lfla]. conj_bool; [|reflexivity|rewrite is_bool_rename by apply fi_sort; apply Hb, He].
      apply is_bool_all; [auto|]. intros t Ht. apply in_map_iff in Ht as [v [<- _]]. reflexivity.
  - cbn [loop_edge lfla]. apply is_bool_all; [auto|]. intros t Ht. eapply loop_parts_bool; [exact Hb|exact Ht].
Qed.
Lemma final_bool nv nid ctr ord g : bool_g g -> bool_g (final_graph nv nid ctr ord g).
Proof.
  intros Hb. pose proof (contract_bool g (inner_vertices g) nv nid ord Hb) as Hb2. fold (contracted nv nid ord g) in Hb2. unfold final_graph.
  assert (H3 : forall e, In e (gedges (to_hyper ctr (contracted nv nid ord g))) -> is_bool (efla e) = true).
  { intros e He. cbn [to_hyper gedges] in He. apply in_map_iff in He as [[k e0] [<- He]]. apply in_combine_r in He. cbn. rewrite is_bool_rename; [apply Hb2, He|].
    apply vlookup_sort. intros a b H. apply in_app_iff in H as [H|H]; apply in_map_iff in H as [x [E _]]; injection E as <- <-; reflexivity. }
  intros e He. cbn [to_normal ledges] in He. apply in_map_iff in He as [e0 [<- He]]. cbn [normal_edge lfla]. rewrite is_bool_rename.
  - cbn [merge_multi gedges] in He. apply in_concat in He as [l [Hl He]]. apply in_map_iff in Hl as [e1 [<- He1]]. unfold merge_one in He.
    destruct (is_single e1); [|destruct He as [<-|[]]; apply H3, He1]. destruct (bucket _ e1) as [|x0 [|x1 b]] eqn:Eb; try (destruct He as [<-|[]]; apply H3, He1).
    destruct (Nat.eqb _ _); [|destruct He]. destruct He as [<-|[]]. cbn [merged_edge efla]. apply is_bool_all; [auto|]. intros t Ht. apply in_map_iff in Ht as [x [<- Hx]].
    apply H3. rewrite <- Eb in Hx. unfold bucket in Hx. apply filter_In in Hx. apply Hx.
  - apply vlookup_sort. intros a b H. apply in_app_iff in H as [H|H]; apply in_map_iff in H as [x [E _]]; injection E as <- <-; reflexivity.
Qed.

(** Eliminations of variables give Boolean formulas. *)
Definition elim_bool (elim : elim_fn) : Prop := forall keep t, is_bool t = true -> is_bool (elim keep t) = true.
Definition qe_bool (qe : qe_fn) : Prop := forall f keep t, is_bool f = true -> qe f keep = Some t -> is_bool t = true.
Lemma system_vars_sorts g s n a : system_vars g = (s, n, a) -> forall x y, In (x, y) (combine n s) -> vsort y = vsort x.
Proof.
  unfold system_vars. assert (G : forall es s0 n0 a0, (forall x y, In (x, y) (combine n0 s0) -> vsort y = vsort x) ->
    forall s n a, fold_left (fun (acc : list var * list var * list var) e => let '(s, n, a) := acc in
     if Nat.eqb (lfrom e) (lto e) then (cur_vars g (lfrom e), nxt_vars g (lto e), a ++ laux_vars g e) else (s, n, a ++ laux_vars g e)) es (s0, n0, a0) = (s, n, a) ->
    forall x y, In (x, y) (combine n s) -> vsort y = vsort x).
  { induction es as [|e es IH]; intros s0 n0 a0 H s1 n1 a1 E; cbn [fold_left] in E; [injection E as <- <- <-; exact H|].
    destruct (Nat.eqb_spec (lfrom e) (lto e)) as [El|]; [|eapply IH; eauto]. eapply IH; [|exact E]. rewrite El. intros x y Hxy. unfold nxt_vars, cur_vars in Hxy.
    replace (combine (map nxt (lpv g (lto e))) (map cur (lpv g (lto e)))) with (map (fun b => (nxt b, cur b)) (lpv g (lto e))) in Hxy by (clear; induction (lpv g (lto e)) as [|z l IHl]; cbn; [|rewrite IHl]; reflexivity).
    apply in_map_iff in Hxy as [b [Eb _]]. injection Eb as <- <-. reflexivity. }
  apply G. intros x y [].
Qed.
Lemma ts_parts_bool elim g vs i t b : elim_bool elim -> bool_g g -> ts_parts elim g vs = (i, t, b) ->
  (forall x, i = Some x -> is_bool x = true) /\ (forall x, t = Some x -> is_bool x = true) /\ (forall x, b = Some x -> is_bool x = true).
Proof.
  intros He Hb. unfold ts_parts. destruct (system_vars g) as [[s n] a] eqn:Es.
  match goal with |- fold_left ?f _ _ = _ -> _ => set (step := f) end.
  assert (G : forall es, (forall e, In e es -> In e (ledges g)) -> forall i0 t0 b0,
    (forall x, i0 = Some x -> is_bool x = true) /\ (forall x, t0 = Some x -> is_bool x = true) /\ (forall x, b0 = Some x -> is_bool x = true) ->
    forall i t b, fold_left step es (i0, t0, b0) = (i, t, b) ->
    (forall x, i = Some x -> is_bool x = true) /\ (forall x, t = Some x -> is_bool x = true) /\ (forall x, b = Some x -> is_bool x = true)).
  { induction es as [|e es IH]; intros Hin i0 t0 b0 [A [B C]] i1 t1 b1 E; cbn [fold_left] in E; [injection E as <- <- <-; auto|].
    assert (Be : is_bool (lfla e) = true) by (apply Hb, Hin; left; reflexivity).
    unfold step at 2 in E. eapply IH; [| |exact E]; [intros x Hx; apply Hin; right; exact Hx|]. split; [|split].
    - match goal with |- forall x, (if ?b then _ else _) = _ -> _ => destruct b end; [|exact A]. intros x Ex. injection Ex as <-. rewrite is_bool_rename; [apply He, Be|]. apply vlookup_sort. intros u v. apply (system_vars_sorts g s n a Es).
    - match goal with |- forall x, (if ?b then _ else _) = _ -> _ => destruct b end; [|exact B]. intros x Ex. injection Ex as <-. exact Be.
    - match goal with |- forall x, (if ?b then _ else _) = _ -> _ => destruct b end; [|exact C]. intros x Ex. injection Ex as <-. apply He, Be. }
  apply G; [auto|]. repeat split; discriminate.
Qed.
Lemma to_ts_bool elim g ts : elim_bool elim -> bool_g g -> to_transition_system elim g = Some ts -> bool_ts ts.
Proof.
  intros He Hb E. unfold to_transition_system in E. destruct (reverse_post_order g) as [vs|]; [|discriminate]. destruct (system_vars g) as [[s n] a].
  destruct (ts_parts elim g vs) as [[[i|] [t|]] [b|]] eqn:Ep; try discriminate. injection E as <-. destruct (ts_parts_bool elim g vs _ _ _ He Hb Ep) as [A [B C]].
  split; [apply A; reflexivity|]. split; [apply C; reflexivity|apply B; reflexivity].
Qed.
Lemma no_aux_bool qe ts ts' : qe_bool qe -> bool_ts ts -> ensure_no_aux qe ts = Some ts' -> bool_ts ts'.
Proof.
  intros Hq [A [B C]] E. unfold ensure_no_aux in E. destruct (avars ts) as [|v l]; [injection E as <-; repeat split; assumption|].
  destruct (drop_aux qe (v :: l) (tinit ts)) as [i|] eqn:Ei; [|discriminate]. destruct (drop_aux qe (v :: l) (tquery ts)) as [b|] eqn:Eb; [|discriminate]. injection E as <-.
  assert (D : forall f u, is_bool f = true -> drop_aux qe (v :: l) f = Some u -> is_bool u = true).
  { intros f u Hf Ef. unfold drop_aux in Ef. destruct (existsb _ _); [eapply Hq; eauto|injection Ef as <-; exact Hf]. }
  split; [apply (D _ _ A Ei)|]. split; [apply (D _ _ B Eb)|exact C].
Qed.
Lemma single_loop_bool elim nv nid ctr ord g ts : elim_bool elim -> bool_g g -> single_loop elim nv nid ctr ord g = Some ts -> bool_ts ts.
Proof.
  intros He Hb E. unfold single_loop, to_ts_noquery in E. destruct (reverse_post_order _) as [vs|]; [|discriminate]. destruct (system_vars _) as [[s n] a].
  destruct (ts_parts elim (final_graph nv nid ctr ord g) vs) as [[[i|] [t|]] b] eqn:Ep; try discriminate; destruct b as [b|]; try discriminate; injection E as <-;
    destruct (ts_parts_bool elim _ vs _ _ _ He (final_bool nv nid ctr ord g Hb) Ep) as [A [B C]]; split; [apply A; reflexivity|split; [|apply B; reflexivity]|apply A; reflexivity|split; [|apply B; reflexivity]]; [apply C; reflexivity|reflexivity].
Qed.

(** ** Paths of any length: a derivation that is found is a refutation. *)
Lemma ts_path_sound check g n : check_ok check -> lwf g -> all_reachable g -> is_transition_system g = true ->
  match from_ts_steps check g n with PathDerivation d => lrefutation g d | NoPath => False | PathThrows => True end.
Proof.
  intros Hc W Re Ht. destruct (is_ts_shape g (lwf_ids g W) Re Ht) as [b [e0 [e1 [e2 Sh]]]]. unfold from_ts_steps. rewrite (path_from_ts_ok g b e0 e1 e2 W Sh n Ht).
  pose proof (from_error_path_ok g W check (error_edges e0 e1 e2 n) Hc (error_edges_in g b e0 e1 e2 Sh n) (error_edges_connected g b e0 e1 e2 Sh n)) as H.
  destruct (from_error_path check g (map lid (error_edges e0 e1 e2 n))); [exact H|exact I|apply H].
Qed.
Lemma sl_path_sound check g nv nid ord n : check_ok check -> sl_input g -> no_parallel g -> fresh_in g nv nid -> (forall l, Permutation (ord l) l) ->
  match sl_path nv nid ord check g n with PathDerivation d => lrefutation g d | NoPath => False | PathThrows => True end.
Proof.
  intros Hc [W U Hin Hout Hno] Np [Fv Fi] Ho. pose proof (user_names_free g (inner_vertices g) U) as NF. pose proof (user_et_free g U) as ET.
  unfold sl_path. destruct (check (sl_query (contracted nv nid ord g) n)) as [r| |] eqn:Eq; [|exact I|exact I].
  assert (X : exists es, sl_walk g r n 0 entry (n + 2) = Some (map lid es) /\ lruns g es (entry, []) (exit, [])).
  { eapply walk_ok; try eassumption. apply (check_sat _ Hc _ _ Eq). }
  destruct X as [es [Es R]]. rewrite Es. destruct (lruns_connected _ _ _ _ R) as [Cn Inc]. cbn [fst] in Cn.
  pose proof (from_error_path_ok g W check es Hc Inc Cn) as X. destruct (from_error_path check g (map lid es)) as [| |d]; [exact X|exact I|apply X].
Qed.
