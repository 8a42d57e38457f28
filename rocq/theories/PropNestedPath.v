(** * C76: the error path of the nested-loop transformation. *)
From Coq Require Import Permutation.
From Verif Require Import Syntax Solver TransSys TSLemmas KindModel PropKind ExTac Graph GraphOps GraphOpsProofs DfsProofs GraphSem GraphEx Names ListLemmas SimpleTransModel MergeModel MergeProofs LinearModel LinearProofs LinearPath LinearTS PropGraph ExpandProofs PropChain PropTermination PropLinear ContractModel ContractProofs ContractLabels ContractSem ContractWf ContractDef LMerge NontermProofs SingleLoopProofs SingleLoopPath PropSingleLoop NestedModel NestedProofs NestedInv PropNested BmcGraphProofs BoolOracle NestedPathModel NestedPath.
Open Scope list_scope.
Open Scope nat_scope.

(** A refutation of the transformed graph - the clauses [es] of a run from the entry to the exit - is translated to a refutation of the
    input: the only way to get no witness is a graph with parallel edges, the only exception a solver that gives up. *)
Theorem C76_nested_path :
  forall check g nv nid ord fuel h cs es d,
    check_ok check -> lwf g -> user_names g -> fresh_stream g nv nid -> (forall l, Permutation (ord l) l) ->
    nl_transform nv nid ord fuel 0 g = Some (h, cs) -> flat g cs ->
    lruns h es (entry, []) (exit, []) -> map st_clause d = no_id :: map lid es ->
    match np_derivation check g cs h d with
    | NpDone (PathDerivation d') => lrefutation g d' /\ length d' = length d
    | NpDone NoPath => ~ no_parallel g
    | NpDone PathThrows => exists q, check q = UNKNOWN
    | NpEnd => False
    end.
Proof.
  intros check g nv nid ord fuel h cs es d Hc W U F Ho E Fl R Ed. pose proof (stage_start g nv nid W U F) as S0.
  pose proof (transform_nested nv nid ord fuel 0 g h cs E) as N.
  destruct (nested_facts unreserved un_loc un_arg un_et nv nid (fs_nv _ _ _ F) (fs_nid _ _ _ F) ord Ho 0 g h cs N [] S0) as [[k' [C' Sh]] _].
  destruct (nested_sets unreserved un_loc un_arg un_et nv nid (fs_nv _ _ _ F) (fs_nid _ _ _ F) ord Ho 0 g h cs N [] S0) as [_ [N2 [N3 [N4 _]]]].
  pose proof (sg_wf _ _ _ _ _ _ Sh) as Wh.
  assert (Nc : forall c c', In c cs -> In c' cs -> ~ In (cd_vertex c') (cd_set c)).
  { intros c c' Hc1 Hc' X. destruct (N4 c' Hc') as [j [_ Ej]]. rewrite Ej in X. apply (fs_vertex _ _ _ F j), (Fl c _ Hc1 X). }
  assert (Ne : forall p, lvertex g p -> forall c, In c cs -> cd_vertex c <> p).
  { intros p Hp c Hc1 X. destruct (N4 c Hc1) as [j [_ Ej]]. apply (fs_vertex _ _ _ F j). rewrite <- Ej, X. exact Hp. }
  assert (Nk : forall p, (p = entry \/ p = exit) -> contracted_in cs p = false).
  { intros p Hp. destruct (contracted_in cs p) eqn:Ec; [|reflexivity]. apply contracted_spec, N2 in Ec. destruct Ec as [_ [A B]], Hp; contradiction. }
  unfold np_derivation. assert (Et : map st_clause (tl d) = map lid es) by (destruct d as [|s d]; [discriminate Ed|injection Ed; auto]). rewrite Et. unfold np_path.
  destruct (lruns_connected _ _ _ _ R) as [Cn Inc]. cbn [fst] in Cn. rewrite (path_edges_total h Wh es Inc).
  destruct (check (path_labels 1 es)) as [r| |] eqn:Eq; [| |eauto].
  2:{ exfalso. destruct (runs_labels h Wh _ _ _ R (entry_ok h Wh) 1%Z) as [r [Hr _]]. apply (check_unsat _ Hc _ Eq r Hr). }
  pose proof (check_sat _ Hc _ _ Eq) as Q.
  assert (Rp : resolved r cs (Z.of_nat 1) entry entry) by (right; split; [apply Ne; left; reflexivity|reflexivity]).
  destruct (np_walk unreserved un_loc un_arg un_et nv nid (fs_nv _ _ _ F) (fs_nid _ _ _ F) ord Ho r 0 g h cs [] N S0 N3 Nc Fl es 1 entry exit entry Cn Inc Q Rp) as [fs [p' [Rg [Rp' [-> Ln]]]]].
  assert (Ep : p' = exit).
  { destruct Rp' as [[c [Hc1 [Ec _]]]|[_ X]]; [|exact X]. exfalso. apply (Ne exit (or_intror (or_introl eq_refl)) c Hc1 Ec). }
  subst p'. unfold rep in Rg. rewrite !Nk in Rg by auto.
  assert (Ee : lpv g entry = [] /\ lpv g exit = []) by (destruct (lwf_rep g W); auto).
  destruct Ee as [E1 E2]. rewrite E1, E2 in Rg. cbn [args map] in Rg.
  destruct (lruns_connected _ _ _ _ Rg) as [Cg Ig]. cbn [fst] in Cg.
  destruct (edges_ok g W fs entry exit Cg Ig) as [->|[-> X]]; [|exact X].
  pose proof (from_error_path_ok g W check fs Hc Ig Cg) as X. destruct (from_error_path check g (map lid fs)) as [| |d'].
  - destruct X.
  - destruct X as [X|X]; [contradiction|eauto].
  - destruct X as [X1 X2]. split; [exact X1|]. apply (f_equal (@length _)) in Ed, X2. cbn [length] in Ed, X2. rewrite !map_length in Ed, X2. congruence.
Qed.
Print Assumptions C76_nested_path.

(** ** Examples *)
Module ExNlPath.
Import ExSl ExNl.
Definition D : sym := 5.
(** z := false; x := z; loop: y := not x; error when y; x := y.  The vertex D is on no cycle. *)
Definition hu := mkGraph
  [mkEdge 1 [entry] D (mkNot (t z)); mkEdge 2 [D] A (mkEq (t bx) (s z)); mkEdge 3 [A] B (mkEq (t by_) (mkNot (s bx))); mkEdge 4 [B] A (mkEq (t bx) (mkNot (s by_))); mkEdge 5 [B] exit (s by_)]
  (pv_of [(A, [bx]); (B, [by_]); (D, [z])]) 6 0.
Notation gu := (to_normal hu).
Lemma gu_wf : lwf gu.
Proof.
  apply normal_wf; [apply graph_check_ok; vm_compute; reflexivity|reflexivity|].
  intros e v He Hv Nv. exfalso. apply Nv. destruct He as [<-|[<-|[<-|[<-|[<-|[]]]]]]; cbn in Hv; repeat (destruct Hv as [<-|Hv]; [apply inb_true; vm_compute; reflexivity|]); destruct Hv.
Qed.
Lemma gu_names : user_names gu.
Proof. apply names_check; [|vm_compute; reflexivity]. intros p v Hv. apply pv_of_in in Hv. cbn in Hv. destruct Hv as [<-|[<-|[<-|[]]]]; reflexivity. Qed.
Definition hu' := match nl_transform nv nv ord 7 0 gu with Some (h, _) => h | None => gu end.
Definition cu' := match nl_transform nv nv ord 7 0 gu with Some (_, c) => c | None => [] end.
Definition run_of (h : lgraph) (ids : list nat) := match path_edges h ids with Some l => l | None => [] end.
Definition der (ids : list nat) : derivation := map (mkStep [] (entry, [])) (no_id :: ids).
(** A sufficient condition for a run that can be computed. *)
Lemma run_check (h : lgraph) (Wh : lwf h) ids : (match bcheck (path_labels 0 (run_of h ids)) with SAT _ => true | _ => false end) = true ->
  connected entry (run_of h ids) exit -> lruns h (run_of h ids) (entry, []) (exit, []).
Proof.
  intros H C. destruct (bcheck (path_labels 0 (run_of h ids))) as [r| |] eqn:E; try discriminate H. apply (labels_runs_exit h Wh r); [exact C| |apply (check_sat _ bcheck_ok _ _ E)].
  unfold run_of. destruct (path_edges h ids) as [l|] eqn:P; [apply (path_edges_find h ids l P)|intros e []].
Qed.
Lemma sub_wf g' h c n : lwf g' -> user_names g' -> fresh_stream g' nv nv -> nl_transform nv nv ord n 0 g' = Some (h, c) -> lwf h.
Proof.
  intros W U F E. pose proof (nested_facts unreserved un_loc un_arg un_et nv nv (fs_nv _ _ _ F) (fs_nid _ _ _ F) ord (fun l => Permutation_refl l) 0 g' h c (transform_nested nv nv ord n 0 g' h c E) [] (stage_start g' nv nv W U F)) as [[k' [C' Sh]] _].
  apply (sg_wf _ _ _ _ _ _ Sh).
Qed.
Lemma gu_fresh : fresh_stream gu nv nv. Proof. apply nv_fresh. vm_compute. reflexivity. Qed.
Lemma hu_lwf : lwf hu'. Proof. apply (sub_wf gu hu' cu' 7); [apply gu_wf|apply gu_names|apply gu_fresh|vm_compute; reflexivity]. Qed.
Lemma gu_flat : flat gu cu'.
Proof. intros c p Hc; vm_compute in Hc; destruct Hc as [<-|[]]; cbn; intros [<-|[<-|[]]]; apply lvertices_spec; vm_compute; auto. Qed.
Lemma gu_np : no_parallel gu.
Proof. intros e e' [<-|[<-|[<-|[<-|[<-|[]]]]]] [<-|[<-|[<-|[<-|[<-|[]]]]]]; cbn; intros E F; try discriminate; reflexivity. Qed.
(** The loop of the transformed graph is taken once, and once more after a whole turn. *)
Example C76_nonvacuous :
  check_ok bcheck /\ lwf gu /\ user_names gu /\ fresh_stream gu nv nv /\ (forall l, Permutation (ord l) l) /\
  nl_transform nv nv ord 7 0 gu = Some (hu', cu') /\ length cu' = 1 /\ flat gu cu' /\ no_parallel gu /\
  lruns hu' (run_of hu' [1; 2; 10; 5]) (entry, []) (exit, []) /\ map st_clause (der [1; 2; 10; 5]) = no_id :: map lid (run_of hu' [1; 2; 10; 5]) /\
  np_derivation bcheck gu cu' hu' (der [1; 2; 10; 5]) = NpDone (PathDerivation
    [mkStep [] (entry, []) 0; mkStep [0] (D, [VBool false]) 1; mkStep [1] (A, [VBool false]) 2; mkStep [2] (B, [VBool true]) 3; mkStep [3] (exit, []) 5]).
Proof.
  split; [apply bcheck_ok|]. split; [apply gu_wf|]. split; [apply gu_names|]. split; [apply gu_fresh|]. split; [intros l; apply Permutation_refl|]. split; [vm_compute; reflexivity|]. split; [vm_compute; reflexivity|].
  split; [apply gu_flat|]. split; [apply gu_np|]. split; [apply (run_check hu' hu_lwf); [vm_compute; reflexivity|vm_compute; auto]|]. split; vm_compute; reflexivity.
Qed.
(** Two cycles that share a vertex: A <-> B <-> C; the error is reached from C. *)
Definition hv := mkGraph
  [mkEdge 1 [entry] A (t bx); mkEdge 2 [A] B (mkEq (t by_) (s bx)); mkEdge 3 [B] A (mkEq (t bx) (s by_)); mkEdge 4 [B] C (mkEq (t z) (s by_)); mkEdge 5 [C] B (mkEq (t by_) (s z));
   mkEdge 6 [C] exit (s z)] (pv_of [(A, [bx]); (B, [by_]); (C, [z])]) 7 0.
Notation gv := (to_normal hv).
Definition hv' := match nl_transform nv nv ord 6 0 gv with Some (h, _) => h | None => gv end.
Definition cv' := match nl_transform nv nv ord 6 0 gv with Some (_, c) => c | None => [] end.
Lemma gv_wf : lwf gv.
Proof.
  apply normal_wf; [apply graph_check_ok; vm_compute; reflexivity|reflexivity|].
  intros e v He Hv Nv. exfalso. apply Nv. destruct He as [<-|[<-|[<-|[<-|[<-|[<-|[]]]]]]]; cbn in Hv; repeat (destruct Hv as [<-|Hv]; [apply inb_true; vm_compute; reflexivity|]); destruct Hv.
Qed.
Lemma gv_names : user_names gv.
Proof. apply names_check; [|vm_compute; reflexivity]. intros p v Hv. apply pv_of_in in Hv. cbn in Hv. destruct Hv as [<-|[<-|[<-|[]]]]; reflexivity. Qed.
Lemma gv_fresh : fresh_stream gv nv nv. Proof. apply nv_fresh. vm_compute. reflexivity. Qed.
Lemma gv_np : no_parallel gv.
Proof. intros e e' [<-|[<-|[<-|[<-|[<-|[<-|[]]]]]]] [<-|[<-|[<-|[<-|[<-|[<-|[]]]]]]]; cbn; intros E F; try discriminate; reflexivity. Qed.
Lemma hv_lwf : lwf hv'. Proof. apply (sub_wf gv hv' cv' 6); [apply gv_wf|apply gv_names|apply gv_fresh|vm_compute; reflexivity]. Qed.
Definition es_v := Eval vm_compute in run_of hv' [1; 11; 11; 6].
Definition mv : valuation := fun v =>
  let off b k := String.eqb (vbase v) b && match vtag v with TTime j => Z.eqb j k | _ => false end in
  VBool (negb (off ".loc_4" 1%Z || off ".loc_4" 2%Z || off ".loc_10" 3%Z || off ".arg_10_1" 1%Z || off ".arg_10_0" 2%Z)%string).
Lemma hv_run : lruns hv' es_v (entry, []) (exit, []).
Proof.
  apply (labels_runs_exit hv' hv_lwf mv); [vm_compute; auto| |].
  - let F := eval vm_compute in (ledges hv') in change (ledges hv') with F. unfold es_v. intros e He. cbn [In] in *. intuition.
  - repeat constructor.
Qed.
(** At the first vertex no location of the input is true, in every model. *)
Lemma hv_first r : Forall (holds r) (path_labels 1 es_v) -> np_vertices gv cv' r 1 es_v = inr NpEnd.
Proof.
  intros H. apply Forall_inv in H.
  assert (X : holdsb r (Var (mkVar ".loc_4" (TTime 2) SBool)) = false).
  { match type of H with holds r ?f => let F := eval vm_compute in f in change (holds r F) in H end.
    apply holds_and, Forall_inv in H. apply holds_and, Forall_inv in H. apply holds_not in H. apply not_true_is_false. exact H. }
  assert (L : np_location gv r 2 (mkCData 11 [10; 4]) = None).
  { unfold np_location. let F := eval vm_compute in (lvertices gv) in change (lvertices gv) with F. cbn [find mem existsb cd_set Nat.eqb orb andb].
    let F := eval vm_compute in (shiftv (Z.of_nat 2) (cur (locv 4))) in change (shiftv (Z.of_nat 2) (cur (locv 4))) with F. rewrite X. reflexivity. }
  let F := eval vm_compute in cv' in change cv' with F. unfold es_v. cbn [np_vertices find cd_vertex lto Nat.eqb]. change (1 + 1) with 2. match goal with |- context [np_location ?a ?b ?c ?d] => replace (np_location a b c d) with (@None sym) by (symmetry; exact L) end. reflexivity.
Qed.
End ExNlPath.

(** Without the condition on the loops: if they overlap, the location of the second vertex is not found, for every solver that
    answers. *)
Theorem C76_overlap_refuted :
  exists g nv nid ord h cs es d,
    lwf g /\ user_names g /\ no_parallel g /\ fresh_stream g nv nid /\ (forall l, Permutation (ord l) l) /\
    nl_transform nv nid ord (S (length (lvertices g))) 0 g = Some (h, cs) /\
    lruns h es (entry, []) (exit, []) /\ map st_clause d = no_id :: map lid es /\
    forall check r, check_ok check -> check (path_labels 1 es) = SAT r -> np_derivation check g cs h d = NpEnd.
Proof.
  exists (to_normal ExNlPath.hv), ExNl.nv, ExNl.nv, ExSl.ord, ExNlPath.hv', ExNlPath.cv', ExNlPath.es_v, (ExNlPath.der [1; 11; 11; 6]).
  split; [apply ExNlPath.gv_wf|]. split; [apply ExNlPath.gv_names|]. split; [apply ExNlPath.gv_np|]. split; [apply ExNlPath.gv_fresh|]. split; [intros l; apply Permutation_refl|].
  split; [vm_compute; reflexivity|]. split; [apply ExNlPath.hv_run|]. split; [vm_compute; reflexivity|]. intros check r Hc E. unfold np_derivation, np_path.
  match goal with |- context [path_edges ?h ?l] => change (path_edges h l) with (path_edges ExNlPath.hv' (map lid ExNlPath.es_v)) end.
  rewrite (path_edges_total ExNlPath.hv' ExNlPath.hv_lwf) by (apply (lruns_connected _ _ _ _ ExNlPath.hv_run)). rewrite E.
  rewrite (ExNlPath.hv_first r); [reflexivity|]. apply (check_sat _ Hc _ _ E).
Qed.
Print Assumptions C76_overlap_refuted.
