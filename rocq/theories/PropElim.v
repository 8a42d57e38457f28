(** * Property C34: node elimination.

    Specification: Graph.v and GraphSem.v ([wf_graph], [correct]). *)
From Verif Require Import Syntax Solver TransSys Graph GraphOps GraphOpsProofs ValidatorModel FormulaModel GraphSem SimpleTransModel UnreachProofs UnreachProofs2 SimpleTransProofs SimpleTransProofs2 SimplifierProofs ListLemmas MergeModel MergeProofs ChainProofs ElimModel PairProofs PairLabel ElimProofs ElimLoop GraphEx ExTac.
Open Scope nat_scope.

(** Any predicate that only selects vertices which can be contracted ([pred_ok]), any order of the vertices. *)
Theorem C34_node_elimination :
  forall elim fresh check itp pred vertices dfuel g t, elim_ok elim -> check_ok check -> itp_ok itp -> pred_ok pred -> wf_graph g ->
    eliminate elim fresh check itp pred vertices dfuel g = Some t ->
    wf_graph (tr_graph t) /\ correct g (tr_graph t) (tr_valid t) (tr_invalid t) /\
    ((forall v, vertex g v -> In v (vertices g)) -> forall v, vertex (tr_graph t) v -> v <> entry -> v <> exit -> pred (tr_graph t) v = false).
Proof.
  intros elim fresh check itp pred vertices dfuel g t He Hc Hi Hp W E.
  destruct (eliminate_good elim He fresh check Hc itp Hi pred Hp vertices dfuel g t W E) as [W' C]. split; [exact W'|]. split; [exact C|].
  intros Hv. exact (eliminate_final elim He fresh check itp Hi pred Hp vertices dfuel g t W E Hv).
Qed.
Print Assumptions C34_node_elimination.

(** The two predicates of the code qualify. *)
Theorem C34_predicates : pred_ok simple_pred /\ pred_ok better_pred.
Proof. split; intros g v W N1 N2 H; [apply simple_pred_ok|apply better_pred_ok]; assumption. Qed.
Print Assumptions C34_predicates.

(** The two eliminators of the code, with the elimination of the code. *)
Theorem C34_eliminators :
  forall retrieve fractional fresh check itp vertices dfuel g t, retrieve_ok retrieve -> check_ok check -> itp_ok itp -> wf_graph g ->
    eliminate (tqe retrieve fractional) fresh check itp simple_pred vertices dfuel g = Some t \/
    eliminate (tqe retrieve fractional) fresh check itp better_pred vertices dfuel g = Some t ->
    wf_graph (tr_graph t) /\ correct g (tr_graph t) (tr_valid t) (tr_invalid t).
Proof.
  intros retrieve fractional fresh check itp vertices dfuel g t Hr Hc Hi W [E|E].
  - exact (eliminate_good _ (tqe_ok retrieve fractional Hr) fresh check Hc itp Hi simple_pred (proj1 C34_predicates) vertices dfuel g t W E).
  - exact (eliminate_good _ (tqe_ok retrieve fractional Hr) fresh check Hc itp Hi better_pred (proj2 C34_predicates) vertices dfuel g t W E).
Qed.
Print Assumptions C34_eliminators.

(** On graphs in which every inner vertex has an incoming edge (golem removes the unreachable vertices first), the transformation ends without an
    exception.  (Without the condition the adjacency lookup of a vertex that has lost all its edges throws.) *)
Theorem C34_terminates :
  forall elim fresh check itp pred vertices dfuel g, elim_ok elim -> pred_ok pred -> wf_graph g -> fed g ->
    NoDup (vertices g) -> (forall v, In v (vertices g) -> vertex g v) ->
    exists t, eliminate elim fresh check itp pred vertices dfuel g = Some t.
Proof. intros elim fresh check itp pred vertices dfuel g He Hp W L N V. exact (eliminate_total elim He fresh check itp pred Hp vertices dfuel g W L N V). Qed.
Print Assumptions C34_terminates.

Module ExElim.
Definition x := mkVar "x" TBase SInt.
Definition y := mkVar "y" TBase SInt.
Definition z := mkVar "z" TBase SInt.
Definition A : sym := 2. Definition B : sym := 3. Definition C : sym := 4.
Definition reps := [(A, [x]); (B, [y]); (C, [z])].
Definition sv v := Var (src 0 v). Definition tv v := Var (tgt v).
(** A loop on A, an edge to B, a fact C, and a query over B and C. *)
Definition es (k : Z) : list hedge :=
  [mkEdge 1 [entry] A (mkEq (tv x) (mkInt 0));
   mkEdge 2 [A] A (mkEq (tv x) (mkPlus [sv x; mkInt 1]));
   mkEdge 3 [A] B (mkEq (tv y) (mkPlus [sv x; mkInt 1]));
   mkEdge 4 [entry] C (mkEq (tv z) (mkInt k));
   mkEdge 5 [B; C] exit (mkEq (sv y) (sv z))].
Definition g k := mkGraph (es k) (pv_of reps) 6 0.
Example g_wf : wf_graph (g 2) /\ wf_graph (g 0).
Proof. split; apply graph_check_ok; vm_compute; reflexivity. Qed.
Example g_fed : fed (g 2).
Proof.
  intros v [->|[->|[e [He Hv]]]] N1 N2; [congruence|congruence|].
  assert (X : v = A \/ v = B \/ v = C).
  { cbn in He. repeat (destruct He as [<-|He]; [cbn in Hv; unfold entry, exit, A, B, C in *; lia|]). destruct He. }
  destruct X as [->|[->| ->]].
  - exists (nth 0 (es 2) (mkEdge 0 [] 0 tt_true)); cbn; auto.
  - exists (nth 2 (es 2) (mkEdge 0 [] 0 tt_true)); cbn; auto 8.
  - exists (nth 3 (es 2) (mkEdge 0 [] 0 tt_true)); cbn; auto 8.
Qed.
Definition el : elim_fn := fun _ t => t.
Definition t0 k := eliminate el 0 (fun _ => UNKNOWN) (fun _ _ => None) simple_pred hnodes 10 (g k).
Example eliminated : exists r, t0 2 = Some r /\ map (fun e => (eid e, efrom e, eto e)) (gedges (tr_graph r)) = [(1, [entry], A); (2, [A], A); (7, [A], exit)].
Proof. eexists. split; [vm_compute; reflexivity|]. vm_compute. reflexivity. Qed.
Definition loop k := match eliminate_loop el 0 simple_pred 10 (g k) [A; B; C] with Some r => r | None => (g k, []) end.
Definition rs k := concat (map cn_repl (snd (loop k))).
Definition e0 := mkEdge 0 [] 0 tt_true.
Definition e6 k := fst (nth 0 (rs k) (e0, (e0, e0))).
Definition e7 k := fst (nth 1 (rs k) (e0, (e0, e0))).
(** A refutation of the reduced graph, and its translation. *)
Definition d : derivation := [mkStep [] (entry, []) 0; mkStep [0] (A, [VInt 0]) 1; mkStep [1] (A, [VInt 1]) 2; mkStep [2] (exit, []) 7].
Definition query (e1 e2 : hedge) (eqs : list term) : list term :=
  rename (vlookup (combine (src_vars (g 2) (eto e1, 0)) (tgt_vars (g 2) (eto e1)))) (mkAnd [efla e1; efla e2]) :: eqs.
Definition q1 := query (nth 3 (es 2) e0) (e6 2) [mkEq (sv x) (mkInt 1)].
Definition q2 := query (nth 2 (es 2) e0) (nth 4 (es 2) e0) [mkEq (sv x) (mkInt 1); mkEq (sv z) (mkInt 2)].
Definition mdl : valuation := fun v => if var_eqb v (src 0 x) then VInt 1 else VInt 2.
Definition wA : term := mkLeq (mkInt 0) (Var x).
Definition w : defs_t := fun p => if Nat.eqb p entry then Some tt_true else if Nat.eqb p exit then Some tt_false else if Nat.eqb p A then Some wA else None.
Definition part (f : option term) := match f with Some t => mkOr [t] | None => tt_true end.
Definition partB v f := rename (vlookup (combine (src_vars (g 0) (v, 0)) (tgt_vars (g 0) v))) (part f).
Definition wC : defs_t := wset w C (mkLeq (Var z) (mkInt 0)).
Definition aC := part (in_formula w (nth 3 (es 0) e0)).
Definition bC := partB C (out_formula C w (e6 0)).
Definition aB := part (in_formula wC (nth 2 (es 0) e0)).
Definition bB := partB B (out_formula B wC (nth 4 (es 0) e0)).
Definition chk : check_fn := table_check [(q1, SAT mdl); (q2, SAT mdl); ([aC; bC], UNSAT); ([aB; bB], UNSAT)].
Lemma chk_ok : check_ok chk.
Proof. prove_table. Qed.
Definition it : itp_fn := table_itp [([aC], [bC], mkLeq (tv z) (mkInt 0)); ([aB], [bB], mkLeq (mkInt 1) (tv y))].
Lemma it_ok : itp_ok it.
Proof. apply table_itp_ok. repeat (apply Forall_cons; [prove_interpolant|]). constructor. Qed.
Definition t k := eliminate el 0 chk it simple_pred hnodes 10 (g k).
Example translated : option_map (fun r => tr_invalid r d) (t 2) = Some (Some
  [mkStep [] (entry, []) 0; mkStep [0] (A, [VInt 0]) 1; mkStep [1] (A, [VInt 1]) 2; mkStep [0] (C, [VInt 2]) 4; mkStep [2] (B, [VInt 2]) 3; mkStep [4; 3] (exit, []) 5]).
Proof. vm_compute. reflexivity. Qed.
Example translated_solution : exists w', option_map (fun r => tr_valid r w) (t 0) = Some (Some w') /\
  w' B = Some (mkLeq (mkInt 1) (Var y)) /\ w' C = Some (mkLeq (Var z) (mkInt 0)).
Proof. eexists. split; [vm_compute; reflexivity|]. vm_compute. split; reflexivity. Qed.
End ExElim.

(** Without that condition the claim is false of the code: A -> B, not connected to the rest; contracting A leaves B
    without edges, and the lookup of its adjacency lists throws. *)
Theorem C34_terminates_refuted :
  exists g, wf_graph g /\ (forall elim check itp dfuel, eliminate elim 0 check itp simple_pred hnodes dfuel g = None).
Proof.
  exists (mkGraph [mkEdge 1 [ExElim.A] ExElim.B (mkEq (ExElim.tv ExElim.y) (ExElim.sv ExElim.x)); mkEdge 2 [entry] exit tt_false] (pv_of ExElim.reps) 3 0).
  split; [apply graph_check_ok; vm_compute; reflexivity|]. intros elim check itp dfuel. vm_compute. reflexivity.
Qed.
Print Assumptions C34_terminates_refuted.
