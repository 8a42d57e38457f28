(** * C58: transition power abstraction on directed acyclic graphs of loops. *)
From Verif Require Import Syntax Solver TransSys TSLemmas KTo1Model FormulaModel NontermProofs Graph GraphOps GraphSem GraphEx LinearModel LinearPath LinearTS PropGraph BoolOracle TpaModel TpaFix TpaTop DagModel DagSys DagProofs DagTop.
From Verif Require ContractSem.
From Verif Require Import PropTpa.
Open Scope string_scope.
Open Scope list_scope.
Open Scope nat_scope.

(** A vertex has at most one loop. *)
Definition one_loop (g : lgraph) : Prop :=
  forall e l, In e (ledges g) -> In l (ledges g) -> lfrom e = lto e -> lfrom l = lfrom e -> lto l = lto e -> e = l.
Definition bool_labels (g : lgraph) : Prop := forall e, In e (ledges g) -> is_bool (lfla e) = true.
(** The solver gave up on a query of the Houdini procedure for the loop of some vertex. *)
Definition houdini_unknown (check : check_fn) (tsimp : term -> term) (g : lgraph) : Prop :=
  exists v ts ts' f c, vertex_ts g v = Some ts /\ normal_ts tsimp ts = Some ts' /\ check (houdini_query ts' f c) = UNKNOWN.
(** What an answer must mean. *)
Definition dag_answer_ok (check : check_fn) (tsimp : term -> term) (g : lgraph) (wit : bool) (r : gans) : Prop :=
  match r with
  | GASafe w =>
      (lderivable g (exit, []) -> houdini_unknown check tsimp g) /\
      match w with Some w => lsolution g w \/ houdini_unknown check tsimp g | None => wit = false end
  | GAUnsafe d =>
      lderivable g (exit, []) /\ match d with Some d => lrefutation g d | None => wit = false end
  end.
Lemma gave_up_unknown check tsimp g : some_gave_up check tsimp g -> houdini_unknown check tsimp g.
Proof. intros [v [ts [ts' [A [B [f [c C]]]]]]]. exists v, ts, ts', f, c. auto. Qed.

(** The split version.  UNSAFE: the error is derivable and the witness is a refutation.  SAFE: the error is not derivable and the witness is a
    solution of all clauses, unless the solver gave up on a query of the Houdini procedure. *)
Theorem C58_dag_split :
  forall check itp itp2 mbp elim lsimp isimp tsimp pitp qe g wit k fuel r,
    check_ok check -> itp_ok itp -> itp_ok itp2 -> mbp_ok mbp -> mbp_ok elim -> simp_ok lsimp -> simp_ok isimp -> simp_ok tsimp -> pitp_ok pitp -> qe_ok qe ->
    lwf g -> bool_labels g -> one_loop g -> is_ts_dag g = Some true ->
    dag_solve check itp mbp lsimp split_object split_new (split_ask check itp itp2 elim isimp k) tsimp g pitp qe wit fuel = Ret r ->
    dag_answer_ok check tsimp g wit r.
Proof.
  intros check itp itp2 mbp elim lsimp isimp tsimp pitp qe g wit k fuel r Hc H1 H2 Hm He Hl Hs Ht Hp Hq W Hb Np Dg E.
  pose proof (dag_solve_ok check Hc itp H1 mbp Hm lsimp Hl _ _ _ _ _ (split_object_ok check itp itp2 elim isimp k Hc H1 H2 He Hs) tsimp Ht pitp Hp qe Hq g W Hb Np wit fuel r (fun _ => dag_acyclic g W Dg) E) as H.
  destruct r as [w|d]; [|exact H]. destruct H as [A B]. split; [intros D; apply gave_up_unknown, A, D|]. destruct w; [|exact B]. destruct B as [B|B]; [right; apply gave_up_unknown, B|left; exact B].
Qed.
Print Assumptions C58_dag_split.

(** The basic version, for any graph on which the search runs. *)
Theorem C58_dag_basic :
  forall check itp mbp elim lsimp isimp tsimp pitp qe g wit k fuel r,
    check_ok check -> itp_ok itp -> mbp_ok mbp -> mbp_ok elim -> simp_ok lsimp -> simp_ok isimp -> simp_ok tsimp -> pitp_ok pitp -> qe_ok qe ->
    lwf g -> bool_labels g -> one_loop g ->
    dag_solve check itp mbp lsimp basic_object basic_new (basic_ask check itp elim isimp k) tsimp g pitp qe wit fuel = Ret r ->
    dag_answer_ok check tsimp g wit r.
Proof.
  intros check itp mbp elim lsimp isimp tsimp pitp qe g wit k fuel r Hc H1 Hm He Hl Hs Ht Hp Hq W Hb Np E.
  pose proof (dag_solve_ok check Hc itp H1 mbp Hm lsimp Hl _ _ _ _ _ (basic_object_ok check itp elim isimp k Hc H1 He Hs) tsimp Ht pitp Hp qe Hq g W Hb Np wit fuel r ltac:(discriminate) E) as H.
  destruct r as [w|d]; [|exact H]. destruct H as [A B]. split; [intros D; apply gave_up_unknown, A, D|]. destruct w; [|exact B]. destruct B as [B|B]; [right; apply gave_up_unknown, B|left; exact B].
Qed.
Print Assumptions C58_dag_basic.

(** The split version knows the right number of iterations of every loop on the path to the error: where the search without witness answers
    UNSAFE, the search with witness does not end with an exception, unless the solver gives up on a query. *)
Theorem C58_split_witness :
  forall check itp itp2 mbp elim lsimp isimp tsimp pitp qe g k fuel,
    check_ok check -> itp_ok itp -> itp_ok itp2 -> mbp_ok mbp -> mbp_ok elim -> simp_ok lsimp -> simp_ok isimp -> simp_ok tsimp ->
    lwf g -> bool_labels g -> one_loop g -> is_ts_dag g = Some true ->
    dag_solve check itp mbp lsimp split_object split_new (split_ask check itp itp2 elim isimp k) tsimp g pitp qe false fuel = Ret (GAUnsafe None) ->
    dag_solve check itp mbp lsimp split_object split_new (split_ask check itp itp2 elim isimp k) tsimp g pitp qe true fuel = Exc ->
    exists q, check q = UNKNOWN.
Proof.
  intros check itp itp2 mbp elim lsimp isimp tsimp pitp qe g k fuel Hc H1 H2 Hm He Hl Hs Ht W Hb Np Dg E K.
  exact (dag_witness_ok check Hc itp H1 mbp Hm lsimp Hl _ _ _ _ _ (split_object_ok check itp itp2 elim isimp k Hc H1 H2 He Hs) tsimp Ht pitp qe g W Hb fuel eq_refl (dag_acyclic g W Dg) E K).
Qed.
Print Assumptions C58_split_witness.

(** ** Concrete runs *)
Module ExDag.
Definition a := mkVar "a" TBase SBool.
Definition b := mkVar "b" TBase SBool.
Definition A : sym := 2. Definition B : sym := 3.
Definition pv := pv_of [(A, [a]); (B, [b])].
(** a starts true and alternates, b copies a and then keeps its value; error when b is false: reached with one iteration of the first loop. *)
Definition g := mkLGraph
  [mkLEdge 1 entry A (Var (nxt a)); mkLEdge 2 A A (mkEq (Var (nxt a)) (mkNot (Var (cur a)))); mkLEdge 3 A B (mkEq (Var (nxt b)) (Var (cur a)));
   mkLEdge 4 B B (mkEq (Var (nxt b)) (Var (cur b))); mkLEdge 5 B exit (mkNot (Var (cur b)))] pv.
(** The same with a first loop that keeps its value. *)
Definition g2 := mkLGraph
  [mkLEdge 1 entry A (Var (nxt a)); mkLEdge 2 A A (mkEq (Var (nxt a)) (Var (cur a))); mkLEdge 3 A B (mkEq (Var (nxt b)) (Var (cur a)));
   mkLEdge 4 B B (mkEq (Var (nxt b)) (Var (cur b))); mkLEdge 5 B exit (mkNot (Var (cur b)))] pv.
(** Two loops at one vertex, the second one leads to the error. *)
Definition g3 := mkLGraph
  [mkLEdge 1 entry A (Var (nxt a)); mkLEdge 2 A A (mkEq (Var (nxt a)) (Var (cur a))); mkLEdge 3 A A (mkNot (Var (nxt a))); mkLEdge 4 A exit (mkNot (Var (cur a)))] pv.
Lemma g_lwf x : In x [g; g2; g3] -> lwf x.
Proof.
  intros Hx. assert (R : rep_wf pv) by (apply rep_check_ok; vm_compute; reflexivity).
  destruct Hx as [<-|[<-|[<-|[]]]]; (split; [exact R|cbn; repeat constructor; cbn; intuition discriminate| | |]).
  all: try (intros e He; cbn in He; decompose [or] He; subst; cbn; try discriminate; try tauto; fail).
  all: intros e v He Hv; cbn in He; decompose [or] He; subst; cbn in Hv; decompose [or] Hv; subst; try tauto; first [solve [left; vm_compute; auto] | solve [right; left; vm_compute; auto]].
Qed.
Definition split x wit := dag_solve bcheck bitp bmbp (fun t => t) split_object split_new (split_ask bcheck bitp bitp bmbp (fun t => t) 20) (fun t => t) x (fun _ => None) bqe wit 40.
Definition basic x wit := dag_solve bcheck bitp bmbp (fun t => t) basic_object basic_new (basic_ask bcheck bitp bmbp (fun t => t) 20) (fun t => t) x (fun _ => None) bqe wit 40.
Definition show (x : out gans) : option (list (option term)) := match x with Ret (GASafe (Some w)) => Some (map w [entry; A; B; exit]) | _ => None end.
Definition error : derivation :=
  [mkStep [] (entry, []) 0; mkStep [0] (A, [VBool true]) 1; mkStep [1] (A, [VBool false]) 2; mkStep [2] (B, [VBool false]) 3; mkStep [3] (exit, []) 5].
Example run_unsafe : split g true = Ret (GAUnsafe (Some error)) /\ basic g true = Ret (GAUnsafe (Some error)) /\ split g false = Ret (GAUnsafe None).
Proof. vm_compute. auto. Qed.
Example run_safe : show (split g2 true) = Some [Some tt_true; Some (mkOr [mkAnd [Var a]]); Some (mkOr [mkAnd [Var b]]); Some tt_false] /\
  show (basic g2 true) = Some [Some tt_true; Some (mkOr [mkAnd [Var a]]); Some (mkOr [mkAnd [Var b]]); Some tt_false] /\ split g2 false = Ret (GASafe None).
Proof. vm_compute. auto. Qed.
Lemma bool_x x : In x [g; g2; g3] -> bool_labels x.
Proof. intros [<-|[<-|[<-|[]]]] e He; cbn in He; decompose [or] He; subst; try reflexivity; contradiction. Qed.
Lemma loop_x x : In x [g; g2] -> one_loop x.
Proof.
  intros [<-|[<-|[]]] e l He Hl H1 H2 H3; cbn in He, Hl; decompose [or] He; subst; try contradiction; decompose [or] Hl; subst; try contradiction; reflexivity || discriminate.
Qed.
(** The hypotheses of the theorems are met. *)
Example hypotheses : check_ok bcheck /\ itp_ok bitp /\ mbp_ok bmbp /\ simp_ok (fun t => t) /\ pitp_ok (fun _ => None) /\ qe_ok bqe /\
  (forall x, In x [g; g2] -> lwf x /\ bool_labels x /\ one_loop x /\ is_ts_dag x = Some true).
Proof.
  split; [apply bcheck_ok|]. split; [apply bitp_ok|]. split; [apply bmbp_ok|]. split; [split; [tauto|auto]|]. split; [discriminate|]. split; [apply bqe_ok|].
  intros x Hx. split; [apply g_lwf; destruct Hx as [<-|[<-|[]]]; cbn; auto|]. split; [apply bool_x; destruct Hx as [<-|[<-|[]]]; cbn; auto|]. split; [apply loop_x, Hx|].
  destruct Hx as [<-|[<-|[]]]; vm_compute; reflexivity.
Qed.
End ExDag.

Lemma lsolution_safe g w : lwf g -> lsolution g w -> ~ lderivable g (exit, []).
Proof.
  intros W S D. apply ContractSem.lsol_facts in S as [V [[d0 [E0 H0]] [[d1 [E1 H1]] HE]]].
  assert (T : forall f, lderivable g f -> ContractSem.ltrue g w f).
  { intros f H. induction H as [|e f f' He _ IH F]; [exists d0; split; [exact E0|intros r _; apply H0]|]. destruct (HE e He) as [_ [_ X]]. eapply X; eauto. }
  destruct (T _ D) as [d [Ed Hd]]. cbn in Ed, Hd. rewrite E1 in Ed. injection Ed as <-. apply (H1 (fun _ => VBool true)), Hd. rewrite (rep_exit _ (lwf_rep g W)). reflexivity.
Qed.
(** A vertex may pass [isTransitionSystemDAG] with two loops; only the first one is looked at, and the answer SAFE is wrong. *)
Theorem C58_two_loops_refuted :
  exists check itp mbp qe g fuel k w,
    check_ok check /\ itp_ok itp /\ mbp_ok mbp /\ qe_ok qe /\ lwf g /\ bool_labels g /\ is_transition_system g = false /\ is_ts_dag g = Some true /\
    dag_solve check itp mbp (fun t => t) split_object split_new (split_ask check itp itp mbp (fun t => t) k) (fun t => t) g (fun _ => None) qe true fuel = Ret (GASafe (Some w)) /\
    lderivable g (exit, []) /\ ~ lsolution g w.
Proof.
  destruct ExDag.hypotheses as [H1 [H2 [H3 [_ [_ [H6 _]]]]]].
  assert (D : lderivable ExDag.g3 (exit, [])).
  { pose (s (x : bool) := fun _ : var => VBool x).
    assert (D1 : lderivable ExDag.g3 (ExDag.A, [VBool true])).
    { eapply lder_edge with (e := mkLEdge 1 entry ExDag.A (Var (nxt ExDag.a))); [left; reflexivity|constructor|]. exists (s true). split; [reflexivity|]. split; reflexivity. }
    assert (D2 : lderivable ExDag.g3 (ExDag.A, [VBool false])).
    { eapply lder_edge with (e := mkLEdge 3 ExDag.A ExDag.A (mkNot (Var (nxt ExDag.a)))); [right; right; left; reflexivity|exact D1|]. exists (fun v => VBool (negb (var_eqb v (nxt ExDag.a)))).
      split; [reflexivity|]. split; reflexivity. }
    eapply lder_edge with (e := mkLEdge 4 ExDag.A exit (mkNot (Var (cur ExDag.a)))); [right; right; right; left; reflexivity|exact D2|]. exists (s false). split; [reflexivity|]. split; reflexivity. }
  destruct (ExDag.split ExDag.g3 true) as [[[w|]|]| |] eqn:E; try (exfalso; vm_compute in E; discriminate E).
  exists bcheck, bitp, bmbp, bqe, ExDag.g3, 40, 20, w. repeat (split; [first [assumption | apply ExDag.g_lwf; cbn; auto | apply ExDag.bool_x; cbn; auto | vm_compute; reflexivity | exact E]|]).
  intros S. apply (lsolution_safe _ _ (ExDag.g_lwf _ (or_intror (or_intror (or_introl eq_refl)))) S D).
Qed.
Print Assumptions C58_two_loops_refuted.
