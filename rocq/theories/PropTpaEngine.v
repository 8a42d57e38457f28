(** * C59: the whole TPA engine, from the graph to the answer with its witness. *)
From Coq Require Import Permutation.
From Verif Require Import Syntax Solver TransSys TSLemmas KTo1Model FormulaModel NontermProofs Graph GraphOps GraphOpsProofs GraphSem GraphEx SimpleTransModel LinearModel LinearProofs LinearPath LinearTS PropGraph PropChain PropLinear BoolOracle ContractModel ContractSem SingleLoopPath PropSingleLoop.
From Verif Require Import TpaModel TpaQuery TpaFix TpaTop DagModel TpaEngineModel TpaEngineProofs PropTpa PropDag.
Open Scope string_scope.
Open Scope list_scope.
Open Scope nat_scope.

(** The solver gave up on a query of the Houdini procedure. *)
Definition houdini_gave_up (check : check_fn) : Prop := exists ts f c, check (houdini_query ts f c) = UNKNOWN.
(** What an answer must mean: UNSAFE carries a refutation; SAFE means that the error is not derivable, and its witness, if any, is a
    solution of all clauses, unless the solver gave up. *)
Definition engine_answer_ok (check : check_fn) (g : lgraph) (r : eans) : Prop :=
  match r with
  | EAnswer (GASafe w) =>
      (lderivable g (exit, []) -> houdini_gave_up check) /\
      match w with Some w => lsolution g w \/ houdini_gave_up check | None => True end
  | EAnswer (GAUnsafe (Some d)) => lrefutation g d
  | EAnswer (GAUnsafe None) => False
  | EUnknown => True
  end.
(** The graphs the engine is given: labels are formulas, a vertex has at most one loop; in the transition-system branch all vertices can be
    reached; in the single-loop branch the conditions of C36 hold. *)
Record engine_input (force : bool) (nv nid : nat) (g : lgraph) : Prop := {
  ei_wf : lwf g;
  ei_bool : bool_labels g;
  ei_loop : one_loop g;
  ei_ts : is_transition_system g = true -> all_reachable g;
  ei_sl : is_trivial_graph g = false -> is_transition_system g = false -> is_ts_dag g = Some false \/ force = true -> sl_input g /\ no_parallel g /\ fresh_in g nv nid
}.
(** An answer about a transition system, and the invariant made from it. *)
Definition core_ok (check : check_fn) (run : tsys -> out tres) (invariant : tsys -> expl -> out (option term)) : Prop :=
  forall ts r, ts_wf ts = true -> bool_ts ts -> run ts = Ret r ->
  match r with
  | TSafe e => (safe ts \/ houdini_gave_up check) /\ forall inv, invariant ts e = Ret (Some inv) -> safe_inductive ts inv \/ houdini_gave_up check
  | _ => True
  end.
Lemma no_error ts : safe ts -> ~ exists n, error_path ts n.
Proof. intros S [n H]. exact (S n H). Qed.

Section General.
Variables (elim : elim_fn) (qe : qe_fn) (simp : term -> term) (nv nid ctr : nat) (ord : list var -> list var) (check : check_fn).
Variables (run : tsys -> out tres) (invariant : tsys -> expl -> out (option term)) (dag : lgraph -> out gans).
Hypothesis He : elim_ok elim.
Hypothesis Heb : elim_bool elim.
Hypothesis Hq : qe_ok qe.
Hypothesis Hqb : qe_bool qe.
Hypothesis Hs : simp_ok simp.
Hypothesis Ho : forall l, Permutation (ord l) l.
Hypothesis Hc : check_ok check.
Hypothesis Hcore : core_ok check run invariant.
Variable g : lgraph.
Variable force arrays : bool.
Hypothesis Hg : engine_input force nv nid g.
Hypothesis Hdag : forall r, is_ts_dag g = Some true -> dag g = Ret r -> engine_answer_ok check g (EAnswer r).
Lemma system_ok ts path defs r : ts_wf ts = true -> bool_ts ts ->
  (lderivable g (exit, []) -> exists n, error_path ts n) ->
  (forall inv w, safe_inductive ts inv -> defs inv = Some w -> lsolution g w) ->
  (forall n, match path n with PathDerivation d => lrefutation g d | NoPath => False | PathThrows => True end) ->
  system_answer run invariant ts path defs = Ret r -> engine_answer_ok check g r.
Proof.
  intros W B Hd Hi Hp E. unfold system_answer in E. apply obind_ret in E as [x [E1 E]]. pose proof (Hcore ts x W B E1) as C. destruct x as [t n|e|]; [| |discriminate].
  - specialize (Hp n). unfold unsafe_answer in E. destruct (path n); [destruct Hp|discriminate|]. injection E as <-. exact Hp.
  - destruct C as [C1 C2]. apply obind_ret in E as [i [E2 E]].
    assert (X : lderivable g (exit, []) -> houdini_gave_up check) by (intros D; destruct C1 as [C1|C1]; [destruct (no_error ts C1 (Hd D))|exact C1]).
    destruct i as [inv|]; [|injection E as <-; split; auto].
    destruct (defs inv) as [w|] eqn:Ed; [|discriminate]. injection E as <-. split; [exact X|]. destruct (C2 inv E2) as [C|C]; [left; eapply Hi; eauto|right; exact C].
Qed.
Lemma tpa_engine_ok r : tpa_engine elim qe simp nv nid ctr ord check run invariant dag arrays force g = Ret r -> engine_answer_ok check g r.
Proof.
  destruct Hg as [W Hb Hl Hts Hsl]. unfold tpa_engine. destruct (is_trivial_graph g) eqn:Et.
  - pose proof (solve_trivial_ok check g (ledges g) Hc W Et (incl_refl _) (fun e H N => False_ind _ (N H))) as H. unfold solve_trivial.
    destruct (solve_trivial_edges check (ledges g)); intros E; try discriminate; injection E as <-; [|exact H|exact I].
    split; [|left; exact H]. intros D. destruct (lsolution_safe g w W H D).
  - destruct arrays; [intros E; injection E as <-; exact I|]. destruct (is_transition_system g) eqn:Ei.
    + destruct (C44_extraction elim g He W (Hts eq_refl) Ei) as [ts [Ets [Wts H]]]. rewrite Ets. destruct (ensure_no_aux qe ts) as [ts'|] eqn:En; [|discriminate].
      destruct (ensure_no_aux_ok qe Hq ts Wts ts' En) as [W' [N' _]]. destruct (H ts') as [_ [Hd [Hi _]]]; [right; exists qe; auto|].
      apply system_ok; [exact W'| | | |].
      * apply (no_aux_bool qe ts ts' Hqb); [|exact En]. apply (to_ts_bool elim g ts Heb Hb Ets).
      * apply Hd.
      * intros inv w S E. destruct (Hi inv S) as [w' [E' S']]. rewrite E' in E. injection E as <-. exact S'.
      * intros n. apply (ts_path_sound check g n Hc W (Hts eq_refl) Ei).
    + destruct (is_ts_dag g) as [d|] eqn:Ed; [|discriminate]. destruct (d && negb force) eqn:Ef.
      * apply andb_true_iff in Ef as [-> _]. intros E. apply obind_ret in E as [a [Ea E]]. injection E as <-. apply (Hdag a eq_refl Ea).
      * destruct (Hsl eq_refl eq_refl) as [Si [Np Fr]]; [destruct d, force; cbn in Ef; try discriminate; auto|].
        destruct (C36_single_loop elim g nv nid ctr ord He Si Fr Ho) as [ts [Ets [Wts [Hd [Hi _]]]]]. rewrite Ets. apply system_ok; [exact Wts| | | |].
        -- apply (single_loop_bool elim nv nid ctr ord g ts Heb Hb Ets).
        -- apply Hd.
        -- intros inv w S E. specialize (Hi qe simp inv Hq Hs S). rewrite E in Hi. exact Hi.
        -- intros n. apply (sl_path_sound check g nv nid ord n Hc Si Np Fr Ho).
Qed.
End General.
Lemma dag_engine_ok check tsimp g r : dag_answer_ok check tsimp g true r -> engine_answer_ok check g (EAnswer r).
Proof.
  assert (X : houdini_unknown check tsimp g -> houdini_gave_up check) by (intros [v [ts [ts' [f [c [_ [_ E]]]]]]]; exists ts', f, c; exact E).
  destruct r as [w|d]; intros [A B].
  - split; [tauto|]. destruct w; tauto.
  - destruct d; [exact B|discriminate].
Qed.

(** The split version: [run], [invariant] and [dag] are those of the code. *)
Theorem C59_engine_split :
  forall check itp itp2 mbp melim elim lsimp isimp tsimp simp pitp qe nv nid ctr ord arrays force fuel k g r,
    check_ok check -> itp_ok itp -> itp_ok itp2 -> mbp_ok mbp -> mbp_ok melim -> elim_ok elim -> elim_bool elim -> simp_ok lsimp -> simp_ok isimp -> simp_ok tsimp -> simp_ok simp ->
    pitp_ok pitp -> qe_ok qe -> qe_bool qe -> (forall l, Permutation (ord l) l) -> engine_input force nv nid g ->
    tpa_engine elim qe simp nv nid ctr ord check
      (tpa_split check itp itp2 melim isimp tsimp fuel) (tpa_invariant check pitp qe tsimp)
      (fun x => dag_solve check itp mbp lsimp split_object split_new (split_ask check itp itp2 melim isimp k) tsimp x pitp qe true fuel) arrays force g = Ret r ->
    engine_answer_ok check g r.
Proof.
  intros check itp itp2 mbp melim elim lsimp isimp tsimp simp pitp qe nv nid ctr ord arrays force fuel k g r Hc H1 H2 Hm Hme He Heb Hl Hs Ht Hsi Hp Hq Hqb Ho Hg E.
  revert E. apply tpa_engine_ok; try assumption.
  - intros ts x W B E. destruct x as [t n|e|]; try exact I. split.
    + destruct (C11_split_safe check itp itp2 melim isimp tsimp ts fuel e Hc H1 H2 Hme Hs Ht W B E) as [A|[ts' [f [c [_ A]]]]]; [left; exact A|right; exists ts', f, c; exact A].
    + intros inv Ei. destruct (C56_split_invariant check itp itp2 melim isimp tsimp pitp qe ts fuel e inv Hc H1 H2 Hme Hs Ht Hp Hq W B E Ei) as [A|[ts' [f [c [_ A]]]]]; [left; exact A|right; exists ts', f, c; exact A].
  - intros a Ed Ea. destruct Hg as [W Hb Hlo _ _]. apply (dag_engine_ok check tsimp). eapply C58_dag_split with (12 := Hb) (15 := Ea); assumption.
Qed.
Print Assumptions C59_engine_split.

(** The basic version. *)
Theorem C59_engine_basic :
  forall check itp mbp melim elim lsimp isimp tsimp simp pitp qe nv nid ctr ord arrays force fuel k g r,
    check_ok check -> itp_ok itp -> mbp_ok mbp -> mbp_ok melim -> elim_ok elim -> elim_bool elim -> simp_ok lsimp -> simp_ok isimp -> simp_ok tsimp -> simp_ok simp ->
    pitp_ok pitp -> qe_ok qe -> qe_bool qe -> (forall l, Permutation (ord l) l) -> engine_input force nv nid g ->
    tpa_engine elim qe simp nv nid ctr ord check
      (tpa_basic check itp melim isimp tsimp fuel) (tpa_invariant check pitp qe tsimp)
      (fun x => dag_solve check itp mbp lsimp basic_object basic_new (basic_ask check itp melim isimp k) tsimp x pitp qe true fuel) arrays force g = Ret r ->
    engine_answer_ok check g r.
Proof.
  intros check itp mbp melim elim lsimp isimp tsimp simp pitp qe nv nid ctr ord arrays force fuel k g r Hc H1 Hm Hme He Heb Hl Hs Ht Hsi Hp Hq Hqb Ho Hg E.
  revert E. apply tpa_engine_ok; try assumption.
  - intros ts x W B E. destruct x as [t n|e|]; try exact I. split.
    + destruct (C11_basic_safe check itp melim isimp tsimp ts fuel e Hc H1 Hme Hs Ht W B E) as [A|[ts' [f [c [_ A]]]]]; [left; exact A|right; exists ts', f, c; exact A].
    + intros inv Ei. destruct (C56_basic_invariant check itp melim isimp tsimp pitp qe ts fuel e inv Hc H1 Hme Hs Ht Hp Hq W B E Ei) as [A|[ts' [f [c [_ A]]]]]; [left; exact A|right; exists ts', f, c; exact A].
  - intros a Ed Ea. destruct Hg as [W Hb Hlo _ _]. apply (dag_engine_ok check tsimp). eapply C58_dag_basic with (11 := Hb) (13 := Ea); assumption.
Qed.
Print Assumptions C59_engine_basic.

(** ** Concrete runs through all branches *)
Module ExEngine.
Import ExDag.
Definition idt (t : term) := t.
Lemma idt_ok : simp_ok idt.
Proof. split; [tauto|auto]. Qed.
Lemma bqe_bool : qe_bool bqe.
Proof.
  intros f keep t _. unfold bqe. destruct (forallb boolv (nvars f)) eqn:B; [|discriminate]. intros E. injection E as <-. rewrite forallb_forall in B.
  apply is_bool_all; [auto|]. intros t Ht. apply in_map_iff in Ht as [m [<- _]].
  apply is_bool_all; [auto|]. intros u Hu. apply in_map_iff in Hu as [v [<- Hv]]. unfold kept in Hv. apply filter_In in Hv as [Hv _]. apply B in Hv. unfold boolv in Hv.
  assert (X : is_bool (Var v) = true) by (unfold is_bool; cbn [typeof]; destruct (vsort v); [reflexivity|discriminate..]).
  destruct (asb _); [exact X|]. unfold mkNot. rewrite FormulaProofs.is_bool_not. exact X.
Qed.
Definition C : sym := 5.
(** A transition system with an error; a safe one; two cyclic graphs, the first one with an error. *)
Definition h1 := mkLGraph
  [mkLEdge 1 entry A (Var (nxt a)); mkLEdge 2 A A (mkEq (Var (nxt a)) (mkNot (Var (cur a)))); mkLEdge 5 A exit (mkNot (Var (cur a)))] pv.
Definition h2 := mkLGraph
  [mkLEdge 1 entry A (Var (nxt a)); mkLEdge 2 A A (mkEq (Var (nxt a)) (Var (cur a))); mkLEdge 5 A exit (mkNot (Var (cur a)))] pv.
Definition c1 := mkLGraph
  [mkLEdge 1 entry C tt_true; mkLEdge 2 C A tt_true; mkLEdge 3 A C (Var (cur a)); mkLEdge 5 A exit (mkNot (Var (cur a)))] pv.
Definition c2 := mkLGraph
  [mkLEdge 1 entry C tt_true; mkLEdge 2 C A (Var (nxt a)); mkLEdge 3 A C (Var (cur a)); mkLEdge 5 A exit (mkNot (Var (cur a)))] pv.
Definition graphs := [h1; h2; g; g2; c1; c2].
Lemma x_lwf x : In x graphs -> lwf x.
Proof.
  intros Hx. assert (R : rep_wf pv) by (apply rep_check_ok; vm_compute; reflexivity).
  destruct Hx as [<-|[<-|[<-|[<-|[<-|[<-|[]]]]]]]; (split; [exact R|cbn; repeat constructor; cbn; intuition discriminate| | |]).
  all: try (intros e He; cbn in He; decompose [or] He; subst; cbn; try discriminate; try tauto; fail).
  all: intros e v He Hv; cbn in He; decompose [or] He; subst; cbn in Hv; decompose [or] Hv; subst; try tauto; first [solve [left; vm_compute; auto] | solve [right; left; vm_compute; auto]].
Qed.
Lemma c_input x : In x [c1; c2] -> sl_input x /\ no_parallel x /\ fresh_in x 4 6.
Proof.
  intros Hx. assert (W : lwf x) by (apply x_lwf; destruct Hx as [<-|[<-|[]]]; cbn; auto 10).
  assert (E : exists l, x = mkLGraph [mkLEdge 1 entry C tt_true; mkLEdge 2 C A l; mkLEdge 3 A C (Var (cur a)); mkLEdge 5 A exit (mkNot (Var (cur a)))] pv /\ (l = tt_true \/ l = Var (nxt a)))
    by (destruct Hx as [<-|[<-|[]]]; eexists; split; [reflexivity|auto|reflexivity|auto]).
  destruct E as [l [-> El]]. split; [|split].
  - split; [exact W| | | |].
    + apply ExSl.names_check; [|destruct El as [->| ->]; vm_compute; reflexivity]. intros p v Hv. apply pv_of_in in Hv. cbn in Hv. destruct Hv as [<-|[<-|[]]]; reflexivity.
    + eexists. split; [left; reflexivity|]. split; [reflexivity|discriminate].
    + eexists. split; [right; right; right; left; reflexivity|]. split; [reflexivity|discriminate].
    + intros e [<-|[<-|[<-|[<-|[]]]]]; cbn; intros E F; discriminate.
  - intros e e' [<-|[<-|[<-|[<-|[]]]]] [<-|[<-|[<-|[<-|[]]]]]; cbn; intros E F; try discriminate; reflexivity.
  - split; [|intros e [<-|[<-|[<-|[<-|[]]]]]; discriminate]. intros H. apply lvertices_spec in H. vm_compute in H. repeat (destruct H as [H|H]; [discriminate H|]). destruct H.
Qed.
Lemma x_input x : In x graphs -> engine_input false 4 6 x.
Proof.
  intros Hx. split; [apply x_lwf, Hx| | | |].
  - intros e He. destruct Hx as [<-|[<-|[<-|[<-|[<-|[<-|[]]]]]]]; cbn in He; decompose [or] He; subst; try reflexivity; contradiction.
  - intros e l He Hl H1 H2 H3. destruct Hx as [<-|[<-|[<-|[<-|[<-|[<-|[]]]]]]]; cbn in He, Hl; decompose [or] He; subst; try contradiction; decompose [or] Hl; subst; try contradiction; reflexivity || discriminate.
  - intros Ht. assert (X : x = h1 \/ x = h2) by (destruct Hx as [<-|[<-|[<-|[<-|[<-|[<-|[]]]]]]]; auto; vm_compute in Ht; discriminate).
    assert (P : path x entry A) by (destruct X as [->| ->]; (eapply (path_edge _ (mkLEdge 1 entry A (Var (nxt a)))); [left; reflexivity|constructor])).
    intros p [->|[->|[e [He Hp]]]]; [right; constructor|left; reflexivity|].
    destruct X as [->| ->]; destruct He as [<-|[<-|[<-|[]]]]; cbn in Hp; destruct Hp as [->| ->]; auto; right; constructor.
  - intros _ _ [Hd|Hd]; [|discriminate]. apply c_input. destruct Hx as [<-|[<-|[<-|[<-|[<-|[<-|[]]]]]]]; cbn; auto; vm_compute in Hd; discriminate.
Qed.
Definition split force fuel x := tpa_engine (fun _ t => t) bqe idt 4 6 100 (fun l => l) bcheck
  (tpa_split bcheck bitp bitp bmbp idt idt fuel) (tpa_invariant bcheck (fun _ => None) bqe idt)
  (fun x => dag_solve bcheck bitp bmbp idt split_object split_new (split_ask bcheck bitp bitp bmbp idt 20) idt x (fun _ => None) bqe true fuel) false force x.
Definition basic force fuel x := tpa_engine (fun _ t => t) bqe idt 4 6 100 (fun l => l) bcheck
  (tpa_basic bcheck bitp bmbp idt idt fuel) (tpa_invariant bcheck (fun _ => None) bqe idt)
  (fun x => dag_solve bcheck bitp bmbp idt basic_object basic_new (basic_ask bcheck bitp bmbp idt 20) idt x (fun _ => None) bqe true fuel) false force x.
(** The steps of a refutation, or whether there is a witness for SAFE. *)
Definition show (x : out eans) : option (list (nat * list value) + bool) :=
  match x with
  | Ret (EAnswer (GASafe w)) => Some (inr (match w with Some _ => true | None => false end))
  | Ret (EAnswer (GAUnsafe (Some d))) => Some (inl (map Graph.st_fact d))
  | _ => None
  end.
(** The hypotheses are met, and all branches answer: the oracles are complete, so that the answers are right without condition. *)
Example C59_nonvacuous :
  check_ok bcheck /\ itp_ok bitp /\ mbp_ok bmbp /\ elim_ok (fun _ t => t) /\ elim_bool (fun _ t => t) /\ simp_ok idt /\ pitp_ok (fun _ => None) /\ qe_ok bqe /\ qe_bool bqe /\
  (forall x, In x graphs -> engine_input false 4 6 x) /\
  map (fun x => show (split false 40 x)) [h1; h2; g; g2; c1; c2] =
    [Some (inl [(entry, []); (A, [VBool true]); (A, [VBool false]); (exit, [])]); Some (inr true);
     Some (inl [(entry, []); (A, [VBool true]); (A, [VBool false]); (B, [VBool false]); (exit, [])]); Some (inr true);
     Some (inl [(entry, []); (C, []); (A, [VBool false]); (exit, [])]); Some (inr true)] /\
  map (fun x => show (basic false 40 x)) [h1; h2; g; g2; c1] =
    [Some (inl [(entry, []); (A, [VBool true]); (A, [VBool false]); (exit, [])]); Some (inr true);
     Some (inl [(entry, []); (A, [VBool true]); (A, [VBool false]); (B, [VBool false]); (exit, [])]); Some (inr true);
     Some (inl [(entry, []); (C, []); (A, [VBool false]); (exit, [])])].
Proof.
  destruct hypotheses as [H1 [H2 [H3 [_ [H5 [H6 _]]]]]].
  split; [exact H1|]. split; [exact H2|]. split; [exact H3|]. split; [apply elim_id_ok|]. split; [intros keep t Ht; exact Ht|]. split; [apply idt_ok|]. split; [exact H5|]. split; [exact H6|].
  split; [apply bqe_bool|]. split; [apply x_input|]. split; vm_compute; reflexivity.
Qed.
End ExEngine.
