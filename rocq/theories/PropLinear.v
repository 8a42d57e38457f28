(** * C44, C45, C53: linear graphs and transition systems. *)
From Verif Require Import Syntax Solver TransSys TSLemmas KindModel PropKind ExTac Graph GraphOps GraphOpsProofs DfsProofs GraphSem GraphEx SimpleTransModel MergeModel MergeProofs LinearModel LinearProofs LinearPath LinearTS PropGraph PropChain.
Open Scope list_scope.
Open Scope nat_scope.

(** ** C53 *)
(** Converting a hypergraph without hyperedges to a linear graph changes neither the derivable facts, nor the solutions, nor
    the refutations (clause ids included), and gives a well-formed linear graph. *)
Theorem C53_to_linear :
  forall g, wf_graph g -> is_normal g = true -> aux_versioned g ->
    lwf (to_normal g) /\
    (forall p vs, derivable g p vs <-> lderivable (to_normal g) (p, vs)) /\
    (forall w, solution g w <-> lsolution (to_normal g) w) /\
    (forall d, refutation g d <-> lrefutation (to_normal g) d).
Proof.
  intros g W N A. split; [apply normal_wf; assumption|]. split; [intros p vs; apply (normal_derivable g W N A (p, vs))|].
  split; [apply normal_solution; assumption|apply normal_refutation; assumption].
Qed.
Print Assumptions C53_to_linear.

(** ** C45 *)
Lemma edge_path_edges g p ids q : edge_path g p ids q -> exists es, ids = map lid es /\ (forall e, In e es -> In e (ledges g)) /\ connected p es q.
Proof.
  intros H. induction H as [v|e l w He _ [es [-> [H1 H2]]]]; [exists []; split; [reflexivity|split; [intros e []|reflexivity]]|].
  exists (e :: es). split; [reflexivity|]. split; [intros x [<-|Hx]; auto|]. split; [reflexivity|exact H2].
Qed.
(** For every path from entry to exit, given by edge ids: a derivation that is returned is a refutation of the graph whose
    steps use the edges of the path in order; if none is returned, the facts of no derivation follow the path, or the solver
    gave up on the one query. *)
Theorem C45_error_path :
  forall check g ids,
    check_ok check -> lwf g -> edge_path g entry ids exit ->
    match from_error_path check g ids with
    | PathDerivation d => lrefutation g d /\ map st_clause d = no_id :: ids
    | NoPath => False
    | PathThrows => (~ exists d, lrefutation g d /\ map st_clause d = no_id :: ids /\
                        forall i s, nth_error d (S i) = Some s -> st_premises s = [i]) \/
                    exists q, check q = UNKNOWN
    end.
Proof.
  intros check g ids Hc W P. destruct (edge_path_edges g entry ids exit P) as [es [-> [Hin C]]].
  pose proof (from_error_path_ok g W check es Hc Hin C) as H. destruct (from_error_path check g (map lid es)); [exact H| |exact H].
  destruct H as [H|H]; [left|right; eauto]. intros [d [[R1 [n [R2 R3]] R4] [Ed Ep]]]. apply H. clear H Hc check P C.
  destruct d as [|s0 d]; [discriminate|]. cbn [map] in Ed. injection Ed as _ Ed. cbn in R1. injection R1 as R1.
  assert (G : forall k l, skipn k (s0 :: d) = l -> forall es' f, map st_clause (tl l) = map lid es' -> (forall e, In e es' -> In e (ledges g)) ->
     option_map st_fact (nth_error (s0 :: d) k) = Some f -> lruns g es' f (exit, [])).
  { intros k l. revert k. induction l as [|x l IH]; intros k El es' f Ee Hi Ef.
    - exfalso. assert (X : nth_error (s0 :: d) k = None).
      { apply nth_error_None. assert (L : length (skipn k (s0 :: d)) = 0) by (rewrite El; reflexivity). rewrite skipn_length in L. lia. }
      rewrite X in Ef. discriminate.
    - assert (Ex : nth_error (s0 :: d) k = Some x).
      { rewrite <- (firstn_skipn k (s0 :: d)), El. assert (Lk : length (skipn k (s0 :: d)) > 0) by (rewrite El; cbn; lia). rewrite skipn_length in Lk.
        rewrite nth_error_app2; rewrite firstn_length, Nat.min_l by lia; [|lia]. rewrite Nat.sub_diag. reflexivity. }
      assert (El' : skipn (S k) (s0 :: d) = l).
      { clear - El. revert El. generalize (s0 :: d). intros m. revert k. induction m as [|y m IHm]; intros k E; [destruct k; discriminate|].
        destruct k as [|k]; cbn in E |- *; [injection E as _ ->; reflexivity|]. destruct m; [destruct k; discriminate|]. apply IHm, E. }
      rewrite Ex in Ef. cbn in Ef. injection Ef as <-. destruct l as [|y l].
      + destruct es' as [|? ?]; [|discriminate]. assert (k = n).
        { assert (L : length (skipn (S k) (s0 :: d)) = 0) by (rewrite El'; reflexivity). rewrite skipn_length in L.
          assert (k < length (s0 :: d)) by (apply nth_error_Some; congruence). lia. }
        subst. rewrite Ex in R3. cbn in R3. injection R3 as R3. rewrite R3. constructor.
      + cbn [tl map] in Ee. destruct es' as [|e es']; [discriminate|]. cbn [map] in Ee. injection Ee as Ee1 Ee2.
        assert (Ey : nth_error (s0 :: d) (S k) = Some y).
        { cbn [nth_error]. cbn [skipn] in El'. rewrite <- (firstn_skipn k d), El'. assert (Lk : length (skipn k d) > 0) by (rewrite El'; cbn; lia). rewrite skipn_length in Lk.
          rewrite nth_error_app2; rewrite firstn_length, Nat.min_l by lia; [|lia]. rewrite Nat.sub_diag. reflexivity. }
        destruct (R4 (S k) y (Nat.lt_0_succ k) Ey) as [e' [j [f0 [H1 [H2 [H3 [H4 [H5 H6]]]]]]]]. rewrite (Ep k y Ey) in H3. injection H3 as <-.
        rewrite Ex in H5. cbn in H5. injection H5 as <-.
        assert (e' = e).
        { assert (X : lfind g (lid e') = lfind g (lid e)) by congruence.
          rewrite (lfind_in g e' (lwf_ids g W) H1), (lfind_in g e (lwf_ids g W) (Hi e (or_introl eq_refl))) in X. congruence. }
        subst e'. econstructor; [exact H1|exact H6|]. apply (IH (S k) El' es' (st_fact y)); [exact Ee2|intros z Hz; apply Hi; right; exact Hz|].
        rewrite Ey. reflexivity. }
  apply (G 0 (s0 :: d) eq_refl es (entry, [])); [exact Ed|exact Hin|]. cbn. rewrite R1. reflexivity.
Qed.
Print Assumptions C45_error_path.

(** ** C44 *)
(** The system extracted from a transition-system-shaped graph, and the same after the removal of auxiliary variables. *)
Theorem C44_extraction :
  forall elim g,
    elim_ok elim -> lwf g -> all_reachable g -> is_transition_system g = true ->
    exists ts, to_transition_system elim g = Some ts /\ ts_wf ts = true /\
    forall ts', ts' = ts \/ (exists qe, qe_ok qe /\ ensure_no_aux qe ts = Some ts' /\ no_aux ts' = true) ->
      ts_wf ts' = true /\
      (lderivable g (exit, []) <-> exists n, error_path ts' n) /\
      (forall inv, safe_inductive ts' inv -> exists w, from_ts_invariant g ts' inv = Some w /\ lsolution g w) /\
      (forall check n, check_ok check -> error_path ts' n ->
         match from_ts_steps check g n with
         | PathDerivation d => lrefutation g d
         | PathThrows => exists q, check q = UNKNOWN
         | NoPath => False
         end).
Proof.
  intros elim g He W Re Ht. destruct (is_ts_shape g (lwf_ids g W) Re Ht) as [b [e0 [e1 [e2 Sh]]]].
  exists (the_ts g b e0 e1 e2 elim). split; [apply to_ts_ok; assumption|]. split; [apply the_ts_wf; assumption|]. intros ts' Hts.
  assert (X : ts_wf ts' = true /\ same_ts g b e0 e1 e2 elim ts').
  { destruct Hts as [->|[qe [Hq [E _]]]]; [split; [apply the_ts_wf; assumption|apply the_ts_same]|].
    destruct (ensure_no_aux_ok qe Hq _ (the_ts_wf g b e0 e1 e2 W Sh elim He) ts' E) as [H1 [_ [H2 [H3 [H4 H5]]]]]. split; [exact H1|]. split; assumption. }
  destruct X as [Wf St]. split; [exact Wf|]. split; [apply (derivable_error g b e0 e1 e2 W Sh elim He ts' St)|]. split.
  - intros inv Hi. eexists. unfold from_ts_invariant. rewrite Ht, (find_body g b e0 e1 e2 Sh). split; [reflexivity|].
    rewrite (same_sv g b e0 e1 e2 elim ts' St). apply (invariant_solution g b e0 e1 e2 W Sh elim He ts' St inv Hi).
  - intros check n Hc Ep. unfold from_ts_steps. rewrite (path_from_ts_ok g b e0 e1 e2 W Sh n Ht).
    pose proof (from_error_path_ok g W check (error_edges e0 e1 e2 n) Hc (error_edges_in g b e0 e1 e2 Sh n) (error_edges_connected g b e0 e1 e2 Sh n)) as H.
    destruct (from_error_path check g (map lid (error_edges e0 e1 e2 n))); [exact H| |apply H].
    destruct H as [H|H]; [|eauto]. exfalso. apply H. apply (error_path_runs g b e0 e1 e2 W Sh elim He ts' St n), Ep.
Qed.
Print Assumptions C44_extraction.

(** What an engine on transition systems may answer. *)
Definition ts_answer_ok (ts : tsys) (r : tsresult) : Prop :=
  match r with TSafe inv => safe_inductive ts inv | TUnsafe n => error_path ts n | TUnknown => True end.
Definition graph_answer_ok (g : hgraph) (check : check_fn) (r : vresult) : Prop :=
  match r with
  | VSafe w => solution g w
  | VUnsafe d => refutation g d
  | VNoWitness => False
  | VUnknown => True
  | VThrow => exists q, check q = UNKNOWN
  end.
Lemma solve_trivial_ok check g es : check_ok check -> lwf g -> is_trivial_graph g = true -> incl es (ledges g) ->
  (forall e, In e (ledges g) -> ~ In e es -> forall r, ~ holds r (lfla e)) ->
  match solve_trivial_edges check es with VSafe w => lsolution g w | VUnsafe d => lrefutation g d | VUnknown => True | _ => False end.
Proof.
  intros Hc W Tr. unfold is_trivial_graph in Tr. rewrite forallb_forall in Tr. revert es.
  induction es as [|e es IH]; intros In1 Un; cbn [solve_trivial_edges].
  - split.
    + intros p d E v Hv. unfold trivial_defs in E. destruct (Nat.eqb p entry); [injection E as <-; destruct Hv|]. destruct (Nat.eqb p exit); [injection E as <-; destruct Hv|discriminate].
    + exists tt_true. split; [reflexivity|]. intros r. reflexivity.
    + exists tt_false. split; [reflexivity|]. intros r H. discriminate H.
    + intros e He. specialize (Tr e He). apply andb_prop in Tr as [T1 T2]. apply Nat.eqb_eq in T1, T2. exists tt_true, tt_false.
      rewrite T1, T2. split; [reflexivity|]. split; [reflexivity|]. intros r H. exfalso. apply (Un e He (fun X => X) r H).
  - assert (Ie : In e (ledges g)) by (apply In1; left; reflexivity).
    assert (N : (forall r, ~ holds r (lfla e)) -> match solve_trivial_edges check es with VSafe w => lsolution g w | VUnsafe d => lrefutation g d | VUnknown => True | _ => False end).
    { intros Ne. apply IH; [intros x Hx; apply In1; right; exact Hx|]. intros x Hx Nx r H.
      apply (Un x Hx) with (r := r); [|exact H]. intros [->|X]; [apply (Ne r H)|contradiction]. }
    destruct (term_eqb_spec (lfla e) tt_false) as [Ef|_]; [apply N; intros r H; rewrite Ef in H; discriminate H|].
    destruct (check [lfla e]) as [r| |] eqn:Ec; [|apply N|exact Logic.I].
    + apply (check_sat _ Hc) in Ec. apply Forall_inv in Ec. specialize (Tr e Ie). apply andb_prop in Tr as [T1 T2]. apply Nat.eqb_eq in T1, T2.
      pose proof (lwf_rep g W) as R. split; [reflexivity|exists 1; split; reflexivity|]. intros i s Hi Hs. destruct i as [|[|i]]; [lia| |destruct i; discriminate].
      cbn in Hs. injection Hs as <-. exists e, 0, (entry, []). split; [exact Ie|]. split; [reflexivity|]. split; [reflexivity|]. split; [lia|]. split; [reflexivity|].
      exists r. split; [exact Ec|]. rewrite T1, T2. unfold cur_vars, nxt_vars. rewrite (rep_entry _ R), (rep_exit _ R). split; reflexivity.
    + intros r H. apply (check_unsat _ Hc) in Ec. apply (Ec r). constructor; [exact H|constructor].
Qed.
(** A hypergraph without hyperedges, converted, given to an engine for transition systems: if the engine's answer about the
    extracted system is right, then the witness of the final answer is a solution (a refutation) of the hypergraph. *)
Theorem C44_engine :
  forall elim qe check engine g r,
    elim_ok elim -> qe_ok qe -> check_ok check ->
    wf_graph g -> is_normal g = true -> aux_versioned g -> all_reachable (to_normal g) ->
    (forall ts, ts_wf ts = true -> no_aux ts = true -> ts_answer_ok ts (engine ts)) ->
    ts_engine_solve elim qe check engine (to_normal g) = Some r ->
    match r with VThrow => (exists q, check q = UNKNOWN) \/ (exists f keep, qe f keep = None) | _ => graph_answer_ok g check r end.
Proof.
  intros elim qe check engine g r He Hq Hc W Nm Av Re Hen E. pose proof (normal_wf g W Nm Av) as LW. unfold ts_engine_solve in E.
  destruct (is_trivial_graph (to_normal g)) eqn:Et.
  - injection E as <-. unfold solve_trivial. pose proof (solve_trivial_ok check (to_normal g) (ledges (to_normal g)) Hc LW Et (incl_refl _) (fun e H N => False_ind _ (N H))) as H.
    destruct (solve_trivial_edges check (ledges (to_normal g))) as [w|d| | |]; cbn [graph_answer_ok]; try destruct H; auto.
    + apply (normal_solution g W Nm Av). split; assumption.
    + apply (normal_refutation g W Nm Av). split; assumption.
  - destruct (is_transition_system (to_normal g)) eqn:Ei; [|discriminate].
    destruct (C44_extraction elim (to_normal g) He LW Re Ei) as [ts [Ets [Wts H]]]. rewrite Ets in E.
    destruct (ensure_no_aux qe ts) as [ts'|] eqn:En.
    + injection E as <-. destruct (ensure_no_aux_ok qe Hq ts Wts ts' En) as [W' [N' _]].
      destruct (H ts') as [_ [Hd [Hs Hu]]]; [right; exists qe; auto|]. specialize (Hen ts' W' N'). unfold translate_ts_result.
      destruct (engine ts') as [inv|n|]; cbn [ts_answer_ok] in Hen.
      * destruct (Hs inv Hen) as [w [-> Hw]]. cbn. apply (normal_solution g W Nm Av), Hw.
      * specialize (Hu check n Hc Hen). destruct (from_ts_steps check (to_normal g) n); [destruct Hu|left; exact Hu|]. cbn. apply (normal_refutation g W Nm Av), Hu.
      * exact Logic.I.
    + injection E as <-. right. unfold ensure_no_aux in En. destruct (avars ts) as [|a l]; [discriminate|].
      unfold drop_aux in En.
      destruct (existsb (fun v => inb v (a :: l)) (vars (tinit ts))).
      * destruct (qe (tinit ts) (filter (fun v => negb (inb v (a :: l))) (vars (tinit ts)))) eqn:E1; [|eauto].
        destruct (existsb (fun v => inb v (a :: l)) (vars (tquery ts))); [|discriminate].
        destruct (qe (tquery ts) (filter (fun v => negb (inb v (a :: l))) (vars (tquery ts)))) eqn:E2; [discriminate|eauto].
      * destruct (existsb (fun v => inb v (a :: l)) (vars (tquery ts))); [|discriminate].
        destruct (qe (tquery ts) (filter (fun v => negb (inb v (a :: l))) (vars (tquery ts)))) eqn:E2; [discriminate|eauto].
Qed.
Print Assumptions C44_engine.

(** Instance: k-induction (src/engine/Kind.cc, KindModel.v) as the engine on transition systems, with witnesses.  An answer
    that ignored an UNKNOWN of the solver (see C18) is not covered. *)
Definition kind_engine (check : check_fn) (pitp : pitp_fn) (fuel : nat) (ts : tsys) : tsresult :=
  match kind check pitp true fuel ts with
  | (Safe inv, false) => TSafe inv
  | (Unsafe k, _) => TUnsafe k
  | _ => TUnknown
  end.
Theorem C44_kind_end_to_end :
  forall elim qe check pitp fuel g r,
    elim_ok elim -> qe_ok qe -> check_ok check -> pitp_ok pitp ->
    wf_graph g -> is_normal g = true -> aux_versioned g -> all_reachable (to_normal g) ->
    ts_engine_solve elim qe check (kind_engine check pitp fuel) (to_normal g) = Some r ->
    match r with
    | VSafe w => solution g w /\ chc_sat g
    | VUnsafe d => refutation g d /\ ~ chc_sat g
    | VNoWitness => False
    | VUnknown => True
    | VThrow => (exists q, check q = UNKNOWN) \/ (exists f keep, qe f keep = None)
    end.
Proof.
  intros elim qe check pitp fuel g r He Hq Hc Hp W Nm Av Re E.
  assert (H := C44_engine elim qe check (kind_engine check pitp fuel) g r He Hq Hc W Nm Av Re).
  assert (He' : forall ts, ts_wf ts = true -> no_aux ts = true -> ts_answer_ok ts (kind_engine check pitp fuel ts)).
  { intros ts W1 W2. unfold kind_engine. destruct (kind check pitp true fuel ts) as [[inv|k| | |] u] eqn:Ek; try exact Logic.I.
    - destruct u; [exact Logic.I|]. apply (C03_kind_witness check pitp ts fuel inv Hc Hp W1 W2 Ek).
    - apply (C02_kind_unsafe check pitp ts true fuel k u Hc Ek). reflexivity. }
  specialize (H He' E). destruct r; cbn [graph_answer_ok] in H; auto.
  - split; [exact H|]. apply chc_sat_iff. apply (solution_safe g w); [apply (rep_exit _ (wf_rep g W))|exact H].
  - split; [exact H|]. rewrite chc_sat_iff. intros N. apply N, (refutation_derivable g d H).
Qed.
Print Assumptions C44_kind_end_to_end.

(** ** Examples *)
Module ExLin.
Definition x := mkVar "x" TBase SInt.
Definition y := mkVar "y" TBase SInt.
Definition a := mkVar "a" (TTime 0) SInt.
Definition B : sym := 2. Definition C : sym := 3.
Definition s v := Var (src 0 v). Definition t v := Var (tgt v).
(** x := 0; repeat x := x + a with 1 <= a; error when x >= 2.  The auxiliary variable stays in the transition relation. *)
Definition hg := mkGraph
  [mkEdge 1 [entry] B (mkEq (t x) (mkInt 0));
   mkEdge 2 [B] B (mkAnd [mkEq (t x) (mkPlus [s x; Var a]); mkLeq (mkInt 1) (Var a)]);
   mkEdge 3 [B] exit (mkLeq (mkInt 2) (s x))] (pv_of [(B, [x])]) 4 0.
Example hg_wf : wf_graph hg.
Proof. apply graph_check_ok; vm_compute; reflexivity. Qed.
Example hg_normal : is_normal hg = true. Proof. reflexivity. Qed.
Example hg_aux : aux_versioned hg.
Proof.
  intros e v He Hv Nv. assert (v = a).
  { destruct He as [<-|[<-|[<-|[]]]]; cbn in Hv; repeat (destruct Hv as [<-|Hv]; [try reflexivity; exfalso; apply Nv; apply inb_true; vm_compute; reflexivity|]); destruct Hv. }
  subst v. split; [reflexivity|]. intros p _ H. apply in_map_iff in H as [b [E Hb]]. apply pv_of_in in Hb. cbn in Hb. destruct Hb as [<-|[]]. discriminate E.
Qed.
Definition g := to_normal hg.
Example g_reach : all_reachable g.
Proof.
  intros p [->|[->|[e [He Hp]]]]; [right; constructor|left; reflexivity|].
  assert (P : path g entry B) by (apply (path_edge g (normal_edge hg (mkEdge 1 [entry] B (mkEq (t x) (mkInt 0))))); [left; reflexivity|constructor]).
  destruct He as [<-|[<-|[<-|[]]]]; cbn in Hp; destruct Hp as [->| ->]; auto; right; constructor.
Qed.
Example g_ts : is_transition_system g = true. Proof. vm_compute. reflexivity. Qed.
Definition el : elim_fn := fun _ u => u.
Definition qe0 : qe_fn := fun f _ => if existsb (fun v => inb v [a]) (vars f) then None else Some f.
Definition x0 := cur x. Definition x1 := nxt x.
Definition ts0 := mkTS [x0] [a] (mkEq (Var x0) (mkInt 0)) (mkAnd [mkEq (Var x1) (mkPlus [Var x0; Var a]); mkLeq (mkInt 1) (Var a)]) (mkLeq (mkInt 2) (Var x0)).
Example extracted : to_transition_system el g = Some ts0.
Proof. vm_compute. reflexivity. Qed.
Definition qe1 : qe_fn := fun _ _ => None.
Example no_aux0 : ensure_no_aux qe1 ts0 = Some ts0.
Proof. reflexivity. Qed.
Lemma qe1_ok : qe_ok qe1.
Proof. intros f keep h H. discriminate H. Qed.
Lemma err0 : error_path ts0 2.
Proof.
  exists (fun _ => VInt 0), (fun _ => VInt 2). split; [|split].
  - exists (fun _ => VInt 0). split; [intros v _; reflexivity|reflexivity].
  - econstructor 2 with (s' := fun _ => VInt 1); [|econstructor 2; [|constructor]].
    + exists (fun v => if var_eqb v x1 then VInt 1 else if var_eqb v a then VInt 1 else VInt 0). cbn [svars ts0]. split; [|split]; [intros v [<-|[]]; reflexivity|intros v [<-|[]]; reflexivity|reflexivity].
    + exists (fun v => if var_eqb v x1 then VInt 2 else if var_eqb v a then VInt 1 else VInt 1). cbn [svars ts0]. split; [|split]; [intros v [<-|[]]; reflexivity|intros v [<-|[]]; reflexivity|reflexivity].
  - exists (fun _ => VInt 2). split; [intros v _; reflexivity|reflexivity].
Qed.
Definition ts_eqb (u v : tsys) : bool :=
  (if list_eq_dec var_dec (svars u) (svars v) then true else false) && (if list_eq_dec var_dec (avars u) (avars v) then true else false) &&
  term_eqb (tinit u) (tinit v) && term_eqb (ttrans u) (ttrans v) && term_eqb (tquery u) (tquery v).
Lemma ts_eqb_ok u v : ts_eqb u v = true -> u = v.
Proof.
  unfold ts_eqb. destruct u as [a1 b1 c1 d1 f1], v as [a2 b2 c2 d2 f2]; cbn [svars avars tinit ttrans tquery].
  destruct (list_eq_dec var_dec a1 a2), (list_eq_dec var_dec b1 b2); cbn [andb]; try discriminate.
  destruct (term_eqb_spec c1 c2), (term_eqb_spec d1 d2), (term_eqb_spec f1 f2); cbn [andb]; try discriminate. congruence.
Qed.
Definition engine (u : tsys) : tsresult := if ts_eqb u ts0 then TUnsafe 2 else TUnknown.
Lemma engine_right u : ts_answer_ok u (engine u).
Proof. unfold engine. destruct (ts_eqb u ts0) eqn:E; [|exact Logic.I]. apply ts_eqb_ok in E as ->. exact err0. Qed.
Definition m : valuation := fun v =>
  match vtag v with TTime k => if String.eqb (vbase v) "x" then VInt (if Z.eqb k 3 then 2 else k - 1) else VInt 1 | _ => VInt 0 end.
Definition es := match path_edges g [1; 2; 2; 3] with Some l => l | None => [] end.
Definition chk := table_check [(path_labels 0 es, SAT m)].
Lemma chk_ok : check_ok chk.
Proof. apply table_check_ok. constructor; [|constructor]. repeat constructor. Qed.
(** The hypotheses of C44_engine (and of C44_extraction, C45, C53) are met and the answer is UNSAFE with a derivation. *)
Example C44_nonvacuous :
  elim_ok el /\ qe_ok qe1 /\ check_ok chk /\ wf_graph hg /\ is_normal hg = true /\ aux_versioned hg /\ all_reachable (to_normal hg) /\
  (forall u, ts_wf u = true -> no_aux u = true -> ts_answer_ok u (engine u)) /\
  ts_engine_solve el qe1 chk engine (to_normal hg) =
    Some (VUnsafe [mkStep [] (entry, []) 0; mkStep [0] (B, [VInt 0]) 1; mkStep [1] (B, [VInt 1]) 2; mkStep [2] (B, [VInt 2]) 2; mkStep [3] (exit, []) 3]).
Proof.
  split; [apply elim_id_ok|]. split; [apply qe1_ok|]. split; [apply chk_ok|]. split; [apply hg_wf|]. split; [reflexivity|]. split; [apply hg_aux|].
  split; [apply g_reach|]. split; [intros; apply engine_right|]. vm_compute. reflexivity.
Qed.
Example C45_nonvacuous : edge_path g entry [1; 2; 2; 3] exit.
Proof.
  apply (ep_cons g (mkLEdge 1 entry B (mkEq (Var x1) (mkInt 0)))); [vm_compute; auto|].
  apply (ep_cons g (mkLEdge 2 B B (mkAnd [mkEq (Var x1) (mkPlus [Var x0; Var a]); mkLeq (mkInt 1) (Var a)]))); [vm_compute; auto|].
  apply (ep_cons g (mkLEdge 2 B B (mkAnd [mkEq (Var x1) (mkPlus [Var x0; Var a]); mkLeq (mkInt 1) (Var a)]))); [vm_compute; auto|].
  apply (ep_cons g (mkLEdge 3 B exit (mkLeq (mkInt 2) (Var x0)))); [vm_compute; auto|]. constructor.
Qed.

(** ** A vertex that entry does not reach *)
Definition hu := mkGraph
  [mkEdge 1 [entry] B (mkEq (t x) (mkInt 0)); mkEdge 2 [B] B (mkEq (t x) (s x)); mkEdge 3 [B] exit (mkEq (s x) (mkInt 1));
   mkEdge 4 [C] C (mkEq (t y) (s y))] (pv_of [(B, [x]); (C, [y])]) 5 0.
Example hu_wf : wf_graph hu.
Proof. apply graph_check_ok; vm_compute; reflexivity. Qed.
Example hu_aux : aux_versioned hu.
Proof.
  intros e v He Hv Nv. exfalso.
  destruct He as [<-|[<-|[<-|[<-|[]]]]]; cbn in Hv; repeat (destruct Hv as [<-|Hv]; [apply Nv; apply inb_true; vm_compute; reflexivity|]); destruct Hv.
Qed.
Definition gu := to_normal hu.
Example gu_ts : is_transition_system gu = true. Proof. vm_compute. reflexivity. Qed.
Definition tsu := mkTS [cur y] [] (mkEq (Var x1) (mkInt 0)) (mkEq (Var x1) (Var x0)) (mkEq (Var x0) (mkInt 1)).
Example extracted_u : to_transition_system el gu = Some tsu.
Proof. vm_compute. reflexivity. Qed.
Example safe_u : ~ lderivable gu (exit, []).
Proof.
  assert (G : forall f, lderivable gu f -> f = (entry, []) \/ f = (B, [VInt 0])).
  { intros f H. induction H as [|e f f' He _ IH [r [Hl [Ef Ef']]]]; [auto|].
    destruct He as [<-|[<-|[<-|[<-|[]]]]]; cbn -[coerce] in Ef, Ef'; subst f f'; unfold holds, holdsb in Hl; cbn -[coerce] in Hl;
      destruct (coerce_SInt (r (nxt x))) as [z1 E1]; destruct (coerce_SInt (r (cur x))) as [z0 E0]; rewrite ?E1, ?E0 in *.
    - right. cbn in Hl. apply Z.eqb_eq in Hl. subst. reflexivity.
    - right. destruct IH as [IH|IH]; [discriminate|]. injection IH as ->. cbn in Hl. apply Z.eqb_eq in Hl. subst. reflexivity.
    - exfalso. destruct IH as [IH|IH]; [discriminate|]. injection IH as ->. discriminate Hl.
    - exfalso. destruct IH as [IH|IH]; discriminate IH. }
  intros H. apply G in H as [H|H]; discriminate H.
Qed.
Example unsafe_tsu : error_path tsu 0.
Proof.
  exists (fun _ => VInt 0), (fun _ => VInt 0). split; [|split; [constructor|]].
  - exists (fun _ => VInt 0). split; [intros v _; reflexivity|reflexivity].
  - exists (fun v => if var_eqb v x0 then VInt 1 else VInt 0). split; [intros v [<-|[]]; reflexivity|reflexivity].
Qed.
End ExLin.

(** Without the reachability hypothesis the claim is false of the code: the self-loop of a vertex that entry does not reach
    replaces the state variables ([isTransitionSystem] looks at reachable vertices only), and a safe graph gives a system
    with an error path. *)
Theorem C44_unreachable_refuted :
  exists elim g ts, elim_ok elim /\ lwf g /\ is_transition_system g = true /\ to_transition_system elim g = Some ts /\
    ~ lderivable g (exit, []) /\ error_path ts 0.
Proof.
  exists ExLin.el, ExLin.gu, ExLin.tsu. split; [apply elim_id_ok|]. split; [apply normal_wf; [apply ExLin.hu_wf|reflexivity|apply ExLin.hu_aux]|].
  split; [apply ExLin.gu_ts|]. split; [apply ExLin.extracted_u|]. split; [apply ExLin.safe_u|apply ExLin.unsafe_tsu].
Qed.
Print Assumptions C44_unreachable_refuted.
