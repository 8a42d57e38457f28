(** * Properties C30, C31, C32, C38, C39, C40: the simple graph transformations.

    The specification is in Graph.v ([derivable], [solution], [follows]) and GraphSem.v ([wf_graph],
    [error_derivation], [correct]): a transformation is correct if it keeps the verdict, translates every
    solution of the new graph to a solution of the old one and every derivation of [false] in the new graph to
    one in the old graph. *)
From Verif Require Import Syntax Solver Graph GraphOps GraphOpsProofs ValidatorModel FormulaModel FormulaProofs3 GraphSem SimpleTransModel UnreachProofs2 SimpleTransProofs SimpleTransProofs2 SimplifierProofs GraphEx ExTac TransSys.
Open Scope nat_scope.

(** ** C30 *)
Theorem C30_remove_unreachable :
  forall g, wf_graph g -> exists t, remove_unreachable g = Some t /\ wf_graph (tr_graph t) /\
    correct g (tr_graph t) (tr_valid t) (tr_invalid t).
Proof. exact remove_unreachable_ok. Qed.
Print Assumptions C30_remove_unreachable.
Theorem C30_remove_forward_unreachable :
  forall g, wf_graph g -> exists t, remove_forward_unreachable g = Some t /\ wf_graph (tr_graph t) /\
    correct g (tr_graph t) (tr_valid t) (tr_invalid t).
Proof. exact remove_forward_unreachable_ok. Qed.
Print Assumptions C30_remove_forward_unreachable.
(** The translations never fail. *)
Theorem C30_translations_total :
  forall g t, remove_unreachable g = Some t \/ remove_forward_unreachable g = Some t ->
    (forall w, tr_valid t w <> None) /\ (forall d, tr_invalid t d = Some d).
Proof.
  intros g t H. unfold remove_unreachable, remove_forward_unreachable in H.
  destruct (in_edges g exit); destruct (out_edges g entry); repeat match goal with
  | H : _ \/ _ |- _ => destruct H as [H|H]
  | H : match ?x with _ => _ end = Some _ |- _ => destruct x; [|discriminate]
  | H : Some _ = Some _ |- _ => injection H as <-
  end; cbn; split; congruence.
Qed.
Print Assumptions C30_translations_total.

(** ** C31 *)
Theorem C31_merge_multi_edges :
  forall check simp g, check_ok check -> (forall t, equiv (simp t) t) -> wf_graph g ->
    wf_graph (tr_graph (merge_edges check simp g)) /\
    (forall p vs, derivable g p vs <-> derivable (tr_graph (merge_edges check simp g)) p vs) /\
    correct g (tr_graph (merge_edges check simp g)) (tr_valid (merge_edges check simp g)) (tr_invalid (merge_edges check simp g)).
Proof.
  intros check simp g Hc Hs W. destruct (merge_edges_ok g W check simp Hc Hs) as [A B]. split; [exact A|]. split; [|exact B].
  intros p vs. apply merge_derivable, W.
Qed.
Print Assumptions C31_merge_multi_edges.
(** With a decisive solver every derivation is translated. *)
Theorem C31_derivations_total :
  forall check simp g d, check_ok check -> decisive check -> (forall t, equiv (simp t) t) -> wf_graph g ->
    error_derivation (tr_graph (merge_edges check simp g)) d ->
    exists d', tr_invalid (merge_edges check simp g) d = Some d'.
Proof. intros check simp g d Hc Hd Hs W E. apply (back_merge_total g W check simp Hc Hs d Hd E). Qed.
Print Assumptions C31_derivations_total.
(** At most one edge between two vertices is left. *)
Theorem C31_no_parallel_edges :
  forall check simp g e1 e2 p, wf_graph g ->
    In e1 (gedges (tr_graph (merge_edges check simp g))) -> In e2 (gedges (tr_graph (merge_edges check simp g))) ->
    efrom e1 = [p] -> efrom e2 = [p] -> eto e1 = eto e2 -> e1 = e2.
Proof.
  intros check simp g e1 e2 p W H1 H2 F1 F2 T. cbn [merge_edges tr_graph] in *.
  apply (merge_multi_as g W) in H1. apply (merge_multi_as g W) in H2.
  assert (B : forall x y, efrom x = [p] -> efrom y = [p] -> eto x = eto y -> bucket g x = bucket g y).
  { intros x y Fx Fy Txy. symmetry. apply bucket_same; [unfold is_single; rewrite Fx; reflexivity|congruence|congruence]. }
  assert (S : forall x, efrom x = [p] -> is_single x = true) by (intros x Fx; unfold is_single; rewrite Fx; reflexivity).
  destruct H1 as [H1 _ K1|a0 a1 a Ha Sa Ba -> _]; destruct H2 as [H2 _ K2|b0 b1 b Hb Sb Bb -> _]; cbn [merged_edge efrom eto eid] in *.
  - specialize (B e1 e2 F1 F2 T). rewrite (K1 (S e1 F1)), (K2 (S e2 F2)) in B. congruence.
  - specialize (B e1 b0 F1 F2 T). rewrite (K1 (S e1 F1)), Bb in B. discriminate.
  - specialize (B a0 e2 F1 F2 T). rewrite (K2 (S e2 F2)), Ba in B. discriminate.
  - specialize (B a0 b0 F1 F2 T). rewrite Ba, Bb in B. injection B as -> -> ->. reflexivity.
Qed.
Print Assumptions C31_no_parallel_edges.

(** ** C32 *)
Theorem C32_remove_false :
  forall g, wf_graph g ->
    let g' := tr_graph (remove_false g) in
    wf_graph g' /\ (forall p vs, derivable g p vs <-> derivable g' p vs) /\
    (forall w, solution g' w -> (forall p, vertex g p -> w p <> None) -> solution g w) /\
    (forall d, error_derivation g' d -> error_derivation g d).
Proof. exact remove_false_ok. Qed.
Print Assumptions C32_remove_false.

(** ** C38 *)
(** If every transformation of a pipeline is correct on well-formed graphs and keeps them well-formed, then so
    is the pipeline, with the back translations applied in reverse order. *)
Theorem C38_pipeline :
  forall ts, Forall good ts -> good (pipeline ts).
Proof. exact pipeline_good. Qed.
Print Assumptions C38_pipeline.

(** The order matters: [pipeline] undoes the last transformation first. *)
Theorem C38_back_order :
  forall t1 t2 g r1 r2, t1 g = Some r1 -> t2 (tr_graph r1) = Some r2 ->
    exists r, pipeline [t1; t2] g = Some r /\ tr_graph r = tr_graph r2 /\
      (forall w, tr_valid r w = match tr_valid r2 w with Some x => tr_valid r1 x | None => None end) /\
      (forall d, tr_invalid r d = match tr_invalid r2 d with Some x => tr_invalid r1 x | None => None end).
Proof.
  intros t1 t2 g r1 r2 E1 E2. unfold pipeline, run_pipeline. rewrite E1, E2. eexists. split; [reflexivity|].
  cbn [tr_graph tr_valid tr_invalid map rev app]. repeat split; intros; reflexivity.
Qed.
Print Assumptions C38_back_order.

(** Two members of golem's pipelines. *)
Theorem C38_unreachable_then_merge_then_prune :
  forall check simp, check_ok check -> (forall t, equiv (simp t) t) ->
    good (pipeline [remove_unreachable; (fun g => Some (merge_edges check simp g)); (fun g => Some (prune_trivial check g))]).
Proof.
  intros check simp Hc Hs. apply pipeline_good.
  apply Forall_cons; [|apply Forall_cons; [|apply Forall_cons; [|apply Forall_nil]]]; intros g r W E.
  - destruct (remove_unreachable_ok g W) as [t [E' AB]]. rewrite E in E'. injection E' as <-. exact AB.
  - injection E as <-. apply (merge_edges_ok g W check simp Hc Hs).
  - injection E as <-. apply (prune_trivial_ok g W check Hc).
Qed.
Print Assumptions C38_unreachable_then_merge_then_prune.

(** ** C39 *)
(** Hypotheses: the labels mention tagged or versioned variables only, and the name given to a new variable is
    not already used in the label. *)
Theorem C39_simplify_constraints :
  forall elim rw g, elim_ok elim -> rewrite_ok rw ->
    (forall e v, In e (gedges g) -> In v (vars (efla e)) -> vtag v <> TBase) ->
    (forall e v, In e (gedges g) -> In v (vars (rw (efla e))) -> vtag v = TBase -> ~ In (version_local v) (vars (efla e))) ->
    let g' := tr_graph (simplify_constraints elim rw g) in
    (forall p vs, derivable g p vs <-> derivable g' p vs) /\
    (forall w, solution g' w <-> solution g w) /\
    (forall d, error_derivation g' d <-> error_derivation g d) /\
    correct g g' (tr_valid (simplify_constraints elim rw g)) (tr_invalid (simplify_constraints elim rw g)).
Proof.
  intros elim rw g He Hr H1 H2 g'. split; [|split; [|split]].
  - intros p vs. apply simplify_derivable; auto.
  - intros w. apply simplify_solution; auto.
  - intros d. apply simplify_error; auto.
  - apply simplify_correct; auto.
Qed.
Print Assumptions C39_simplify_constraints.
(** The elimination step used there is golem's. *)
Theorem C39_trivial_elimination_ok :
  forall retrieve fractional, retrieve_ok retrieve -> elim_ok (tqe retrieve fractional).
Proof. exact tqe_ok. Qed.
Print Assumptions C39_trivial_elimination_ok.
(** The result is well-formed again if the new variables of different clauses differ. *)
Theorem C39_well_formed :
  forall elim rw g, elim_ok elim -> rewrite_ok rw -> wf_graph g ->
    (forall e e2 v, In e (gedges g) -> In e2 (gedges g) -> eid e <> eid e2 ->
       In v (vars (rw (efla e))) -> vtag v = TBase -> ~ In v (vars (rw (efla e2))) /\ ~ In (version_local v) (vars (efla e2))) ->
    (forall e v, In e (gedges g) -> In v (vars (rw (efla e))) -> vtag v = TBase ->
       (forall k s, gctr g <= k -> version_local v <> gaux k s) /\ (forall k s, version_local v <> auxg k s)) ->
    wf_graph (tr_graph (simplify_constraints elim rw g)).
Proof. intros elim rw g He Hr W H3 H4. apply simplify_wf; auto. Qed.
Print Assumptions C39_well_formed.

(** ** C40 *)
Theorem C40_prune_trivial_edges :
  forall check g, check_ok check -> wf_graph g ->
    let t := prune_trivial check g in
    wf_graph (tr_graph t) /\ correct g (tr_graph t) (tr_valid t) (tr_invalid t) /\
    (forall d, error_derivation (tr_graph t) d -> exists d', tr_invalid t d = Some d').
Proof.
  intros check g Hc W t. destruct (prune_trivial_ok g W check Hc) as [A B]. split; [exact A|]. split; [exact B|].
  intros d E. destruct (tr_invalid t d) as [d'|] eqn:X; [eauto|]. destruct (prune_trivial_total g check d E X).
Qed.
Print Assumptions C40_prune_trivial_edges.
(** A validity witness is lost only if there is none. *)
Theorem C40_solutions_total :
  forall check g w, check_ok check -> wf_graph g -> solution (tr_graph (prune_trivial check g)) w ->
    tr_valid (prune_trivial check g) w = Some w.
Proof.
  intros check g w Hc W. assert (L : forall es, (forall e, In e es -> In e (gedges g) /\ is_direct e = true) ->
    solution (tr_graph (prune_loop check g es)) w -> tr_valid (prune_loop check g es) w = Some w).
  { induction es as [|e es IH]; intros He S; cbn [prune_loop] in *; [reflexivity|].
    destruct (check [efla e]) as [m| |] eqn:Ec; cbn [tr_graph tr_valid] in *; auto; [|apply IH; auto; intros; apply He; simpl; auto].
    exfalso. destruct (He e (or_introl eq_refl)) as [H1 H2]. apply is_direct_spec in H2 as [F T].
    apply (check_sat _ Hc) in Ec. apply Forall_inv in Ec.
    apply (solution_safe (single_graph g e) w eq_refl S).
    change (dfact (single_graph g e) (exit, [])).
    eapply (dfact_follows (single_graph g e) _ [(entry, [])]); [left; reflexivity| |repeat constructor].
    apply (direct_follows (single_graph g e) _ m); auto. }
  unfold prune_trivial. destruct (filter is_direct (gedges g)) as [|e es] eqn:E; [reflexivity|]. rewrite <- E. apply L.
  intros x Hx. apply filter_In in Hx. exact Hx.
Qed.
Print Assumptions C40_solutions_total.

(** ** Examples *)
Module ExSimple.
Definition x := mkVar "x" TBase SInt.
Definition y := mkVar "y" TBase SInt.
Definition z := mkVar "z" TBase SInt.
Definition A : sym := 2. Definition B : sym := 3. Definition U : sym := 4.
Definition reps := [(A, [x]); (B, [y]); (U, [z])].
Definition xt := Var (tgt x). Definition xs := Var (src 0 x). Definition ys := Var (src 0 y). Definition yt := Var (tgt y).
(** Two parallel edges A -> A, an unreachable node U, a node U that does not reach exit, a hyperedge, and a
    direct edge with an unsatisfiable label. *)
Definition es : list hedge :=
  [mkEdge 1 [entry] A (mkEq xt (mkInt 0));
   mkEdge 2 [A] A (mkEq xt (mkPlus [xs; mkInt 1]));
   mkEdge 3 [A] A (mkEq xt (mkPlus [xs; mkInt 2]));
   mkEdge 4 [A; A] B (mkEq yt (mkPlus [xs; Var (src 1 x)]));
   mkEdge 5 [B] exit (mkEq ys (mkInt 3));
   mkEdge 6 [B] U (mkEq (Var (tgt z)) ys);
   mkEdge 7 [entry] exit (mkEq (mkInt 0) (mkInt 1))].
Definition g := mkGraph es (pv_of reps) 8 0.
Example g_wf : wf_graph g.
Proof. apply graph_check_ok; vm_compute; reflexivity. Qed.
(** C30: U is removed. *)
Example unreachable_removed : exists t, remove_unreachable g = Some t /\ map eid (gedges (tr_graph t)) = [1; 2; 3; 4; 5; 7].
Proof. eexists. split; reflexivity. Qed.
(** C31: the parallel edges become one. *)
Definition chk : check_fn := table_check
  [([subst (fill [tgt x] (A, [VInt 1]) ++ fill [src 0 x] (A, [VInt 0])) (efla (nth 1 es (mkEdge 0 [] 0 tt_true)))], SAT (fun _ => VInt 0));
   ([efla (nth 6 es (mkEdge 0 [] 0 tt_true))], UNSAT)].
Lemma chk_ok : check_ok chk.
Proof. prove_table. Qed.
Example merged : map eid (gedges (tr_graph (merge_edges chk (fun t => t) g))) = [1; 2; 4; 5; 6; 7].
Proof. reflexivity. Qed.
Definition dm : derivation :=
  [mkStep [] (entry, []) 0; mkStep [0] (A, [VInt 0]) 1; mkStep [1] (A, [VInt 1]) 2; mkStep [2] (A, [VInt 3]) 2].
(** The first merged step uses clause 2 of the old graph. *)
Example merged_step_back : back_merge_step chk (fun t => t) g dm (mkStep [1] (A, [VInt 1]) 2) = Some (mkStep [1] (A, [VInt 1]) 2).
Proof. vm_compute. reflexivity. Qed.
(** C40: the direct edge is removed. *)
Example pruned : map eid (gedges (tr_graph (prune_trivial chk g))) = [1; 2; 3; 4; 5; 6].
Proof. reflexivity. Qed.

(** A derivation of [false] in g: 1 + 2 = 3. *)
Definition d : derivation :=
  [mkStep [] (entry, []) 0; mkStep [0] (A, [VInt 0]) 1; mkStep [1] (A, [VInt 1]) 2; mkStep [1] (A, [VInt 2]) 3;
   mkStep [2; 3] (B, [VInt 3]) 4; mkStep [4] (exit, []) 5].
Definition rv (l : list (var * value)) : valuation := fun v => match find (fun p => var_eqb (fst p) v) l with Some p => snd p | None => VInt 0 end.
Example d_ok : error_derivation g d.
Proof.
  split; [split|..].
  - reflexivity.
  - exists 5. split; reflexivity.
  - intros i s Hi Hs. destruct i as [|[|[|[|[|[|i]]]]]]; [lia|injection Hs as <-|injection Hs as <-|injection Hs as <-|injection Hs as <-|injection Hs as <-|destruct i; discriminate].
    + exists (nth 0 es (mkEdge 0 [] 0 tt_true)), [(entry, [])]. repeat split; [left; reflexivity|repeat constructor; lia|].
      exists (rv []). repeat split.
    + exists (nth 1 es (mkEdge 0 [] 0 tt_true)), [(A, [VInt 0])]. repeat split; [right; left; reflexivity|repeat constructor; lia|].
      exists (rv [(tgt x, VInt 1)]). repeat split.
    + exists (nth 2 es (mkEdge 0 [] 0 tt_true)), [(A, [VInt 0])]. repeat split; [do 2 right; left; reflexivity|repeat constructor; lia|].
      exists (rv [(tgt x, VInt 2)]). repeat split.
    + exists (nth 3 es (mkEdge 0 [] 0 tt_true)), [(A, [VInt 1]); (A, [VInt 2])]. repeat split; [do 3 right; left; reflexivity|repeat constructor; lia|].
      exists (rv [(src 0 x, VInt 1); (src 1 x, VInt 2); (tgt y, VInt 3)]). repeat split.
    + exists (nth 4 es (mkEdge 0 [] 0 tt_true)), [(B, [VInt 3])]. repeat split; [do 4 right; left; reflexivity|repeat constructor; lia|].
      exists (rv [(src 0 y, VInt 3)]). repeat split.
  - reflexivity.
  - intros i s Hs Hx. destruct i as [|[|[|[|[|[|i]]]]]]; try (injection Hs as <-; discriminate Hx); [reflexivity|destruct i; discriminate].
Qed.
(** C39: hypotheses hold for g with identity rewriting. *)
Example simplify_tagged : forall e v, In e (gedges g) -> In v (vars (efla e)) -> vtag v <> TBase.
Proof.
  intros e v He Hv. cbn in He. repeat (destruct He as [<-|He]; [cbn in Hv; repeat (destruct Hv as [<-|Hv]; [discriminate|]); destruct Hv|]). destruct He.
Qed.
Example rewrite_id_ok : rewrite_ok (fun t => t).
Proof.
  split; [auto|]. intros t r H. split; [intros; exists r; auto|]. intros [r' [E Hr]]. revert Hr. apply holds_agree.
  intros v Hv. symmetry. apply E, H, Hv.
Qed.
(** A rewriter that introduces a variable: [x = 0] becomes [n = 0 /\ x = n]. *)
Definition n := mkVar ".n" TBase SInt.
Definition rw (t : term) : term := match t with App FEq [a; Const (VInt 0)] => if inb n (vars a) then t else mkAnd [mkEq (Var n) (mkInt 0); mkEq a (Var n)] | _ => t end.
Lemma rw_cases t : rw t = t \/ exists a, t = App FEq [a; Const (VInt 0)] /\ rw t = mkAnd [mkEq (Var n) (mkInt 0); mkEq a (Var n)].
Proof.
  destruct (term_eqb (rw t) t) eqn:E; [left; apply term_eqb_iff; exact E|].
  destruct t as [|c|f l]; try (cbn in E; rewrite ?term_eqb_refl in E; left; reflexivity).
  destruct f; try (left; reflexivity). destruct l as [|a [|b [|]]]; try (left; reflexivity).
    + destruct b as [|c|]; try (left; reflexivity). destruct c as [|k|]; try (left; reflexivity). destruct k; try (left; reflexivity).
      cbn [rw]. destruct (inb n (vars a)); [left; reflexivity|]. right. exists a. auto.
    + destruct b as [|c|]; try (left; reflexivity). destruct c as [|k|]; try (left; reflexivity). destruct k; left; reflexivity.
Qed.
Example rw_ok : rewrite_ok rw.
Proof.
  split.
  - intros t v Hv. destruct (rw_cases t) as [E|[a [E1 E2]]]; [rewrite E in Hv; auto|]. rewrite E2 in Hv. subst t. cbn in Hv |- *.
    destruct Hv as [<-|Hv]; [auto|]. rewrite !in_app_iff in Hv. cbn in Hv. rewrite in_app_iff. destruct Hv as [[Hv|[<-|[]]]|[]]; auto.
  - intros t r H. destruct (rw_cases t) as [E|[a [E1 E2]]].
    + rewrite E. apply (rw_sem _ rewrite_id_ok t r H).
    + rewrite E2. subst t. split.
      * intros Hr. exists (fun v => if var_eqb v n then VInt 0 else r v). split.
        { intros v Tv. destruct (var_eqb_spec v n) as [->|]; [destruct Tv; reflexivity|reflexivity]. }
        apply holds_and2. split; [reflexivity|]. apply holds_eq. apply holds_eq in Hr.
        rewrite <- (eval_agree r (fun v => if var_eqb v n then VInt 0 else r v) a); [rewrite Hr; reflexivity|].
        intros v Hv. destruct (var_eqb_spec v n) as [->|]; [|reflexivity]. exfalso. apply (H n); [|reflexivity]. cbn. apply in_app_iff. auto.
      * intros [r' [E Hr]]. apply holds_and2 in Hr as [H1 H2]. apply holds_eq in H1, H2. apply holds_eq. rewrite <- (eval_agree r' r a).
        { rewrite H2. exact H1. }
        intros v Hv. apply E, H. cbn. apply in_app_iff. auto.
Qed.
Example simplify_no_clash : forall e v, In e (gedges g) -> In v (vars (rw (efla e))) -> vtag v = TBase -> ~ In (version_local v) (vars (efla e)).
Proof.
  intros e v He Hv T. cbn in He. repeat (destruct He as [<-|He]; [cbn in Hv; repeat (destruct Hv as [<-|Hv]; [try discriminate T|]); try (destruct Hv); cbn; intuition discriminate|]). destruct He.
Qed.
Example simplified_label : efla (simplify_edge (fun _ t => t) rw g (mkEdge 1 [entry] A (mkEq xt (mkInt 0)))) =
  mkAnd [mkEq (Var (mkVar ".n" (TTime 0) SInt)) (mkInt 0); mkEq xt (Var (mkVar ".n" (TTime 0) SInt))].
Proof. reflexivity. Qed.

(** ** C32 refuted: removing false clauses drops vertices, and nothing gives them a definition back. *)
Definition gf := mkGraph [mkEdge 1 [entry] A tt_false; mkEdge 2 [A] exit tt_false] (pv_of [(A, [x])]) 3 0.
Example gf_wf : wf_graph gf.
Proof. apply graph_check_ok; vm_compute; reflexivity. Qed.
Definition w0 : defs_t := fun p => if Nat.eqb p entry then Some tt_true else if Nat.eqb p exit then Some tt_false else None.
End ExSimple.

Theorem C32_refuted :
  ~ (forall g, wf_graph g ->
       correct g (tr_graph (remove_false g)) (tr_valid (remove_false g)) (tr_invalid (remove_false g))).
Proof.
  intros H. destruct (H ExSimple.gf ExSimple.gf_wf) as [_ HV _].
  destruct (HV ExSimple.w0 ExSimple.w0) as [S _]; [| |reflexivity|].
  - split.
    + intros p d E v Hv. unfold ExSimple.w0 in E. destruct (Nat.eqb p entry); [injection E as <-; destruct Hv|].
      destruct (Nat.eqb p exit); [injection E as <-; destruct Hv|discriminate].
    + exists tt_true. split; [reflexivity|apply holds_true].
    + exists tt_false. split; [reflexivity|apply holds_false].
    + intros e [].
  - intros p Hp. unfold ExSimple.w0 in Hp. destruct (Nat.eqb_spec p entry) as [E|]; [left; exact E|].
    destruct (Nat.eqb_spec p exit) as [E|]; [right; left; exact E|congruence].
  - destruct (sol_edge _ _ S (mkEdge 1 [entry] 2 tt_false)) as [_ [dt [E _]]]; [left; reflexivity|]. discriminate E.
Qed.
Print Assumptions C32_refuted.
