(** * C36: the single-loop transformation. *)
From Coq Require Import Permutation.
From Verif Require Import Syntax Solver TransSys TSLemmas KindModel PropKind ExTac Graph GraphOps GraphOpsProofs DfsProofs GraphSem GraphEx Names ListLemmas SimpleTransModel MergeModel MergeProofs LinearModel LinearProofs LinearPath LinearTS PropGraph ExpandProofs PropChain PropTermination PropLinear ContractModel ContractProofs ContractLabels ContractSem ContractWf ContractDef LMerge NontermProofs SingleLoopProofs SingleLoopPath.
Open Scope list_scope.
Open Scope nat_scope.

(** Names the transformation makes up. *)
Definition reserved (s : string) : bool := String.prefix ".loc_" s || String.prefix ".arg_" s || String.prefix "golem::et::aux" s.
Definition user_names (g : lgraph) : Prop :=
  (forall e v, In e (ledges g) -> In v (vars (lfla e)) -> reserved (vbase v) = false) /\
  (forall p v, In v (lpv g p) -> reserved (vbase v) = false).
Lemma prefix_true a : forall b, String.prefix a (a ++ b)%string = true.
Proof. induction a as [|c a IH]; intros b; [destruct b; reflexivity|]. cbn. destruct (Ascii.ascii_dec c c); [apply IH|contradiction]. Qed.
Lemma loc_reserved p : reserved (vbase (locv p)) = true.
Proof. unfold reserved, locv. cbn [vbase]. rewrite prefix_true. reflexivity. Qed.
Lemma arg_reserved p i s : reserved (vbase (argv p i s)) = true.
Proof. unfold reserved, argv. cbn [vbase]. rewrite prefix_true, orb_true_r. reflexivity. Qed.
Lemma aux_reserved k s : reserved (vbase (etaux k s)) = true.
Proof. unfold reserved, etaux. cbn [vbase]. rewrite prefix_true, orb_true_r. reflexivity. Qed.
Lemma user_names_free g V : user_names g -> names_free g V.
Proof.
  intros [U1 U2] v Hv p _. assert (R : reserved (vbase v) = false) by (destruct Hv as [[e [He Hv]]|[q Hq]]; [apply (U1 e v He Hv)|apply (U2 q v Hq)]).
  split; [|intros i s]; intros E; rewrite E in R; [rewrite loc_reserved in R|rewrite arg_reserved in R]; discriminate R.
Qed.
Lemma user_et_free g : user_names g -> et_free g.
Proof. intros [_ U2] p v k s Hv E. pose proof (U2 p v Hv) as R. rewrite E, aux_reserved in R. discriminate R. Qed.

(** The graphs the pipeline of the transition-system engines hands over: no parallel edges, no edge from entry to exit, entry and
    exit not isolated. *)
Record sl_input (g : lgraph) : Prop := {
  sl_wf : lwf g;
  sl_names : user_names g;
  sl_in : exists e, In e (ledges g) /\ lfrom e = entry /\ lto e <> exit;
  sl_out : exists e, In e (ledges g) /\ lto e = exit /\ lfrom e <> entry;
  sl_direct : forall e, In e (ledges g) -> lfrom e = entry -> lto e <> exit
}.
(** The names of the new vertex and of the new clause are not in use. *)
Definition fresh_in (g : lgraph) (nv nid : nat) : Prop := ~ lvertex g nv /\ forall e, In e (ledges g) -> lid e <> nid.

Lemma sl_defs_none qe simp g inv ps : forall w, sl_defs qe simp g inv ps w = None -> exists f keep, qe f keep = None.
Proof.
  induction ps as [|p ps IH]; intros w; cbn [sl_defs]; [discriminate|]. destruct (vertex_def g qe simp cur (loc_subst (inner_vertices g) cur p) inv p) as [d|] eqn:E; [apply IH|].
  intros _. unfold vertex_def in E. destruct (existsb _ _); [|discriminate]. destruct (qe _ _) eqn:Q in E; [discriminate|eauto].
Qed.

(** The transition system reaches its query iff the error location of the graph is reachable; an inductive invariant of the system
    is translated to a solution of all clauses of the graph, an error path to a refutation of the graph. *)
Theorem C36_single_loop :
  forall elim g nv nid ctr ord,
    elim_ok elim -> sl_input g -> fresh_in g nv nid -> (forall l, Permutation (ord l) l) ->
    exists ts, single_loop elim nv nid ctr ord g = Some ts /\ ts_wf ts = true /\
      (lderivable g (exit, []) <-> exists n, error_path ts n) /\
      (forall qe simp inv, qe_ok qe -> simp_ok simp -> safe_inductive ts inv ->
         match sl_invariant qe simp g inv with
         | Some w => lsolution g w
         | None => exists f keep, qe f keep = None
         end) /\
      (forall check n, check_ok check -> no_parallel g -> error_path ts n ->
         match sl_path nv nid ord check g n with
         | PathDerivation d => lrefutation g d
         | PathThrows => exists q, check q = UNKNOWN
         | NoPath => False
         end).
Proof.
  intros elim g nv nid ctr ord He [W U Hin Hout Hno] [Fv Fi] Ho. pose proof (user_names_free g (inner_vertices g) U) as NF. pose proof (user_et_free g U) as ET.
  destruct (F_shape g W NF ET ord Ho nv nid ctr Fv Fi Hin Hout Hno) as [e0 [e1 [e2 Sh]]].
  pose proof (F_wf (contracted nv nid ord g) (c_wf g W NF ET ord Ho nv nid Fv Fi) ctr) as WF.
  exists (the_ts (final_graph nv nid ctr ord g) nv e0 e1 e2 elim). split; [apply single_loop_ts; assumption|]. split; [apply the_ts_wf; assumption|]. split; [|split].
  - rewrite <- (sl_derivable g W NF ET ord Ho nv nid ctr Fv Fi). apply (derivable_error _ nv e0 e1 e2 WF Sh elim He _ (the_ts_same _ _ _ _ _ _)).
  - intros qe simp inv Hq Hs Hi. destruct (sl_invariant qe simp g inv) as [w|] eqn:E; [|unfold sl_invariant in E; apply sl_defs_none in E; exact E].
    eapply sl_invariant_ok; eassumption.
  - intros check n Hc Np Ep. eapply sl_path_ok; eassumption.
Qed.
Print Assumptions C36_single_loop.

Definition lgraph_answer_ok (g : lgraph) (check : check_fn) (qe : qe_fn) (r : vresult) : Prop :=
  match r with
  | VSafe w => lsolution g w
  | VUnsafe d => lrefutation g d
  | VNoWitness => False
  | VUnknown => True
  | VThrow => (exists q, check q = UNKNOWN) \/ (exists f keep, qe f keep = None)
  end.
(** All branches of the transition-system engines: if the engine's answers about transition systems are right, also about those with
    auxiliary variables in the initial states and the query, then the final answer is right, witness included. *)
Theorem C36_engine :
  forall elim qe simp check engine g nv nid ctr ord r,
    elim_ok elim -> qe_ok qe -> simp_ok simp -> check_ok check ->
    sl_input g -> no_parallel g -> all_reachable g -> fresh_in g nv nid -> (forall l, Permutation (ord l) l) ->
    (forall ts, ts_wf ts = true -> ts_answer_ok ts (engine ts)) ->
    ts_engine_full elim nv nid ctr ord qe simp check engine g = Some r -> lgraph_answer_ok g check qe r.
Proof.
  intros elim qe simp check engine g nv nid ctr ord r He Hq Hs Hc Hg Np Re Fr Ho Hen E. unfold ts_engine_full in E.
  destruct (ts_engine_solve elim qe check engine g) as [r'|] eqn:E1.
  - injection E as ->. unfold ts_engine_solve in E1. destruct (is_trivial_graph g) eqn:Et.
    + injection E1 as <-. unfold solve_trivial. pose proof (solve_trivial_ok check g (ledges g) Hc (sl_wf g Hg) Et (incl_refl _) (fun e H N => False_ind _ (N H))) as H.
      destruct (solve_trivial_edges check (ledges g)); cbn; try destruct H; auto; split; auto.
    + destruct (is_transition_system g) eqn:Ei; [|discriminate]. destruct (C44_extraction elim g He (sl_wf g Hg) Re Ei) as [ts [Ets [Wts H]]]. rewrite Ets in E1.
      destruct (ensure_no_aux qe ts) as [ts'|] eqn:En.
      * injection E1 as <-. destruct (ensure_no_aux_ok qe Hq ts Wts ts' En) as [W' [N' _]]. destruct (H ts') as [_ [Hd [Hi Hu]]]; [right; exists qe; auto|]. specialize (Hen ts' W'). unfold translate_ts_result.
        destruct (engine ts') as [inv|n|]; cbn [ts_answer_ok] in Hen.
        -- destruct (Hi inv Hen) as [w [-> Hw]]. exact Hw.
        -- specialize (Hu check n Hc Hen). destruct (from_ts_steps check g n); [destruct Hu|left; exact Hu|exact Hu].
        -- exact Logic.I.
      * injection E1 as <-. right. unfold ensure_no_aux in En. destruct (avars ts) as [|a l]; [discriminate|]. unfold drop_aux in En.
        destruct (existsb (fun v => inb v (a :: l)) (vars (tinit ts))).
        -- destruct (qe (tinit ts) (filter (fun v => negb (inb v (a :: l))) (vars (tinit ts)))) eqn:Q1; [|eauto].
           destruct (existsb (fun v => inb v (a :: l)) (vars (tquery ts))); [|discriminate].
           destruct (qe (tquery ts) (filter (fun v => negb (inb v (a :: l))) (vars (tquery ts)))) eqn:Q2; [discriminate|eauto].
        -- destruct (existsb (fun v => inb v (a :: l)) (vars (tquery ts))); [|discriminate].
           destruct (qe (tquery ts) (filter (fun v => negb (inb v (a :: l))) (vars (tquery ts)))) eqn:Q2; [discriminate|eauto].
  - destruct (C36_single_loop elim g nv nid ctr ord He Hg Fr Ho) as [ts [Ets [Wts [Hd [Hi Hu]]]]]. rewrite Ets in E. injection E as <-. specialize (Hen ts Wts). unfold sl_translate.
    destruct (engine ts) as [inv|n|]; cbn [ts_answer_ok] in Hen.
    + specialize (Hi qe simp inv Hq Hs Hen). destruct (sl_invariant qe simp g inv); [exact Hi|right; exact Hi].
    + specialize (Hu check n Hc Np Hen). destruct (sl_path nv nid ord check g n); [destruct Hu|left; exact Hu|exact Hu].
    + exact Logic.I.
Qed.
Print Assumptions C36_engine.

(** ** Example: two locations *)
Module ExSl.
Definition x := mkVar "x" TBase SInt.
Definition y := mkVar "y" TBase SInt.
Definition A : sym := 2. Definition B : sym := 3.
Definition s v := Var (src 0 v). Definition t v := Var (tgt v).
(** x := 0; loop: y := x + 1; error when y = 3; x := y + 1. *)
Definition hg := mkGraph
  [mkEdge 1 [entry] A (mkEq (t x) (mkInt 0)); mkEdge 2 [A] B (mkEq (t y) (mkPlus [s x; mkInt 1]));
   mkEdge 3 [B] A (mkEq (t x) (mkPlus [s y; mkInt 1])); mkEdge 4 [B] exit (mkEq (s y) (mkInt 3))] (pv_of [(A, [x]); (B, [y])]) 5 0.
Definition g := to_normal hg.
Lemma g_wf : lwf g.
Proof.
  apply normal_wf; [apply graph_check_ok; vm_compute; reflexivity|reflexivity|].
  intros e v He Hv Nv. exfalso. apply Nv. destruct He as [<-|[<-|[<-|[<-|[]]]]]; cbn in Hv; repeat (destruct Hv as [<-|Hv]; [apply inb_true; vm_compute; reflexivity|]); destruct Hv.
Qed.
Lemma names_check (h : lgraph) : (forall p v, In v (lpv h p) -> reserved (vbase v) = false) ->
  forallb (fun e => forallb (fun v => negb (reserved (vbase v))) (vars (lfla e))) (ledges h) = true -> user_names h.
Proof.
  intros H2 H. split; [|exact H2]. intros e v He Hv. rewrite forallb_forall in H. specialize (H e He). rewrite forallb_forall in H. apply negb_true_iff, H, Hv.
Qed.
Lemma g_names : user_names g.
Proof. apply names_check; [|vm_compute; reflexivity]. intros p v Hv. apply pv_of_in in Hv. cbn in Hv. destruct Hv as [<-|[<-|[]]]; reflexivity. Qed.
Lemma g_input : sl_input g.
Proof.
  split; [apply g_wf|apply g_names| | |].
  - eexists. split; [left; reflexivity|]. split; [reflexivity|discriminate].
  - eexists. split; [right; right; right; left; reflexivity|]. split; [reflexivity|discriminate].
  - intros e [<-|[<-|[<-|[<-|[]]]]]; cbn; intros E F; discriminate.
Qed.
Lemma g_np : no_parallel g.
Proof. intros e e' [<-|[<-|[<-|[<-|[]]]]] [<-|[<-|[<-|[<-|[]]]]]; cbn; intros E F; try discriminate; reflexivity. Qed.
Lemma g_fresh : fresh_in g 7 9.
Proof.
  split; [|intros e [<-|[<-|[<-|[<-|[]]]]]; discriminate]. intros H. apply lvertices_spec in H. vm_compute in H. repeat (destruct H as [H|H]; [discriminate H|]). destruct H.
Qed.
Definition ord : list var -> list var := fun l => l.
Definition el : elim_fn := fun _ u => u.
Definition m : valuation := fun v =>
  match vtag v with
  | TTime k => if String.eqb (vbase v) ".loc_2" then VBool (Z.even k) else if String.eqb (vbase v) ".loc_3" then VBool (Z.odd k) else VInt k
  | _ => VInt 0
  end.
Definition m2 : valuation := fun v => match vtag v with TTime k => VInt (k - 1) | _ => VInt 0 end.
Definition es := match path_edges g [1; 2; 3; 2; 4] with Some l => l | None => [] end.
Definition chk := table_check [(sl_query (contracted 7 9 ord g) 3, SAT m); (path_labels 0 es, SAT m2)].
Lemma chk_ok : check_ok chk.
Proof. apply table_check_ok. apply Forall_cons; [prove_sat|apply Forall_cons; [prove_sat|apply Forall_nil]]. Qed.
Example C36_nonvacuous :
  elim_ok el /\ check_ok chk /\ sl_input g /\ no_parallel g /\ fresh_in g 7 9 /\
  sl_path 7 9 ord chk g 3 =
    PathDerivation [mkStep [] (entry, []) 0; mkStep [0] (A, [VInt 0]) 1; mkStep [1] (B, [VInt 1]) 2; mkStep [2] (A, [VInt 2]) 3; mkStep [3] (B, [VInt 3]) 2; mkStep [4] (exit, []) 4].
Proof. split; [apply elim_id_ok|]. split; [apply chk_ok|]. split; [apply g_input|]. split; [apply g_np|]. split; [apply g_fresh|]. vm_compute. reflexivity. Qed.

(** The same with truth values, and safe: x := true; loop: y := x; error when not y; x := y. *)
Definition bx := mkVar "x" TBase SBool.
Definition by_ := mkVar "y" TBase SBool.
Definition hb := mkGraph
  [mkEdge 1 [entry] A (t bx); mkEdge 2 [A] B (mkEq (t by_) (s bx)); mkEdge 3 [B] A (mkEq (t bx) (s by_)); mkEdge 4 [B] exit (mkNot (s by_))] (pv_of [(A, [bx]); (B, [by_])]) 5 0.
Definition gb := to_normal hb.
Lemma gb_wf : lwf gb.
Proof.
  apply normal_wf; [apply graph_check_ok; vm_compute; reflexivity|reflexivity|].
  intros e v He Hv Nv. exfalso. apply Nv. destruct He as [<-|[<-|[<-|[<-|[]]]]]; cbn in Hv; repeat (destruct Hv as [<-|Hv]; [apply inb_true; vm_compute; reflexivity|]); destruct Hv.
Qed.
Lemma gb_input : sl_input gb.
Proof.
  split; [apply gb_wf| | | |].
  - apply names_check; [|vm_compute; reflexivity]. intros p v Hv. apply pv_of_in in Hv. cbn in Hv. destruct Hv as [<-|[<-|[]]]; reflexivity.
  - eexists. split; [left; reflexivity|]. split; [reflexivity|discriminate].
  - eexists. split; [right; right; right; left; reflexivity|]. split; [reflexivity|discriminate].
  - intros e [<-|[<-|[<-|[<-|[]]]]]; cbn; intros E F; discriminate.
Qed.
Lemma gb_fresh : fresh_in gb 7 9.
Proof.
  split; [|intros e [<-|[<-|[<-|[<-|[]]]]]; discriminate]. intros H. apply lvertices_spec in H. vm_compute in H. repeat (destruct H as [H|H]; [discriminate H|]). destruct H.
Qed.
Lemma safe_intro ts inv : state_formula ts inv -> (forall r, holds r (tinit ts) -> holds r inv) -> (forall r, holds r inv -> holds r (ttrans ts) -> holds r (shift 1 inv)) ->
  (forall r, holds r inv -> ~ holds r (tquery ts)) -> safe_inductive ts inv.
Proof.
  intros Sf H1 H2 H3. split; [exact Sf| | |].
  - intros u [r [Ag H]]. apply (holds_agree r u inv); [intros v Hv; apply Ag, Sf, Hv|]. apply H1, H.
  - intros u u' Hu [r [Ag [Ag' H]]]. apply (holds_agree (fun v => r (shiftv 1 v)) u' inv); [intros v Hv; apply Ag', Sf, Hv|]. apply holds_shift, H2; [|exact H].
    apply (holds_agree r u inv); [intros v Hv; apply Ag, Sf, Hv|exact Hu].
  - intros u Hu [r [Ag H]]. apply (H3 r); [|exact H]. apply (holds_agree r u inv); [intros v Hv; apply Ag, Sf, Hv|exact Hu].
Qed.
Definition la := Var (cur (locv A)). Definition lb := Var (cur (locv B)).
Definition xa := Var (cur (argv A 0 SBool)). Definition xb := Var (cur (argv B 0 SBool)).
Definition inv := mkAnd [mkOr [mkNot la; xa]; mkOr [mkNot lb; xb]].
Definition tsb := match single_loop el 7 9 0 ord gb with Some ts => ts | None => mkTS [] [] tt_true tt_true tt_true end.
Example single_b : single_loop el 7 9 0 ord gb = Some tsb.
Proof. vm_compute. reflexivity. Qed.
Lemma inv_safe : safe_inductive tsb inv.
Proof.
  let F := eval vm_compute in tsb in change tsb with F. let F := eval vm_compute in inv in change inv with F. apply safe_intro; cbn [tinit ttrans tquery].
  - intros v Hv. cbn in Hv. repeat (destruct Hv as [<-|Hv]; [apply inb_true; vm_compute; reflexivity|]). destruct Hv.
  - intros r H. ev.
  - intros r H H0. match goal with |- holds r (shift 1 ?f) => let F := eval vm_compute in (shift 1 f) in change (holds r F) end. ev.
  - intros r H H0. ev.
Qed.
Definition idt (u : term) : term := u.
Lemma idt_ok : simp_ok idt. Proof. intros u. split; [intros r; tauto|auto]. Qed.
Definition dA := mkNot (subst (loc_subst [A; B] cur A) inv).
Definition dB := mkNot (subst (loc_subst [A; B] cur B) inv).
Definition qb := table_qe [(dA, [cur (argv A 0 SBool)], mkNot xa); (dB, [cur (argv B 0 SBool)], mkNot xb)].
Lemma qb_ok : qe_ok qb.
Proof.
  apply table_qe_ok. apply Forall_cons; [|apply Forall_cons; [|constructor]]; cbn [fst snd].
  - let F := eval vm_compute in dA in change dA with F. let F := eval vm_compute in xa in change xa with F. split.
    + intros v Hv. cbn in Hv. destruct Hv as [<-|[]]. left. reflexivity.
    + intros r. split.
      * intros H. exists r. split; [intros v _; reflexivity|]. ev.
      * intros [r' [Ag H]]. apply (holds_agree r' r); [intros v Hv; symmetry; apply Ag; exact Hv|]. ev.
  - let F := eval vm_compute in dB in change dB with F. let F := eval vm_compute in xb in change xb with F. split.
    + intros v Hv. cbn in Hv. destruct Hv as [<-|[]]. left. reflexivity.
    + intros r. split.
      * intros H. exists r. split; [intros v _; reflexivity|]. ev.
      * intros [r' [Ag H]]. apply (holds_agree r' r); [intros v Hv; symmetry; apply Ag; exact Hv|]. ev.
Qed.
Example C36_nonvacuous_safe :
  elim_ok el /\ qe_ok qb /\ simp_ok idt /\ sl_input gb /\ fresh_in gb 7 9 /\ single_loop el 7 9 0 ord gb = Some tsb /\ safe_inductive tsb inv /\
  exists w, sl_invariant qb idt gb inv = Some w /\ w A = Some (mkNot (mkNot (Var bx))) /\ w B = Some (mkNot (mkNot (Var by_))).
Proof.
  split; [apply elim_id_ok|]. split; [apply qb_ok|]. split; [apply idt_ok|]. split; [apply gb_input|]. split; [apply gb_fresh|]. split; [apply single_b|]. split; [apply inv_safe|].
  eexists. split; [vm_compute; reflexivity|]. split; vm_compute; reflexivity.
Qed.

(** ** A direct edge *)
Definition hd := mkGraph
  [mkEdge 1 [entry] A (mkEq (t x) (mkInt 0)); mkEdge 2 [A] exit (mkEq (s x) (mkInt 1)); mkEdge 3 [entry] exit tt_true] (pv_of [(A, [x])]) 4 0.
Definition gd := to_normal hd.
Definition tsd := match single_loop el 7 9 0 ord gd with Some ts => ts | None => mkTS [] [] tt_true tt_true tt_true end.
Lemma gd_wf : lwf gd.
Proof.
  apply normal_wf; [apply graph_check_ok; vm_compute; reflexivity|reflexivity|].
  intros e v He Hv Nv. exfalso. apply Nv. destruct He as [<-|[<-|[<-|[]]]]; cbn in Hv; repeat (destruct Hv as [<-|Hv]; [apply inb_true; vm_compute; reflexivity|]); destruct Hv.
Qed.
Lemma gd_names : user_names gd.
Proof. apply names_check; [|vm_compute; reflexivity]. intros p v Hv. apply pv_of_in in Hv. cbn in Hv. destruct Hv as [<-|[]]; reflexivity. Qed.
Lemma gd_fresh : fresh_in gd 7 9.
Proof. split; [|intros e [<-|[<-|[<-|[]]]]; discriminate]. intros H. apply lvertices_spec in H. vm_compute in H. repeat (destruct H as [H|H]; [discriminate H|]). destruct H. Qed.
Definition invd := mkEq (Var (cur (argv A 0 SInt))) (mkInt 0).
Lemma invd_safe : safe_inductive tsd invd.
Proof.
  let F := eval vm_compute in tsd in change tsd with F. let F := eval vm_compute in invd in change invd with F. apply safe_intro; cbn [tinit ttrans tquery].
  - intros v Hv. cbn in Hv. repeat (destruct Hv as [<-|Hv]; [apply inb_true; vm_compute; reflexivity|]). destruct Hv.
  - intros r H. ev.
  - intros r H H0. ev.
  - intros r H H0. ev.
Qed.
Lemma gd_unsafe : lderivable gd (exit, []).
Proof.
  eapply lder_edge with (e := mkLEdge 3 entry exit tt_true); [|apply lder_entry|].
  - vm_compute. auto.
  - exists (fun _ => VInt 0). repeat split.
Qed.

(** ** No edge to exit *)
Definition hq := mkGraph [mkEdge 1 [entry] A (mkEq (t x) (mkInt 0)); mkEdge 2 [A] A (mkEq (t x) (s x))] (pv_of [(A, [x])]) 3 0.
Definition gq := to_normal hq.
Definition tsq := match single_loop el 7 9 0 ord gq with Some ts => ts | None => mkTS [] [] tt_true tt_true tt_true end.
Lemma gq_wf : lwf gq.
Proof.
  apply normal_wf; [apply graph_check_ok; vm_compute; reflexivity|reflexivity|].
  intros e v He Hv Nv. exfalso. apply Nv. destruct He as [<-|[<-|[]]]; cbn in Hv; repeat (destruct Hv as [<-|Hv]; [apply inb_true; vm_compute; reflexivity|]); destruct Hv.
Qed.
Lemma gq_names : user_names gq.
Proof. apply names_check; [|vm_compute; reflexivity]. intros p v Hv. apply pv_of_in in Hv. cbn in Hv. destruct Hv as [<-|[]]; reflexivity. Qed.
Lemma gq_fresh : fresh_in gq 7 9.
Proof. split; [|intros e [<-|[<-|[]]]; discriminate]. intros H. apply lvertices_spec in H. vm_compute in H. repeat (destruct H as [H|H]; [discriminate H|]). destruct H. Qed.
Lemma gq_safe : ~ lderivable gq (exit, []).
Proof.
  intros H. inversion H as [|e f f' He Hf Fo E]. subst. destruct Fo as [r [_ [_ E']]]. destruct He as [<-|[<-|[]]]; discriminate E'.
Qed.
Lemma tsq_error : error_path tsq 0.
Proof.
  let F := eval vm_compute in tsq in change tsq with F.
  set (u := fun v : var => if String.eqb (vbase v) ".loc_2" then VBool true else VInt 0).
  exists u, u. split; [|split; [constructor|]]; exists u; (split; [intros v _; reflexivity|]); vm_compute; reflexivity.
Qed.

(** ** Auxiliary variables stay in the system *)
Definition a := mkVar "a" (TTime 0) SInt.
Definition hx := mkGraph [mkEdge 1 [entry] A (mkAnd [mkLeq (t x) (Var a); mkLeq (Var a) (mkInt 5)]);
  mkEdge 2 [A] B (mkAnd [mkEq (s x) (mkInt 7); mkEq (t y) (mkInt 10)]); mkEdge 3 [B] exit (mkLeq (mkInt 10) (s y))] (pv_of [(A, [x]); (B, [y])]) 4 0.
Definition gx := to_normal hx.
Definition tsx := match single_loop el 7 9 0 ord gx with Some ts => ts | None => mkTS [] [] tt_true tt_true tt_true end.
Lemma gx_wf : lwf gx.
Proof.
  apply normal_wf; [apply graph_check_ok; vm_compute; reflexivity|reflexivity|].
  intros e v He Hv Nv. assert (v = a).
  { destruct He as [<-|[<-|[<-|[]]]]; cbn in Hv; repeat (destruct Hv as [<-|Hv]; [try reflexivity; exfalso; apply Nv; apply inb_true; vm_compute; reflexivity|]); destruct Hv. }
  subst v. split; [reflexivity|]. intros p _ H. apply in_map_iff in H as [b [E Hb]]. apply pv_of_in in Hb. cbn in Hb. destruct Hb as [<-|[<-|[]]]; discriminate E.
Qed.
Lemma gx_input : sl_input gx.
Proof.
  split; [apply gx_wf| | | |].
  - apply names_check; [|vm_compute; reflexivity]. intros p v Hv. apply pv_of_in in Hv. cbn in Hv. destruct Hv as [<-|[<-|[]]]; reflexivity.
  - eexists. split; [left; reflexivity|]. split; [reflexivity|discriminate].
  - eexists. split; [right; right; left; reflexivity|]. split; [reflexivity|discriminate].
  - intros e [<-|[<-|[<-|[]]]]; cbn; intros E F; discriminate.
Qed.
Lemma gx_np : no_parallel gx.
Proof. intros e e' [<-|[<-|[<-|[]]]] [<-|[<-|[<-|[]]]]; cbn; intros E F; try discriminate; reflexivity. Qed.
Lemma gx_fresh : fresh_in gx 7 9.
Proof. split; [|intros e [<-|[<-|[<-|[]]]]; discriminate]. intros H. apply lvertices_spec in H. vm_compute in H. repeat (destruct H as [H|H]; [discriminate H|]). destruct H. Qed.
Lemma gx_reach : all_reachable gx.
Proof.
  intros p [->|[->|[e [He Hp]]]]; [right; constructor|left; reflexivity|].
  assert (I1 : In (nth 0 (ledges gx) (mkLEdge 0 0 0 tt_true)) (ledges gx)) by (left; reflexivity).
  assert (I2 : In (nth 1 (ledges gx) (mkLEdge 0 0 0 tt_true)) (ledges gx)) by (right; left; reflexivity).
  assert (P : path gx entry A) by (apply (path_edge gx _ A I1); constructor).
  assert (P2 : path gx entry B) by (apply (path_edge gx _ B I1); apply (path_edge gx _ B I2); constructor).
  destruct He as [<-|[<-|[<-|[]]]]; cbn in Hp; destruct Hp as [->| ->]; auto; right; constructor.
Qed.
Definition mi : valuation := fun v => if String.eqb (vbase v) ".loc_2" then VBool true else if String.eqb (vbase v) ".loc_3" then VBool false else VInt 0.
Definition mq : valuation := fun v => if String.eqb (vbase v) ".loc_2" then VBool false else if String.eqb (vbase v) ".loc_3" then VBool true else VInt 10.
Definition mf : valuation := fun v => let fin := match vtag v with TTime 0 => true | _ => false end in
  if String.eqb (vbase v) ".loc_2" then VBool (negb fin) else if String.eqb (vbase v) ".loc_3" then VBool fin else if String.eqb (vbase v) ".arg_2_0" then VInt 7 else VInt (if fin then 10 else 0).
Definition chx := table_check [([tinit tsx], SAT mi); (base_query tsx 0, UNSAT); (fwd_query tsx 0, SAT mq); (base_query tsx 1, UNSAT); (fwd_query tsx 1, SAT mf); (bwd_query tsx 1, UNSAT)].
Lemma chx_ok : check_ok chx.
Proof.
  apply table_check_ok. apply Forall_cons; [prove_sat|]. apply Forall_cons; [prove_unsat|]. apply Forall_cons; [prove_sat|].
  apply Forall_cons; [prove_unsat|]. apply Forall_cons; [prove_sat|]. apply Forall_cons; [prove_unsat|apply Forall_nil].
Qed.
Definition invx := mkNot (mkNot (tinit tsx)).
Definition dxA := mkNot (subst (loc_subst [A; B] cur A) invx).
Definition dxB := mkNot (subst (loc_subst [A; B] cur B) invx).
Definition qx := table_qe [(dxA, [cur (argv A 0 SInt)], tt_true); (dxB, [cur (argv B 0 SInt)], tt_true)].
Lemma qx_ok : qe_ok qx.
Proof.
  apply table_qe_ok. apply Forall_cons; [|apply Forall_cons; [|constructor]]; cbn [fst snd]; (split; [intros v []|]; intros r; split; [|intros _; reflexivity]; intros _).
  - exists (fun v => if var_eqb v a then VInt 6 else r v). split; [intros v [<-|[]]; reflexivity|]. let F := eval vm_compute in dxA in change dxA with F. unfold holds, holdsb; cbn. change (coerce SInt (VInt 6)) with (VInt 6). ev.
  - exists r. split; [intros v _; reflexivity|]. let F := eval vm_compute in dxB in change dxB with F. ev.
Qed.
End ExSl.

(** An edge from entry to exit is ignored: the graph derives [false], the system has a safe inductive invariant.  (The pipeline leaves
    such an edge in the graph only if the solver gave up on it, src/transformers/TrivialEdgePruner.cc:35-38.) *)
Theorem C36_direct_edge_refuted :
  exists elim g nv nid ctr ord ts inv,
    elim_ok elim /\ lwf g /\ user_names g /\ fresh_in g nv nid /\ (forall l, Permutation (ord l) l) /\
    (exists e, In e (ledges g) /\ lfrom e = entry /\ lto e <> exit) /\ (exists e, In e (ledges g) /\ lto e = exit /\ lfrom e <> entry) /\
    lderivable g (exit, []) /\ single_loop elim nv nid ctr ord g = Some ts /\ safe_inductive ts inv.
Proof.
  exists ExSl.el, ExSl.gd, 7, 9, 0, ExSl.ord, ExSl.tsd, ExSl.invd. split; [apply elim_id_ok|]. split; [apply ExSl.gd_wf|]. split; [apply ExSl.gd_names|]. split; [apply ExSl.gd_fresh|].
  split; [intros l; apply Permutation_refl|]. split; [eexists; split; [left; reflexivity|split; [reflexivity|discriminate]]|]. split; [eexists; split; [right; left; reflexivity|split; [reflexivity|discriminate]]|].
  split; [apply ExSl.gd_unsafe|]. split; [vm_compute; reflexivity|apply ExSl.invd_safe].
Qed.
(** Without an edge to exit the query of the system is [true]: an error path, though [false] is not derivable. *)
Theorem C36_no_query_refuted :
  exists elim g nv nid ctr ord ts,
    elim_ok elim /\ lwf g /\ user_names g /\ fresh_in g nv nid /\ (forall l, Permutation (ord l) l) /\
    (exists e, In e (ledges g) /\ lfrom e = entry /\ lto e <> exit) /\ (forall e, In e (ledges g) -> lfrom e = entry -> lto e <> exit) /\
    ~ lderivable g (exit, []) /\ single_loop elim nv nid ctr ord g = Some ts /\ error_path ts 0.
Proof.
  exists ExSl.el, ExSl.gq, 7, 9, 0, ExSl.ord, ExSl.tsq. split; [apply elim_id_ok|]. split; [apply ExSl.gq_wf|]. split; [apply ExSl.gq_names|]. split; [apply ExSl.gq_fresh|].
  split; [intros l; apply Permutation_refl|]. split; [eexists; split; [left; reflexivity|split; [reflexivity|discriminate]]|]. split; [intros e [<-|[<-|[]]]; cbn; intros E F; discriminate|].
  split; [apply ExSl.gq_safe|]. split; [vm_compute; reflexivity|apply ExSl.tsq_error].
Qed.
(** The single-loop branch keeps auxiliary variables in the initial states.  k-induction then answers SAFE with a witness that does not
    satisfy the clauses: its backward induction returns the initial states, whose auxiliary variables are eliminated universally. *)
Theorem C36_aux_refuted :
  exists elim qe simp check pitp fuel g nv nid ctr ord w,
    elim_ok elim /\ qe_ok qe /\ simp_ok simp /\ check_ok check /\ pitp_ok pitp /\
    sl_input g /\ no_parallel g /\ all_reachable g /\ fresh_in g nv nid /\ (forall l, Permutation (ord l) l) /\
    ts_engine_full elim nv nid ctr ord qe simp check (kind_engine check pitp fuel) g = Some (VSafe w) /\ ~ lsolution g w.
Proof.
  exists ExSl.el, ExSl.qx, ExSl.idt, ExSl.chx, (fun _ => None), 3, ExSl.gx, 7, 9, 0, ExSl.ord. eexists.
  split; [apply elim_id_ok|]. split; [apply ExSl.qx_ok|]. split; [apply ExSl.idt_ok|]. split; [apply ExSl.chx_ok|]. split; [apply pitp_none_ok|]. split; [apply ExSl.gx_input|]. split; [apply ExSl.gx_np|].
  split; [apply ExSl.gx_reach|]. split; [apply ExSl.gx_fresh|]. split; [intros l; apply Permutation_refl|]. split; [vm_compute; reflexivity|].
  intros H. destruct (lsol_edge _ _ H (nth 0 (ledges ExSl.gx) (mkLEdge 0 0 0 tt_true)) (or_introl eq_refl)) as [d [d' [E1 [E2 X]]]].
  vm_compute in E1, E2. injection E1 as <-. injection E2 as <-. specialize (X (fun _ => VInt 0)). vm_compute in X. specialize (X eq_refl eq_refl). discriminate X.
Qed.
Print Assumptions C36_aux_refuted.
