(** * Property C17: forward symbolic execution.

    Specification: Graph.v ([solution], [refutation], [chc_sat]). *)
From Verif Require Import Syntax Solver TransSys TSLemmas ExTac Graph GraphOps GraphOpsProofs DfsProofs GraphSem GraphEx SimpleTransModel MergeModel LinearModel LinearProofs LinearPath LinearTS PropGraph PropChain NontermProofs SymExModel SymExProofs PropTermination.
Open Scope list_scope.
Open Scope nat_scope.

Lemma symex_run_ok check qe simp elim g fuel : check_ok check -> qe_ok qe -> simp_ok simp -> elim_ok elim -> lwf g ->
  match symex_run check qe simp elim g fuel with
  | SOutOfFuel => True
  | SSafe w => exists hist' ts, explored simp elim g hist' /\ eliminated qe g hist' = Some ts /\ w = validity_defs ts
  | SThrow => (exists q, check q = UNKNOWN) \/ (exists f k, qe f k = None)
  | SUnsafe d => lrefutation g d
  | SUnknown => exists q, check q = UNKNOWN
  end.
Proof.
  intros Hc Hq Hs He W. unfold symex_run.
  pose proof (explore_ok check Hc qe simp Hs elim He g W fuel [mkState entry tt_true None] [0]) as X.
  destruct (explore check qe simp elim g fuel [mkState entry tt_true None] [0]); apply X.
  all: try (exists (mkState entry tt_true None); split; [left; reflexivity|split; [reflexivity|intros r; reflexivity]]).
  all: try (intros i [<-|[]]; cbn; lia).
  all: try (intros i s Hi; left; destruct i as [|i]; [left; reflexivity|destruct i; discriminate]).
  all: intros i s Hi; destruct i as [|i]; [|destruct i; discriminate]; cbn in Hi; injection Hi as <-; split; cbn [ss_node ss_fla]; [discriminate|intros v []|].
  all: exists []; split; [reflexivity|]; split; [intros e []|]; split; [intros r _; rewrite (entry_fact g W); constructor|intros fuel0 acc Hf; destruct fuel0; [lia|reflexivity]].
Qed.

(** Whatever the solver answers, in whatever order the edges are listed: an answer SAFE comes with a solution, an answer
    UNSAFE with a derivation of false; nothing else is answered unless the solver (or quantifier elimination) gave up, or
    the graph has hyperedges. *)
Theorem C17_symbolic_execution :
  forall check qe simp elim fuel g, check_ok check -> qe_ok qe -> simp_ok simp -> elim_ok elim ->
    wf_graph g -> aux_versioned g -> all_reachable (to_normal g) ->
    match symex check qe simp elim fuel g with
    | SSafe w => solution g w /\ chc_sat g
    | SUnsafe d => refutation g d /\ ~ chc_sat g
    | SUnknown => is_normal g = false \/ (exists q, check q = UNKNOWN)
    | SThrow => (exists q, check q = UNKNOWN) \/ (exists f k, qe f k = None)
    | SOutOfFuel => True
    end.
Proof.
  intros check qe simp elim fuel g Hc Hq Hs He W Av Re. unfold symex. destruct (is_normal g) eqn:Nm; [|left; reflexivity].
  pose proof (normal_wf g W Nm Av) as LW. pose proof (symex_run_ok check qe simp elim (to_normal g) fuel Hc Hq Hs He LW) as X.
  destruct (symex_run check qe simp elim (to_normal g) fuel) as [w|d| | |]; auto.
  - destruct X as [hist [ts [Ex [El ->]]]]. pose proof (safe_solution qe Hq simp Hs elim He (to_normal g) LW hist Ex ts El Re) as S.
    apply (normal_solution g W Nm Av) in S. split; [exact S|]. apply chc_sat_iff. apply (solution_safe g _ (rep_exit _ (wf_rep g W)) S).
  - apply (normal_refutation g W Nm Av) in X. split; [exact X|]. rewrite chc_sat_iff. intros N. apply N, (refutation_derivable g d X).
Qed.
Print Assumptions C17_symbolic_execution.

(** The verdict SAFE is right on every graph, also if entry does not reach all vertices. *)
Theorem C17_verdict :
  forall check qe simp elim fuel g, check_ok check -> qe_ok qe -> simp_ok simp -> elim_ok elim -> wf_graph g -> aux_versioned g ->
    match symex check qe simp elim fuel g with SSafe _ => chc_sat g | SUnsafe _ => ~ chc_sat g | _ => True end.
Proof.
  intros check qe simp elim fuel g Hc Hq Hs He W Av. unfold symex. destruct (is_normal g) eqn:Nm; [|exact Logic.I].
  pose proof (normal_wf g W Nm Av) as LW. pose proof (symex_run_ok check qe simp elim (to_normal g) fuel Hc Hq Hs He LW) as X.
  destruct (symex_run check qe simp elim (to_normal g) fuel) as [w|d| | |]; auto.
  - destruct X as [hist [ts [Ex [El ->]]]]. apply chc_sat_iff. intros D. apply (safe simp Hs elim He (to_normal g) LW hist Ex).
    apply (normal_derivable g W Nm Av (exit, [])). exact D.
  - apply (normal_refutation g W Nm Av) in X. rewrite chc_sat_iff. intros N. apply N, (refutation_derivable g d X).
Qed.
Print Assumptions C17_verdict.

Module ExSE.
Definition x := mkVar "x" TBase SInt.
Definition y := mkVar "y" TBase SInt.
Definition a := mkVar "a" (TTime 0) SInt.
Definition B : sym := 2. Definition C : sym := 3.
Definition s v := Var (src 0 v). Definition t v := Var (tgt v).
(** x := a with 1 <= a; y := x + 1; error when y = k. *)
Definition hg (k : Z) := mkGraph
  [mkEdge 1 [entry] B (mkAnd [mkEq (t x) (Var a); mkLeq (mkInt 1) (Var a)]);
   mkEdge 2 [B] C (mkEq (t y) (mkPlus [s x; mkInt 1]));
   mkEdge 3 [C] exit (mkEq (s y) (mkInt k))] (pv_of [(B, [x]); (C, [y])]) 4 0.
Example hg_wf : wf_graph (hg 2) /\ wf_graph (hg 1).
Proof. split; apply graph_check_ok; vm_compute; reflexivity. Qed.
Example hg_aux k : aux_versioned (hg k).
Proof.
  intros e v He Hv Nv. assert (v = a).
  { destruct He as [<-|[<-|[<-|[]]]]; cbn in Hv; repeat (destruct Hv as [<-|Hv]; [try reflexivity; exfalso; apply Nv; apply inb_true; vm_compute; reflexivity|]); destruct Hv. }
  subst v. split; [reflexivity|]. intros p _ H. apply in_map_iff in H as [b [E Hb]]. apply pv_of_in in Hb. cbn in Hb. destruct Hb as [<-|[<-|[]]]; discriminate E.
Qed.
Definition e0 := mkEdge 0 [] 0 tt_true.
Example g_reach k : all_reachable (to_normal (hg k)).
Proof.
  intros p [->|[->|[e [He Hp]]]]; [right; constructor|left; reflexivity|].
  assert (PB : path (to_normal (hg k)) entry B) by (apply (path_edge _ (normal_edge (hg k) (nth 0 (gedges (hg k)) e0))); [left; reflexivity|constructor]).
  assert (PC : path (to_normal (hg k)) entry C).
  { apply (path_edge _ (normal_edge (hg k) (nth 0 (gedges (hg k)) e0))); [left; reflexivity|]. apply (path_edge _ (normal_edge (hg k) (nth 1 (gedges (hg k)) e0))); [right; left; reflexivity|constructor]. }
  destruct He as [<-|[<-|[<-|[]]]]; cbn in Hp; destruct Hp as [->| ->]; auto; right; constructor.
Qed.
Definition el : elim_fn := fun _ u => u.
Definition sm : term -> term := fun u => u.
Definition le k i := normal_edge (hg k) (nth i (gedges (hg k)) e0).
Definition F1 := post sm el (to_normal (hg 1)) tt_true (le 1 0).
Definition F2 := post sm el (to_normal (hg 1)) F1 (le 1 1).
(** Both states keep their auxiliary variables (sent to the past); quantifier elimination removes them. *)
Definition d1 := mkLeq (mkInt 1) (Var (cur x)).
Definition d2 := mkLeq (mkInt 2) (Var (cur y)).
Definition qe0 : qe_fn := table_qe [(tt_true, [], tt_true); (F1, [cur x], d1); (F2, [cur y], d2)].
Lemma qe0_ok : qe_ok qe0.
Proof.
  apply table_qe_ok. repeat apply Forall_cons; [| | |constructor]; cbn [fst snd].
  - split; [intros v []|]. intros r. split; intros _; [exists r; split; [intros v []|reflexivity]|reflexivity].
  - split; [intros v [<-|[]]; left; reflexivity|]. intros r. split.
    + intros H. exists (fun v => r (cur x)). split; [intros v [<-|[]]; reflexivity|]. ev.
    + intros [r' [Ag H]]. specialize (Ag (cur x) (or_introl eq_refl)). let F := eval vm_compute in F1 in change F1 with F in H. unfold holds, holdsb, d1 in *. cbn -[coerce] in *. rewrite Ag in *. let v := eval vm_compute in (cur x) in change (cur x) with v in *. clear Ag. ev.
  - split; [intros v [<-|[]]; left; reflexivity|]. intros r. split.
    + intros H. exists (fun v => if var_eqb v (cur y) then r (cur y) else match coerce SInt (r (cur y)) with VInt z => VInt (z - 1) | u => u end). split; [intros v [<-|[]]; reflexivity|].
      unfold holds, holdsb, d2 in *. cbn in *. destruct (coerce_SInt (r (cur y))) as [z E]. rewrite E in *. cbn in *. change (coerce SInt (VInt (z - 1))) with (VInt (z - 1)). cbn. lia.
    + intros [r' [Ag H]]. specialize (Ag (cur y) (or_introl eq_refl)). let F := eval vm_compute in F2 in change F2 with F in H. unfold holds, holdsb, d2 in *. cbn -[coerce] in *. rewrite Ag in *. let v := eval vm_compute in (cur y) in change (cur y) with v in *. clear Ag. ev.
Qed.
Definition m : valuation := fun v => match vtag v with TTime (-1) => VInt 1 | TTime (-2) => VInt 1 | _ => VInt 2 end.
Definition m2 : valuation := fun v => match vtag v with TTime 0 | TTime 1 => VInt 1 | _ => VInt 2 end.
Definition chk : check_fn := table_check [([F2; lfla (le 2 2)], SAT m); (path_labels 0 [le 2 0; le 2 1; le 2 2], SAT m2); ([F2; lfla (le 1 2)], UNSAT)].
Lemma chk_ok : check_ok chk.
Proof. prove_table. Qed.
Lemma sm_ok : simp_ok sm. Proof. intros u. split; [tauto|auto]. Qed.
Example safe_run : exists w, symex chk qe0 sm el 10 (hg 1) = SSafe w /\ w B = Some (mkOr [mkLeq (mkInt 1) (Var x)]) /\ w C = Some (mkOr [mkLeq (mkInt 2) (Var y)]).
Proof. eexists. split; [vm_compute; reflexivity|]. vm_compute. split; reflexivity. Qed.
Example unsafe_run : symex chk qe0 sm el 10 (hg 2) = SUnsafe [mkStep [] (entry, []) 0; mkStep [0] (B, [VInt 1]) 1; mkStep [1] (C, [VInt 2]) 2; mkStep [2] (exit, []) 3].
Proof. vm_compute. reflexivity. Qed.
Example C17_nonvacuous : check_ok chk /\ qe_ok qe0 /\ simp_ok sm /\ elim_ok el /\ wf_graph (hg 1) /\ aux_versioned (hg 1) /\ all_reachable (to_normal (hg 1)).
Proof. split; [apply chk_ok|]. split; [apply qe0_ok|]. split; [apply sm_ok|]. split; [apply elim_id_ok|]. split; [apply hg_wf|]. split; [apply hg_aux|apply g_reach]. Qed.

(** A loop that entry does not reach. *)
Definition hu := mkGraph [mkEdge 1 [entry] exit tt_false; mkEdge 2 [C] C (mkEq (t y) (s y))] (pv_of [(C, [y])]) 3 0.
End ExSE.

(** The condition on reachability is needed for the witness: a predicate that entry does not reach gets no definition. *)
Theorem C17_unreachable_refuted :
  exists g check qe w, check_ok check /\ qe_ok qe /\ wf_graph g /\ aux_versioned g /\
    symex check qe (fun u => u) (fun _ u => u) 5 g = SSafe w /\ ~ solution g w.
Proof.
  set (chk := table_check [([tt_true; tt_false], UNSAT)]). set (q := table_qe [(tt_true, [], tt_true)]).
  eexists ExSE.hu, chk, q, _. split; [|split; [|split; [|split; [|split]]]].
  - subst chk. prove_table.
  - subst q. apply table_qe_ok. constructor; [|constructor]. cbn [fst snd]. split; [intros v []|]. intros r. split; intros _; [exists r; split; [intros v []|reflexivity]|reflexivity].
  - apply graph_check_ok; vm_compute; reflexivity.
  - intros e v He Hv Nv. exfalso. destruct He as [<-|[<-|[]]]; cbn in Hv; repeat (destruct Hv as [<-|Hv]; [apply Nv; apply inb_true; vm_compute; reflexivity|]); destruct Hv.
  - vm_compute. reflexivity.
  - intros S. destruct (sol_edge _ _ S (mkEdge 2 [ExSE.C] ExSE.C (mkEq (ExSE.t ExSE.y) (ExSE.s ExSE.y)))) as [X _]; [right; left; reflexivity|].
    apply (X ExSE.C); [left; reflexivity|]. vm_compute. reflexivity.
Qed.
Print Assumptions C17_unreachable_refuted.
