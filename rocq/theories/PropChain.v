(** * Property C33: chain summarization.

    Specification: Graph.v and GraphSem.v ([wf_graph], [correct]). *)
From Verif Require Import Syntax Solver TransSys Graph GraphOps GraphOpsProofs ValidatorModel FormulaModel GraphSem SimpleTransModel UnreachProofs UnreachProofs2 SimpleTransProofs SimpleTransProofs2 SimplifierProofs ListLemmas MergeModel MergeProofs ChainProofs ChainStep ChainBack ChainTotal ChainValid GraphEx ExTac.
Open Scope nat_scope.

(** A vertex that would be summarized: one edge in, one other edge out, both with one source, and the two
    neighbours differ. *)
Definition summarizable (g : hgraph) (v : sym) : Prop :=
  exists p q i o, In i (gedges g) /\ In o (gedges g) /\ efrom i = [p] /\ eto i = v /\ efrom o = [v] /\ eto o = q /\
    p <> q /\ p <> v /\
    (forall e, In e (gedges g) -> eto e = v -> e = i) /\ (forall e, In e (gedges g) -> In v (efrom e) -> e = o).

(** Whatever order the vertices are visited in: the transformation ends, its result is well-formed and
    equisatisfiable, no summarizable vertex is left, and every translated witness is a witness of the original
    graph. *)
Theorem C33_chain_summarization :
  forall elim check pitp vertices g, elim_ok elim -> check_ok check -> pitp_ok pitp ->
    (forall h v, In v (vertices h) <-> vertex h v) -> wf_graph g ->
    exists t, summarize elim check pitp vertices (S (length (gedges g))) g = Some t /\ wf_graph (tr_graph t) /\
      correct g (tr_graph t) (tr_valid t) (tr_invalid t) /\ (forall v, ~ summarizable (tr_graph t) v).
Proof.
  intros elim check pitp vertices g He Hc Hp Hv W.
  pose proof (summarize_loop_total elim He vertices (fun h v => proj1 (Hv h v)) (S (length (gedges g))) g W (Nat.lt_succ_diag_r _)) as Tt.
  destruct (summarize elim check pitp vertices (S (length (gedges g))) g) as [t|] eqn:E.
  2:{ exfalso. unfold summarize in E. destruct (summarize_loop elim vertices _ g) as [[g' cs]|]; [discriminate|congruence]. }
  exists t. split; [reflexivity|]. destruct (summarize_good elim He check Hc pitp Hp vertices _ g t W E) as [W' C]. split; [exact W'|]. split; [exact C|].
  intros v S. unfold summarize in E. destruct (summarize_loop elim vertices _ g) as [[g' cs]|] eqn:EL; [|discriminate]. injection E as <-. cbn [tr_graph] in *.
  pose proof (li_final _ _ _ _ _ _ (loop_ok elim He check pitp Hp vertices _ g g' cs W EL) v) as F.
  assert (T : is_trivial g' v = true).
  { apply (is_trivial_spec g' W'). destruct S as [p [q [i [o [H1 [H2 [H3 [H4 [H5 [H6 [H7 [H8 [H9 H10]]]]]]]]]]]]]. exists i, o. split; auto. exists p. split; [exact H3|]. split; [congruence|exact H8]. }
  rewrite F in T; [discriminate|]. apply Hv. destruct (proj1 (is_trivial_spec g' W' v) T) as [i [o Tr]]. rewrite <- (tv_to _ _ _ _ Tr). apply vertex_tgt, (tv_i _ _ _ _ Tr).
Qed.
Print Assumptions C33_chain_summarization.

(** With the elimination of the code, for any number of iterations. *)
Theorem C33_with_trivial_elimination :
  forall retrieve fractional check pitp vertices fuel g t, retrieve_ok retrieve ->
    check_ok check -> pitp_ok pitp -> wf_graph g ->
    summarize (tqe retrieve fractional) check pitp vertices fuel g = Some t ->
    wf_graph (tr_graph t) /\ correct g (tr_graph t) (tr_valid t) (tr_invalid t).
Proof.
  intros retrieve fractional check pitp vertices fuel g t Hr Hc Hp W E.
  exact (summarize_good (tqe retrieve fractional) (tqe_ok retrieve fractional Hr) check Hc pitp Hp vertices fuel g t W E).
Qed.
Print Assumptions C33_with_trivial_elimination.

(** Solutions are always translated when the solver answers and every vertex is reachable from [true].
    The default pipeline does not establish this: its first chain summarization runs before the first removal of
    unreachable nodes (src/transformers/BasicTransformationPipelines.cc:66-84). *)
Theorem C33_solutions_total :
  forall elim check pitp vertices fuel g t, elim_ok elim -> check_ok check -> decisive check -> pitp_ok pitp ->
    (forall As, unsat (concat As) -> pitp As <> None) -> wf_graph g -> (forall v, vertex g v -> connected g v) ->
    summarize elim check pitp vertices fuel g = Some t ->
    forall w, solution (tr_graph t) w -> only (tr_graph t) w -> exists w', tr_valid t w = Some w' /\ solution g w'.
Proof.
  intros elim check pitp vertices fuel g t He Hc Hd Hp Hpt W Cn E w Sw Ow. pose proof E as E'. unfold summarize in E.
  destruct (summarize_loop elim vertices fuel g) as [[g' cs]|] eqn:EL; [|discriminate]. injection E as <-. cbn [tr_graph tr_valid] in *.
  pose proof (loop_valid_total elim He check Hc Hd pitp Hp Hpt vertices fuel g g' cs W Cn EL w Sw Ow) as X.
  destruct (back_all (rev (map (back_chain_valid check pitp g) cs)) w) as [w'|] eqn:Eb; [|congruence]. exists w'. split; [reflexivity|].
  destruct (summarize_good elim He check Hc pitp Hp vertices fuel g _ W E') as [_ [_ V _]]. cbn [tr_valid tr_graph] in V. apply (V w w' Sw Ow Eb).
Qed.
Print Assumptions C33_solutions_total.

Lemma elim_id_ok : elim_ok (fun _ t => t).
Proof. intros keep t. split; [auto|]. intros r. tauto. Qed.

Module ExChain.
Definition x := mkVar "x" TBase SInt.
Definition y := mkVar "y" TBase SInt.
Definition z := mkVar "z" TBase SInt.
Definition a := mkVar "a" (TTime 0) SInt.
Definition A : sym := 2. Definition B : sym := 3. Definition C : sym := 4.
Definition reps := [(A, [x]); (B, [y]); (C, [z])].
Definition sv v := Var (src 0 v). Definition tv v := Var (tgt v).
(** A loop on A, then a chain A -> B -> C -> false; the first edge of the chain has an auxiliary variable. *)
Definition es (k : Z) : list hedge :=
  [mkEdge 1 [entry] A (mkEq (tv x) (mkInt 0));
   mkEdge 2 [A] A (mkEq (tv x) (mkPlus [sv x; mkInt 1]));
   mkEdge 3 [A] B (mkAnd [mkEq (Var a) (sv x); mkEq (tv y) (Var a)]);
   mkEdge 4 [B] C (mkEq (tv z) (mkPlus [sv y; mkInt 1]));
   mkEdge 5 [C] exit (mkEq (sv z) (mkInt k))].
Definition g k := mkGraph (es k) (pv_of reps) 6 0.
Example g_wf : wf_graph (g 2) /\ wf_graph (g (-1)).
Proof. split; apply graph_check_ok; vm_compute; reflexivity. Qed.
Example g_connected : forall v, vertex (g 2) v -> connected (g 2) v.
Proof.
  assert (CA : connected (g 2) A) by (apply (conn_edge (g 2) (nth 0 (es 2) (mkEdge 0 [] 0 tt_true)) entry); [left; reflexivity|left; reflexivity|constructor]).
  assert (CB : connected (g 2) B) by (apply (conn_edge (g 2) (nth 2 (es 2) (mkEdge 0 [] 0 tt_true)) A); [do 2 right; left; reflexivity|left; reflexivity|exact CA]).
  assert (CC : connected (g 2) C) by (apply (conn_edge (g 2) (nth 3 (es 2) (mkEdge 0 [] 0 tt_true)) B); [do 3 right; left; reflexivity|left; reflexivity|exact CB]).
  assert (CX : connected (g 2) exit) by (apply (conn_edge (g 2) (nth 4 (es 2) (mkEdge 0 [] 0 tt_true)) C); [do 4 right; left; reflexivity|left; reflexivity|exact CC]).
  intros v [->|[->|[e [He Hv]]]]; [constructor|exact CX|].
  cbn in He. repeat (destruct He as [<-|He]; [cbn in Hv; destruct Hv as [[<-|[]]| ->]; assumption || constructor|]). destruct He.
Qed.
Definition el : elim_fn := fun _ t => t.
Definition chain k := skipn 2 (es k).
Definition path k := path_constraint (g k) (chain k).
Definition at_ n v := at_time n v.
(** The model: x = 1 at time 0, y = 1, z = 2. *)
Definition mdl : valuation := fun v => if var_eqb v (at_time 2 z) then VInt 2 else VInt 1.
Definition q_sat := [subst (fill (vars_at (g 2) exit 3) (exit, []) ++ fill (vars_at (g 2) A 0) (A, [VInt 1])) (path 2)].
Definition wA : term := mkLeq (mkInt 0) (Var x).
Definition parts := chain_parts (g (-1)) (chain (-1)) wA tt_false.
Definition chk : check_fn := table_check [(q_sat, SAT mdl); (concat parts, UNSAT)].
Lemma chk_ok : check_ok chk.
Proof. prove_table. Qed.
Definition js := [mkLeq (mkInt 0) (sv y); mkLeq (mkInt 1) (sv z)].
Definition ptp : pitp_fn := table_pitp [(parts, js)].
Lemma ptp_ok : pitp_ok ptp.
Proof.
  apply table_pitp_ok. constructor; [|constructor]. split; cbn [fst snd].
  - prove_chain.
  - intros i I0 Hi v Hv. destruct i as [|[|i]]; [injection Hi as <-|injection Hi as <-|destruct i; discriminate]; cbn in Hv; destruct Hv as [<-|[]]; split; apply inb_true; vm_compute; reflexivity.
Qed.
Definition t k := summarize el chk ptp hnodes 6 (g k).
Example summarized : exists r, t 2 = Some r /\ map (fun e => (eid e, efrom e, eto e)) (gedges (tr_graph r)) = [(1, [entry], A); (2, [A], A); (6, [A], exit)].
Proof. eexists. split; [vm_compute; reflexivity|]. vm_compute. reflexivity. Qed.
(** A refutation of the summarized graph and its translation. *)
Definition d : derivation := [mkStep [] (entry, []) 0; mkStep [0] (A, [VInt 0]) 1; mkStep [1] (A, [VInt 1]) 2; mkStep [2] (exit, []) 6].
Example translated : option_map (fun r => tr_invalid r d) (t 2) = Some (Some
  [mkStep [] (entry, []) 0; mkStep [0] (A, [VInt 0]) 1; mkStep [1] (A, [VInt 1]) 2; mkStep [2] (B, [VInt 1]) 3; mkStep [3] (C, [VInt 2]) 4; mkStep [4] (exit, []) 5]).
Proof. vm_compute. reflexivity. Qed.
(** A solution of the summarized graph and its translation. *)
Definition w : defs_t := fun p => if Nat.eqb p entry then Some tt_true else if Nat.eqb p exit then Some tt_false else if Nat.eqb p A then Some wA else None.
Example translated_solution : exists w', option_map (fun r => tr_valid r w) (t (-1)) = Some (Some w') /\
  w' B = Some (mkLeq (mkInt 0) (Var y)) /\ w' C = Some (mkLeq (mkInt 1) (Var z)).
Proof. eexists. split; [vm_compute; reflexivity|]. vm_compute. split; reflexivity. Qed.

(** ** A cycle without connection to the rest of the graph *)
Definition gc := mkGraph
  [mkEdge 1 [A] B (mkEq (tv y) (sv x)); mkEdge 2 [B] C (mkEq (tv z) (sv y)); mkEdge 3 [C] A (mkEq (tv x) (sv z)); mkEdge 4 [entry] exit tt_false]
  (pv_of reps) 5 0.
Example gc_wf : wf_graph gc.
Proof. apply graph_check_ok; vm_compute; reflexivity. Qed.
Definition wc : defs_t := fun p => if Nat.eqb p entry then Some tt_true else if Nat.eqb p exit then Some tt_false else None.
End ExChain.

(** The unrestricted claim (every solution is translated) is false of the code: a safe, well-formed graph with a cycle of
    trivial vertices that is not connected to the rest.  The summarized graph has a solution, but its translation looks up the definition
    of a vertex that was deleted and fails, whatever the solver does. *)
Theorem C33_refuted :
  exists g, wf_graph g /\ chc_sat g /\
    forall check pitp, exists t, summarize (fun _ u => u) check pitp hnodes (S (length (gedges g))) g = Some t /\
      (exists w, solution (tr_graph t) w /\ only (tr_graph t) w) /\
      (forall w, solution (tr_graph t) w -> only (tr_graph t) w -> tr_valid t w = None).
Proof.
  exists ExChain.gc. split; [apply ExChain.gc_wf|]. split.
  { apply chc_sat_iff. intros D. assert (X : forall f, dfact ExChain.gc f -> f = (entry, [])).
    { apply (dfact_ind ExChain.gc (fun f => f = (entry, []))); [reflexivity|]. intros e ps f He Hf _ IH. exfalso.
      destruct He as [<-|[<-|[<-|[<-|[]]]]].
      - destruct (follows_prems _ _ _ _ Hf) as [E _]. destruct ps as [|p0 [|]]; try discriminate E. pose proof (Forall_inv IH) as Ep. cbv beta in Ep. rewrite Ep in E. discriminate E.
      - destruct (follows_prems _ _ _ _ Hf) as [E _]. destruct ps as [|p0 [|]]; try discriminate E. pose proof (Forall_inv IH) as Ep. cbv beta in Ep. rewrite Ep in E. discriminate E.
      - destruct (follows_prems _ _ _ _ Hf) as [E _]. destruct ps as [|p0 [|]]; try discriminate E. pose proof (Forall_inv IH) as Ep. cbv beta in Ep. rewrite Ep in E. discriminate E.
      - destruct Hf as [r [Hr _]]. discriminate Hr. }
    specialize (X (exit, []) D). discriminate X. }
  intros check pitp. eexists. split; [vm_compute; reflexivity|]. cbn [tr_graph tr_valid]. split.
  - exists ExChain.wc. split.
    + split.
      * intros p d Hd v Hv. unfold ExChain.wc in Hd. destruct (Nat.eqb p entry); [injection Hd as <-; destruct Hv|]. destruct (Nat.eqb p exit); [injection Hd as <-; destruct Hv|discriminate].
      * exists tt_true. split; [reflexivity|]. intros r. reflexivity.
      * exists tt_false. split; [reflexivity|]. intros r H. discriminate H.
      * intros e [<-|[]]. split; [intros p [<-|[]]; discriminate|]. exists tt_false. split; [reflexivity|]. intros r H. discriminate H.
    + intros p Hp. unfold ExChain.wc in Hp. destruct (Nat.eqb_spec p entry) as [E0|_]; [left; exact E0|]. destruct (Nat.eqb_spec p exit) as [E1|_]; [right; left; exact E1|congruence].
  - intros w _ O. unfold back_all. cbn.
    match goal with |- match w ?p with _ => _ end = None => destruct (w p) as [d|] eqn:E; [|reflexivity] end.
    exfalso. assert (N : w _ <> None) by (intros X; rewrite E in X; discriminate X). apply O in N. destruct N as [N|[N|[e [[<-|[]] [[N|[]]|N]]]]]; discriminate N.
Qed.
Print Assumptions C33_refuted.
