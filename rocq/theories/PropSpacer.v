(** * Properties C12, C13: Spacer.

    Specification: Graph.v ([solution], [refutation], [chc_sat]). *)
From Coq Require Import Permutation.
From Verif Require Import Syntax Solver BoolOracle Graph GraphOps GraphOpsProofs ValidatorModel ValidatorProofs GraphSem GraphEx SimpleTransModel UnreachProofs NontermProofs EntailModel PdkModel PropPdk SpacerModel SpacerProofs SpacerRun SpacerTotal.
Open Scope nat_scope.
Open Scope list_scope.

(** Whatever the solver answers (also UNKNOWN), whatever interpolants and projections it returns, whatever the order of
    the queue and of the sets: the interpretation of a SAFE answer satisfies every clause. *)
Theorem C12_spacer_safe :
  forall c check itp mbp simp ord pick logProof g fuel inner w,
    ctors_ok c -> check_ok check -> itp_ok itp -> mbp_ok mbp -> simp_ok simp -> ord_ok ord -> pick_ok pick ->
    wf_graph g -> labels_no_act g ->
    spacer c check itp mbp simp ord pick logProof g fuel inner = SpSafe w -> solution g w /\ only g w /\ chc_sat g.
Proof.
  intros c check itp mbp simp ord pick lp g fuel inner w Hct Hc Hi Hm Hs Ho Hp W Na E.
  pose proof (spacer_ok c Hct check Hc itp Hi mbp Hm simp Hs ord Ho pick Hp lp g W Na fuel inner) as X. rewrite E in X.
  destruct X as [X O]. split; [exact X|]. split; [exact O|]. apply chc_sat_iff. apply (solution_safe g _ (rep_exit _ (wf_rep g W)) X).
Qed.
Print Assumptions C12_spacer_safe.

(** UNSAFE: false is derivable (unless the solver gave up on some query), and a proof that is returned is a derivation of
    false whatever the solver did.  An exception (other than one about the proof) means that some oracle gave up. *)
Theorem C13_spacer_unsafe :
  forall c check itp mbp simp ord pick logProof g fuel inner,
    ctors_ok c -> check_ok check -> itp_ok itp -> mbp_ok mbp -> simp_ok simp -> ord_ok ord -> pick_ok pick ->
    wf_graph g -> labels_no_act g ->
    match spacer c check itp mbp simp ord pick logProof g fuel inner with
    | SpUnsafe (Some d) => error_derivation g d /\ ~ chc_sat g
    | SpUnsafe None => logProof = false /\ ((exists q, check q = UNKNOWN) \/ ~ chc_sat g)
    | SpNoProof => (exists q, check q = UNKNOWN) \/ ~ chc_sat g
    | SpThrow => (exists q, check q = UNKNOWN) \/ (exists A B, itp A B = None) \/ (exists f k m, mbp f k m = None)
    | _ => True
    end.
Proof.
  intros c check itp mbp simp ord pick lp g fuel inner Hct Hc Hi Hm Hs Ho Hp W Na.
  pose proof (spacer_ok c Hct check Hc itp Hi mbp Hm simp Hs ord Ho pick Hp lp g W Na fuel inner) as X.
  assert (D : derivable g exit [] -> ~ chc_sat g) by (intros D; rewrite chc_sat_iff; intros N; apply N, D).
  destruct (spacer _ _ _ _ _ _ _ _ _ _ _) as [w|[d|]| | |]; auto.
  - split; [exact X|]. apply D. apply (refutation_derivable g d (ed_ref _ _ X)).
  - destruct X as [E [U|U]]; (split; [exact E|]); [left; exact U|right; apply D, U].
  - destruct X as [U|U]; [left; exact U|right; apply D, U].
Qed.
Print Assumptions C13_spacer_unsafe.

Module ExSp.
Definition x := mkVar "x" TBase SBool.
Definition y := mkVar "y" TBase SBool.
Definition a := mkVar "a" (TTime 0) SBool.
Definition A : sym := 2. Definition B : sym := 3.
Definition s i v := Var (src i v). Definition t v := Var (tgt v).
Definition reps := [(A, [x]); (B, [y])].
Definition sm : term -> term := fun u => u.
Lemma sm_ok : simp_ok sm. Proof. intros u. split; [tauto|auto]. Qed.
Definition od : list term -> list term := fun l => l.
Lemma od_ok : ord_ok od. Proof. intros l u. tauto. Qed.
(** The priority queue: smallest bound first. *)
Fixpoint pick (q : list pob) : option (pob * list pob) :=
  match q with
  | [] => None
  | p :: q' =>
    match pick q' with
    | None => Some (p, [])
    | Some (p', r) => if Nat.leb (pob_b p) (pob_b p') then Some (p, q') else Some (p', p :: r)
    end
  end.
Lemma pick_good : pick_ok pick.
Proof.
  intros q. induction q as [|p q IH]; cbn [pick]; [reflexivity|]. destruct (pick q) as [[p' r]|]; [|rewrite IH; apply Permutation_refl].
  destruct (Nat.leb _ _); [apply Permutation_refl|]. etransitivity; [apply perm_skip, IH|]. apply perm_swap.
Qed.
(** x is true in A and stays so; B holds of any y; false when [phi]. *)
Definition g (phi : term) := mkGraph
  [mkEdge 1 [entry] A (t x); mkEdge 2 [A] A (mkEq (t x) (s 0 x)); mkEdge 3 [entry] B (mkEq (t y) (Var a)); mkEdge 4 [A; B] B (mkEq (t y) (mkNot (s 0 y)));
   mkEdge 5 [A; B] exit phi] (pv_of reps) 6 0.
Definition ok := mkAnd [mkNot (s 0 x); s 0 y].
Definition bad := mkAnd [s 0 x; s 0 y].
Example g_wf : wf_graph (g ok) /\ wf_graph (g bad).
Proof. split; apply graph_check_ok; vm_compute; reflexivity. Qed.
Lemma no_act_labels g0 : forallb (fun e => forallb (fun v => negb (tag_eqb (vtag v) TBase)) (vars (efla e))) (gedges g0) = true -> labels_no_act g0.
Proof.
  intros H e i He Hv. rewrite forallb_forall in H. specialize (H e He). rewrite forallb_forall in H. specialize (H _ Hv). discriminate H.
Qed.
Example g_act : labels_no_act (g ok) /\ labels_no_act (g bad).
Proof. split; apply no_act_labels; vm_compute; reflexivity. Qed.
Definition run_on lp phi := spacer plain bcheck bitp bmbp sm od pick lp (g phi) 20 100.
Example safe_run : match run_on false ok with SpSafe w => match w A, w B with Some d, Some d' =>
   forallb (fun b => Bool.eqb (holdsb (fun _ => VBool b) d) b) [true; false] && forallb (fun b => holdsb (fun _ => VBool b) d') [true; false] | _, _ => false end | _ => false end = true.
Proof. vm_compute. reflexivity. Qed.
Example unsafe_run : run_on true bad = SpUnsafe (Some
  [mkStep [] (entry, []) 0; mkStep [0] (B, [VBool true]) 3; mkStep [0] (A, [VBool true]) 1; mkStep [2; 1] (exit, []) 5]).
Proof. vm_compute. reflexivity. Qed.
Example unsafe_run' : run_on false bad = SpUnsafe None.
Proof. vm_compute. reflexivity. Qed.

(** A is empty (its only clause has a contradictory body), B holds of both values; false needs A and B. *)
Definition gu := mkGraph
  [mkEdge 1 [entry] B (t y); mkEdge 2 [entry] B (mkNot (t y)); mkEdge 3 [entry] A (mkAnd [t x; Var a; mkNot (Var a)]);
   mkEdge 4 [A; B] exit (mkAnd [s 0 x; s 0 y])] (pv_of reps) 5 0.
Example gu_wf : wf_graph gu /\ labels_no_act gu.
Proof. split; [apply graph_check_ok; vm_compute; reflexivity|apply no_act_labels; vm_compute; reflexivity]. Qed.
(** A solver that gives up on disjunctions of two clauses of a vertex, and answers correctly otherwise. *)
Definition chk : check_fn := fun q => match q with [App FOr [App FAnd _; App FAnd _]; App FAnd _] => UNKNOWN | _ => bcheck q end.
Lemma chk_ok : check_ok chk.
Proof.
  assert (X : forall q, chk q = UNKNOWN \/ chk q = bcheck q) by (intros q; unfold chk; repeat (match goal with |- context [match ?u with _ => _ end] => destruct u end; auto)).
  split; intros q; destruct (X q) as [E|E]; rewrite E; try discriminate; [apply (check_sat _ bcheck_ok)|apply (check_unsat _ bcheck_ok)].
Qed.
End ExSp.

(** Without that condition the claim is false of the code: when the solver gives up on the query whether an obligation is
    reachable ([checkMustReachability] treats UNKNOWN as UNSAT) but answers the smaller queries about single clauses, an
    obligation for the entry is created and the engine answers UNSAFE although the clauses are satisfiable. *)
Theorem C13_unknown_refuted :
  exists c check itp mbp simp ord pick g fuel inner,
    ctors_ok c /\ check_ok check /\ itp_ok itp /\ mbp_ok mbp /\ simp_ok simp /\ ord_ok ord /\ pick_ok pick /\
    wf_graph g /\ labels_no_act g /\ spacer c check itp mbp simp ord pick false g fuel inner = SpUnsafe None /\ chc_sat g.
Proof.
  exists plain, ExSp.chk, bitp, bmbp, ExSp.sm, ExSp.od, ExSp.pick, ExSp.gu, 20, 100.
  split; [apply plain_ok|]. split; [apply ExSp.chk_ok|]. split; [apply bitp_ok|]. split; [apply bmbp_ok|]. split; [apply ExSp.sm_ok|]. split; [apply ExSp.od_ok|].
  split; [apply ExSp.pick_good|]. split; [apply ExSp.gu_wf|]. split; [apply ExSp.gu_wf|]. split; [vm_compute; reflexivity|].
  assert (S : exists w, spacer plain bcheck bitp bmbp ExSp.sm ExSp.od ExSp.pick false ExSp.gu 20 100 = SpSafe w).
  { destruct (spacer plain bcheck bitp bmbp ExSp.sm ExSp.od ExSp.pick false ExSp.gu 20 100) as [w| | | |] eqn:E; [eauto| | | |]; vm_compute in E; discriminate E. }
  destruct S as [w S]. apply (C12_spacer_safe plain bcheck bitp bmbp ExSp.sm ExSp.od ExSp.pick false ExSp.gu 20 100 w) in S; [apply S| | | | | | | | |].
  - apply plain_ok.
  - apply bcheck_ok.
  - apply bitp_ok.
  - apply bmbp_ok.
  - apply ExSp.sm_ok.
  - apply ExSp.od_ok.
  - apply ExSp.pick_good.
  - apply ExSp.gu_wf.
  - apply ExSp.gu_wf.
Qed.
Print Assumptions C13_unknown_refuted.

(** With proof logging, a projection that keeps the model's values (and is [true] when nothing is kept), and no UNKNOWN
    answer, the derivation is always reconstructed. *)
Theorem C13_proof_found :
  forall c check itp mbp simp ord pick g fuel inner,
    ctors_ok c -> check_ok check -> itp_ok itp -> mbp_ok mbp -> point_mbp mbp -> ord_ok ord -> pick_ok pick ->
    wf_graph g -> labels_no_act g ->
    spacer c check itp mbp simp ord pick true g fuel inner = SpNoProof -> exists q, check q = UNKNOWN.
Proof.
  intros c check itp mbp simp ord pick g fuel inner Hct Hc Hi Hm Hpt Ho Hp W Na E.
  exact (spacer_total c Hct check Hc itp Hi mbp Hm Hpt simp ord Ho pick Hp true eq_refl g W Na fuel inner E).
Qed.
Print Assumptions C13_proof_found.
Lemma bmbp_point : point_mbp bmbp.
Proof.
  intros f keep m h E H. unfold bmbp in E. destruct (forallb boolv (kept f keep)) eqn:B; [|discriminate]. injection E as <-. split.
  - intros r Hr v Hk Hv. assert (Hin : In v (kept f keep)) by (apply filter_In; split; [apply nvars_in, Hv|apply inb_true, Hk]).
    destruct (kept f keep) as [|u vs] eqn:Ek; [destruct Hin|]. rewrite <- Ek in *. revert v Hk Hv Hin. intros v _ _ Hin. apply (proj1 (cube_sem r m _ B) Hr v Hin).
  - intros ->. unfold kept. replace (filter (fun v => inb v []) (nvars f)) with (@nil var); [reflexivity|]. symmetry. induction (nvars f) as [|x l IH]; [reflexivity|exact IH].
Qed.

(** For a projection that only meets the contract of [ModelBasedProjection] this is false: [logNewFactIntoDatabase]
    records for each premise the first component true in the model, while the projected summary may have been obtained from
    another component (here: from all of them).  A correct UNSAFE run then ends with the exception "Error in computing
    derivation!" although the solver answers every query. *)
Module ExNoProof.
Definition z := mkVar "z" TBase SBool.
Definition y := ExSp.y.
Definition B : sym := 2. Definition C : sym := 3.
Definition s := ExSp.s. Definition t := ExSp.t.
Definition mbp : mbp_fn := fun f keep m => match kept f keep with [] => Some tt_true | _ => bqe f keep end.
Lemma mbp_good : mbp_ok mbp.
Proof.
  intros f keep m h. unfold mbp. intros E H. destruct (kept f keep) as [|u l] eqn:Ek.
  - injection E as <-. split; [intros v []|reflexivity|]. intros r _. apply (merge_agree f keep r m H). rewrite Ek. intros v [].
  - destruct (bqe_ok _ _ _ E) as [P1 P2]. split; [exact P1| |].
    + intros _. apply P2. exists m. split; [intros v _; reflexivity|exact H].
    + intros r Hr. apply P2, Hr.
Qed.
Definition g := mkGraph
  [mkEdge 1 [entry] B (t y); mkEdge 2 [entry] B (mkNot (t y)); mkEdge 3 [B; B] C (mkAnd [mkEq (s 0 y) (mkNot (s 1 y)); mkEq (t z) (s 0 y)]);
   mkEdge 4 [C] exit (mkEq (s 0 z) (s 0 z))] (pv_of [(B, [y]); (C, [z])]) 5 0.
Example g_wf : wf_graph g /\ labels_no_act g.
Proof. split; [apply graph_check_ok; vm_compute; reflexivity|apply ExSp.no_act_labels; vm_compute; reflexivity]. Qed.
(** A solver that prefers a different model on queries with one variable. *)
Definition chk : check_fn := fun q =>
  match nvars (mkAnd q) with [v] => if forallb (holdsb (fun _ => VBool true)) q then SAT (fun _ => VBool true) else bcheck q | _ => bcheck q end.
Lemma chk_ok : check_ok chk.
Proof.
  assert (X : forall q, chk q = bcheck q \/ forallb (holdsb (fun _ => VBool true)) q = true /\ chk q = SAT (fun _ => VBool true)).
  { intros q. unfold chk. destruct (nvars (mkAnd q)) as [|v [|]]; auto. destruct (forallb _ q); auto. }
  split; intros q; destruct (X q) as [E|[H E]]; rewrite E; try discriminate; [apply (check_sat _ bcheck_ok)| |apply (check_unsat _ bcheck_ok)].
  intros m E'. assert (m = fun _ => VBool true) by congruence. subst m. apply Forall_forall. intros u Hu. rewrite forallb_forall in H. apply H, Hu.
Qed.
Lemma chk_decisive q : (forall v, In v (vars (mkAnd q)) -> vsort v = SBool) -> chk q <> UNKNOWN.
Proof.
  intros H. assert (B : bcheck q <> UNKNOWN).
  { unfold bcheck. replace (forallb boolv (nvars (mkAnd q))) with true; [destruct (find _ _); discriminate|]. symmetry. apply forallb_forall. intros v Hv. apply nvars_in in Hv.
    unfold boolv. rewrite (H v Hv). reflexivity. }
  unfold chk. destruct (nvars (mkAnd q)) as [|v [|]]; auto. destruct (forallb _ q); [discriminate|exact B].
Qed.
Definition run m := spacer plain chk bitp m ExSp.sm ExSp.od ExSp.pick true g 20 100.
End ExNoProof.
Theorem C13_proof_refuted :
  exists c check itp mbp simp ord pick g fuel inner,
    ctors_ok c /\ check_ok check /\ itp_ok itp /\ mbp_ok mbp /\ simp_ok simp /\ ord_ok ord /\ pick_ok pick /\
    wf_graph g /\ labels_no_act g /\ (forall q, (forall v, In v (vars (mkAnd q)) -> vsort v = SBool) -> check q <> UNKNOWN) /\
    spacer c check itp mbp simp ord pick true g fuel inner = SpNoProof /\ ~ chc_sat g.
Proof.
  exists plain, ExNoProof.chk, bitp, ExNoProof.mbp, ExSp.sm, ExSp.od, ExSp.pick, ExNoProof.g, 20, 100.
  split; [apply plain_ok|]. split; [apply ExNoProof.chk_ok|]. split; [apply bitp_ok|]. split; [apply ExNoProof.mbp_good|]. split; [apply ExSp.sm_ok|]. split; [apply ExSp.od_ok|].
  split; [apply ExSp.pick_good|]. split; [apply ExNoProof.g_wf|]. split; [apply ExNoProof.g_wf|]. split; [apply ExNoProof.chk_decisive|]. split; [vm_compute; reflexivity|].
  pose proof (C13_spacer_unsafe plain ExNoProof.chk bitp bmbp ExSp.sm ExSp.od ExSp.pick true ExNoProof.g 20 100 plain_ok ExNoProof.chk_ok bitp_ok bmbp_ok ExSp.sm_ok ExSp.od_ok
    ExSp.pick_good (proj1 ExNoProof.g_wf) (proj2 ExNoProof.g_wf)) as X.
  assert (S : exists d, spacer plain ExNoProof.chk bitp bmbp ExSp.sm ExSp.od ExSp.pick true ExNoProof.g 20 100 = SpUnsafe (Some d)) by (eexists; vm_compute; reflexivity).
  destruct S as [d S]. rewrite S in X. apply X.
Qed.
Print Assumptions C13_proof_refuted.
