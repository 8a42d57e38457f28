(** * Properties C14 and C15: lazy abstraction with interpolants.

    Specification: Graph.v ([solution], [refutation], [chc_sat]). *)
From Coq Require Import Permutation.
From Verif Require Import Syntax Solver TransSys TSLemmas ExTac Graph GraphOps GraphOpsProofs DfsProofs GraphSem GraphEx SimpleTransModel MergeModel LinearModel LinearProofs LinearPath LinearTS PropGraph PropChain NontermProofs SymExProofs PdkModel PropPdk LawiModel LawiTree LawiProofs LawiRun.
Open Scope list_scope.
Open Scope nat_scope.

(** Whatever the solver, the interpolation and the order of the children: an answer SAFE is right, and its witness is a
    solution; an answer UNSAFE is right, and its witness is a derivation of false; UNKNOWN is answered for hyperedges only,
    and an exception needs a solver (or an interpolation) that gave up. *)
Theorem C14_lawi :
  forall c check pitp simp part cw fuel g,
    ctors_ok c -> check_ok check -> pitp_ok pitp -> simp_ok simp -> (forall l, Permutation (part l) l) ->
    wf_graph g -> aux_versioned g ->
    match lawi c check pitp simp part false cw fuel g with
    | LSafe w => chc_sat g /\ match w with Some d => solution g d | None => cw = false end
    | LUnsafe w => ~ chc_sat g /\ match w with Some d => refutation g d | None => cw = false end
    | LUnknown => is_normal g = false
    | LThrow => gave_up check pitp
    | LFuel => True
    end.
Proof.
  intros c check pitp simp part cw fuel g Hct Hc Hp Hs Hpart W Av. unfold lawi. destruct (is_normal g) eqn:Nm; [|reflexivity].
  pose proof (normal_wf g W Nm Av) as LW.
  pose proof (lawi_run_ok c Hct check Hc pitp Hp simp Hs part Hpart false cw (to_normal g) LW fuel) as X.
  destruct (lawi_run c check pitp simp part false cw (to_normal g) fuel) as [w|d| | |]; cbn [run_post] in X; auto; [| |destruct X].
  - destruct (X eq_refl) as [[d S] Y]. pose proof (proj2 (normal_solution g W Nm Av d) S) as S'. split.
    + apply chc_sat_iff. apply (solution_safe g _ (rep_exit _ (wf_rep g W)) S').
    + destruct w as [w|]; [apply (normal_solution g W Nm Av), Y|exact Y].
  - destruct X as [[d' R] Y]. apply (normal_refutation g W Nm Av) in R. split.
    + rewrite chc_sat_iff. intros N. apply N, (refutation_derivable g d' R).
    + destruct d as [d|]; [apply (normal_refutation g W Nm Av), Y|exact Y].
Qed.
Print Assumptions C14_lawi.

(** With forced covering, the answer UNSAFE and its derivation are still right. *)
Theorem C15_unsafe_partial :
  forall c check pitp simp part forced cw fuel g w,
    ctors_ok c -> check_ok check -> pitp_ok pitp -> simp_ok simp -> (forall l, Permutation (part l) l) ->
    wf_graph g -> aux_versioned g ->
    lawi c check pitp simp part forced cw fuel g = LUnsafe w ->
    ~ chc_sat g /\ match w with Some d => refutation g d | None => cw = false end.
Proof.
  intros c check pitp simp part forced cw fuel g w Hct Hc Hp Hs Hpart W Av. unfold lawi. destruct (is_normal g) eqn:Nm; [|discriminate].
  pose proof (normal_wf g W Nm Av) as LW.
  pose proof (lawi_run_ok c Hct check Hc pitp Hp simp Hs part Hpart forced cw (to_normal g) LW fuel) as X. intros E. rewrite E in X.
  cbn [run_post] in X. destruct X as [[d' R] Y]. apply (normal_refutation g W Nm Av) in R. split.
  - rewrite chc_sat_iff. intros N. apply N, (refutation_derivable g d' R).
  - destruct w as [d|]; [apply (normal_refutation g W Nm Av), Y|exact Y].
Qed.
Print Assumptions C15_unsafe_partial.

Local Arguments Z.mul : simpl never.
Local Arguments Z.add : simpl never.
Local Arguments Z.leb : simpl never.
Local Arguments Z.eqb : simpl never.

Module ExLawi.
Definition x := mkVar "x" TBase SInt.
Definition B : sym := 2. Definition C : sym := 3.
Definition s v := Var (src 0 v). Definition t v := Var (tgt v).
Definition e0 := mkEdge 0 [] 0 tt_true.
(** x := 0; loop x := x + 1; error when the guard [u] holds. *)
Definition hg (u : term) := mkGraph
  [mkEdge 1 [entry] B (mkEq (t x) (mkInt 0));
   mkEdge 2 [B] B (mkEq (t x) (mkPlus [s x; mkInt 1]));
   mkEdge 3 [B] exit u] (pv_of [(B, [x])]) 4 0.
Definition gs := hg (mkLeq (s x) (mkInt (-1))).
Definition gu := hg (mkEq (s x) (mkInt 1)).
Definition le g i := normal_edge g (nth i (gedges g) e0).
Definition px g l := path_labels 0 (map (le g) l).
Definition X k := Var (mkVar "x" (TTime k) SInt).
Definition ge0 k := mkLeq (mkInt 0) (X k).
Definition le0 k := mkLeq (X k) (mkInt 0).
Definition m : valuation := fun v => match vtag v with TTime 1 => VInt 0 | _ => VInt 1 end.
Definition idp : list ledge -> list ledge := fun l => l.
Definition ids : term -> term := fun u => u.
Definition chk : check_fn := table_check
  [(px gs [0;2], UNSAT); (px gs [0;1;2], UNSAT); ([mkAnd [mkAnd [ge0 0; tt_true]; mkNot (ge0 0)]], UNSAT);
   (px gu [0;2], UNSAT); (px gu [0;1;2], SAT m)].
Definition pit : pitp_fn := table_pitp
  [(map (fun u => [u]) (px gs [0;2]), [ge0 1]); (map (fun u => [u]) (px gs [0;1;2]), [ge0 1; ge0 2]);
   (map (fun u => [u]) (px gu [0;2]), [le0 1])].
Lemma idp_ok l : Permutation (idp l) l. Proof. apply Permutation_refl. Qed.
Lemma ids_ok : simp_ok ids. Proof. intros u. split; [tauto|auto]. Qed.
Lemma chk_ok : check_ok chk.
Proof. prove_table. Qed.
Ltac prove_cv := let i := fresh "i" in let J := fresh "J" in let HJ := fresh "HJ" in let v := fresh "v" in let Hv := fresh "Hv" in
  intros i J HJ v Hv; repeat first [solve [destruct i; discriminate HJ]|destruct i as [|i]; [injection HJ as <-; cbn in Hv;
    repeat (destruct Hv as [<-|Hv]; [split; apply inb_true; vm_compute; reflexivity|]); destruct Hv|]].
Ltac prove_pitp := apply table_pitp_ok; repeat (apply Forall_cons; [cbn [fst snd]; split; [prove_chain|prove_cv]|]); apply Forall_nil.
Lemma pit_ok : pitp_ok pit.
Proof. prove_pitp. Qed.
Example g_wf : wf_graph gs /\ wf_graph gu.
Proof. split; apply graph_check_ok; vm_compute; reflexivity. Qed.
Ltac prove_aux := let e := fresh in let v := fresh in let He := fresh in let Hv := fresh "Hv" in let Nv := fresh "Nv" in
  intros e v He Hv Nv; exfalso; cbn in He; repeat (destruct He as [<-|He];
    [cbn in Hv; repeat (destruct Hv as [<-|Hv]; [apply Nv; apply inb_true; vm_compute; reflexivity|]); destruct Hv|]); destruct He.
Example g_aux : aux_versioned gs /\ aux_versioned gu.
Proof. split; prove_aux. Qed.
(** The first label of the loop head has to be strengthened, and the unrolling is covered afterwards. *)
Example safe_run : exists w, lawi plain chk pit ids idp false true 10 gs = LSafe (Some w) /\ w B = Some (mkOr [mkAnd [mkLeq (mkInt 0) (Var x); tt_true]]).
Proof. eexists. split; [vm_compute; reflexivity|]. vm_compute. reflexivity. Qed.
Example unsafe_run : lawi plain chk pit ids idp false true 10 gu =
  LUnsafe (Some [mkStep [] (entry, []) 0; mkStep [0] (B, [VInt 0]) 1; mkStep [1] (B, [VInt 1]) 2; mkStep [2] (exit, []) 3]).
Proof. vm_compute. reflexivity. Qed.
Example C14_nonvacuous : ctors_ok plain /\ check_ok chk /\ pitp_ok pit /\ simp_ok ids /\ (forall l, Permutation (idp l) l) /\ wf_graph gs /\ aux_versioned gs /\ wf_graph gu /\ aux_versioned gu.
Proof.
  split; [apply plain_ok|]. split; [apply chk_ok|]. split; [apply pit_ok|]. split; [apply ids_ok|]. split; [apply idp_ok|].
  split; [apply g_wf|]. split; [apply g_aux|]. split; [apply g_wf|apply g_aux].
Qed.
(** With forced covering switched on, the same UNSAFE answer: the hypotheses of [C15_unsafe_partial] are met. *)
Definition chk' : check_fn := table_check
  [(px gu [0;2], UNSAT); (px gu [0;1;2], SAT m); (tt_true :: px gu [1] ++ [mkNot (mkAnd [le0 1; tt_true])], UNKNOWN)].
Lemma chk'_ok : check_ok chk'.
Proof. apply table_check_ok. repeat (apply Forall_cons; [first [exact Logic.I|prove_unsat|prove_sat]|]). apply Forall_nil. Qed.
Example forced_unsafe_run : exists w, lawi plain chk' pit ids idp true true 10 gu = LUnsafe (Some w).
Proof. eexists. vm_compute. reflexivity. Qed.

(** C := 0; B := 0; B := -1; C := B; error when C < 0. *)
Definition y := mkVar "y" TBase SInt.
Definition gf := mkGraph
  [mkEdge 1 [entry] C (mkEq (t y) (mkInt 0));
   mkEdge 2 [entry] B (mkEq (t x) (mkInt 0));
   mkEdge 3 [entry] B (mkEq (t x) (mkInt (-1)));
   mkEdge 4 [B] C (mkEq (t y) (s x));
   mkEdge 5 [C] exit (mkLeq (s y) (mkInt (-1)))] (pv_of [(B, [x]); (C, [y])]) 6 0.
Definition yge0 k := mkLeq (mkInt 0) (Var (mkVar "y" (TTime k) SInt)).
Definition qf := tt_true :: px gf [1;3] ++ [mkNot (mkAnd [yge0 2; tt_true])].
Definition qb := tt_true :: px gf [2] ++ [mkNot tt_true].
Definition mf : valuation := fun _ => VInt (-1).
Definition chkf : check_fn := table_check [(px gf [0;4], UNSAT); (px gf [1;3;4], UNSAT); (px gf [2;3;4], SAT mf); (qf, UNSAT); (qb, UNSAT)].
Definition pitf : pitp_fn := table_pitp
  [(map (fun u => [u]) (px gf [0;4]), [yge0 1]); (map (fun u => [u]) (px gf [1;3;4]), [ge0 1; yge0 2]);
   (map (fun u => [u]) qf, [tt_true; ge0 1; yge0 2])].
Lemma chkf_ok : check_ok chkf.
Proof. prove_table. Qed.
Lemma pitf_ok : pitp_ok pitf.
Proof. prove_pitp. Qed.
Example gf_wf : wf_graph gf.
Proof. apply graph_check_ok; vm_compute; reflexivity. Qed.
Example gf_aux : aux_versioned gf.
Proof. prove_aux. Qed.
Example plain_run : exists w, lawi plain chkf pitf ids idp false true 20 gf = LUnsafe w.
Proof. eexists. vm_compute. reflexivity. Qed.
Example forced_run : exists w, lawi plain chkf pitf ids idp true true 20 gf = LSafe w.
Proof. eexists. vm_compute. reflexivity. Qed.
End ExLawi.

(** C14, the implication cache.  Every remembered answer is right, negative answers included: they come from a model of the
    premise that falsifies the conclusion, either a new one or one of the models collected for the same premise. *)
Definition remembered_right (st : lst) : Prop := forall a b x, In (a, b, x) (l_cache st) ->
  if x then (forall r, holds r a -> holds r b) else exists r, holds r a /\ ~ holds r b.
Theorem C14_implication_cache :
  forall c check st a b ms, ctors_ok c -> check_ok check -> remembered_right st -> (forall m, In m ms -> holds m a) ->
    (forall x st', implies c check st a b = (x, st') -> remembered_right st') /\
    (forall x st' ms', implies_hints c check st ms a b = (x, st', ms') -> remembered_right st' /\ forall m, In m ms' -> holds m a).
Proof.
  intros c check st a b ms Hct Hc K Hms.
  assert (Sat : forall m, check [cand c [a; cnot c b]] = SAT m -> holds m a /\ ~ holds m b).
  { intros m E. apply (check_sat _ Hc) in E. apply Forall_inv in E. apply (cand_sem c Hct) in E. inversion E as [|? ? E1 E2]; subst. apply Forall_inv in E2. split; [exact E1|apply (cnot_sem c Hct), E2]. }
  assert (Rem : forall x, (if x : bool then (forall r, holds r a -> holds r b) else exists r, holds r a /\ ~ holds r b) -> remembered_right (remember st a b x)).
  { intros x H a' b' x' [E|I]; [injection E as <- <- <-; exact H|apply (K a' b' x' I)]. }
  split.
  - intros x st' E. unfold implies in E. destruct (quick st a b) as [y|]; [injection E as <- <-; exact K|].
    destruct (check [cand c [a; cnot c b]]) as [m| |] eqn:C; injection E as <- <-; [| |exact K]; apply Rem.
    + exists m. apply Sat. reflexivity.
    + exact (unsat_implies c Hct check Hc a b C).
  - intros x st' ms' E. unfold implies_hints in E. destruct (quick st a b) as [y|]; [injection E as <- <- <-; auto|].
    destruct (existsb (fun m => negb (holdsb m b)) ms) eqn:Ex.
    + injection E as <- <- <-. split; [|exact Hms]. apply Rem. apply existsb_exists in Ex as [m [Hm Ex]]. exists m. split; [apply Hms, Hm|]. unfold holds. destruct (holdsb m b); [discriminate|congruence].
    + destruct (check [cand c [a; cnot c b]]) as [m| |] eqn:C; injection E as <- <- <-; [split; [apply Rem; exists m; apply Sat; reflexivity|]|split; [apply Rem; exact (unsat_implies c Hct check Hc a b C)|exact Hms]|auto].
      intros m' Hm'. apply in_app_iff in Hm' as [Hm'|[<-|[]]]; [apply Hms, Hm'|apply Sat; reflexivity].
Qed.
Print Assumptions C14_implication_cache.

(** C15 does not hold of SAFE answers: forced covering interpolates with the masks of a path that starts at the root, while the
    label of the common ancestor is the first partition; the answer can be SAFE although false is derivable. *)
Theorem C15_refuted :
  exists c check pitp g w,
    ctors_ok c /\ check_ok check /\ pitp_ok pitp /\ wf_graph g /\ aux_versioned g /\
    lawi c check pitp (fun u => u) (fun l => l) true true 20 g = LSafe w /\ ~ chc_sat g.
Proof.
  destruct ExLawi.forced_run as [w E]. destruct ExLawi.plain_run as [d E'].
  exists plain, ExLawi.chkf, ExLawi.pitf, ExLawi.gf, w. split; [apply plain_ok|]. split; [apply ExLawi.chkf_ok|]. split; [apply ExLawi.pitf_ok|].
  split; [apply ExLawi.gf_wf|]. split; [apply ExLawi.gf_aux|]. split; [exact E|].
  pose proof (C14_lawi plain ExLawi.chkf ExLawi.pitf ExLawi.ids ExLawi.idp true 20 ExLawi.gf plain_ok ExLawi.chkf_ok ExLawi.pitf_ok ExLawi.ids_ok ExLawi.idp_ok ExLawi.gf_wf ExLawi.gf_aux) as X.
  rewrite E' in X. apply X.
Qed.
Print Assumptions C15_refuted.
