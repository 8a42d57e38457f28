(** * Property C35: edge inlining.

    Specification: Graph.v and GraphSem.v ([wf_graph], [derivable], [solution], [error_derivation]). *)
From Verif Require Import Syntax Solver TransSys Graph GraphOps GraphOpsProofs ValidatorModel FormulaModel GraphSem Names SimpleTransModel UnreachProofs UnreachProofs2 SimpleTransProofs SimpleTransProofs2 SimplifierProofs ListLemmas MergeModel MergeProofs ChainProofs ElimProofs LinearProofs InlineModel InlineProofs InlineValid InlineStep GraphEx ExTac.
Open Scope list_scope.
Open Scope nat_scope.

(** If the transformation ends, the new graph is well-formed, [false] is derivable in both graphs or in neither, no edge
    can be inlined or removed any more, and derivations of [false] are translated back.  Solutions are translated back if
    no removed edge is a loop with auxiliary variables. *)
Theorem C35_edge_inlining :
  forall elim fresh check itp fuel g t l, elim_ok elim -> check_ok check -> itp_ok itp -> wf_graph g -> unbased g ->
    inline_edges check itp elim fresh fuel g = Some (t, l) ->
    wf_graph (tr_graph t) /\ unbased (tr_graph t) /\
    (derivable g exit [] <-> derivable (tr_graph t) exit []) /\
    (forall e, In e (gedges (tr_graph t)) -> inline_one elim fresh (tr_graph t) e = None) /\
    (forall d d', error_derivation (tr_graph t) d -> tr_invalid t d = Some d' -> error_derivation g d') /\
    (Forall (fun x => private_edge g (removed_of x)) l -> correct g (tr_graph t) (tr_valid t) (tr_invalid t)).
Proof.
  intros elim fresh check itp fuel g t l He Hc Hi W U H. unfold inline_edges in H. destruct (inline_loop elim fresh fuel g) as [[g' l']|] eqn:E; [|discriminate]. injection H as <- <-. cbn [tr_graph tr_valid tr_invalid].
  pose proof (inline_loop_final elim fresh fuel g g' l' E) as Fin.
  destruct (inline_loop_ok elim He fresh check Hc itp Hi fuel g g' l' W U E) as [A1 A2 A3 A4 A5 A6 A7].
  split; [exact A1|]. split; [exact A2|]. split; [exact A5|]. split; [exact Fin|]. split; [exact A6|]. intros P. split; [exact A5|exact (A7 P)|exact A6].
Qed.
Print Assumptions C35_edge_inlining.

(** The condition on labels holds of the output of the normalizer (C29). *)
Theorem C35_versioned : forall g, aux_versioned g -> unbased g.
Proof.
  intros g A e v He Hv. destruct (in_dec var_dec v (own_vars g e)) as [O|O]; [exact (own_not_base g e v O)|]. destruct (A e v He Hv O) as [-> _]. discriminate.
Qed.
Print Assumptions C35_versioned.

(** Without auxiliary variables in the labels of loops, and with an elimination that leaves none, every entry is private:
    in particular when no edge is a loop. *)
Theorem C35_no_loops :
  forall elim fresh check itp fuel g t l, elim_ok elim -> check_ok check -> itp_ok itp -> wf_graph g -> unbased g ->
    inline_edges check itp elim fresh fuel g = Some (t, l) ->
    (forall x, In x l -> ~ In (eto (removed_of x)) (efrom (removed_of x))) ->
    correct g (tr_graph t) (tr_valid t) (tr_invalid t).
Proof.
  intros elim fresh check itp fuel g t l He Hc Hi W U H N. destruct (C35_edge_inlining elim fresh check itp fuel g t l He Hc Hi W U H) as [_ [_ [_ [_ [_ C]]]]].
  apply C, Forall_forall. intros x Hx L. destruct (N x Hx L).
Qed.
Print Assumptions C35_no_loops.

Module ExInline.
Definition a := mkVar "a" TBase SInt.
Definition b := mkVar "b" TBase SInt.
Definition A : sym := 2. Definition B : sym := 3.
Definition reps := [(A, [a]); (B, [b])].
Definition sv v := Var (src 0 v). Definition tv v := Var (tgt v).
Definition el : elim_fn := fun _ t => t.
(** A(0).  B(y) :- A(x), y = x + 1.  B(9).  false :- B(y), y = 7.  false :- A(3). *)
Definition es : list hedge :=
  [mkEdge 1 [entry] A (mkEq (tv a) (mkInt 0));
   mkEdge 2 [A] B (mkEq (tv b) (mkPlus [sv a; mkInt 1]));
   mkEdge 3 [entry] B (mkEq (tv b) (mkInt 9));
   mkEdge 4 [B] exit (mkEq (sv b) (mkInt 7));
   mkEdge 5 [A] exit (mkEq (sv a) (mkInt 3))].
Definition g := mkGraph es (pv_of reps) 6 0.
Example g_wf : wf_graph g.
Proof. apply graph_check_ok; vm_compute; reflexivity. Qed.
Lemma unbased_check h : forallb (fun e => forallb (fun v => negb (tag_eqb (vtag v) TBase)) (vars (efla e))) (gedges h) = true -> unbased h.
Proof.
  intros H e v He Hv E. rewrite forallb_forall in H. specialize (H e He). rewrite forallb_forall in H. specialize (H v Hv). rewrite E in H. discriminate.
Qed.
Example g_unbased : unbased g.
Proof. apply unbased_check. vm_compute. reflexivity. Qed.
Definition loop := match inline_loop el 0 5 g with Some r => r | None => (g, []) end.
Example ran : map (fun e => (eid e, efrom e, eto e)) (gedges (fst loop)) = [(1, [entry], A); (3, [entry], B); (6, [entry], B); (7, [entry], exit); (8, [entry], exit)] /\
  map (fun x => eid (removed_of x)) (snd loop) = [2; 4; 5].
Proof. vm_compute. split; reflexivity. Qed.
End ExInline.

(** A variant with the query B(k): its derivations and solutions are translated back. *)
Module ExInlineBack.
Import ExInline.
Definition es1 (k : Z) : list hedge :=
  [mkEdge 1 [entry] A (mkEq (tv a) (mkInt 0));
   mkEdge 2 [A] B (mkEq (tv b) (mkPlus [sv a; mkInt 1]));
   mkEdge 3 [entry] B (mkEq (tv b) (mkInt 9));
   mkEdge 4 [B] exit (mkEq (sv b) (mkInt k))].
Definition g1 k := mkGraph (es1 k) (pv_of reps) 6 0.
Example g1_wf : wf_graph (g1 1) /\ wf_graph (g1 7).
Proof. split; apply graph_check_ok; vm_compute; reflexivity. Qed.
Definition loop1 k := match inline_loop el 0 5 (g1 k) with Some r => r | None => (g1 k, []) end.
Example ran1 : map (fun e => (eid e, efrom e, eto e)) (gedges (fst (loop1 1))) = [(1, [entry], A); (3, [entry], B); (6, [entry], B); (7, [entry], exit)].
Proof. vm_compute. reflexivity. Qed.
Definition e0 := mkEdge 0 [] 0 tt_true.
Definition e6 k := match nth 0 (snd (loop1 k)) (Deleted e0 []) with Replaced x _ _ _ => x | _ => e0 end.
Definition ed k i := nth i (es1 k) e0.
Definition d : derivation := [mkStep [] (entry, []) 0; mkStep [0] (exit, []) 7].
Definition q1 := [subst [] (path_constraint (g1 1) [e6 1; ed 1 3])].
Definition q2 := [subst (fill (vars_at (g1 1) B 2) (B, [VInt 1])) (path_constraint (g1 1) [ed 1 0; ed 1 1])].
Definition mdl : valuation := fun v => if String.eqb (vbase v) "b" then VInt 1 else VInt 0.
Definition w : defs_t := fun p => if Nat.eqb p entry then Some tt_true else if Nat.eqb p exit then Some tt_false else if Nat.eqb p A then Some tt_true else if Nat.eqb p B then Some tt_true else None.
Definition ren v := rename (vlookup (combine (tgt_vars (g1 7) v) (ei_vars (g1 7) v))).
Definition ren' v := rename (vlookup (combine (src_vars (g1 7) (v, 0)) (ei_vars (g1 7) v))).
Definition x0 := ei 0 SInt.
Definition aB := ren B (mkOr [efla (ed 7 2); mkAnd [tt_true; efla (e6 7)]]).
Definition bB := ren' B (mkAnd [efla (ed 7 3); mkNot tt_false]).
Definition dB : term := mkNot (mkEq (Var b) (mkInt 7)).
Definition aA := ren A (mkOr [mkAnd [tt_true; efla (ed 7 0)]]).
Definition bA := ren' A (mkAnd [efla (ed 7 1); mkNot (rename tgt (mkAnd [tt_true; dB]))]).
Definition chk : check_fn := table_check [(q1, SAT mdl); (q2, SAT mdl); ([aB; bB], UNSAT); ([aA; bA], UNSAT)].
Lemma chk_ok : check_ok chk.
Proof. prove_table. Qed.
Definition it : itp_fn := table_itp [([aB], [bB], mkNot (mkEq (Var x0) (mkInt 7))); ([aA], [bA], mkEq (Var x0) (mkInt 0))].
Lemma it_ok : itp_ok it.
Proof. apply table_itp_ok. repeat (apply Forall_cons; [prove_interpolant|]). constructor. Qed.
Definition t k := match inline_edges chk it el 0 5 (g1 k) with Some (t, _) => Some t | None => None end.
Example translated : option_map (fun r => tr_invalid r d) (t 1) = Some (Some
  [mkStep [] (entry, []) 0; mkStep [0] (A, [VInt 0]) 1; mkStep [1] (B, [VInt 1]) 2; mkStep [2] (exit, []) 4]).
Proof. vm_compute. reflexivity. Qed.
Example translated_solution : exists w', option_map (fun r => tr_valid r w) (t 7) = Some (Some w') /\
  w' B = Some (mkAnd [tt_true; dB]) /\ w' A = Some (mkAnd [tt_true; mkEq (Var a) (mkInt 0)]).
Proof. eexists. split; [vm_compute; reflexivity|]. vm_compute. split; reflexivity. Qed.
End ExInlineBack.

(** Without the condition on loops the translation of solutions is false of the code: the auxiliary variable of a replaced
    loop is shared by the two formulas given to the interpolating solver, and an interpolant may mention it.
    m(0).  m(1) :- m(x), x = 0, k = 5.  false :- m(x), not x <= 5. *)
Module ExLoop.
Definition x := mkVar "x" TBase SInt.
Definition k := mkVar "aux#0" (TTime 0) SInt.
Definition m : sym := 2.
Definition e0 := mkEdge 0 [] 0 tt_true.
Definition le5 v := mkLeq (Var v) (mkInt 5).
Definition p := mkEdge 1 [entry] m (mkEq (Var (tgt x)) (mkInt 0)).
Definition e := mkEdge 2 [m] m (mkAnd [mkEq (Var (src 0 x)) (mkInt 0); mkEq (Var (tgt x)) (mkInt 1); mkEq (Var k) (mkInt 5)]).
Definition q := mkEdge 3 [m] exit (mkNot (le5 (src 0 x))).
Definition g := mkGraph [p; e; q] (pv_of [(m, [x])]) 4 1.
Definition el : elim_fn := fun _ t => t.
Definition x0 := ei 0 SInt.
Definition A := rename (vlookup (combine (tgt_vars g m) (ei_vars g m))) (mkOr [mkAnd [tt_true; efla p]; efla e]).
Definition B := rename (vlookup (combine (src_vars g (m, 0)) (ei_vars g m))) (mkAnd [efla e; mkNot (rename tgt (le5 x))]).
Definition chk := table_check [([A; B], UNSAT)].
Lemma chk_ok : check_ok chk.
Proof. prove_table. Qed.
Definition it := table_itp [([A], [B], mkOr [mkEq (Var x0) (mkInt 0); mkEq (Var k) (mkInt 5)])].
Lemma it_ok : itp_ok it.
Proof. apply table_itp_ok. repeat (apply Forall_cons; [prove_interpolant|]). constructor. Qed.
Definition w : defs_t := fun p => if Nat.eqb p entry then Some tt_true else if Nat.eqb p exit then Some tt_false else if Nat.eqb p m then Some (le5 x) else None.
Definition t := match inline_edges chk it el 0 5 g with Some (t, _) => t | None => mkTrans g Some Some end.
Definition w' := match tr_valid t w with Some d => d | None => w end.
Example g_wf : wf_graph g.
Proof. apply graph_check_ok; vm_compute; reflexivity. Qed.
Definition t_def : forall e, In e (gedges (tr_graph t)) -> e = p \/ e = q \/ (efrom e = [entry] /\ eto e = m /\ forall r, holds r (efla e) -> holds r (mkEq (Var (tgt x)) (mkInt 1))).
Proof.
  intros u Hu. let T := eval vm_compute in (gedges (tr_graph t)) in change (gedges (tr_graph t)) with T in Hu.
  destruct Hu as [<-|[<-|[<-|[]]]]; [left; reflexivity|right; left; reflexivity|right; right]. split; [reflexivity|]. split; [reflexivity|].
  cbn [efla]. intros r H. repeat (apply (proj1 (holds_and2 _ _ _)) in H as [_ H]).
  apply (proj1 (holds_and _ _)) in H. apply Forall_inv_tail in H. apply Forall_inv in H. exact H.
Qed.
Example w_solution : solution (tr_graph t) w.
Proof.
  split.
  - intros p0 d Hd v Hv. change (gpv (tr_graph t)) with (gpv g). unfold w in Hd.
    destruct (Nat.eqb_spec p0 entry); [injection Hd as <-; destruct Hv|]. destruct (Nat.eqb_spec p0 exit); [injection Hd as <-; destruct Hv|].
    destruct (Nat.eqb_spec p0 m) as [->|]; [|discriminate]. injection Hd as <-. exact Hv.
  - exists tt_true. split; [reflexivity|]. intros r. reflexivity.
  - exists tt_false. split; [reflexivity|]. intros r H. discriminate H.
  - intros u Hu. destruct (t_def u Hu) as [->|[->|[E1 [E2 E3]]]].
    + split; [intros p0 [<-|[]]; discriminate|]. exists (le5 x). split; [reflexivity|]. intros r H _. cbn [efla p] in H. unfold le5. ev.
    + split; [intros p0 [<-|[]]; discriminate|]. exists tt_false. split; [reflexivity|]. intros r H S.
      specialize (S m 0 (le5 x) (or_introl eq_refl) eq_refl). cbn [efla q] in H. unfold le5 in *. ev.
    + rewrite E1, E2. split; [intros p0 [<-|[]]; discriminate|]. exists (le5 x). split; [reflexivity|]. intros r H _. apply E3 in H. unfold le5. ev.
Qed.
Example w_only : only (tr_graph t) w.
Proof.
  intros p0 H. unfold w in H. destruct (Nat.eqb_spec p0 entry) as [E|N1]; [left; exact E|]. destruct (Nat.eqb_spec p0 exit) as [E|N2]; [right; left; exact E|].
  destruct (Nat.eqb_spec p0 m) as [E|]; [|congruence]. subst p0. right; right. exists p. split; [vm_compute; auto|]. cbn. auto.
Qed.
End ExLoop.
Theorem C35_loop_refuted :
  exists check itp g t l w w', check_ok check /\ itp_ok itp /\ wf_graph g /\ unbased g /\
    inline_edges check itp (fun _ u => u) 0 5 g = Some (t, l) /\
    solution (tr_graph t) w /\ only (tr_graph t) w /\ tr_valid t w = Some w' /\ ~ solution g w'.
Proof.
  exists ExLoop.chk, ExLoop.it, ExLoop.g, ExLoop.t, (match inline_edges ExLoop.chk ExLoop.it ExLoop.el 0 5 ExLoop.g with Some (_, l) => l | None => [] end), ExLoop.w, ExLoop.w'.
  split; [apply ExLoop.chk_ok|]. split; [apply ExLoop.it_ok|]. split; [apply ExLoop.g_wf|]. split; [apply ExInline.unbased_check; vm_compute; reflexivity|].
  split; [reflexivity|]. split; [apply ExLoop.w_solution|]. split; [apply ExLoop.w_only|]. split; [vm_compute; reflexivity|].
  intros [V _ _ _]. specialize (V ExLoop.m). assert (X : ExLoop.w' ExLoop.m <> None) by (vm_compute; discriminate).
  destruct (ExLoop.w' ExLoop.m) as [d|] eqn:E; [|congruence]. specialize (V d eq_refl ExLoop.k). vm_compute in E. injection E as <-.
  assert (K : In ExLoop.k (gpv ExLoop.g ExLoop.m)) by (apply V; vm_compute; auto). vm_compute in K. destruct K as [K|[]]. discriminate K.
Qed.
Print Assumptions C35_loop_refuted.

(** The loop need not end.  A(0).  B(0).  A(b) :- B(b).  B(a) :- A(a).  false :- A(1).  false :- B(1).
    Each of the two queries is inlined into the other one, in every iteration, since the facts are excluded by their known
    values and only the edge between A and B is left. *)
Module ExSwap.
Definition a := mkVar "a" TBase SInt.
Definition b := mkVar "b" TBase SInt.
Definition A : sym := 2. Definition B : sym := 3.
Definition reps := [(A, [a]); (B, [b])].
Definition sv v := Var (src 0 v). Definition tv v := Var (tgt v).
Definition qa := mkEq (sv a) (mkInt 1).
Definition qb := mkEq (sv b) (mkInt 1).
Definition mk (o : bool) (n : nat) : hgraph := mkGraph
  [mkEdge 1 [entry] A (mkEq (tv a) (mkInt 0)); mkEdge 2 [entry] B (mkEq (tv b) (mkInt 0));
   mkEdge 3 [B] A (mkEq (tv a) (sv b)); mkEdge 4 [A] B (mkEq (tv b) (sv a));
   mkEdge n [if o then A else B] exit (if o then qa else qb); mkEdge (S n) [if o then B else A] exit (if o then qb else qa)]
  (pv_of reps) (S (S n)) 0.
(** What the elimination returns on the two conjunctions that occur: the eliminated variable is replaced. *)
Definition la := mkAnd [mkEq (sv a) (sv b); qa].
Definition lb := mkAnd [mkEq (sv b) (sv a); qb].
Definition el : elim_fn := fun keep t =>
  if term_eqb t la && negb (keep (src 0 a)) && keep (src 0 b) then qb
  else if term_eqb t lb && negb (keep (src 0 b)) && keep (src 0 a) then qa else t.
Lemma el_ok : elim_ok el.
Proof.
  assert (G : forall x y keep, vsort x = SInt -> vsort y = SInt -> x <> y -> keep x = false -> keep y = true -> forall r,
    (exists r', (forall v, keep v = true -> r' v = r v) /\ holds r' (mkAnd [mkEq (Var x) (Var y); mkEq (Var x) (mkInt 1)])) <->
    (exists r', (forall v, keep v = true -> r' v = r v) /\ holds r' (mkEq (Var y) (mkInt 1)))).
  { intros x y keep Sx Sy N Kx Ky r. split.
    - intros [r' [E H]]. exists r'. split; [exact E|]. apply (proj1 (holds_and2 _ _ _)) in H as [H1 H2]. apply (proj1 (holds_eq _ _ _)) in H1, H2. apply holds_eq. congruence.
    - intros [r' [E H]]. exists (fun v => if var_eqb v x then r' y else r' v). split.
      + intros v Kv. destruct (var_eqb_spec v x) as [->|]; [congruence|auto].
      + apply (proj1 (holds_eq _ _ _)) in H. cbn [eval] in H. apply holds_and2. split; apply holds_eq; cbn [eval]; rewrite Sx; rewrite ?Sy;
        (destruct (var_eqb_spec x x); [|congruence]); [|rewrite Sy in H; exact H].
        destruct (var_eqb_spec y x) as [->|]; [congruence|reflexivity]. }
  intros keep t. unfold el. destruct (term_eqb t la && negb (keep (src 0 a)) && keep (src 0 b)) eqn:E1.
  { rewrite !andb_true_iff, negb_true_iff in E1. destruct E1 as [[E1 E2] E3]. apply term_eqb_iff in E1. subst t. split; [intros v [<-|[]]; vm_compute; auto|].
    apply G; auto. discriminate. }
  destruct (term_eqb t lb && negb (keep (src 0 b)) && keep (src 0 a)) eqn:E2.
  { rewrite !andb_true_iff, negb_true_iff in E2. destruct E2 as [[E2 E3] E4]. apply term_eqb_iff in E2. subst t. split; [intros v [<-|[]]; vm_compute; auto|].
    apply G; auto. discriminate. }
  split; [auto|]. intros r. reflexivity.
Qed.
Lemma pass o k : exists x y, inline_pass el 0 (mk o (5 + k)) (gedges (mk o (5 + k))) = (mk (negb o) (7 + k), [x; y]).
Proof.
  assert (E0 : Nat.eqb k k = true) by apply Nat.eqb_refl.
  assert (E : Nat.eqb k (S k) = false /\ Nat.eqb k (S (S k)) = false /\ Nat.eqb k (S (S (S k))) = false /\
    Nat.eqb (S k) k = false /\ Nat.eqb (S (S k)) k = false /\ Nat.eqb (S (S (S k))) k = false) by (repeat split; apply Nat.eqb_neq; lia).
  destruct E as (E1 & E2 & E3 & E4 & E5 & E6). cbv in E0, E1, E2, E3, E4, E5, E6.
  destruct o; eexists; eexists; cbv; do 4 (rewrite ?E0, ?E1, ?E2, ?E3, ?E4, ?E5, ?E6; cbv); reflexivity.
Qed.
Theorem never fuel : forall o k, inline_loop el 0 fuel (mk o (5 + k)) = None.
Proof.
  induction fuel as [|f IH]; intros o k; [reflexivity|]. cbn [inline_loop]. destruct (pass o k) as [x [y ->]].
  change (7 + k) with (5 + (2 + k)). rewrite (IH (negb o) (2 + k)). reflexivity.
Qed.
End ExSwap.
Theorem C35_terminates_refuted :
  exists elim g, elim_ok elim /\ wf_graph g /\ unbased g /\ forall check itp fuel, inline_edges check itp elim 0 fuel g = None.
Proof.
  exists ExSwap.el, (ExSwap.mk true 5). split; [apply ExSwap.el_ok|]. split; [apply graph_check_ok; vm_compute; reflexivity|].
  split; [apply ExInline.unbased_check; vm_compute; reflexivity|]. intros check itp fuel. unfold inline_edges. change 5 with (5 + 0). rewrite (ExSwap.never fuel true 0). reflexivity.
Qed.
Print Assumptions C35_terminates_refuted.
