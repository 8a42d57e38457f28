(** * C10, C54: transitive relation learning. *)
From Verif Require Import Syntax Solver TransSys TSLemmas KTo1Model FormulaModel Lin MbpModel MbpProofs Names ExTac TrlModel TrlProofs TrlRun.
From Verif Require PropTermination.
Open Scope list_scope.
Open Scope nat_scope.

(** C10.  A SAFE answer: no query state is reachable — for every solver, every projection that contains the model and stays below the
    formula, every test for equal steps, every loop length. *)
Theorem C10_trl_safe (check : check_fn) (mbp : mbp_fn) (qe : qe_fn) (simp : term -> term) (same : term -> term -> bool) (ts : tsys) (cw : bool) (fuel : nat) (i : option term) :
  check_ok check -> mbp_ok mbp -> ts_wf ts = true -> no_aux ts = true -> trl_names ts ->
  trl check mbp qe simp same ts cw fuel = TrlSafe i -> safe ts.
Proof. intros Hc Hm Hw Na Hn E. apply (trl_safe check Hc mbp Hm ts Hw Hn qe simp same Na cw fuel i E). Qed.

(** C54, the part that holds.  The witness is a formula over the state variables and contains every reachable state. *)
Theorem C54_witness_covers_partial (check : check_fn) (mbp : mbp_fn) (qe : qe_fn) (simp : term -> term) (same : term -> term -> bool) (ts : tsys) (fuel : nat) (f : term) :
  check_ok check -> mbp_ok mbp -> qe_ok qe -> ts_wf ts = true -> no_aux ts = true -> trl_names ts ->
  trl check mbp qe simp same ts true fuel = TrlSafe (Some f) ->
  state_formula ts f /\ forall n s s', Init ts s -> Steps ts n s s' -> holds s' f.
Proof.
  intros Hc Hm Hq Hw Na Hn E. destruct (trl_safe check Hc mbp Hm ts Hw Hn qe simp same Na true fuel _ E) as [_ C]. destruct (C f eq_refl Hq) as [C1 C2]. auto.
Qed.

(** ** A run that learns a relation *)
Module ExTrl.
Definition x := mkVar "x" (TTime 0) SInt.
Definition y := mkVar "y" (TTime 0) SInt.
Definition x' := mkVar "x" (TTime 1) SInt.
Definition y' := mkVar "y" (TTime 1) SInt.
(** From x = y = 0: the first step goes to (0, 1), later steps add y to x and 1 to y; x = 5 with y = 1 is not reachable. *)
Definition T := mkOr [mkAnd [mkEq (Var x) (mkInt 0); mkEq (Var y) (mkInt 0); mkEq (Var x') (mkInt 0); mkEq (Var y') (mkInt 1)];
  mkAnd [mkLeq (mkInt 0) (Var y); mkEq (Var x') (mkPlus [Var x; Var y]); mkEq (Var y') (mkPlus [Var y; mkInt 1])]].
Definition sys := mkTS [x; y] [] (mkAnd [mkEq (Var x) (mkInt 0); mkEq (Var y) (mkInt 0)]) T (mkAnd [mkEq (Var x) (mkInt 5); mkEq (Var y) (mkInt 1)]).
(** The projection of the code (MbpModel.v). *)
Definition mbp : mbp_fn := fun f keep m => if inb tmp_var (vars f) then None else keep_only true (fun l => l) (fun _ _ => false) f keep m.
Lemma mbp_good : mbp_ok mbp.
Proof.
  intros f keep m g E Hm. unfold mbp in E. destruct (inb tmp_var (vars f)) eqn:Et; [discriminate|]. apply inb_false in Et.
  refine (keep_only_ok true (fun l => l) (fun _ _ => false) _ _ f keep m g E Hm (fun _ => Et)); [tauto|discriminate].
Qed.
Definition mk (xs ys ids : list Z) (lc : Z) : valuation := fun v =>
  match vtag v with
  | TTime z => let g l := VInt (nth (Z.to_nat z) l 0%Z) in
    if String.eqb (vbase v) "x" then g xs else if String.eqb (vbase v) "y" then g ys else if String.eqb (vbase v) "trl_id" then g ids else VInt lc
  | _ => VInt 0
  end.
Definition m1 := mk [0;0;1;3]%Z [0;1;2;3]%Z [0;0;0]%Z 1.
Definition models := [m1; mk [0;0;1;3;6]%Z [0;1;2;3;4]%Z [0;1;0;0]%Z 1; mk [0;1]%Z [1;2]%Z [] 1%Z; mk [1;3]%Z [2;3]%Z [] 1%Z].
(** The learned relation: one more counter, y' - y = counter, 0 <= x' - x, 0 <= y, 1 <= y'. *)
Definition learned : term := Eval vm_compute in
  match trace_of mbp sys m1 [T] 2 with
  | Some t => match transitive_projection mbp sys (mkAnd (firstn 1 (skipn 1 t))) m1 (mkLoop 1 1) 0 with Some r => unshift_from sys r 0 1 | None => tt_true end
  | None => tt_true
  end.
Definition block (l : loop) (m : valuation) : bclause := mkBC (match blocking_clause mbp sys l learned m with Some c => c | None => tt_true end) (lp_start l + lp_len l - 1).
Definition bc1 := block (mkLoop 1 1) (mk [0;1]%Z [1;2]%Z [] 1%Z).
Definition bc2 := block (mkLoop 2 1) (mk [1;3]%Z [2;3]%Z [] 1%Z).
Definition f0 := frame 0 [T] [].
Definition f1 := frame 1 [T] [].
Definition f1' := frame 1 [T; learned] [bc1].
Definition f2' := frame 2 [T; learned] [bc1].
Definition f2'' := frame 2 [T; learned] [bc1; bc2].
Definition init := tinit sys.
Definition bad k := sh k (tquery sys).
Definition unsats : list (list term) :=
  [[init; bad 0]; init :: f0 ++ [bad 1]; init :: f0 ++ f1 ++ [bad 2]; init :: f0 ++ f1' ++ [bad 2]; init :: f0 ++ f1' ++ f2' ++ [bad 3]; init :: f0 ++ f1' ++ f2''].
Definition check : check_fn := fun q =>
  match find (fun m => forallb (holdsb m) q) models with
  | Some m => SAT m
  | None => if existsb (terms_eqb q) unsats then UNSAT else UNKNOWN
  end.
Lemma check_good : Forall unsat unsats -> check_ok check.
Proof.
  intros Hu. split.
  - intros fs m E. unfold check in E. destruct (find _ models) as [m0|] eqn:F.
    + injection E as <-. apply find_some in F as [_ F]. apply Forall_forall. intros f Hf. rewrite forallb_forall in F. apply F, Hf.
    + destruct (existsb _ unsats); discriminate.
  - intros fs E. unfold check in E. destruct (find _ models); [discriminate|]. destruct (existsb (terms_eqb fs) unsats) eqn:X; [|discriminate]. apply existsb_exists in X as [q [Hq X]]. apply terms_eqb_eq in X. subst q.
    rewrite Forall_forall in Hu. apply Hu, Hq.
Qed.
Local Arguments Z.mul : simpl never.
Local Arguments Z.add : simpl never.
Local Arguments Z.leb : simpl never.
Local Arguments Z.eqb : simpl never.
Lemma unsats_good : Forall unsat unsats.
Proof.
  apply Forall_cons; [prove_unsat|].
  apply Forall_cons; [prove_unsat|].
  apply Forall_cons; [prove_unsat|].
  apply Forall_cons; [prove_unsat|].
  apply Forall_cons; [prove_unsat|].
  apply Forall_cons; [prove_unsat|].
  apply Forall_nil.
Qed.
Lemma sys_wf : ts_wf sys = true /\ no_aux sys = true.
Proof. split; reflexivity. Qed.
Lemma sys_names : trl_names sys.
Proof. intros v [<-|[<-|[]]]; (split; [discriminate|intros n E; discriminate E]). Qed.
(** The hypotheses of C10 hold of a run in which a relation is learned and two blocking clauses are added. *)
Example run_safe : check_ok check /\ mbp_ok mbp /\ ts_wf sys = true /\ no_aux sys = true /\ trl_names sys /\
  trl check mbp (fun _ _ => None) (fun t => t) term_eqb sys false 20 = TrlSafe None.
Proof. split; [apply check_good, unsats_good|]. split; [exact mbp_good|]. split; [apply sys_wf|]. split; [apply sys_wf|]. split; [exact sys_names|]. vm_compute. reflexivity. Qed.

(** ** The witness of the same run *)
Definition at1 k (v : var) := Var (shv k v).
Definition ext := mkOr [T; learned].
Definition c1 := mkAnd [mkLeq (mkInt 0) (at1 1 x); mkLeq (mkInt 1) (at1 1 y)].
Definition c2 := mkAnd [mkLeq (mkInt 0) (at1 2 x); mkLeq (mkInt 2) (at1 2 y)].
Definition qtable : list (term * list var * term) :=
  [(mkAnd [init; sh 0 ext], system_vars sys 1, c1); (mkAnd [c1; sh 1 ext], system_vars sys 2, c2)].
Definition qe : qe_fn := PropTermination.table_qe qtable.
Definition put (k : nat) (a b c : Z) (r : valuation) : valuation := fun v =>
  if var_eqb v (shv (S k) x) || var_eqb v (shv (S k) y) then r v
  else if var_eqb v (shv k x) then VInt a else if var_eqb v (shv k y) then VInt b else VInt c.
Definition vals (k : nat) (a b c a1 b1 : Z) : valuation := put k a b c (fun v => if var_eqb v (shv (S k) x) then VInt a1 else VInt b1).
Lemma put_vals k a b c a1 b1 r F : coerce SInt (r (shv (S k) x)) = VInt a1 -> coerce SInt (r (shv (S k) y)) = VInt b1 -> holds (vals k a b c a1 b1) F -> holds (put k a b c r) F.
Proof.
  intros Ea Eb. apply holds_ext. intros v _. unfold vals, put. destruct (var_eqb_spec v (shv (S k) x)) as [->|N1]; cbn [orb].
  - unfold shv, x in *. cbn in *. rewrite Ea. reflexivity.
  - destruct (var_eqb_spec v (shv (S k) y)) as [->|N2]; [|reflexivity]. unfold shv, y in *. cbn in *. rewrite Eb. reflexivity.
Qed.
Lemma qe_good : qe_ok qe.
Proof.
  apply PropTermination.table_qe_ok. apply Forall_cons; [|apply Forall_cons; [|constructor]]; cbn [fst snd].
  - let F := eval vm_compute in (mkAnd [init; sh 0 ext]) in change (mkAnd [init; sh 0 ext]) with F. let F := eval vm_compute in c1 in change c1 with F. split.
    + intros v Hv. apply inb_true. cbn in Hv. repeat (destruct Hv as [<-|Hv]; [reflexivity|]). destruct Hv.
    + intros r. split.
      * intros H. destruct (coerce_SInt (r (shv 1 x))) as [a Ea], (coerce_SInt (r (shv 1 y))) as [b Eb]. exists (put 0 0 0 b r). split; [intros v [<-|[<-|[]]]; reflexivity|]. apply (put_vals 0 0 0 b a b r _ Ea Eb).
        let t := eval vm_compute in (shv 1 x) in change (shv 1 x) with t in Ea. let t := eval vm_compute in (shv 1 y) in change (shv 1 y) with t in Eb. unfold holds, holdsb in *. cbn in H. rewrite Ea, Eb in H. cbn in H. assert (V0 : coerce SInt ((vals 0 0 0 (b) a b) (mkVar "x" (TTime 1) SInt)) = VInt (a)) by reflexivity. assert (V1 : coerce SInt ((vals 0 0 0 (b) a b) (mkVar "y" (TTime 1) SInt)) = VInt (b)) by reflexivity. assert (V2 : coerce SInt ((vals 0 0 0 (b) a b) (mkVar "x" (TTime 0) SInt)) = VInt (0)) by reflexivity. assert (V3 : coerce SInt ((vals 0 0 0 (b) a b) (mkVar "y" (TTime 0) SInt)) = VInt (0)) by reflexivity. assert (V4 : coerce SInt ((vals 0 0 0 (b) a b) (mkVar "trl_lc0" (TTime 0) SInt)) = VInt (b)) by reflexivity. cbn -[vals]. rewrite V0, V1, V2, V3, V4. cbn. lia.
      * intros [r' [A H]]. rewrite (holds_agree r r'); [ev|]. intros v Hv. apply A. apply inb_true. cbn in Hv. repeat (destruct Hv as [<-|Hv]; [reflexivity|]). destruct Hv.
  - let F := eval vm_compute in (mkAnd [c1; sh 1 ext]) in change (mkAnd [c1; sh 1 ext]) with F. let F := eval vm_compute in c2 in change c2 with F. split.
    + intros v Hv. apply inb_true. cbn in Hv. repeat (destruct Hv as [<-|Hv]; [reflexivity|]). destruct Hv.
    + intros r. split.
      * intros H. destruct (coerce_SInt (r (shv 2 x))) as [a Ea], (coerce_SInt (r (shv 2 y))) as [b Eb]. exists (put 1 0 1 (b - 1) r). split; [intros v [<-|[<-|[]]]; reflexivity|]. apply (put_vals 1 0 1 (b - 1) a b r _ Ea Eb).
        let t := eval vm_compute in (shv 2 x) in change (shv 2 x) with t in Ea. let t := eval vm_compute in (shv 2 y) in change (shv 2 y) with t in Eb. unfold holds, holdsb in *. cbn in H. rewrite Ea, Eb in H. cbn in H. assert (V0 : coerce SInt ((vals 1 0 1 (b - 1) a b) (mkVar "x" (TTime 2) SInt)) = VInt (a)) by reflexivity. assert (V1 : coerce SInt ((vals 1 0 1 (b - 1) a b) (mkVar "y" (TTime 2) SInt)) = VInt (b)) by reflexivity. assert (V2 : coerce SInt ((vals 1 0 1 (b - 1) a b) (mkVar "x" (TTime 1) SInt)) = VInt (0)) by reflexivity. assert (V3 : coerce SInt ((vals 1 0 1 (b - 1) a b) (mkVar "y" (TTime 1) SInt)) = VInt (1)) by reflexivity. assert (V4 : coerce SInt ((vals 1 0 1 (b - 1) a b) (mkVar "trl_lc0" (TTime 1) SInt)) = VInt (b - 1)) by reflexivity. cbn -[vals]. rewrite V0, V1, V2, V3, V4. cbn. lia.
      * intros [r' [A H]]. rewrite (holds_agree r r'); [ev|]. intros v Hv. apply A. apply inb_true. cbn in Hv. repeat (destruct Hv as [<-|Hv]; [reflexivity|]). destruct Hv.
Qed.
Definition witness : term := Eval vm_compute in match trl check mbp qe (fun t => t) term_eqb sys true 20 with TrlSafe (Some f) => f | _ => tt_false end.
Lemma witness_eq : trl check mbp qe (fun t => t) term_eqb sys true 20 = TrlSafe (Some witness).
Proof. vm_compute. reflexivity. Qed.
End ExTrl.

(** C54 in full is false: the learned relation, applied where the frames do not offer it, leads from the initial state to a query state;
    the witness contains it, although the SAFE answer is right. *)
Theorem C54_witness_refuted : exists check mbp qe ts f,
  check_ok check /\ mbp_ok mbp /\ qe_ok qe /\ ts_wf ts = true /\ no_aux ts = true /\ trl_names ts /\
  trl check mbp qe (fun t => t) term_eqb ts true 20 = TrlSafe (Some f) /\ (exists s, Bad ts s /\ holds s f) /\ ~ safe_inductive ts f.
Proof.
  exists ExTrl.check, ExTrl.mbp, ExTrl.qe, ExTrl.sys, ExTrl.witness. split; [apply ExTrl.check_good, ExTrl.unsats_good|]. split; [exact ExTrl.mbp_good|]. split; [exact ExTrl.qe_good|].
  split; [reflexivity|]. split; [reflexivity|]. split; [exact ExTrl.sys_names|]. split; [exact ExTrl.witness_eq|].
  assert (B : Bad ExTrl.sys (ExTrl.mk [5%Z] [1%Z] [] 0)) by (apply Bad_holds; vm_compute; reflexivity). assert (W : holds (ExTrl.mk [5%Z] [1%Z] [] 0) ExTrl.witness) by (vm_compute; reflexivity).
  split; [eauto|]. intros J. apply (inv_bad _ _ J _ W B).
Qed.
