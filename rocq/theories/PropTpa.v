(** * C11, C55, C56: transition power abstraction. *)
From Verif Require Import Syntax Solver TransSys TSLemmas KTo1Model FormulaModel Lin MbpModel MbpProofs NontermProofs ExTac TpaModel TpaProofs TpaQuery TpaLess TpaFix TpaRun TpaInv TpaTop.
From Verif Require PropTermination PropTrl.
Open Scope string_scope.
Open Scope list_scope.
Open Scope nat_scope.

(** A query of the Houdini procedure: can a transition of [c], extended by a step on the given side, leave [c]? *)
Definition houdini_query (ts : tsys) (f : side) (c : term) : list term := [hd_base ts f; hd_query ts f c c].

(** C11, SAFE.  No query state is reachable, unless the solver gave up on a query of the Houdini procedure. *)
Theorem C11_split_safe (check : check_fn) (itp itp2 : itp_fn) (elim : mbp_fn) (isimp tsimp : term -> term) (ts : tsys) (fuel : nat) (e : expl) :
  check_ok check -> itp_ok itp -> itp_ok itp2 -> mbp_ok elim -> simp_ok isimp -> simp_ok tsimp -> ts_wf ts = true -> bool_ts ts ->
  tpa_split check itp itp2 elim isimp tsimp fuel ts = Ret (TSafe e) ->
  safe ts \/ exists ts' f c, normal_ts tsimp ts = Some ts' /\ check (houdini_query ts' f c) = UNKNOWN.
Proof.
  intros Hc H1 H2 He Hs Ht Hw Hb E.
  destruct (split_top check Hc itp itp2 H1 H2 elim He isimp tsimp Hs Ht (fun _ => None) ltac:(discriminate) (fun _ _ => None) ltac:(discriminate) ts Hw Hb fuel _ E) as [[ts' [A [f [c B]]]]|[A _]]; [right; exists ts', f, c; auto|left; exact A].
Qed.
Theorem C11_basic_safe (check : check_fn) (itp : itp_fn) (elim : mbp_fn) (isimp tsimp : term -> term) (ts : tsys) (fuel : nat) (e : expl) :
  check_ok check -> itp_ok itp -> mbp_ok elim -> simp_ok isimp -> simp_ok tsimp -> ts_wf ts = true -> bool_ts ts ->
  tpa_basic check itp elim isimp tsimp fuel ts = Ret (TSafe e) ->
  safe ts \/ exists ts' f c, normal_ts tsimp ts = Some ts' /\ check (houdini_query ts' f c) = UNKNOWN.
Proof.
  intros Hc H1 He Hs Ht Hw Hb E.
  destruct (basic_top check Hc itp H1 elim He isimp tsimp Hs Ht (fun _ => None) ltac:(discriminate) (fun _ _ => None) ltac:(discriminate) ts Hw Hb fuel _ E) as [[ts' [A [f [c B]]]]|[A _]]; [right; exists ts', f, c; auto|left; exact A].
Qed.

(** C11 and C55, UNSAFE.  The split version: there is an error path of exactly the reported length, unless the initial and the query formula
    are the same formula and there is no initial state. *)
Theorem C11_split_unsafe (check : check_fn) (itp itp2 : itp_fn) (elim : mbp_fn) (isimp tsimp : term -> term) (ts : tsys) (fuel : nat) (t : term) (n : nat) :
  check_ok check -> itp_ok itp -> itp_ok itp2 -> mbp_ok elim -> simp_ok isimp -> simp_ok tsimp -> ts_wf ts = true -> bool_ts ts ->
  tpa_split check itp itp2 elim isimp tsimp fuel ts = Ret (TUnsafe t n) ->
  (exists s, Init ts s) \/ nnf (tinit ts) <> nnf (tquery ts) -> error_path ts n.
Proof.
  intros Hc H1 H2 He Hs Ht Hw Hb E.
  exact (split_top check Hc itp itp2 H1 H2 elim He isimp tsimp Hs Ht (fun _ => None) ltac:(discriminate) (fun _ _ => None) ltac:(discriminate) ts Hw Hb fuel _ E).
Qed.
(** The basic version: there is an error path. *)
Theorem C11_basic_unsafe (check : check_fn) (itp : itp_fn) (elim : mbp_fn) (isimp tsimp : term -> term) (ts : tsys) (fuel : nat) (t : term) (n : nat) :
  check_ok check -> itp_ok itp -> mbp_ok elim -> simp_ok isimp -> simp_ok tsimp -> ts_wf ts = true -> bool_ts ts ->
  tpa_basic check itp elim isimp tsimp fuel ts = Ret (TUnsafe t n) -> exists m, error_path ts m.
Proof.
  intros Hc H1 He Hs Ht Hw Hb E.
  destruct (basic_top check Hc itp H1 elim He isimp tsimp Hs Ht (fun _ => None) ltac:(discriminate) (fun _ _ => None) ltac:(discriminate) ts Hw Hb fuel _ E) as [p [m [_ [_ A]]]]. eauto.
Qed.

(** C56.  The invariant of a SAFE answer contains the initial states, is closed under the transition relation and contains no query state. *)
Theorem C56_split_invariant (check : check_fn) (itp itp2 : itp_fn) (elim : mbp_fn) (isimp tsimp : term -> term) (pitp : pitp_fn) (qe : qe_fn) (ts : tsys) (fuel : nat) (e : expl) (inv : term) :
  check_ok check -> itp_ok itp -> itp_ok itp2 -> mbp_ok elim -> simp_ok isimp -> simp_ok tsimp -> pitp_ok pitp -> qe_ok qe -> ts_wf ts = true -> bool_ts ts ->
  tpa_split check itp itp2 elim isimp tsimp fuel ts = Ret (TSafe e) -> tpa_invariant check pitp qe tsimp ts e = Ret (Some inv) ->
  safe_inductive ts inv \/ exists ts' f c, normal_ts tsimp ts = Some ts' /\ check (houdini_query ts' f c) = UNKNOWN.
Proof.
  intros Hc H1 H2 He Hs Ht Hp Hq Hw Hb E K.
  destruct (split_top check Hc itp itp2 H1 H2 elim He isimp tsimp Hs Ht pitp Hp qe Hq ts Hw Hb fuel _ E) as [[ts' [A [f [c B]]]]|[_ A]]; [right; exists ts', f, c; auto|left; apply A, K].
Qed.
Theorem C56_basic_invariant (check : check_fn) (itp : itp_fn) (elim : mbp_fn) (isimp tsimp : term -> term) (pitp : pitp_fn) (qe : qe_fn) (ts : tsys) (fuel : nat) (e : expl) (inv : term) :
  check_ok check -> itp_ok itp -> mbp_ok elim -> simp_ok isimp -> simp_ok tsimp -> pitp_ok pitp -> qe_ok qe -> ts_wf ts = true -> bool_ts ts ->
  tpa_basic check itp elim isimp tsimp fuel ts = Ret (TSafe e) -> tpa_invariant check pitp qe tsimp ts e = Ret (Some inv) ->
  safe_inductive ts inv \/ exists ts' f c, normal_ts tsimp ts = Some ts' /\ check (houdini_query ts' f c) = UNKNOWN.
Proof.
  intros Hc H1 He Hs Ht Hp Hq Hw Hb E K.
  destruct (basic_top check Hc itp H1 elim He isimp tsimp Hs Ht pitp Hp qe Hq ts Hw Hb fuel _ E) as [[ts' [A [f [c B]]]]|[_ A]]; [right; exists ts', f, c; auto|left; apply A, K].
Qed.

(** ** Concrete runs *)
Module ExTpa.
(** A solver that knows some models and some unsatisfiable queries. *)
Definition solver (models : list valuation) (unsats : list (list term)) : check_fn := fun q =>
  match find (fun m => forallb (holdsb m) q) models with
  | Some m => SAT m
  | None => if existsb (terms_eqb q) unsats then UNSAT else UNKNOWN
  end.
Lemma solver_ok models unsats : Forall unsat unsats -> check_ok (solver models unsats).
Proof.
  intros Hu. split.
  - intros fs m E. unfold solver in E. destruct (find _ models) as [m0|] eqn:F.
    + injection E as <-. apply find_some in F as [_ F]. apply Forall_forall. intros f Hf. rewrite forallb_forall in F. apply F, Hf.
    + destruct (existsb _ unsats); discriminate.
  - intros fs E. unfold solver in E. destruct (find _ models); [discriminate|]. destruct (existsb (terms_eqb fs) unsats) eqn:X; [|discriminate]. apply existsb_exists in X as [q [Hq X]]. apply terms_eqb_eq in X. subst q.
    rewrite Forall_forall in Hu. apply Hu, Hq.
Qed.
Definition x := mkVar "x" (TTime 0) SInt.
Definition at1 (k : Z) := Var (shiftv k x).
Definition mk (l : list Z) : valuation := fun v => match vtag v with TTime z => VInt (nth (Z.to_nat z) l 0%Z) | _ => VInt 0 end.
Definition id1 (t : term) := t.
Definition noitp : itp_fn := fun _ _ => None.
Definition plus (t : term) (n : Z) := mkPlus [t; mkInt n].
Definition init := mkEq (Var x) (mkInt 0).
Definition inc := mkEq (at1 1) (plus (Var x) 1).
(** Counting from 0, with the given query. *)
Definition count (q : term) := mkTS [x] [] init inc q.
Definition step_less (ts : tsys) (lt ex : term) : term := mkOr [shift_next ts lt; mkAnd [lt; shift 1 ex]].
Definition goal (ts : tsys) := mkAnd [tinit ts; shift 2 (tquery ts)].

(** *** SAFE: x never becomes negative, x <= x' is closed *)
Definition ts1 := count (mkLeq (Var x) (mkInt (-1))).
Definition J1 := mkLeq (Var x) (at1 2).
Definition lt1 := clean ts1 (mkAnd [J1; J1]).
Definition step1 := step_less ts1 (identity ts1) inc.
Definition inv1 := [mkLeq (Var x) (at1 1)].
Definition unsats1 : list (list term) :=
  [[step1; goal ts1]; houdini_query ts1 RIGHT lt1; [mkAnd [mkAnd inv1; lt1; shift 1 inc; mkNot (shift_next ts1 lt1)]]].
Definition check1 := solver [] unsats1.
Definition itp1 := table_itp [([step1], [goal ts1], J1)].
Local Arguments Z.mul : simpl never.
Local Arguments Z.add : simpl never.
Local Arguments Z.leb : simpl never.
Local Arguments Z.eqb : simpl never.
Lemma check1_ok : check_ok check1.
Proof. apply solver_ok. repeat (apply Forall_cons; [prove_unsat|]). apply Forall_nil. Qed.
Lemma itp1_ok : itp_ok itp1.
Proof. apply table_itp_ok. repeat (apply Forall_cons; [prove_interpolant|]). apply Forall_nil. Qed.
Definition ti1 : term := Eval vm_compute in match tpa_split check1 itp1 itp1 PropTrl.ExTrl.mbp id1 id1 10 ts1 with Ret (TSafe (LessThanExpl _ _ t)) => t | _ => tt_false end.
Lemma id1_ok : simp_ok id1.
Proof. intros t. split; [tauto|auto]. Qed.
Definition qe1 := PropTermination.table_qe [(mkAnd [init; ti1], [shiftv 1 x], mkLeq (mkInt 0) (at1 1))].
Definition put (k : var) (l : list Z) (r : valuation) : valuation := fun v => if var_eqb v k then r v else mk l v.
Lemma coerce_int z : coerce SInt (VInt z) = VInt z.
Proof. reflexivity. Qed.
Ltac proj kv w :=
  match goal with |- is_projection (fst (fst ?e)) (snd (fst ?e)) (snd ?e) =>
    let e' := eval vm_compute in e in match e' with (?a, ?b, ?c) => change (is_projection a b c) end end; split;
  [ let v := fresh in let Hv := fresh in intros v Hv; apply inb_true; cbn in Hv; repeat (destruct Hv as [<-|Hv]; [reflexivity|]); destruct Hv
  | let r := fresh "r" in intros r; split;
    [ let H := fresh "H" in intros H; let z := fresh "z" in let Ez := fresh "Ez" in
      destruct (coerce_SInt (r kv)) as [z Ez];
      let kv' := eval vm_compute in kv in change kv with kv' in Ez;
      unfold holds, holdsb in *; cbn in H; rewrite ?Ez in H; cbn in H; let l := constr:(w z) in let l := eval cbv beta in l in
      exists (put kv' l r); split; [intros v Hv; cbn in Hv; repeat (destruct Hv as [<-|Hv]; [reflexivity|]); destruct Hv|];
      let a := eval cbn in (nth 0 l 0%Z) in let b := eval cbn in (nth 1 l 0%Z) in let c := eval cbn in (nth 2 l 0%Z) in
      let V0 := fresh in let V1 := fresh in let V2 := fresh in
      assert (V0 : coerce SInt (put kv' l r (mkVar "x" (TTime 0) SInt)) = VInt a) by (first [exact Ez | reflexivity]);
      assert (V1 : coerce SInt (put kv' l r (mkVar "x" (TTime 1) SInt)) = VInt b) by (first [exact Ez | reflexivity]);
      assert (V2 : coerce SInt (put kv' l r (mkVar "x" (TTime 2) SInt)) = VInt c) by (first [exact Ez | reflexivity]);
      cbn -[put]; rewrite ?V0, ?V1, ?V2; cbn; lia
    | let r' := fresh in let A := fresh in let H := fresh in intros [r' [A H]]; rewrite (holds_agree r r');
      [ev|intros v Hv; apply A; apply inb_true; cbn in Hv; repeat (destruct Hv as [<-|Hv]; [reflexivity|]); destruct Hv] ] ].
Lemma qe1_ok : qe_ok qe1.
Proof. apply PropTermination.table_qe_ok. apply Forall_cons; [|apply Forall_nil]. proj (shiftv 1 x) (fun z : Z => [0%Z; z; 0%Z]). Qed.

(** The hypotheses of C11_split_safe and C56_split_invariant hold of this run. *)
Example run_safe : check_ok check1 /\ itp_ok itp1 /\ mbp_ok PropTrl.ExTrl.mbp /\ simp_ok id1 /\ qe_ok qe1 /\ ts_wf ts1 = true /\ bool_ts ts1 /\
  tpa_split check1 itp1 itp1 PropTrl.ExTrl.mbp id1 id1 10 ts1 = Ret (TSafe (LessThanExpl Unrestricted RIGHT ti1)) /\
  tpa_invariant check1 (fun _ => None) qe1 id1 ts1 (LessThanExpl Unrestricted RIGHT ti1) = Ret (Some (mkLeq (mkInt 0) (Var x))).
Proof.
  split; [exact check1_ok|]. split; [exact itp1_ok|]. split; [exact PropTrl.ExTrl.mbp_good|]. split; [exact id1_ok|]. split; [exact qe1_ok|].
  split; [reflexivity|]. split; [repeat split; reflexivity|]. split; vm_compute; reflexivity.
Qed.

(** *** UNSAFE after three steps, with a split of the path *)
Definition ts3 := count (mkEq (Var x) (mkInt 3)).
Definition J3 := mkLeq (at1 2) (plus (Var x) 1).
Definition E3 := mkEq (at1 2) (plus (Var x) 2).
Definition step3 := step_less ts3 (identity ts3) inc.
Definition nothing (f : side) := houdini_query ts3 f (mkAnd []).
Definition unsats3 : list (list term) := [[step3; goal ts3]; nothing RIGHT; nothing LEFT; [two inc; goal ts3]].
Definition check3 := solver (map mk [[0;1;2]; [1;2;3]; [0;3]; [0;1;3]; [0;0;1]]%Z) unsats3.
Definition itp3 := table_itp [([step3], [goal ts3], J3); ([two inc], [goal ts3], E3)].
Lemma check3_ok : check_ok check3.
Proof. apply solver_ok. repeat (apply Forall_cons; [prove_unsat|]). apply Forall_nil. Qed.
Lemma itp3_ok : itp_ok itp3.
Proof. apply table_itp_ok. repeat (apply Forall_cons; [prove_interpolant|]). apply Forall_nil. Qed.
Definition hit3 : term := Eval vm_compute in match tpa_split check3 itp3 itp3 PropTrl.ExTrl.mbp id1 id1 20 ts3 with Ret (TUnsafe t _) => t | _ => tt_false end.
(** The hypotheses of C11_split_unsafe hold of this run. *)
Example run_unsafe : check_ok check3 /\ itp_ok itp3 /\ ts_wf ts3 = true /\ bool_ts ts3 /\ nnf (tinit ts3) <> nnf (tquery ts3) /\
  tpa_split check3 itp3 itp3 PropTrl.ExTrl.mbp id1 id1 20 ts3 = Ret (TUnsafe hit3 3).
Proof.
  split; [exact check3_ok|]. split; [exact itp3_ok|]. split; [reflexivity|]. split; [repeat split; reflexivity|]. split; [discriminate|]. vm_compute. reflexivity.
Qed.

(** *** SAFE by an equality fixed point: x' = 1 - x from x = 0 does not reach 5 *)
Definition flip := mkEq (at1 1) (mkPlus [mkInt 1; mkTimes [mkInt (-1); Var x]]).
Definition ts4 := mkTS [x] [] init flip (mkEq (Var x) (mkInt 5)).
(** The less-than interpolants contain 7 as a target and 9 as a source, so they are not closed. *)
Definition J4 := mkOr [mkEq (at1 2) (Var x); mkEq (at1 2) (mkPlus [mkInt 1; mkTimes [mkInt (-1); Var x]]); mkEq (at1 2) (mkInt 7); mkEq (Var x) (mkInt 9)].
Definition E4 := mkEq (at1 2) (Var x).
Definition step4 := step_less ts4 (identity ts4) flip.
Definition lt4 := clean ts4 (mkAnd [J4; J4]).
Definition ex4 := clean ts4 E4.
Definition step4' := step_less ts4 lt4 ex4.
Definition unsats4 : list (list term) :=
  [[step4; goal ts4]; houdini_query ts4 RIGHT (mkAnd []); houdini_query ts4 LEFT (mkAnd []); [two flip; goal ts4]; [step4'; goal ts4]; [mkAnd [two ex4; mkNot (shift_next ts4 ex4)]]].
Definition check4 := solver (map mk [[0;7;-6]; [-8;9;5]; [0;5]]%Z) unsats4.
Definition itp4 := table_itp [([step4], [goal ts4], J4); ([two flip], [goal ts4], E4); ([step4'], [goal ts4], J4)].
Lemma check4_ok : check_ok check4.
Proof. apply solver_ok. repeat (apply Forall_cons; [prove_unsat|]). apply Forall_nil. Qed.
Lemma itp4_ok : itp_ok itp4.
Proof. apply table_itp_ok. repeat (apply Forall_cons; [prove_interpolant|]). apply Forall_nil. Qed.
Example run_equals : check_ok check4 /\ itp_ok itp4 /\ ts_wf ts4 = true /\ bool_ts ts4 /\
  exists ti, tpa_split check4 itp4 itp4 PropTrl.ExTrl.mbp id1 id1 20 ts4 = Ret (TSafe (EqualsExpl Unrestricted 1 ti)).
Proof.
  split; [exact check4_ok|]. split; [exact itp4_ok|]. split; [reflexivity|]. split; [repeat split; reflexivity|]. eexists. vm_compute. reflexivity.
Qed.

(** *** The basic version on the same system, with quantifier elimination instead of projection *)
Definition zero := basic_zero ts3.
Definition Jb := mkLeq (at1 2) (plus (Var x) 2).
Definition ltb1 := clean ts3 Jb.
Definition unsatsb : list (list term) := [[two zero; goal ts3]; nothing RIGHT; nothing LEFT].
Definition checkb := solver (map mk [[0;2;3]; [0;1;3]; [0;3]; [0;0;1]; [2;2;3]]%Z) unsatsb.
Definition itpb := table_itp [([two zero], [goal ts3], Jb)].
Lemma checkb_ok : check_ok checkb.
Proof. apply solver_ok. repeat (apply Forall_cons; [prove_unsat|]). apply Forall_nil. Qed.
Lemma itpb_ok : itp_ok itpb.
Proof. apply table_itp_ok. repeat (apply Forall_cons; [prove_interpolant|]). apply Forall_nil. Qed.
Definition a1 := mkLeq (at1 1) (mkInt 2).
Definition a2 := mkLeq (mkInt 1) (at1 1).
Definition mid := shift (-1) (mkAnd [a1; a2]).
Definition g1 := mkAnd [mkLeq (mkInt 1) (at1 2); mkLeq (at1 2) (mkInt 2)].
Definition t1 := shift (-2) g1.
Definition g2 := mkEq (at1 2) (mkInt 3).
Definition keep0 (f : term) (k : Z) := filter (fun v => negb (inb v [shiftv k x])) (vars f).
Definition fa := mkAnd [init; ltb1].
Definition fb := mkAnd [shift 2 (tquery ts3); shift 1 ltb1].
Definition tableb : list (term * list var * term) :=
  [(fa, keep0 fa 0, a1); (fb, keep0 fb 2, a2); (mkAnd [init; two zero; shift 2 mid], [shiftv 2 x], g1); (mkAnd [t1; two zero; shift 2 (tquery ts3)], [shiftv 2 x], g2)].
Definition elimb : mbp_fn := fun f keep m => PropTermination.table_qe tableb f keep.
Lemma tableb_ok : Forall (fun e => is_projection (fst (fst e)) (snd (fst e)) (snd e)) tableb.
Proof.
  apply Forall_cons; [proj (shiftv 1 x) (fun z : Z => [0%Z; z; 0%Z])|].
  apply Forall_cons; [proj (shiftv 1 x) (fun z : Z => [0%Z; z; 3%Z])|].
  apply Forall_cons; [proj (shiftv 2 x) (fun z : Z => [0%Z; 1%Z; z])|].
  apply Forall_cons; [proj (shiftv 2 x) (fun z : Z => [2%Z; 2%Z; z])|]. apply Forall_nil.
Qed.
Lemma elimb_ok : mbp_ok elimb.
Proof.
  intros f keep m g E Hm. destruct (PropTermination.table_qe_ok _ tableb_ok _ _ _ E) as [V S]. split; [exact V| |].
  - intros _. apply S. exists m. split; [intros v _; reflexivity|exact Hm].
  - intros r. apply S.
Qed.
Definition hitb : term := Eval vm_compute in match tpa_basic checkb itpb elimb id1 id1 20 ts3 with Ret (TUnsafe t _) => t | _ => tt_false end.
Lemma run_basic : tpa_basic checkb itpb elimb id1 id1 20 ts3 = Ret (TUnsafe hitb 2).
Proof. vm_compute. reflexivity. Qed.
Lemma steps_inc n s s' a b : Steps ts3 n s s' -> coerce SInt (s x) = VInt a -> coerce SInt (s' x) = VInt b -> b = (a + Z.of_nat n)%Z.
Proof.
  intros H. revert a. induction H as [s|n s t s' [r [A [B H]]] _ IH]; intros a Ea Eb.
  - rewrite Ea in Eb. injection Eb as ->. lia.
  - destruct (coerce_SInt (t x)) as [c Ec]. rewrite (IH c Ec Eb). rewrite <- (A x) in Ea by (left; reflexivity). rewrite <- (B x) in Ec by (left; reflexivity).
    change (shiftv 1 x) with (mkVar "x" (TTime 1) SInt) in Ec. unfold x in Ea. let F := eval vm_compute in (ttrans ts3) in change (ttrans ts3) with F in H. unfold holds, holdsb in H. cbn in H. rewrite Ea, Ec in H. cbn in H. lia.
Qed.
Lemma only_three n : error_path ts3 n -> n = 3.
Proof.
  intros [s [s' [[r [A H]] [B [r' [A' H']]]]]]. assert (Ea : coerce SInt (s x) = VInt 0).
  { rewrite <- (A x) by (left; reflexivity). revert H. let F := eval vm_compute in (tinit ts3) in change (tinit ts3) with F. unfold holds, holdsb. cbn. destruct (coerce_SInt (r x)) as [z E]. unfold x in E. rewrite E. cbn. intros H. unfold x. rewrite E. f_equal. lia. }
  assert (Eb : coerce SInt (s' x) = VInt 3).
  { rewrite <- (A' x) by (left; reflexivity). revert H'. let F := eval vm_compute in (tquery ts3) in change (tquery ts3) with F. unfold holds, holdsb. cbn. destruct (coerce_SInt (r' x)) as [z E]. unfold x in E. rewrite E. cbn. intros H'. unfold x. rewrite E. f_equal. lia. }
  pose proof (steps_inc _ _ _ _ _ B Ea Eb). lia.
Qed.

(** *** Houdini with a solver that gives up *)
Definition ts5 := count (mkEq (Var x) (mkInt 2)).
Definition step5 := step_less ts5 (identity ts5) inc.
Definition lt5 := clean ts5 (mkAnd [J3; J3]).
Definition unsats5 : list (list term) := [[step5; goal ts5]; [mkAnd [init; mkAnd [clean ts5 J3]; shift 1 (tquery ts5)]]].
(** It gives up on the queries of Houdini only. *)
Definition check5 : check_fn := fun q => if existsb (terms_eqb q) [houdini_query ts5 RIGHT lt5; houdini_query ts5 LEFT lt5] then UNKNOWN else solver (map mk [[0;1;2]]%Z) unsats5 q.
Definition itp5 := table_itp [([step5], [goal ts5], J3)].
Lemma check5_ok : check_ok check5.
Proof.
  assert (K : check_ok (solver (map mk [[0;1;2]]%Z) unsats5)) by (apply solver_ok; repeat (apply Forall_cons; [prove_unsat|]); apply Forall_nil).
  split; intros fs; [intros m E|intros E]; unfold check5 in E; (destruct (existsb _ _); [discriminate|]); [apply (check_sat _ K), E|apply (check_unsat _ K), E].
Qed.
Lemma itp5_ok : itp_ok itp5.
Proof. apply table_itp_ok. repeat (apply Forall_cons; [prove_interpolant|]). apply Forall_nil. Qed.

(** *** The same unsatisfiable formula for initial and query states *)
Definition none := mkAnd [mkEq (Var x) (mkInt 0); mkEq (Var x) (mkInt 1)].
Definition ts6 := mkTS [x] [] none inc none.
End ExTpa.

(** C11 without the condition on the solver is false: a Houdini query without an answer ends the search as if the candidates were closed; two
    steps lead to the query. *)
Theorem C11_unknown_refuted : exists check itp elim ts e,
  check_ok check /\ itp_ok itp /\ mbp_ok elim /\ ts_wf ts = true /\ bool_ts ts /\
  tpa_split check itp itp elim (fun t => t) (fun t => t) 20 ts = Ret (TSafe e) /\ error_path ts 2.
Proof.
  exists ExTpa.check5, ExTpa.itp5, PropTrl.ExTrl.mbp, ExTpa.ts5. eexists. split; [exact ExTpa.check5_ok|]. split; [exact ExTpa.itp5_ok|]. split; [exact PropTrl.ExTrl.mbp_good|].
  split; [reflexivity|]. split; [repeat split; reflexivity|]. split; [vm_compute; reflexivity|].
  exists (ExTpa.mk [0%Z]), (ExTpa.mk [2%Z]). split; [exists (ExTpa.mk [0%Z]); split; [intros v _; reflexivity|vm_compute; reflexivity]|]. split.
  - apply Steps_S with (ExTpa.mk [1%Z]); [|apply Steps_S with (ExTpa.mk [2%Z]); [|constructor]].
    + exists (ExTpa.mk [0%Z; 1%Z]). split; [intros v [<-|[]]; reflexivity|]. split; [intros v [<-|[]]; reflexivity|vm_compute; reflexivity].
    + exists (ExTpa.mk [1%Z; 2%Z]). split; [intros v [<-|[]]; reflexivity|]. split; [intros v [<-|[]]; reflexivity|vm_compute; reflexivity].
  - exists (ExTpa.mk [2%Z]). split; [intros v _; reflexivity|vm_compute; reflexivity].
Qed.

(** C11 without the condition on the initial states is false: equal formulas count as reachable in 0 steps, also if there is no state in them. *)
Theorem C11_same_refuted : exists ts t, ts_wf ts = true /\ bool_ts ts /\
  (forall check itp itp2 elim, tpa_split check itp itp2 elim (fun t => t) (fun t => t) 20 ts = Ret (TUnsafe t 0)) /\ safe ts.
Proof.
  exists ExTpa.ts6, ExTpa.none. split; [reflexivity|]. split; [repeat split; reflexivity|]. split; [reflexivity|].
  intros n [s [s' [[r [_ H]] _]]]. cbn [ExTpa.ts6 tinit] in H. apply holds_and2 in H as [H1 H2]. apply holds_eq in H1. apply holds_eq in H2. rewrite H1 in H2. discriminate.
Qed.

(** C55 is false of the basic version: it reports 2 steps although every error path has 3. *)
Theorem C55_basic_refuted : exists check itp elim ts t,
  check_ok check /\ itp_ok itp /\ mbp_ok elim /\ ts_wf ts = true /\ bool_ts ts /\
  tpa_basic check itp elim (fun t => t) (fun t => t) 20 ts = Ret (TUnsafe t 2) /\ ~ error_path ts 2 /\ forall n, error_path ts n -> n = 3.
Proof.
  exists ExTpa.checkb, ExTpa.itpb, ExTpa.elimb, ExTpa.ts3, ExTpa.hitb. split; [exact ExTpa.checkb_ok|]. split; [exact ExTpa.itpb_ok|]. split; [exact ExTpa.elimb_ok|].
  split; [reflexivity|]. split; [repeat split; reflexivity|]. split; [exact ExTpa.run_basic|]. split; [intros H; apply ExTpa.only_three in H; discriminate|exact ExTpa.only_three].
Qed.
(** What holds of the basic version: the reported number and the length of some error path are both at most the same power of two. *)
Theorem C55_basic_partial (check : check_fn) (itp : itp_fn) (elim : mbp_fn) (isimp tsimp : term -> term) (ts : tsys) (fuel : nat) (t : term) (n : nat) :
  check_ok check -> itp_ok itp -> mbp_ok elim -> simp_ok isimp -> simp_ok tsimp -> ts_wf ts = true -> bool_ts ts ->
  tpa_basic check itp elim isimp tsimp fuel ts = Ret (TUnsafe t n) -> exists p m, n <= Nat.pow 2 (S p) /\ m <= Nat.pow 2 (S p) /\ error_path ts m.
Proof.
  intros Hc H1 He Hs Ht Hw Hb E.
  exact (basic_top check Hc itp H1 elim He isimp tsimp Hs Ht (fun _ => None) ltac:(discriminate) (fun _ _ => None) ltac:(discriminate) ts Hw Hb fuel _ E).
Qed.

Print Assumptions C11_split_safe.
Print Assumptions C11_basic_safe.
Print Assumptions C11_split_unsafe.
Print Assumptions C11_basic_unsafe.
Print Assumptions C56_split_invariant.
Print Assumptions C56_basic_invariant.
Print Assumptions C11_unknown_refuted.
Print Assumptions C11_same_refuted.
Print Assumptions C55_basic_refuted.
