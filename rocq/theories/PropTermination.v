(** * Properties C47-C50: termination, nontermination, lassos and liveness. *)
From Verif Require Import Syntax Solver TransSys TSLemmas KindModel Graph ChcSystem TerminationModel TerminationProofs NontermProofs ExTac.
Open Scope nat_scope.

(** C47.  The answer YES of the step-counter analysis means that executions from each initial state have bounded length
    (so none is infinite). *)
Theorem C47_termination_yes :
  forall e ts, engine_ok e -> ts_wf ts = true -> no_counter ts -> termination e ts = TYes ->
    forall s, Init ts s -> (exists B, forall n t, Steps ts n s t -> n <= B) /\ ~ forever ts s.
Proof.
  intros e ts He W NC E s Hs.
  assert (G : exists m, ~ cderivable (term_clauses ts m) exit []).
  { revert E. unfold termination. generalize 1%Z. generalize 7. induction n as [|n IH]; intros m E; [discriminate|]. cbn [term_loop] in E.
    destruct (Z.ltb m 64); [|discriminate]. destruct (e (term_clauses ts m)) as [inv| |] eqn:Ee; [|apply (IH _ E)|discriminate]. exists m. exact (proj1 (He _) inv Ee). }
  destruct G as [m G]. destruct (term_bound ts W NC m G s Hs) as [B HB]. split; [exists B; exact HB|]. intros F.
  assert (L : forall n, exists t, Steps ts n s t).
  { clear -F. intros n. revert s F. induction n as [|n IH]; intros s F; [exists s; constructor|]. inversion F as [? s' St Fs]; subst. destruct (IH s' Fs) as [t Ht]. exists t. econstructor; eassumption. }
  destruct (L (S B)) as [t Ht]. apply HB in Ht. lia.
Qed.
Print Assumptions C47_termination_yes.

(** It never answers NO, and it stops after the multipliers 1, 2, ..., 32. *)
Theorem C47_termination_total : forall e ts, termination e ts = TYes \/ termination e ts = TUnknown \/ termination e ts = TError.
Proof.
  intros e ts. unfold termination. cbn [term_loop Z.ltb Z.compare Pos.compare Pos.compare_cont Z.mul Pos.mul].
  repeat (destruct (e _); [tauto| |tauto]). tauto.
Qed.
Print Assumptions C47_termination_total.

(** C50.  The answer YES of the liveness analysis: on every execution the signal is raised a bounded number of times, so
    on no infinite execution infinitely often. *)
Theorem C50_liveness_yes :
  forall e ts, engine_ok e -> ts_wf ts = true -> no_counter ts -> state_formula ts (tquery ts) -> check_liveness e ts = TYes ->
    forall sq : nat -> state, Init ts (sq 0) ->
      (exists B, forall k, (forall i, i < k -> Step ts (sq i) (sq (S i))) -> signals ts k sq <= B) /\
      ~ ((forall i, Step ts (sq i) (sq (S i))) /\ forall N, exists k, N <= k /\ holds (sq k) (tquery ts)).
Proof.
  intros e ts He W NC NQ E sq H0. unfold check_liveness in E. destruct (e (live_clauses ts)) as [inv| |] eqn:Ee; try discriminate.
  destruct (live_bound ts W NC NQ (proj1 (He _) inv Ee) sq H0) as [B HB]. split; [exists B; exact HB|].
  intros [HS Inf].
  assert (Mono : forall a d, signals ts a sq <= signals ts (d + a) sq) by (intros a; induction d as [|d IH]; cbn [Nat.add signals]; lia).
  assert (G : forall b, exists k, b <= signals ts k sq).
  { induction b as [|b [k Hk]]; [exists 0; lia|]. destruct (Inf k) as [k' [L H]]. exists (S k'). cbn [signals]. destruct (holds_dec (sq k') (tquery ts)) as [_|N]; [|contradiction].
    specialize (Mono k (k' - k)). replace (k' - k + k) with k' in Mono by lia. lia. }
  destruct (G (S B)) as [k Hk]. specialize (HB k (fun i _ => HS i)). lia.
Qed.
Print Assumptions C50_liveness_yes.

(** C49.  The lasso clauses derive [false] exactly if some reachable state reaches itself again. *)
Theorem C49_lasso : forall ts, ts_wf ts = true -> (cderivable (lasso_clauses ts) exit [] <-> has_lasso ts).
Proof.
  intros ts W. split; [|apply lasso_complete, W]. intros D. apply lasso_sound in D. destruct D as [_ D]. apply D. reflexivity.
Qed.
Print Assumptions C49_lasso.
Theorem C49_find_lasso :
  forall e ts, engine_ok e -> ts_wf ts = true ->
    (find_lasso e ts = LASSO -> has_lasso ts) /\ (find_lasso e ts = NO_LASSO -> ~ has_lasso ts).
Proof.
  intros e ts He W. unfold find_lasso. destruct (e (lasso_clauses ts)) as [inv|n|] eqn:Ee; split; intros E; try discriminate.
  - intros L. apply (proj1 (He _) inv Ee). apply C49_lasso; assumption.
  - apply (C49_lasso ts W), (proj2 (He _) n Ee).
Qed.
Print Assumptions C49_find_lasso.

(** A lasso is an infinite execution. *)
Theorem C49_lasso_forever : forall ts, ts_wf ts = true -> has_lasso ts -> exists s, Init ts s /\ forever ts s.
Proof.
  intros ts W [n [m [s0 [s [s' [H0 [Hn [Hm E]]]]]]]].
  assert (A : agree_on (svars ts) (norm s') (norm s)) by (apply args_norm; symmetry; exact E).
  apply Init_norm in H0. apply Steps_norm in Hn. apply Steps_norm in Hm.
  set (a0 := norm s0) in *. set (a := norm s) in *. set (a' := norm s') in *. clearbody a0 a a'. clear E s0 s s'.
  assert (F : forever ts a).
  { apply (recurrent_forever ts (fun x => exists k y, k <= m /\ agree_on (svars ts) x y /\ Steps ts (S k) y a')).
    - intros x [k [y [L [Ax Hy]]]]. inversion Hy as [|? ? z ? Hz Hr]; subst.
      assert (Sx : Step ts x z) by (apply (Step_agree ts y x z z); [intros v Hv; symmetry; apply Ax, Hv|intros v _; reflexivity|exact Hz]).
      exists z. split; [exact Sx|]. destruct k as [|k].
      + inversion Hr; subst. exists m, a. split; [lia|]. split; [exact A|exact Hm].
      + exists k, z. split; [lia|]. split; [intros v _; reflexivity|exact Hr].
    - exists m, a. split; [lia|]. split; [intros v _; reflexivity|exact Hm]. }
  exists a0. split; [exact H0|]. clear -Hn F. revert F. induction Hn as [|n x y z Hxy Hyz IH]; intros F; [exact F|]. econstructor; [exact Hxy|apply IH, F].
Qed.
Print Assumptions C49_lasso_forever.

(** C48.  YES: every execution from every initial state ends; NO: some initial state, if there is one, starts an
    infinite execution.  The flag [false] says that no solver answer UNKNOWN was taken for another answer. *)
Theorem C48_nonterm_yes :
  forall e check qe simp fuel ts,
    witness_ok e (svars ts) -> check_ok check -> qe_ok qe -> simp_ok simp -> ts_wf ts = true -> init_apart ts ->
    nonterm e check qe simp fuel ts = (TYes, false) -> forall s, Init ts s -> terminating ts s.
Proof.
  intros e check qe simp fuel ts He Hc Hq Hs W NI E. unfold nonterm in E. destruct (qe (ttrans ts) (svars ts)) as [p|] eqn:Eq; [|discriminate]. cbv zeta in E.
  destruct (term_eqb _ _); [discriminate|].
  eapply (nonterm_yes ts W NI e check Hc qe Hq simp Hs); [|exact E]. apply (ninv_start ts qe Hq simp Hs p Eq).
Qed.
Print Assumptions C48_nonterm_yes.
Theorem C48_nonterm_no :
  forall e check qe simp fuel ts,
    witness_ok e (svars ts) -> check_ok check -> qe_ok qe -> simp_ok simp -> ts_wf ts = true -> init_apart ts ->
    nonterm e check qe simp fuel ts = (TNo, false) -> (exists s, Init ts s) -> exists s, Init ts s /\ forever ts s.
Proof.
  intros e check qe simp fuel ts He Hc Hq Hs W NI E [s Hi]. unfold nonterm in E. destruct (qe (ttrans ts) (svars ts)) as [p|] eqn:Eq; [|discriminate]. cbv zeta in E.
  destruct (term_eqb_spec (simp (mkNot p)) tt_false) as [F|_].
  - exists s. split; [exact Hi|]. apply (recurrent_forever ts (fun _ => True)); [|exact Logic.I]. intros x _.
    assert (Hp : holds x p).
    { destruct (holds_dec x p) as [Y|N]; [exact Y|]. exfalso. apply (holds_false x). rewrite <- F. apply (proj1 (Hs (mkNot p))). apply holds_not, N. }
    apply (proj_sem _ _ _ (Hq _ _ _ Eq)) in Hp. destruct Hp as [r [A Ht]]. exists (fun v => r (shiftv 1 v)). split; [|exact Logic.I].
    exists r. split; [intros v Hv; symmetry; apply A, Hv|]. split; [reflexivity|exact Ht].
  - eapply (nonterm_no ts e He check Hc qe Hq simp Hs); [|exact E]. apply (ninv_start ts qe Hq simp Hs p Eq).
Qed.
Print Assumptions C48_nonterm_no.
Theorem C48_terminating_not_forever : forall ts s, terminating ts s -> ~ forever ts s.
Proof. exact terminating_not_forever. Qed.

(** ** Concrete systems *)
Definition atom_eqb (a b : atom) : bool := (asym a =? asym b) && terms_eqb (aargs a) (aargs b).
Fixpoint atoms_eqb (a b : list atom) : bool :=
  match a, b with [], [] => true | x :: a', y :: b' => atom_eqb x y && atoms_eqb a' b' | _, _ => false end.
Definition clause_eqb (a b : clause) : bool := atom_eqb (chead a) (chead b) && term_eqb (cfla a) (cfla b) && atoms_eqb (cbody a) (cbody b).
Fixpoint clauses_eqb (a b : list clause) : bool :=
  match a, b with [], [] => true | x :: a', y :: b' => clause_eqb x y && clauses_eqb a' b' | _, _ => false end.
Lemma atom_eqb_eq a b : atom_eqb a b = true -> a = b.
Proof. destruct a, b. unfold atom_eqb. cbn. intros H. apply andb_true_iff in H as [H1 H2]. apply Nat.eqb_eq in H1. apply terms_eqb_eq in H2. congruence. Qed.
Lemma atoms_eqb_eq a : forall b, atoms_eqb a b = true -> a = b.
Proof. induction a as [|x a IH]; intros [|y b] H; try discriminate; [reflexivity|]. cbn in H. apply andb_true_iff in H as [H1 H2]. apply atom_eqb_eq in H1. f_equal; auto. Qed.
Lemma clause_eqb_eq a b : clause_eqb a b = true -> a = b.
Proof.
  destruct a, b. unfold clause_eqb. cbn. intros H. apply andb_true_iff in H as [H H3]. apply andb_true_iff in H as [H1 H2].
  apply atom_eqb_eq in H1. apply term_eqb_iff in H2. apply atoms_eqb_eq in H3. congruence.
Qed.
Lemma clauses_eqb_eq a : forall b, clauses_eqb a b = true -> a = b.
Proof. induction a as [|x a IH]; intros [|y b] H; try discriminate; [reflexivity|]. cbn in H. apply andb_true_iff in H as [H1 H2]. apply clause_eqb_eq in H1. f_equal; auto. Qed.
Definition table_engine (tbl : list (list clause * engine_answer)) : engine :=
  fun q => match find (fun e => clauses_eqb (fst e) q) tbl with Some e => snd e | None => EUnknown end.
Lemma table_engine_in tbl q a : table_engine tbl q = a -> a <> EUnknown -> In (q, a) tbl.
Proof.
  unfold table_engine. intros H N. destruct (find _ tbl) as [[c x]|] eqn:F; [|congruence]. apply find_some in F as [F1 F2]. apply clauses_eqb_eq in F2. cbn in *. congruence.
Qed.
Lemma table_engine_ok tbl :
  (forall cs inv, In (cs, ESafe inv) tbl -> ~ cderivable cs exit []) -> (forall cs n, In (cs, EUnsafe n) tbl -> cderivable cs exit []) -> engine_ok (table_engine tbl).
Proof.
  intros H1 H2 cs. split; intros x E; apply table_engine_in in E; try discriminate; [apply (H1 _ _ E)|apply (H2 _ _ E)].
Qed.

(** A counting loop [while (x > 0) x := x - 1]. *)
Module ExLoop.
Definition x : var := mkVar "x" (TTime 0) SInt.
Definition x' : var := mkVar "x" (TTime 1) SInt.
Definition ts : tsys := mkTS [x] [] tt_true (mkAnd [mkLt (mkInt 0) (Var x); mkEq (Var x') (mkMinus (Var x) (mkInt 1))]) (mkLt (mkInt 0) (Var x)).
Definition M (p : sym) (vs : list value) : Prop :=
  match vs with [VInt x; VInt c] => (0 < c /\ x < c)%Z | _ => False end.
Ltac iv r v := let z := fresh "z" in let E := fresh "E" in destruct (coerce_SInt (r v)) as [z E]; rewrite ?E in *; clear E.
Ltac ivs := repeat match goal with |- context [coerce SInt (?r ?v)] => iv r v end.
Lemma safe : ~ cderivable (term_clauses ts 1) exit [].
Proof.
  apply csat_iff. exists M. split; [|intros []]. intros c r Hc. unfold term_clauses, ts_clauses in Hc. destruct Hc as [<-|[<-|[<-|[]]]]; cbn [chead cbody cfla asym]; intros Hb Hf; try change (map (shiftv 1) (svars ts ++ [counter0])) with [x'; counter1] in *.
  - clear Hb. revert Hf. unfold holds, holdsb. cbn -[Z.mul Z.add Z.leb]. ivs. cbn -[Z.mul Z.add Z.leb]. rewrite andb_true_r. intros H.
    repeat match type of H with context [Z.leb ?a ?b] => destruct (Z.leb_spec a b); cbn -[Z.mul Z.add Z.leb] in H end; try discriminate; lia.
  - specialize (Hb _ (or_introl eq_refl)). revert Hb Hf. unfold holds, holdsb. cbn -[Z.mul Z.add Z.leb]. ivs. cbn -[Z.mul Z.add Z.leb]. intros Hb H.
    repeat match type of H with context [Z.leb ?a ?b] => destruct (Z.leb_spec a b); cbn -[Z.mul Z.add Z.leb] in H end; try discriminate.
    repeat match type of H with context [value_eqb ?a ?b] => destruct (value_eqb_spec a b) as [Q|Q]; [injection Q as Q|]; cbn -[Z.mul Z.add Z.leb] in H end; try discriminate. lia.
  - specialize (Hb _ (or_introl eq_refl)). revert Hb Hf. unfold holds, holdsb. cbn -[Z.mul Z.add Z.leb]. ivs. cbn -[Z.mul Z.add Z.leb]. intros Hb H.
    repeat match type of H with context [Z.leb ?a ?b] => destruct (Z.leb_spec a b); cbn -[Z.mul Z.add Z.leb] in H end; try discriminate; lia.
Qed.
Definition M2 (p : sym) (vs : list value) : Prop :=
  match vs with [VInt x; VInt c] => (0 < c /\ x < c)%Z | _ => False end.
Lemma live_safe : ~ cderivable (live_clauses ts) exit [].
Proof.
  apply csat_iff. exists M2. split; [|intros []]. intros c r Hc. unfold live_clauses in Hc. cbv zeta in Hc. destruct Hc as [<-|[<-|[<-|[<-|[]]]]]; cbn [chead cbody cfla asym]; intros Hb Hf; try change (map (shiftv 1) (svars ts ++ [counter0])) with [x'; counter1] in *.
  1: clear Hb. 2-4: specialize (Hb _ (or_introl eq_refl)); revert Hb. all: revert Hf; unfold holds, holdsb; cbn -[Z.mul Z.add Z.leb]; ivs; cbn -[Z.mul Z.add Z.leb]; intros H; try intros Hb.
  all: repeat match type of H with context [Z.leb ?a ?b] => destruct (Z.leb_spec a b); cbn -[Z.mul Z.add Z.leb] in H end; try discriminate.
  all: repeat match type of H with context [value_eqb ?a ?b] => destruct (value_eqb_spec a b) as [Q|Q]; [injection Q as Q|]; cbn -[Z.mul Z.add Z.leb] in H end; try discriminate; try lia.
Qed.
Definition e : engine := table_engine [(term_clauses ts 1, ESafe tt_true); (live_clauses ts, ESafe tt_true)].
Lemma no_ctr : no_counter ts.
Proof. split; intros H; cbn in H; [destruct H as [H|[]]; discriminate|exact H]. Qed.
Example C47_nonvacuous : engine_ok e /\ ts_wf ts = true /\ no_counter ts /\ termination e ts = TYes /\ exists s, Init ts s /\ exists t, Steps ts 1 s t.
Proof.
  split; [apply table_engine_ok; intros cs y [H|[H|[]]]; inversion H; subst; [exact safe|exact live_safe]|].
  split; [reflexivity|]. split; [exact no_ctr|]. split; [vm_compute; reflexivity|].
  set (r := (fun v => if var_eqb v x then VInt 1 else VInt 0) : valuation).
  exists r. split; [exists r; split; [intros v _; reflexivity|reflexivity]|]. exists (fun v => r (shiftv 1 v)).
  apply Steps_1. exists r. split; [intros v _; reflexivity|]. split; [reflexivity|]. vm_compute. reflexivity.
Qed.
Example C50_nonvacuous : engine_ok e /\ ts_wf ts = true /\ no_counter ts /\ state_formula ts (tquery ts) /\ check_liveness e ts = TYes.
Proof.
  split; [apply C47_nonvacuous|]. split; [reflexivity|]. split; [exact no_ctr|]. split; [|vm_compute; reflexivity].
  intros v Hv. cbn in Hv. destruct Hv as [<-|[]]. left. reflexivity.
Qed.
End ExLoop.

(** A Boolean that alternates: lasso, no termination. *)
Module ExFlip.
Definition b : var := mkVar "b" (TTime 0) SBool.
Definition b' : var := mkVar "b" (TTime 1) SBool.
Definition ts : tsys := mkTS [b] [] (Var b) (mkEq (Var b') (mkNot (Var b))) tt_false.
Definition s (x : bool) : state := fun _ => VBool x.
Lemma step x : Step ts (s x) (s (negb x)).
Proof.
  exists (fun v => match vtag v with TTime 1 => VBool (negb x) | _ => VBool x end). split; [intros v [<-|[]]; reflexivity|]. split; [intros v [<-|[]]; reflexivity|].
  destruct x; vm_compute; reflexivity.
Qed.
Lemma lasso : has_lasso ts.
Proof.
  exists 0, 1, (s true), (s true), (s true). split; [exists (s true); split; [intros v _; reflexivity|reflexivity]|]. split; [constructor|]. split; [|reflexivity].
  econstructor; [apply (step true)|]. apply Steps_1, (step false).
Qed.
Definition init0 := tinit ts.
Definition e : engine := table_engine [(lasso_clauses ts, EUnsafe 5)].
Example C49_nonvacuous : engine_ok e /\ ts_wf ts = true /\ find_lasso e ts = LASSO.
Proof.
  split; [|split; [reflexivity|vm_compute; reflexivity]]. apply table_engine_ok; intros cs y [H|[]]; [discriminate|]. injection H as <- _. apply C49_lasso; [reflexivity|apply lasso].
Qed.
End ExFlip.

Fixpoint vars_eqb (a b : list var) : bool :=
  match a, b with [], [] => true | x :: a', y :: b' => var_eqb x y && vars_eqb a' b' | _, _ => false end.
Lemma vars_eqb_eq a : forall b, vars_eqb a b = true -> a = b.
Proof.
  induction a as [|x a IH]; intros [|y b] H; try discriminate; [reflexivity|]. cbn in H. apply andb_true_iff in H as [H1 H2].
  destruct (var_eqb_spec x y) as [->|]; [f_equal; auto|discriminate].
Qed.
Definition table_qe (tbl : list (term * list var * term)) : qe_fn :=
  fun f keep => match find (fun e => term_eqb (fst (fst e)) f && vars_eqb (snd (fst e)) keep) tbl with Some e => Some (snd e) | None => None end.
Lemma table_qe_ok tbl : Forall (fun e => is_projection (fst (fst e)) (snd (fst e)) (snd e)) tbl -> qe_ok (table_qe tbl).
Proof.
  intros H f keep g. unfold table_qe. destruct (find _ tbl) as [[[f' k'] g']|] eqn:F; [|discriminate]. intros E. injection E as <-.
  apply find_some in F as [F1 F2]. cbn [fst snd] in F2. apply andb_true_iff in F2 as [F2 F3]. apply term_eqb_iff in F2. apply vars_eqb_eq in F3. subst.
  rewrite Forall_forall in H. exact (H _ F1).
Qed.
Lemma simp_id : simp_ok (fun t => t).
Proof. intros t. split; [tauto|auto]. Qed.
Lemma table_witness_ok tbl vs :
  (forall init trans query inv, In (ts_clauses vs init trans query, ESafe inv) tbl ->
     (forall v, In v (vars inv) -> In v vs) /\
     exists M, cmodel (ts_clauses vs init trans query) M /\ ~ M exit [] /\ forall r, M pred (args r vs) <-> holds r inv) ->
  witness_ok (table_engine tbl) vs.
Proof. intros H init trans query inv E. apply H. apply table_engine_in in E; [exact E|discriminate]. Qed.
(** The interpretation of the predicate by a formula over Boolean [b]. *)
Definition Mb (P : bool -> bool) (p : sym) (vs : list value) : Prop := match vs with [VBool x] => P x = true | _ => False end.

(** NO on the alternating Boolean. *)
Module ExNo.
Import ExFlip.
Definition qe := table_qe [(ttrans ts, [b], tt_true)].
Definition sink := mkNot tt_true.
Definition e := table_engine [(ts_clauses [b] (tinit ts) (ttrans ts) sink, ESafe tt_true)].
Definition check := table_check [([mkAnd [tinit ts; ttrans ts]], SAT (fun v => match vtag v with TTime 0 => VBool true | _ => VBool false end)); ([mkAnd [tt_true; sink]], UNSAT)].
Example C48_no_nonvacuous :
  witness_ok e (svars ts) /\ check_ok check /\ qe_ok qe /\ ts_wf ts = true /\ state_formula ts (tinit ts) /\
  nonterm e check qe (fun t => t) 3 ts = (TNo, false) /\ exists s, Init ts s.
Proof.
  split; [|split; [prove_table|split; [|split; [reflexivity|split; [|split; [vm_compute; reflexivity|]]]]]].
  - apply table_witness_ok. intros init trans query inv [H|[]]. injection H as <- <- <- <-. split; [intros v []|].
    exists (Mb (fun _ => true)). split; [|split; [intros []|]].
    + intros c r [<-|[<-|[<-|[]]]]; cbn; intros _ Hf; try (destruct (coerce_SBool (r b)) as [x ->]; reflexivity).
      * match goal with |- context [coerce SBool ?y] => destruct (coerce_SBool y) as [x ->] end. reflexivity.
      * discriminate Hf.
    + intros r. cbn. destruct (coerce_SBool (r b)) as [x ->]. split; intros _; reflexivity.
  - apply table_qe_ok. constructor; [|constructor]. split; [intros v []|]. intros r. split; [|intros _; reflexivity]. intros _.
    destruct (coerce_SBool (r b)) as [x Ex].
    exists (fun v => match vtag v with TTime 1 => VBool (negb x) | _ => r v end). split; [intros v [<-|[]]; reflexivity|].
    unfold holds, holdsb. cbn. rewrite Ex. destruct x; reflexivity.
  - intros v Hv. exact Hv.
  - exists (s true). exists (s true). split; [intros v _; reflexivity|reflexivity].
Qed.
End ExNo.

(** A system whose only initial state has no successor: YES, but NO if an UNKNOWN answer is ignored. *)
Module ExDead.
Definition b : var := ExFlip.b.
Definition b' : var := ExFlip.b'.
Definition ts : tsys := mkTS [b] [] (mkNot (Var b)) (mkAnd [Var b; Var b']) tt_false.
Definition sink := mkNot (Var b).
Definition init2 := mkAnd [tinit ts; mkNot sink].
Definition qe := table_qe [(ttrans ts, [b], Var b)].
Definition e := table_engine [(ts_clauses [b] (tinit ts) (ttrans ts) sink, EUnsafe 3); (ts_clauses [b] init2 (ttrans ts) sink, ESafe tt_false)].
Definition all_false : valuation := fun _ => VBool false.
Definition check := table_check [([trace_formula (tinit ts) (ttrans ts) sink 0], SAT all_false); ([mkAnd [init2; ttrans ts]], UNSAT)].
Definition check_u := table_check [([trace_formula (tinit ts) (ttrans ts) sink 0], SAT all_false); ([mkAnd [tt_false; sink]], UNSAT)].
Lemma we : witness_ok e (svars ts).
Proof.
  apply table_witness_ok. intros init trans query inv [H|[H|[]]]; [discriminate|]. injection H as <- <- <- <-. split; [intros v []|].
  exists (Mb (fun _ => false)). split; [|split; [intros []|]].
  - intros c r [<-|[<-|[<-|[]]]]; cbn; intros Hb Hf.
    + exfalso. unfold holds, holdsb in Hf. cbn in Hf. destruct (coerce_SBool (r b)) as [x Ex]. rewrite Ex in Hf. destruct x; discriminate.
    + specialize (Hb _ (or_introl eq_refl)). cbn in Hb. destruct (coerce_SBool (r b)) as [x Ex]. rewrite Ex in Hb. discriminate.
    + specialize (Hb _ (or_introl eq_refl)). cbn in Hb. destruct (coerce_SBool (r b)) as [x Ex]. rewrite Ex in Hb. discriminate.
  - intros r. cbn. destruct (coerce_SBool (r b)) as [x ->]. split; intros H; discriminate.
Qed.
Lemma qk : qe_ok qe.
Proof.
  apply table_qe_ok. constructor; [|constructor]. split; [intros v Hv; exact Hv|]. intros r. cbn [fst snd]. split.
  - intros H. exists (fun v => match vtag v with TTime 1 => VBool true | _ => r v end). split; [intros v [<-|[]]; reflexivity|].
    revert H. unfold holds, holdsb. cbn. destruct (coerce_SBool (r b)) as [x ->]. destruct x; auto.
  - intros [r' [A H]]. revert H. unfold holds, holdsb. cbn. rewrite (A b (or_introl eq_refl)). destruct (coerce_SBool (r' b)) as [x ->]. destruct x; auto; discriminate.
Qed.
Lemma init_vars : state_formula ts (tinit ts).
Proof. intros v Hv. exact Hv. Qed.
Lemma dead s : Init ts s -> terminating ts s.
Proof.
  intros [r [A H]]. constructor. intros y [r2 [A2 [_ H2]]]. exfalso. revert H H2. unfold holds, holdsb. cbn.
  rewrite (A b (or_introl eq_refl)), (A2 b (or_introl eq_refl)). destruct (coerce_SBool (s b)) as [x ->]. destruct x; discriminate.
Qed.
Example C48_yes_nonvacuous :
  witness_ok e (svars ts) /\ check_ok check /\ qe_ok qe /\ ts_wf ts = true /\ state_formula ts (tinit ts) /\
  nonterm e check qe (fun t => t) 3 ts = (TYes, false) /\ exists s, Init ts s.
Proof.
  split; [exact we|]. split; [prove_table|]. split; [exact qk|]. split; [reflexivity|]. split; [exact init_vars|]. split; [vm_compute; reflexivity|].
  exists all_false, all_false. split; [intros v _; reflexivity|reflexivity].
Qed.
End ExDead.

(** The answer NO is wrong for a terminating system if the query "initial state with a successor" is answered UNKNOWN. *)
Theorem C48_unknown_no_refuted :
  exists e check qe simp fuel ts u,
    witness_ok e (svars ts) /\ check_ok check /\ qe_ok qe /\ simp_ok simp /\ ts_wf ts = true /\ state_formula ts (tinit ts) /\
    nonterm e check qe simp fuel ts = (TNo, u) /\ (exists s, Init ts s) /\ forall s, Init ts s -> terminating ts s.
Proof.
  exists ExDead.e, ExDead.check_u, ExDead.qe, (fun t => t), 3, ExDead.ts, true.
  split; [exact ExDead.we|]. split; [unfold ExDead.check_u; prove_table|]. split; [exact ExDead.qk|]. split; [exact simp_id|]. split; [reflexivity|]. split; [exact ExDead.init_vars|]. split; [vm_compute; reflexivity|].
  split; [|exact ExDead.dead]. exists ExDead.all_false, ExDead.all_false. split; [intros v _; reflexivity|reflexivity].
Qed.
Print Assumptions C48_unknown_no_refuted.

(** A state that may stay or leave for a dead end: YES is wrong if the determinism query is answered UNKNOWN. *)
Module ExMay.
Definition b : var := ExFlip.b.
Definition b' : var := ExFlip.b'.
Definition ts : tsys := mkTS [b] [] (mkNot (Var b)) (mkNot (Var b)) tt_false.
Definition base := mkNot (Var b).
Definition sink := mkNot base.
Definition path := trace_formula (tinit ts) (ttrans ts) sink 1.
Definition init2 := mkAnd [tinit ts; mkNot base].
Definition qe := table_qe [(ttrans ts, [b], base); (path, [b], base)].
Definition e := table_engine [(ts_clauses [b] (tinit ts) (ttrans ts) sink, EUnsafe 4); (ts_clauses [b] init2 (ttrans ts) sink, ESafe tt_false)].
Definition check := table_check [([path], SAT (fun v => match vtag v with TTime 1 => VBool true | _ => VBool false end)); ([mkAnd [init2; ttrans ts]], UNSAT)].
Lemma we : witness_ok e (svars ts).
Proof.
  apply table_witness_ok. intros init trans query inv [H|[H|[]]]; [discriminate|]. injection H as <- <- <- <-. split; [intros v []|].
  exists (Mb (fun _ => false)). split; [|split; [intros []|]].
  - intros c r [<-|[<-|[<-|[]]]]; cbn; intros Hb Hf.
    + exfalso. unfold holds, holdsb in Hf. cbn in Hf. destruct (coerce_SBool (r b)) as [x Ex]. rewrite Ex in Hf. destruct x; discriminate.
    + specialize (Hb _ (or_introl eq_refl)). cbn in Hb. destruct (coerce_SBool (r b)) as [x Ex]. rewrite Ex in Hb. discriminate.
    + specialize (Hb _ (or_introl eq_refl)). cbn in Hb. destruct (coerce_SBool (r b)) as [x Ex]. rewrite Ex in Hb. discriminate.
  - intros r. cbn. destruct (coerce_SBool (r b)) as [x ->]. split; intros H; discriminate.
Qed.
Lemma qk : qe_ok qe.
Proof.
  apply table_qe_ok. constructor; [|constructor; [|constructor]]; (split; [intros v Hv; exact Hv|]; intros r; cbn [fst snd]; split).
  - intros H. exists r. split; [intros v _; reflexivity|exact H].
  - intros [r' [A H]]. revert H. unfold holds, holdsb. cbn. rewrite (A b (or_introl eq_refl)). auto.
  - intros H. exists (fun v => match vtag v with TTime 1 => VBool true | _ => r v end). split; [intros v [<-|[]]; reflexivity|].
    revert H. unfold holds, holdsb. cbn. destruct (coerce_SBool (r b)) as [x ->]. destruct x; auto.
  - intros [r' [A H]]. revert H. unfold holds, holdsb. cbn. rewrite (A b (or_introl eq_refl)). destruct (coerce_SBool (r' b)) as [x ->]. destruct x; auto.
Qed.
End ExMay.
Theorem C48_unknown_yes_refuted :
  exists e check qe simp fuel ts u,
    witness_ok e (svars ts) /\ check_ok check /\ qe_ok qe /\ simp_ok simp /\ ts_wf ts = true /\ state_formula ts (tinit ts) /\
    nonterm e check qe simp fuel ts = (TYes, u) /\ exists s, Init ts s /\ forever ts s.
Proof.
  exists ExMay.e, ExMay.check, ExMay.qe, (fun t => t), 3, ExMay.ts, true.
  split; [exact ExMay.we|]. split; [unfold ExMay.check; prove_table|]. split; [exact ExMay.qk|]. split; [exact simp_id|]. split; [reflexivity|]. split; [intros v Hv; exact Hv|].
  split; [vm_compute; reflexivity|]. exists ExDead.all_false. split; [exists ExDead.all_false; split; [intros v _; reflexivity|reflexivity]|].
  apply (recurrent_forever ExMay.ts (fun s => s = ExDead.all_false)); [|reflexivity]. intros s ->. exists ExDead.all_false. split; [|reflexivity].
  exists ExDead.all_false. split; [intros v _; reflexivity|]. split; [reflexivity|reflexivity].
Qed.
Print Assumptions C48_unknown_yes_refuted.

(** NO although there is no initial state at all (no UNKNOWN involved): the test for an empty sink set comes first. *)
Theorem C48_empty_init_refuted :
  exists e check qe simp fuel ts,
    witness_ok e (svars ts) /\ check_ok check /\ qe_ok qe /\ simp_ok simp /\ ts_wf ts = true /\ state_formula ts (tinit ts) /\
    nonterm e check qe simp fuel ts = (TNo, false) /\ forall s, ~ Init ts s.
Proof.
  set (simp := fun t => if term_eqb t (mkNot tt_true) then tt_false else t).
  set (ts := mkTS [ExFlip.b] [] tt_false tt_true tt_false).
  exists (fun _ => EUnknown), (fun _ => UNKNOWN), (table_qe [(tt_true, [ExFlip.b], tt_true)]), simp, 0, ts.
  split; [intros i t q inv H; discriminate|]. split; [split; intros; discriminate|].
  split; [apply table_qe_ok; constructor; [|constructor]; split; [intros v []|]; intros r; split; [intros _; exists r; split; [intros v _; reflexivity|reflexivity]|intros _; reflexivity]|].
  split; [intros t; unfold simp; destruct (term_eqb_spec t (mkNot tt_true)) as [->|]; [split; [intros r; split; intros H; discriminate|intros v []]|split; [tauto|auto]]|].
  split; [reflexivity|]. split; [intros v []|]. split; [vm_compute; reflexivity|]. intros s [r [_ H]]. discriminate.
Qed.
Print Assumptions C48_empty_init_refuted.

(** YES is wrong as well if the two formulas share an auxiliary variable: it then has one value in the query "initial state with a
    successor" although it may take two. *)
Module ExShared.
Definition b : var := ExFlip.b.
Definition b' : var := ExFlip.b'.
Definition a : var := mkVar "a" (TTime 0) SBool.
Definition ts : tsys := mkTS [b] [a] (mkAnd [Var a; mkNot (Var b)]) (mkAnd [mkNot (Var a); mkNot (Var b); mkNot (Var b')]) tt_false.
Definition sink := mkNot (mkNot (Var b)).
Definition qe := table_qe [(ttrans ts, [b], mkNot (Var b))].
Definition e := table_engine [(ts_clauses [b] (tinit ts) (ttrans ts) sink, ESafe (mkNot (Var b)))].
Definition check := table_check [([mkAnd [tinit ts; ttrans ts]], UNSAT)].
Lemma we : witness_ok e (svars ts).
Proof.
  apply table_witness_ok. intros init trans query inv [H|[]]. injection H as <- <- <- <-. split; [intros v Hv; exact Hv|].
  exists (Mb negb). split; [|split; [intros []|]].
  - intros c r [<-|[<-|[<-|[]]]]; cbn; intros Hb Hf; unfold holds, holdsb in Hf; cbn in Hf.
    + destruct (coerce_SBool (r a)) as [y Ey]. rewrite Ey in Hf. destruct (coerce_SBool (r b)) as [x Ex]. rewrite Ex in *. destruct x, y; try discriminate; reflexivity.
    + match goal with |- context [coerce SBool (r ?y)] => change y with b' end. destruct (coerce_SBool (r a)) as [y Ey], (coerce_SBool (r b)) as [x Ex], (coerce_SBool (r b')) as [z Ez]. rewrite Ex, Ey, Ez in Hf. rewrite Ez. destruct x, y, z; try discriminate; reflexivity.
    + specialize (Hb _ (or_introl eq_refl)). cbn in Hb. destruct (coerce_SBool (r b)) as [x Ex]. rewrite Ex in *. destruct x; discriminate.
  - intros r. unfold holds, holdsb. cbn. destruct (coerce_SBool (r b)) as [x ->]. destruct x; split; intros H; try discriminate; reflexivity.
Qed.
Lemma qk : qe_ok qe.
Proof.
  apply table_qe_ok. constructor; [|constructor]. split; [intros v Hv; exact Hv|]. intros r. cbn [fst snd]. split.
  - intros H. exists (fun v => if var_eqb v b then r v else VBool false). split; [intros v [<-|[]]; reflexivity|].
    revert H. unfold holds, holdsb. cbn. destruct (coerce_SBool (r b)) as [x ->]. destruct x; auto.
  - intros [r' [A H]]. revert H. unfold holds, holdsb. cbn. rewrite (A b (or_introl eq_refl)). destruct (coerce_SBool (r' b)) as [x ->], (coerce_SBool (r' a)) as [y ->]. destruct x, y; auto; discriminate.
Qed.
Definition with_a (x : bool) : valuation := fun v => if var_eqb v a then VBool x else VBool false.
End ExShared.
Theorem C48_shared_aux_refuted :
  exists e check qe simp fuel ts,
    witness_ok e (svars ts) /\ check_ok check /\ qe_ok qe /\ simp_ok simp /\ ts_wf ts = true /\
    nonterm e check qe simp fuel ts = (TYes, false) /\ exists s, Init ts s /\ forever ts s.
Proof.
  exists ExShared.e, ExShared.check, ExShared.qe, (fun t => t), 3, ExShared.ts.
  split; [exact ExShared.we|]. split; [unfold ExShared.check; prove_table|]. split; [exact ExShared.qk|]. split; [exact simp_id|]. split; [reflexivity|].
  split; [vm_compute; reflexivity|]. exists (ExShared.with_a true). split; [exists (ExShared.with_a true); split; [intros v _; reflexivity|reflexivity]|].
  apply (recurrent_forever ExShared.ts (fun s => forall v, In v (svars ExShared.ts) -> s v = VBool false)); [|intros v [<-|[]]; reflexivity].
  intros s Hs. exists (ExShared.with_a false). split; [|intros v [<-|[]]; reflexivity].
  exists (ExShared.with_a false). split; [intros v [<-|[]]; rewrite (Hs _ (or_introl eq_refl)); reflexivity|]. split; [intros v [<-|[]]; reflexivity|reflexivity].
Qed.
Print Assumptions C48_shared_aux_refuted.
