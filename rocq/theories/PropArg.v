(** * Property C16: predicate abstraction.

    Specification: Graph.v ([solution], [refutation], [chc_sat]). *)
From Verif Require Import Syntax Solver TransSys TSLemmas ExTac Graph GraphOps GraphOpsProofs GraphSem GraphEx SimpleTransModel PropGraph PropChain PropTpa PdkModel PropPdk EntailModel SpacerModel ArgModel ArgClean ArgTree ArgInv ArgRefine ArgRun.
Open Scope list_scope.
Open Scope nat_scope.

(** Whatever the solver, the tree interpolation, the order in which sets and hash maps are traversed: UNSAFE is right, and its
    witness is a derivation of false; SAFE is right and its witness is a solution, if no entailment check of the run was answered
    UNKNOWN; an exception needs a solver or an interpolation that gave up. *)
Theorem C16_predicate_abstraction :
  forall c check titp ord cord elim cw fuel g,
    ctors_ok c -> check_ok check -> titp_ok titp -> (forall l t, In t (ord l) <-> In t l) -> (forall l x, In x (cord l) <-> In x l) -> elim_ok elim ->
    wf_graph g -> entry_alone g -> paux_free g ->
    match arg_engine c check titp ord cord elim cw fuel g with
    | ASafe unk w => (unk = false -> chc_sat g /\ forall d, w = Some d -> solution g d) /\ (w = None <-> cw = false)
    | AUnsafe w => ~ chc_sat g /\ match w with Some d => refutation g d | None => cw = false end
    | AThrow => (exists q, check q = UNKNOWN) \/ exists T, titp T = None
    | AFuel => True
    end.
Proof.
  intros c check titp ord cord elim cw fuel g Hct Hc Ht Ho Hco He Wg Al Pf. pose proof (clean_wf elim g Wg Al Pf) as W.
  pose proof (arg_run_ok c Hct check Hc titp Ht ord Ho cord Hco cw (clean elim g) W fuel) as X. unfold arg_engine.
  destruct (arg_run c check titp ord cord cw (clean elim g) fuel) as [unk w|w| |]; auto.
  - destruct X as [X Y]. split; [|exact Y]. intros U. destruct (X U) as [d [S E]]. apply (clean_solution elim He g) in S. split.
    + apply chc_sat_iff. apply (solution_safe g d (rep_exit _ (wf_rep g Wg)) S).
    + intros d' E'. destruct cw; congruence.
  - destruct X as [d [R E]]. apply (clean_refutation elim He g) in R. split.
    + rewrite chc_sat_iff. intros N. apply N, (refutation_derivable g d R).
    + destruct cw; subst w; auto.
Qed.
Print Assumptions C16_predicate_abstraction.

(** ** Tables of tree interpolants *)
Fixpoint subb (k : nat) (T : list (option nat * term)) (n m : nat) : bool :=
  Nat.eqb n m || match k with O => false | Datatypes.S k' => match nth_error T m with Some (Some p, _) => subb k' T n p | _ => false end end.
Definition parents_lt (T : list (option nat * term)) : bool :=
  forallb (fun x => match fst (snd x) with Some p => Nat.ltb p (fst x) | None => true end) (combine (seq 0 (length T)) T).
Lemma parents_lt_ok T m p l : parents_lt T = true -> nth_error T m = Some (Some p, l) -> p < m.
Proof.
  intros H Hm. unfold parents_lt in H. rewrite forallb_forall in H. specialize (H (m, (Some p, l)) (nth_error_In _ m (nth_combine_seq0 T m _ Hm))). cbn in H. apply Nat.ltb_lt, H.
Qed.
Lemma subb_sound k : forall T n m, subb k T n m = true -> in_sub T n m.
Proof.
  induction k as [|k IH]; intros T n m H; cbn [subb] in H; apply orb_true_iff in H as [H|H]; try (apply Nat.eqb_eq in H; subst; constructor); [discriminate|].
  destruct (nth_error T m) as [[[p|] l]|] eqn:E; try discriminate. apply (sub_up T n m p l E). apply IH, H.
Qed.
Lemma subb_complete T n m : parents_lt T = true -> in_sub T n m -> forall k, m <= k -> subb k T n m = true.
Proof.
  intros P H. induction H as [|m p l Hm H IH]; intros k L; destruct k as [|k]; cbn [subb]; try (rewrite Nat.eqb_refl; reflexivity).
  - pose proof (parents_lt_ok T m p l P Hm). lia.
  - rewrite Hm. pose proof (parents_lt_ok T m p l P Hm). rewrite IH by lia. apply orb_true_r.
Qed.
Definition var_shared (T : list (option nat * term)) (n : nat) (v : var) : bool :=
  existsb (fun x => subb (length T) T n (fst x) && inb v (vars (snd (snd x)))) (combine (seq 0 (length T)) T) &&
  existsb (fun x => negb (subb (length T) T n (fst x)) && inb v (vars (snd (snd x)))) (combine (seq 0 (length T)) T).
Definition kid_itps (T : list (option nat * term)) (Is : list term) (n : nat) : list term :=
  flat_map (fun x => match fst (snd x) with Some p => if Nat.eqb p n then match nth_error Is (fst x) with Some J => [J] | None => [] end else [] | None => [] end) (combine (seq 0 (length T)) T).
Definition titp_entry (T : list (option nat * term)) (Is : list term) : Prop :=
  length Is = length T /\ parents_lt T = true /\ unsat (firstn 1 Is) /\
  forallb (fun x => forallb (var_shared T (fst x)) (vars (snd x))) (combine (seq 0 (length Is)) Is) = true /\
  Forall (fun n => match nth_error T n, nth_error Is n with Some (_, l), Some J => unsat (l :: kid_itps T Is n ++ [mkNot J]) | _, _ => True end) (seq 0 (length T)).
Definition node_eqb (a b : option nat * term) : bool :=
  match fst a, fst b with Some p, Some q => Nat.eqb p q | None, None => true | _, _ => false end && term_eqb (snd a) (snd b).
Fixpoint nodes_eqb (a b : list (option nat * term)) : bool := match a, b with [], [] => true | x :: a', y :: b' => node_eqb x y && nodes_eqb a' b' | _, _ => false end.
Lemma nodes_eqb_eq a : forall b, nodes_eqb a b = true -> a = b.
Proof.
  induction a as [|[p l] a IH]; intros [|[p' l'] b] H; try discriminate; [reflexivity|]. cbn [nodes_eqb] in H. apply andb_true_iff in H as [H1 H2]. rewrite (IH b H2). f_equal.
  unfold node_eqb in H1. cbn [fst snd] in H1. apply andb_true_iff in H1 as [H1 H3]. destruct (term_eqb_spec l l'); [subst|discriminate]. destruct p, p'; try discriminate; [apply Nat.eqb_eq in H1; congruence|reflexivity].
Qed.
Definition table_titp (tbl : list (list (option nat * term) * list term)) : titp_fn := fun T =>
  match find (fun x => nodes_eqb T (fst x)) tbl with Some (_, Is) => Some Is | None => None end.
Lemma table_titp_ok tbl : Forall (fun x => titp_entry (fst x) (snd x)) tbl -> titp_ok (table_titp tbl).
Proof.
  intros HF T Is E. unfold table_titp in E. destruct (find _ tbl) as [[T' Is']|] eqn:F; [|discriminate]. injection E as <-. apply find_some in F as [F1 F2]. cbn in F2. apply nodes_eqb_eq in F2. subst T'.
  rewrite Forall_forall in HF. destruct (HF _ F1) as [L [P [U [Vs S]]]]. cbn [fst snd] in *. split; [exact L|]. split.
  - intros I0 r H0 H. apply (U r). destruct Is' as [|J Is']; [discriminate|]. cbn in H0. injection H0 as ->. cbn. constructor; [exact H|constructor].
  - intros n p l J HT HJ. assert (Ln : n < length T) by (apply nth_error_Some; congruence). split.
    + intros r Hl Hk. rewrite Forall_forall in S. specialize (S n). rewrite HT, HJ in S. specialize (S (proj2 (in_seq _ _ _) (conj (Nat.le_0_l n) Ln)) r).
      destruct (holdsb r J) eqn:Hb; [exact Hb|]. exfalso. apply S. constructor; [exact Hl|]. apply Forall_app. split; [|constructor; [apply holds_not; intros X; change (holds r J) in X; change (holdsb r J = true) in X; congruence|constructor]].
      apply Forall_forall. intros Jk Hin. unfold kid_itps in Hin. apply in_flat_map in Hin as [[k [q lk]] [Hin E]]. cbn [fst snd] in E. destruct q as [q|]; [|destruct E]. destruct (Nat.eqb_spec q n) as [->|]; [|destruct E].
      destruct (nth_error Is' k) as [J'|] eqn:Ek; [|destruct E]. destruct E as [->|[]]. apply (Hk k lk Jk); [|exact Ek].
      apply combine_in_nth in Hin as [i [Hi1 Hi2]]. assert (Li : i < length T) by (apply nth_error_Some; congruence). rewrite (nth_error_nth' _ 0) in Hi1 by (rewrite seq_length; exact Li). rewrite seq_nth in Hi1 by exact Li. cbn in Hi1. injection Hi1 as <-. exact Hi2.
    + intros v Hv. rewrite forallb_forall in Vs. specialize (Vs (n, J) (nth_error_In _ n (nth_combine_seq0 Is' n J HJ))). cbn [fst snd] in Vs. rewrite forallb_forall in Vs. specialize (Vs v Hv).
      unfold var_shared in Vs. apply andb_true_iff in Vs as [V1 V2]. apply existsb_exists in V1 as [[m [q lm]] [H1 H2]]. apply existsb_exists in V2 as [[m' [q' lm']] [H3 H4]]. cbn [fst snd] in *.
      assert (Q : forall i x, In (i, x) (combine (seq 0 (length T)) T) -> nth_error T i = Some x).
      { intros i x Hin. apply combine_in_nth in Hin as [j [Hi1 Hi2]]. assert (Li : j < length T) by (apply nth_error_Some; congruence). rewrite (nth_error_nth' _ 0) in Hi1 by (rewrite seq_length; exact Li). rewrite seq_nth in Hi1 by exact Li. cbn in Hi1. injection Hi1 as <-. exact Hi2. }
      apply Q in H1. apply Q in H3. apply andb_true_iff in H2 as [H2 H2']. apply andb_true_iff in H4 as [H4 H4']. split.
      * exists m, q, lm. split; [apply (subb_sound _ _ _ _ H2)|]. split; [exact H1|apply inb_true, H2'].
      * exists m', q', lm'. split; [|split; [exact H3|apply inb_true, H4']]. intros X. apply negb_true_iff in H4. rewrite (subb_complete T n m' P X) in H4; [discriminate|]. apply Nat.lt_le_incl. apply nth_error_Some. congruence.
Qed.

Local Arguments Z.mul : simpl never.
Local Arguments Z.add : simpl never.
Local Arguments Z.leb : simpl never.
Local Arguments Z.eqb : simpl never.

Module ExArg.
Definition x := mkVar "x" TBase SInt. Definition y := mkVar "y" TBase SInt.
Definition P : sym := 2. Definition Q : sym := 3.
Definition s k v := Var (src k v). Definition t v := Var (tgt v).
Definition e0 := mkEdge 0 [] 0 tt_true.
(** P(0); P(x), P(x') imply Q(x + x'); P(x) implies P(x + 1); Q(y) and the guard imply false. *)
Definition hg (u : term) := mkGraph
  [mkEdge 1 [entry] P (mkEq (t x) (mkInt 0));
   mkEdge 2 [P; P] Q (mkEq (t y) (mkPlus [s 0 x; s 1 x]));
   mkEdge 3 [Q] exit u;
   mkEdge 4 [P] P (mkEq (t x) (mkPlus [s 0 x; mkInt 1]))] (pv_of [(P, [x]); (Q, [y])]) 5 0.
Definition gs := hg (mkLeq (s 0 y) (mkInt (-1))).
Definition gu := hg (mkEq (s 0 y) (mkInt 0)).
Definition noelim : elim_fn := fun _ u => u.
Definition cl g := clean noelim g.
Definition ed g i := nth i (gedges (cl g)) e0.
(** The tree of the derivation of false. *)
Definition tree g := [mkTN None (ed g 2) 0; mkTN (Some 0) (ed g 1) 2; mkTN (Some 1) (ed g 0) 1; mkTN (Some 1) (ed g 0) 1].
Definition lab g T := match versions 10 T with Some ver => labels (cl g) ver T | None => [] end.
Definition V (n : string) k := Var (mkVar n (TTime k) SInt).
Definition ge0 u := mkLeq (mkInt 0) u.
Definition tr : titp_fn := table_titp [(combine (map t_parent (tree gs)) (lab gs (tree gs)), [tt_false; ge0 (V "y" 0); ge0 (V "x" 0); ge0 (V "x" 1)])].
Definition tru := mkAnd ([] : list term).
Definition rx k u := rename (src k) (mkAnd [u]).
Definition unsats := [lab gs (tree gs);
   [efla (ed gs 0); rename (src 0) tru; mkNot (ge0 (t x))];
   [efla (ed gs 1); rx 0 (ge0 (Var x)); rx 1 (ge0 (Var x)); mkNot (ge0 (t y))];
   [efla (ed gs 3); rx 0 (ge0 (Var x)); mkNot (ge0 (t x))]].
Definition models : list valuation := [(fun _ => VInt 0); (fun _ => VInt (-1)); (fun v => match vtag v with TTgt => VInt 1 | _ => VInt 0 end)].
Definition chk := ExTpa.solver models unsats.
Definition idt : list term -> list term := fun l => l.
Definition idc : list (nat * nat) -> list (nat * nat) := fun l => l.
Definition run g := arg_engine plain chk tr idt idc noelim true 30 g.
Lemma chk_ok : check_ok chk.
Proof. apply ExTpa.solver_ok. unfold unsats. repeat (apply Forall_cons; [prove_unsat|]). apply Forall_nil. Qed.
Lemma tr_ok : titp_ok tr.
Proof.
  apply table_titp_ok. apply Forall_cons; [|apply Forall_nil]. cbn [fst snd]. split; [reflexivity|]. split; [vm_compute; reflexivity|]. split; [prove_unsat|]. split; [vm_compute; reflexivity|].
  apply (Forall_impl (P := fun n => unsat (nth n (map snd (combine (map t_parent (tree gs)) (lab gs (tree gs)))) tt_true ::
     kid_itps (combine (map t_parent (tree gs)) (lab gs (tree gs))) [tt_false; ge0 (V "y" 0); ge0 (V "x" 0); ge0 (V "x" 1)] n ++ [mkNot (nth n [tt_false; ge0 (V "y" 0); ge0 (V "x" 0); ge0 (V "x" 1)] tt_true)]))).
  { intros n H. destruct (nth_error _ n) as [[p l]|] eqn:E; [|exact Logic.I]. destruct (nth_error [_; _; _; _] n) as [J|] eqn:EJ; [|exact Logic.I].
    rewrite (nth_error_nth _ _ tt_true EJ) in H. rewrite (nth_error_nth _ _ tt_true (map_nth_error snd _ _ E)) in H. exact H. }
  change (seq 0 _) with [0; 1; 2; 3]. repeat (apply Forall_cons; [prove_unsat|]). apply Forall_nil.
Qed.
Example g_wf : wf_graph gs /\ wf_graph gu.
Proof. split; apply graph_check_ok; vm_compute; reflexivity. Qed.
Lemma alone u : entry_alone (hg u).
Proof. intros e He. cbn in He. repeat (destruct He as [<-|He]; [cbn; intros H; repeat destruct H as [H|H]; try discriminate H; try destruct H; reflexivity|]). destruct He. Qed.
Lemma free u : paux_free (hg u).
Proof.
  intros p v Hv [k E]. cbn [gpv hg] in Hv. unfold pv_of in Hv. destruct (Nat.eqb P p); [destruct Hv as [<-|[]]; discriminate E|]. destruct (Nat.eqb Q p); [destruct Hv as [<-|[]]; discriminate E|destruct Hv].
Qed.
(** The first derivation of false is spurious: three predicates are learnt, and the next instance of P is covered. *)
Example safe_run : exists w, run gs = ASafe false (Some w) /\
  w P = Some (mkOr [mkAnd [ge0 (Var x)]; mkAnd [ge0 (Var x)]]) /\ w Q = Some (mkOr [mkAnd [ge0 (Var y)]]).
Proof. eexists. split; [vm_compute; reflexivity|]. split; vm_compute; reflexivity. Qed.
(** A derivation that uses a hyperedge, and one fact twice. *)
Example unsafe_run : run gu = AUnsafe (Some [mkStep [] (entry, []) 0; mkStep [0] (P, [VInt 0]) 1; mkStep [1; 1] (Q, [VInt 0]) 2; mkStep [2] (exit, []) 3]).
Proof. vm_compute. reflexivity. Qed.
Example C16_nonvacuous : ctors_ok plain /\ check_ok chk /\ titp_ok tr /\ (forall l t, In t (idt l) <-> In t l) /\ (forall l x, In x (idc l) <-> In x l) /\ elim_ok noelim /\
  wf_graph gs /\ entry_alone gs /\ paux_free gs /\ wf_graph gu /\ entry_alone gu /\ paux_free gu.
Proof.
  split; [apply plain_ok|]. split; [apply chk_ok|]. split; [apply tr_ok|]. split; [intros; reflexivity|]. split; [intros; reflexivity|]. split; [apply elim_id_ok|].
  split; [apply g_wf|]. split; [apply alone|]. split; [apply free|]. split; [apply g_wf|]. split; [apply alone|apply free].
Qed.

(** *** A solver that gives up on an entailment check *)
(** P(0); P(1); P(1) implies false. *)
Definition gk := mkGraph
  [mkEdge 1 [entry] P (mkEq (t x) (mkInt 0));
   mkEdge 2 [entry] P (mkEq (t x) (mkInt 1));
   mkEdge 3 [P] exit (mkEq (s 0 x) (mkInt 1))] (pv_of [(P, [x])]) 4 0.
Definition treek := [mkTN None (ed gk 2) 0; mkTN (Some 0) (ed gk 0) 1].
Definition trk : titp_fn := table_titp [(combine (map t_parent treek) (lab gk treek), [tt_false; mkLeq (V "x" 0) (mkInt 0)])].
Definition le0 := mkLeq (t x) (mkInt 0).
Definition qk := [efla (ed gk 0); rename (src 0) tru; mkNot le0].
Definition modelsk : list valuation := [fun v => match vtag v with TTgt => VInt 0 | _ => VInt 1 end; fun _ => VInt 1].
Definition chk1 := ExTpa.solver modelsk [lab gk treek; qk].
Definition chk2 := ExTpa.solver modelsk [lab gk treek].
Lemma chk1_ok : check_ok chk1.
Proof. apply ExTpa.solver_ok. repeat (apply Forall_cons; [prove_unsat|]). apply Forall_nil. Qed.
Lemma chk2_ok : check_ok chk2.
Proof. apply ExTpa.solver_ok. repeat (apply Forall_cons; [prove_unsat|]). apply Forall_nil. Qed.
Lemma trk_ok : titp_ok trk.
Proof.
  apply table_titp_ok. apply Forall_cons; [|apply Forall_nil]. cbn [fst snd]. split; [reflexivity|]. split; [vm_compute; reflexivity|]. split; [prove_unsat|]. split; [vm_compute; reflexivity|].
  apply (Forall_impl (P := fun n => unsat (nth n (map snd (combine (map t_parent treek) (lab gk treek))) tt_true ::
     kid_itps (combine (map t_parent treek) (lab gk treek)) [tt_false; mkLeq (V "x" 0) (mkInt 0)] n ++ [mkNot (nth n [tt_false; mkLeq (V "x" 0) (mkInt 0)] tt_true)]))).
  { intros n H. destruct (nth_error _ n) as [[p l]|] eqn:E; [|exact Logic.I]. destruct (nth_error [_; _] n) as [J|] eqn:EJ; [|exact Logic.I].
    rewrite (nth_error_nth _ _ tt_true EJ) in H. rewrite (nth_error_nth _ _ tt_true (map_nth_error snd _ _ E)) in H. exact H. }
  change (seq 0 _) with [0; 1]. repeat (apply Forall_cons; [prove_unsat|]). apply Forall_nil.
Qed.
Lemma gk_wf : wf_graph gk.
Proof. apply graph_check_ok; vm_compute; reflexivity. Qed.
Lemma gk_alone : entry_alone gk.
Proof. intros e He. cbn in He. repeat (destruct He as [<-|He]; [cbn; intros H; repeat destruct H as [H|H]; try discriminate H; try destruct H; reflexivity|]). destruct He. Qed.
Lemma gk_free : paux_free gk.
Proof.
  intros p v Hv [k E]. cbn [gpv gk] in Hv. unfold pv_of in Hv. destruct (Nat.eqb P p); [destruct Hv as [<-|[]]; discriminate E|destruct Hv].
Qed.
Definition runk chk := arg_engine plain chk trk idt idc noelim true 30 gk.
Example good_run : exists d, runk chk1 = AUnsafe (Some d).
Proof. eexists. vm_compute. reflexivity. Qed.
Example unknown_run : exists w, runk chk2 = ASafe true (Some w).
Proof. eexists. vm_compute. reflexivity. Qed.
End ExArg.

(** Without the condition on the solver, SAFE can be wrong: the counterexample found spurious is dropped, although the predicate that excludes it was
    not attached to the node. *)
Theorem C16_unknown_refuted :
  exists c check titp g w,
    ctors_ok c /\ check_ok check /\ titp_ok titp /\ wf_graph g /\ entry_alone g /\ paux_free g /\
    arg_engine c check titp (fun l => l) (fun l => l) (fun _ u => u) true 30 g = ASafe true w /\ ~ chc_sat g.
Proof.
  destruct ExArg.unknown_run as [w E]. destruct ExArg.good_run as [d E'].
  exists plain, ExArg.chk2, ExArg.trk, ExArg.gk, (Some w). split; [apply plain_ok|]. split; [apply ExArg.chk2_ok|]. split; [apply ExArg.trk_ok|].
  split; [apply ExArg.gk_wf|]. split; [apply ExArg.gk_alone|]. split; [apply ExArg.gk_free|]. split; [exact E|].
  pose proof (C16_predicate_abstraction plain ExArg.chk1 ExArg.trk ExArg.idt ExArg.idc ExArg.noelim true 30 ExArg.gk plain_ok ExArg.chk1_ok ExArg.trk_ok (fun l t => iff_refl _) (fun l x => iff_refl _) elim_id_ok ExArg.gk_wf ExArg.gk_alone ExArg.gk_free) as X.
  change (arg_engine plain ExArg.chk1 ExArg.trk ExArg.idt ExArg.idc ExArg.noelim true 30 ExArg.gk) with (ExArg.runk ExArg.chk1) in X. rewrite E' in X. apply X.
Qed.
Print Assumptions C16_unknown_refuted.
