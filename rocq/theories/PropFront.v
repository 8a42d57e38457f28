(** * C65, C66: reading SMT-LIB.

    [FrontSpec] says what assertions and clauses mean. *)
From Verif Require Import Syntax Solver Graph ChcSystem FrontModel FrontSpec FrontProofs FrontClause FrontScript FrontEx.
From Coq Require Import Arith.
Local Open Scope string_scope.
Local Open Scope list_scope.
Local Open Scope nat_scope.

(** ** C65: assertions *)

(** Parsing an assertion leaves the table of bound names as it found it,
    however the parse ends. *)
Theorem C65_scopes_restored l_op reserved ds a rs :
  snd (parse l_op reserved ds a rs) = rs /\ snd (parse_top l_op reserved ds a rs) = rs.
Proof. split; [apply parse_restores|apply parse_top_restores]. Qed.

(** A Boolean variable may not have the name of a predicate without arguments. *)
Definition no_capture (ds : list pid) (a : ast) : Prop :=
  forall n, In (n, SBool) (quantified a) -> in_pids (n, 0) ds = false.

(** A parsed assertion means what SMT-LIB says it means: an interpretation of
    the predicates satisfies the assertion iff the term is true for all
    values of its variables. *)
Theorem C65_meaning l_op l_not l_or l_and reserved ds a t :
  logic_ok l_op l_not l_or l_and -> well_sorted_assert ds a -> no_capture ds a ->
  fst (parse_top l_op reserved ds a no_records) = Ok t ->
  forall M, asserts ds M no_env a <-> (forall r, ptrue_in M r t = true).
Proof. intros L W NC E M. exact (top_asserts l_op l_not l_or l_and reserved L ds M a t W NC E). Qed.

(** A well-sorted assertion is parsed, if its lets do not rebind symbols of the logic. *)
Theorem C65_accepts l_op l_not l_or l_and reserved ds a :
  logic_ok l_op l_not l_or l_and -> logic_total l_op -> well_sorted_assert ds a -> no_capture ds a ->
  lets_fine reserved a = true -> exists t, fst (parse_top l_op reserved ds a no_records) = Ok t.
Proof.
  intros L T W NC LF. apply (top_total l_op reserved l_not l_or l_and L T ds a no_records); auto.
  intros n t H. discriminate.
Qed.

(** A quantifier below the outermost ones is refused. *)
Theorem C65_inner_quantifier l_op reserved ds vs b rs :
  fst (parse l_op reserved ds (AForall vs b) rs) = Quantified.
Proof. reflexivity. Qed.

(** ** C66: clauses and scripts *)

(** The clause of an assertion says what the assertion says, its head and body
    are predicates of the system, and its constraint contains none. *)
Theorem C66_clause l_op l_not l_or l_and known t c :
  logic_ok l_op l_not l_or l_and -> chclause l_not l_or l_and known t = Some c ->
  (forall M r, ptrue_in M r t = true <-> clause_true M r c) /\
  (forall h, p_head c = Some h -> is_pred known h = true) /\
  Forall (fun b => is_pred known b = true) (p_body c) /\
  mentions known (p_fla c) = false.
Proof.
  intros L E. split; [intros M r; exact (chclause_sound l_op l_not l_or l_and L known t c M r E)|].
  exact (chclause_shape l_op l_not l_or l_and L known t c E).
Qed.

(** A disjunction that is a Horn clause is accepted. *)
Theorem C66_accepts l_not l_or l_and known l :
  logic_pure l_not l_and -> horn known (POp FOr l) ->
  exists c, chclause l_not l_or l_and known (POp FOr l) = Some c.
Proof. intros P H. exact (horn_accepted l_not l_or l_and P known (POp FOr l) eq_refl H). Qed.

(** A disjunction with two positive predicates is refused. *)
Theorem C66_refuses l_not l_or l_and known l a b :
  In (a, true) (leaves true (POp FOr l)) -> In (b, true) (leaves true (POp FOr l)) -> a <> b ->
  is_pred known a = true -> is_pred known b = true ->
  chclause l_not l_or l_and known (POp FOr l) = None.
Proof.
  intros Ha Hb N Pa Pb. exact (two_heads_refused l_not l_or l_and known (POp FOr l) a b eq_refl Ha Hb N Pa Pb).
Qed.

(** Every (check-sat) that is executed solves the assertions in force at that
    point, all of them and nothing else. *)
Theorem C66_script l_op l_not l_or l_and reserved interpreted script k cs :
  logic_ok l_op l_not l_or l_and ->
  (forall j ds a, In (ds, a) (assertions interpreted (firstn j script)) -> well_sorted_assert ds a /\ no_capture ds a) ->
  In (k, cs) (i_checks (interpret_all l_op l_not l_or l_and reserved interpreted 0 script istart)) ->
  nth_error script k = Some CheckSat /\
  forall M, (forall c r, In c cs -> clause_true M r c) <->
            (forall ds a, In (ds, a) (assertions interpreted (firstn k script)) -> asserts ds M no_env a).
Proof. intros L F H. exact (script_sound l_op l_not l_or l_and reserved interpreted L script k cs F H). Qed.

(** "unsat": if false is derivable from the clauses handed to the solver, no
    interpretation of the predicates satisfies the assertions. *)
Theorem C66_unsat l_op l_not l_or l_and reserved interpreted script k cs ids code cs' :
  logic_ok l_op l_not l_or l_and ->
  (forall j ds a, In (ds, a) (assertions interpreted (firstn j script)) -> well_sorted_assert ds a /\ no_capture ds a) ->
  In (k, cs) (i_checks (interpret_all l_op l_not l_or l_and reserved interpreted 0 script istart)) ->
  code_ok ids code -> omap (strip_clause ids code) cs = Some cs' ->
  cderivable cs' exit [] ->
  forall M, ~ (forall ds a, In (ds, a) (assertions interpreted (firstn k script)) -> asserts ds M no_env a).
Proof.
  intros L F H C E D M A. destruct (C66_script _ _ _ _ _ _ _ _ _ L F H) as [_ Sd].
  pose proof (proj2 (Sd M) A) as B. clear A. apply (decode_exit ids code M C). apply (cderivable_least cs'); [|exact D].
  apply (decode_model ids code M cs cs' C E). exact B.
Qed.

(** "sat": a model of the clauses handed to the solver satisfies the assertions. *)
Theorem C66_sat l_op l_not l_or l_and reserved interpreted script k cs ids code cs' m :
  logic_ok l_op l_not l_or l_and ->
  (forall j ds a, In (ds, a) (assertions interpreted (firstn j script)) -> well_sorted_assert ds a /\ no_capture ds a) ->
  In (k, cs) (i_checks (interpret_all l_op l_not l_or l_and reserved interpreted 0 script istart)) ->
  code_ok ids code -> omap (strip_clause ids code) cs = Some cs' ->
  cmodel cs' (fun s vs => m s vs = true) -> m exit [] = false ->
  forall ds a, In (ds, a) (assertions interpreted (firstn k script)) -> asserts ds (named code m) no_env a.
Proof.
  intros L F H C E HM HX. destruct (C66_script _ _ _ _ _ _ _ _ _ L F H) as [_ Sd]. apply Sd.
  exact (named_model ids code m cs cs' C E HM HX).
Qed.

(** After a reported assertion the script is over: no (check-sat) follows. *)
Theorem C66_error_ends l_op l_not l_or l_and reserved interpreted k s st :
  i_exit st = true -> interpret_all l_op l_not l_or l_and reserved interpreted k s st = st.
Proof. intros H. destruct s; [reflexivity|]. cbn [interpret_all]. rewrite H. reflexivity. Qed.

(** ** Examples *)
Module ExFront.
Definition x := AId "x".
Definition num (z : Z) := ANum (VInt z).
Definition qx (b : ast) := AForall [("x", SInt)] b.

(** P(0); P(x) => P(x+1), written with a let that shadows x; P(x) /\ x < 0 => false. *)
Definition script : list cmd :=
  [SetLogic "HORN"; Declare "P" 1 SBool;
   Assert (qx (AApp "=>" [AApp "=" [x; num 0]; AApp "P" [x]]));
   Assert (qx (ALet [("y", AApp "+" [x; num 1])] (AApp "=>" [AApp "P" [x]; ALet [("x", AId "y"); ("y", x)] (AApp "P" [x])])));
   Assert (qx (AApp "=>" [AApp "and" [AApp "P" [x]; AApp "<" [x; num 0]]; AId "false"]));
   CheckSat].

Definition run := interpret_all pl_op pl_not pl_or pl_and pl_reserved pl_reserved 0.
Definition final : istate := Eval vm_compute in run script istart.
Lemma final_run : run script istart = final.
Proof. vm_compute. reflexivity. Qed.

Definition ds : list pid := [("P", 1)].
Definition code (x : pid) : sym := 2.
Lemma code_fine : code_ok ds code.
Proof. intros x [<-|[]]. repeat split; try discriminate. intros y [<-|[]] _. reflexivity. Qed.

Lemma script_fine j ds a : In (ds, a) (assertions pl_reserved (firstn j script)) -> well_sorted_assert ds a /\ no_capture ds a.
Proof.
  assert (H : forall a, In a (map snd (assertions pl_reserved script)) -> forall n, In (n, SBool) (quantified a) -> False).
  { intros b Hb n Hn. vm_compute in Hb. repeat (destruct Hb as [<-|Hb]; [vm_compute in Hn; destruct Hn as [Hn|[]]; discriminate|]). contradiction. }
  do 7 (destruct j as [|j]; [
    intros Hin; vm_compute in Hin;
    repeat (destruct Hin as [Hin|Hin]; [injection Hin as <- <-; split; [vm_compute; reflexivity|
       intros n Hn; vm_compute in Hn; destruct Hn as [Hn|[]]; discriminate]|]); contradiction|]).
  intros Hin; rewrite firstn_all2 in Hin by (cbn; lia). vm_compute in Hin.
    repeat (destruct Hin as [Hin|Hin]; [injection Hin as <- <-; split; [vm_compute; reflexivity|
       intros n Hn; vm_compute in Hn; destruct Hn as [Hn|[]]; discriminate]|]); contradiction.
Qed.

Definition clauses : list pclause := Eval vm_compute in match i_checks final with [(_, cs)] => cs | _ => [] end.
Definition solver_clauses : list clause :=
  Eval vm_compute in match omap (strip_clause ds code) clauses with Some l => l | None => [] end.

Lemma three_clauses : length solver_clauses = 3.
Proof. reflexivity. Qed.

(** P is interpreted by the non-negative numbers. *)
Definition m (s : sym) (vs : list value) : bool :=
  match s, vs with 2, [VInt z] => (0 <=? z)%Z | _, _ => false end.

Lemma m_model : cmodel solver_clauses (fun s vs => m s vs = true).
Proof.
  intros c r Hc. unfold solver_clauses in Hc.
  destruct Hc as [<-|[<-|[<-|[]]]].
  - intros _ Hf. unfold holds, holdsb in Hf. cbn in Hf. cbn.
    pose proof (coerce_sort SInt (r (mkVar "x" TBase SInt))) as S.
    destruct (coerce SInt (r {| vbase := "x"; vtag := TBase; vsort := SInt |})) as [b|z|q]; try discriminate.
    cbn in *. destruct z; cbn in *; try discriminate. reflexivity.
  - intros Hb _. specialize (Hb _ (or_introl eq_refl)). cbn in *.
    pose proof (coerce_sort SInt (r (mkVar "x" TBase SInt))) as S.
    destruct (coerce SInt (r {| vbase := "x"; vtag := TBase; vsort := SInt |})) as [b|z|q]; try discriminate.
    cbn in *. apply Z.leb_le in Hb. apply Z.leb_le. lia.
  - intros Hb Hf. specialize (Hb _ (or_introl eq_refl)). unfold holds, holdsb in Hf. cbn in *.
    pose proof (coerce_sort SInt (r (mkVar "x" TBase SInt))) as S.
    destruct (coerce SInt (r {| vbase := "x"; vtag := TBase; vsort := SInt |})) as [b|z|q]; try discriminate.
    cbn in *. rewrite Hb in Hf. discriminate.
Qed.

(** The hypotheses of C66_sat are met, and its conclusion is about three assertions. *)
Example sat_applies : In (5, clauses) (i_checks (run script istart)) /\
  length (assertions pl_reserved (firstn 5 script)) = 3 /\
  forall ds' a, In (ds', a) (assertions pl_reserved (firstn 5 script)) -> asserts ds' (named code m) no_env a.
Proof.
  assert (Hin : In (5, clauses) (i_checks (run script istart))) by (rewrite final_run; left; reflexivity).
  split; [exact Hin|]. split; [reflexivity|].
  exact (C66_sat pl_op pl_not pl_or pl_and pl_reserved pl_reserved script 5 clauses ds code solver_clauses m
    pl_ok script_fine Hin code_fine eq_refl m_model eq_refl).
Qed.

(** The same script with x < 1 in the query is unsatisfiable. *)
Definition bad_script : list cmd :=
  [SetLogic "HORN"; Declare "P" 1 SBool;
   Assert (qx (AApp "=>" [AApp "=" [x; num 0]; AApp "P" [x]]));
   Assert (qx (AApp "=>" [AApp "and" [AApp "P" [x]; AApp "<" [x; num 1]]; AId "false"]));
   CheckSat].
Definition bad_final : istate := Eval vm_compute in run bad_script istart.
Lemma bad_run : run bad_script istart = bad_final.
Proof. vm_compute. reflexivity. Qed.
Definition bad_clauses : list pclause := Eval vm_compute in match i_checks bad_final with [(_, cs)] => cs | _ => [] end.
Definition bad_solver : list clause :=
  Eval vm_compute in match omap (strip_clause ds code) bad_clauses with Some l => l | None => [] end.

Lemma bad_fine j ds a : In (ds, a) (assertions pl_reserved (firstn j bad_script)) -> well_sorted_assert ds a /\ no_capture ds a.
Proof.
  do 6 (destruct j as [|j]; [
    intros Hin; vm_compute in Hin;
    repeat (destruct Hin as [Hin|Hin]; [injection Hin as <- <-; split; [vm_compute; reflexivity|
       intros n Hn; vm_compute in Hn; destruct Hn as [Hn|[]]; discriminate]|]); contradiction|]).
  intros Hin; rewrite firstn_all2 in Hin by (cbn; lia). vm_compute in Hin.
    repeat (destruct Hin as [Hin|Hin]; [injection Hin as <- <-; split; [vm_compute; reflexivity|
       intros n Hn; vm_compute in Hn; destruct Hn as [Hn|[]]; discriminate]|]); contradiction.
Qed.

Lemma bad_derives : cderivable bad_solver exit [].
Proof.
  set (r0 := (fun _ => VInt 0) : valuation).
  assert (D0 : cderivable bad_solver 2 [VInt 0]).
  { exact (cder bad_solver (nth 0 bad_solver (mkClause (mkAtom 0 []) tt_true [])) r0 (or_introl eq_refl)
      (fun a (H : In a []) => match H with end) eq_refl). }
  apply (cder bad_solver (nth 1 bad_solver (mkClause (mkAtom 0 []) tt_true [])) r0 (or_intror (or_introl eq_refl))).
  - intros a [<-|[]]. exact D0.
  - reflexivity.
Qed.

Example unsat_applies : forall M, ~ (forall ds' a, In (ds', a) (assertions pl_reserved (firstn 4 bad_script)) -> asserts ds' M no_env a).
Proof.
  assert (Hin : In (4, bad_clauses) (i_checks (run bad_script istart))) by (rewrite bad_run; left; reflexivity).
  exact (C66_unsat pl_op pl_not pl_or pl_and pl_reserved pl_reserved bad_script 4 bad_clauses ds code bad_solver
    pl_ok bad_fine Hin code_fine eq_refl bad_derives).
Qed.

(** The hypotheses of C65 are met by an assertion with shadowing. *)
Example accepts_applies : exists t, fst (parse_top pl_op pl_reserved ds
    (qx (ALet [("y", AApp "+" [x; num 1])] (AApp "=>" [AApp "P" [x]; ALet [("x", AId "y"); ("y", x)] (AApp "P" [x])]))) no_records) = Ok t.
Proof.
  apply (C65_accepts pl_op pl_not pl_or pl_and); [exact pl_ok|exact pl_total|vm_compute; reflexivity| |reflexivity].
  intros n [H|[]]. discriminate.
Qed.
End ExFront.

(** ** What does not hold *)

(** Without [no_capture] the meaning is lost: (forall ((p Bool)) p) is false,
    but with a declared predicate p it is taken for the fact p. *)
Theorem C65_capture_refuted :
  exists ds a t, well_sorted_assert ds a /\ fst (parse_top pl_op pl_reserved ds a no_records) = Ok t /\
    chclause pl_not pl_or pl_and ds t = Some {| p_head := Some (PPred "p" []); p_fla := ptrue; p_body := [] |} /\
    (forall M, ~ asserts ds M no_env a) /\ exists M, forall r, ptrue_in M r t = true.
Proof.
  exists [("p", 0)], (AForall [("p", SBool)] (AId "p")), (PPred "p" []).
  split; [reflexivity|]. split; [reflexivity|]. split; [reflexivity|]. split.
  - intros M H. specialize (H (VBool false) eq_refl). discriminate.
  - exists (fun _ _ => true). reflexivity.
Qed.

(** The query "false" without predicates, and every other assertion without
    predicates, is reported as not being a Horn clause. *)
Theorem C66_plain_constraint_refuted :
  forall known t, mentions known t = false -> is_or t = false ->
  (forall l, t <> POp FNot [POp FAnd l]) ->
  forall l_not l_or l_and, chclause l_not l_or l_and known t = None.
Proof.
  intros known t HM HO HN l_not l_or l_and. unfold chclause. rewrite HO.
  destruct (is_pred known t) eqn:E; [apply is_pred_mentions in E; congruence|].
  destruct t as [| |f l|]; try reflexivity. destruct f; try reflexivity. destruct l as [|u [|w l]]; try reflexivity.
  destruct (is_pred known u) eqn:EU.
  - apply is_pred_mentions in EU. cbn in HM. rewrite EU in HM. discriminate.
  - destruct u as [| |g k|]; try reflexivity. destruct g; try reflexivity. congruence.
Qed.

Theorem C66_false_refuted :
  exists script, assertions pl_reserved script = [([], AId "false")] /\
    well_sorted_assert [] (AId "false") /\
    i_out (ExFront.run script istart) = ["Assertion is not a Horn clause"] /\ i_checks (ExFront.run script istart) = [].
Proof.
  exists [SetLogic "HORN"; Assert (AId "false"); CheckSat]. repeat split.
Qed.

(** A predicate below the argument of another predicate is not noticed: the
    clause is accepted although it is not a Horn clause over terms. *)
Theorem C66_nested_refuted :
  exists a t c h l, well_sorted_assert [("Q", 1); ("P", 1)] a /\
    fst (parse_top pl_op pl_reserved [("Q", 1); ("P", 1)] a no_records) = Ok t /\
    chclause pl_not pl_or pl_and [("Q", 1); ("P", 1)] t = Some c /\
    p_head c = Some h /\ h = PPred "P" l /\ existsb (mentions [("Q", 1); ("P", 1)]) l = true /\
    forall code, strip_clause [("Q", 1); ("P", 1)] code c = None.
Proof.
  exists (AForall [("x", SInt)] (AApp "=>" [AApp "Q" [AId "x"]; AApp "P" [AApp "Q" [AId "x"]]])).
  do 4 eexists. split; [reflexivity|]. split; [reflexivity|]. split; [vm_compute; reflexivity|].
  split; [reflexivity|]. split; [reflexivity|]. split; reflexivity.
Qed.

(** A second (set-logic HORN) forgets which symbols are predicates but not
    their declarations: P is then taken for a function of the constraint. *)
Theorem C66_second_logic_refuted :
  exists script c, i_out (ExFront.run script istart) = [] /\
    i_checks (ExFront.run script istart) = [(5, [c])] /\
    nth_error script 5 = Some CheckSat /\ In (Declare "P" 1 SBool) script /\ mentions [("P", 1)] (p_fla c) = true.
Proof.
  exists [SetLogic "HORN"; Declare "P" 1 SBool; SetLogic "HORN"; Declare "Q" 1 SBool;
    Assert (AForall [("x", SInt)] (AApp "=>" [AApp "P" [AId "x"]; AApp "Q" [AId "x"]])); CheckSat].
  eexists. split; [vm_compute; reflexivity|]. split; [vm_compute; reflexivity|]. split; [reflexivity|].
  split; [right; left; reflexivity|]. reflexivity.
Qed.
