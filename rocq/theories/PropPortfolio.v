(** * C63 and C64: the engine portfolio and the termination portfolio.

    Model: PortfolioModel.v.  Every theorem quantifies over all schedules:
    over all interleavings of the processes, all failing forks and all
    crashes of children ([reachable]). *)
From Coq Require Import Ascii String List Arith Bool Lia.
From Verif Require Import PortfolioModel PortfolioProofs PortfolioTop.
Import ListNotations.
Local Open Scope string_scope.
Local Open Scope list_scope.

(** The engine comes to a definite answer. *)
Definition definite (solve : string -> option chc_solve) (name : string) : Prop :=
  solve name = Some (Answers ASafe) \/ solve name = Some (Answers AUnsafe).

Section Chc.
Variable solve : string -> option chc_solve.
Variable work : string -> list string.
Variable names : list string.
Variable pending : list string.
Let cfg := chc_config solve work names pending.

Lemma chc_no_caught : forall i, i < c_num cfg -> c_verdict cfg i <> Some VCaught.
Proof.
  intros i _. cbn. unfold chc_verdict. destruct (solve (nth i names "")) as [[[]|]|]; discriminate.
Qed.

Lemma chc_def : forall i a, c_verdict cfg i = Some (VDef a) ->
  definite solve (nth i names "") /\ single_output solve work (nth i names "") = Some (full cfg i a).
Proof.
  intros i a H. cbn in H. unfold chc_verdict in H. unfold definite, single_output, full. cbn [c_work cfg chc_config].
  destruct (solve (nth i names "")) as [[[]|]|]; try discriminate; injection H as <-; auto.
Qed.

Lemma def_chc : forall i, definite solve (nth i names "") -> exists a, c_verdict cfg i = Some (VDef a).
Proof.
  intros i [H|H]; cbn; unfold chc_verdict; rewrite H; eauto.
Qed.

(** C63, safety: at every moment of every run the portfolio has printed
    nothing, or the beginning of what (check-sat) prints when one of the
    listed engines, one with a definite answer, is run alone: there is at
    most one answer, it is the answer of one engine and the witness below it
    belongs to the same engine. *)
Theorem C63_output : forall st, reachable cfg st ->
  visible (s_out st) = [] \/
  exists name o, In name names /\ definite solve name /\
    single_output solve work name = Some o /\ prefix_of (visible (s_out st)) o.
Proof.
  intros st R. destruct (output_prefix cfg chc_no_caught st R) as [H|[(e & a & Le & V & P)|(_ & _ & m & F & _)]].
  - auto.
  - right. destruct (chc_def e a V) as [D O]. exists (nth e names ""), (full cfg e a).
    split; [apply nth_In; exact Le|]. auto.
  - discriminate.
Qed.

(** C63, every schedule ends: no run is longer than a bound that depends on
    the number of engines and the lengths of the witnesses only. *)
Theorem C63_finite : exists n, forall l st, execs cfg l (init cfg) = Some st -> length l <= n.
Proof. exists (measure cfg (init cfg)). intros l st. apply all_runs_bounded. apply chc_no_caught. Qed.

(** C63, completeness: when nobody can make a step any more, no fork failed,
    the child of some engine with a definite answer did not crash and the
    child that won the race did not crash, then the parent has returned, all
    children are gone, and the output is, in full, the output of one of the
    engines with a definite answer run alone -- even if other engines never
    terminate, throw or crash. *)
Theorem C63_answers : forall st i, reachable cfg st -> quiescent cfg st -> forks_ok st ->
  i < length names -> definite solve (nth i names "") ->
  survives i st -> winner_survives st ->
  s_pc st = PDone /\
  (forall j k, nth_error (s_kids st) j = Some k -> alive (k_pc k) = false) /\
  exists name, In name names /\ definite solve name /\
    single_output solve work name = Some (visible (s_out st)).
Proof.
  intros st i R Q F Li D Sv Ws. destruct (def_chc i D) as [a V].
  destruct (quiescent_answers cfg chc_no_caught st i a R Q F Li V Sv Ws) as (PD & e & b & Le & Ve & O).
  split; [exact PD|]. split.
  - intros j k H. eapply (done_all_ended cfg chc_no_caught); eauto.
  - destruct (chc_def e b Ve) as [De Oe]. exists (nth e names ""). split; [apply nth_In; exact Le|].
    split; [exact De|]. rewrite O. exact Oe.
Qed.

(** C63, the comment of lines 505 and 519-520: the parent never kills the
    child that works on the witness, and kills nobody before that child has
    printed everything. *)
Theorem C63_winner_not_killed : forall st j k, reachable cfg st ->
  nth_error (s_kids st) j = Some k -> k_pc k = KDead KilledByParent ->
  s_winner st <> Some j /\
  exists name, In name names /\ definite solve name /\
    single_output solve work name = Some (visible (s_out st)).
Proof.
  intros st j k R H P. split.
  - intros W. eapply (winner_not_killed cfg chc_no_caught st j k R W H). exact P.
  - destruct (killed_after_winner cfg chc_no_caught st j k R H P) as (e & a & Le & V & O).
    destruct (chc_def e a V) as [D Oe]. exists (nth e names "").
    split; [apply nth_In; exact Le|]. split; [exact D|]. rewrite O. exact Oe.
Qed.

(** C63, a signal is sent to processes outside the portfolio only after a
    failed fork. *)
Theorem C63_killall : forall st, reachable cfg st -> forks_ok st -> s_killall st = false.
Proof. apply (killall_only_failed_fork cfg chc_no_caught). Qed.

(** C63, refuted reading: a user who runs one engine gets the line "unknown"
    when the engine gives up; the portfolio prints nothing when all engines
    do. *)
Theorem C63_unknown_silent : forall st, reachable cfg st -> s_pc st = PDone ->
  (forall name, In name names -> ~ definite solve name) -> visible (s_out st) = [].
Proof.
  intros st R PD N. apply (none_definite cfg chc_no_caught st R); [|exact PD].
  intros e a Le V. destruct (chc_def e a V) as [D _]. apply (N (nth e names "")); [|exact D].
  apply nth_In. exact Le.
Qed.

End Chc.

(** C63: the list of engines is the comma-separated list of the option
    (lines 477-482), for names without commas whose last one is not empty. *)
Fixpoint join_commas (l : list string) : string :=
  match l with
  | [] => ""
  | [n] => n
  | n :: l' => append n (String "," (join_commas l'))
  end.

Lemma split_name : forall n acc rest, has_comma n = false ->
  split_commas (append n (String "," rest)) acc = append acc n :: split_commas rest "".
Proof.
  assert (A : forall a b c, append (append a b) c = append a (append b c)).
  { induction a as [|x a IH]; intros b c; cbn; [reflexivity|]. rewrite IH. reflexivity. }
  assert (A0 : forall a, append a "" = a).
  { induction a as [|x a IH]; cbn; [reflexivity|]. rewrite IH. reflexivity. }
  induction n as [|c n IH]; intros acc rest H; cbn in *.
  - rewrite A0. reflexivity.
  - destruct (Ascii.eqb c ","); [discriminate|]. rewrite IH by auto. rewrite A. reflexivity.
Qed.

Lemma split_last : forall n acc, has_comma n = false -> append acc n <> "" ->
  split_commas n acc = [append acc n].
Proof.
  assert (A : forall a b c, append (append a b) c = append a (append b c)).
  { induction a as [|x a IH]; intros b c; cbn; [reflexivity|]. rewrite IH. reflexivity. }
  assert (A0 : forall a, append a "" = a).
  { induction a as [|x a IH]; cbn; [reflexivity|]. rewrite IH. reflexivity. }
  induction n as [|c n IH]; intros acc H N; cbn in *.
  - rewrite A0 in N. rewrite A0. destruct acc; [congruence|reflexivity].
  - destruct (Ascii.eqb c ","); [discriminate|].
    assert (E : append (append acc (String c "")) n = append acc (String c n)) by (rewrite A; reflexivity).
    rewrite IH; [rewrite E; reflexivity|auto|rewrite E; exact N].
Qed.

Theorem C63_split : forall names, names <> [] ->
  (forall n, In n names -> has_comma n = false) -> last names "" <> "" ->
  split_commas (join_commas names) "" = names.
Proof.
  induction names as [|n l IH]; intros NE H L; [congruence|].
  destruct l as [|m l].
  - cbn in *. rewrite split_last; auto. 
  - change (join_commas (n :: m :: l)) with (append n (String "," (join_commas (m :: l)))).
    rewrite split_name by (apply H; left; auto). rewrite IH; [reflexivity|discriminate| |exact L].
    intros x Hx. apply H. right. exact Hx.
Qed.

(** ** C64: termination *)
Definition tdefinite (r : option term_solve) (text : string) : Prop :=
  (r = Some (TAnswers TTerm) /\ text = "YES") \/ (r = Some (TAnswers TNonterm) /\ text = "NO").

Section Term.
Variable num : nat.
Variable solve : nat -> option term_solve.
Variable pending : list string.
Hypothesis no_nonlinear : forall i, i < num -> solve i <> Some TNonlinear.
Let cfg := term_config num solve pending.

Lemma term_no_caught : forall i, i < c_num cfg -> c_verdict cfg i <> Some VCaught.
Proof.
  intros i H. cbn in *. unfold term_verdict. pose proof (no_nonlinear i H).
  destruct (solve i) as [[[]| |]|]; congruence.
Qed.

Lemma term_def : forall i a, c_verdict cfg i = Some (VDef a) -> tdefinite (solve i) a.
Proof.
  intros i a H. cbn in H. unfold term_verdict in H. unfold tdefinite.
  destruct (solve i) as [[[]| |]|]; try discriminate; injection H as <-; auto.
Qed.

Lemma def_term : forall i a, tdefinite (solve i) a -> c_verdict cfg i = Some (VDef a).
Proof. intros i a [[H ->]|[H ->]]; cbn; rewrite H; reflexivity. Qed.

(** C64, safety: the portfolio prints at most one line; YES or NO only if a
    method came to that answer, and otherwise MAYBE, at the very end and only
    if no method claimed an answer. *)
Theorem C64_output : forall st, reachable cfg st ->
  visible (s_out st) = [] \/
  (exists i a, i < num /\ tdefinite (solve i) a /\ visible (s_out st) = [LAnswer a]) \/
  (visible (s_out st) = [LAnswer "MAYBE"] /\ s_pc st = PDone /\ s_winner st = None).
Proof.
  intros st R. destruct (output_prefix cfg term_no_caught st R) as [H|[(e & a & Le & V & (r & P))|(A & B & m & F & O)]].
  - auto.
  - unfold full in P. cbn in P. destruct (visible (s_out st)) as [|x l] eqn:E; [auto|].
    right. left. exists e, a. split; [exact Le|]. split; [apply term_def; exact V|].
    cbn in P. injection P as <- P. destruct l; [reflexivity|discriminate].
  - right. right. cbn in F. injection F as <-. auto.
Qed.

Theorem C64_finite : exists n, forall l st, execs cfg l (init cfg) = Some st -> length l <= n.
Proof. exists (measure cfg (init cfg)). intros l st. apply all_runs_bounded. apply term_no_caught. Qed.

(** C64, completeness: if some method has a definite answer (its child and
    the winner do not crash and no fork fails), every schedule ends with the
    parent returned and exactly one definite answer on the output. *)
Theorem C64_answers : forall st i a, reachable cfg st -> quiescent cfg st -> forks_ok st ->
  i < num -> tdefinite (solve i) a -> survives i st -> winner_survives st ->
  s_pc st = PDone /\
  exists i' a', i' < num /\ tdefinite (solve i') a' /\ visible (s_out st) = [LAnswer a'].
Proof.
  intros st i a R Q F Li D Sv Ws.
  destruct (quiescent_answers cfg term_no_caught st i a R Q F Li (def_term i a D) Sv Ws) as (PD & e & b & Le & Ve & O).
  split; [exact PD|]. exists e, b. split; [exact Le|]. split; [apply term_def; exact Ve|]. exact O.
Qed.

(** C64: if no method has a definite answer and all of them end, every
    schedule ends with exactly the line MAYBE. *)
Theorem C64_maybe : forall st, reachable cfg st -> quiescent cfg st ->
  (forall i a, i < num -> ~ tdefinite (solve i) a) -> (forall i, i < num -> solve i <> None) ->
  s_pc st = PDone /\ visible (s_out st) = [LAnswer "MAYBE"].
Proof.
  intros st R Q N T.
  assert (PD : s_pc st = PDone).
  { destruct (quiescent_cases cfg term_no_caught st R Q) as [D|(_ & (j & k & H & P & V) & _)]; [exact D|].
    exfalso. destruct (i_kids _ _ (inv_reachable cfg term_no_caught st R) _ _ H) as (Le & _).
    cbn in V, Le. apply (T (k_eng k) Le). unfold term_verdict in V.
    destruct (solve (k_eng k)) as [[[]| |]|]; congruence. }
  split; [exact PD|].
  rewrite (none_definite cfg term_no_caught st R); [reflexivity| |exact PD].
  intros e a Le V. apply (N e a Le). apply term_def. exact V.
Qed.

End Term.

(** ** A concrete run, and runs on which stronger readings are false *)
Module ExPortfolio.

Definition solve (n : string) : option chc_solve :=
  if String.eqb n "spacer" then Some (Answers ASafe)
  else if String.eqb n "bmc" then None                      (* runs forever *)
  else if String.eqb n "lawi" then Some (Answers ASafe)
  else if String.eqb n "kind" then Some (Answers AUnknown)
  else Some Throws.
Definition work (n : string) : list string :=
  if String.eqb n "spacer" then ["model-of-spacer"; "validated"] else ["model-of-lawi"].

Definition names := split_commas "spacer,bmc,lawi,kind,nosuch" "".

Lemma names_split : names = ["spacer"; "bmc"; "lawi"; "kind"; "nosuch"].
Proof. reflexivity. Qed.

Definition cfg := chc_config solve work names [].

(** lawi wins; spacer loses the race; bmc is killed while running *)
Definition run : list action :=
  [AFork true; AFork true; AKid 0; AFork true; AKid 2; AKid 2; AKid 0; AFork true; AFork true;
   AKid 3; AKid 4; AEchild; AWait 3; AWait 0; AKid 2; AKid 2; AWait 4; AKid 2; AWait 2;
   AKill; AKill; AKill; AKill; AKill; AKill].

Definition final : state := Eval vm_compute in
  match execs cfg run (init cfg) with Some st => st | None => init cfg end.

Lemma final_ok : execs cfg run (init cfg) = Some final.
Proof. vm_compute. reflexivity. Qed.

Lemma final_out : s_out final = [LAnswer "sat"; LWork "model-of-lawi"] /\ s_pc final = PDone.
Proof. vm_compute. auto. Qed.

Theorem final_meets_C63 : reachable cfg final /\ quiescent cfg final /\ forks_ok final /\
  survives 0 final /\ winner_survives final /\ definite solve (nth 0 names "").
Proof.
  split; [exists run; apply final_ok|]. split.
  { intros a Na. destruct a as [ok|j|j|j| |]; try reflexivity.
    - do 5 (destruct j as [|j]; [vm_compute; reflexivity|]).
      destruct j; reflexivity.
    - exfalso. exact (Na j eq_refl). }
  split; [vm_compute; intuition discriminate|]. split.
  { intros j k H E. do 5 (destruct j as [|j]; [vm_compute in H; injection H as <-; try discriminate; vm_compute in E; discriminate|]).
    destruct j; discriminate. }
  split.
  { intros w k W H. vm_compute in W. injection W as <-. vm_compute in H. injection H as <-. discriminate. }
  left. reflexivity.
Qed.

Theorem final_by_theorem : exists name, In name names /\ definite solve name /\
  single_output solve work name = Some (visible (s_out final)).
Proof.
  destruct final_meets_C63 as (R & Q & F & Sv & Ws & D).
  destruct (C63_answers solve work names [] final 0 R Q F ltac:(cbn; lia) D Sv Ws) as (_ & _ & X). exact X.
Qed.

(** Termination: the step counter answers, the lasso search gives up. *)
Definition tsolve (i : nat) : option term_solve :=
  match i with 0 => Some (TAnswers TUnknown) | 1 => Some (TAnswers TTerm) | _ => None end.
Definition trun : list action :=
  [AFork true; AKid 0; AFork true; AFork true; AEchild; AWait 0; AKid 1; AKid 1; AKid 1; AKid 1;
   AWait 1; AKill; AKill; AKill; AKill].
Lemma trun_out : option_map (fun st => (s_out st, s_pc st))
  (execs (term_config 3 tsolve []) trun (init (term_config 3 tsolve []))) = Some ([LAnswer "YES"], PDone).
Proof. vm_compute. reflexivity. Qed.

(** ... and all three give up *)
Lemma tmaybe_out : option_map (fun st => (s_out st, s_pc st))
  (execs (term_config 3 (fun _ => Some (TAnswers TUnknown)) [])
     [AFork true; AFork true; AFork true; AKid 0; AKid 1; AKid 2; AEchild; AWait 2; AWait 0; AWait 1; AEchild]
     (init (term_config 3 (fun _ => Some (TAnswers TUnknown)) []))) = Some ([LAnswer "MAYBE"], PDone).
Proof. vm_compute. reflexivity. Qed.

End ExPortfolio.

Module ExPortfolioBad.
Import ExPortfolio.

Definition cfg2 (pending : list string) := chc_config solve work ["spacer"; "lawi"] pending.
Definition cfgk := chc_config solve work ["kind"; "kind"] [].

End ExPortfolioBad.

(** C63, refuted without [winner_survives]: the winner crashes between the
    compare-and-swap and the print; the other engine, which had the answer as
    well, has already withdrawn.  Nothing is ever printed. *)
Theorem C63_crash_refuted : exists l st,
  execs (ExPortfolioBad.cfg2 []) l (init (ExPortfolioBad.cfg2 [])) = Some st /\
  s_pc st = PDone /\ forks_ok st /\ s_out st = [] /\
  (forall j k, nth_error (s_kids st) j = Some k -> definite ExPortfolio.solve (nth (k_eng k) ["spacer"; "lawi"] "")) /\
  survives 1 st.
Proof.
  exists [AFork true; AFork true; AKid 0; AKid 0; AKid 1; AKid 1; ACrash 0; AEchild; AWait 0; AWait 1; AEchild].
  eexists. split; [vm_compute; reflexivity|]. split; [reflexivity|].
  split; [vm_compute; intuition discriminate|]. split; [reflexivity|]. split.
  - intros j k H. do 2 (destruct j as [|j]; [cbn in H; injection H as <-; left; reflexivity|]). destruct j; discriminate.
  - intros j k H E. do 2 (destruct j as [|j]; [cbn in H; injection H as <-; discriminate|]). destruct j; discriminate.
Qed.

(** C63, refuted without [forks_ok]: if a fork fails, the parent later sends
    SIGKILL to process -1, that is to every process of the user. *)
Theorem C63_fork_refuted : exists l st,
  execs (ExPortfolioBad.cfg2 []) l (init (ExPortfolioBad.cfg2 [])) = Some st /\ s_killall st = true.
Proof.
  exists [AFork true; AFork false; AEchild; AKid 0; AKid 0; AKid 0; AKid 0; AKid 0; AKid 0; AWait 0; AKill; AKill].
  eexists. split; [vm_compute; reflexivity|]. reflexivity.
Qed.

(** C63, refuted reading "the portfolio prints what is in the buffer once":
    an error reported before (check-sat) is repeated by every child that
    exits, because reportError does not flush and fork copies the buffer. *)
Theorem C63_pending_refuted : exists l st,
  execs (ExPortfolioBad.cfg2 ["error"]) l (init (ExPortfolioBad.cfg2 ["error"])) = Some st /\
  s_pc st = PDone /\
  s_out st ++ s_buf st =
    [LPending "error"; LAnswer "sat"; LWork "model-of-spacer"; LWork "validated"; LPending "error"; LPending "error"].
Proof.
  exists [AFork true; AFork true; AEchild; AKid 0; AKid 0; AKid 0; AKid 0; AKid 0; AKid 0; AKid 1; AKid 1;
    AWait 1; AWait 0; AKill; AKill; AKill].
  eexists. split; [vm_compute; reflexivity|]. split; reflexivity.
Qed.

(** C63, refuted reading "the portfolio prints unknown like a single engine". *)
Theorem C63_unknown_refuted : exists l st,
  execs ExPortfolioBad.cfgk l (init ExPortfolioBad.cfgk) = Some st /\ s_pc st = PDone /\ s_out st = [] /\
  single_output ExPortfolio.solve ExPortfolio.work "kind" = Some [LAnswer "unknown"].
Proof.
  exists [AFork true; AFork true; AEchild; AKid 0; AKid 1; AWait 0; AWait 1; AEchild].
  eexists. split; [vm_compute; reflexivity|]. repeat split; reflexivity.
Qed.

(** C64, refuted if a method may throw LANonLinearException: the handler of
    termination::run runs in the child, prints MAYBE and leaves with code 0:
    two answers on the output, and the definite one is not the only one. *)
Definition tnonlin (i : nat) : option term_solve :=
  match i with 0 => Some TNonlinear | 1 => Some (TAnswers TTerm) | _ => None end.

Theorem C64_nonlinear_refuted : exists l st,
  execs (term_config 3 tnonlin []) l (init (term_config 3 tnonlin [])) = Some st /\ s_pc st = PDone /\
  s_out st = [LAnswer "YES"; LAnswer "MAYBE"].
Proof.
  exists [AFork true; AFork true; AFork true; AEchild; AKid 1; AKid 1; AKid 1; AKid 0; AWait 0; AKill; AKill; AKill; AKill].
  eexists. split; [vm_compute; reflexivity|]. split; reflexivity.
Qed.

(** C64, refuted without [winner_survives]: not even MAYBE is printed. *)
Theorem C64_crash_refuted : exists l st,
  execs (term_config 3 ExPortfolio.tsolve []) l (init (term_config 3 ExPortfolio.tsolve [])) = Some st /\
  s_winner st = Some 1 /\ s_out st = [] /\ quiescent (term_config 3 ExPortfolio.tsolve []) st /\ forks_ok st.
Proof.
  exists [AFork true; AFork true; AFork true; AEchild; AKid 0; AKid 1; AKid 1; ACrash 1; AWait 0; AWait 1].
  eexists. split; [vm_compute; reflexivity|]. split; [reflexivity|]. split; [reflexivity|]. split.
  - intros a Na. destruct a as [ok|j|j|j| |]; try reflexivity.
    + do 3 (destruct j as [|j]; [reflexivity|]). destruct j; reflexivity.
    + exfalso. exact (Na j eq_refl).
    + do 3 (destruct j as [|j]; [reflexivity|]). destruct j; reflexivity.
  - vm_compute. intuition discriminate.
Qed.
