(** * C73: the answers of the termination mode. *)
From Coq Require Import Permutation.
From Verif Require Import Syntax Solver TransSys TSLemmas Graph GraphOps GraphOpsProofs DfsProofs ValidatorModel FormulaModel GraphSem Names SimpleTransModel ListLemmas MergeModel MergeProofs ChainProofs ElimModel InlineModel InlineProofs InlineStep BoolOracle PipelineModel PipelineProofs ChcSystem KTo1Model LinearModel LinearProofs LinearPath LinearTS NormModel NormProofs NormRun PropNorm PropInline PropPipeline PropGraph ExpandProofs ContractModel ContractProofs ContractLabels ContractSem ContractWf ContractDef LMerge TerminationModel TerminationProofs NontermProofs PropTermination SingleLoopProofs PropSingleLoop TermRuns TermChain TermElim TermInline TermStages PropTermFront Retag RetagStages PropRetag TermSystem NamedStages PropTermSystem TermNames.
From Verif Require Import SExprModel SExprProofs PropSExpr ItsModel ItsSpec ItsProofs PropIts.
From Verif Require Import ExTac.
From Verif Require PortfolioModel PortfolioProofs PortfolioTop PropPortfolio.
Open Scope string_scope.
Open Scope list_scope.
Open Scope nat_scope.

(** ** The model *)
(** [enum Method] (src/termination/Frontend.cc:332). *)
Inductive method := LassoFinder | StepCounter | NontermViaSafety.
(** [parseMethod] (src/termination/Frontend.cc:334-339). *)
Definition parse_method (s : string) : option method :=
  if String.eqb s "lasso-finder" then Some LassoFinder
  else if String.eqb s "step-counter" then Some StepCounter
  else if String.eqb s "nontermination-via-safety" then Some NontermViaSafety else None.
Section Run.
Variable e : engine.
Variable check : check_fn.
Variable qe : qe_fn.
Variable simp : term -> term.
Variable fuel : nat.
(** [solve] (src/termination/Frontend.cc:341-365).  [None]: the analysis does not end within the fuel.  An exception out of an
    analysis counts as the answer ERROR. *)
Definition solve_method (m : method) (ts : tsys) : option PortfolioModel.term_answer :=
  match m with
  | LassoFinder =>
    Some match find_lasso e ts with LASSO => PortfolioModel.TNonterm | NO_LASSO => PortfolioModel.TUnknown | LUNKNOWN => PortfolioModel.TError end
  | StepCounter =>
    Some match termination e ts with TYes => PortfolioModel.TTerm | TUnknown => PortfolioModel.TUnknown | _ => PortfolioModel.TError end
  | NontermViaSafety =>
    match fst (nonterm e check qe simp fuel ts) with
    | TYes => Some PortfolioModel.TTerm | TNo => Some PortfolioModel.TNonterm | TUnknown => Some PortfolioModel.TUnknown
    | TError => Some PortfolioModel.TError | TFuel => None
    end
  end.
Variable l_const : string -> option Z.
Variable l_mk : ItsModel.kind -> list term -> option term.
Variable code : string -> sym.
Variable o : tools.
Variables (newv newid : lgraph -> nat).
Variable ctr : nat.
Variable ord : list var -> list var.
(** [run] up to the analyses (src/termination/Frontend.cc:455-493); [None]: the parser or a term constructor throws. *)
Definition prepare (file : list sexpr) : option front :=
  match parse_its file with
  | None => None
  | Some s =>
    match as_chcs l_const l_mk code s with
    | None => None
    | Some cs =>
      match term_run o term_stages (build_graph cs) with
      | None => None
      | Some g => let f := front_graph g in Some (term_front (t_elim o) (newv f) (newid f) ctr ord f)
      end
    end
  end.
(** With [--termination-backend] (src/termination/Frontend.cc:434-443, 481-494): the line that is printed. *)
Definition print_with (m : method) (file : list sexpr) : option string :=
  match prepare file with
  | Some FYes => Some (PortfolioModel.term_text PortfolioModel.TTerm)
  | Some (FSystem ts) => option_map PortfolioModel.term_text (solve_method m ts)
  | _ => None
  end.
(** The methods in the order of the portfolio (src/termination/Frontend.cc:332, 394-398). *)
Definition nth_method (i : nat) : method := match i with 0 => LassoFinder | 1 => StepCounter | _ => NontermViaSafety end.
Definition portfolio (ts : tsys) : PortfolioModel.config :=
  PortfolioModel.term_config 3 (fun i => option_map PortfolioModel.TAnswers (solve_method (nth_method i) ts)) [].
(** Without the option: the lines on the output of some state of some schedule (src/termination/Frontend.cc:384-432). *)
Definition may_print (file : list sexpr) (l : list PortfolioModel.line) : Prop :=
  match prepare file with
  | Some FYes => l = [PortfolioModel.LAnswer "YES"]
  | Some (FSystem ts) => exists st, PortfolioModel.reachable (portfolio ts) st /\ l = PortfolioProofs.visible (PortfolioModel.s_out st)
  | _ => False
  end.

(** ** The theorems *)
Variable file : list sexpr.
(** The parts that are not modelled do their job. *)
Record parts_ok : Prop := {
  po_engine : engine_ok e;
  po_witness : forall vs, witness_ok e vs;
  po_check : check_ok check;
  po_qe : qe_ok qe;
  po_simp : simp_ok simp;
  po_logic : arith_logic_ok l_const l_mk;
  po_tools : tools_ok o;
  po_new : forall g, fresh_in g (newv g) (newid g);
  po_order : forall l, Permutation (ord l) l;
  po_code : symbols_ok file code;
  po_names : forall s cs, parse_its file = Some s -> as_chcs l_const l_mk code s = Some cs ->
    new_names (t_rewrite o) (build_graph cs) /\ named_rewriting not_counter (t_rewrite o) (build_graph cs)
}.
Hypothesis F : its_file file.
Hypothesis P : parts_ok.
Lemma prepared f : prepare file = Some f ->
  match f with
  | FYes => ~ its_runs_forever file
  | FSystem ts => ts_wf ts = true /\ init_apart ts /\ no_counter ts /\ (its_runs_forever file <-> exists s, Init ts s /\ forever ts s)
  | _ => True
  end.
Proof.
  unfold prepare. destruct P as [_ _ _ _ _ Pl Po Pn Pp Pc Pm]. destruct (parse_its file) as [s|] eqn:Es; [|discriminate]. destruct (as_chcs l_const l_mk code s) as [cs|] eqn:Ec; [|discriminate].
  destruct (term_run o term_stages (build_graph cs)) as [g|] eqn:Eg; [|discriminate]. intros X. injection X as <-.
  destruct (C71_its l_const l_mk code file s cs Pl F Pc Es Ec) as [R [L [Se [Sx C]]]]. destruct (Pm s cs eq_refl Ec) as [NN NC]. set (sig := its_sig code s) in *.
  pose proof (C72_from_clauses o sig cs g (t_elim o) _ _ ctr ord Po Se Sx C L NN Eg (to_elim o Po) (Pn (front_graph g)) Pp) as H.
  destruct (term_front _ _ _ _ _ _) as [|ts| |] eqn:Et; rewrite <- ?R; try exact Logic.I; [exact H|]. destruct H as [H1 H2]. split; [exact H1|].
  destruct (C72_graph o sig cs g Po Se Sx C L NN Eg) as [Wf [U [Nx _]]]. destruct NN as [FR TR NR].
  destruct (C70_termination_preprocessing o sig cs g Po Se Sx C L FR Eg) as [_ [W' L']].
  destruct (C29_normalization sig cs Se Sx C) as [W [A _]]. pose proof (C29_tidy sig cs Se Sx C) as T.
  assert (M : named not_counter (build_graph cs)).
  { destruct (bg_built sig cs Se Sx C) as [_ [_ [_ [PX _]]]].
    assert (Q : forall p b, In b (gpv (build_graph cs) p) -> not_counter (vbase b)) by (intros p b Hb; destruct (PX p b Hb) as [n [z ->]]; reflexivity).
    split; [exact Q|]. intros x v He Hv. destruct (label_cases sig cs Se Sx C x v He Hv) as [X|[n [z ->]]]; [|reflexivity].
    apply ChainStep.own_has_version in X as [p [_ [b [Hb [[i ->]| ->]]]]]; apply (Q p b Hb). }
  destruct (term_names not_counter counter_gaux o Po _ g W (C35_versioned _ A) (built_linear sig cs Se Sx C L) FR TR NC T M Eg) as [T' M'].
  destruct (Pn (front_graph g)) as [F1 F2].
  destruct (front_system (t_elim o) _ _ ctr ord g ts (to_elim o Po) W' T' L' Wf Nx U F1 F2 Pp M' Et) as [I1 I2]. auto.
Qed.
(** The nontermination analysis never took an answer UNKNOWN of the solver for another answer. *)
Definition decided (ts : tsys) : Prop := snd (nonterm e check qe simp fuel ts) = false.
Lemma method_ok m ts a : ts_wf ts = true -> init_apart ts -> no_counter ts -> (m = NontermViaSafety -> decided ts) -> solve_method m ts = Some a ->
  (a = PortfolioModel.TTerm -> ~ exists s, Init ts s /\ forever ts s) /\
  (a = PortfolioModel.TNonterm -> (m = NontermViaSafety -> exists s, Init ts s) -> exists s, Init ts s /\ forever ts s).
Proof.
  destruct P as [Pe Pw Pc Pq Ps _ _ _ _ _ _]. intros W A N D E. destruct m; cbn [solve_method] in E.
  - injection E as <-. destruct (C49_find_lasso e ts Pe W) as [H _]. destruct (find_lasso e ts); split; try discriminate. intros _ _. apply C49_lasso_forever; auto.
  - injection E as <-. pose proof (C47_termination_yes e ts Pe W N) as H. destruct (termination e ts); split; try discriminate. intros _ [s [Hs Fo]]. exact (proj2 (H eq_refl s Hs) Fo).
  - specialize (D eq_refl). unfold decided in D. destruct (nonterm e check qe simp fuel ts) as [r u] eqn:En. cbn [fst snd] in E, D. subst u. destruct r; try discriminate E; injection E as <-; split; try discriminate.
    + intros _ [s [Hs Fo]]. exact (terminating_not_forever ts s (C48_nonterm_yes e check qe simp fuel ts (Pw _) Pc Pq Ps W A En s Hs) Fo).
    + intros _ H. exact (C48_nonterm_no e check qe simp fuel ts (Pw _) Pc Pq Ps W A En (H eq_refl)).
Qed.
(** C73.  With one backend: YES is printed only if the system of the file has no infinite run, NO only if it has one - provided, for the
    backend [nontermination-via-safety], that the system it gets has an initial state. *)
Theorem C73_backend : forall m,
  (m = NontermViaSafety -> forall ts, prepare file = Some (FSystem ts) -> decided ts) ->
  (print_with m file = Some "YES" -> ~ its_runs_forever file) /\
  (print_with m file = Some "NO" -> (m = NontermViaSafety -> forall ts, prepare file = Some (FSystem ts) -> exists s, Init ts s) -> its_runs_forever file).
Proof.
  intros m D. unfold print_with. destruct (prepare file) as [f|] eqn:E; [|split; discriminate]. apply prepared in E. destruct f as [|ts| |]; [split; [auto|discriminate]| |split; discriminate..].
  destruct E as [W [A [N R]]]. destruct (solve_method m ts) as [a|] eqn:Es; [|split; discriminate]. destruct (method_ok m ts a W A N (fun H => D H ts eq_refl) Es) as [H1 H2]. cbn [option_map]. split; intros X.
  - rewrite R. apply H1. destruct a; discriminate X || reflexivity.
  - intros I. apply R, H2; [destruct a; discriminate X || reflexivity|]. intros K. exact (I K ts eq_refl).
Qed.
(** Without the option, whatever the scheduler does: nothing, or one line; YES only if the system has no infinite run, NO only if it has one
    or the analyses got a system without initial states. *)
Theorem C73_portfolio : forall l, may_print file l ->
  (forall ts, prepare file = Some (FSystem ts) -> decided ts) ->
  (l = [] \/ l = [PortfolioModel.LAnswer "YES"] \/ l = [PortfolioModel.LAnswer "NO"] \/ l = [PortfolioModel.LAnswer "MAYBE"]) /\
  (In (PortfolioModel.LAnswer "YES") l -> ~ its_runs_forever file) /\
  (In (PortfolioModel.LAnswer "NO") l -> (forall ts, prepare file = Some (FSystem ts) -> exists s, Init ts s) -> its_runs_forever file).
Proof.
  intros l M D. unfold may_print in M. destruct (prepare file) as [f|] eqn:E; [|contradiction]. pose proof (prepared f E) as H. destruct f as [|ts| |]; try contradiction.
  - subst l. split; [auto|]. split; [intros _; exact H|]. intros [X|[]]. discriminate X.
  - destruct H as [W [A [N R]]]. destruct M as [st [Re ->]].
    assert (NL : forall i, i < 3 -> option_map PortfolioModel.TAnswers (solve_method (nth_method i) ts) <> Some PortfolioModel.TNonlinear) by (intros i _; destruct (solve_method (nth_method i) ts); discriminate).
    destruct (PropPortfolio.C64_output 3 _ [] NL st Re) as [O|[[i [a [Li [Df O]]]]|[O _]]].
    + rewrite O. split; [auto|]. split; intros [].
    + rewrite O. destruct (solve_method (nth_method i) ts) as [b|] eqn:Es; [|destruct Df as [[X _]|[X _]]; discriminate X]. destruct (method_ok _ ts b W A N (fun _ => D ts eq_refl) Es) as [H1 H2]. cbn [option_map] in Df.
      destruct Df as [[X ->]|[X ->]]; injection X as ->.
      * split; [auto|]. split; [intros _; rewrite R; apply H1; reflexivity|]. intros [X|[]]. discriminate X.
      * split; [auto|]. split; [intros [X|[]]; discriminate X|]. intros _ I. apply R, H2; [reflexivity|]. intros _. exact (I ts eq_refl).
    + rewrite O. split; [auto|]. split; intros [X|[]]; discriminate X.
Qed.
End Run.
Print Assumptions C73_backend.
Print Assumptions C73_portfolio.

(** ** Examples *)
(** [blocked = false]: start(x) -> loop(x) -> loop(x) -> ...; [blocked = true]: the first rule has a guard that nothing satisfies. *)
Module ExTermAnswer.
Import ExPipeline ExTermFront ExTermSystem ExIts.
Definition stop : sexpr := SList [A "and"; ap ["<"; "x"; "0"]; ap [">"; "x"; "0"]].
Definition file (blocked : bool) : list sexpr :=
  [SList [A "fun"; A "start"; int1]; SList [A "fun"; A "loop"; int1]; ap ["entrypoint"; "start"];
   SList (A "rule" :: ap ["start"; "x"] :: ap ["loop"; "x"] :: if blocked then [A ":guard"; stop] else []);
   SList [A "rule"; ap ["loop"; "x"]; ap ["loop"; "x"]]].
Lemma file_declares b f n : declares (file b) f n -> (f = "start" \/ f = "loop") /\ n = 1.
Proof.
  intros [[-> H]|H]; cbn [file In] in H; repeat (destruct H as [H|H]; [try discriminate H|]); try contradiction H.
  - assert (X : A f = A "start") by (symmetry; exact (f_equal second H)). injection H as _ H2.  apply atom_inj in X. apply (f_equal (@length sexpr)) in H2. rewrite repeat_length in H2. cbn in H2. split; [auto|lia].
  - assert (X : A f = A "loop") by (symmetry; exact (f_equal second H)). injection H as _ H2.  apply atom_inj in X. apply (f_equal (@length sexpr)) in H2. rewrite repeat_length in H2. cbn in H2. split; [auto|lia].
Qed.
Lemma file_ok b : its_file (file b).
Proof.
  assert (D1 : declares (file b) "start" 1) by (right; cbn; tauto). assert (D2 : declares (file b) "loop" 1) by (right; cbn; tauto).
  assert (Lx : forall f, declares (file b) f 1 -> location_form (file b) (ap [f; "x"]) ["x"]).
  { intros f D. exists f. split; [right; reflexivity|]. split; [exact D|]. apply names_ok. reflexivity. }
  split.
  - repeat apply Forall_cons; try apply Forall_nil.
    + apply (df_fun _ "start" 1).
    + apply (df_fun _ "loop" 1).
    + apply (df_entry _ "start"). eauto.
    + destruct b; [|apply (df_rule _ _ _ ["x"] ["x"]); apply Lx; auto].
      apply (df_guarded _ _ _ ["x"] ["x"] stop); [apply Lx; auto..|apply guard_formb_ok; vm_compute; reflexivity| |apply apart_dec; vm_compute; reflexivity].
      split; [|vm_compute; tauto]. repeat constructor; apply apart_dec; vm_compute; reflexivity.
    + apply (df_rule _ _ _ ["x"] ["x"]); apply Lx; auto.
  - intros f n m H1 H2. apply file_declares in H1, H2. destruct H1, H2; congruence.
  - exists "start". cbn. tauto.
  - assert (U : forall f, In (SList [atom_of "entrypoint"; atom_of f]) (file b) -> f = "start").
    { intros f H. cbn [file In] in H. repeat (destruct H as [H|H]; [try discriminate H|]); try contradiction H.
      - assert (X : A f = A "start") by (symmetry; exact (f_equal second H)). apply atom_inj in X. exact X. }
    intros f g H1 H2. rewrite (U f H1), (U g H2). reflexivity.
Qed.
Lemma code_ok b : symbols_ok (file b) code.
Proof.
  intros f n H. apply file_declares in H as [K _]. split; [|split].
  - destruct K as [->| ->]; discriminate.
  - destruct K as [->| ->]; discriminate.
  - intros g m H. apply file_declares in H as [K' _]. destruct K as [->| ->], K' as [->| ->]; auto; discriminate.
Qed.
(** New vertices and edges. *)
Definition newv (g : lgraph) : nat := S (list_max (lvertices g)).
Definition newid (g : lgraph) : nat := S (list_max (map lid (ledges g))).
Lemma new_ok g : fresh_in g (newv g) (newid g).
Proof.
  assert (M : forall n l, In n l -> n <= list_max l) by (intros n l Hn; apply (proj1 (Forall_forall _ l) (proj1 (list_max_le l (list_max l)) (Nat.le_refl _)) n Hn)).
  split; [intros V; apply lvertices_spec in V; apply M in V; unfold newv in V; lia|].
  intros e He E. apply (in_map lid) in He. apply M in He. unfold newid in E. lia.
Qed.
Notation prep b := (prepare numeral plain_mk code tools1 newv newid 0 (fun l => l) (file b)).
Definition x : var := mkVar "x#0" (TTime 0) SInt.
Definition system (f : option front) : tsys := match f with Some (FSystem ts) => ts | _ => mkTS [] [] tt_true tt_true tt_true end.
Definition ts0 : tsys := Eval vm_compute in system (prep false).
Definition ts1 : tsys := Eval vm_compute in system (prep true).
Definition tsof (b : bool) : tsys := if b then ts1 else ts0.
Lemma prep_system b : prep b = Some (FSystem (tsof b)).
Proof. destruct b; vm_compute; reflexivity. Qed.
Definition trans : term := Eval vm_compute in ttrans (tsof true).
Lemma shape b : svars (tsof b) = [x] /\ ttrans (tsof b) = trans /\ ts_wf (tsof b) = true.
Proof. destruct b; vm_compute; auto. Qed.
Definition init1 : term := Eval vm_compute in tinit (tsof true).
Lemma no_start r : ~ holds r init1.
Proof.
  intros H. unfold holds, holdsb, init1 in H. cbn -[Z.leb] in H. fold x in H. destruct (coerce_SInt (r x)) as [z E]. rewrite !E in H. clear E. cbn -[Z.leb] in H.
  destruct (Z.leb_spec 0 z), (Z.leb_spec z 0); cbn in H; try discriminate; lia.
Qed.
Definition e : engine := table_engine [(term_clauses (tsof true) 1, ESafe tt_false); (lasso_clauses (tsof false), EUnsafe 3)].
Definition none : sym -> list value -> Prop := fun _ _ => False.
Lemma none_model : cmodel (term_clauses (tsof true) 1) none.
Proof.
  intros c r [<-|[<-|[<-|[]]]]; cbn [chead cbody cfla]; intros Hb Hf.
  - apply (no_start r). apply holds_and in Hf. inversion Hf. assumption.
  - exact (Hb _ (or_introl eq_refl)).
  - exact (Hb _ (or_introl eq_refl)).
Qed.
Definition zero : state := fun _ => VInt 0.
Lemma stays b : Step (tsof b) zero zero.
Proof.
  destruct (shape b) as [E1 [E2 _]]. exists zero. split; [intros v _; reflexivity|]. split; [intros v _; reflexivity|]. rewrite E2. vm_compute. reflexivity.
Qed.
Lemma starts : Init (tsof false) zero.
Proof. exists zero. split; [intros v _; reflexivity|]. vm_compute. reflexivity. Qed.
Lemma e_ok : engine_ok e.
Proof.
  apply table_engine_ok; intros cs y [H|[H|[]]]; try discriminate; injection H as <- _.
  - apply csat_iff. exists none. split; [exact none_model|intros []].
  - apply C49_lasso; [apply (shape false)|]. exists 0, 1, zero, zero, zero. split; [exact starts|]. split; [constructor|]. split; [econstructor; [exact (stays false)|apply Steps_1; exact (stays false)]|reflexivity].
Qed.
Lemma e_witness vs : witness_ok e vs.
Proof.
  apply table_witness_ok. intros init t query inv [H|[H|[]]]; [|discriminate (f_equal snd H)]. pose proof (f_equal fst H) as X. pose proof (f_equal snd H) as Y. cbn [fst snd] in X, Y. injection Y as Y. rewrite <- X, <- Y.
  split; [intros v []|]. exists none. split; [exact none_model|]. split; [intros []|]. intros r. split; [intros []|discriminate].
Qed.
Definition qe : qe_fn := table_qe [(trans, [x], tt_true)].
Lemma qe_good : qe_ok qe.
Proof.
  apply table_qe_ok. constructor; [|constructor]. split; [intros v []|]. intros r. cbn [fst snd]. split; [|reflexivity]. intros _. destruct (coerce_SInt (r x)) as [z E].
  exists (fun v => match vtag v with TTime 1 => VInt z | _ => r v end). split; [intros v [<-|[]]; reflexivity|]. unfold holds, holdsb, trans. cbn. fold x. rewrite E. change (coerce SInt (VInt z)) with (VInt z). cbn. rewrite ?Z.eqb_refl. reflexivity.
Qed.
Definition simp (t : term) : term := if term_eqb t (mkNot tt_true) then tt_false else t.
Lemma simp_good : simp_ok simp.
Proof. intros t. unfold simp. destruct (term_eqb_spec t (mkNot tt_true)) as [->|_]; [|split; [tauto|auto]]. split; [intros r; split; intros H; discriminate H|intros v []]. Qed.
Definition check : check_fn := fun _ => UNKNOWN.
Lemma check_good : check_ok check.
Proof. split; discriminate. Qed.
Lemma good b : parts_ok e check qe simp numeral plain_mk code tools1 newv newid (fun l => l) (file b).
Proof.
  split; [exact e_ok|exact e_witness|exact check_good|exact qe_good|exact simp_good|exact plain_mk_ok|exact tools1_ok|exact new_ok|intros l; apply Permutation_refl|apply code_ok|].
  intros s cs Es Ec. destruct (C71_its numeral plain_mk code (file b) s cs plain_mk_ok (file_ok b) (code_ok b) Es Ec) as [_ [_ [Se [Sx C]]]].
  destruct (C29_normalization _ cs Se Sx C) as [_ [U _]]. pose proof (C35_versioned _ U) as V.
  split; [split; [apply id_fresh, V|intros y v He Hv B; destruct (V y v He Hv B)..]|intros y v He Hv B; destruct (V y v He Hv B)].
Qed.
Lemma is_decided b : decided e check qe simp 1 (tsof b).
Proof. destruct b; vm_compute; reflexivity. Qed.
Lemma all_decided b ts : prep b = Some (FSystem ts) -> decided e check qe simp 1 ts.
Proof. rewrite prep_system. intros X. injection X as <-. apply is_decided. Qed.
Notation printed m b := (print_with e check qe simp 1 numeral plain_mk code tools1 newv newid 0 (fun l => l) m (file b)).
Example answers : map (fun m => printed m false) [LassoFinder; StepCounter; NontermViaSafety] = [Some "NO"; Some "ERROR"; Some "NO"] /\
                  map (fun m => printed m true) [LassoFinder; StepCounter; NontermViaSafety] = [Some "ERROR"; Some "YES"; Some "NO"].
Proof. split; vm_compute; reflexivity. Qed.
Definition backend m b := C73_backend e check qe simp 1 numeral plain_mk code tools1 newv newid 0 (fun l => l) (file b) (file_ok b) (good b) m (fun _ => all_decided b).
(** Both methods find the infinite run of the first file; the step counter proves that the second has none. *)
Lemma yes m b : printed m b = Some "YES" -> ~ its_runs_forever (file b).
Proof. exact (proj1 (backend m b)). Qed.
Lemma no m b : printed m b = Some "NO" -> (m = NontermViaSafety -> exists s, Init (tsof b) s) -> its_runs_forever (file b).
Proof. intros H I. apply (proj2 (backend m b) H). intros K ts X. rewrite prep_system in X. injection X as <-. exact (I K). Qed.
Lemma lasso_not : LassoFinder <> NontermViaSafety.
Proof. discriminate. Qed.
Lemma no_lasso : printed LassoFinder false = Some "NO".
Proof. vm_compute. reflexivity. Qed.
Lemma no_nonterm b : printed NontermViaSafety b = Some "NO".
Proof. destruct b; vm_compute; reflexivity. Qed.
Lemma yes_step : printed StepCounter true = Some "YES".
Proof. vm_compute. reflexivity. Qed.
Example runs : its_runs_forever (file false).
Proof. apply (no LassoFinder false no_lasso). intros K. destruct (lasso_not K). Qed.
Example runs' : its_runs_forever (file false).
Proof. apply (no NontermViaSafety false (no_nonterm false)). intros _. exists zero. exact starts. Qed.
Example stops : ~ its_runs_forever (file true).
Proof. exact (yes StepCounter true yes_step). Qed.
Notation may b := (may_print e check qe simp 1 numeral plain_mk code tools1 newv newid 0 (fun l => l) (file b)).
Definition sched (i : nat) : list PortfolioModel.action :=
  let k := PortfolioModel.AKid i in
  [PortfolioModel.AFork true; PortfolioModel.AFork true; PortfolioModel.AFork true; PortfolioModel.AEchild; k; k; k; k; PortfolioModel.AWait i; PortfolioModel.AKill; PortfolioModel.AKill; PortfolioModel.AKill; PortfolioModel.AKill].
Lemma schedule i l : option_map (fun st => PortfolioProofs.visible (PortfolioModel.s_out st)) (PortfolioModel.execs (portfolio e check qe simp 1 ts1) (sched i) (PortfolioModel.init (portfolio e check qe simp 1 ts1))) = Some l -> may true l.
Proof.
  intros H. unfold may_print. rewrite prep_system. change (tsof true) with ts1. destruct (PortfolioModel.execs _ _ _) as [st|] eqn:E; [|discriminate H]. injection H as <-. exists st. split; [exists (sched i); exact E|reflexivity].
Qed.
Lemma prints_yes : may true [PortfolioModel.LAnswer "YES"].
Proof. apply (schedule 1). vm_compute. reflexivity. Qed.
Lemma prints_no : may true [PortfolioModel.LAnswer "NO"].
Proof. apply (schedule 2). vm_compute. reflexivity. Qed.
Definition pf b := C73_portfolio e check qe simp 1 numeral plain_mk code tools1 newv newid 0 (fun l => l) (file b) (file_ok b) (good b).
Lemma may_yes b l : may b l -> In (PortfolioModel.LAnswer "YES") l -> ~ its_runs_forever (file b).
Proof. intros M I. exact (proj1 (proj2 (pf b l M (all_decided b))) I). Qed.
Example portfolio_applies : ~ its_runs_forever (file true).
Proof. exact (may_yes true _ prints_yes (or_introl eq_refl)). Qed.
End ExTermAnswer.

(** ** What fails *)
(** [nontermination-via-safety] prints NO for a system without an infinite run whose first step is impossible: it looks for states without
    a successor before it looks at the initial states. *)
Theorem C73_no_start_refuted :
  exists e check qe simp fuel l_const l_mk code o newv newid ctr ord file,
    its_file file /\ parts_ok e check qe simp l_const l_mk code o newv newid ord file /\
    (forall ts, prepare l_const l_mk code o newv newid ctr ord file = Some (FSystem ts) -> decided e check qe simp fuel ts) /\
    print_with e check qe simp fuel l_const l_mk code o newv newid ctr ord NontermViaSafety file = Some "NO" /\ ~ its_runs_forever file.
Proof.
  exists ExTermAnswer.e, ExTermAnswer.check, ExTermAnswer.qe, ExTermAnswer.simp, 1, numeral, ExIts.plain_mk, ExIts.code, ExTermSystem.tools1, ExTermAnswer.newv, ExTermAnswer.newid, 0, (fun l => l), (ExTermAnswer.file true).
  split; [apply ExTermAnswer.file_ok|]. split; [apply ExTermAnswer.good|]. split; [exact (ExTermAnswer.all_decided true)|]. split; [exact (ExTermAnswer.no_nonterm true)|exact ExTermAnswer.stops].
Qed.
Print Assumptions C73_no_start_refuted.
(** Without the option, YES or NO is printed for this system, as the scheduler likes. *)
Theorem C73_race_refuted :
  exists e check qe simp fuel l_const l_mk code o newv newid ctr ord file,
    its_file file /\ parts_ok e check qe simp l_const l_mk code o newv newid ord file /\
    (forall ts, prepare l_const l_mk code o newv newid ctr ord file = Some (FSystem ts) -> decided e check qe simp fuel ts) /\
    may_print e check qe simp fuel l_const l_mk code o newv newid ctr ord file [PortfolioModel.LAnswer "YES"] /\
    may_print e check qe simp fuel l_const l_mk code o newv newid ctr ord file [PortfolioModel.LAnswer "NO"].
Proof.
  exists ExTermAnswer.e, ExTermAnswer.check, ExTermAnswer.qe, ExTermAnswer.simp, 1, numeral, ExIts.plain_mk, ExIts.code, ExTermSystem.tools1, ExTermAnswer.newv, ExTermAnswer.newid, 0, (fun l => l), (ExTermAnswer.file true).
  split; [apply ExTermAnswer.file_ok|]. split; [apply ExTermAnswer.good|]. split; [exact (ExTermAnswer.all_decided true)|]. split; [exact ExTermAnswer.prints_yes|exact ExTermAnswer.prints_no].
Qed.
Print Assumptions C73_race_refuted.
