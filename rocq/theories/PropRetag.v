(** * C38, C67: engines for linear graphs after the preprocessing.

    The theorems about the linear engines (C14, C17, C44, C53) ask for auxiliary variables whose names are those of versions
    ([aux_versioned]).  The names in a preprocessed graph are: the graph written with these names ([retag], Retag.v) is the same
    graph, name by name, and meets the condition. *)
From Coq Require Import String List Permutation.
From Verif Require Import Syntax Solver TransSys Graph GraphOps GraphOpsProofs ValidatorModel FormulaModel GraphSem Names SimpleTransModel UnreachProofs SimpleTransProofs MergeModel ElimModel InlineModel InlineProofs ChcSystem NormModel NormProofs NormRun PropNorm PropInline PipelineModel PipelineProofs PipelineTotal Retag RetagStages TermStages LinearModel LinearProofs LinearPath PropLinear.
From Verif Require Import NontermProofs PdkModel LawiModel LawiTree LawiProofs LawiRun PropLawi BoolOracle.
From Verif Require Import FrontModel FrontSpec FrontProofs FrontClause FrontScript PropFront FrontEx PropPipeline.
Import ListNotations.
Local Open Scope list_scope.
Local Open Scope nat_scope.

(** ** The graph of the clauses *)
Theorem C29_tidy : forall sig cs, sig entry = [] -> sig exit = [] -> (forall c, In c cs -> clause_ok sig c) -> tidy (build_graph cs).
Proof.
  intros sig cs Se Sx C. destruct (bg_built sig cs Se Sx C) as [_ [_ [_ [PX _]]]]. split.
  - intros p b Hb. destruct (PX p b Hb) as [n [s ->]]. destruct (plain_numbered "x" (Z.of_nat n) eq_refl) as [H|[[|a [|b q]] H]]; [exact H|discriminate..].
  - intros p b k s Hb. destruct (PX p b Hb) as [n [s' ->]]. discriminate.
  - intros e v He Hv N. destruct (label_cases sig cs Se Sx C e v He Hv) as [X|[n [s ->]]]; [contradiction|]. left. split; [reflexivity|]. split.
    + destruct (plain_numbered "aux" (Z.of_nat n) eq_refl) as [H|[[|a [|b [|c [|d q]]]] H]]; [exact H|discriminate..].
    + intros p b Hb. destruct (PX p b Hb) as [k [s' ->]]. discriminate.
Qed.
Print Assumptions C29_tidy.

(** ** The preprocessed graphs *)
(** What is said about a graph [g] that is given to an engine for linear graphs. *)
Record readable (g : hgraph) : Prop := {
  rd_names : map (fun e => (eid e, efrom e, eto e, map encode (vars (efla e)))) (gedges (retag g)) =
             map (fun e => (eid e, efrom e, eto e, map encode (vars (efla e)))) (gedges g);
  rd_wf : wf_graph (retag g);
  rd_versioned : aux_versioned (retag g);
  rd_normal : is_normal (retag g) = is_normal g;
  rd_derivable : forall p vs, derivable (retag g) p vs <-> derivable g p vs;
  rd_solution : forall w, solution (retag g) w <-> solution g w;
  rd_error : forall d, error_derivation (retag g) d <-> error_derivation g d
}.
Lemma tidy_readable g : wf_graph g -> tidy g -> readable g.
Proof.
  intros W T. split.
  - apply retag_names.
  - apply retag_wf; assumption.
  - apply retag_versioned; assumption.
  - apply retag_normal.
  - intros p vs. symmetry. apply retag_derivable; assumption.
  - apply retag_solution; assumption.
  - apply retag_error; assumption.
Qed.
(** After the default pipeline, and after the pipeline of the engines for transition systems. *)
Theorem C38_linear_engines :
  forall o sig cs t, sig entry = [] -> sig exit = [] -> (forall c, In c cs -> clause_ok sig c) ->
    tools_ok o -> fresh_rewriting (t_rewrite o) (build_graph cs) -> tidy_rewriting (t_rewrite o) (build_graph cs) ->
    run_stages o default_stages (build_graph cs) = Some t ->
    readable (tr_graph t) /\ forall t', run_stages o towards_stages (tr_graph t) = Some t' -> readable (tr_graph t').
Proof.
  intros o sig cs t Se Sx C O FR TR E. destruct (C29_normalization sig cs Se Sx C) as [W [A _]]. pose proof (C29_tidy sig cs Se Sx C) as T.
  destruct (C38_default_pipeline o _ t O W (C35_versioned _ A) FR E) as [W1 [U1 _]].
  pose proof (tidy_default o O _ t W (C35_versioned _ A) T FR TR E) as T1. split; [apply tidy_readable; assumption|].
  intros t' E'. destruct (C38_towards_transition_systems o _ t' O W1 U1 E') as [W2 _]. apply tidy_readable; [exact W2|].
  exact (tidy_towards o O _ t' W1 U1 T1 E').
Qed.
Print Assumptions C38_linear_engines.

(** ** LAWI as the engine *)
Definition lawi_engine c check pitp simp part cw fuel (g : hgraph) : eresult :=
  match lawi c check pitp simp part false cw fuel (retag g) with
  | LSafe w => ESafe (option_map (listed g) w)
  | LUnsafe d => EUnsafe d
  | LThrow => PipelineModel.EThrow
  | LUnknown | LFuel => PipelineModel.EUnknown
  end.
(** A derivation along a path derives [false] at its end only. *)
Lemma path_error g d : wf_graph g -> refutation g d -> option_map st_clause (nth_error d 0) = Some no_id ->
  (forall i s, nth_error d (S i) = Some s -> st_premises s = [i]) -> error_derivation g d.
Proof.
  intros W R F P. split; [exact R|exact F|]. intros i s Hi Hx. destruct (nth_error d (S i)) as [s'|] eqn:E.
  - exfalso. destruct R as [_ _ R]. destruct (R (S i) s' ltac:(lia) E) as [e [ps [He [_ [Hp Hf]]]]].
    rewrite (P i s' E) in Hp. inversion Hp as [|? f ? ps' Hj Hr Y1 Y2]; subst. inversion Hr; subst. destruct Hj as [_ Hj]. rewrite Hi in Hj. cbn in Hj. injection Hj as Hj.
    destruct Hf as [r [_ [Hf _]]]. apply (wf_exit g W e He). assert (In f (map (fun pi => (fst pi, args r (src_vars g pi))) (instances (efrom e)))) as X by (rewrite <- Hf; left; reflexivity).
    apply in_map_iff in X as [[p k] [X1 X2]]. rewrite <- Hj in X1. destruct s as [pr f0 cl]. cbn [st_fact fst] in *. rewrite <- X1 in Hx. cbn [fst] in Hx. subst p.
    apply (in_instances _ _ _ X2).
  - apply nth_error_None in E. assert (i < length d) by (apply nth_error_Some; congruence). lia.
Qed.
Lemma path_shape check g ids d : from_error_path check g ids = PathDerivation d ->
  option_map st_clause (nth_error d 0) = Some no_id /\ forall i s, nth_error d (S i) = Some s -> st_premises s = [i].
Proof.
  unfold from_error_path. destruct ids as [|i0 l]; [discriminate|]. destruct (path_edges g (i0 :: l)) as [es|]; [|discriminate].
  destruct (check (path_labels 0 es)) as [r| |]; try discriminate. intros E. injection E as <-. split; [reflexivity|]. cbn [nth_error].
  assert (X : forall es vs k i s, nth_error (path_steps g r k es vs) i = Some s -> st_premises s = [k + i - 1]).
  { clear. induction es as [|e es IH]; intros vs k i s H; [destruct i; discriminate|]. destruct vs as [|v vs]; [destruct i; discriminate|].
    destruct i as [|i]; cbn in H; [injection H as <-; cbn; f_equal; lia|]. rewrite (IH vs (S k) i s H). f_equal. lia. }
  intros i s H. rewrite (X _ _ _ _ _ H). f_equal. lia.
Qed.
Section Shape.
Variables (c : ctors) (check : check_fn) (pitp : pitp_fn) (simp : term -> term) (part : list ledge -> list ledge) (cw : bool) (g : lgraph).
Lemma unsafe_shape : forall fuel st d, unwind c check pitp simp part false cw g fuel st = LUnsafe (Some d) -> exists ids, from_error_path check g ids = PathDerivation d.
Proof.
  induction fuel as [|f IH]; intros st d H; [discriminate|]. cbn [unwind] in H. destruct (uncovered_leaf st) as [v|]; [|destruct cw; discriminate].
  destruct (dfs c check pitp part false g f _ v) as [s2|ids| |]; try discriminate; [exact (IH _ _ H)|]. destruct cw; [|discriminate].
  destruct (from_error_path check g ids) eqn:E; try discriminate. injection H as <-. eauto.
Qed.
Lemma safe_shape : forall fuel st w, unwind c check pitp simp part false cw g fuel st = LSafe (Some w) -> exists s, w = lawi_defs c simp g s.
Proof.
  induction fuel as [|f IH]; intros st w H; [discriminate|]. cbn [unwind] in H. destruct (uncovered_leaf st) as [v|].
  - destruct (dfs c check pitp part false g f _ v) as [s2|ids| |]; try discriminate; [exact (IH _ _ H)|]. destruct cw; [|discriminate].
    destruct (from_error_path check g ids); discriminate.
  - destruct cw; [|discriminate]. injection H as <-. eauto.
Qed.
End Shape.
Theorem C67_lawi :
  forall c check pitp simp part cw fuel g,
    ctors_ok c -> check_ok check -> pitp_ok pitp -> simp_ok simp -> (forall l, Permutation (part l) l) ->
    wf_graph g -> readable g ->
    right_answer g (lawi_engine c check pitp simp part cw fuel g).
Proof.
  intros c check pitp simp part cw fuel g H1 H2 H3 H4 H5 W [_ R1 R2 R3 R4 R5 R6].
  pose proof (C14_lawi c check pitp simp part cw fuel (retag g) H1 H2 H3 H4 H5 R1 R2) as X. unfold lawi_engine.
  destruct (lawi c check pitp simp part false cw fuel (retag g)) as [w|d| | |] eqn:E; cbn [right_answer]; auto.
  - destruct X as [X1 X2]. split; [rewrite <- R4; apply chc_sat_iff, X1|]. intros l El. destruct w as [w|]; [|discriminate]. injection El as <-.
    assert (Ow : only g w).
    { unfold lawi in E. rewrite R3 in E. destruct (is_normal g) eqn:Nm; [|discriminate]. apply safe_shape in E as [s ->]. intros p Hp. unfold lawi_defs in Hp.
      unfold trivial_defs in Hp. destruct (Nat.eqb_spec p entry); [left; exact e|]. destruct (Nat.eqb_spec p exit); [right; left; exact e|].
      destruct (smem p (lvertices (to_normal (retag g)))) eqn:Es; [|destruct (Hp eq_refl)]. apply smem_in, lvertices_spec in Es.
      destruct Es as [Es|[Es|[x [Hx Es]]]]; [left; exact Es|right; left; exact Es|]. apply in_map_iff in Hx as [y [<- Hy]]. apply (retag_vertex g p). right. right. exists y.
      split; [exact Hy|]. destruct Es as [Es|Es]; [left|right; exact Es]. assert (Nr : is_normal (retag g) = true) by congruence. unfold is_normal in Nr. apply (proj1 (forallb_forall _ _) Nr) in Hy. cbn [normal_edge lfrom] in Es.
      destruct (efrom y) as [|q [|? ?]]; try discriminate Hy. left. symmetry. exact Es. }
    split.
    + apply (solution_ext g w); [intros p; symmetry; apply listed_lookup; assumption|]. apply R5, X2.
    + intros p Hp. rewrite (listed_lookup g w W Ow) in Hp. exact (Ow p Hp).
  - destruct X as [X1 X2]. rewrite chc_sat_iff in X1. split.
    + rewrite <- R4. destruct d as [d|]; [exact (refutation_derivable _ d X2)|]. unfold lawi in E. destruct (is_normal (retag g)) eqn:Nm; [|discriminate].
      pose proof (lawi_run_ok c H1 check H2 pitp H3 simp H4 part H5 false cw (to_normal (retag g)) (normal_wf _ R1 Nm R2) fuel) as Y. rewrite E in Y. destruct Y as [[d' Y] _].
      apply (normal_refutation _ R1 Nm R2) in Y. exact (refutation_derivable _ d' Y).
    + intros x Ex. subst d. apply R6. unfold lawi in E. rewrite R3 in E. destruct (is_normal g); [|discriminate]. apply unsafe_shape in E as [ids E].
      destruct (path_shape check _ ids x E). apply path_error; assumption.
Qed.
Print Assumptions C67_lawi.

(** ** Example *)
Module ExRetag.
Import ExPipeline.
(** Path interpolants from interpolants. *)
Fixpoint bchain (J : term) (parts : list (list term)) : option (list term) :=
  match parts with
  | [] => None
  | [A] => match bcheck (J :: A) with UNSAT => Some [] | _ => None end
  | A :: rest => match bitp (J :: A) (concat rest) with Some K => option_map (cons K) (bchain K rest) | None => None end
  end.
Lemma bchain_ok : forall parts pre J Is, (forall v, In v (vars J) -> In v (lvars (concat pre))) -> bchain J parts = Some Is ->
  itp_chain J parts Is /\ forall i I, nth_error Is i = Some I -> forall v, In v (vars I) ->
    In v (lvars (concat (pre ++ firstn (S i) parts))) /\ In v (lvars (concat (skipn (S i) parts))).
Proof.
  assert (X : forall parts pre J Is, length parts <= length parts -> (forall v, In v (vars J) -> In v (lvars (concat pre))) -> bchain J parts = Some Is ->
  itp_chain J parts Is /\ forall i I, nth_error Is i = Some I -> forall v, In v (vars I) ->
    In v (lvars (concat (pre ++ firstn (S i) parts))) /\ In v (lvars (concat (skipn (S i) parts)))); [|eauto].
  induction parts as [|A rest IH]; intros pre J Is _ HJ H; [discriminate|]. destruct rest as [|B rest].
  - cbn [bchain] in H. destruct (bcheck (J :: A)) eqn:E; try discriminate. injection H as <-. split.
    + constructor. intros r H1 H2. exact (check_unsat _ bcheck_ok _ E r (Forall_cons _ H1 H2)).
    + intros i I Hi. destruct i; discriminate.
  - change (match bitp (J :: A) (concat (B :: rest)) with Some K => option_map (cons K) (bchain K (B :: rest)) | None => None end = Some Is) in H.
    destruct (bitp (J :: A) (concat (B :: rest))) as [K|] eqn:E; [|discriminate]. destruct (bchain K (B :: rest)) as [Ks|] eqn:E2; [|discriminate]. cbn in H. injection H as <-.
    destruct (bitp_ok _ _ _ E) as [I1 I2 I3].
    assert (V : forall v, In v (vars K) -> In v (lvars (concat (pre ++ [A])))).
    { intros v Hv. apply I3 in Hv as [Hv _]. apply in_lvars in Hv as [t [Ht Hv]]. rewrite concat_app. destruct Ht as [<-|Ht].
      - apply HJ, in_lvars in Hv as [u [Hu Hv]]. apply in_lvars. exists u. split; [apply in_app_iff; auto|exact Hv].
      - apply in_lvars. exists t. split; [apply in_app_iff; right; cbn; rewrite app_nil_r; exact Ht|exact Hv]. }
    destruct (IH (pre ++ [A]) K Ks (le_n _) V E2) as [C1 C2]. split.
    + constructor; [|exact C1]. intros r H1 H2. apply I1. constructor; assumption.
    + intros i I Hi v Hv. destruct i as [|i]; cbn [nth_error] in Hi.
      * injection Hi as <-. split; [exact (V v Hv)|apply I3, Hv].
      * destruct (C2 i I Hi v Hv) as [D1 D2]. split; [|exact D2]. rewrite <- app_assoc in D1. exact D1.
Qed.
Lemma bpitp_ok : pitp_ok (bchain tt_true).
Proof. intros As Is H. destruct (bchain_ok As [] tt_true Is (fun v (X : In v (vars tt_true)) => False_ind _ X) H) as [C1 C2]. split; [exact C1|exact C2]. Qed.

(** P(true, false); P(x, y) => P(y, x); P(x, y) => Q(y, x); Q(x, y) => R(x, y); R(x, y) => R(y, x); R(x, y) /\ x /\ y => false (for
    [bad]: R(x, y) /\ y => false).  The summarization of the chain from P to R leaves the source variables of Q. *)
Definition x := mkVar "x" TBase SBool. Definition y := mkVar "y" TBase SBool.
Definition at2 (s : sym) (u v : var) := mkAtom s [Var u; Var v].
Definition sys (bad : bool) : list clause :=
  [mkClause (at2 2 x y) (mkAnd [Var x; mkNot (Var y)]) [];
   mkClause (at2 2 y x) tt_true [at2 2 x y];
   mkClause (at2 3 y x) tt_true [at2 2 x y];
   mkClause (at2 4 x y) tt_true [at2 3 x y];
   mkClause (at2 4 y x) tt_true [at2 4 x y];
   mkClause (mkAtom exit []) (mkAnd ((if bad then [] else [Var x]) ++ [Var y])) [at2 4 x y]].
Definition sg (s : sym) : list sort := if Nat.leb 2 s then [SBool; SBool] else [].
Lemma sys_fine bad c : In c (sys bad) -> clause_ok sg c.
Proof.
  intros H. assert (X : forall b, forallb plainb (concat (map clause_vars (sys b))) = true) by (intros [|]; reflexivity).
  assert (N : forall v, In v (clause_vars c) -> ~ NormProofs.reserved v).
  { intros v Hv. apply (plainb_ok _ (X bad)). apply in_concat. exists (clause_vars c). split; [apply in_map, H|exact Hv]. }
  destruct bad; repeat (destruct H as [<-|H]; [split; [|discriminate| |exact N];
      [intros a Ha; repeat (destruct Ha as [<-|Ha]; [reflexivity|]); destruct Ha
      |intros a Ha; repeat (destruct Ha as [<-|Ha]; [split; discriminate|]); destruct Ha]|]); destruct H.
Qed.
Lemma sys_fresh bad : fresh_rewriting (t_rewrite tools0) (build_graph (sys bad)) /\ tidy_rewriting (t_rewrite tools0) (build_graph (sys bad)).
Proof.
  destruct (C29_normalization sg (sys bad) eq_refl eq_refl (sys_fine bad)) as [W [A _]]. pose proof (C35_versioned _ A) as U. split; [apply id_fresh, U|].
  intros e v He Hv Hb. destruct (U e v He Hv Hb).
Qed.
Definition eng : hgraph -> eresult := lawi_engine PropPdk.plain bcheck (bchain tt_true) (fun t => t) (fun l => l) true 100.
Lemma eng_right bad t : run_stages tools0 default_stages (build_graph (sys bad)) = Some t -> right_answer (tr_graph t) (eng (tr_graph t)).
Proof.
  intros E. destruct (sys_fresh bad) as [F1 F2]. destruct (C38_linear_engines tools0 sg (sys bad) t eq_refl eq_refl (sys_fine bad) tools0_ok F1 F2 E) as [R _].
  destruct (C29_normalization sg (sys bad) eq_refl eq_refl (sys_fine bad)) as [W [A _]].
  destruct (C38_default_pipeline tools0 _ t tools0_ok W (C35_versioned _ A) F1 E) as [W' _].
  apply C67_lawi; auto; [exact PropPdk.plain_ok|exact bcheck_ok|exact bpitp_ok|intros q; split; [intros r; tauto|auto]].
Qed.
Definition out (bad : bool) : list output := match interpret_check_sat tools0 bad bad eng (sys bad) with Some l => l | None => [] end.
Example printed : map said (out false) = ["sat"]%string /\ map said (out true) = ["unsat"; "proof"; "Internal witness validation successful!"]%string.
Proof. vm_compute. auto. Qed.
(** The graph the engine gets has a label with a leftover variable: not versioned as it is. *)
Definition after (bad : bool) : hgraph := match run_stages tools0 default_stages (build_graph (sys bad)) with Some t => tr_graph t | None => build_graph [] end.
Definition has_leftover (g : hgraph) : bool := existsb (fun e => existsb (fun v => match vtag v with TSrc _ => negb (inb v (own_vars g e)) | _ => false end) (vars (efla e))) (gedges g).
Lemma leftover_spec g : has_leftover g = true -> ~ aux_versioned g.
Proof.
  intros L A. apply existsb_exists in L as [e [He L]]. apply existsb_exists in L as [v [Hv L]]. destruct (vtag v) eqn:T; try discriminate.
  apply negb_true_iff in L. destruct (A e v He Hv) as [B _]; [|rewrite B in T; discriminate]. intros X. apply inb_true in X. congruence.
Qed.
Example not_versioned : ~ aux_versioned (after false).
Proof. apply leftover_spec. vm_compute. reflexivity. Qed.
End ExRetag.
