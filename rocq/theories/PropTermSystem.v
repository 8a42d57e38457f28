(** * C72: the transition system that the termination analyses get runs forever iff the graph does. *)
From Coq Require Import Permutation.
From Verif Require Import Syntax Solver TransSys TSLemmas Graph GraphOps GraphOpsProofs DfsProofs ValidatorModel FormulaModel GraphSem Names SimpleTransModel ListLemmas MergeModel MergeProofs ChainProofs ElimModel InlineModel InlineProofs InlineStep BoolOracle PipelineModel PipelineProofs ChcSystem KTo1Model LinearModel LinearProofs LinearPath LinearTS NormModel NormProofs NormRun PropNorm PropInline PropPipeline PropGraph ExpandProofs ContractModel ContractProofs ContractLabels ContractSem ContractWf ContractDef LMerge NontermProofs SingleLoopProofs PropSingleLoop TermRuns TermChain TermElim TermInline TermStages PropTermFront Retag RetagStages PropRetag TermSystem NamedStages.
Open Scope list_scope.
Open Scope nat_scope.

(** C72.  A graph of a system without queries is given (no edge to the error location) that uses none of golem's own names.  If the
    front end answers YES at once, the graph has no infinite run.  If it hands a transition system to the analyses, that system is
    well formed and some initial state starts an infinite execution iff the graph has an infinite run.  It throws only for a graph
    with a self-loop that cannot be reached, and reads undefined values exactly if no edge leaves the entry. *)
Theorem C72_termination_system :
  forall elim g nv nid ctr ord,
    elim_ok elim -> lwf g -> (forall e, In e (ledges g) -> lto e <> exit) -> user_names g -> fresh_in g nv nid -> (forall l, Permutation (ord l) l) ->
    match term_front elim nv nid ctr ord g with
    | FYes => ~ lforever g
    | FSystem ts => ts_wf ts = true /\ (lforever g <-> exists s, Init ts s /\ forever ts s)
    | FThrow => exists e, In e (ledges g) /\ lfrom e = lto e /\ ~ path g entry (lto e)
    | FBroken => (exists e, In e (ledges g)) /\ forall e, In e (ledges g) -> lfrom e <> entry
    end.
Proof.
  intros elim g nv nid ctr ord He W Nx U [Fv Fi] Ho. unfold term_front. destruct (trivially_terminating g) eqn:T; [apply (trivial_stops g (lwf_entry g W) T)|].
  assert (Dead : forall ts, ttrans ts = tt_false -> ~ exists s, Init ts s /\ forever ts s).
  { intros ts E [s [_ F]]. inversion F as [? s' [r [_ [_ H]]] _]; subst. rewrite E in H. exact (holds_false r H). }
  destruct (is_ts_noquery g) eqn:Q.
  - destruct (noquery_shape g W Nx Q) as [b [e0 [e1 [B1 [I0 [A0 [C0 [I1 [A1 [C1 [U0 U1]]]]]]]]]]].
    destruct (noquery_runs g W b e0 e1 B1 I0 A0 C0 I1 A1 C1 U0 U1 elim He) as [ts [E [R Wf]]]. rewrite E. destruct (ts_wf ts) eqn:D.
    + specialize (R eq_refl). destruct (term_eqb_spec (ttrans ts) tt_false) as [X|X]; [rewrite R; apply Dead, X|auto].
    + destruct (existsb (fun e => Nat.eqb (lfrom e) (lto e) && negb (Nat.eqb (lto e) b)) (ledges g)) eqn:X.
      * apply existsb_exists in X as [e [Ie X]]. apply andb_prop in X as [X1 X2]. apply Nat.eqb_eq in X1. apply negb_true_iff, Nat.eqb_neq in X2. exists e. split; [exact Ie|]. split; [exact X1|].
        intros P. destruct (C42_reverse_post_order g (lwf_ids g W)) as [o [Eo [_ [Io _]]]]. rewrite (loop_order g W b e0 e1 I0 A0 C0 C1 U0 U1) in Eo. injection Eo as <-. apply Io in P as [P|[P|[]]]; [|congruence].
        apply (lwf_entry g W e Ie). congruence.
      * assert (Y : false = true); [|discriminate Y]. apply Wf. intros e Ie Ee. destruct (Nat.eq_dec (lto e) b) as [Y|Y]; [exact Y|]. exfalso.
        apply (not_true_iff_false _) in X. apply X, existsb_exists. exists e. split; [exact Ie|]. rewrite Ee, Nat.eqb_refl. cbn. apply negb_true_iff, Nat.eqb_neq, Y.
  - pose proof (user_names_free g (inner_vertices g) U) as NF. pose proof (user_et_free g U) as ET.
    destruct (existsb (fun e => Nat.eqb (lfrom e) entry) (ledges g)) eqn:X.
    + apply existsb_exists in X as [e [Ie X]]. apply Nat.eqb_eq in X.
      destruct (single_loop_runs g W NF ET ord Ho nv nid ctr Fv Fi Nx elim He (ex_intro _ e (conj Ie X))) as [ts [E [D R]]]. rewrite E, D.
      destruct (term_eqb_spec (ttrans ts) tt_false) as [Y|Y]; [rewrite R; apply Dead, Y|auto].
    + assert (Ne : forall e, In e (ledges g) -> lfrom e <> entry).
      { intros e Ie Y. apply (not_true_iff_false _) in X. apply X, existsb_exists. exists e. rewrite Y, Nat.eqb_refl. auto. }
      rewrite (single_loop_isolated g W NF ET ord Ho nv nid ctr Fv Fi Nx elim Ne). split; [|exact Ne].
      unfold trivially_terminating in T. destruct (ledges g) as [|e l]; [discriminate|]. exists e. left. reflexivity.
Qed.
Print Assumptions C72_termination_system.
(** So for a graph all of whose vertices can be reached there is always an answer or a system. *)
Theorem C72_no_failure :
  forall elim g nv nid ctr ord,
    elim_ok elim -> lwf g -> (forall e, In e (ledges g) -> lto e <> exit) -> user_names g -> fresh_in g nv nid -> (forall l, Permutation (ord l) l) ->
    (forall p, lvertex g p -> p = exit \/ path g entry p) ->
    term_front elim nv nid ctr ord g = FYes \/ exists ts, term_front elim nv nid ctr ord g = FSystem ts.
Proof.
  intros elim g nv nid ctr ord He W Nx U F Ho R. pose proof (C72_termination_system elim g nv nid ctr ord He W Nx U F Ho) as H.
  destruct (term_front elim nv nid ctr ord g) as [|ts| |]; [auto|eauto| |]; exfalso.
  - destruct H as [e [Ie [_ N]]]. destruct (R (lto e)) as [X|X]; [right; right; eauto|apply (Nx e Ie X)|apply N, X].
  - destruct H as [[e Ie] N]. destruct (R (lto e)) as [X|X]; [right; right; eauto|apply (Nx e Ie X)|].
    inversion X as [? Y|e' q He' P]; subst; [apply (lwf_entry g W e Ie); congruence|]. apply (N e' He'). assumption.
Qed.
Print Assumptions C72_no_failure.

(** ** From the clauses *)
(** Names that cannot be mistaken for those of the single-loop transformation. *)
Definition other_name (s : string) : Prop :=
  match s with String c (String d _) => c <> "."%char /\ (c = "g"%char -> d <> "o"%char) | _ => False end.
Lemma other_not_reserved s : other_name s -> PropSingleLoop.reserved s = false.
Proof.
  destruct s as [|c [|d s]]; try contradiction. intros [A B]. unfold PropSingleLoop.reserved. cbn [String.prefix].
  destruct (Ascii.ascii_dec "." c) as [X|_]; [destruct A; auto|]. cbn [orb]. destruct (Ascii.ascii_dec "g" c) as [X|_]; [|reflexivity].
  destruct (Ascii.ascii_dec "o" d) as [Y|_]; [destruct B; auto|reflexivity].
Qed.
Lemma other_app s t : other_name s -> other_name (s ++ t)%string.
Proof. destruct s as [|c [|d s]]; try contradiction. intros H. exact H. Qed.
Lemma other_gaux k s : other_name (vbase (gaux k s)).
Proof. cbn. split; [discriminate|intros _; discriminate]. Qed.
(** The graph the front end works with: the preprocessed graph, as a graph of single-source edges (src/termination/Frontend.cc:480). *)
Definition front_graph (g : hgraph) : lgraph := to_normal (retag g).
Lemma front_normal g : linear g -> is_normal (retag g) = true.
Proof. intros L. rewrite retag_normal. apply forallb_forall. intros e He. destruct (ln_single g L e He) as [p ->]. reflexivity. Qed.
Lemma front_wf g : wf_graph g -> tidy g -> linear g -> lwf (front_graph g).
Proof. intros W T L. apply normal_wf; [apply retag_wf; assumption|apply front_normal, L|apply retag_versioned; assumption]. Qed.
Lemma front_noexit g : linear g -> forall e, In e (ledges (front_graph g)) -> lto e <> exit.
Proof.
  intros L e He. unfold front_graph, to_normal in He. cbn [ledges] in He. apply in_map_iff in He as [x [<- Hx]]. apply retag_edges in Hx as [y [Hy ->]]. apply (ln_noexit g L y Hy).
Qed.
Lemma front_runs g : wf_graph g -> tidy g -> linear g -> (lforever (front_graph g) <-> runs_forever g).
Proof.
  intros W T L. pose proof (retag_wf g W T) as W'. pose proof (front_normal g L) as Nm. pose proof (retag_versioned g T) as Av. split; apply endless_mono; intros a b [e [He F]].
  - unfold front_graph in *. apply (normal_in (retag g)) in He as [x [Hx ->]]. destruct (normal_from (retag g) Nm x Hx) as [p E].
    apply (normal_follows (retag g) W' Av x p a b Hx E) in F. apply retag_edges in Hx as [y [Hy ->]]. exists y. split; [exact Hy|]. apply (retag_follows g T y [a] b Hy), F.
  - apply (retag_follows g T e [a] b He) in F. assert (Hx : In (retag_edge g e) (gedges (retag g))) by (apply retag_edges; eauto).
    destruct (normal_from (retag g) Nm _ Hx) as [p E]. exists (normal_edge (retag g) (retag_edge g e)). split; [apply normal_in; eauto|]. apply (normal_follows (retag g) W' Av _ p a b Hx E), F.
Qed.
Lemma front_names g : wf_graph g -> linear g -> named other_name g -> user_names (front_graph g).
Proof.
  intros W L M. split.
  - intros e v He Hv. apply other_not_reserved. unfold front_graph in He. apply normal_in in He as [x [Hx ->]]. cbn [lfla normal_edge] in Hv. rewrite vars_rename in Hv. apply in_map_iff in Hv as [u [<- Hu]].
    assert (Bu : other_name (vbase u)).
    { apply retag_edges in Hx as [y [Hy ->]]. cbn [efla retag_edge] in Hu. rewrite vars_rename in Hu. apply in_map_iff in Hu as [w [<- Hw]]. pose proof (nm_label _ g M y w Hy Hw) as B.
      unfold own_or_time. destruct (inb w (own_vars g y)); [exact B|]. unfold as_time. destruct (vtag w); try exact B. cbn [vbase]. apply other_app, B. }
    unfold normal_map. rewrite vlookup_app, map_fst_pair. destruct (in_dec var_dec u _) as [I|I].
    + apply in_map_iff in I as [c [<- Hc]]. rewrite vlookup_map_in; [exact Bu|unfold src, cur; intros a b X; injection X as -> ->; reflexivity|exact Hc].
    + destruct (in_dec var_dec u (map tgt (gpv (retag g) (eto x)))) as [J|J].
      * apply in_map_iff in J as [c [<- Hc]]. rewrite vlookup_map_in; [exact Bu|unfold tgt, nxt; intros a b X; injection X as -> ->; reflexivity|exact Hc].
      * rewrite vlookup_out; [exact Bu|]. rewrite map_fst_pair. exact J.
  - intros p v Hv. apply other_not_reserved. exact (nm_pv _ g M p v Hv).
Qed.
(** The condition on the rewriters of OpenSMT: the variables they bring in have names of their own. *)
Record new_names (rw : term -> term) (g : hgraph) : Prop := {
  nn_fresh : fresh_rewriting rw g;
  nn_tidy : tidy_rewriting rw g;
  nn_named : named_rewriting other_name rw g
}.
Theorem C72_graph :
  forall (o : tools) sig cs g', tools_ok o -> sig entry = [] -> sig exit = [] -> (forall c, In c cs -> clause_ok sig c) -> linear_clauses cs ->
    new_names (t_rewrite o) (build_graph cs) -> term_run o term_stages (build_graph cs) = Some g' ->
    lwf (front_graph g') /\ user_names (front_graph g') /\ (forall e, In e (ledges (front_graph g')) -> lto e <> exit) /\
    (lforever (front_graph g') <-> clauses_run_forever cs).
Proof.
  intros o sig cs g' O Se Sx C L [FR TR NR] E. destruct (C29_normalization sig cs Se Sx C) as [W [A _]]. pose proof (C29_tidy sig cs Se Sx C) as T.
  assert (M : named other_name (build_graph cs)).
  { destruct (bg_built sig cs Se Sx C) as [_ [_ [_ [PX _]]]].
    assert (P : forall p b, In b (gpv (build_graph cs) p) -> other_name (vbase b)).
    { intros p b Hb. destruct (PX p b Hb) as [n [s ->]]. cbn. split; [discriminate|intros X; discriminate X]. }
    split; [exact P|]. intros e v He Hv. destruct (label_cases sig cs Se Sx C e v He Hv) as [X|[n [s ->]]].
    - apply ChainStep.own_has_version in X as [p [_ [b [Hb [[i ->]| ->]]]]]; apply (P p b Hb).
    - cbn. split; [discriminate|intros X; discriminate X]. }
  destruct (C70_termination_preprocessing o sig cs g' O Se Sx C L FR E) as [R [W' L']].
  destruct (term_names other_name other_gaux o O _ g' W (C35_versioned _ A) (built_linear sig cs Se Sx C L) FR TR NR T M E) as [T' M'].
  split; [apply front_wf; assumption|]. split; [apply front_names; assumption|]. split; [apply front_noexit, L'|]. rewrite R. apply front_runs; assumption.
Qed.
Print Assumptions C72_graph.
(** The whole way from the clauses to the answer YES or to the system for the analyses. *)
Theorem C72_from_clauses :
  forall (o : tools) sig cs g' elim nv nid ctr ord, tools_ok o -> sig entry = [] -> sig exit = [] -> (forall c, In c cs -> clause_ok sig c) -> linear_clauses cs ->
    new_names (t_rewrite o) (build_graph cs) -> term_run o term_stages (build_graph cs) = Some g' ->
    elim_ok elim -> fresh_in (front_graph g') nv nid -> (forall l, Permutation (ord l) l) ->
    match term_front elim nv nid ctr ord (front_graph g') with
    | FYes => ~ clauses_run_forever cs
    | FSystem ts => ts_wf ts = true /\ (clauses_run_forever cs <-> exists s, Init ts s /\ forever ts s)
    | FThrow => exists e, In e (ledges (front_graph g')) /\ lfrom e = lto e /\ ~ path (front_graph g') entry (lto e)
    | FBroken => (exists e, In e (ledges (front_graph g'))) /\ (forall e, In e (ledges (front_graph g')) -> lfrom e <> entry) /\ ~ clauses_run_forever cs
    end.
Proof.
  intros o sig cs g' elim nv nid ctr ord O Se Sx C L NN E He F Ho. destruct (C72_graph o sig cs g' O Se Sx C L NN E) as [W [U [Nx R]]].
  pose proof (C72_termination_system elim _ nv nid ctr ord He W Nx U F Ho) as H. destruct (term_front elim nv nid ctr ord (front_graph g')) as [|ts| |]; rewrite <- ?R; auto.
  destruct H as [H1 H2]. split; [exact H1|]. split; [exact H2|]. intros X. apply endless_inv in X as [f [[e [Ie Fo]] _]]. apply (H2 e Ie). destruct Fo as [r [_ [X _]]]. injection X as X _. congruence.
Qed.
Print Assumptions C72_from_clauses.

(** ** Examples *)
Module ExTermSystem.
Import ExPipeline ExTermFront.
(** Elimination that folds conjunctions with [false] and does nothing else. *)
Fixpoint has_false (t : term) : bool :=
  match t with Const (VBool false) => true | App FAnd l => existsb has_false l | _ => false end.
Lemma has_false_spec t r : has_false t = true -> ~ holds r t.
Proof.
  revert t. fix IH 1. intros [v|[b|z|q]|f l]; try discriminate.
  - destruct b; [discriminate|]. intros _ H. discriminate H.
  - destruct f; try discriminate. cbn [has_false]. intros H X. apply holds_and in X. revert H X. induction l as [|a l IHl]; [discriminate|]. cbn [existsb]. intros H X.
    inversion X as [|? ? X1 X2]; subst. apply orb_prop in H as [H|H]; [exact (IH a H X1)|exact (IHl H X2)].
Qed.
Definition elim1 (keep : var -> bool) (t : term) : term := if has_false t then tt_false else t.
Lemma elim1_ok : elim_ok elim1.
Proof.
  intros keep t. unfold elim1. destruct (has_false t) eqn:E; [|split; [auto|tauto]]. split; [intros v []|]. intros r. split; intros [r' [_ H]]; [destruct (has_false_spec t r' E H)|discriminate H].
Qed.
Definition tools1 : tools := mkTools elim1 (fun t => t) (fun t => t) bcheck bitp (fun _ => None) all_vertices (fun n => 1000 * S n) 100 100.
Lemma tools1_ok : tools_ok tools1.
Proof. destruct tools0_ok as [_ B C D E F G H]. split; auto. apply elim1_ok. Qed.
(** - [0]: E(x); E(x) -> P(x); P(x), x > 0 -> Q(x + 1); Q(x) -> P(x);
    - [1]: two locations, each with a loop of its own;
    - [2]: E(x); E(x), false -> P(x); P(x) -> P(x + 1): the only edge from the entry is removed as false;
    - [3]: P(x); P(x) -> P(x + 1); P(x), false -> Q(x); Q(x) -> Q(x + 1): a loop that is not reached remains. *)
Definition inc := mkEq (Var y) (mkPlus [Var x; mkInt 1]).
Definition sysn (k : nat) : list clause :=
  match k with
  | 0 => sys false
  | 1 => [mkClause (at_ 3 x) tt_true []; mkClause (at_ 3 y) inc [at_ 3 x]; mkClause (at_ 4 x) tt_true [at_ 3 x]; mkClause (at_ 4 y) inc [at_ 4 x]; mkClause (at_ 3 x) tt_true [at_ 4 x]]
  | 2 => [mkClause (at_ 2 x) tt_true []; mkClause (at_ 3 x) tt_false [at_ 2 x]; mkClause (at_ 3 y) inc [at_ 3 x]]
  | _ => [mkClause (at_ 3 x) tt_true []; mkClause (at_ 3 y) inc [at_ 3 x]; mkClause (at_ 4 x) tt_false [at_ 3 x]; mkClause (at_ 4 y) inc [at_ 4 x]]
  end.
Definition resultn (k : nat) := term_run tools1 term_stages (build_graph (sysn k)).
Definition frontn (k : nat) : option front := option_map (fun g => term_front elim1 7 99 0 (fun l => l) (front_graph g)) (resultn k).
Definition kind (f : option front) : nat := match f with Some FYes => 1 | Some (FSystem _) => 2 | Some FThrow => 3 | Some FBroken => 4 | None => 0 end.

Example kinds : map (fun k => kind (frontn k)) [0;1;2;3] = [2;2;4;3].
Proof. vm_compute. reflexivity. Qed.
Lemma sysn_ok k c : In c (sysn k) -> clause_ok sig c.
Proof.
  destruct k as [|k]; [apply sys_ok|]. intros H. assert (V : forall v, In v (clause_vars c) -> In v [x; y]).
  { destruct k as [|[|k]]; cbn in H; repeat (destruct H as [<-|H]; [cbn; intros v Hv; tauto|]); destruct H. }
  destruct k as [|[|k]]; cbn in H; repeat (destruct H as [<-|H]; [constructor; [| | |intros v Hv; apply names, V, Hv]; try discriminate;
    intros a Ha; cbn in Ha; repeat (destruct Ha as [<-|Ha]; [try reflexivity; split; discriminate|]); destruct Ha|]); destruct H.
Qed.
Lemma sysn_linear k : linear_clauses (sysn k).
Proof.
  destruct k as [|k]; [apply sys_linear|]. intros c H.
  destruct k as [|[|k]]; cbn in H; repeat (destruct H as [<-|H]; [cbn; split; [lia|discriminate]|]); destruct H.
Qed.
Lemma sysn_names k : new_names (t_rewrite tools1) (build_graph (sysn k)).
Proof.
  destruct (C29_normalization sig (sysn k) eq_refl eq_refl (sysn_ok k)) as [_ [A _]]. pose proof (C35_versioned _ A) as U.
  split; [apply id_fresh, U|intros e v He Hv B; destruct (U e v He Hv B)..].
Qed.
Definition fresh_inb (g : lgraph) (nv nid : nat) : bool := negb (existsb (Nat.eqb nv) (lvertices g)) && negb (existsb (fun e => Nat.eqb (lid e) nid) (ledges g)).
Lemma fresh_inb_ok g nv nid : fresh_inb g nv nid = true -> fresh_in g nv nid.
Proof.
  unfold fresh_inb. intros H. apply andb_prop in H as [A B]. apply negb_true_iff in A, B. split.
  - intros V. apply lvertices_spec in V. apply (not_true_iff_false _) in A. apply A, existsb_exists. exists nv. split; [exact V|apply Nat.eqb_refl].
  - intros e He E. apply (not_true_iff_false _) in B. apply B, existsb_exists. exists e. split; [exact He|apply Nat.eqb_eq, E].
Qed.
Lemma freshn k g : k < 4 -> resultn k = Some g -> fresh_in (front_graph g) 7 99.
Proof.
  intros Hk E. apply fresh_inb_ok. assert (X : option_map (fun g => fresh_inb (front_graph g) 7 99) (resultn k) = Some true).
  { destruct k as [|[|[|[|k]]]]; [vm_compute; reflexivity..|lia]. }
  rewrite E in X. injection X as X. exact X.
Qed.
Lemma resultn_some k : k < 4 -> exists g, resultn k = Some g.
Proof. intros Hk. assert (X : isSome (resultn k) = true) by (destruct k as [|[|[|[|k]]]]; [vm_compute; reflexivity..|lia]). destruct (resultn k) as [g|]; [eauto|discriminate X]. Qed.
Definition applied (k : nat) (g : hgraph) (Hk : k < 4) (E : resultn k = Some g) :=
  C72_from_clauses tools1 sig (sysn k) g elim1 7 99 0 (fun l => l) tools1_ok eq_refl eq_refl (sysn_ok k) (sysn_linear k) (sysn_names k) E elim1_ok (freshn k g Hk E) (fun l => Permutation_refl l).
Lemma kind_of (g : hgraph) (k n : nat) : resultn k = Some g -> kind (frontn k) = n -> kind (Some (term_front elim1 7 99 0 (fun l => l) (front_graph g))) = n.
Proof. unfold frontn. intros -> H. exact H. Qed.
(** Both systems with a system for the analyses: the one of C70 runs forever, hence so does its transition system. *)
Example some_system k : k < 2 -> exists g ts, resultn k = Some g /\ term_front elim1 7 99 0 (fun l => l) (front_graph g) = FSystem ts /\
  (clauses_run_forever (sysn k) <-> exists s, Init ts s /\ NontermProofs.forever ts s).
Proof.
  intros Hk. assert (Hk' : k < 4) by lia. destruct (resultn_some k Hk') as [g E]. pose proof (applied k g Hk' E) as H.
  assert (K : kind (frontn k) = 2) by (destruct k as [|[|k]]; [vm_compute; reflexivity..|lia]). apply (kind_of g k 2 E) in K.
  destruct (term_front elim1 7 99 0 (fun l => l) (front_graph g)) as [|ts| |] eqn:T; try discriminate K. exists g, ts. destruct H as [_ H]. auto.
Qed.
Example runs : exists g ts s, resultn 0 = Some g /\ term_front elim1 7 99 0 (fun l => l) (front_graph g) = FSystem ts /\ Init ts s /\ NontermProofs.forever ts s.
Proof. destruct (some_system 0 ltac:(lia)) as [g [ts [E [F R]]]]. destruct (proj1 R (proj1 ExTermFront.forever)) as [s [Hs Fo]]. exists g, ts, s. auto. Qed.
End ExTermSystem.

(** ** What fails *)
(** A system whose only step from the start is impossible does not run forever, but the front end reads values that do not exist. *)
Theorem C72_isolated_entry_refuted :
  exists (o : tools) sig cs g' elim nv nid ctr ord, tools_ok o /\ sig entry = [] /\ sig exit = [] /\ (forall c, In c cs -> clause_ok sig c) /\ linear_clauses cs /\
    new_names (t_rewrite o) (build_graph cs) /\ term_run o term_stages (build_graph cs) = Some g' /\ elim_ok elim /\ fresh_in (front_graph g') nv nid /\ (forall l, Permutation (ord l) l) /\
    ~ clauses_run_forever cs /\ term_front elim nv nid ctr ord (front_graph g') = FBroken.
Proof.
  destruct (ExTermSystem.resultn_some 2 ltac:(lia)) as [g E]. pose proof (ExTermSystem.applied 2 g ltac:(lia) E) as H.
  assert (K : ExTermSystem.kind (ExTermSystem.frontn 2) = 4) by (vm_compute; reflexivity). apply (ExTermSystem.kind_of g 2 4 E) in K.
  exists ExTermSystem.tools1, ExTermFront.sig, (ExTermSystem.sysn 2), g, ExTermSystem.elim1, 7, 99, 0, (fun l => l).
  destruct (term_front ExTermSystem.elim1 7 99 0 (fun l => l) (front_graph g)) as [|ts| |] eqn:T; try discriminate K.
  split; [apply ExTermSystem.tools1_ok|]. split; [reflexivity|]. split; [reflexivity|]. split; [apply ExTermSystem.sysn_ok|]. split; [apply ExTermSystem.sysn_linear|].
  split; [apply ExTermSystem.sysn_names|]. split; [exact E|]. split; [apply ExTermSystem.elim1_ok|]. split; [apply (ExTermSystem.freshn 2 g ltac:(lia) E)|]. split; [intros l; apply Permutation_refl|].
  split; [apply H|reflexivity].
Qed.
Print Assumptions C72_isolated_entry_refuted.
(** A system with a loop that is not reached makes the front end throw, and nothing catches what it throws. *)
Theorem C72_unreached_loop_refuted :
  exists (o : tools) sig cs g' elim nv nid ctr ord, tools_ok o /\ sig entry = [] /\ sig exit = [] /\ (forall c, In c cs -> clause_ok sig c) /\ linear_clauses cs /\
    new_names (t_rewrite o) (build_graph cs) /\ term_run o term_stages (build_graph cs) = Some g' /\ elim_ok elim /\ fresh_in (front_graph g') nv nid /\ (forall l, Permutation (ord l) l) /\
    term_front elim nv nid ctr ord (front_graph g') = FThrow.
Proof.
  destruct (ExTermSystem.resultn_some 3 ltac:(lia)) as [g E].
  assert (K : ExTermSystem.kind (ExTermSystem.frontn 3) = 3) by (vm_compute; reflexivity). apply (ExTermSystem.kind_of g 3 3 E) in K.
  exists ExTermSystem.tools1, ExTermFront.sig, (ExTermSystem.sysn 3), g, ExTermSystem.elim1, 7, 99, 0, (fun l => l).
  destruct (term_front ExTermSystem.elim1 7 99 0 (fun l => l) (front_graph g)) as [|ts| |] eqn:T; try discriminate K.
  split; [apply ExTermSystem.tools1_ok|]. split; [reflexivity|]. split; [reflexivity|]. split; [apply ExTermSystem.sysn_ok|]. split; [apply ExTermSystem.sysn_linear|].
  split; [apply ExTermSystem.sysn_names|]. split; [exact E|]. split; [apply ExTermSystem.elim1_ok|]. split; [apply (ExTermSystem.freshn 3 g ltac:(lia) E)|]. split; [intros l; apply Permutation_refl|reflexivity].
Qed.
Print Assumptions C72_unreached_loop_refuted.
