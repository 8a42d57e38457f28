(** * C67, C68, C69, C38: from the script to the printed answer and witness.
    Specification: FrontSpec.v ([asserts]: what an assertion says), Graph.v ([solution], [derivable]), GraphSem.v
    ([error_derivation]). *)
From Coq Require Import String List ClassicalEpsilon.
From Verif Require Import Syntax Solver TransSys Graph GraphOps GraphOpsProofs ValidatorModel ValidatorProofs PropValidator FormulaModel GraphSem SimpleTransModel UnreachProofs SimpleTransProofs MergeModel ElimModel ElimLoop InlineModel InlineProofs ChcSystem NormModel NormRun PropNorm PropInline PipelineModel PipelineProofs PipelineTotal.
From Verif Require Import FrontModel FrontSpec FrontProofs FrontClause FrontScript PropFront.
Import ListNotations.
Local Open Scope string_scope.
Local Open Scope list_scope.
Local Open Scope nat_scope.

(** What is asked of an engine on one graph: the verdict is right, and so is the witness if there is one. *)
Definition right_answer (g : hgraph) (a : eresult) : Prop :=
  match a with
  | ESafe w => ~ derivable g exit [] /\ forall l, w = Some l -> solution g (wlookup l) /\ only g (wlookup l)
  | EUnsafe d => derivable g exit [] /\ forall x, d = Some x -> error_derivation g x
  | EUnknown | EThrow => True
  end.

(** ** C38: the two pipelines *)
(** The default pipeline keeps the verdict and translates refutations back. *)
Theorem C38_default_pipeline :
  forall o g t, tools_ok o -> wf_graph g -> unbased g -> fresh_rewriting (t_rewrite o) g -> run_stages o default_stages g = Some t ->
    wf_graph (tr_graph t) /\ unbased (tr_graph t) /\
    (derivable g exit [] <-> derivable (tr_graph t) exit []) /\
    (forall d d', error_derivation (tr_graph t) d -> tr_invalid t d = Some d' -> error_derivation g d').
Proof. intros o g t O W U FR E. destruct (default_sound o O g t W U FR E) as [[A B C D] _]. auto. Qed.
Print Assumptions C38_default_pipeline.
(** It translates solutions back if the removal of false clauses removes no vertex and the edges removed by the inlining are
    private (C32, C35; [faithful] collects these conditions for the graphs of the run). *)
Theorem C38_default_solutions :
  forall o g t, tools_ok o -> wf_graph g -> unbased g -> fresh_rewriting (t_rewrite o) g -> run_stages o default_stages g = Some t ->
    faithful o default_stages g ->
    forall w w', solution (tr_graph t) w -> only (tr_graph t) w -> tr_valid t w = Some w' -> solution g w' /\ only g w'.
Proof. intros o g t O W U FR E F. exact (proj2 (default_sound o O g t W U FR E) F). Qed.
Print Assumptions C38_default_solutions.
(** The pipeline of the engines for transition systems: the same. *)
Theorem C38_towards_transition_systems :
  forall o g t, tools_ok o -> wf_graph g -> unbased g -> run_stages o towards_stages g = Some t ->
    wf_graph (tr_graph t) /\ unbased (tr_graph t) /\
    (derivable g exit [] <-> derivable (tr_graph t) exit []) /\
    (forall d d', error_derivation (tr_graph t) d -> tr_invalid t d = Some d' -> error_derivation g d') /\
    (faithful o towards_stages g ->
     forall w w', solution (tr_graph t) w -> only (tr_graph t) w -> tr_valid t w = Some w' -> solution g w' /\ only g w').
Proof.
  intros o g t O W U E.
  assert (NS : forall s, In s towards_stages -> s <> Simplify).
  { intros x Hx. cbn in Hx. repeat (destruct Hx as [<-|Hx]; [discriminate|]). destruct Hx. }
  destruct (PipelineProofs.run_sound o O towards_stages g t NS W U E) as [[A B C D] V]. auto.
Qed.
Print Assumptions C38_towards_transition_systems.
(** The default pipeline ends unless the edge inlining, run on the result of the first four stages, does not. *)
Theorem C38_default_terminates :
  forall o g, tools_ok o -> wf_graph g -> unbased g -> fresh_rewriting (t_rewrite o) g ->
    (exists t, run_stages o default_stages g = Some t) \/
    (exists t, run_stages o [Simplify; Chains; Unreachable; SimpleNodes 0] g = Some t /\
       inline_edges (t_check o) (t_itp o) (t_elim o) (t_fresh o 1) (t_ifuel o) (tr_graph t) = None).
Proof.
  intros o g O W U FR. destruct (run_stages o default_stages g) as [t|] eqn:E; [left; eauto|]. right. exact (default_total o O g W U FR E).
Qed.
Print Assumptions C38_default_terminates.
(** On its result the second pipeline always ends. *)
Theorem C38_towards_terminates :
  forall o g t, tools_ok o -> wf_graph g -> unbased g -> fresh_rewriting (t_rewrite o) g -> run_stages o default_stages g = Some t ->
    exists t', run_stages o towards_stages (tr_graph t) = Some t'.
Proof.
  intros o g t O W U FR E. destruct (default_sound o O g t W U FR E) as [[A B _ _] _]. apply (towards_total o O); auto. exact (default_fed o O g t W U FR E).
Qed.
Print Assumptions C38_towards_terminates.

(** ** The definitions as a list *)
Lemma listed_lookup g w : wf_graph g -> only g w -> forall p, wlookup (listed g w) p = w p.
Proof.
  intros W Ow p. unfold listed.
  assert (G : forall l, wlookup (flat_map (fun p => match w p with Some d => [(p, d)] | None => [] end) l) p = if in_dec Nat.eq_dec p l then w p else None).
  { induction l as [|q l IH]; [reflexivity|]. cbn [flat_map]. destruct (w q) as [d|] eqn:Eq; cbn [app wlookup].
    - destruct (Nat.eqb_spec q p) as [->|N]; [destruct (in_dec Nat.eq_dec p (p :: l)) as [|X]; [auto|destruct X; left; reflexivity]|].
      rewrite IH. destruct (in_dec Nat.eq_dec p l) as [I1|I1], (in_dec Nat.eq_dec p (q :: l)) as [I2|I2]; auto; [destruct I2; right; exact I1|destruct I2; [congruence|contradiction]].
    - rewrite IH. destruct (in_dec Nat.eq_dec p l) as [I1|I1], (in_dec Nat.eq_dec p (q :: l)) as [I2|I2]; auto; [destruct I2; right; exact I1|].
      destruct I2 as [->|I2]; [congruence|contradiction]. }
  rewrite G. destruct (in_dec Nat.eq_dec p (nodup Nat.eq_dec (hnodes g))) as [I1|I1]; [reflexivity|].
  destruct (w p) as [d|] eqn:Ep; [|reflexivity]. destruct I1. apply nodup_In. assert (V : vertex g p) by (apply Ow; congruence). apply hnodes_spec; [apply (wf_ids g W)|exact V].
Qed.
Lemma listed_nodup g w : NoDup (map fst (listed g w)).
Proof.
  unfold listed. assert (G : forall l, NoDup l -> NoDup (map fst (flat_map (fun p => match w p with Some d => [(p, d)] | None => [] end) l)) /\
    forall q, In q (map fst (flat_map (fun p => match w p with Some d => [(p, d)] | None => [] end) l)) -> In q l).
  { induction l as [|q l IH]; intros N; [split; [constructor|intros q []]|]. inversion N as [|? ? N1 N2]; subst. destruct (IH N2) as [A B]. cbn [flat_map].
    destruct (w q) as [d|]; cbn [app map fst]; split; auto.
    - constructor; [|exact A]. intros H. apply N1, B, H.
    - intros x [<-|H]; [left; reflexivity|right; apply B, H].
    - intros x H. right. apply B, H. }
  apply G, NoDup_nodup.
Qed.
Lemma solution_ext g w w' : (forall p, w p = w' p) -> solution g w -> solution g w'.
Proof.
  intros X [A B C D]. split.
  - intros p d E. rewrite <- X in E. exact (A p d E).
  - rewrite <- X. exact B.
  - rewrite <- X. exact C.
  - intros e He. destruct (D e He) as [D1 [dt [D2 D3]]]. split; [intros p Hp; rewrite <- X; apply D1, Hp|]. exists dt. split; [rewrite <- X; exact D2|].
    intros r Hl Hs. apply D3; [exact Hl|]. intros p i d Hp Hd. apply (Hs p i d Hp). rewrite <- X. exact Hd.
Qed.

(** ** The printed answer for a system of clauses *)
Lemma no_line o print_witness validate g0 s w : s <> "Internal witness validation successful!" -> s <> "Internal witness validation failed!" ->
  ~ In (OLine s) (work_safe o print_witness validate g0 (tr_valid w) None) /\
  (forall l, ~ In (OLine s) (work_safe o print_witness validate g0 (tr_valid w) (Some l))) /\
  ~ In (OLine s) (work_unsafe o print_witness validate g0 (tr_invalid w) None) /\
  (forall d, ~ In (OLine s) (work_unsafe o print_witness validate g0 (tr_invalid w) (Some d))).
Proof.
  intros N1 N2. assert (NW : ~ In (OLine s) (no_witness validate)) by (unfold no_witness; destruct validate; intros H; [destruct H as [H|[]]; congruence|destruct H]).
  assert (V : forall r, ~ In (OLine s) (validated r)) by (intros [| |] H; cbn in H; destruct H as [H|[]]; congruence).
  split; [exact NW|]. split; [|split; [exact NW|]].
  - intros l H. unfold work_safe in H. destruct (tr_valid w (wlookup l)) as [w'|]; [|destruct H as [H|[]]; congruence].
    apply in_app_iff in H as [H|H]; [destruct print_witness; [destruct H as [H|[]]; congruence|destruct H]|destruct validate; [exact (V _ H)|destruct H]].
  - intros d H. unfold work_unsafe in H. destruct (tr_invalid w d) as [w'|]; [|destruct H as [H|[]]; congruence].
    apply in_app_iff in H as [H|H]; [destruct print_witness; [destruct H as [H|[]]; congruence|destruct H]|destruct validate; [exact (V _ H)|destruct H]].
Qed.
Section Answer.
Variable o : tools. Hypothesis O : tools_ok o.
Variables print_witness validate : bool.
Variable engine : hgraph -> eresult.
Variable sig : sym -> list sort.
Variable cs : list clause.
Hypothesis Se : sig entry = [].
Hypothesis Sx : sig exit = [].
Hypothesis C : forall c, In c cs -> clause_ok sig c.
Let g0 := build_graph cs.
Hypothesis FR : fresh_rewriting (t_rewrite o) g0.
Variable out : list output.
Hypothesis E : interpret_check_sat o print_witness validate engine cs = Some out.
Hypothesis Eng : forall t, run_stages o default_stages g0 = Some t -> right_answer (tr_graph t) (engine (tr_graph t)).

Lemma g0_ok : wf_graph g0 /\ unbased g0 /\ (derivable g0 exit [] <-> cderivable cs exit []).
Proof using cs C Se Sx.
  destruct (C29_normalization sig cs Se Sx C) as [W [A [D _]]]. split; [exact W|]. split; [apply C35_versioned, A|].
  unfold g0. rewrite D. split; [intros [[X _]|X]; [discriminate X|exact X]|auto].
Qed.
Lemma answer_unsat : In (OLine "unsat") out -> cderivable cs exit [].
Proof.
  intros H. unfold interpret_check_sat in E. fold g0 in E. destruct (run_stages o default_stages g0) as [t|] eqn:ER; [|discriminate]. injection E as <-.
  destruct g0_ok as [W [U D]]. destruct (default_sound o O g0 t W U FR ER) as [[_ _ V _] _]. apply D, V. specialize (Eng t eq_refl).
  destruct (no_line o print_witness validate g0 "unsat" t ltac:(discriminate) ltac:(discriminate)) as [N1 [N2 _]].
  destruct (engine (tr_graph t)) as [w|d| |]; cbn [right_answer] in Eng; [|apply Eng|destruct H as [H|[]]; congruence|destruct H as [H|[]]; congruence].
  exfalso. destruct H as [H|H]; [congruence|]. destruct (print_witness || validate); [|destruct H]. destruct w as [l|]; [exact (N2 l H)|exact (N1 H)].
Qed.
Lemma answer_sat : In (OLine "sat") out -> ~ cderivable cs exit [].
Proof.
  intros H. unfold interpret_check_sat in E. fold g0 in E. destruct (run_stages o default_stages g0) as [t|] eqn:ER; [|discriminate]. injection E as <-.
  destruct g0_ok as [W [U D]]. destruct (default_sound o O g0 t W U FR ER) as [[_ _ V _] _]. rewrite <- D, V. specialize (Eng t eq_refl).
  destruct (no_line o print_witness validate g0 "sat" t ltac:(discriminate) ltac:(discriminate)) as [_ [_ [N1 N2]]].
  destruct (engine (tr_graph t)) as [w|d| |]; cbn [right_answer] in Eng; [apply Eng| |destruct H as [H|[]]; congruence|destruct H as [H|[]]; congruence].
  exfalso. destruct H as [H|H]; [congruence|]. destruct (print_witness || validate); [|destruct H]. destruct d as [l|]; [exact (N2 l H)|exact (N1 H)].
Qed.
(** Printed witnesses. *)
Lemma answer_proof d : In (OProof d) out -> error_derivation g0 d.
Proof.
  intros H. unfold interpret_check_sat in E. fold g0 in E. destruct (run_stages o default_stages g0) as [t|] eqn:ER; [|discriminate]. injection E as <-.
  destruct g0_ok as [W [U _]]. destruct (default_sound o O g0 t W U FR ER) as [[_ _ _ V] _]. specialize (Eng t eq_refl).
  assert (VV : forall r, ~ In (OProof d) (validated r)) by (intros [| |] Hr; cbn in Hr; destruct Hr as [Hr|[]]; congruence).
  assert (NW : ~ In (OProof d) (no_witness validate)) by (unfold no_witness; destruct validate; intros Hr; [destruct Hr as [Hr|[]]; congruence|destruct Hr]).
  destruct (engine (tr_graph t)) as [[l|]|[x|]| |]; cbn [right_answer] in Eng; try (destruct H as [H|[]]; congruence);
    destruct H as [H|H]; try congruence; (destruct (print_witness || validate); [|destruct H]).
  - exfalso. unfold work_safe in H. destruct (tr_valid t (wlookup l)) as [w'|]; [|destruct H as [H|[]]; congruence].
    apply in_app_iff in H as [H|H]; [destruct print_witness; [destruct H as [H|[]]; congruence|destruct H]|destruct validate; [exact (VV _ H)|destruct H]].
  - destruct (NW H).
  - unfold work_unsafe in H. destruct (tr_invalid t x) as [d'|] eqn:Ed; [|destruct H as [H|[]]; congruence].
    apply in_app_iff in H as [H|H]; [destruct print_witness; [|destruct H]|destruct validate; [destruct (VV _ H)|destruct H]].
    destruct H as [H|[]]. injection H as <-. apply (V x d'); [apply Eng; reflexivity|exact Ed].
  - destruct (NW H).
Qed.
Lemma answer_witness l : faithful o default_stages g0 -> In (OWitness l) out ->
  NoDup (map fst l) /\ solution g0 (wlookup l) /\ only g0 (wlookup l).
Proof.
  intros F H. unfold interpret_check_sat in E. fold g0 in E. destruct (run_stages o default_stages g0) as [t|] eqn:ER; [|discriminate]. injection E as <-.
  destruct g0_ok as [W [U _]]. destruct (default_sound o O g0 t W U FR ER) as [_ V]. specialize (V F). specialize (Eng t eq_refl).
  assert (VV : forall r, ~ In (OWitness l) (validated r)) by (intros [| |] Hr; cbn in Hr; destruct Hr as [Hr|[]]; congruence).
  assert (NW : ~ In (OWitness l) (no_witness validate)) by (unfold no_witness; destruct validate; intros Hr; [destruct Hr as [Hr|[]]; congruence|destruct Hr]).
  destruct (engine (tr_graph t)) as [[x|]|[x|]| |]; cbn [right_answer] in Eng; try (destruct H as [H|[]]; congruence);
    destruct H as [H|H]; try congruence; (destruct (print_witness || validate); [|destruct H]).
  - unfold work_safe in H. destruct (tr_valid t (wlookup x)) as [w'|] eqn:Ed; [|destruct H as [H|[]]; congruence].
    apply in_app_iff in H as [H|H]; [destruct print_witness; [|destruct H]|destruct validate; [destruct (VV _ H)|destruct H]].
    destruct H as [H|[]]. injection H as <-. destruct (Eng) as [_ G]. destruct (G x eq_refl) as [G1 G2].
    destruct (V (wlookup x) w' G1 G2 Ed) as [S1 S2]. split; [apply listed_nodup|].
    split; [apply (solution_ext g0 w'); [intros p; symmetry; apply (listed_lookup g0 w' W S2)|exact S1]|].
    intros p Hp. rewrite (listed_lookup g0 w' W S2) in Hp. exact (S2 p Hp).
  - destruct (NW H).
  - exfalso. unfold work_unsafe in H. destruct (tr_invalid t x) as [w'|]; [|destruct H as [H|[]]; congruence].
    apply in_app_iff in H as [H|H]; [destruct print_witness; [destruct H as [H|[]]; congruence|destruct H]|destruct validate; [exact (VV _ H)|destruct H]].
  - destruct (NW H).
Qed.
End Answer.

(** ** Definitions as functions *)
(** What a printed definition (define-fun p (params) Bool body) means: the body with the parameters bound to the arguments. *)
Definition model_of (params : sym -> list var) (l : list (sym * term)) (p : sym) (vs : list value) : bool :=
  match wlookup l p with
  | Some d => holdsb (fun v => match find (fun b => var_eqb (fst b) v) (combine (params p) vs) with Some b => snd b | None => VBool false end) d
  | None => false
  end.
Lemma model_of_args pv l p d r : NoDup (pv p) -> wlookup l p = Some d -> (forall v, In v (vars d) -> In v (pv p)) ->
  (model_of pv l p (args r (pv p)) = true <-> holds r d).
Proof.
  intros N E V. unfold model_of. rewrite E. change (holds (fun v => match find (fun b => var_eqb (fst b) v) (combine (pv p) (args r (pv p))) with Some b => snd b | None => VBool false end) d <-> holds r d).
  assert (X : eval (fun v => match find (fun b => var_eqb (fst b) v) (combine (pv p) (args r (pv p))) with Some b => snd b | None => VBool false end) d = eval r d).
  { apply eval_ext. intros v Hv. apply V in Hv. cbn [eval]. unfold args. clear -Hv N. induction (pv p) as [|x xs IH]; [destruct Hv|]. cbn [map combine find fst snd].
    inversion N as [|? ? N1 N2]; subst. destruct (var_eqb_spec x v) as [->|Nx]; [cbn [eval snd]; apply coerce_id, coerce_sort|].
    destruct Hv as [->|Hv]; [congruence|]. apply IH; assumption. }
  unfold holds, holdsb. rewrite X. tauto.
Qed.
Lemma model_of_renamed pv l p d r f : sort_preserving f -> NoDup (pv p) -> wlookup l p = Some d -> (forall v, In v (vars d) -> In v (pv p)) ->
  (model_of pv l p (args r (map f (pv p))) = true <-> holds r (rename f d)).
Proof. intros Hf N E V. rewrite args_map by exact Hf. rewrite holds_rename by exact Hf. apply model_of_args; assumption. Qed.

(** A solution of the graph gives a model of the clauses. *)
Lemma solution_cmodel sig cs l : sig entry = [] -> sig exit = [] -> (forall c, In c cs -> clause_ok sig c) -> solution (build_graph cs) (wlookup l) ->
  let m := model_of (gpv (build_graph cs)) l in cmodel cs (fun p vs => m p vs = true) /\ m exit [] = false.
Proof.
  intros Se Sx C S m. destruct (C29_normalization sig cs Se Sx C) as [W _]. destruct (C29_clauses sig cs Se Sx C) as [_ CL].
  pose proof (rep_nodup _ (wf_rep _ W)) as N. destruct S as [SV SE SX SD]. split.
  - intros c r Hc Hb Hf. apply In_nth_error in Hc as [k Hk]. destruct (CL k c Hk) as [e [q [He [_ [_ [Hi _]]]]]]. apply nth_error_In in He.
    destruct (proj2 (Hi (instance_prems c r) (asym (chead c), avals r (chead c)))) as [r' [K1 [K2 K3]]]; [exists r; auto|].
    injection K3 as K3 K4. rewrite K3, K4. destruct (SD e He) as [D1 [dt [D2 D3]]].
    unfold tgt_vars, m. apply (model_of_renamed _ l (eto e) dt r' tgt); [exact tgt_sort|apply N|exact D2|exact (SV _ _ D2)|]. apply D3; [exact K1|].
    intros p i d Hp Hd.
    assert (In (p, args r' (src_vars (build_graph cs) (p, i))) (instance_prems c r)) as Hin.
    { rewrite K2. apply in_map_iff. exists (p, i). auto. }
    unfold instance_prems in Hin. assert (SP : forall i, sort_preserving (src i)) by exact src_sort.
    destruct (cbody c) as [|a0 b0] eqn:Eb.
    + destruct Hin as [Hin|[]]. injection Hin as <- _. destruct SE as [d0 [E0 T0]]. rewrite E0 in Hd. injection Hd as <-. apply holds_rename; [apply SP|]. apply T0.
    + rewrite <- Eb in *. apply in_map_iff in Hin as [a [Ha Hin]]. injection Ha as Ha1 Ha2. subst p.
      specialize (Hb a Hin). rewrite Ha2 in Hb. unfold src_vars in Hb. cbn [fst snd] in Hb. unfold m in Hb.
      apply (model_of_renamed _ l (asym a) d r' (src i)) in Hb; [exact Hb|apply SP|apply N|exact Hd|exact (SV _ _ Hd)].
  - destruct SX as [d1 [E1 F1]]. unfold m, model_of. rewrite E1. match goal with |- ?b = false => destruct b eqn:E; [|reflexivity] end. destruct (F1 _ E).
Qed.

(** A proof in terms of the clauses: every step is an instance of the clause whose number it gives. *)
Record clause_proof (cs : list clause) (d : derivation) : Prop := {
  cp_first : option_map st_fact (nth_error d 0) = Some (entry, []);
  cp_last : exists n, length d = S n /\ option_map st_fact (nth_error d n) = Some (exit, []);
  cp_steps : forall i s, 0 < i -> nth_error d i = Some s -> exists k c prems,
     st_clause s = S k /\ nth_error cs k = Some c /\
     Forall2 (fun j f => j < i /\ option_map st_fact (nth_error d j) = Some f) (st_premises s) prems /\
     clause_infers c prems (st_fact s)
}.
Lemma refutation_clauses sig cs d : sig entry = [] -> sig exit = [] -> (forall c, In c cs -> clause_ok sig c) -> refutation (build_graph cs) d -> clause_proof cs d.
Proof.
  intros Se Sx C [R1 R2 R3]. destruct (C29_clauses sig cs Se Sx C) as [Len CL]. split; [exact R1|exact R2|].
  intros i s Hi Hs. destruct (R3 i s Hi Hs) as [e [ps [He [Ei [Fp Fo]]]]]. apply In_nth_error in He as [k Hk].
  destruct (nth_error cs k) as [c|] eqn:Ec; [|apply nth_error_None in Ec; assert (k < length (gedges (build_graph cs))) by (apply nth_error_Some; congruence); lia].
  destruct (CL k c Ec) as [e' [q [H1 [_ [H2 [H3 _]]]]]]. rewrite Hk in H1. injection H1 as <-. exists k, c, ps. split; [congruence|]. split; [exact Ec|]. split; [exact Fp|].
  apply H3, Fo.
Qed.

(** ** C67: the answer to (check-sat) is right about the assertions of the script *)
Section Script.
Variables (l_op : string -> list pterm -> option pterm) (l_not : pterm -> pterm) (l_or l_and : list pterm -> pterm).
Variables (reserved interpreted : string -> bool).
Variables (script : list cmd) (k : nat) (pcs : list pclause) (ids : list pid) (code : pid -> sym) (cs : list clause) (sig : sym -> list sort).
(** The script: well sorted, its [k]th command is a (check-sat) that is executed, [cs] are the clauses handed to the graph
    builder, their variables are not named like golem's. *)
Record given_script : Prop := {
  gs_logic : logic_ok l_op l_not l_or l_and;
  gs_fine : forall j ds a, In (ds, a) (assertions interpreted (firstn j script)) -> well_sorted_assert ds a /\ PropFront.no_capture ds a;
  gs_checked : In (k, pcs) (i_checks (interpret_all l_op l_not l_or l_and reserved interpreted 0 script istart));
  gs_code : code_ok ids code;
  gs_strip : omap (strip_clause ids code) pcs = Some cs;
  gs_entry : sig entry = [];
  gs_exit : sig exit = [];
  gs_clauses : forall c, In c cs -> clause_ok sig c
}.
(** The assertions in force at the (check-sat) hold. *)
Definition all_hold (M : preds) : Prop := forall ds a, In (ds, a) (assertions interpreted (firstn k script)) -> asserts ds M no_env a.
End Script.

Theorem C67_unsat :
  forall l_op l_not l_or l_and reserved interpreted script k pcs ids code cs sig o print_witness validate engine out,
    given_script l_op l_not l_or l_and reserved interpreted script k pcs ids code cs sig ->
    tools_ok o -> fresh_rewriting (t_rewrite o) (build_graph cs) ->
    (forall t, run_stages o default_stages (build_graph cs) = Some t -> right_answer (tr_graph t) (engine (tr_graph t))) ->
    interpret_check_sat o print_witness validate engine cs = Some out ->
    In (OLine "unsat") out -> forall M, ~ all_hold interpreted script k M.
Proof.
  intros l_op l_not l_or l_and reserved interpreted script k pcs ids code cs sig o pw va engine out [G1 G2 G3 G4 G5 G6 G7 G8] O FR Eng E H.
  apply (C66_unsat l_op l_not l_or l_and reserved interpreted script k pcs ids code cs G1 G2 G3 G4 G5).
  exact (answer_unsat o O pw va engine sig cs G6 G7 G8 FR out E Eng H).
Qed.
Print Assumptions C67_unsat.
(** The model is the set of derivable facts; that membership is a Boolean is the axiom of ClassicalEpsilon. *)
Theorem C67_sat :
  forall l_op l_not l_or l_and reserved interpreted script k pcs ids code cs sig o print_witness validate engine out,
    given_script l_op l_not l_or l_and reserved interpreted script k pcs ids code cs sig ->
    tools_ok o -> fresh_rewriting (t_rewrite o) (build_graph cs) ->
    (forall t, run_stages o default_stages (build_graph cs) = Some t -> right_answer (tr_graph t) (engine (tr_graph t))) ->
    interpret_check_sat o print_witness validate engine cs = Some out ->
    In (OLine "sat") out -> exists M, all_hold interpreted script k M.
Proof.
  intros l_op l_not l_or l_and reserved interpreted script k pcs ids code cs sig o pw va engine out [G1 G2 G3 G4 G5 G6 G7 G8] O FR Eng E H.
  pose proof (answer_sat o O pw va engine sig cs G6 G7 G8 FR out E Eng H) as N.
  set (m := fun s vs => if excluded_middle_informative (cderivable cs s vs) then true else false).
  assert (X : forall s vs, m s vs = true <-> cderivable cs s vs) by (intros s vs; unfold m; destruct (excluded_middle_informative _); split; intros; congruence || contradiction || auto).
  exists (named code m). intros ds a Ha. revert ds a Ha. refine (C66_sat l_op l_not l_or l_and reserved interpreted script k pcs ids code cs m G1 G2 G3 G4 G5 _ _).
  - intros c r Hc Hb Hf. apply X. apply cder; [exact Hc| |exact Hf]. intros a Ha. apply X, Hb, Ha.
  - destruct (m exit []) eqn:Em; [|reflexivity]. apply X in Em. contradiction.
Qed.
Print Assumptions C67_sat.
(** One answer is printed at most: "sat", "unsat" or "unknown", as the first line. *)
Theorem C67_one_answer :
  forall o print_witness validate engine cs out, interpret_check_sat o print_witness validate engine cs = Some out ->
    exists first rest, out = first :: rest /\ (first = OAbort \/ first = OLine "sat" \/ first = OLine "unsat" \/ first = OLine "unknown") /\
      forall s, In (OLine s) rest -> s = "Internal witness validation successful!" \/ s = "Internal witness validation failed!".
Proof.
  intros o pw va engine cs out E. unfold interpret_check_sat in E. destruct (run_stages o default_stages (build_graph cs)) as [t|]; [|discriminate]. injection E as <-.
  assert (X : forall (l : list output) s, (s <> "Internal witness validation successful!" -> s <> "Internal witness validation failed!" -> ~ In (OLine s) l) ->
     In (OLine s) l -> s = "Internal witness validation successful!" \/ s = "Internal witness validation failed!").
  { intros l s N H. destruct (string_dec s "Internal witness validation successful!"); [auto|]. destruct (string_dec s "Internal witness validation failed!"); [auto|]. destruct (N n n0 H). }
  destruct (engine (tr_graph t)) as [w|d| |]; eexists; eexists; (split; [reflexivity|]); (split; [auto|]); intros s; try (intros []; fail).
  - destruct (pw || va); [|intros []]. apply X. intros N1 N2. destruct (no_line o pw va (build_graph cs) s t N1 N2) as [A [B _]]. destruct w; [apply B|exact A].
  - destruct (pw || va); [|intros []]. apply X. intros N1 N2. destruct (no_line o pw va (build_graph cs) s t N1 N2) as [_ [_ [A B]]]. destruct d; [apply B|exact A].
Qed.
Print Assumptions C67_one_answer.

(** ** C68: printed proofs *)
Theorem C68_proof :
  forall o print_witness validate engine sig cs out d,
    sig entry = [] -> sig exit = [] -> (forall c, In c cs -> clause_ok sig c) ->
    tools_ok o -> fresh_rewriting (t_rewrite o) (build_graph cs) ->
    (forall t, run_stages o default_stages (build_graph cs) = Some t -> right_answer (tr_graph t) (engine (tr_graph t))) ->
    interpret_check_sat o print_witness validate engine cs = Some out ->
    In (OProof d) out -> error_derivation (build_graph cs) d /\ clause_proof cs d.
Proof.
  intros o pw va engine sig cs out d Se Sx C O FR Eng E H. pose proof (answer_proof o O pw va engine sig cs Se Sx C FR out E Eng d H) as D.
  split; [exact D|]. apply (refutation_clauses sig cs d Se Sx C), D.
Qed.
Print Assumptions C68_proof.

(** With internal validation, a right proof that is translated back is reported as valid (unless the solver gives up). *)
Theorem C68_validation :
  forall o print_witness engine sig cs out t d,
    sig entry = [] -> sig exit = [] -> (forall c, In c cs -> clause_ok sig c) ->
    tools_ok o -> fresh_rewriting (t_rewrite o) (build_graph cs) ->
    run_stages o default_stages (build_graph cs) = Some t -> engine (tr_graph t) = EUnsafe (Some d) -> error_derivation (tr_graph t) d ->
    tr_invalid t d <> None ->
    interpret_check_sat o print_witness true engine cs = Some out ->
    last out OAbort = OLine "Internal witness validation successful!" \/ exists q, t_check o q = UNKNOWN.
Proof.
  intros o pw engine sig cs out t d Se Sx C O FR ER EE ED NL E. unfold interpret_check_sat in E. rewrite ER, EE in E. rewrite orb_true_r in E. injection E as <-.
  unfold work_unsafe. destruct (tr_invalid t d) as [d'|] eqn:Ed; [|congruence].
  destruct (C29_normalization sig cs Se Sx C) as [W [A _]].
  destruct (default_sound o O (build_graph cs) t W (C35_versioned _ A) FR ER) as [[_ _ _ V] _].
  destruct (C28_refutations_accepted (t_check o) (build_graph cs) d' (to_check o O) (wf_ids _ W) (ed_ref _ _ (V d d' ED Ed))) as [->|U]; [|auto].
  left. destruct pw; reflexivity.
Qed.
Print Assumptions C68_validation.

(** ** C69: printed models *)
(** Under the conditions of C32 and C35 on the graphs of the run: the printed definitions satisfy the assertions. *)
Theorem C69_model_partial :
  forall l_op l_not l_or l_and reserved interpreted script k pcs ids code cs sig o print_witness validate engine out l,
    given_script l_op l_not l_or l_and reserved interpreted script k pcs ids code cs sig ->
    tools_ok o -> fresh_rewriting (t_rewrite o) (build_graph cs) -> faithful o default_stages (build_graph cs) ->
    (forall t, run_stages o default_stages (build_graph cs) = Some t -> right_answer (tr_graph t) (engine (tr_graph t))) ->
    interpret_check_sat o print_witness validate engine cs = Some out ->
    In (OWitness l) out ->
    NoDup (map fst l) /\ solution (build_graph cs) (wlookup l) /\
    all_hold interpreted script k (named code (model_of (gpv (build_graph cs)) l)).
Proof.
  intros l_op l_not l_or l_and reserved interpreted script k pcs ids code cs sig o pw va engine out l [G1 G2 G3 G4 G5 G6 G7 G8] O FR F Eng E H.
  destruct (answer_witness o O pw va engine sig cs G6 G7 G8 FR out E Eng l F H) as [N [S _]]. split; [exact N|]. split; [exact S|].
  destruct (solution_cmodel sig cs l G6 G7 G8 S) as [M X]. exact (C66_sat l_op l_not l_or l_and reserved interpreted script k pcs ids code cs _ G1 G2 G3 G4 G5 M X).
Qed.
Print Assumptions C69_model_partial.

Theorem C69_validation_partial :
  forall o print_witness engine sig cs out t l,
    sig entry = [] -> sig exit = [] -> (forall c, In c cs -> clause_ok sig c) ->
    tools_ok o -> fresh_rewriting (t_rewrite o) (build_graph cs) -> faithful o default_stages (build_graph cs) ->
    run_stages o default_stages (build_graph cs) = Some t -> engine (tr_graph t) = ESafe (Some l) ->
    solution (tr_graph t) (wlookup l) -> only (tr_graph t) (wlookup l) -> tr_valid t (wlookup l) <> None ->
    interpret_check_sat o print_witness true engine cs = Some out ->
    last out OAbort = OLine "Internal witness validation successful!" \/ exists q, t_check o q = UNKNOWN.
Proof.
  intros o pw engine sig cs out t l Se Sx C O FR F ER EE ES EO NL E. unfold interpret_check_sat in E. rewrite ER, EE in E. rewrite orb_true_r in E. injection E as <-.
  unfold work_safe. destruct (tr_valid t (wlookup l)) as [w'|] eqn:Ed; [|congruence].
  destruct (C29_normalization sig cs Se Sx C) as [W [A _]].
  destruct (default_sound o O (build_graph cs) t W (C35_versioned _ A) FR ER) as [_ V]. destruct (V F (wlookup l) w' ES EO Ed) as [S1 S2].
  destruct (C27_solutions_accepted (t_check o) (build_graph cs) (listed (build_graph cs) w') (to_check o O) (listed_nodup _ _)) as [->|U]; [|left; destruct pw; reflexivity|auto].
  apply (solution_ext _ w'); [intros p; symmetry; apply listed_lookup; assumption|exact S1].
Qed.
Print Assumptions C69_validation_partial.

(** ** The default engine *)
(** Spacer as the engine of [interpret_check_sat].  Running out of fuel stands for running forever; it is not an answer, and
    the model then prints "unknown". *)
From Verif Require Import NontermProofs PdkModel SpacerModel SpacerProofs BoolOracle GraphEx PropSpacer FrontEx.
Definition spacer_engine c check itp mbp simp ord pick logProof fuel inner (g : hgraph) : eresult :=
  match spacer c check itp mbp simp ord pick logProof g fuel inner with
  | SpSafe w => ESafe (Some (listed g w))
  | SpUnsafe d => EUnsafe d
  | SpThrow | SpNoProof => PipelineModel.EThrow
  | SpFuel => PipelineModel.EUnknown
  end.
Theorem C67_spacer :
  forall c check itp mbp simp ord pick logProof fuel inner g,
    ctors_ok c -> check_ok check -> itp_ok itp -> mbp_ok mbp -> simp_ok simp -> ord_ok ord -> pick_ok pick ->
    wf_graph g -> unbased g -> logProof = true \/ (forall q, check q <> UNKNOWN) ->
    right_answer g (spacer_engine c check itp mbp simp ord pick logProof fuel inner g).
Proof.
  intros c check itp mbp simp ord pick lp fuel inner g H1 H2 H3 H4 H5 H6 H7 W U LP.
  assert (Na : labels_no_act g) by (intros e i He Hv; exact (U e _ He Hv eq_refl)).
  pose proof (C13_spacer_unsafe c check itp mbp simp ord pick lp g fuel inner H1 H2 H3 H4 H5 H6 H7 W Na) as X. unfold spacer_engine.
  destruct (spacer c check itp mbp simp ord pick lp g fuel inner) as [w|[d|]| | |] eqn:E; cbn [right_answer]; auto.
  - destruct (C12_spacer_safe c check itp mbp simp ord pick lp g fuel inner w H1 H2 H3 H4 H5 H6 H7 W Na E) as [S [Ow Sat]].
    split; [apply chc_sat_iff, Sat|]. intros l El. injection El as <-. split.
    + apply (solution_ext g w); [intros p; symmetry; apply listed_lookup; assumption|exact S].
    + intros p Hp. rewrite (listed_lookup g w W Ow) in Hp. exact (Ow p Hp).
  - destruct X as [X _]. split; [exact (refutation_derivable g d (ed_ref _ _ X))|]. intros x Ex. injection Ex as <-. exact X.
  - destruct X as [X1 [X2|X2]]; [destruct LP as [->|LP]; [discriminate|]; destruct X2 as [q Hq]; destruct (LP q Hq)|].
    split; [|discriminate]. destruct LP as [->|LP]; [discriminate|].
    pose proof (SpacerRun.spacer_ok c H1 check H2 itp H3 mbp H4 simp H5 ord H6 pick H7 lp g W Na fuel inner) as Y. rewrite E in Y.
    destruct Y as [_ [[q Hq]|Y]]; [destruct (LP q Hq)|exact Y].
Qed.
Print Assumptions C67_spacer.

(** ** Examples *)
Module ExPipeline.
Import InlineStep.
Definition all_vertices (g : hgraph) : list sym := nodup Nat.eq_dec (entry :: exit :: flat_map (fun e => eto e :: efrom e) (gedges g)).
Definition tools0 : tools :=
  mkTools (fun _ t => t) (fun t => t) (fun t => t) bcheck bitp (fun _ => None) all_vertices (fun n => 1000 * S n) 100 100.
Lemma vertices_ok h v : In v (all_vertices h) <-> vertex h v.
Proof.
  unfold all_vertices. rewrite nodup_In. cbn [In]. rewrite in_flat_map. unfold vertex, vertex_in. split.
  - intros [<-|[<-|[e [He [<-|Hv]]]]]; eauto 8.
  - intros [->|[->|[e [He [Hv| ->]]]]]; auto; right; right; exists e; simpl; auto.
Qed.
Lemma tools0_ok : tools_ok tools0.
Proof.
  split; cbn [tools0 t_elim t_rewrite t_simp t_check t_itp t_pitp t_vertices].
  - intros keep t. split; [auto|]. intros r. reflexivity.
  - split; [auto|]. intros t r N. split; [intros H; exists r; auto|]. intros [r' [H1 H2]]. apply (holds_agree r r' t); [|exact H2]. intros v Hv. symmetry. apply H1, N, Hv.
  - intros t r. tauto.
  - apply bcheck_ok.
  - apply bitp_ok.
  - intros parts js H. discriminate.
  - apply vertices_ok.
  - intros h. apply NoDup_nodup.
Qed.
Lemma id_fresh cs : unbased (build_graph cs) -> fresh_rewriting (fun t => t) (build_graph cs).
Proof.
  intros U. split.
  - intros e v H1 H2 H3. destruct (U e v H1 H2 H3).
  - intros e e2 v H1 _ _ H2 H3. destruct (U e v H1 H2 H3).
  - intros e v H1 H2 H3. destruct (U e v H1 H2 H3).
Qed.

(** P(true, false); P(x, y) => P(y, x); P(x, y) /\ x /\ y => false (or, for [bad]: P(x, y) /\ y => false). *)
Definition v1 := AId "x". Definition v2 := AId "y".
Definition q2 (b : ast) := AForall [("x", SBool); ("y", SBool)] b.
Definition script (bad : bool) : list cmd :=
  [SetLogic "HORN"; Declare "P" 2 SBool;
   Assert (q2 (AApp "=>" [AApp "and" [v1; AApp "not" [v2]]; AApp "P" [v1; v2]]));
   Assert (q2 (AApp "=>" [AApp "P" [v1; v2]; AApp "P" [v2; v1]]));
   Assert (q2 (AApp "=>" [AApp "and" ([AApp "P" [v1; v2]] ++ (if bad then [] else [v1]) ++ [v2]); AId "false"]));
   CheckSat].
Definition run s := interpret_all pl_op pl_not pl_or pl_and pl_reserved pl_reserved 0 s istart.
Definition checks_good := Eval vm_compute in i_checks (run (script false)).
Definition checks_bad := Eval vm_compute in i_checks (run (script true)).

Definition ids : list pid := [("P", 2)].
Definition code (x : pid) : sym := 2.
Lemma code_fine : code_ok ids code.
Proof. intros x [<-|[]]. repeat split; try discriminate. intros y [<-|[]] _. reflexivity. Qed.
Definition sig (s : sym) : list sort := if Nat.eqb s 2 then [SBool; SBool] else [].
Definition pcs (bad : bool) : list pclause := Eval cbv in match (if bad then checks_bad else checks_good) with [(_, p)] => p | _ => [] end.
Definition cls (bad : bool) : list clause := match omap (strip_clause ids code) (pcs bad) with Some c => c | None => [] end.
Definition plainb (v : var) : bool := match vtag v with TBase => true | _ => false end.
Lemma plainb_ok l : forallb plainb l = true -> forall v, In v l -> ~ NormProofs.reserved v.
Proof. intros H v Hv. apply (proj1 (forallb_forall _ _) H) in Hv. intros [n [s [E|[i E]]]]; rewrite E in Hv; discriminate. Qed.
Ltac fine :=
  let Hin := fresh in let n := fresh in let Hn := fresh in intros Hin; vm_compute in Hin;
  repeat (destruct Hin as [Hin|Hin]; [injection Hin as <- <-; split; [vm_compute; reflexivity|
       intros n Hn; vm_compute in Hn; destruct Hn as [Hn|[Hn|[]]]; injection Hn as <-; vm_compute; reflexivity]|]); contradiction.
Lemma given bad : given_script pl_op pl_not pl_or pl_and pl_reserved pl_reserved (script bad) 5 (pcs bad) ids code (cls bad) sig.
Proof.
  split.
  - exact pl_ok.
  - intros j ds a. destruct bad.
    + do 6 (destruct j as [|j]; [fine|]). rewrite firstn_all2 by (cbn; lia). fine.
    + do 6 (destruct j as [|j]; [fine|]). rewrite firstn_all2 by (cbn; lia). fine.
  - destruct bad; vm_compute; left; reflexivity.
  - exact code_fine.
  - destruct bad; reflexivity.
  - reflexivity.
  - reflexivity.
  - intros c Hc. assert (X : forall b, forallb plainb (concat (map clause_vars (cls b))) = true) by (intros [|]; reflexivity).
    assert (N : forall v, In v (clause_vars c) -> ~ NormProofs.reserved v).
    { intros v Hv. apply (plainb_ok _ (X bad)). apply in_concat. exists (clause_vars c). split; [apply in_map, Hc|exact Hv]. }
    destruct bad; vm_compute in Hc; repeat (destruct Hc as [<-|Hc]; [split; [|discriminate| |exact N];
      [intros a Ha; vm_compute in Ha; repeat (destruct Ha as [<-|Ha]; [reflexivity|]); destruct Ha
      |intros a Ha; vm_compute in Ha; repeat (destruct Ha as [<-|Ha]; [split; discriminate|]); destruct Ha]|]); destruct Hc.
Qed.

(** Spacer with the Boolean solver. *)
Definition eng : hgraph -> eresult := spacer_engine PropPdk.plain bcheck bitp bmbp ExSp.sm ExSp.od ExSp.pick true 20 100.
Lemma eng_right bad t : run_stages tools0 default_stages (build_graph (cls bad)) = Some t -> right_answer (tr_graph t) (eng (tr_graph t)).
Proof.
  intros E. destruct (given bad) as [_ _ _ _ _ G6 G7 G8]. destruct (C29_normalization sig (cls bad) G6 G7 G8) as [W [A _]].
  destruct (default_sound tools0 tools0_ok _ t W (C35_versioned _ A) (id_fresh _ (C35_versioned _ A)) E) as [[W' U' _ _] _].
  apply C67_spacer; auto; [exact PropPdk.plain_ok|apply bcheck_ok|apply bitp_ok|exact bmbp_ok|exact ExSp.sm_ok|exact ExSp.od_ok|exact ExSp.pick_good].
Qed.
Lemma fresh0 bad : fresh_rewriting (t_rewrite tools0) (build_graph (cls bad)).
Proof. destruct (given bad) as [_ _ _ _ _ G6 G7 G8]. destruct (C29_normalization sig (cls bad) G6 G7 G8) as [W [A _]]. apply id_fresh, C35_versioned, A. Qed.

(** What is printed. *)
Definition said (o : output) : string := match o with OLine s => s | OWitness _ => "model" | OProof _ => "proof" | OLost => "lost" | OAbort => "abort" end.
Definition out (bad : bool) : list output := match interpret_check_sat tools0 true true eng (cls bad) with Some l => l | None => [] end.
Example printed_good : map said (out false) = ["sat"; "model"; "Internal witness validation successful!"].
Proof. vm_compute. reflexivity. Qed.
Example printed_bad : map said (out true) = ["unsat"; "proof"; "Internal witness validation successful!"].
Proof. vm_compute. reflexivity. Qed.
Definition isSome {A} (x : option A) : bool := match x with Some _ => true | None => false end.
Lemma out_some bad : isSome (interpret_check_sat tools0 true true eng (cls bad)) = true.
Proof. destruct bad; vm_compute; reflexivity. Qed.
Lemma some_out {A} (x : option A) d : isSome x = true -> x = Some (match x with Some l => l | None => d end).
Proof. destruct x; [reflexivity|discriminate]. Qed.
Lemma out_ok bad : interpret_check_sat tools0 true true eng (cls bad) = Some (out bad).
Proof. exact (some_out _ _ (out_some bad)). Qed.
Lemma said_line (l : list output) s : In s (map said l) -> s <> "model" -> s <> "proof" -> s <> "lost" -> s <> "abort" -> In (OLine s) l.
Proof. intros H N1 N2 N3 N4. apply in_map_iff in H as [[x|w|d| |] [H1 H2]]; cbn in H1; subst; congruence || exact H2. Qed.

Lemma said_proof cs l : interpret_check_sat tools0 true true eng cs = Some l -> In "proof" (map said l) -> exists d, In (OProof d) l.
Proof.
  intros E H. apply in_map_iff in H as [[x|w|d| |] [H1 H2]]; cbn in H1; try discriminate H1; [|eauto].
  exfalso. subst x. pose proof (C67_one_answer _ _ _ _ _ _ E) as [f [r [E1 [E2 E3]]]]. rewrite E1 in H2. destruct H2 as [H2|H2].
  - destruct E2 as [E2|[E2|[E2|E2]]]; congruence.
  - destruct (E3 _ H2); discriminate.
Qed.
Lemma said_model cs l : interpret_check_sat tools0 true true eng cs = Some l -> In "model" (map said l) -> exists d, In (OWitness d) l.
Proof.
  intros E H. apply in_map_iff in H as [[x|w|d| |] [H1 H2]]; cbn in H1; try discriminate H1; [|eauto].
  exfalso. subst x. pose proof (C67_one_answer _ _ _ _ _ _ E) as [f [r [E1 [E2 E3]]]]. rewrite E1 in H2. destruct H2 as [H2|H2].
  - destruct E2 as [E2|[E2|[E2|E2]]]; congruence.
  - destruct (E3 _ H2); discriminate.
Qed.
(** The hypotheses of C67_unsat and C68_proof are met, ... *)
Example unsat_applies : (forall M, ~ all_hold pl_reserved (script true) 5 M) /\ exists d, In (OProof d) (out true) /\ clause_proof (cls true) d.
Proof.
  pose proof (given true) as G. split.
  - apply (C67_unsat _ _ _ _ _ _ _ _ _ _ _ _ _ tools0 true true eng (out true) G tools0_ok (fresh0 true) (eng_right true) (out_ok true)).
    refine (said_line (out true) "unsat" _ ltac:(discriminate) ltac:(discriminate) ltac:(discriminate) ltac:(discriminate)). rewrite printed_bad. left. reflexivity.
  - assert (H : In "proof" (map said (out true))) by (rewrite printed_bad; right; left; reflexivity).
    destruct (said_proof _ _ (out_ok true) H) as [d H2]. exists d. split; [exact H2|]. destruct G as [_ _ _ _ _ G6 G7 G8].
      apply (C68_proof tools0 true true eng sig (cls true) (out true) d G6 G7 G8 tools0_ok (fresh0 true) (eng_right true) (out_ok true) H2).
Qed.

(** A test for [faithful] (every edge the inlining removes has only its own variables or is not a loop). *)
Definition privateb (g : hgraph) (e : hedge) : bool :=
  negb (existsb (Nat.eqb (eto e)) (efrom e)) || forallb (fun u => existsb (var_eqb u) (own_vars g e)) (vars (efla e)).
Definition keepsb (o : tools) (s : stage) (g : hgraph) : bool :=
  match s with
  | Inline n => match inline_edges (t_check o) (t_itp o) (t_elim o) (t_fresh o n) (t_ifuel o) g with
                | Some (_, l) => forallb (fun x => privateb g (InlineStep.removed_of x)) l | None => true end
  | FalseClauses => forallb (fun p => existsb (Nat.eqb p) (all_vertices (tr_graph (remove_false g)))) (all_vertices g)
  | _ => true
  end.
Fixpoint faithfulb (o : tools) (ss : list stage) (g : hgraph) : bool :=
  match ss with
  | [] => true
  | s :: ss' => keepsb o s g && match transform o s g with Some t => faithfulb o ss' (tr_graph t) | None => true end
  end.
Lemma faithfulb_ok o : forall ss g, faithfulb o ss g = true -> faithful o ss g.
Proof.
  induction ss as [|s ss IH]; intros g H; [exact I|]. cbn [faithfulb] in H. apply andb_true_iff in H as [H1 H2]. cbn [faithful]. split.
  - destruct s; cbn [keeps_solutions keepsb] in *; auto.
    + intros t l E. rewrite E in H1. apply Forall_forall. intros x Hx Hl u Hu. apply (proj1 (forallb_forall _ _) H1) in Hx. unfold privateb in Hx.
      apply orb_true_iff in Hx as [Hx|Hx].
      * apply negb_true_iff in Hx. assert (existsb (Nat.eqb (eto (removed_of x))) (efrom (removed_of x)) = true); [|congruence].
        apply existsb_exists. exists (eto (removed_of x)). split; [exact Hl|apply Nat.eqb_refl].
      * apply (proj1 (forallb_forall _ _) Hx) in Hu. apply existsb_exists in Hu as [y [Y1 Y2]]. destruct (var_eqb_spec u y); [subst; exact Y1|discriminate].
    + intros p Hp. apply vertices_ok in Hp. apply (proj1 (forallb_forall _ _) H1) in Hp. apply existsb_exists in Hp as [q [Q1 Q2]]. apply Nat.eqb_eq in Q2. subst q.
      apply vertices_ok, Q1.
  - destruct (transform o s g); auto.
Qed.
(** ... and so are those of C67_sat and C69_model_partial. *)
Example sat_applies : (exists M, all_hold pl_reserved (script false) 5 M) /\ exists l, In (OWitness l) (out false) /\ all_hold pl_reserved (script false) 5 (named code (model_of (gpv (build_graph (cls false))) l)).
Proof.
  pose proof (given false) as G. split.
  - apply (C67_sat _ _ _ _ _ _ _ _ _ _ _ _ _ tools0 true true eng (out false) G tools0_ok (fresh0 false) (eng_right false) (out_ok false)).
    refine (said_line (out false) "sat" _ ltac:(discriminate) ltac:(discriminate) ltac:(discriminate) ltac:(discriminate)). rewrite printed_good. left. reflexivity.
  - assert (H : In "model" (map said (out false))) by (rewrite printed_good; right; left; reflexivity).
    destruct (said_model _ _ (out_ok false) H) as [w H2]. exists w. split; [exact H2|].
      apply (C69_model_partial _ _ _ _ _ _ _ _ _ _ _ _ _ tools0 true true eng (out false) w G tools0_ok (fresh0 false)); [|exact (eng_right false)|exact (out_ok false)|exact H2].
      apply faithfulb_ok. vm_compute. reflexivity.
Qed.

(** ** A model without one of the predicates *)
(** R(x) <- x; R(x) <- R(x); false <- R(x) /\ not x; P(x) <- R(x) /\ R(y) /\ false; false <- P(x) /\ R(y) /\ false.  The last two
    clauses are removed with P; nothing puts P back. *)
Definition elim2 : elim_fn := fun _ t => match bcheck [t] with UNSAT => tt_false | _ => t end.
Definition tools1 := mkTools elim2 (fun t => t) (fun t => t) bcheck bitp (fun _ => None) all_vertices (fun n => 1000 * S n) 100 100.
Lemma tools1_ok : tools_ok tools1.
Proof.
  destruct tools0_ok as [A B C D E F G]. split; auto. cbn [tools1 t_elim]. intros keep t. unfold elim2. destruct (bcheck [t]) eqn:EB; try (split; [auto|reflexivity]).
  split; [intros v []|]. intros r. split; [|intros [r1 [_ H]]; discriminate H]. intros [r1 [_ H]]. destruct (check_unsat _ bcheck_ok [t] EB r1). constructor; [exact H|constructor].
Qed.
Definition x := mkVar "x" TBase SBool. Definition y := mkVar "y" TBase SBool.
Definition at1 (s : sym) (v : var) := mkAtom s [Var v].
Definition lost : list clause :=
  [mkClause (at1 3 x) (Var x) []; mkClause (at1 3 x) tt_true [at1 3 x]; mkClause (mkAtom exit []) (mkNot (Var x)) [at1 3 x];
   mkClause (at1 2 x) tt_false [at1 3 x; at1 3 y]; mkClause (mkAtom exit []) tt_false [at1 2 x; at1 3 y]].
Definition sig1 (s : sym) : list sort := if Nat.leb 2 s then [SBool] else [].
Lemma lost_ok c : In c lost -> clause_ok sig1 c.
Proof.
  intros Hc. assert (X : forallb plainb (concat (map clause_vars lost)) = true) by reflexivity.
  assert (N : forall v, In v (clause_vars c) -> ~ NormProofs.reserved v).
  { intros v Hv. apply (plainb_ok _ X). apply in_concat. exists (clause_vars c). split; [apply in_map, Hc|exact Hv]. }
  unfold lost in Hc. repeat (destruct Hc as [<-|Hc]; [split; [|discriminate| |exact N];
      [intros a Ha; cbn in Ha; repeat (destruct Ha as [<-|Ha]; [reflexivity|]); destruct Ha
      |intros a Ha; cbn in Ha; repeat (destruct Ha as [<-|Ha]; [split; discriminate|]); destruct Ha]|]); destruct Hc.
Qed.
Definition lost_out : list output := match interpret_check_sat tools1 true true eng lost with Some l => l | None => [] end.
Definition lost_model : list (sym * term) := Eval vm_compute in match lost_out with [_; OWitness l; _] => l | _ => [] end.
Lemma lost_some : isSome (interpret_check_sat tools1 true true eng lost) = true.
Proof. vm_compute. reflexivity. Qed.
Lemma lost_runs : interpret_check_sat tools1 true true eng lost = Some lost_out.
Proof. unfold lost_out. generalize lost_some. generalize (interpret_check_sat tools1 true true eng lost). intros x0 H. exact (some_out _ _ H). Qed.
Lemma lost_printed : lost_out = [OLine "sat"; OWitness lost_model; OLine "Internal witness validation failed!"].
Proof. vm_compute. reflexivity. Qed.
End ExPipeline.

(** The full claim is false: with an engine that is right, the printed model may lack a predicate of
    the clauses, and the internal validation then rejects it. *)
Theorem C69_refuted :
  exists o sig cs engine out l p,
    tools_ok o /\ sig entry = [] /\ sig exit = [] /\ (forall c, In c cs -> clause_ok sig c) /\ fresh_rewriting (t_rewrite o) (build_graph cs) /\
    (forall t, run_stages o default_stages (build_graph cs) = Some t -> right_answer (tr_graph t) (engine (tr_graph t))) /\
    interpret_check_sat o true true engine cs = Some out /\
    out = [OLine "sat"; OWitness l; OLine "Internal witness validation failed!"] /\
    vertex (build_graph cs) p /\ wlookup l p = None /\ ~ solution (build_graph cs) (wlookup l).
Proof.
  set (l0 := ExPipeline.lost_model).
  destruct (C29_normalization ExPipeline.sig1 ExPipeline.lost eq_refl eq_refl ExPipeline.lost_ok) as [W [A _]].
  assert (V : vertex (build_graph ExPipeline.lost) 2).
  { apply ExPipeline.vertices_ok. vm_compute. tauto. }
  assert (L : wlookup l0 2 = None) by (vm_compute; reflexivity).
  exists ExPipeline.tools1, ExPipeline.sig1, ExPipeline.lost, ExPipeline.eng, ExPipeline.lost_out, l0, 2.
  split; [exact ExPipeline.tools1_ok|]. split; [reflexivity|]. split; [reflexivity|]. split; [exact ExPipeline.lost_ok|].
  assert (F : fresh_rewriting (t_rewrite ExPipeline.tools1) (build_graph ExPipeline.lost)) by apply ExPipeline.id_fresh, C35_versioned, A.
  split; [exact F|].
  split.
  { intros t E. destruct (default_sound ExPipeline.tools1 ExPipeline.tools1_ok _ t W (C35_versioned _ A) F E) as [[W' U' _ _] _].
    apply C67_spacer; [exact PropPdk.plain_ok|exact bcheck_ok|exact bitp_ok|exact bmbp_ok|exact ExSp.sm_ok|exact ExSp.od_ok|exact ExSp.pick_good|exact W'|exact U'|left; reflexivity]. }
  split; [exact ExPipeline.lost_runs|]. split; [exact ExPipeline.lost_printed|]. split; [exact V|]. split; [exact L|].
  intros S. exact (solution_defines _ _ _ S V L).
Qed.
Print Assumptions C69_refuted.
