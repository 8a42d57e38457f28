(** * TPA: from the normalised system back to the given one *)
From Verif Require Import Syntax Solver TransSys TSLemmas KTo1Model FormulaModel FormulaProofs MbpProofs NontermProofs TpaModel TpaProofs TpaQuery TpaLess TpaFix TpaRun TpaInv.
Open Scope list_scope.
Open Scope nat_scope.

Definition bool_ts (ts : tsys) : Prop := is_bool (tinit ts) = true /\ is_bool (tquery ts) = true /\ is_bool (ttrans ts) = true.

Section Top.
Variable tsimp : term -> term.
Hypothesis Hts : simp_ok tsimp.
Variable ts ts' : tsys.
Hypothesis wf : ts_wf ts = true.
Hypothesis Hb : bool_ts ts.
Hypothesis En : normal_ts tsimp ts = Some ts'.

Lemma normal_spec : svars ts' = svars ts /\ avars ts' = avars ts /\
  (forall r, holds r (tinit ts') <-> holds r (tinit ts)) /\ (forall r, holds r (ttrans ts') <-> holds r (ttrans ts)) /\ (forall r, holds r (tquery ts') <-> holds r (tquery ts)) /\
  state_formula ts' (tinit ts') /\ state_formula ts' (tquery ts') /\ (forall v, In v (vars (ttrans ts')) -> In v (vars (ttrans ts))).
Proof.
  unfold normal_ts in En. destruct Hb as [B1 [B2 B3]].
  destruct (nnf (tinit ts)) as [i|] eqn:E1; [|discriminate]. destruct (nnf (tquery ts)) as [q|] eqn:E2; [|discriminate]. destruct (nnf (ttrans ts)) as [t|] eqn:E3; [|discriminate].
  destruct (subsetb (vars i) (svars ts) && subsetb (vars q) (svars ts)) eqn:E4; [|discriminate]. apply some_inj in En. subst ts'. cbn [svars avars tinit ttrans tquery].
  apply andb_true_iff in E4 as [E4 E5]. pose proof (proj1 (subsetb_spec _ _) E4) as S1. pose proof (proj1 (subsetb_spec _ _) E5) as S2.
  split; [reflexivity|]. split; [reflexivity|]. split; [apply (nnf_ok _ B1 _ E1)|]. split; [|split; [apply (nnf_ok _ B2 _ E2)|]].
  - intros r. destruct (is_atom t); [|rewrite (proj1 (Hts t) r)]; apply (nnf_ok _ B3 _ E3).
  - split; [exact S1|]. split; [exact S2|]. intros v Hv. eapply nnf_vars; [exact E3|]. destruct (is_atom t); [exact Hv|apply (proj2 (Hts t)), Hv].
Qed.
Lemma normal_wf : ts_wf ts' = true.
Proof.
  destruct normal_spec as [A [B [_ [_ [_ [C [D F]]]]]]]. unfold ts_wf in *. rewrite !andb_true_iff in *. destruct wf as [[[[[W1 W2] W3] W4] W5] W6]. rewrite A, B.
  repeat split; auto.
  - unfold is_state_formula. apply subsetb_spec. intros v Hv. apply in_app_iff. left. rewrite A. rewrite <- A. apply C, Hv.
  - unfold is_state_formula. apply subsetb_spec. intros v Hv. apply in_app_iff. left. apply D, Hv.
  - unfold is_transition_formula, nextvars in *. rewrite A, B. apply subsetb_spec. intros v Hv. apply (proj1 (subsetb_spec _ _) W3), F, Hv.
Qed.
Lemma normal_no_aux : no_aux ts' = true.
Proof. destruct normal_spec as [_ [_ [_ [_ [_ [C [D _]]]]]]]. unfold no_aux. apply andb_true_iff. split; apply subsetb_spec; assumption. Qed.

Lemma normal_init s : Init ts' s <-> Init ts s.
Proof. destruct normal_spec as [A [_ [B _]]]. unfold Init. rewrite A. split; intros [r [H K]]; exists r; split; auto; apply B, K. Qed.
Lemma normal_bad s : Bad ts' s <-> Bad ts s.
Proof. destruct normal_spec as [A [_ [_ [_ [B _]]]]]. unfold Bad. rewrite A. split; intros [r [H K]]; exists r; split; auto; apply B, K. Qed.
Lemma normal_step s s' : Step ts' s s' <-> Step ts s s'.
Proof. destruct normal_spec as [A [_ [_ [B _]]]]. unfold Step. rewrite A. split; intros [r [H1 [H2 H3]]]; exists r; repeat split; auto; apply B, H3. Qed.
Lemma normal_steps n s s' : Steps ts' n s s' <-> Steps ts n s s'.
Proof. split; intros H; induction H; econstructor; eauto; apply normal_step; assumption. Qed.
Lemma normal_path n : error_path ts' n <-> error_path ts n.
Proof.
  unfold error_path. split; intros [s [s' [A [B C]]]]; exists s, s'; (split; [apply normal_init, A|]; split; [apply normal_steps, B|apply normal_bad, C]).
Qed.
Lemma normal_safe : safe ts' <-> safe ts.
Proof. unfold safe. split; intros H n K; apply (H n), normal_path, K. Qed.
Lemma normal_inv inv : safe_inductive ts' inv -> safe_inductive ts inv.
Proof.
  destruct normal_spec as [A _]. intros [H1 H2 H3 H4]. split.
  - unfold state_formula in *. rewrite <- A. exact H1.
  - intros s Hs. apply H2, normal_init, Hs.
  - intros s s' Hs Hst. apply (H3 s); [exact Hs|apply normal_step, Hst].
  - intros s Hs Hbad. apply (H4 s Hs), normal_bad, Hbad.
Qed.
End Top.

Section Main.
Variable check : check_fn.
Hypothesis Hc : check_ok check.
Variable itp itp2 : itp_fn.
Hypothesis Hi : itp_ok itp.
Hypothesis Hi2 : itp_ok itp2.
Variable elim : mbp_fn.
Hypothesis He : mbp_ok elim.
Variable isimp tsimp : term -> term.
Hypothesis Hs : simp_ok isimp.
Hypothesis Hts : simp_ok tsimp.
Variable pitp : pitp_fn.
Hypothesis Hp : pitp_ok pitp.
Variable qe : qe_fn.
Hypothesis Hq : qe_ok qe.
Variable ts : tsys.
Hypothesis wf : ts_wf ts = true.
Hypothesis Hb : bool_ts ts.

Lemma split_top fuel r : tpa_split check itp itp2 elim isimp tsimp fuel ts = Ret r ->
  match r with
  | TUnsafe _ n => (exists s, Init ts s) \/ nnf (tinit ts) <> nnf (tquery ts) -> error_path ts n
  | TSafe e => (exists ts', normal_ts tsimp ts = Some ts' /\ gave_up check ts') \/ (safe ts /\ forall inv, tpa_invariant check pitp qe tsimp ts e = Ret (Some inv) -> safe_inductive ts inv)
  | TUnknown => False
  end.
Proof.
  unfold tpa_split, tpa_invariant. intros E. destruct (normal_ts tsimp ts) as [ts'|] eqn:En; [|discriminate]. apply obind_ret in E as [[r' st] [E1 E]]. injection E as ->.
  pose proof (normal_wf tsimp Hts ts ts' wf Hb En) as wf'. pose proof (normal_spec tsimp Hts ts ts' Hb En) as [_ [_ [_ [_ [_ [Fi [Fq _]]]]]]].
  destruct (split_run_ok check Hc itp itp2 Hi Hi2 elim He isimp Hs ts' wf' Fi Fq fuel r st E1) as [A B]. destruct r as [t n|e|]; [| |congruence].
  - cbn [ans_ok] in B. intros H. apply (normal_path tsimp Hts ts ts' Hb En), B. destruct H as [[s H]|H]; [left; exists s; apply (normal_init tsimp Hts ts ts' Hb En), H|right].
    intros K. apply H. unfold normal_ts in En. destruct (nnf (tinit ts)) as [i|]; [|discriminate]. destruct (nnf (tquery ts)) as [q|]; [|discriminate]. destruct (nnf (ttrans ts)) as [u|]; [|discriminate].
    destruct (_ && _); [|discriminate]. apply some_inj in En. subst ts'. cbn in K. congruence.
  - destruct B as [B|B]; [left; exists ts'; auto|right]. split; [apply (normal_safe tsimp Hts ts ts' Hb En), (expl_safe ts' Fi Fq e B)|].
    intros inv Ei. apply (normal_inv tsimp Hts ts ts' Hb En). eapply (inductive_invariant_ok check Hc pitp Hp qe Hq ts' wf' Fi Fq); [exact B| |exact Ei].
    destruct e; [exact I|]. apply (normal_no_aux tsimp Hts ts ts' Hb En).
Qed.
Lemma basic_top fuel r : tpa_basic check itp elim isimp tsimp fuel ts = Ret r ->
  match r with
  | TUnsafe _ n => exists p m, n <= Nat.pow 2 (S p) /\ m <= Nat.pow 2 (S p) /\ error_path ts m
  | TSafe e => (exists ts', normal_ts tsimp ts = Some ts' /\ gave_up check ts') \/ (safe ts /\ forall inv, tpa_invariant check pitp qe tsimp ts e = Ret (Some inv) -> safe_inductive ts inv)
  | TUnknown => False
  end.
Proof.
  unfold tpa_basic, tpa_invariant. intros E. destruct (normal_ts tsimp ts) as [ts'|] eqn:En; [|discriminate]. apply obind_ret in E as [[r' st] [E1 E]]. injection E as ->.
  pose proof (normal_wf tsimp Hts ts ts' wf Hb En) as wf'. pose proof (normal_spec tsimp Hts ts ts' Hb En) as [_ [_ [_ [_ [_ [Fi [Fq _]]]]]]].
  destruct (basic_run_ok check Hc itp Hi elim He isimp Hs ts' wf' Fi Fq fuel r st E1) as [A B]. destruct r as [t n|e|]; [| |congruence].
  - destruct B as [p [m [B1 [B2 B3]]]]. exists p, m. split; [exact B1|]. split; [exact B2|]. apply (normal_path tsimp Hts ts ts' Hb En), B3.
  - destruct B as [B|B]; [left; exists ts'; auto|right]. split; [apply (normal_safe tsimp Hts ts ts' Hb En), (expl_safe ts' Fi Fq e B)|].
    intros inv Ei. apply (normal_inv tsimp Hts ts ts' Hb En). eapply (inductive_invariant_ok check Hc pitp Hp qe Hq ts' wf' Fi Fq); [exact B| |exact Ei].
    destruct e; [exact I|]. apply (normal_no_aux tsimp Hts ts ts' Hb En).
Qed.
End Main.
