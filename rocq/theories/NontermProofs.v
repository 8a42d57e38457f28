From Verif Require Import Syntax Solver TransSys TSLemmas KindModel Graph ChcSystem TerminationModel TerminationProofs.
Open Scope nat_scope.

(** Every execution from the state ends. *)
Definition terminating (ts : tsys) : state -> Prop := Acc (fun y x => Step ts x y).
(** An execution that never ends. *)
CoInductive forever (ts : tsys) : state -> Prop :=
| forever_step s s' : Step ts s s' -> forever ts s' -> forever ts s.

Lemma terminating_agree ts s t : agree_on (svars ts) s t -> terminating ts s -> terminating ts t.
Proof.
  intros A H. constructor. intros y Hy. destruct H as [H]. apply H. apply (Step_agree ts t s y y); [intros v Hv; symmetry; apply A, Hv|intros v _; reflexivity|exact Hy].
Qed.
Lemma terminating_not_forever ts s : terminating ts s -> ~ forever ts s.
Proof. intros H. induction H as [s _ IH]. intros F. inversion F as [? s' Hs Fs]; subst. exact (IH s' Hs Fs). Qed.
Lemma recurrent_forever ts (R : state -> Prop) : (forall s, R s -> exists s', Step ts s s' /\ R s') -> forall s, R s -> forever ts s.
Proof. intros H. cofix F. intros s Hs. destruct (H s Hs) as [s' [St Rs]]. econstructor; [exact St|apply F, Rs]. Qed.

Definition simp_ok (simp : term -> term) : Prop := forall t,
  (forall r, holds r (simp t) <-> holds r t) /\ (forall v, In v (vars (simp t)) -> In v (vars t)).

(** The initial formula and the transition formula have no auxiliary variable in common. *)
Definition init_apart (ts : tsys) : Prop := forall v, In v (vars (tinit ts)) -> In v (svars ts) \/ ~ In v (vars (ttrans ts)).
Lemma plain_init_apart ts : state_formula ts (tinit ts) -> init_apart ts.
Proof. intros H v Hv. left. exact (H v Hv). Qed.

Section Nonterm.
Variable ts : tsys.
Hypothesis W : ts_wf ts = true.
Hypothesis NI : init_apart ts.
Variable e : engine.
Hypothesis HE : witness_ok e (svars ts).
Variable check : check_fn.
Hypothesis Hc : check_ok check.
Variable qe : qe_fn.
Hypothesis Hq : qe_ok qe.
Variable simp : term -> term.
Hypothesis Hs : simp_ok simp.

(** The state a valuation gives at time [j]. *)
Definition at_j (j : Z) (r : valuation) : state := fun v => r (shiftv j v).

Record ninv (init trans sink : term) : Prop := {
  ni_init_vars : forall v, In v (vars init) -> In v (svars ts) \/ In v (vars (tinit ts));
  ni_trans_vars : forall v, In v (vars trans) -> In v (vars (ttrans ts)) \/ exists w, In w (svars ts) /\ v = shiftv 1 w;
  ni_sink_vars : state_formula ts sink;
  ni_init : forall r, holds r init -> holds r (tinit ts);
  ni_trans : forall r, holds r trans -> holds r (ttrans ts);
  ni_removed : forall r, holds r (ttrans ts) -> ~ holds r trans -> terminating ts (at_j 1 r);
  ni_removed_init : forall s, holds s (tinit ts) -> ~ holds s init -> terminating ts s;
  ni_sink : forall r, holds r sink -> ~ holds r trans
}.

Lemma no_successor init trans sink s : ninv init trans sink -> (forall r, agree_on (svars ts) r s -> ~ holds r trans) -> terminating ts s.
Proof.
  intros V N. constructor. intros s' [r [A [B H]]]. apply (terminating_agree ts (at_j 1 r)); [intros v Hv; apply B, Hv|].
  apply (ni_removed _ _ _ V); [exact H|apply N, A].
Qed.

Definition res_ok (j : Z) (result : term) : Prop :=
  (forall v, In v (vars result) -> exists w, In w (svars ts) /\ v = shiftv j w) /\ forall r, holds r result -> terminating ts (at_j j r).

Lemma back_ok init trans sink path : ninv init trans sink -> forall j result u o, back_loop check qe (svars ts) path trans j result u = (o, false) -> res_ok (Z.of_nat j) result ->
  u = false /\ match o with
  | Blocked b => res_ok 1 b
  | Deterministic result' => res_ok 0 result'
  | BackThrow => True
  end.
Proof.
  intros V. induction j as [|j IH]; intros result u o E R; cbn [back_loop] in E; [injection E as <- ->; split; [reflexivity|exact R]|].
  destruct (qe path _) as [base|] eqn:Eq; [|injection E as <- ->; split; [reflexivity|exact I]]. pose proof (Hq _ _ _ Eq) as P.
  destruct (check _) as [m| |] eqn:Ec.
  3:{ exfalso. assert (G : forall j result u o, back_loop check qe (svars ts) path trans j result u = (o, false) -> u = false).
      { clear. induction j as [|j IH]; intros result u o E; cbn [back_loop] in E; [injection E as _ E; exact E|]. destruct (qe path _); [|injection E as _ E; exact E]. destruct (check _); [injection E as _ E; exact E| |]; apply IH in E; apply orb_false_iff in E; apply E. }
      apply G in E. apply orb_false_iff in E. cbn in E. destruct E; discriminate. }
  - injection E as <- ->. split; [reflexivity|]. destruct R as [R1 R2]. split.
    + intros v Hv. rewrite vars_shift in Hv. apply in_map_iff in Hv as [w [<- Hw]]. destruct (R1 w Hw) as [x [Hx ->]]. exists x. split; [exact Hx|]. rewrite shiftv_shiftv. f_equal. lia.
    + intros r H. apply holds_shift in H. specialize (R2 _ H). eapply terminating_agree; [|exact R2]. intros v _. unfold at_j. rewrite shiftv_shiftv. f_equal. f_equal. lia.
  - cbn [is_unknown] in E. rewrite orb_false_r in E. apply (IH _ _ _ E). split.
    + intros v Hv. apply (proj_vars _ _ _ P) in Hv. apply in_map_iff in Hv as [w [<- Hw]]. eauto.
    + intros r Hr. constructor. intros s' [r1 [A [B H]]]. destruct (holds_dec r1 trans) as [Ht|Nt].
      2:{ apply (terminating_agree ts (at_j 1 r1)); [intros v Hv; apply B, Hv|]. apply (ni_removed _ _ _ V); assumption. }
      set (r2 := (fun v => r1 (shiftv (- Z.of_nat j) v)) : valuation).
      assert (K : forall k v, r2 (shiftv (Z.of_nat j + k) v) = r1 (shiftv k v)) by (intros k v; unfold r2; rewrite shiftv_shiftv; f_equal; f_equal; lia).
      assert (Hres : holds r2 result).
      { destruct (holds_dec r2 result) as [Y|N]; [exact Y|]. exfalso. apply (check_unsat _ Hc _ Ec r2). constructor; [|constructor]. apply holds_and3. split; [|split].
        - apply (holds_agree r r2); [|exact Hr]. intros v Hv. apply (proj_vars _ _ _ P) in Hv. apply in_map_iff in Hv as [w [<- Hw]].
          specialize (K 0%Z w). rewrite Z.add_0_r, shiftv_0 in K. rewrite K. symmetry. apply (A w Hw).
        - apply holds_shift. apply (holds_agree r1); [|exact Ht]. intros v _. specialize (K 0%Z v). rewrite Z.add_0_r, shiftv_0 in K. symmetry. exact K.
        - apply holds_not, N. }
      destruct R as [_ R]. specialize (R r2 Hres). eapply terminating_agree; [|exact R]. intros v Hv. unfold at_j. rewrite <- (B v Hv). rewrite <- (K 1%Z v). f_equal. f_equal. lia.
Qed.

Lemma sink_res init trans sink n : ninv init trans sink -> res_ok (Z.of_nat n) (shift (Z.of_nat n) sink).
Proof.
  intros V. split.
  - intros v Hv. rewrite vars_shift in Hv. apply in_map_iff in Hv as [w [<- Hw]]. exists w. split; [apply (ni_sink_vars _ _ _ V), Hw|reflexivity].
  - intros r H. apply holds_shift in H. apply (no_successor init trans sink); [exact V|]. intros r' A. apply (ni_sink _ _ _ V).
    apply (holds_agree (at_j (Z.of_nat n) r) r'); [|exact H]. intros v Hv. symmetry. apply A, (ni_sink_vars _ _ _ V), Hv.
Qed.

Lemma ninv_block init trans sink b : ninv init trans sink -> res_ok 1 b -> ninv init (mkAnd [trans; mkNot b]) sink.
Proof.
  intros V [Rv R]. split; try apply V.
  - intros v Hv. apply in_lvars in Hv as [f [[<-|[<-|[]]] Hv]]; [apply (ni_trans_vars _ _ _ V), Hv|]. rewrite vars_not in Hv. right. apply Rv, Hv.
  - intros r H. apply holds_and2 in H. apply (ni_trans _ _ _ V), H.
  - intros r H N. destruct (holds_dec r trans) as [Y|Nt]; [|apply (ni_removed _ _ _ V); assumption].
    apply R. destruct (holds_dec r b) as [Yb|Nb]; [exact Yb|]. exfalso. apply N. apply holds_and2. split; [exact Y|apply holds_not, Nb].
  - intros r H H'. apply holds_and2 in H'. apply (ni_sink _ _ _ V r H), H'.
Qed.
Lemma ninv_init init trans sink b : ninv init trans sink -> res_ok 0 b -> ninv (mkAnd [init; mkNot b]) trans sink.
Proof.
  intros V [Rv R]. split; try apply V.
  - intros v Hv. apply in_lvars in Hv as [f [[<-|[<-|[]]] Hv]]; [apply (ni_init_vars _ _ _ V), Hv|]. rewrite vars_not in Hv. left. destruct (Rv v Hv) as [w [Hw ->]]. rewrite shiftv_0. exact Hw.
  - intros r H. apply holds_and2 in H. apply (ni_init _ _ _ V), H.
  - intros s H N. destruct (holds_dec s init) as [Y|Ni]; [|apply (ni_removed_init _ _ _ V); assumption].
    destruct (holds_dec s b) as [Yb|Nb].
    + specialize (R s Yb). eapply terminating_agree; [|exact R]. intros v _. unfold at_j. rewrite shiftv_0. reflexivity.
    + exfalso. apply N. apply holds_and2. split; [exact Y|apply holds_not, Nb].
Qed.
Lemma constr_spec trans p : qe trans (svars ts) = Some p -> state_formula ts (simp (mkNot p)) /\
  forall r, holds r (simp (mkNot p)) <-> ~ exists r', agree_on (svars ts) r r' /\ holds r' trans.
Proof.
  intros E. pose proof (Hq _ _ _ E) as P. destruct (Hs (mkNot p)) as [S1 S2]. split.
  - intros v Hv. apply S2 in Hv. rewrite vars_not in Hv. apply (proj_vars _ _ _ P), Hv.
  - intros r. rewrite S1, holds_not, (proj_sem _ _ _ P). tauto.
Qed.
Lemma ninv_sink init trans sink p : ninv init trans sink -> qe trans (svars ts) = Some p -> ninv init trans (simp (mkNot p)).
Proof.
  intros V E. destruct (constr_spec trans p E) as [C1 C2]. split; try apply V; [exact C1|].
  intros r H H'. apply (proj1 (C2 r) H). exists r. split; [intros v _; reflexivity|exact H'].
Qed.

Lemma loop_flag fuel : forall init trans sink u a, nonterm_loop e check qe simp (svars ts) fuel init trans sink u = (a, false) -> u = false.
Proof.
  assert (G : forall path trans j result u o, back_loop check qe (svars ts) path trans j result u = (o, false) -> u = false).
  { induction j as [|j IH]; intros result u o E; cbn [back_loop] in E; [injection E as _ E; exact E|]. destruct (qe path _); [|injection E as _ E; exact E]. destruct (check _); [injection E as _ E; exact E| |]; apply IH in E; apply orb_false_iff in E; apply E. }
  induction fuel as [|f IH]; intros init trans sink u a E; [injection E as _ E; exact E|]. cbn [nonterm_loop] in E.
  destruct (e _); [| |injection E as _ E; exact E].
  - assert (X : forall b, (match qe trans (svars ts) with
        | Some p => match check [mkAnd [inv; simp (mkNot p)]] with
                    | UNSAT => (TNo, (u || b)%bool)
                    | _ => nonterm_loop e check qe simp (svars ts) f init trans (simp (mkNot p)) (u || b)
                    end
        | None => (TError, (u || b)%bool)
        end) = (a, false) -> u = false).
    { clear E. intros b X. destruct (qe _ _); [|injection X as _ X; apply orb_false_iff in X; apply X]. destruct (check _); [|injection X as _ X; apply orb_false_iff in X; apply X|]; apply IH in X; apply orb_false_iff in X; apply X. }
    destruct (check [mkAnd [init; trans]]); [exact (X false E)|injection E as _ E; exact E|exact (X true E)].
  - cbv zeta in E. destruct (check _); [|injection E as _ E; exact E|injection E as _ E; exact E].
    destruct (back_loop _ _ _ _ _ _ _ _) as [o u'] eqn:Eb. destruct o; [apply IH in E|apply IH in E|injection E as _ E]; subst u'; apply G in Eb; exact Eb.
Qed.

Lemma nonterm_yes fuel : forall init trans sink u, ninv init trans sink -> nonterm_loop e check qe simp (svars ts) fuel init trans sink u = (TYes, false) ->
  forall s, Init ts s -> terminating ts s.
Proof.
  induction fuel as [|f IH]; intros init trans sink u V E; [discriminate|]. cbn [nonterm_loop] in E.
  destruct (e (ts_clauses (svars ts) init trans sink)) as [inv|steps|] eqn:Ee; [| |discriminate].
  - assert (X : forall b, (match qe trans (svars ts) with
        | Some p => match check [mkAnd [inv; simp (mkNot p)]] with
                    | UNSAT => (TNo, (u || b)%bool)
                    | _ => nonterm_loop e check qe simp (svars ts) f init trans (simp (mkNot p)) (u || b)
                    end
        | None => (TError, (u || b)%bool)
        end) = (TYes, false) -> forall s, Init ts s -> terminating ts s).
    { intros b X. destruct (qe trans (svars ts)) as [p|] eqn:Eq; [|discriminate]. destruct (check [mkAnd [inv; simp (mkNot p)]]) as [m'| |] eqn:Ec'; [|discriminate|];
        (eapply IH; [apply (ninv_sink init trans sink p V Eq)|exact X]). }
    destruct (check [mkAnd [init; trans]]) as [m| |] eqn:Ec; [exact (X false E)| |exact (X true E)]. clear X.
    intros s [r0 [A0 H0]].
    destruct (holds_dec r0 init) as [Y|N]; [|apply (terminating_agree ts r0 s A0), (ni_removed_init _ _ _ V); assumption].
    apply (no_successor init trans sink); [exact V|]. intros r A Ht.
    (* the two valuations put together *)
    set (m := (fun v => if inb v (vars trans) then r v else r0 v) : valuation).
    apply (check_unsat _ Hc _ Ec m). constructor; [|constructor]. apply holds_and2. split.
    + apply (holds_agree r0 m); [|exact Y]. intros v Hv. unfold m. destruct (inb v (vars trans)) eqn:Ev; [|reflexivity]. apply inb_true in Ev.
      assert (Sv : In v (svars ts) -> r0 v = r v) by (intros Sv; rewrite (A0 v Sv), (A v Sv); reflexivity).
      destruct (ni_init_vars _ _ _ V v Hv) as [Sv'|Iv]; [exact (Sv Sv')|]. destruct (NI v Iv) as [Sv'|Nv]; [exact (Sv Sv')|].
      exfalso. destruct (ni_trans_vars _ _ _ V v Ev) as [X|[w [Hw ->]]]; [exact (Nv X)|]. pose proof (wf_svars0 ts W w Hw) as T0. assert (T1 : vtag (shiftv 1 w) = TTime 0) by (destruct (wf_init ts W _ Iv) as [X|X]; [apply (wf_svars0 ts W _ X)|apply (wf_avars0 ts W _ X)]).
      unfold shiftv in T1. destruct w as [wb wt ws]. cbn in T0. subst wt. discriminate T1.
    + apply (holds_agree r m); [|exact Ht]. intros v Hv. unfold m. apply inb_true in Hv. rewrite Hv. reflexivity.
  - cbv zeta in E. set (n := steps - 3) in *. destruct (check [trace_formula init trans sink n]) as [m| |] eqn:Ec; try discriminate.
    destruct (back_loop _ _ _ _ _ _ _ _) as [o u'] eqn:Eb.
    assert (u' = false) by (destruct o; [apply loop_flag in E|apply loop_flag in E|injection E as _ E]; exact E). subst u'.
    destruct (back_ok init trans sink (trace_formula init trans sink n) V n _ _ _ Eb (sink_res init trans sink n V)) as [_ B].
    destruct o as [b|res|]; [| |discriminate].
    + apply (IH init (mkAnd [trans; mkNot b]) sink false); [apply ninv_block; assumption|exact E].
    + apply (IH (mkAnd [init; mkNot res]) trans sink false); [apply ninv_init; assumption|exact E].
Qed.

Lemma nonterm_no fuel : forall init trans sink u, ninv init trans sink -> nonterm_loop e check qe simp (svars ts) fuel init trans sink u = (TNo, false) ->
  exists s, Init ts s /\ forever ts s.
Proof.
  induction fuel as [|f IH]; intros init trans sink u V E; [discriminate|]. cbn [nonterm_loop] in E.
  destruct (e (ts_clauses (svars ts) init trans sink)) as [inv|steps|] eqn:Ee; [| |discriminate].
  - destruct (check [mkAnd [init; trans]]) as [m| |] eqn:Ec; [|discriminate|].
    2:{ exfalso. cbn [is_unknown] in E. rewrite orb_true_r in E. destruct (qe trans (svars ts)); [|discriminate]. destruct (check [mkAnd [inv; _]]); try discriminate; apply loop_flag in E; discriminate. }
    cbn [is_unknown] in E. rewrite orb_false_r in E.
    destruct (qe trans (svars ts)) as [p|] eqn:Eq; [|discriminate].
    assert (X : nonterm_loop e check qe simp (svars ts) f init trans (simp (mkNot p)) u = (TNo, false) -> exists s, Init ts s /\ forever ts s).
    { apply IH, (ninv_sink init trans sink p V Eq). }
    destruct (check [mkAnd [inv; simp (mkNot p)]]) as [m'| |] eqn:Ec'; [exact (X E)| |exact (X E)].
    clear E IH X. pose proof (check_sat _ Hc _ _ Ec) as Hm. apply Forall_inv in Hm. apply holds_and2 in Hm as [Hm _].
    destruct (HE _ _ _ _ Ee) as [Vi [M [HM [_ MI]]]].
    assert (I0 : forall r, holds r init -> holds r inv).
    { intros r Hr. apply MI. assert (X := HM (mkClause (atom_of (svars ts)) init []) r (or_introl eq_refl)). unfold atom_of in X. cbn [chead cbody cfla asym] in X. rewrite avals_vars in X. apply X; [intros a []|exact Hr]. }
    assert (I1 : forall r, holds r inv -> holds r trans -> holds (at_j 1 r) inv).
    { intros r Hi Ht. apply MI. assert (X := HM (mkClause (atom_of (map (shiftv 1) (svars ts))) trans [atom_of (svars ts)]) r (or_intror (or_introl eq_refl))).
      unfold atom_of in X. cbn [chead cbody cfla asym] in X. rewrite avals_vars, args_map in X by apply shiftv_sort. apply X; [|exact Ht]. intros a [<-|[]]. cbn [asym]. rewrite avals_vars. apply MI, Hi. }
    exists m. split; [exists m; split; [intros v _; reflexivity|apply (ni_init _ _ _ V), Hm]|].
    apply (recurrent_forever ts (fun s => holds s inv)); [|apply I0, Hm]. intros s Hi.
    assert (Ex : exists r', agree_on (svars ts) s r' /\ holds r' trans).
    { destruct (holds_dec s p) as [Y|N]; [apply (proj_sem _ _ _ (Hq _ _ _ Eq)), Y|]. exfalso. apply (check_unsat _ Hc _ Ec' s). constructor; [|constructor]. apply holds_and2. split; [exact Hi|].
      apply (proj1 (Hs (mkNot p))). apply holds_not, N. }
    destruct Ex as [r' [A Ht]]. exists (at_j 1 r'). split.
    + exists r'. split; [intros v Hv; symmetry; apply A, Hv|]. split; [reflexivity|apply (ni_trans _ _ _ V), Ht].
    + apply I1; [|exact Ht]. apply (holds_agree s r'); [intros v Hv; apply A, Vi, Hv|exact Hi].
  - cbv zeta in E. set (n := steps - 3) in *. destruct (check [trace_formula init trans sink n]) as [m| |] eqn:Ec; try discriminate.
    destruct (back_loop _ _ _ _ _ _ _ _) as [o u'] eqn:Eb.
    assert (u' = false) by (destruct o; [apply loop_flag in E|apply loop_flag in E|injection E as _ E]; exact E). subst u'.
    destruct (back_ok init trans sink (trace_formula init trans sink n) V n _ _ _ Eb (sink_res init trans sink n V)) as [_ B].
    destruct o as [b|res|]; [| |discriminate].
    + apply (IH init (mkAnd [trans; mkNot b]) sink false); [apply ninv_block; assumption|exact E].
    + apply (IH (mkAnd [init; mkNot res]) trans sink false); [apply ninv_init; assumption|exact E].
Qed.

Lemma ninv_start p : qe (ttrans ts) (svars ts) = Some p -> ninv (tinit ts) (ttrans ts) (simp (mkNot p)).
Proof.
  intros E. destruct (constr_spec _ p E) as [C1 C2]. split; auto; try (intros; contradiction).
  intros r H H'. apply (proj1 (C2 r) H). exists r. split; [intros v _; reflexivity|exact H'].
Qed.
End Nonterm.
