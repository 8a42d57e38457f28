(** * TPA on graphs of loops: the answers *)
From Verif Require Import MergeModel MergeProofs LinearModel LinearProofs.
From Verif Require Import Syntax Solver TransSys TSLemmas KTo1Model FormulaModel NontermProofs ListLemmas TrlRun Graph GraphOps GraphOpsProofs GraphSem LinearModel LinearPath LinearTS PropGraph BmcGraphProofs SingleLoopPath TpaModel TpaProofs TpaQuery TpaLess TpaFix TpaRun TpaInv TpaTop DagModel TpaReuse DagSys DagProofs.
Open Scope list_scope.
Open Scope nat_scope.

Lemma to_base_at g (W : lwf g) v x : In x (lpv g v) -> vlookup (combine (cur_vars g v) (lpv g v)) (cur x) = x.
Proof.
  unfold cur_vars. intros H.
  replace (combine (map cur (lpv g v)) (lpv g v)) with (map (fun x => (cur x, x)) (lpv g v)) by (clear; induction (lpv g v) as [|y l IH]; cbn; [|rewrite IH]; reflexivity).
  pose proof (rep_base _ (lwf_rep g W) v) as Rb. clear - H Rb. induction (lpv g v) as [|y l IH]; [destruct H|]. cbn [map vlookup].
  destruct (var_eqb_spec (cur x) (cur y)) as [E|E].
  - unfold cur in E. injection E as E1 E2. pose proof (Rb x H). pose proof (Rb y (or_introl eq_refl)). destruct x, y; cbn in *; congruence.
  - destruct H as [->|H]; [congruence|]. apply IH; [exact H|]. intros z Hz. apply Rb. right; exact Hz.
Qed.
Lemma to_base_sort_at g v : sort_preserving (vlookup (combine (cur_vars g v) (lpv g v))).
Proof.
  apply MergeProofs.vlookup_sort. unfold cur_vars. intros a c H.
  replace (combine (map cur (lpv g v)) (lpv g v)) with (map (fun x => (cur x, x)) (lpv g v)) in H by (clear; induction (lpv g v) as [|y l IH]; cbn; [|rewrite IH]; reflexivity).
  apply in_map_iff in H as [x [E _]]. injection E as <- <-. reflexivity.
Qed.
(** A formula over the state variables of a vertex, as a definition of its predicate. *)
Definition as_def (g : lgraph) (v : sym) (t : term) : term := rename (vlookup (combine (cur_vars g v) (lpv g v))) t.
Lemma as_def_vars g v t : lwf g -> (forall x, In x (vars t) -> In x (cur_vars g v)) -> forall x, In x (vars (as_def g v t)) -> In x (lpv g v).
Proof.
  intros W V x Hx. unfold as_def in Hx. rewrite vars_rename in Hx. apply in_map_iff in Hx as [u [<- Hu]]. apply V in Hu. unfold cur_vars in Hu. apply in_map_iff in Hu as [y [<- Hy]].
  rewrite (to_base_at g W v y Hy). exact Hy.
Qed.
Lemma as_def_at g v t (r : valuation) (f : var -> var) (h : valuation) : lwf g -> (forall x, In x (vars t) -> In x (cur_vars g v)) -> sort_preserving f ->
  (forall x, In x (lpv g v) -> eval r (Var (f x)) = eval h (Var (cur x))) -> (holds r (rename f (as_def g v t)) <-> holds h t).
Proof.
  intros W V Hf H. unfold as_def. rewrite rename_rename. apply (MergeProofs.holds_ren_ext (fun x => f (vlookup (combine (cur_vars g v) (lpv g v)) x)) r h t).
  - intros x. rewrite Hf. apply to_base_sort_at.
  - intros x Hx. apply V in Hx. unfold cur_vars in Hx. apply in_map_iff in Hx as [y [<- Hy]]. rewrite (to_base_at g W v y Hy). apply H, Hy.
Qed.
Lemma as_def_cur g v t r : lwf g -> (forall x, In x (vars t) -> In x (cur_vars g v)) -> (holds r (rename cur (as_def g v t)) <-> holds r t).
Proof. intros W V. apply as_def_at; auto. apply cur_sort. Qed.
Lemma as_def_nxt g v t r : lwf g -> (forall x, In x (vars t) -> In x (cur_vars g v)) -> (holds r (rename nxt (as_def g v t)) <-> holds (at_time 1 r) t).
Proof. intros W V. apply as_def_at; [exact W|exact V|apply nxt_sort|]. intros x _. unfold at_time. cbn [eval]. rewrite shiftv_cur. reflexivity. Qed.

Section Top.
Variable check : check_fn.
Hypothesis Hc : check_ok check.
Variable itp : itp_fn.
Hypothesis Hi : itp_ok itp.
Variable mbp : mbp_fn.
Hypothesis Hm : mbp_ok mbp.
Variable lsimp : term -> term.
Hypothesis Hls : simp_ok lsimp.
Variable St : Type.
Variable start : tsys -> St.
Variable ask : tsys -> St -> term -> term -> out (tres * St).
Variable ok : tsys -> St -> Prop.
Variable exact : bool.
Hypothesis Ho : object_ok check start ask ok exact.
Variable tsimp : term -> term.
Hypothesis Hts : simp_ok tsimp.
Variable pitp : pitp_fn.
Hypothesis Hp : pitp_ok pitp.
Variable qe : qe_fn.
Hypothesis Hq : qe_ok qe.
Variable g : lgraph.
Hypothesis W : lwf g.
Hypothesis Hb : forall e, In e (ledges g) -> is_bool (lfla e) = true.
Variable o : list sym.
Hypothesis Eo : reverse_post_order g = Some o.
Notation gave := (some_gave_up check tsimp g).
Notation nw_ok := (nw_ok check St ok tsimp g o).
Notation node_ok := (node_ok check St ok tsimp g).

(** ** The network at the start *)
Lemma false_node v sys : (forall ts' st, sys = Some (ts', st) -> exists l, self_loop_of g v = Some l /\ normal_ts tsimp (loop_ts g v l) = Some ts' /\ ok ts' st) -> node_ok v (mkNode St sys tt_false tt_false [] 0).
Proof. intros H. split; cbn [nd_sys nd_pre nd_post]; [exact H|intros x []|intros x []|auto|]. right. intros ts' st _ s k s' K. discriminate K. Qed.
Lemma init_node_ok v n : init_node St start tsimp g v = Ret n ->
  exists sys, n = mkNode St sys tt_false tt_false [] 0 /\ node_ok v n /\ (v <> entry -> v <> exit -> sys <> None).
Proof.
  intros E. unfold init_node in E. destruct (Nat.eqb_spec v entry) as [|N1]; [injection E as <-; exists None; split; [reflexivity|]; split; [apply false_node; discriminate|contradiction]|].
  destruct (Nat.eqb_spec v exit) as [|N2]; [injection E as <-; exists None; split; [reflexivity|]; split; [apply false_node; discriminate|contradiction]|]. cbn [orb] in E.
  unfold vertex_ts in E. destruct (self_loop_of g v) as [l|] eqn:El; [|discriminate]. fold (loop_ts g v l) in E. destruct (normal_ts tsimp (loop_ts g v l)) as [ts'|] eqn:En; [|discriminate]. injection E as <-.
  eexists. split; [reflexivity|]. split; [|discriminate]. apply false_node. intros ts2 st K. injection K as <- <-. exists l. split; [exact El|]. split; [exact En|].
  apply (ob_start _ _ _ _ _ Ho). exact (normal_wf' g W Hb v l El tsimp Hts ts' En).
Qed.
Lemma init_network_ok vs nw : init_network St start tsimp g vs = Ret nw ->
  (forall v, exists sys, nw v = mkNode St sys tt_false tt_false [] 0) /\ (forall v, node_ok v (nw v)) /\ (forall v, In v vs -> v <> entry -> v <> exit -> nd_sys _ (nw v) <> None).
Proof.
  revert nw. induction vs as [|v vs IH]; intros nw E; cbn [init_network] in E.
  - injection E as <-. split; [eauto|]. split; [intros v; apply false_node; discriminate|]. intros v [].
  - apply obind_ret in E as [n [E1 E]]. apply obind_ret in E as [nw1 [E2 E]]. injection E as <-. destruct (IH nw1 E2) as [A [B C]]. destruct (init_node_ok v n E1) as [sys [-> [B1 C1]]].
    split; [|split].
    + intros w. unfold upd_node. destruct (Nat.eqb_spec w v) as [->|]; eauto.
    + intros w. unfold upd_node. destruct (Nat.eqb_spec w v) as [->|]; auto.
    + intros w Hw N1 N2. unfold upd_node. destruct (Nat.eqb_spec w v) as [->|N]; [apply C1; assumption|]. apply C; auto. destruct Hw as [->|Hw]; [contradiction|exact Hw].
Qed.
Lemma init_ok nw : init_network St start tsimp g (lvertices g) = Ret nw -> nw_ok nw.
Proof.
  intros E. destruct (init_network_ok _ _ E) as [A [B C]].
  assert (P : forall v, nd_pre _ (nw v) = tt_false) by (intros v; destruct (A v) as [? ->]; reflexivity).
  assert (Q : forall v, nd_post _ (nw v) = tt_false) by (intros v; destruct (A v) as [? ->]; reflexivity).
  assert (L : forall v, nd_blocked _ (nw v) = []) by (intros v; destruct (A v) as [? ->]; reflexivity).
  split.
  - exact B.
  - intros v i e _ _ r. rewrite Q. intros H. discriminate H.
  - intros v k i e b _ _. rewrite L. destruct k; discriminate.
  - intros v b. rewrite L. intros [].
  - intros v. rewrite L. cbn. lia.
  - intros b. rewrite L. intros [].
  - apply P.
  - intros v _. apply Q.
  - intros v H1. apply C, lvertices_spec, H1.
Qed.

(** ** SAFE *)
Hypothesis Np : forall e l, In e (ledges g) -> In l (ledges g) -> lfrom e = lto e -> lfrom l = lfrom e -> lto l = lto e -> e = l.
Lemma order_in v : In v o <-> path g entry v.
Proof. destruct (C42_reverse_post_order g (lwf_ids g W)) as [o' [E [_ [H _]]]]. rewrite Eo in E. injection E as <-. apply H. Qed.
Lemma derivable_path f : lderivable g f -> path g entry (fst f).
Proof. intros H. induction H as [|e f f' He _ IH [r [_ [-> ->]]]]; [constructor|]. apply path_snoc; assumption. Qed.
Lemma child_of e : In e (ledges g) -> path g entry (lfrom e) -> lto e <> lfrom e -> In (lid e) (children g o (lfrom e)).
Proof. intros He Pe N. apply (children_spec g o (lfrom e) (lid e) W). exists e. repeat split; auto. - apply (lwf_entry g W), He. - apply order_in, path_snoc; assumption. Qed.
Lemma pre_next nw e r : nw_ok nw -> In e (ledges g) -> path g entry (lfrom e) -> lto e <> lfrom e ->
  holds r (nd_post _ (nw (lfrom e))) -> holds r (lfla e) -> lto e <> exit /\ holds (at_time 1 r) (nd_pre _ (nw (lto e))).
Proof.
  intros N He Pe Ne H1 H2. pose proof (w_edge _ _ _ _ _ _ _ N (lfrom e) (lid e) e (child_of e He Pe Ne) (lfind_in g e (lwf_ids g W) He) r H1 H2) as H3.
  apply holds_shift in H3. split; [|exact H3]. intros Ex. rewrite Ex, (w_exit _ _ _ _ _ _ _ N) in H3. discriminate H3.
Qed.

Theorem safe_ok nw : nw_ok nw -> (forall s, holds s (nd_post _ (nw entry))) -> lderivable g (exit, []) -> gave.
Proof.
  intros N Hv D.
  assert (G : forall f, lderivable g f -> gave \/ fst f = entry \/ exists ts' st s0 s k, fst f <> exit /\ nd_sys _ (nw (fst f)) = Some (ts', st) /\ holds s0 (nd_pre _ (nw (fst f))) /\ Steps ts' k s0 s /\ f = at_v g (fst f) s).
  2:{ destruct (G _ D) as [H|[H|[? [? [? [? [? [H _]]]]]]]]; [exact H|discriminate H|cbn in H; congruence]. }
  intros f H. induction H as [|e f f' He Df IH Fo]; [auto|]. destruct IH as [IH|IH]; [auto|]. pose proof (derivable_path f Df) as Pf. destruct Fo as [r [Hr [Ef Ef']]].
  assert (Ff : fst f = lfrom e) by (rewrite Ef; reflexivity). assert (Ft : fst f' = lto e) by (rewrite Ef'; reflexivity). rewrite Ff in *. rewrite Ft.
  assert (A1 : f' = at_v g (lto e) (at_time 1 r)).
  { rewrite Ef'. unfold at_v. f_equal. rewrite (nxt_shift g). unfold args. rewrite map_map. apply map_ext. intros [xi xt xs]. destruct xt; reflexivity. }
  assert (Nl : lto e <> lfrom e -> holds r (nd_post _ (nw (lfrom e))) -> gave \/ lto e = entry \/ exists ts' st s0 s k, lto e <> exit /\ nd_sys _ (nw (lto e)) = Some (ts', st) /\ holds s0 (nd_pre _ (nw (lto e))) /\ Steps ts' k s0 s /\ f' = at_v g (lto e) s).
  { intros Ne Hpost. right; right. destruct (pre_next nw e r N He Pf Ne Hpost Hr) as [B1 B2].
    destruct (nd_sys _ (nw (lto e))) as [[ts' st]|] eqn:Es; [|exfalso; apply (w_sys _ _ _ _ _ _ _ N (lto e)); [right; right; exists e; auto|apply (lwf_entry g W), He|exact B1|exact Es]].
    exists ts', st, (at_time 1 r), (at_time 1 r), 0. repeat split; auto. constructor. }
  destruct IH as [IH|[ts' [st [s0 [s [k [Nx [Es [Hs0 [Hst Efs]]]]]]]]]].
  - apply Nl; [rewrite IH; apply (lwf_entry g W), He|]. rewrite IH. apply Hv.
  - destruct (w_node _ _ _ _ _ _ _ N (lfrom e)) as [S1 S2 S3 S4 S5]. destruct S5 as [S5|S5]; [auto|].
    assert (Sa : args s (cur_vars g (lfrom e)) = args r (cur_vars g (lfrom e))) by (rewrite Ef in Efs; injection Efs as X; symmetry; exact X).
    destruct (Nat.eq_dec (lto e) (lfrom e)) as [El|Ne].
    + right; right. exists ts', st, s0, (at_time 1 r), (S k). rewrite El. split; [exact Nx|]. split; [exact Es|]. split; [exact Hs0|]. split; [|rewrite <- El; exact A1].
      destruct (S1 _ _ Es) as [l [Hl [En _]]]. destruct (self_loop_spec g W _ l Hl) as [L1 [L2 [L3 _]]]. assert (e = l) by (apply Np; congruence). subst l.
      apply Steps_snoc. exists s. split; [exact Hst|]. eapply (Step_same ts'); [| |exact (label_step' g W Hb (lfrom e) e Hl tsimp Hts ts' En r Hr)].
      * exact (normal_wf' g W Hb (lfrom e) e Hl tsimp Hts ts' En).
      * apply (at_same g W Hb (lfrom e) e Hl tsimp Hts ts' En). unfold at_v. rewrite Sa. reflexivity.
    + apply Nl; [exact Ne|]. eapply (state_args _ (cur_vars g (lfrom e))); [exact S3|exact Sa|]. eapply S5; eauto.
Qed.

(** ** The definitions *)
Definition good_def (nw : network St) (v : sym) (d : term) : Prop := exists inv l ts', d = as_def g v inv /\ self_loop_of g v = Some l /\ normal_ts tsimp (loop_ts g v l) = Some ts' /\
  (forall x, In x (vars inv) -> In x (cur_vars g v)) /\ (forall s, holds s (nd_pre _ (nw v)) -> holds s inv) /\ (forall s s', holds s inv -> Step ts' s s' -> holds s' inv) /\ (forall s, holds s inv -> holds s (nd_post _ (nw v))).
Lemma dag_defs_ok nw vs w0 w : nw_ok nw -> dag_defs check itp lsimp St ask g pitp qe nw vs w0 = Ret w ->
  gave \/ ((forall v, ~ (In v vs /\ v <> entry /\ v <> exit) -> w v = w0 v) /\ forall v, In v vs -> v <> entry -> v <> exit -> exists d, w v = Some d /\ good_def nw v d).
Proof.
  intros N. revert w0. induction vs as [|v vs IH]; intros w0 E; cbn [dag_defs] in E.
  - injection E as <-. right. split; [reflexivity|intros v []].
  - destruct (Nat.eqb v entry || Nat.eqb v exit) eqn:Ev.
    + destruct (IH w0 E) as [H|[H1 H2]]; [auto|right]. assert (Nv : ~ (v <> entry /\ v <> exit)).
      { intros [X Y]. apply Nat.eqb_neq in X, Y. rewrite X, Y in Ev. discriminate Ev. }
      split; [|intros u [->|Hu] X Y; [exfalso; apply Nv; auto|auto]]. intros u Hu. apply H1. intros [X Y]. apply Hu. split; [right; exact X|exact Y].
    + apply orb_false_iff in Ev as [N1 N2]. apply Nat.eqb_neq in N1, N2. apply obind_ret in E as [[r sys] [Eq E]]. pose proof (w_node _ _ _ _ _ _ _ N v) as Nk.
      destruct (query_system_ok check itp Hi St start ask ok exact Ho tsimp Hts g W Hb v (nw v) _ _ r sys Nk (n_pre_vars _ _ _ _ _ _ _ Nk) (lnot_vars lsimp Hls g v _ (n_post_vars _ _ _ _ _ _ _ Nk)) (n_pre_ne _ _ _ _ _ _ _ Nk) Eq) as [l [ts' [st [st' [Es [-> [Hl [En [Hk Q]]]]]]]]].
      destruct r as [t k|t e]; [discriminate|]. destruct Q as [Q1 [Q2 [Q3|[Q3 _]]]]; [auto|]. apply obind_ret in E as [inv [Einv E]]. destruct inv as [inv|]; [|discriminate].
      pose proof (normal_sv g W Hb v l Hl tsimp Hts ts' En) as Sv. pose proof (normal_wf' g W Hb v l Hl tsimp Hts ts' En) as wf.
      assert (F1 : state_formula ts' (nd_pre _ (nw v))) by (intros x Hx; rewrite Sv; apply (n_pre_vars _ _ _ _ _ _ _ Nk), Hx).
      assert (F2 : state_formula ts' (lnot lsimp (nd_post _ (nw v)))) by (intros x Hx; rewrite Sv; apply (lnot_vars lsimp Hls g v _ (n_post_vars _ _ _ _ _ _ _ Nk)), Hx).
      pose proof (with_wf ts' _ _ wf F1 F2) as wf2.
      assert (Si : safe_inductive (with_states ts' (nd_pre _ (nw v)) (lnot lsimp (nd_post _ (nw v)))) inv).
      { eapply (inductive_invariant_ok check Hc pitp Hp qe Hq _ wf2 F1 F2 e inv Q3); [|exact Einv]. destruct e; [exact I|]. unfold no_aux. apply andb_true_iff. split; apply subsetb_spec; assumption. }
      destruct Si as [I1 I2 I3 I4]. rewrite Sv in E. fold (as_def g v inv) in E. destruct (IH _ E) as [H|[H1 H2]]; [auto|right].
      assert (Gd : good_def nw v (as_def g v inv)).
      { exists inv, l, ts'. split; [reflexivity|]. split; [exact Hl|]. split; [exact En|]. split; [intros x Hx; rewrite <- Sv; apply I1, Hx|]. split; [|split].
        - intros s Hs. apply I2. exists s. split; [intros x _; reflexivity|exact Hs].
        - intros s s' Hs Hst. exact (I3 s s' Hs Hst).
        - intros s Hs. destruct (holdsb s (nd_post _ (nw v))) eqn:Hh; [exact Hh|]. exfalso. apply (I4 s Hs). exists s. split; [intros x _; reflexivity|]. apply lnot_ok; [exact Hls|]. unfold holds. congruence. }
      split.
      * intros u Hu. rewrite H1 by (intros [X Y]; apply Hu; split; [right; exact X|exact Y]). unfold wset. destruct (Nat.eqb_spec u v) as [->|]; [|reflexivity]. exfalso. apply Hu. split; [left; reflexivity|auto].
      * intros u [->|Hu] X Y; [|apply H2; auto]. destruct (in_dec Nat.eq_dec u vs) as [Hu|Hu]; [apply H2; auto|]. exists (as_def g u inv). split; [|exact Gd]. rewrite H1 by tauto. unfold wset. rewrite Nat.eqb_refl. reflexivity.
Qed.
Theorem solution_ok nw w : nw_ok nw -> (forall s, holds s (nd_post _ (nw entry))) -> dag_defs check itp lsimp St ask g pitp qe nw (lvertices g) trivial_defs = Ret w -> gave \/ lsolution g w.
Proof.
  intros N Hv E. destruct (dag_defs_ok nw _ _ _ N E) as [H|[H1 H2]]; [auto|right].
  assert (W0 : w entry = Some tt_true) by (rewrite H1; [reflexivity|tauto]). assert (W1 : w exit = Some tt_false) by (rewrite H1; [reflexivity|tauto]).
  split.
  - intros p d Ed. destruct (Nat.eq_dec p entry) as [->|N1]; [rewrite W0 in Ed; injection Ed as <-; intros v []|]. destruct (Nat.eq_dec p exit) as [->|N2]; [rewrite W1 in Ed; injection Ed as <-; intros v []|].
    destruct (in_dec Nat.eq_dec p (lvertices g)) as [Ip|Ip].
    + destruct (H2 p Ip N1 N2) as [d' [E1 [inv [l [ts' [-> [_ [_ [Vi _]]]]]]]]]. rewrite E1 in Ed. injection Ed as <-. apply as_def_vars; assumption.
    + rewrite H1 in Ed by tauto. unfold trivial_defs in Ed. apply Nat.eqb_neq in N1, N2. rewrite N1, N2 in Ed. discriminate.
  - exists tt_true. split; [exact W0|]. intros r. reflexivity.
  - exists tt_false. split; [exact W1|]. intros r K. discriminate K.
  - intros e He. assert (Vf : In (lfrom e) (lvertices g)) by (apply lvertices_spec; right; right; exists e; auto). assert (Vt : In (lto e) (lvertices g)) by (apply lvertices_spec; right; right; exists e; auto).
    assert (Src : exists ds, w (lfrom e) = Some ds /\ forall r, holds r (rename cur ds) -> holds r (nd_post _ (nw (lfrom e)))).
    { destruct (Nat.eq_dec (lfrom e) entry) as [->|N1]; [exists tt_true; auto|]. destruct (H2 _ Vf N1 (lwf_exit g W e He)) as [d [E1 [inv [l [ts' [-> [_ [_ [Vi [_ [_ Ip]]]]]]]]]]]. exists (as_def g (lfrom e) inv). split; [exact E1|].
      intros r Hr. apply Ip. apply (as_def_cur g _ inv r W Vi), Hr. }
    destruct (Nat.eq_dec (lto e) (lfrom e)) as [El|Ne].
    + assert (N1 : lfrom e <> entry) by (rewrite <- El; apply (lwf_entry g W), He). destruct (H2 _ Vf N1 (lwf_exit g W e He)) as [d [E1 [inv [l [ts' [-> [Hl [En [Vi [_ [Is _]]]]]]]]]]].
      rewrite El. exists (as_def g (lfrom e) inv), (as_def g (lfrom e) inv). split; [exact E1|]. split; [exact E1|]. intros r Hr Hcur. apply (as_def_cur g _ inv r W Vi) in Hcur. apply (as_def_nxt g _ inv r W Vi).
      destruct (self_loop_spec g W _ l Hl) as [L1 [L2 [L3 _]]]. assert (e = l) by (apply Np; congruence). subst l.
      apply (Is r); [exact Hcur|]. exact (label_step' g W Hb (lfrom e) e Hl tsimp Hts ts' En r Hr).
    + destruct Src as [ds [E1 Hd]]. exists ds.
      assert (Po : forall r, holds r (lfla e) -> holds r (rename cur ds) -> lto e <> exit /\ holds (at_time 1 r) (nd_pre _ (nw (lto e)))).
      { intros r Hr Hcur. apply Hd in Hcur. destruct (in_dec Nat.eq_dec (lfrom e) o) as [Io|Io]; [apply (pre_next nw e r N He); auto; apply order_in, Io|].
        exfalso. rewrite (w_unreach _ _ _ _ _ _ _ N (lfrom e)) in Hcur; [discriminate Hcur|]. rewrite <- order_in. exact Io. }
      destruct (Nat.eq_dec (lto e) exit) as [Ex|Nx].
      * exists tt_false. split; [exact E1|]. split; [rewrite Ex; exact W1|]. intros r Hr Hcur. exfalso. apply (proj1 (Po r Hr Hcur)), Ex.
      * destruct (H2 _ Vt (lwf_entry g W e He) Nx) as [d [E2 [inv [l [ts' [-> [_ [_ [Vi [Ii _]]]]]]]]]]. exists (as_def g (lto e) inv). split; [exact E1|]. split; [exact E2|].
        intros r Hr Hcur. apply (as_def_nxt g _ inv r W Vi). apply Ii, (Po r Hr Hcur).
Qed.

(** ** UNSAFE *)
Lemma unsafe_ok nw i t rest : stack_ok St exact g nw (mkEntry PRE exit (Some i) t :: rest) ->
  lderivable g (exit, []) /\ exists es, path_ids St g nw (mkEntry PRE exit (Some i) t :: rest) = Ret (map lid es) /\ connected entry es exit /\ (forall e, In e es -> In e (ledges g)) /\
    (exact = true -> lruns g es (entry, []) (exit, [])).
Proof.
  intros H. assert (Ax : forall s, at_v g exit s = (exit, [])) by (intros s; unfold at_v, cur_vars; rewrite (rep_exit _ (lwf_rep g W)); reflexivity).
  split.
  - destruct (stack_over _ _ _ _ _ _ H) as [_ [s Hs]]. rewrite <- (Ax s). exact (stack_derivable St exact g W nw _ H _ eq_refl s Hs).
  - inversion H as [|u x t0 rest0 e t' H1 He Ef Ne V [s Hs] Hr|]; subst. match goal with X : lto e = exit |- _ => rename X into Ex end.
    destruct (stack_ids St exact g W nw _ H1 _ _ _ _ eq_refl) as [es [P1 [P2 [P3 P4]]]]. exists (es ++ [e]). cbn [path_ids] in P1 |- *. rewrite P1. cbn [obind].
    rewrite (ltarget_in g e (lwf_ids g W) He), Ex, Nat.eqb_refl, map_app. split; [reflexivity|]. split; [|split].
    + rewrite <- Ex. eapply connected_snoc; eauto.
    + intros f Hf. apply in_app_iff in Hf as [Hf|[<-|[]]]; auto.
    + intros X. destruct (Hr s Hs) as [s0 [A B]]. apply lruns_app. exists (at_v g (lfrom e) s0). split; [apply (P4 X s0 A)|]. rewrite Ex, Ax in B. econstructor; [exact He|exact B|constructor].
Qed.
End Top.

(** ** The whole run *)
Section Run.
Variable check : check_fn.
Hypothesis Hc : check_ok check.
Variable itp : itp_fn.
Hypothesis Hi : itp_ok itp.
Variable mbp : mbp_fn.
Hypothesis Hm : mbp_ok mbp.
Variable lsimp : term -> term.
Hypothesis Hls : simp_ok lsimp.
Variable St : Type.
Variable start : tsys -> St.
Variable ask : tsys -> St -> term -> term -> out (tres * St).
Variable ok : tsys -> St -> Prop.
Variable exact : bool.
Hypothesis Ho : object_ok check start ask ok exact.
Variable tsimp : term -> term.
Hypothesis Hts : simp_ok tsimp.
Variable pitp : pitp_fn.
Hypothesis Hp : pitp_ok pitp.
Variable qe : qe_fn.
Hypothesis Hq : qe_ok qe.
Variable g : lgraph.
Hypothesis W : lwf g.
Hypothesis Hb : forall e, In e (ledges g) -> is_bool (lfla e) = true.
Hypothesis Np : forall e l, In e (ledges g) -> In l (ledges g) -> lfrom e = lto e -> lfrom l = lfrom e -> lto l = lto e -> e = l.
Notation gave := (some_gave_up check tsimp g).
Notation solve := (dag_solve check itp mbp lsimp St start ask tsimp g pitp qe).

Lemma dag_solve_ok wit fuel r : (exact = true -> acyclic g) -> solve wit fuel = Ret r ->
  match r with
  | GASafe w => (lderivable g (exit, []) -> gave) /\ match w with Some w => gave \/ lsolution g w | None => wit = false end
  | GAUnsafe d => lderivable g (exit, []) /\ match d with Some d => lrefutation g d | None => wit = false end
  end.
Proof.
  intros Ac E. unfold dag_solve in E. destruct (reverse_post_order g) as [o|] eqn:Eo; [|discriminate].
  apply obind_ret in E as [nw0 [E0 E]]. apply obind_ret in E as [q [E1 E]].
  pose proof (init_ok check St start ask ok exact Ho tsimp Hts g W Hb o nw0 E0) as N0.
  pose proof (dag_loop_ok check Hc itp Hi mbp Hm lsimp Hls St start ask ok exact Ho tsimp Hts g W Hb o fuel Ac nw0 _ q N0 (or_introl (sk_entry _ _ _ _ _)) E1) as P.
  destruct q as [nw|path nw]; cbn [dag_post] in P.
  - destruct P as [N Hv]. assert (S1 := safe_ok check St ok tsimp Hts g W Hb o Eo Np nw N Hv). destruct wit; [|injection E as <-; auto].
    apply obind_ret in E as [w [Ew E]]. injection E as <-. split; [exact S1|]. pose proof (solution_ok check Hc itp Hi lsimp Hls St start ask ok exact Ho tsimp Hts pitp Hp qe Hq g W Hb o Eo Np nw w N Hv Ew) as X. exact X.
  - destruct P as [i [t [rest [-> Hst]]]]. destruct (unsafe_ok St exact g W nw i t rest Hst) as [D [es [E2 [Cn [Ie _]]]]]. destruct wit; [|injection E as <-; auto].
    rewrite E2 in E. cbn [obind] in E. pose proof (from_error_path_ok g W check es Hc Ie Cn) as F. destruct (from_error_path check g (map lid es)) as [| |d]; [destruct F|discriminate|]. injection E as <-. split; [exact D|apply F].
Qed.
Lemma dag_witness_ok fuel : exact = true -> acyclic g -> solve false fuel = Ret (GAUnsafe None) -> solve true fuel = Exc -> exists q, check q = UNKNOWN.
Proof.
  intros X Ac E K. unfold dag_solve in E, K. destruct (reverse_post_order g) as [o|] eqn:Eo; [|discriminate].
  apply obind_ret in E as [nw0 [E0 E]]. rewrite E0 in K. cbn [obind] in K. apply obind_ret in E as [q [E1 E]]. rewrite E1 in K. cbn [obind] in K.
  pose proof (init_ok check St start ask ok exact Ho tsimp Hts g W Hb o nw0 E0) as N0.
  pose proof (dag_loop_ok check Hc itp Hi mbp Hm lsimp Hls St start ask ok exact Ho tsimp Hts g W Hb o fuel (fun _ => Ac) nw0 _ q N0 (or_introl (sk_entry _ _ _ _ _)) E1) as P.
  destruct q as [nw|path nw]; cbn [dag_post] in P; [discriminate|]. destruct P as [i [t [rest [-> Hst]]]]. destruct (unsafe_ok St exact g W nw i t rest Hst) as [D [es [E2 [Cn [Ie R]]]]].
  rewrite E2 in K. cbn [obind] in K. pose proof (from_error_path_ok g W check es Hc Ie Cn) as F. destruct (from_error_path check g (map lid es)) as [| |d]; [discriminate| |discriminate]. destruct F as [F|F]; [exfalso; apply F, R, X|eauto].
Qed.
End Run.

(** The two kinds of objects. *)
Lemma split_object_ok check itp itp2 elim isimp fuel : check_ok check -> itp_ok itp -> itp_ok itp2 -> mbp_ok elim -> simp_ok isimp ->
  object_ok check split_new (split_ask check itp itp2 elim isimp fuel) (fun ts st => split_state_ok check ts st) true.
Proof.
  intros Hc H1 H2 He Hs. split.
  - intros ts wf. apply split_new_ok, wf.
  - intros ts st from to r st' wf K F1 F2 Ne E. destruct (split_ask_ok check Hc itp itp2 H1 H2 elim He isimp Hs ts wf fuel st from to r st' K F1 F2 Ne E) as [A B].
    split; [exact A|]. destruct r as [t n|e|]; [|exact B|exact B]. destruct B as [B0 [B1 [B2 B3]]]. split; [exact B0|]. split; [exact B1|]. split; [exact B2|].
    intros s Hs'. destruct (B3 s Hs') as [C1 [s0 [C2 C3]]]. split; [exact C1|]. exists n, s0, s. split; [exact C2|]. split; [exact C3|]. split; [intros v _; reflexivity|auto].
Qed.
Lemma basic_object_ok check itp elim isimp fuel : check_ok check -> itp_ok itp -> mbp_ok elim -> simp_ok isimp ->
  object_ok check basic_new (basic_ask check itp elim isimp fuel) (fun ts st => basic_state_ok check ts st) false.
Proof.
  intros Hc H1 He Hs. split.
  - intros ts wf. apply basic_new_ok.
  - intros ts st from to r st' wf K F1 F2 Ne E. destruct (basic_ask_ok check Hc itp H1 elim He isimp Hs ts wf fuel st from to r st' K F1 F2 E) as [A B].
    split; [exact A|]. destruct r as [t n|e|]; [|exact B|exact B]. destruct B as [B0 [B1 [B2 B3]]]. split; [exact B0|]. split; [exact B1|]. split; [exact B2|].
    intros s Hs'. destruct (B3 s Hs') as [C1 [m [s0 [u [C2 [C3 C4]]]]]]. split; [exact C1|]. exists m, s0, u. split; [exact C2|]. split; [exact C3|]. split; [exact C4|discriminate].
Qed.
