(** * TPA on graphs of loops: the search *)
From Verif Require Import Syntax Solver TransSys TSLemmas KTo1Model FormulaModel NontermProofs ListLemmas TrlRun Graph GraphOps GraphOpsProofs GraphSem LinearModel LinearPath LinearTS PropGraph BmcGraphProofs TpaModel TpaProofs TpaQuery TpaLess TpaFix TpaRun TpaTop DagModel TpaReuse DagSys.
Open Scope list_scope.
Open Scope nat_scope.

(** What is needed of the solver objects.  [exact]: the reported number of steps is right. *)
Record object_ok (check : check_fn) {St : Type} (start : tsys -> St) (ask : tsys -> St -> term -> term -> out (tres * St)) (ok : tsys -> St -> Prop) (exact : bool) : Prop := {
  ob_start : forall ts, ts_wf ts = true -> ok ts (start ts);
  ob_ask : forall ts st from to r st', ts_wf ts = true -> ok ts st -> state_formula ts from -> state_formula ts to -> (from = tt_false \/ exists s, holds s from) ->
    ask ts st from to = Ret (r, st') ->
    ok ts st' /\
    match r with
    | TUnsafe t n => from <> tt_false /\ state_formula ts t /\ (exists s, holds s t) /\
        forall s, holds s t -> holds s to /\ exists m s0 u, holds s0 from /\ Steps ts m s0 u /\ same_state ts u s /\ (exact = true -> m = n)
    | TSafe e => gave_up check ts \/ expl_ok (with_states ts from to) e
    | TUnknown => False
    end
}.

Section Search.
Variable check : check_fn.
Hypothesis Hc : check_ok check.
Variable itp : itp_fn.
Hypothesis Hi : itp_ok itp.
Variable mbp : mbp_fn.
Hypothesis Hm : mbp_ok mbp.
Variable lsimp : term -> term.
Hypothesis Hls : simp_ok lsimp.
Variable St : Type.
Variable start : tsys -> St.
Variable ask : tsys -> St -> term -> term -> out (tres * St).
Variable ok : tsys -> St -> Prop.
Variable exact : bool.
Hypothesis Ho : object_ok check start ask ok exact.
Variable tsimp : term -> term.
Hypothesis Hts : simp_ok tsimp.
Variable g : lgraph.
Hypothesis W : lwf g.
Hypothesis Hb : forall e, In e (ledges g) -> is_bool (lfla e) = true.
Notation node := (node St).
Notation network := (network St).
Notation over v t := (forall x, In x (vars t) -> In x (cur_vars g v)).

Definition some_gave_up : Prop := exists v ts ts', vertex_ts g v = Some ts /\ normal_ts tsimp ts = Some ts' /\ gave_up check ts'.

Lemma lnot_ok r t : holds r (lnot lsimp t) <-> ~ holds r t.
Proof. unfold lnot. rewrite (proj1 (Hls _) r). apply holds_not. Qed.
Lemma lnot_vars v t : over v t -> over v (lnot lsimp t).
Proof. intros H x Hx. apply (proj2 (Hls _)) in Hx. apply in_vars_app in Hx as [y [[<-|[]] Hx]]. apply H, Hx. Qed.

Record node_ok (v : sym) (n : node) : Prop := {
  n_sys : forall ts' st, nd_sys _ n = Some (ts', st) -> exists l, self_loop_of g v = Some l /\ normal_ts tsimp (loop_ts g v l) = Some ts' /\ ok ts' st;
  n_pre_vars : over v (nd_pre _ n);
  n_post_vars : over v (nd_post _ n);
  n_pre_ne : nd_pre _ n = tt_false \/ exists s, holds s (nd_pre _ n);
  n_safe : some_gave_up \/ forall ts' st, nd_sys _ n = Some (ts', st) -> forall s k s', holds s (nd_pre _ n) -> Steps ts' k s s' -> holds s' (nd_post _ n)
}.

(** ** Queries *)
Lemma query_system_ok v n from to r sys : node_ok v n -> over v from -> over v to -> (from = tt_false \/ exists s, holds s from) ->
  query_system check itp St ask n from to = Ret (r, sys) ->
  exists l ts' st st', nd_sys _ n = Some (ts', st) /\ sys = Some (ts', st') /\ self_loop_of g v = Some l /\ normal_ts tsimp (loop_ts g v l) = Some ts' /\ ok ts' st' /\
  match r with
  | SReach t k => from <> tt_false /\ over v t /\ (exists s, holds s t) /\
      forall s, holds s t -> holds s to /\ exists m s0, holds s0 from /\ lruns g (repeat l m) (at_v g v s0) (at_v g v s) /\ (exact = true -> m = k)
  | SBlock t e => over v t /\ (forall s, holds s from -> holds s t) /\
      (some_gave_up \/ (expl_ok (with_states ts' from to) e /\ forall s k s', holds s t -> Steps ts' k s s' -> ~ holds s' to))
  end.
Proof.
  intros Nk Vf Vt Ne E. unfold query_system in E. destruct (nd_sys _ n) as [[ts' st]|] eqn:Es; [|discriminate].
  apply obind_ret in E as [[r1 st'] [E1 E]]. destruct (n_sys _ _ Nk ts' st Es) as [l [Hl [En Hk]]].
  pose proof (normal_sv g W Hb v l Hl tsimp Hts ts' En) as Sv. pose proof (normal_wf' g W Hb v l Hl tsimp Hts ts' En) as wf.
  assert (F1 : state_formula ts' from) by (intros x Hx; rewrite Sv; apply Vf, Hx). assert (F2 : state_formula ts' to) by (intros x Hx; rewrite Sv; apply Vt, Hx).
  destruct (ob_ask _ _ _ _ _ Ho ts' st from to r1 st' wf Hk F1 F2 Ne E1) as [Hk' A].
  exists l, ts', st. destruct r1 as [t k|e|]; [|apply obind_ret in E as [t [E2 E]]|discriminate]; injection E as <- <-; exists st'; (split; [reflexivity|]; split; [reflexivity|]; split; [exact Hl|]; split; [exact En|]; split; [exact Hk'|]).
  - destruct A as [A0 [A1 [A2 A3]]]. split; [exact A0|]. split; [intros x Hx; rewrite <- Sv; apply A1, Hx|]. split; [exact A2|]. intros s Hs. destruct (A3 s Hs) as [B1 [m [s0 [u [B2 [B3 [B4 B5]]]]]]].
    split; [exact B1|]. exists m, s0. split; [exact B2|]. split; [|exact B5]. rewrite <- (same_at g W Hb v l Hl tsimp Hts ts' En u s B4). apply (steps_lruns g W Hb v l Hl tsimp Hts ts' En), B3.
  - pose proof (with_wf ts' from to wf F1 F2) as wf2. destruct (safety_explanation_init check itp Hi (with_states ts' from to) F1 e t E2) as [B1 B2].
    split; [intros x Hx; rewrite <- Sv; apply B1, Hx|]. split; [exact B2|]. destruct A as [A|A].
    + left. exists v, (loop_ts g v l), ts'. split; [apply vertex_ts_eq, Hl|auto].
    + right. split; [exact A|]. intros s k s' Hs Hst. eapply (safety_explanation_safe check itp Hi (with_states ts' from to) wf2 F1 F2 e t A E2 s k s' Hs). eapply Steps_same; [apply with_same|exact Hst].
Qed.

Lemma query_edge_ok e from to r : In e (ledges g) -> over (lfrom e) from -> over (lto e) to -> query_edge check itp mbp lsimp g e from to = Ret r ->
  match r with
  | EReach t => over (lto e) t /\ (exists s, holds s t) /\ forall s, holds s t -> exists s0, holds s0 from /\ lfollows g e (at_v g (lfrom e) s0) (at_v g (lto e) s)
  | EBlock t => over (lfrom e) t /\ (forall s, holds s from -> holds s t) /\ forall s, holds s t -> holds s (lfla e) -> ~ holds s (shift 1 to)
  end.
Proof.
  intros He Vf Vt E. unfold query_edge in E. destruct (check _) as [m| |] eqn:Ec; [| |discriminate].
  - destruct (mbp _ _ m) as [t|] eqn:Em; [|discriminate]. injection E as <-. apply (check_sat _ Hc) in Ec.
    assert (Hh : holds m (lsimp (mkAnd [from; lfla e; shift 1 to]))) by (apply (proj2 (proj1 (Hls _) m)), holds_and; exact Ec).
    destruct (Hm _ _ _ _ Em Hh) as [M1 M2 M3]. split; [|split].
    + intros x Hx. rewrite vars_shift in Hx. apply in_map_iff in Hx as [y [<- Hy]]. apply M1 in Hy. rewrite (nxt_shift g) in Hy. apply in_map_iff in Hy as [z [<- Hz]].
      rewrite shiftv_shiftv. change (-1 + 1)%Z with 0%Z. rewrite shiftv_0. exact Hz.
    + exists (at_time 1 m). apply holds_shift. refine (proj1 (holds_agree m _ _ _) (M2 Hh)). intros x _. unfold at_time. rewrite shiftv_shiftv. change (1 + -1)%Z with 0%Z. rewrite shiftv_0. reflexivity.
    + intros s Hs. apply holds_shift in Hs. destruct (M3 _ Hs) as [r [A B]]. apply (proj1 (proj1 (Hls _) r)) in B. apply holds_and3 in B as [B1 [B2 B3]].
      exists r. split; [exact B1|]. exists r. split; [exact B2|]. split; [reflexivity|]. unfold at_v. f_equal. rewrite (nxt_shift g). unfold args. rewrite map_map. apply map_ext_in. intros x Hx.
      cbn [eval]. specialize (A (shiftv 1 x)). cbn beta in A. rewrite shiftv_shiftv in A. change (-1 + 1)%Z with 0%Z in A. rewrite shiftv_0 in A. rewrite <- A by (rewrite (nxt_shift g); apply in_map, Hx).
      destruct x as [xi xt xs]; destruct xt; reflexivity.
  - destruct (itp _ _) as [J|] eqn:EJ; [|discriminate]. injection E as <-. destruct (Hi _ _ _ EJ) as [A B C]. split; [|split].
    + apply lnot_vars. intros x Hx. apply C in Hx as [_ Hx]. unfold lvars in Hx. cbn in Hx. rewrite app_nil_r in Hx. apply Vf, Hx.
    + intros s Hs. apply lnot_ok. intros K. apply (B s K). repeat constructor. exact Hs.
    + intros s Hs H1 H2. apply lnot_ok in Hs. apply Hs, A. repeat constructor; assumption.
Qed.

(** ** The invariant of the network *)
Variable o : list sym.
Hypothesis Eo : reverse_post_order g = Some o.
Notation ch := (children g o).
Record nw_ok (nw : network) : Prop := {
  w_node : forall v, node_ok v (nw v);
  w_edge : forall v i e, In i (ch v) -> lfind g i = Some e -> forall r, holds r (nd_post _ (nw v)) -> holds r (lfla e) -> holds r (shift 1 (nd_pre _ (nw (lto e))));
  w_blocked : forall v k i e b, nth_error (ch v) k = Some i -> lfind g i = Some e -> nth_error (nd_blocked _ (nw v)) k = Some b ->
    forall r, holds r b -> holds r (lfla e) -> holds r (shift 1 (nd_pre _ (nw (lto e))));
  w_bvars : forall v b, In b (nd_blocked _ (nw v)) -> over v b;
  w_len : forall v, length (nd_blocked _ (nw v)) <= length (ch v);
  w_entry : forall b, In b (nd_blocked _ (nw entry)) -> forall r, holds r b;
  w_exit : nd_pre _ (nw exit) = tt_false;
  w_unreach : forall v, ~ path g entry v -> nd_post _ (nw v) = tt_false;
  w_sys : forall v, lvertex g v -> v <> entry -> v <> exit -> nd_sys _ (nw v) <> None
}.

Lemma upd_same (nw : network) v n : upd_node _ nw v n v = n.
Proof. unfold upd_node. rewrite Nat.eqb_refl. reflexivity. Qed.
Lemma upd_other (nw : network) v n w : w <> v -> upd_node _ nw v n w = nw w.
Proof. intros H. unfold upd_node. apply Nat.eqb_neq in H. rewrite H. reflexivity. Qed.

Lemma lsimp_or v a b : over v a -> over v b -> over v (lsimp (mkOr [a; b])).
Proof. intros A B x Hx. apply (proj2 (Hls _)) in Hx. apply in_vars_app in Hx as [y [[<-|[<-|[]]] Hx]]; auto. Qed.
Lemma lsimp_or_holds r a b : holds r (lsimp (mkOr [a; b])) <-> holds r a \/ holds r b.
Proof. rewrite (proj1 (Hls _) r). apply holds_or2. Qed.
Lemma lsimp_and_holds r l : holds r (lsimp (mkAnd l)) <-> Forall (holds r) l.
Proof. rewrite (proj1 (Hls _) r). apply holds_and. Qed.

(** *** The steps of the search *)
Lemma nw_reach nw v sys k : nw_ok nw -> node_ok v (mkNode _ sys (nd_pre _ (nw v)) (nd_post _ (nw v)) (nd_blocked _ (nw v)) k) -> (nd_sys _ (nw v) <> None -> sys <> None) ->
  nw_ok (upd_node _ nw v (mkNode _ sys (nd_pre _ (nw v)) (nd_post _ (nw v)) (nd_blocked _ (nw v)) k)).
Proof.
  intros N K S1. set (n := mkNode _ _ _ _ _ _).
  assert (P : forall w, nd_pre _ (upd_node _ nw v n w) = nd_pre _ (nw w)) by (intros w; unfold upd_node; destruct (Nat.eqb_spec w v) as [->|]; reflexivity).
  assert (Q : forall w, nd_post _ (upd_node _ nw v n w) = nd_post _ (nw w)) by (intros w; unfold upd_node; destruct (Nat.eqb_spec w v) as [->|]; reflexivity).
  assert (B : forall w, nd_blocked _ (upd_node _ nw v n w) = nd_blocked _ (nw w)) by (intros w; unfold upd_node; destruct (Nat.eqb_spec w v) as [->|]; reflexivity).
  split.
  - intros w. unfold upd_node. destruct (Nat.eqb_spec w v) as [->|]; [exact K|apply (w_node _ N)].
  - intros w i e H1 H2. rewrite Q, P. eapply (w_edge _ N); eauto.
  - intros w k' i e b H1 H2. rewrite B, P. eapply (w_blocked _ N); eauto.
  - intros w b. rewrite B. apply (w_bvars _ N).
  - intros w. rewrite B. apply (w_len _ N).
  - intros b. rewrite B. apply (w_entry _ N).
  - rewrite P. apply (w_exit _ N).
  - intros w. rewrite Q. apply (w_unreach _ N).
  - intros w H1 H2 H3. unfold upd_node. destruct (Nat.eqb_spec w v) as [->|]; [apply S1|]; apply (w_sys _ N); assumption.
Qed.
Lemma nw_pre nw v sys pre k : nw_ok nw -> v <> exit -> (forall r, holds r (nd_pre _ (nw v)) -> holds r pre) ->
  node_ok v (mkNode _ sys pre (nd_post _ (nw v)) (nd_blocked _ (nw v)) k) -> (nd_sys _ (nw v) <> None -> sys <> None) ->
  nw_ok (upd_node _ nw v (mkNode _ sys pre (nd_post _ (nw v)) (nd_blocked _ (nw v)) k)).
Proof.
  intros N Nx M K S1. set (n := mkNode _ _ _ _ _ _).
  assert (P : forall w r, holds r (shift 1 (nd_pre _ (nw w))) -> holds r (shift 1 (nd_pre _ (upd_node _ nw v n w)))).
  { intros w r. rewrite !holds_shift. unfold upd_node. destruct (Nat.eqb_spec w v) as [->|]; [apply M|auto]. }
  assert (Q : forall w, nd_post _ (upd_node _ nw v n w) = nd_post _ (nw w)) by (intros w; unfold upd_node; destruct (Nat.eqb_spec w v) as [->|]; reflexivity).
  assert (B : forall w, nd_blocked _ (upd_node _ nw v n w) = nd_blocked _ (nw w)) by (intros w; unfold upd_node; destruct (Nat.eqb_spec w v) as [->|]; reflexivity).
  split.
  - intros w. unfold upd_node. destruct (Nat.eqb_spec w v) as [->|]; [exact K|apply (w_node _ N)].
  - intros w i e H1 H2 r. rewrite Q. intros H3 H4. apply P. eapply (w_edge _ N); eauto.
  - intros w k' i e b H1 H2. rewrite B. intros H3 r H4 H5. apply P. eapply (w_blocked _ N); eauto.
  - intros w b. rewrite B. apply (w_bvars _ N).
  - intros w. rewrite B. apply (w_len _ N).
  - intros b. rewrite B. apply (w_entry _ N).
  - rewrite upd_other by auto. apply (w_exit _ N).
  - intros w. rewrite Q. apply (w_unreach _ N).
  - intros w H1 H2 H3. unfold upd_node. destruct (Nat.eqb_spec w v) as [->|]; [apply S1|]; apply (w_sys _ N); assumption.
Qed.
Lemma nw_block nw v i e b : nw_ok nw -> nth_error (ch v) (length (nd_blocked _ (nw v))) = Some i -> lfind g i = Some e -> over v b ->
  (forall r, holds r b -> holds r (lfla e) -> holds r (shift 1 (nd_pre _ (nw (lto e))))) -> (v = entry -> forall r, holds r b) ->
  nw_ok (upd_node _ nw v (mkNode _ (nd_sys _ (nw v)) (nd_pre _ (nw v)) (nd_post _ (nw v)) (nd_blocked _ (nw v) ++ [b]) (nd_steps _ (nw v)))).
Proof.
  intros N Ei Ee Vb Hbk Hen. set (n := mkNode _ _ _ _ _ _).
  assert (P : forall w, nd_pre _ (upd_node _ nw v n w) = nd_pre _ (nw w)) by (intros w; unfold upd_node; destruct (Nat.eqb_spec w v) as [->|]; reflexivity).
  assert (Q : forall w, nd_post _ (upd_node _ nw v n w) = nd_post _ (nw w)) by (intros w; unfold upd_node; destruct (Nat.eqb_spec w v) as [->|]; reflexivity).
  assert (S1 : forall w, nd_sys _ (upd_node _ nw v n w) = nd_sys _ (nw w)) by (intros w; unfold upd_node; destruct (Nat.eqb_spec w v) as [->|]; reflexivity).
  assert (B : forall w x, In x (nd_blocked _ (upd_node _ nw v n w)) -> In x (nd_blocked _ (nw w)) \/ (w = v /\ x = b)).
  { intros w x. unfold upd_node. destruct (Nat.eqb_spec w v) as [->|]; [|auto]. cbn. rewrite in_app_iff. cbn. intuition. }
  split.
  - intros w. unfold upd_node. destruct (Nat.eqb_spec w v) as [->|]; [|apply (w_node _ N)]. destruct (w_node _ N v). split; assumption.
  - intros w j f H1 H2. rewrite Q, P. eapply (w_edge _ N); eauto.
  - intros w k j f c H1 H2 H3. rewrite P. revert H3. unfold upd_node. destruct (Nat.eqb_spec w v) as [->|]; [|eapply (w_blocked _ N); eauto]. cbn [nd_blocked n]. intros H3.
    assert (Hk : k < length (nd_blocked _ (nw v) ++ [b])) by (apply nth_error_Some; congruence). rewrite app_length in Hk. cbn in Hk.
    destruct (Nat.eq_dec k (length (nd_blocked _ (nw v)))) as [->|Nk].
    + rewrite nth_error_app2, Nat.sub_diag in H3 by lia. cbn in H3. injection H3 as <-. rewrite Ei in H1. injection H1 as <-. rewrite Ee in H2. injection H2 as <-. exact Hbk.
    + rewrite nth_error_app1 in H3 by lia. eapply (w_blocked _ N); eauto.
  - intros w x H. apply B in H as [H|[-> ->]]; [apply (w_bvars _ N), H|exact Vb].
  - intros w. unfold upd_node. destruct (Nat.eqb_spec w v) as [->|]; [|apply (w_len _ N)]. cbn. rewrite app_length. cbn. assert (length (nd_blocked _ (nw v)) < length (ch v)) by (apply nth_error_Some; congruence). lia.
  - intros x H r. apply B in H as [H|[E ->]]; [apply (w_entry _ N), H|apply Hen; auto].
  - rewrite P. apply (w_exit _ N).
  - intros w. rewrite Q. apply (w_unreach _ N).
  - intros w. rewrite S1. apply (w_sys _ N).
Qed.
Lemma nw_post nw v : nw_ok nw -> path g entry v -> nth_error (ch v) (length (nd_blocked _ (nw v))) = None ->
  nw_ok (upd_node _ nw v (mkNode _ (nd_sys _ (nw v)) (nd_pre _ (nw v)) (lsimp (mkOr [nd_post _ (nw v); lsimp (mkAnd (nd_blocked _ (nw v)))])) [] (nd_steps _ (nw v)))).
Proof.
  intros N Rv En. set (n := mkNode _ _ _ _ _ _).
  assert (P : forall w, nd_pre _ (upd_node _ nw v n w) = nd_pre _ (nw w)) by (intros w; unfold upd_node; destruct (Nat.eqb_spec w v) as [->|]; reflexivity).
  assert (S1 : forall w, nd_sys _ (upd_node _ nw v n w) = nd_sys _ (nw w)) by (intros w; unfold upd_node; destruct (Nat.eqb_spec w v) as [->|]; reflexivity).
  assert (L : length (nd_blocked _ (nw v)) = length (ch v)) by (pose proof (w_len _ N v); apply nth_error_None in En; lia).
  split.
  - intros w. unfold upd_node. destruct (Nat.eqb_spec w v) as [->|]; [|apply (w_node _ N)]. destruct (w_node _ N v) as [A1 A2 A3 A4 A5]. split; cbn [nd_sys nd_pre nd_post n]; auto.
    + apply lsimp_or; [exact A3|]. intros x Hx. apply (proj2 (Hls _)) in Hx. apply in_vars_app in Hx as [b [Hin Hx]]. eapply (w_bvars _ N); eauto.
    + destruct A5 as [A5|A5]; [auto|right]. intros ts' st Es s k s' H1 H2. apply lsimp_or_holds. left. eapply A5; eauto.
  - intros w i e H1 H2 r. rewrite P. unfold upd_node. destruct (Nat.eqb_spec w v) as [->|]; [|eapply (w_edge _ N); eauto]. cbn [nd_post n]. intros H3 H4.
    apply lsimp_or_holds in H3 as [H3|H3]; [eapply (w_edge _ N); eauto|]. apply lsimp_and_holds in H3. apply In_nth_error in H1 as [k H1].
    destruct (nth_error (nd_blocked _ (nw v)) k) as [b|] eqn:Eb.
    + eapply (w_blocked _ N); eauto. rewrite Forall_forall in H3. apply H3. eapply nth_error_In, Eb.
    + apply nth_error_None in Eb. assert (k < length (ch v)) by (apply nth_error_Some; congruence). lia.
  - intros w k i e b H1 H2. unfold upd_node at 1. destruct (Nat.eqb_spec w v) as [->|]; [cbn; destruct k; discriminate|]. rewrite P. eapply (w_blocked _ N); eauto.
  - intros w b. unfold upd_node. destruct (Nat.eqb_spec w v) as [->|]; [intros []|apply (w_bvars _ N)].
  - intros w. unfold upd_node. destruct (Nat.eqb_spec w v) as [->|]; [cbn; lia|apply (w_len _ N)].
  - intros b. unfold upd_node. destruct (Nat.eqb_spec entry v) as [<-|]; [intros []|apply (w_entry _ N)].
  - rewrite P. apply (w_exit _ N).
  - intros w Hw. unfold upd_node. destruct (Nat.eqb_spec w v) as [->|]; [contradiction|apply (w_unreach _ N), Hw].
  - intros w. rewrite S1. apply (w_sys _ N).
Qed.

(** ** The stack *)
Inductive stack_ok (nw : network) : list pentry -> Prop :=
| sk_entry x : stack_ok nw [mkEntry POST entry x tt_true]
| sk_pre u x t rest e t' : stack_ok nw (mkEntry POST u x t :: rest) -> In e (ledges g) -> lfrom e = u -> lto e <> u ->
   over (lto e) t' -> (exists s, holds s t') -> (forall s, holds s t' -> exists s0, holds s0 t /\ lfollows g e (at_v g u s0) (at_v g (lto e) s)) ->
   stack_ok nw (mkEntry PRE (lto e) (Some (lid e)) t' :: mkEntry POST u x t :: rest)
| sk_post v i t rest l t' : stack_ok nw (mkEntry PRE v i t :: rest) -> self_loop_of g v = Some l -> over v t' -> (exists s, holds s t') ->
   (forall s, holds s t' -> exists m s0, holds s0 t /\ lruns g (repeat l m) (at_v g v s0) (at_v g v s) /\ (exact = true -> m = nd_steps _ (nw v))) ->
   stack_ok nw (mkEntry POST v None t' :: mkEntry PRE v i t :: rest).

Lemma stack_over nw en rest : stack_ok nw (en :: rest) -> over (en_node en) (en_reached en) /\ exists s, holds s (en_reached en).
Proof. intros H. inversion H; subst; cbn; auto. split; [intros ? []|exists (fun _ => VInt 0); reflexivity]. Qed.
Lemma stack_path nw st : stack_ok nw st -> forall en, hd_error st = Some en -> path g entry (en_node en) /\ forall x, In x st -> path g (en_node x) (en_node en).
Proof.
  intros H. induction H as [x|u x t rest e t' H IH He Ef Ne _ _ _|v i t rest l t' H IH _ _ _ _]; intros en E; injection E as <-; cbn [en_node].
  - split; [constructor|]. intros y [<-|[]]. constructor.
  - destruct (IH _ eq_refl) as [A B]. cbn [en_node] in A, B. subst u. split; [apply path_snoc; assumption|]. intros y [<-|Hy]; [constructor|]. apply path_snoc; [apply B, Hy|exact He].
  - destruct (IH _ eq_refl) as [A B]. cbn [en_node] in A, B. split; [exact A|]. intros y [<-|Hy]; [constructor|apply B, Hy].
Qed.
Lemma stack_derivable nw st : stack_ok nw st -> forall en, hd_error st = Some en -> forall s, holds s (en_reached en) -> lderivable g (at_v g (en_node en) s).
Proof.
  intros H. induction H as [x|u x t rest e t' H IH He Ef Ne _ _ Hr|v i t rest l t' H IH Hl _ _ Hr]; intros en E s Hs; injection E as <-; cbn [en_node en_reached] in *.
  - replace (at_v g entry s) with ((entry, []) : fact); [constructor|]. unfold at_v, cur_vars. rewrite (rep_entry _ (lwf_rep g W)). reflexivity.
  - destruct (Hr s Hs) as [s0 [A B]]. eapply lder_edge; [exact He| |exact B]. apply (IH _ eq_refl s0 A).
  - destruct (Hr s Hs) as [m [s0 [A [B _]]]]. apply (lruns_derivable g _ _ _ B). apply (IH _ eq_refl s0 A).
Qed.
Lemma stack_upd nw nw' st : stack_ok nw st -> (exact = true -> forall x, In x st -> en_state x = POST -> nd_steps _ (nw' (en_node x)) = nd_steps _ (nw (en_node x))) -> stack_ok nw' st.
Proof.
  intros H. induction H as [x|u x t rest e t' H IH He Ef Ne V N Hr|v i t rest l t' H IH Hl V N Hr]; intros K.
  - constructor.
  - constructor; auto. apply IH. intros X y Hy. apply K; [exact X|right; exact Hy].
  - econstructor; eauto.
    + apply IH. intros X y Hy. apply K; [exact X|right; exact Hy].
    + intros s Hs. destruct (Hr s Hs) as [m [s0 [A [B C]]]]. exists m, s0. split; [exact A|]. split; [exact B|]. intros X. rewrite (C X). symmetry. apply (K X _ (or_introl eq_refl) eq_refl).
Qed.
Lemma stack_fresh nw v i t rest : acyclic g -> stack_ok nw (mkEntry PRE v i t :: rest) -> forall x, In x (mkEntry PRE v i t :: rest) -> en_state x = POST -> en_node x <> v.
Proof.
  intros Ac H. inversion H as [|u y t0 rest0 e t' H1 He Ef Ne V N Hr|]; subst. intros x [<-|Hx] Ep; [discriminate|]. intros Ev.
  destruct (stack_path _ _ H1 _ eq_refl) as [A B]. cbn [en_node] in A, B. specialize (B x Hx). rewrite Ev in B.
  apply (Ac (lfrom e) (lto e)); auto. apply path_edge; [exact He|constructor].
Qed.
Lemma map_rep {A B} (f : A -> B) a k : map f (repeat a k) = repeat (f a) k.
Proof. induction k as [|k IH]; [reflexivity|]. cbn. rewrite IH. reflexivity. Qed.
(** The edges of a stack that ends with states after a loop. *)
Lemma stack_ids nw st : stack_ok nw st -> forall v x t rest, st = mkEntry POST v x t :: rest -> exists es,
  path_ids St g nw st = Ret (map lid es) /\ connected entry es v /\ (forall e, In e es -> In e (ledges g)) /\
  (exact = true -> forall s, holds s t -> lruns g es (entry, []) (at_v g v s)).
Proof.
  remember (length st) as n eqn:En. revert st En. induction n as [n IHn] using lt_wf_ind. intros st En H v x t rest E. subst st. inversion H as [|u y t0 rest0 e t' H1 He Ef Ne V N Hr|v' i t0 rest0 l t' H1 Hl V N Hr]; subst.
  - exists []. split; [reflexivity|]. split; [reflexivity|]. split; [intros e []|]. intros _ s _. replace (at_v g entry s) with ((entry, []) : fact); [constructor|]. unfold at_v, cur_vars. rewrite (rep_entry _ (lwf_rep g W)). reflexivity.
  - inversion H1 as [|u y t' rest' e t'' H2 He Ef Ne V' N' Hr'|]; subst. destruct (self_loop_spec g W (lto e) l Hl) as [L1 [L2 [L3 L4]]].
    destruct (IHn (length (mkEntry POST (lfrom e) y t' :: rest'))) with (st := mkEntry POST (lfrom e) y t' :: rest') (v := lfrom e) (x := y) (t := t') (rest := rest') as [es [P1 [P2 [P3 P4]]]]; [cbn; lia|reflexivity|exact H2|reflexivity|].
    exists (es ++ e :: repeat l (nd_steps _ (nw (lto e)))). cbn [path_ids] in P1 |- *. rewrite P1. cbn [obind]. rewrite (ltarget_in g e (lwf_ids g W) He).
    destruct (Nat.eqb_spec (lto e) exit) as [K|_]; [exfalso; apply (lwf_exit g W l L1); congruence|]. rewrite L4. split; [rewrite map_app; cbn [map]; rewrite map_rep; reflexivity|].
    assert (Cn : forall k, connected (lto e) (repeat l k) (lto e)) by (induction k as [|k IHk]; [reflexivity|cbn [repeat connected]; rewrite L2, L3; auto]).
    split; [|split].
    + clear - P2 Cn. revert P2. generalize entry. induction es as [|a es IH]; intros p P2; cbn [app connected] in *; [subst p; auto|]. destruct P2 as [A B]. split; [exact A|apply IH, B].
    + intros f Hf. apply in_app_iff in Hf as [Hf|[<-|Hf]]; [apply P3, Hf|exact He|]. apply repeat_spec in Hf. subst f. exact L1.
    + intros X s Hs. destruct (Hr s Hs) as [m [s0 [A [B C]]]]. rewrite (C X) in B. destruct (Hr' s0 A) as [s1 [A' B']].
      apply lruns_app. exists (at_v g (lfrom e) s1). split; [apply (P4 X s1 A')|]. econstructor; [exact He|exact B'|exact B].
Qed.

(** ** The search *)
Lemma ch_find v k i : nth_error (ch v) k = Some i -> exists e, In e (ledges g) /\ lid e = i /\ lfind g i = Some e /\ lfrom e = v /\ lto e <> v /\ lto e <> entry.
Proof.
  intros E. apply nth_error_In in E. apply (children_spec g o v i W) in E as [e [He [Ei [Ef [N1 [N2 _]]]]]]. exists e. subst i v. repeat split; auto. apply lfind_in; [apply (lwf_ids g W)|exact He].
Qed.
Definition dag_post (r : dag_res St) : Prop :=
  match r with
  | DSafe _ nw => nw_ok nw /\ forall s, holds s (nd_post _ (nw entry))
  | DUnsafe _ st nw => exists i t rest, st = mkEntry PRE exit (Some i) t :: rest /\ stack_ok nw st
  end.
Lemma dag_loop_ok fuel : (exact = true -> acyclic g) -> forall nw st r, nw_ok nw -> stack_ok nw st \/ (st = [] /\ forall s, holds s (nd_post _ (nw entry))) ->
  dag_loop check itp mbp lsimp St ask g fuel ch nw st = Ret r -> dag_post r.
Proof.
  intros Ac. induction fuel as [|fuel IH]; intros nw st r N Hst E; [discriminate|]. cbn [dag_loop] in E.
  destruct Hst as [Hst|[-> Hv]]; [|injection E as <-; split; assumption].
  destruct st as [|[[] v eo t] rest]; [inversion Hst| |].
  - (* PRE *)
    apply obind_ret in E as [[q sys] [Eq E]]. destruct (stack_over _ _ _ Hst) as [V Ne]. cbn [en_node en_reached] in V, Ne.
    pose proof (w_node _ N v) as Nk.
    destruct (query_system_ok v (nw v) t _ q sys Nk V (lnot_vars v _ (n_post_vars _ _ Nk)) (or_intror Ne) Eq) as [l [ts' [st0 [st1 [Es [-> [Hl [En [Hk Q]]]]]]]]].
    assert (Nx : v <> exit) by (intros ->; destruct (self_loop_spec g W exit l Hl) as [L1 [L2 _]]; exact (lwf_exit g W l L1 L2)).
    destruct q as [t' k|t' e].
    + destruct Q as [_ [Q1 [Q2 Q3]]]. eapply IH; [| |exact E].
      * apply nw_reach; [exact N| |discriminate]. destruct Nk as [A1 A2 A3 A4 A5]. split; cbn [nd_sys nd_pre nd_post]; auto.
        -- intros ts2 st2 K. injection K as <- <-. eauto.
        -- destruct A5 as [A5|A5]; [auto|right]. intros ts2 st2 K. injection K as <- <-. eapply A5, Es.
      * left. econstructor; [|exact Hl|exact Q1|exact Q2|].
        -- eapply stack_upd; [exact Hst|]. intros X x Hx Ep. rewrite upd_other; [reflexivity|]. eapply (stack_fresh nw v eo t rest (Ac X) Hst); eauto.
        -- intros s Hs. destruct (Q3 s Hs) as [_ [m [s0 [B1 [B2 B3]]]]]. exists m, s0. rewrite upd_same. cbn [nd_steps]. auto.
    + destruct Q as [Q1 [Q2 Q3]]. eapply IH; [| |exact E].
      * apply nw_pre; [exact N|exact Nx|intros r0 Hr0; apply lsimp_or_holds; auto| |discriminate]. destruct Nk as [A1 A2 A3 A4 A5]. split; cbn [nd_sys nd_pre nd_post]; auto.
        -- intros ts2 st2 K. injection K as <- <-. eauto.
        -- apply lsimp_or; assumption.
        -- right. destruct Ne as [s Hs]. exists s. apply lsimp_or_holds. right. apply Q2, Hs.
        -- destruct A5 as [A5|A5]; [auto|]. destruct Q3 as [Q3|[_ Q3]]; [auto|]. right. intros ts2 st2 K s k s' H1 H2. injection K as <- <-. apply lsimp_or_holds in H1 as [H1|H1]; [eapply A5; eauto|].
           specialize (Q3 s k s' H1 H2). rewrite lnot_ok in Q3. destruct (holdsb s' (nd_post _ (nw v))) eqn:Hh; [exact Hh|]. exfalso. apply Q3. unfold holds. congruence.
      * left. inversion Hst as [|u y t0 rest0 e0 t'' H1 He Ef Ne' V' N' Hr|]; subst. eapply stack_upd; [exact H1|]. intros X x Hx Ep. rewrite upd_other; [reflexivity|].
        eapply (stack_fresh nw (lto e0) _ _ _ (Ac X) Hst); [right; exact Hx|exact Ep].
  - (* POST *)
    destruct (stack_over _ _ _ Hst) as [V Ne]. cbn [en_node en_reached] in V, Ne. destruct (stack_path _ _ Hst _ eq_refl) as [Pv _]. cbn [en_node] in Pv.
    pose proof (w_node _ N v) as Nk. destruct (nth_error (ch v) (length (nd_blocked _ (nw v)))) as [i|] eqn:Ei.
    + destruct (ch_find _ _ _ Ei) as [e [He [<- [Ef [Evf [N1 N2]]]]]]. rewrite Ef in E. apply obind_ret in E as [q [Eq E]]. subst v.
      assert (Vt : over (lto e) (lnot lsimp (nd_pre _ (nw (lto e))))) by (apply lnot_vars, (n_pre_vars _ _ (w_node _ N _))).
      pose proof (query_edge_ok e t _ q He V Vt Eq) as Q. destruct q as [t'|t'].
      * destruct Q as [Q1 [Q2 Q3]]. assert (Sk : stack_ok nw (mkEntry PRE (lto e) (Some (lid e)) t' :: mkEntry POST (lfrom e) eo t :: rest)) by (econstructor; eauto).
        destruct (Nat.eqb_spec (lto e) exit) as [Ex|Nx]; [|eapply IH; [exact N|left; exact Sk|exact E]]. injection E as <-. cbn [dag_post]. rewrite Ex in Sk |- *. eauto 6.
      * destruct Q as [Q1 [Q2 Q3]]. eapply IH; [| |exact E].
        -- eapply nw_block; eauto.
           ++ intros r0 H1 H2. specialize (Q3 r0 H1 H2). rewrite holds_shift in *. rewrite lnot_ok in Q3. destruct (holdsb (fun v => r0 (shiftv 1 v)) (nd_pre _ (nw (lto e)))) eqn:Hh; [exact Hh|]. exfalso. apply Q3. unfold holds. congruence.
           ++ intros Een r0. apply Q2. inversion Hst as [x|u y t0 rest0 e0 t'' H1 He0 Ef0 Ne0 V0 N0 Hr|v' i0 t0 rest0 l t'' H1 Hl V0 N0 Hr]; subst; [reflexivity|].
              exfalso. destruct (self_loop_spec g W _ l Hl) as [L1 [L2 [L3 _]]]. apply (lwf_entry g W l L1). congruence.
        -- left. eapply stack_upd; [exact Hst|]. intros _ x Hx Ep. unfold upd_node. destruct (Nat.eqb_spec (en_node x) (lfrom e)) as [->|]; reflexivity.
    + pose proof (nw_post nw v N Pv Ei) as N'. eapply IH; [exact N'| |exact E].
      inversion Hst as [x|u y t0 rest0 e0 t'' H1 He0 Ef0 Ne0 V0 N0 Hr|v' i0 t0 rest0 l t'' H1 Hl V0 N0 Hr]; subst.
      * right. split; [reflexivity|]. intros s. rewrite upd_same. cbn [nd_post]. apply lsimp_or_holds. right. apply lsimp_and_holds, Forall_forall. intros b Hbk. apply (w_entry _ N), Hbk.
      * left. eapply stack_upd; [exact H1|]. intros _ x Hx Ep. unfold upd_node. destruct (Nat.eqb_spec (en_node x) v) as [->|]; reflexivity.
Qed.
End Search.
