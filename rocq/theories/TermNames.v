(** * The variables of the transition system that the termination analyses get. *)
From Coq Require Import Permutation.
From Verif Require Import Syntax Solver TransSys TSLemmas Graph GraphOps GraphOpsProofs DfsProofs GraphSem Names ListLemmas SimpleTransModel MergeModel MergeProofs LinearModel LinearProofs LinearPath LinearTS PropGraph ExpandProofs ContractModel ContractProofs ContractLabels ContractSem ContractWf ContractDef LMerge TerminationModel TerminationProofs NontermProofs SingleLoopProofs PropSingleLoop TermRuns ChainStep Retag RetagStages TermSystem NamedStages.
Open Scope list_scope.
Open Scope nat_scope.

(** ** Names that the step counter cannot be mistaken for *)
Definition not_counter (s : string) : Prop := String.prefix s "counter" = false.
Lemma prefix_app s : forall t u, String.prefix (s ++ t)%string u = true -> String.prefix s u = true.
Proof.
  induction s as [|c s IH]; intros t [|d u] H; try reflexivity; [discriminate H|]. cbn in *. destruct (Ascii.ascii_dec c d); [apply (IH t u H)|discriminate H].
Qed.
Lemma counter_app s t : not_counter s -> not_counter (s ++ t)%string.
Proof. unfold not_counter. intros H. destruct (String.prefix (s ++ t) "counter") eqn:E; [|reflexivity]. apply prefix_app in E. congruence. Qed.
Lemma counter_gaux k s : not_counter (vbase (gaux k s)).
Proof. reflexivity. Qed.
Lemma counter_self : ~ not_counter "counter".
Proof. discriminate. Qed.
Lemma counter_reserved s : reserved s = true -> not_counter s.
Proof.
  unfold reserved, not_counter. intros H. destruct s as [|c s]; [discriminate H|]. cbn [String.prefix] in *. destruct (Ascii.ascii_dec "." c) as [<-|N1]; [reflexivity|]. cbn [orb] in H. destruct (Ascii.ascii_dec "g" c) as [<-|N2]; [reflexivity|discriminate H].
Qed.

(** ** The variables of the graph *)
Section Front.
Variable g : hgraph.
Hypothesis W : wf_graph g.
Hypothesis T : tidy g.
Hypothesis L : linear g.
Notation G := (retag g).
Notation f := (to_normal (retag g)).
Lemma lab_cases x v : In x (gedges G) -> In v (vars (lfla (normal_edge G x))) ->
  (exists b, In b (gpv g (hd entry (efrom x))) /\ v = cur b) \/ (exists b, In b (gpv g (eto x)) /\ v = nxt b) \/ In v (vars (efla x)).
Proof.
  intros Hx Hv. cbn [lfla normal_edge] in Hv. rewrite vars_rename in Hv. apply in_map_iff in Hv as [u [<- Hu]]. unfold normal_map. rewrite vlookup_app, map_fst_pair.
  destruct (in_dec var_dec u _) as [I|I].
  - apply in_map_iff in I as [c [<- Hc]]. left. exists c. split; [exact Hc|]. apply vlookup_map_in; [unfold src, cur; intros a b X; injection X as -> ->; reflexivity|exact Hc].
  - destruct (in_dec var_dec u (map tgt (gpv G (eto x)))) as [J|J].
    + apply in_map_iff in J as [c [<- Hc]]. right; left. exists c. split; [exact Hc|]. apply vlookup_map_in; [unfold tgt, nxt; intros a b X; injection X as -> ->; reflexivity|exact Hc].
    + right; right. rewrite vlookup_out; [exact Hu|]. rewrite map_fst_pair. exact J.
Qed.
(** Every edge has its own auxiliary variables. *)
Theorem front_private e1 e2 v : lwf f -> In e1 (ledges f) -> In e2 (ledges f) -> e1 <> e2 -> In v (vars (lfla e1)) -> In v (vars (lfla e2)) ->
  In v (cur_vars f (lfrom e1)) \/ In v (nxt_vars f (lto e1)).
Proof.
  intros Wf H1 H2 N V1 V2. destruct (lwf_label f Wf e1 v H1 V1) as [X|[X|[T0 X]]]; [auto|auto|]. exfalso.
  assert (Q : forall e, In e (ledges f) -> In v (vars (lfla e)) -> exists x, In x (gedges G) /\ e = normal_edge G x /\ In v (vars (efla x))).
  { intros e He Hv. pose proof He as He'. apply (normal_in G) in He' as [x [Hx ->]]. exists x. split; [exact Hx|]. split; [reflexivity|].
    destruct (lab_cases x v Hx Hv) as [[b [Hb ->]]|[[b [Hb ->]]|Y]]; [|discriminate T0|exact Y]. exfalso.
    apply (X (lfrom (normal_edge G x))); [right; right; exists (normal_edge G x); auto|]. unfold cur_vars. cbn [lpv to_normal lfrom normal_edge]. apply in_map, Hb. }
  destruct (Q e1 H1 V1) as [x1 [I1 [E1 J1]]]. destruct (Q e2 H2 V2) as [x2 [I2 [E2 J2]]]. pose proof (retag_wf g W T) as W'.
  destruct (Nat.eq_dec (eid x1) (eid x2)) as [E|E]; [apply N; rewrite E1, E2, (wf_edge_eq G x1 x2 W' I1 I2 E); reflexivity|].
  destruct (wf_priv G W' x1 x2 v I1 I2 E J1 J2) as [O _]. apply ChainStep.own_has_version in O as [p [_ [b [_ [[i ->]| ->]]]]]; discriminate T0.
Qed.
Variable N : string -> Prop.
Hypothesis Napp : forall s t, N s -> N (s ++ t)%string.
Hypothesis M : named N g.
Lemma front_base e v : In e (ledges f) -> In v (vars (lfla e)) -> N (vbase v).
Proof.
  intros He Hv. apply normal_in in He as [x [Hx ->]].
  destruct (lab_cases x v Hx Hv) as [[b [Hb ->]]|[[b [Hb ->]]|Y]]; [apply (nm_pv _ g M _ b Hb)|apply (nm_pv _ g M _ b Hb)|].
  apply retag_edges in Hx as [y [Hy ->]]. cbn [efla retag_edge] in Y. rewrite vars_rename in Y. apply in_map_iff in Y as [w [<- Hw]]. pose proof (nm_label _ g M y w Hy Hw) as B.
  unfold own_or_time. destruct (inb w (own_vars g y)); [exact B|]. unfold as_time. destruct (vtag w); try exact B. cbn [vbase]. apply Napp, B.
Qed.
End Front.

(** ** The variables of the system *)
Lemma noquery_vars elim g ts : to_ts_noquery elim g = Some ts ->
  (forall v, In v (svars ts) -> exists p, In v (cur_vars g p)) /\ (forall v, In v (avars ts) -> exists e, In e (ledges g) /\ In v (vars (lfla e))).
Proof.
  intros E. unfold to_ts_noquery in E. destruct (reverse_post_order g) as [o|]; [|discriminate]. pose proof (vars_fold g (ledges g) [] [] []) as H.
  unfold system_vars in E. destruct (fold_left _ (ledges g) ([], [], [])) as [[s n] a]. destruct H as [Ha Hs].
  assert (X : svars ts = s /\ avars ts = a) by (destruct (ts_parts elim g o) as [[[i|] [t|]] [d|]]; try discriminate; injection E as <-; auto). destruct X as [-> ->]. split.
  - intros v Hv. destruct Hs as [[e [_ [_ [-> _]]]]|[_ [-> _]]]; [eauto|destruct Hv].
  - intros v Hv. rewrite Ha in Hv. cbn [app] in Hv. apply in_concat in Hv as [l [Hl Hv]]. apply in_map_iff in Hl as [e [<- He]]. exists e. split; [exact He|].
    apply filter_In in Hv as [Hv _]. apply nodup_In in Hv. exact Hv.
Qed.
Lemma vlookup_image m u : In u (map fst m) -> In (vlookup m u) (map snd m).
Proof.
  induction m as [|[a b] m IH]; [intros []|]. cbn [map fst snd vlookup]. destruct (var_eqb_spec u a) as [->|N]; [left; reflexivity|]. intros [E|H]; [congruence|right; auto].
Qed.
Lemma combine_image {A B} (l : list A) (l' : list B) b : In b (map snd (combine l l')) -> In b l'.
Proof. intros H. apply in_map_iff in H as [[x y] [<- H]]. apply in_combine_r in H. exact H. Qed.
(** One loop. *)
Lemma loop_apart g b e0 e1 elim q : lwf g -> lfrom e0 = entry -> elim_ok elim ->
  (forall v, In v (vars (lfla e0)) -> In v (vars (lfla e1)) -> In v (cur_vars g (lfrom e0)) \/ In v (nxt_vars g (lto e0))) ->
  ts_wf (loop_ts g e0 e1 elim q) = true -> b = lto e0 -> init_apart (loop_ts g e0 e1 elim q).
Proof.
  intros W F0 He Pr Wf Eb v Hv. pose proof Hv as Hv'. cbn [tinit loop_ts] in Hv. unfold loop_init in Hv. rewrite vars_rename in Hv. apply in_map_iff in Hv as [u [Eu Hu]].
  destruct (in_dec var_dec u (map fst (combine (nxt_vars g q) (cur_vars g q)))) as [I|I].
  - left. rewrite <- Eu. cbn [svars loop_ts]. apply (combine_image (nxt_vars g q)), vlookup_image, I.
  - rewrite (vlookup_out _ _ I) in Eu. subst u. apply (proj1 (He _ _)) in Hu. right. cbn [ttrans loop_ts]. intros Ht.
    assert (T0 : vtag v = TTime 0) by (destruct (wf_init _ Wf v Hv') as [X|X]; [apply (wf_svars0 _ Wf _ X)|apply (wf_avars0 _ Wf _ X)]).
    destruct (Pr v Hu Ht) as [X|X]; apply in_map_iff in X as [c [<- Hc]]; [|discriminate T0]. rewrite F0, (rep_entry _ (lwf_rep g W)) in Hc. destruct Hc.
Qed.

(** ** The single loop *)
Section SL.
Variable g : lgraph.
Hypothesis W : lwf g.
Notation V := (inner_vertices g).
Hypothesis U : user_names g.
Variable ord : list var -> list var.
Hypothesis Hord : forall l, Permutation (ord l) l.
Variables (nv nid ctr : nat).
Hypothesis Fnv : ~ lvertex g nv.
Hypothesis Fnid : forall e, In e (ledges g) -> lid e <> nid.
Hypothesis Nx : forall e, In e (ledges g) -> lto e <> exit.
Notation c := (contracted nv nid ord g).
Notation F := (final_graph nv nid ctr ord g).
Let NF : names_free g V := user_names_free g V U.
Let ET : et_free g := user_et_free g U.
Let cwf : lwf c := cw g W NF ET ord Hord nv nid Fnv Fnid.
Lemma nv_base v : In v (nv_vars g V ord) -> reserved (vbase v) = true.
Proof.
  intros H. apply (Permutation_in _ (Hord _)) in H. apply in_app_iff in H as [H|H].
  - apply in_map_iff in H as [p [<- _]]. apply loc_reserved.
  - apply in_concat in H as [l [Hl H]]. apply in_map_iff in Hl as [p [<- _]]. apply in_args_of in H as [i [b [_ ->]]]. apply arg_reserved.
Qed.
Lemma loc_in p : In p V -> In (locv p) (nv_vars g V ord).
Proof. intros H. apply (Permutation_in _ (Permutation_sym (Hord _))), in_app_iff. left. apply in_map, H. Qed.
Lemma arg_in p v : In p V -> In v (args_of g p) -> In v (nv_vars g V ord).
Proof. intros H Hv. apply (Permutation_in _ (Permutation_sym (Hord _))), in_app_iff. right. apply in_concat. exists (args_of g p). split; [apply in_map, H|exact Hv]. Qed.
(** The loop only has golem's own names. *)
Lemma loop_names v : In v (vars (lfla (loop_edge g V nv nid))) -> reserved (vbase v) = true.
Proof.
  cbn [lfla loop_edge]. intros H. apply in_lvars in H as [t [Ht H]]. revert t Ht H. generalize 0.
  assert (G : forall es k t, incl es (ledges g) -> In t (loop_parts g V k es) -> In v (vars t) -> reserved (vbase v) = true).
  { induction es as [|e es IH]; intros k t Hi Ht Hv; [destruct Ht|]. cbn [loop_parts] in Ht.
    assert (Hi' : incl es (ledges g)) by (intros x Hx; apply Hi; right; exact Hx). destruct (internal V e); [|apply (IH _ t Hi' Ht Hv)]. destruct Ht as [<-|Ht]; [|apply (IH _ t Hi' Ht Hv)].
    unfold translate_edge in Hv. apply in_lvars in Hv as [x [Hx Hv]]. destruct Hx as [<-|[<-|[<-|[<-|[]]]]].
    - destruct Hv as [<-|[]]. apply loc_reserved.
    - apply (f_image g W) in Hv. destruct Hv as [Hv|[Hv|Hv]].
      + apply et_aux_in in Hv as [k' [s [-> _]]]. apply aux_reserved.
      + apply in_map_iff in Hv as [w [<- Hw]]. apply in_args_of in Hw as [i [b [_ ->]]]. apply (arg_reserved _ i (vsort b)).
      + apply in_map_iff in Hv as [w [<- Hw]]. apply in_args_of in Hw as [i [b [_ ->]]]. apply (arg_reserved _ i (vsort b)).
    - destruct Hv as [<-|[]]. apply loc_reserved.
    - apply in_lvars in Hv as [y [Hy Hv]]. unfold updated_location in Hy. apply in_concat in Hy as [l [Hl Hy]]. apply in_map_iff in Hl as [p [<- _]]. apply in_app_iff in Hy as [Hy|Hy].
      + destruct (Nat.eqb p (lto e)); [destruct Hy|]. destruct Hy as [<-|[]]. rewrite vars_not in Hv. destruct Hv as [<-|[]]. apply (loc_reserved p).
      + destruct (Nat.eqb p (lfrom e)); [destruct Hy|]. destruct Hy as [<-|[]]. rewrite vars_not in Hv. destruct Hv as [<-|[]]. apply (loc_reserved p). }
  intros k t Ht H. apply (G (ledges g) k t (incl_refl _) Ht H).
Qed.
(** An edge from the entry has its variables or next-state variables of the new vertex. *)
Lemma in_names e v : In e (ledges g) -> In (lto e) V -> In v (vars (lfla (in_edge g V nv e))) -> In v (map nxt (nv_vars g V ord)) \/ In v (vars (lfla e)).
Proof.
  intros He Vq Hv. cbn [lfla in_edge] in Hv. apply in_lvars in Hv as [t [[<-|[<-|[<-|[]]]] Hv]].
  - apply in_lvars in Hv as [x [Hx Hv]]. apply in_map_iff in Hx as [p [<- Hp]]. apply filter_In in Hp as [Hp _]. rewrite vars_not in Hv. destruct Hv as [<-|[]]. left. apply in_map, loc_in, Hp.
  - destruct Hv as [<-|[]]. left. apply in_map, loc_in, Vq.
  - rewrite vars_rename in Hv. apply in_map_iff in Hv as [u [<- Hu]]. destruct (in_dec var_dec u (nxt_vars g (lto e))) as [I|I].
    + left. assert (X : In (vlookup (combine (nxt_vars g (lto e)) (map nxt (args_of g (lto e)))) u) (map nxt (args_of g (lto e)))).
      { apply (combine_image (nxt_vars g (lto e))), vlookup_image. rewrite combine_fst; [exact I|]. unfold nxt_vars, args_of. rewrite !map_length, combine_length, seq_length. lia. }
      apply in_map_iff in X as [w [<- Hw]]. apply in_map, (arg_in (lto e) w Vq Hw).
    + right. rewrite (vlookup_out _ u); [exact Hu|]. intros X. apply I. apply in_map_iff in X as [[a b] [Ea X]]. cbn in Ea. subst a. apply in_combine_l in X. exact X.
Qed.
Lemma final_names e v : In e (ledges F) -> In v (vars (lfla e)) -> reserved (vbase v) = true \/ exists e', In e' (ledges g) /\ In v (vars (lfla e')).
Proof.
  intros He Hv. destruct (F_edge c cwf ctr e He) as [_ [_ Q]]. destruct (Q v Hv) as [e' [He' [_ Hv']]]. destruct (sl_edge g W ord nv nid Nx e' He') as [->|[y [Hy [_ [Vq ->]]]]].
  - left. apply loop_names, Hv'.
  - destruct (in_names y v Hy Vq Hv') as [X|X]; [|right; eauto]. left. apply in_map_iff in X as [w [<- Hw]]. apply (nv_base w Hw).
Qed.
Variable elim : elim_fn.
Hypothesis Helim : elim_ok elim.
Theorem single_loop_vars ts : single_loop elim nv nid ctr ord g = Some ts ->
  forall v, In v (svars ts) \/ In v (avars ts) -> reserved (vbase v) = true \/ (exists e, In e (ledges g) /\ In v (vars (lfla e))) \/ exists p b, In b (lpv g p) /\ vbase v = vbase b.
Proof.
  intros E v Hv. destruct (noquery_vars elim F ts E) as [A B]. destruct Hv as [Hv|Hv].
  - destruct (A v Hv) as [p Hp]. apply in_map_iff in Hp as [b [<- Hb]]. cbn [lpv to_normal final_graph gpv merge_multi to_hyper contracted contract] in Hb. unfold contract_pv in Hb.
    destruct (Nat.eqb p nv); [left; apply (nv_base b Hb)|right; right; exists p, b; auto].
  - destruct (B v Hv) as [e [He Hv']]. destruct (final_names e v He Hv') as [X|X]; auto.
Qed.
Theorem single_loop_apart ts : single_loop elim nv nid ctr ord g = Some ts -> ts_wf ts = true -> init_apart ts.
Proof.
  intros E Wf. destruct (existsb (fun e => Nat.eqb (lfrom e) entry) (ledges g)) eqn:X.
  2:{ exfalso. rewrite (single_loop_isolated g W NF ET ord Hord nv nid ctr Fnv Fnid Nx elim) in E; [discriminate|]. intros e He Y.
      apply (not_true_iff_false _) in X. apply X, existsb_exists. exists e. rewrite Y, Nat.eqb_refl. auto. }
  apply existsb_exists in X as [e [He Fe]]. apply Nat.eqb_eq in Fe. destruct (V_to g W e He) as [X|Vq]; [destruct (Nx e He X)|].
  destruct (F_rep c ctr _ (c_in g ord nv nid e He Fe Vq)) as [e0 [I0 [P0 Q0]]]. destruct (F_rep c ctr _ (c_loop g ord nv nid)) as [e1 [I1 [P1 Q1]]]. cbn in P0, Q0, P1, Q1.
  assert (Kind : forall x, In x (ledges F) -> (lfrom x = nv /\ lto x = nv) \/ (lfrom x = entry /\ lto x = nv)).
  { intros x Hx. destruct (F_edge c cwf ctr x Hx) as [[e' [He' [A B]]] _]. destruct (sl_edge g W ord nv nid Nx e' He') as [->|[y [_ [Ey [_ ->]]]]]; cbn in A, B; [left|right]; split; congruence. }
  pose proof (nv_entry g nv Fnv) as Ne.
  assert (F0 : lfrom e0 = entry) by congruence.
  destruct (noquery_ts F (F_wf c cwf ctr) nv e0 e1 I0) with (elim := elim) as [q [_ Eq]]; auto; try congruence.
  - intros x Hx Ex. destruct (Kind x Hx) as [[A B]|[A B]]; [congruence|]. symmetry. apply (F_unique c ctr e0 x I0 Hx). split; congruence.
  - intros x Hx Ex. destruct (Kind x Hx) as [[A B]|[A B]]; [|congruence]. symmetry. apply (F_unique c ctr e1 x I1 Hx). split; congruence.
  - unfold single_loop in E. rewrite Eq in E. injection E as <-.
    apply (loop_apart F (lto e0) e0 e1 elim q (F_wf c cwf ctr) F0 Helim); [|exact Wf|reflexivity].
    intros v V0 V1. right. destruct (F_edge c cwf ctr e0 I0) as [_ [_ Q]]. destruct (Q v V0) as [x [Hx [[Px _] Vx]]].
    destruct (F_edge c cwf ctr e1 I1) as [_ [_ Q']]. destruct (Q' v V1) as [y [Hy [[Py _] Vy]]].
    destruct (sl_edge g W ord nv nid Nx y Hy) as [->|[z [_ [Ez [_ ->]]]]]; [|cbn in Py; congruence].
    destruct (sl_edge g W ord nv nid Nx x Hx) as [->|[z [Hz [Ez [Vz ->]]]]]; [cbn in Px; congruence|].
    destruct (in_names z v Hz Vz Vx) as [Y|Y].
    + replace (lto e0) with nv by congruence. unfold nxt_vars. cbn [lpv to_normal final_graph gpv merge_multi to_hyper contracted contract]. unfold contract_pv. rewrite Nat.eqb_refl. exact Y.
    + exfalso. pose proof (loop_names v Vy) as R. rewrite (proj1 U z v Hz Y) in R. discriminate R.
Qed.
End SL.

(** ** The system of the front end *)
Theorem front_system elim nv nid ctr ord g ts :
  elim_ok elim -> wf_graph g -> tidy g -> linear g -> lwf (to_normal (retag g)) -> (forall e, In e (ledges (to_normal (retag g))) -> lto e <> exit) -> user_names (to_normal (retag g)) ->
  ~ lvertex (to_normal (retag g)) nv -> (forall e, In e (ledges (to_normal (retag g))) -> lid e <> nid) -> (forall l, Permutation (ord l) l) ->
  named not_counter g -> term_front elim nv nid ctr ord (to_normal (retag g)) = FSystem ts -> init_apart ts /\ no_counter ts.
Proof.
  intros He W T L Wf Nx U Fv Fi Ho M E. set (f := to_normal (retag g)) in *. unfold term_front in E. destruct (trivially_terminating f); [discriminate|].
  assert (Base : forall v, (exists e, In e (ledges f) /\ In v (vars (lfla e))) \/ (exists p b, In b (lpv f p) /\ vbase v = vbase b) -> v <> counter0).
  { intros v H ->. apply counter_self. change "counter"%string with (vbase counter0). destruct H as [[e [Ie H]]|[p [b [Hb ->]]]].
    - apply (front_base g not_counter counter_app M e counter0 Ie H).
    - apply (nm_pv _ g M p b Hb). }
  destruct (is_ts_noquery f) eqn:Q.
  - destruct (to_ts_noquery elim f) as [ts'|] eqn:Et; [|discriminate]. destruct (ts_wf ts') eqn:D; [|discriminate]. destruct (term_eqb (ttrans ts') tt_false); [discriminate|]. injection E as ->. split.
    + destruct (noquery_shape f Wf Nx Q) as [b [e0 [e1 [B1 [I0 [A0 [C0 [I1 [A1 [C1 [U0 U1]]]]]]]]]]].
      destruct (noquery_ts f Wf b e0 e1 I0 A0 C0 I1 A1 C1 U0 U1 elim) as [q [_ Eq]]. rewrite Eq in Et. injection Et as <-.
      apply (loop_apart f b e0 e1 elim q Wf A0 He); [|exact D|congruence]. intros v V0 V1. apply (front_private g W T e0 e1 v Wf I0 I1); auto.
      intros X. subst e1. apply (lwf_entry f Wf e0 I0). congruence.
    + destruct (noquery_vars elim f ts Et) as [A B]. split; intros X.
      * destruct (A _ X) as [p Hp]. apply in_map_iff in Hp as [b [Eb Hb]]. apply (Base counter0); [|reflexivity]. right. exists p, b. split; [exact Hb|]. rewrite <- Eb. reflexivity.
      * apply (Base counter0); [|reflexivity]. left. apply B, X.
  - destruct (single_loop elim nv nid ctr ord f) as [ts'|] eqn:Et; [|discriminate]. destruct (ts_wf ts') eqn:D; [|discriminate]. destruct (term_eqb (ttrans ts') tt_false); [discriminate|]. injection E as ->. split.
    + apply (single_loop_apart f Wf U ord Ho nv nid ctr Fv Fi Nx elim He ts Et D).
    + assert (X : In counter0 (svars ts) \/ In counter0 (avars ts) -> False).
      { intros X. destruct (single_loop_vars f Wf U ord Ho nv nid ctr Fv Fi Nx elim ts Et counter0 X) as [R|R]; [discriminate R|]. apply (Base counter0 R). reflexivity. }
      split; intros Y; apply X; auto.
Qed.
