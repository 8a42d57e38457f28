(** * Transition systems extracted from linear graphs. *)
From Verif Require Import Syntax Solver TransSys TSLemmas Graph GraphOps GraphOpsProofs DfsProofs GraphSem SimpleTransModel MergeModel MergeProofs LinearModel LinearProofs LinearPath PropGraph.
Open Scope list_scope.
Open Scope nat_scope.

(** The shape: entry -e0-> b, b -e1-> b, b -e2-> exit and nothing else. *)
Record ts_shape (g : lgraph) (b : sym) (e0 e1 e2 : ledge) : Prop := {
  sh_b : b <> entry /\ b <> exit;
  sh_0 : lfrom e0 = entry /\ lto e0 = b;
  sh_1 : lfrom e1 = b /\ lto e1 = b;
  sh_2 : lfrom e2 = b /\ lto e2 = exit;
  sh_in : forall e, In e (ledges g) <-> e = e0 \/ e = e1 \/ e = e2;
  sh_order : reverse_post_order g = Some [entry; b; exit]
}.

Definition all_reachable (g : lgraph) : Prop := forall p, lvertex g p -> p = exit \/ path g entry p.

Lemma out_ids_map g v : out_ids g v = map lid (filter (fun e => Nat.eqb (lfrom e) v) (ledges g)).
Proof. unfold out_ids. destruct (ladjacency_ok g) as [_ [Ho _]]. apply Ho. Qed.
Lemma in_ids_map g v : getd (incoming (ladjacency_of g)) v = map lid (filter (fun e => Nat.eqb (lto e) v) (ledges g)).
Proof. destruct (ladjacency_ok g) as [Hi _]. apply Hi. Qed.
Lemma ltarget_in g e : NoDup (map lid (ledges g)) -> In e (ledges g) -> ltarget g (lid e) = lto e.
Proof. intros N He. unfold ltarget. rewrite (lfind_in g e N He). reflexivity. Qed.
Lemma lsource_in g e : NoDup (map lid (ledges g)) -> In e (ledges g) -> lsource g (lid e) = lfrom e.
Proof. intros N He. unfold lsource. rewrite (lfind_in g e N He). reflexivity. Qed.

Theorem is_ts_shape g : NoDup (map lid (ledges g)) -> all_reachable g ->
  is_transition_system g = true -> exists b e0 e1 e2, ts_shape g b e0 e1 e2.
Proof.
  intros N Re H. destruct (C42_reverse_post_order g N) as [o [Eo [No [Ho _]]]]. unfold is_transition_system in H. rewrite Eo in H.
  destruct o as [|b0 [|l [|x [|y o]]]]; try discriminate. repeat (apply andb_prop in H as [H ?]).
  apply Nat.eqb_eq in H. subst b0.
  match goal with X : Nat.eqb x exit = true |- _ => apply Nat.eqb_eq in X; subst x end.
  rename H0 into Hend. rename H1 into Hex. rename H2 into Hself. rename H3 into Hlen. rename H4 into Hbeg.
  rewrite out_ids_map in Hbeg, Hlen, Hself, Hex, Hend.
  assert (Src : forall e, In e (ledges g) -> lfrom e = entry \/ lfrom e = l).
  { intros e He. assert (V : In (lfrom e) [entry; l; exit]).
    { destruct (Re (lfrom e)) as [X|X]; [right; right; exists e; auto|rewrite X; cbn; auto|apply Ho, X]. }
    destruct V as [V|[V|[V|[]]]]; auto. exfalso.
    destruct (filter (fun e0 => Nat.eqb (lfrom e0) exit) (ledges g)) as [|e1 l1] eqn:F; [|discriminate].
    assert (X : In e (filter (fun e0 => Nat.eqb (lfrom e0) exit) (ledges g))) by (apply filter_In; rewrite <- V, Nat.eqb_refl; auto).
    rewrite F in X. destruct X. }
  destruct (filter (fun e => Nat.eqb (lfrom e) entry) (ledges g)) as [|e0 [|e0' l0]] eqn:F0; try discriminate.
  assert (In0 : In e0 (ledges g) /\ lfrom e0 = entry).
  { assert (X : In e0 [e0]) by (left; reflexivity). rewrite <- F0 in X. apply filter_In in X as [X1 X2]. apply Nat.eqb_eq in X2. auto. }
  cbn [map] in Hbeg. rewrite (ltarget_in g e0 N (proj1 In0)) in Hbeg. apply Nat.eqb_eq in Hbeg.
  rewrite map_length in Hlen. apply Nat.eqb_eq in Hlen.
  destruct (filter (fun e => Nat.eqb (lfrom e) l) (ledges g)) as [|x1 [|x2 [|x3 lx]]] eqn:F1; try discriminate.
  assert (InX : forall e, e = x1 \/ e = x2 <-> In e (ledges g) /\ lfrom e = l).
  { intros e. split.
    - intros Hx. assert (X : In e [x1; x2]) by (destruct Hx as [->| ->]; cbn; auto). rewrite <- F1 in X. apply filter_In in X as [X1 X2]. apply Nat.eqb_eq in X2. auto.
    - intros [H1 H2]. assert (X : In e (filter (fun e => Nat.eqb (lfrom e) l) (ledges g))) by (apply filter_In; rewrite H2, Nat.eqb_refl; auto).
      rewrite F1 in X. destruct X as [X|[X|[]]]; auto. }
  assert (Nl : l <> entry /\ l <> exit) by (inversion No as [|? ? A1 A2]; inversion A2 as [|? ? A3 A4]; subst; cbn in A1, A3; intuition congruence).
  assert (T1 := ltarget_in g x1 N (proj1 (proj1 (InX x1) (or_introl eq_refl)))). assert (T2 := ltarget_in g x2 N (proj1 (proj1 (InX x2) (or_intror eq_refl)))).
  cbn [map existsb] in Hself, Hex. rewrite T1, T2, orb_false_r in Hself, Hex.
  assert (Sh : exists e1 e2, (forall e, e = e1 \/ e = e2 <-> In e (ledges g) /\ lfrom e = l) /\ lto e1 = l /\ lto e2 = exit).
  { apply orb_prop in Hself as [Hs|Hs]; apply Nat.eqb_eq in Hs; apply orb_prop in Hex as [Hx|Hx]; apply Nat.eqb_eq in Hx.
    - exfalso. apply (proj2 Nl). congruence.
    - exists x1, x2. auto.
    - exists x2, x1. split; [|auto]. intros e. rewrite <- InX. tauto.
    - exfalso. apply (proj2 Nl). congruence. }
  destruct Sh as [e1 [e2 [In12 [L1 L2]]]]. exists l, e0, e1, e2.
  split; [exact Nl|split; [apply In0|exact Hbeg]|split; [apply (In12 e1); auto|exact L1]|split; [apply (In12 e2); auto|exact L2]| |exact Eo].
  intros e. split.
  - intros He. destruct (Src e He) as [S|S].
    + left. assert (X : In e (filter (fun e => Nat.eqb (lfrom e) entry) (ledges g))) by (apply filter_In; rewrite S, Nat.eqb_refl; auto).
      rewrite F0 in X. destruct X as [X|[]]; auto.
    + right. apply In12; auto.
  - intros [->|X]; [apply In0|]. apply In12 in X. apply X.
Qed.

Section Shape.
Variable g : lgraph.
Variable b : sym.
Variables e0 e1 e2 : ledge.
Hypothesis W : lwf g.
Hypothesis Sh : ts_shape g b e0 e1 e2.
Variable elim : elim_fn.
Hypothesis Helim : elim_ok elim.

Let sv := cur_vars g b.
Let nv := nxt_vars g b.

Lemma sh_ne : entry <> exit /\ b <> entry /\ b <> exit.
Proof. destruct (sh_b _ _ _ _ _ Sh). split; [discriminate|auto]. Qed.
Lemma in0 : In e0 (ledges g). Proof. apply (sh_in _ _ _ _ _ Sh). auto. Qed.
Lemma in1 : In e1 (ledges g). Proof. apply (sh_in _ _ _ _ _ Sh). auto. Qed.
Lemma in2 : In e2 (ledges g). Proof. apply (sh_in _ _ _ _ _ Sh). auto. Qed.

Lemma self_loop e : In e (ledges g) -> (Nat.eqb (lfrom e) (lto e) = true <-> e = e1).
Proof.
  intros He. apply (sh_in _ _ _ _ _ Sh) in He. destruct (sh_0 _ _ _ _ _ Sh) as [A0 B0], (sh_1 _ _ _ _ _ Sh) as [A1 B1], (sh_2 _ _ _ _ _ Sh) as [A2 B2].
  destruct sh_ne as [N1 [N2 N3]]. rewrite Nat.eqb_eq. destruct He as [->|[->| ->]]; split; intros X; try congruence; subst; congruence.
Qed.

Lemma system_vars_fold es : (forall e, In e es -> In e (ledges g)) -> forall s n a,
  fold_left (fun (acc : list var * list var * list var) e =>
     let '(s, n, a) := acc in
     if Nat.eqb (lfrom e) (lto e) then (cur_vars g (lfrom e), nxt_vars g (lto e), a ++ laux_vars g e)
     else (s, n, a ++ laux_vars g e)) es (s, n, a)
  = (if existsb (fun e => Nat.eqb (lfrom e) (lto e)) es then (sv, nv) else (s, n), a ++ concat (map (laux_vars g) es)).
Proof.
  induction es as [|e es IH]; intros Hin s n a; cbn [fold_left existsb map concat]; [rewrite app_nil_r; reflexivity|].
  assert (Hin' : forall x, In x es -> In x (ledges g)) by (intros; apply Hin; right; assumption).
  destruct (Nat.eqb (lfrom e) (lto e)) eqn:E.
  - apply (self_loop e) in E; [|apply Hin; left; reflexivity]. subst e. rewrite (IH Hin'), <- app_assoc.
    destruct (sh_1 _ _ _ _ _ Sh) as [-> ->]. cbn. destruct (existsb _ es); reflexivity.
  - rewrite (IH Hin'), <- app_assoc. reflexivity.
Qed.
Definition ts_aux : list var := concat (map (laux_vars g) (ledges g)).
Lemma system_vars_ok : system_vars g = (sv, nv, ts_aux).
Proof.
  unfold system_vars. rewrite system_vars_fold by auto. replace (existsb _ _) with true; [reflexivity|]. symmetry.
  apply existsb_exists. exists e1. split; [apply in1|]. apply self_loop; [apply in1|reflexivity].
Qed.

Definition pick (c : ledge -> bool) (F : ledge -> term) (es : list ledge) (o : option term) : option term :=
  fold_left (fun o e => if c e then Some (F e) else o) es o.
Lemma pick_ok c F x es : forall o, (forall e, In e es -> (c e = true <-> e = x)) -> In x es -> pick c F es o = Some (F x).
Proof.
  intros o H Hx.
  assert (G : forall es o, (forall e, In e es -> (c e = true <-> e = x)) -> pick c F es o = if existsb c es then Some (F x) else o).
  { clear. induction es as [|e es IH]; intros o H; [reflexivity|]. cbn [pick fold_left existsb]. fold (pick c F es).
    change (fold_left (fun o e => if c e then Some (F e) else o) es (if c e then Some (F e) else o)) with (pick c F es (if c e then Some (F e) else o)).
    rewrite IH by (intros; apply H; right; assumption). destruct (c e) eqn:E; cbn; [|reflexivity].
    apply H in E; [|left; reflexivity]. subst. destruct (existsb c es); reflexivity. }
  rewrite (G es o H). replace (existsb c es) with true; [reflexivity|]. symmetry. apply existsb_exists. exists x. split; [exact Hx|]. apply H; [exact Hx|reflexivity].
Qed.

Definition the_init : term := rename (vlookup (combine nv sv)) (elim (fun v => inb v nv) (lfla e0)).
Definition the_bad : term := elim (fun v => inb v sv) (lfla e2).
Definition the_ts : tsys := mkTS sv ts_aux the_init (lfla e1) the_bad.

Lemma ts_parts_ok : ts_parts elim g [entry; b; exit] = (Some the_init, Some (lfla e1), Some the_bad).
Proof.
  unfold ts_parts. rewrite system_vars_ok. cbn [nth length].
  assert (G : forall es i t d,
    fold_left (fun (acc : option term * option term * option term) e =>
      let '(i, t, d) := acc in
      (if Nat.eqb (lfrom e) entry && Nat.eqb (lto e) b then Some (rename (vlookup (combine nv sv)) (elim (fun v => inb v nv) (lfla e))) else i,
       if Nat.eqb (lfrom e) b && Nat.eqb (lto e) b then Some (lfla e) else t,
       if Nat.eqb 3 3 && Nat.eqb (lfrom e) b && Nat.eqb (lto e) exit then Some (elim (fun v => inb v sv) (lfla e)) else d)) es (i, t, d)
    = (pick (fun e => Nat.eqb (lfrom e) entry && Nat.eqb (lto e) b) (fun e => rename (vlookup (combine nv sv)) (elim (fun v => inb v nv) (lfla e))) es i,
       pick (fun e => Nat.eqb (lfrom e) b && Nat.eqb (lto e) b) lfla es t,
       pick (fun e => Nat.eqb 3 3 && Nat.eqb (lfrom e) b && Nat.eqb (lto e) exit) (fun e => elim (fun v => inb v sv) (lfla e)) es d)).
  { induction es as [|e es IH]; intros i t d; [reflexivity|]. cbn [fold_left pick]. rewrite IH. reflexivity. }
  rewrite G. destruct (sh_0 _ _ _ _ _ Sh) as [A0 B0], (sh_1 _ _ _ _ _ Sh) as [A1 B1], (sh_2 _ _ _ _ _ Sh) as [A2 B2]. destruct sh_ne as [N1 [N2 N3]].
  assert (D : forall e, In e (ledges g) ->
    ((Nat.eqb (lfrom e) entry && Nat.eqb (lto e) b = true) <-> e = e0) /\ ((Nat.eqb (lfrom e) b && Nat.eqb (lto e) b = true) <-> e = e1) /\
    ((Nat.eqb 3 3 && Nat.eqb (lfrom e) b && Nat.eqb (lto e) exit = true) <-> e = e2)).
  { intros e He. apply (sh_in _ _ _ _ _ Sh) in He. rewrite Nat.eqb_refl. rewrite !andb_true_iff, !Nat.eqb_eq.
    destruct He as [->|[->| ->]]; (split; [|split]); split; intros X; try tauto; try (destruct X; congruence); subst; try congruence; intuition congruence. }
  rewrite (pick_ok _ _ e0), (pick_ok _ _ e1), (pick_ok _ _ e2); try (intros; apply D; assumption); try reflexivity; try apply in0; try apply in1; apply in2.
Qed.
Theorem to_ts_ok : to_transition_system elim g = Some the_ts.
Proof.
  unfold to_transition_system. rewrite (sh_order _ _ _ _ _ Sh), system_vars_ok, ts_parts_ok. reflexivity.
Qed.

(** *** Variables *)
Lemma nv_shift : nv = map (shiftv 1) sv.
Proof. unfold nv, sv, nxt_vars, cur_vars. rewrite map_map. apply map_ext. intros x. reflexivity. Qed.
Lemma sv_time v : In v sv -> vtag v = TTime 0.
Proof. intros H. apply in_map_iff in H as [x [<- _]]. reflexivity. Qed.
Lemma nv_time v : In v nv -> vtag v = TTime 1.
Proof. intros H. apply in_map_iff in H as [x [<- _]]. reflexivity. Qed.
Lemma empty_cur p : p = entry \/ p = exit -> cur_vars g p = [] /\ nxt_vars g p = [].
Proof.
  pose proof (lwf_rep g W) as R. unfold cur_vars, nxt_vars. intros [->| ->]; [rewrite (rep_entry _ R)|rewrite (rep_exit _ R)]; auto.
Qed.
Lemma vertex_b : lvertex g b.
Proof. right; right. exists e1. split; [apply in1|]. left. symmetry. apply (sh_1 _ _ _ _ _ Sh). Qed.
Lemma aux_spec e v : In e (ledges g) -> In v (vars (lfla e)) -> ~ In v (cur_vars g (lfrom e)) -> ~ In v (nxt_vars g (lto e)) ->
  In v ts_aux /\ vtag v = TTime 0 /\ ~ In v sv.
Proof.
  intros He Hv N1 N2. split.
  - unfold ts_aux. apply in_concat. exists (laux_vars g e). split; [apply in_map, He|]. apply filter_In. split; [apply nodup_In, Hv|].
    apply (proj2 (inb_false _ _)) in N1. apply (proj2 (inb_false _ _)) in N2. rewrite N1, N2. reflexivity.
  - destruct (lwf_label g W e v He Hv) as [C|[C|[C D]]]; [contradiction|contradiction|]. split; [exact C|]. apply D, vertex_b.
Qed.
Lemma aux_inv v : In v ts_aux -> vtag v = TTime 0 /\ ~ In v sv.
Proof.
  intros H. unfold ts_aux in H. apply in_concat in H as [l [Hl H]]. apply in_map_iff in Hl as [e [<- He]]. apply filter_In in H as [H1 H2].
  apply nodup_In in H1. apply andb_prop in H2 as [H2 H3]. apply negb_true_iff in H2, H3. apply inb_false in H2, H3.
  apply (aux_spec e v He H1 H2 H3).
Qed.
Lemma vars_init v : In v (vars (lfla e0)) -> In v nv \/ (In v ts_aux /\ vtag v = TTime 0 /\ ~ In v sv).
Proof.
  intros Hv. destruct (sh_0 _ _ _ _ _ Sh) as [A B]. destruct (in_dec var_dec v nv) as [I|I]; [left; exact I|right].
  apply (aux_spec e0 v in0 Hv); [rewrite A; rewrite (proj1 (empty_cur entry (or_introl eq_refl))); intros []|rewrite B; exact I].
Qed.
Lemma vars_bad v : In v (vars (lfla e2)) -> In v sv \/ (In v ts_aux /\ vtag v = TTime 0 /\ ~ In v sv).
Proof.
  intros Hv. destruct (sh_2 _ _ _ _ _ Sh) as [A B]. destruct (in_dec var_dec v sv) as [I|I]; [left; exact I|right].
  apply (aux_spec e2 v in2 Hv); [rewrite A; exact I|rewrite B; rewrite (proj2 (empty_cur exit (or_intror eq_refl))); intros []].
Qed.
Lemma vars_loop v : In v (vars (lfla e1)) -> In v sv \/ In v nv \/ (In v ts_aux /\ vtag v = TTime 0 /\ ~ In v sv).
Proof.
  intros Hv. destruct (sh_1 _ _ _ _ _ Sh) as [A B]. destruct (in_dec var_dec v sv) as [I|I]; [left; exact I|right].
  destruct (in_dec var_dec v nv) as [J|J]; [left; exact J|right].
  apply (aux_spec e1 v in1 Hv); [rewrite A; exact I|rewrite B; exact J].
Qed.
Lemma ren_nv x : In x (lpv g b) -> vlookup (combine nv sv) (nxt x) = cur x.
Proof.
  unfold nv, sv, nxt_vars, cur_vars. intros H.
  replace (combine (map nxt (lpv g b)) (map cur (lpv g b))) with (map (fun x => (nxt x, cur x)) (lpv g b)) by (clear; induction (lpv g b) as [|y l IH]; cbn; [|rewrite IH]; reflexivity).
  apply vlookup_map_in; [|exact H]. unfold nxt, cur. intros a c E. injection E as -> ->. reflexivity.
Qed.
Lemma ren_out v : ~ In v nv -> vlookup (combine nv sv) v = v.
Proof. intros H. apply vlookup_out. intros X. apply H. apply in_map_iff in X as [[a c] [E X]]. apply in_combine_l in X. cbn in E. subst. exact X. Qed.
Lemma ren_sort : sort_preserving (vlookup (combine nv sv)).
Proof.
  apply vlookup_sort. unfold nv, sv, nxt_vars, cur_vars. intros a c H. 
  replace (combine (map nxt (lpv g b)) (map cur (lpv g b))) with (map (fun x => (nxt x, cur x)) (lpv g b)) in H by (clear; induction (lpv g b) as [|y l IH]; cbn; [|rewrite IH]; reflexivity).
  apply in_map_iff in H as [x [E _]]. injection E as <- <-. reflexivity.
Qed.

(** *** Executions *)
Definition sfact (s : state) : fact := (b, args s sv).

Lemma ev_args (r s : valuation) (f h : var -> var) l : (forall x, vsort (f x) = vsort x) -> (forall x, vsort (h x) = vsort x) ->
  args r (map f l) = args s (map h l) -> forall x, In x l -> eval r (Var (f x)) = eval s (Var (h x)).
Proof.
  intros _ _ E x Hx. induction l as [|y l IH]; [destruct Hx|]. cbn in E. injection E as E1 E2. destruct Hx as [->|Hx]; [exact E1|auto].
Qed.

Theorem init_iff s : Init the_ts s <-> lfollows g e0 (entry, []) (sfact s).
Proof.
  destruct (sh_0 _ _ _ _ _ Sh) as [A B]. destruct (empty_cur entry (or_introl eq_refl)) as [Ec _]. unfold Init, lfollows, sfact.
  rewrite A, B, Ec. cbn [svars tinit the_ts]. split.
  - intros [r [Ag H]]. unfold the_init in H. apply (holds_rename _ r _ ren_sort) in H.
    destruct (Helim (fun v => inb v nv) (lfla e0)) as [_ Hs].
    destruct (proj2 (Hs (fun v => r (vlookup (combine nv sv) v)))) as [r' [K Hr']]; [exists (fun v => r (vlookup (combine nv sv) v)); split; [auto|exact H]|].
    exists r'. split; [exact Hr'|]. split; [reflexivity|]. f_equal. unfold sv, cur_vars, args, nxt_vars. rewrite !map_map. apply map_ext_in. intros x Hx. cbn [eval].
    rewrite K by (apply inb_true; unfold nv, nxt_vars; apply in_map, Hx). rewrite (ren_nv x Hx). rewrite (Ag (cur x)) by (unfold sv, cur_vars; apply in_map, Hx). reflexivity.
  - intros [r [H [_ E]]]. injection E as E. destruct (Helim (fun v => inb v nv) (lfla e0)) as [Hv Hs].
    destruct (proj1 (Hs r)) as [r' [K Hr']]; [exists r; split; [auto|exact H]|].
    exists (fun v => if inb v sv then s v else r' v). split.
    + intros v Hi. apply inb_true in Hi. rewrite Hi. reflexivity.
    + unfold the_init. refine (proj2 (holds_ren_ext _ _ r' _ ren_sort _) Hr'). intros v Hvv. specialize (Hv v Hvv).
      destruct (in_dec var_dec v nv) as [I|I].
      * unfold nv, nxt_vars in I. apply in_map_iff in I as [x [<- Hx]]. rewrite (ren_nv x Hx). cbn [eval].
        rewrite (proj2 (inb_true (cur x) sv)) by (unfold sv, cur_vars; apply in_map, Hx).
        rewrite K by (apply inb_true; unfold nv, nxt_vars; apply in_map, Hx).
        symmetry in E. apply (ev_args r s nxt cur (lpv g b)) with (x := x) in E; auto.
      * rewrite (ren_out v I). destruct (vars_init v Hv) as [X|[_ [_ X]]]; [contradiction|]. cbn [eval].
        rewrite (proj2 (inb_false v sv) X). reflexivity.
Qed.
Theorem step_iff s s' : Step the_ts s s' <-> lfollows g e1 (sfact s) (sfact s').
Proof.
  destruct (sh_1 _ _ _ _ _ Sh) as [A B]. unfold Step, lfollows, sfact. rewrite A, B. cbn [svars ttrans the_ts]. split.
  - intros [r [A1 [A2 H]]]. exists r. split; [exact H|]. split; f_equal; symmetry.
    + apply args_agree. intros v Hv. apply A1, Hv.
    + unfold sv, cur_vars, nxt_vars, args. rewrite !map_map. apply map_ext_in. intros x Hx. cbn [eval].
      rewrite <- (A2 (cur x)) by (unfold sv, cur_vars; apply in_map, Hx). rewrite shiftv_cur. reflexivity.
  - intros [r [H [E1 E2]]]. injection E1 as E1. injection E2 as E2. symmetry in E2, E1.
    exists (fun v => if inb v sv then s v else if inb v nv then s' (shiftv (-1) v) else r v). split; [|split].
    + intros v Hi. apply inb_true in Hi. rewrite Hi. reflexivity.
    + intros v Hi. assert (X : In (shiftv 1 v) nv) by (rewrite nv_shift; apply in_map, Hi).
      assert (Y : ~ In (shiftv 1 v) sv) by (intros Y; apply sv_time in Y; apply nv_time in X; congruence).
      rewrite (proj2 (inb_false _ _) Y), (proj2 (inb_true _ _) X). f_equal. apply sv_time in Hi. destruct v as [bs t so]. cbn in Hi. subst t. reflexivity.
    + unfold holds, holdsb in *. rewrite (eval_ext _ r); [exact H|]. intros v Hv.
      destruct (vars_loop v Hv) as [C|[C|[_ [T C]]]].
      * rewrite (proj2 (inb_true _ _) C). cbn [eval]. unfold sv, cur_vars in C. apply in_map_iff in C as [x [<- Hx]].
        symmetry. apply (ev_args r s cur cur (lpv g b)) with (x := x) in E1; auto.
      * assert (Y : ~ In v sv) by (intros Y; apply sv_time in Y; apply nv_time in C; congruence).
        rewrite (proj2 (inb_false _ _) Y), (proj2 (inb_true _ _) C). cbn [eval]. unfold nv, nxt_vars in C. apply in_map_iff in C as [x [<- Hx]].
        symmetry. apply (ev_args r s' nxt cur (lpv g b)) with (x := x) in E2; auto.
      * rewrite (proj2 (inb_false _ _) C). destruct (in_dec var_dec v nv) as [J|J]; [|rewrite (proj2 (inb_false _ _) J); reflexivity].
        exfalso. apply nv_time in J. congruence.
Qed.
Theorem bad_iff s : Bad the_ts s <-> lfollows g e2 (sfact s) (exit, []).
Proof.
  destruct (sh_2 _ _ _ _ _ Sh) as [A B]. destruct (empty_cur exit (or_intror eq_refl)) as [_ Ec]. unfold Bad, lfollows, sfact.
  rewrite A, B, Ec. cbn [svars tquery the_ts]. destruct (Helim (fun v => inb v sv) (lfla e2)) as [Hv Hs]. split.
  - intros [r [Ag H]]. destruct (proj2 (Hs r)) as [r' [K Hr']]; [exists r; split; [auto|exact H]|].
    exists r'. split; [exact Hr'|]. split; [|reflexivity]. f_equal. symmetry. apply args_agree. intros v Hi. rewrite K by (apply inb_true, Hi). apply Ag, Hi.
  - intros [r [H [E _]]]. injection E as E. symmetry in E. destruct (proj1 (Hs r)) as [r' [K Hr']]; [exists r; split; [auto|exact H]|].
    exists (fun v => if inb v sv then s v else r' v). split.
    + intros v Hi. apply inb_true in Hi. rewrite Hi. reflexivity.
    + unfold the_bad, holds, holdsb in *. rewrite (eval_ext _ r'); [exact Hr'|]. intros v Hvv.
      destruct (inb v sv) eqn:I; [|reflexivity]. rewrite (K v I). apply inb_true in I. unfold sv, cur_vars in I. apply in_map_iff in I as [x [<- Hx]].
      symmetry. apply (ev_args r s cur cur (lpv g b)) with (x := x) in E; auto.
Qed.

(** A transition system with the same executions (possibly after removing auxiliary variables). *)
Record same_ts (ts : tsys) : Prop := {
  same_sv : svars ts = sv;
  same_init : forall s, Init ts s <-> Init the_ts s;
  same_step : forall s s', Step ts s s' <-> Step the_ts s s';
  same_bad : forall s, Bad ts s <-> Bad the_ts s
}.

Lemma next_state e f f' : lfollows g e f f' -> lto e = b -> exists s, f' = sfact s.
Proof.
  intros [r [_ [_ ->]]] E. exists (TransSys.at_time 1 r). unfold sfact. rewrite E. f_equal. rewrite args_at, <- nv_shift. reflexivity.
Qed.
Lemma lruns_app es es' f f'' : lruns g (es ++ es') f f'' <-> exists f', lruns g es f f' /\ lruns g es' f' f''.
Proof.
  revert f. induction es as [|e es IH]; intros f; cbn [app].
  - split; [intros H; exists f; split; [constructor|exact H]|]. intros [f' [H1 H2]]. inversion H1; subst. exact H2.
  - split.
    + intros H. inversion H as [|? ? ? f1 ? He F R]; subst. apply IH in R as [f' [R1 R2]]. exists f'. split; [|exact R2]. econstructor; eauto.
    + intros [f' [H1 H2]]. inversion H1 as [|? ? ? f1 ? He F R]; subst. econstructor; [exact He|exact F|]. apply IH. eauto.
Qed.
Definition error_edges (n : nat) : list ledge := e0 :: repeat e1 n ++ [e2].

Section Same.
Variable ts : tsys.
Hypothesis St : same_ts ts.

Lemma steps_runs n : forall s s', Steps ts n s s' -> lruns g (repeat e1 n) (sfact s) (sfact s').
Proof.
  intros s s' H. induction H as [s|n s t u H1 _ IH]; [constructor|]. cbn [repeat]. econstructor; [apply in1| |exact IH].
  apply step_iff, (same_step ts St), H1.
Qed.
Lemma runs_steps n : forall s f, lruns g (repeat e1 n) (sfact s) f -> exists s', f = sfact s' /\ Steps ts n s s'.
Proof.
  induction n as [|n IH]; intros s f H; cbn [repeat] in H; inversion H as [|? ? ? f1 ? He F R]; subst.
  - exists s. split; [reflexivity|constructor].
  - destruct (next_state e1 _ _ F (proj2 (sh_1 _ _ _ _ _ Sh))) as [t ->]. destruct (IH t f R) as [s' [-> S]]. exists s'. split; [reflexivity|].
    econstructor; [apply (same_step ts St), step_iff, F|exact S].
Qed.
Theorem error_path_runs n : error_path ts n <-> lruns g (error_edges n) (entry, []) (exit, []).
Proof.
  unfold error_edges. split.
  - intros [s [s' [I [S B]]]]. econstructor; [apply in0|apply init_iff, (same_init ts St), I|]. apply lruns_app. exists (sfact s').
    split; [apply steps_runs, S|]. econstructor; [apply in2|apply bad_iff, (same_bad ts St), B|constructor].
  - intros H. inversion H as [|? ? ? f1 ? He F R]; subst. destruct (next_state e0 _ _ F (proj2 (sh_0 _ _ _ _ _ Sh))) as [s ->].
    apply lruns_app in R as [f2 [R1 R2]]. destruct (runs_steps n s f2 R1) as [s' [-> S]]. exists s, s'.
    split; [apply (same_init ts St), init_iff, F|]. split; [exact S|]. inversion R2 as [|? ? ? f3 ? _ F2 R3]; subst.
    inversion R3; subst. apply (same_bad ts St), bad_iff, F2.
Qed.
Theorem derivable_error : lderivable g (exit, []) <-> exists n, error_path ts n.
Proof.
  split.
  - assert (G : forall f, lderivable g f -> f = (entry, []) \/ (exists s0 n s, f = sfact s /\ Init ts s0 /\ Steps ts n s0 s) \/ (fst f = exit /\ exists n, error_path ts n)).
    { intros f H. induction H as [|e f f' He _ IH F]; [auto|]. right. destruct sh_ne as [N1 [N2 N3]].
      apply (sh_in _ _ _ _ _ Sh) in He. pose proof F as [r [_ [Ef Ef']]]. destruct He as [->|[->| ->]].
      - destruct (sh_0 _ _ _ _ _ Sh) as [A B]. destruct IH as [->|[[s0 [n [s [-> _]]]]|[X _]]].
        + left. destruct (next_state e0 _ _ F B) as [s ->]. exists s, 0, s. split; [reflexivity|]. split; [apply (same_init ts St), init_iff, F|constructor].
        + exfalso. rewrite A in Ef. injection Ef as X _. congruence.
        + exfalso. rewrite Ef, A in X. cbn in X. congruence.
      - destruct (sh_1 _ _ _ _ _ Sh) as [A B]. destruct IH as [->|[[s0 [n [s [-> [I S]]]]]|[X _]]].
        + exfalso. rewrite A in Ef. injection Ef as X _. congruence.
        + left. destruct (next_state e1 _ _ F B) as [s' ->]. exists s0, (Datatypes.S n), s'. split; [reflexivity|]. split; [exact I|].
          apply Steps_snoc. exists s. split; [exact S|]. apply (same_step ts St), step_iff, F.
        + exfalso. rewrite Ef, A in X. cbn in X. congruence.
      - destruct (sh_2 _ _ _ _ _ Sh) as [A B]. destruct IH as [->|[[s0 [n [s [-> [I S]]]]]|[X _]]].
        + exfalso. rewrite A in Ef. injection Ef as X _. congruence.
        + right. split; [rewrite Ef', B; reflexivity|]. exists n, s0, s. split; [exact I|]. split; [exact S|].
          apply (same_bad ts St), bad_iff. rewrite Ef', B in F. rewrite (proj2 (empty_cur exit (or_intror eq_refl))) in F. exact F.
        + exfalso. rewrite Ef, A in X. cbn in X. congruence. }
    intros H. destruct (G _ H) as [X|[[s0 [n [s [X _]]]]|[_ X]]]; [discriminate| |exact X]. exfalso. injection X as X _. destruct sh_ne; intuition congruence.
  - intros [n H]. apply error_path_runs in H.
    assert (G : forall es f f', lruns g es f f' -> lderivable g f -> lderivable g f').
    { intros es f f' R. induction R as [|e es f f' f'' He F _ IH]; [auto|]. intros D. apply IH. econstructor; eauto. }
    apply (G _ _ _ H). constructor.
Qed.

(** *** The invariant is a solution *)
Lemma find_body : find (fun p => negb (Nat.eqb p entry) && negb (Nat.eqb p exit)) (lvertices g) = Some b.
Proof.
  destruct sh_ne as [N1 [N2 N3]]. destruct (find (fun p => negb (Nat.eqb p entry) && negb (Nat.eqb p exit)) (lvertices g)) as [p|] eqn:E.
  - apply find_some in E as [E1 E2]. apply andb_prop in E2 as [E2 E3]. apply negb_true_iff in E2, E3. apply Nat.eqb_neq in E2, E3.
    apply lvertices_spec in E1 as [X|[X|[e [He X]]]]; [congruence|congruence|]. apply (sh_in _ _ _ _ _ Sh) in He.
    destruct (sh_0 _ _ _ _ _ Sh) as [A0 B0], (sh_1 _ _ _ _ _ Sh) as [A1 B1], (sh_2 _ _ _ _ _ Sh) as [A2 B2]. f_equal.
    destruct He as [->|[->| ->]], X; congruence.
  - exfalso. assert (X := find_none _ _ E b). cbv beta in X. rewrite (proj2 (Nat.eqb_neq _ _) N2), (proj2 (Nat.eqb_neq _ _) N3) in X.
    assert (Y : In b (lvertices g)) by (apply lvertices_spec, vertex_b). specialize (X Y). discriminate.
Qed.
Lemma to_base x : In x (lpv g b) -> vlookup (combine sv (lpv g b)) (cur x) = x.
Proof.
  unfold sv, cur_vars. intros H.
  replace (combine (map cur (lpv g b)) (lpv g b)) with (map (fun x => (cur x, x)) (lpv g b)) by (clear; induction (lpv g b) as [|y l IH]; cbn; [|rewrite IH]; reflexivity).
  pose proof (rep_base _ (lwf_rep g W) b) as Rb. clear - H Rb. induction (lpv g b) as [|y l IH]; [destruct H|]. cbn [map vlookup].
  destruct (var_eqb_spec (cur x) (cur y)) as [E|E].
  - unfold cur in E. injection E as E1 E2. pose proof (Rb x H). pose proof (Rb y (or_introl eq_refl)). destruct x, y; cbn in *; congruence.
  - destruct H as [->|H]; [congruence|]. apply IH; [exact H|]. intros v Hv. apply Rb. right; exact Hv.
Qed.
Lemma to_base_sort : sort_preserving (vlookup (combine sv (lpv g b))).
Proof.
  apply vlookup_sort. unfold sv, cur_vars. intros a c H.
  replace (combine (map cur (lpv g b)) (lpv g b)) with (map (fun x => (cur x, x)) (lpv g b)) in H by (clear; induction (lpv g b) as [|y l IH]; cbn; [|rewrite IH]; reflexivity).
  apply in_map_iff in H as [x [E _]]. injection E as <- <-. reflexivity.
Qed.
Variable inv : term.
Hypothesis Hinv : safe_inductive ts inv.
Definition the_inv : term := rename (vlookup (combine sv (lpv g b))) inv.
Lemma inv_at (r : valuation) (f : var -> var) (h : valuation) : sort_preserving f -> (forall x, In x (lpv g b) -> eval r (Var (f x)) = eval h (Var (cur x))) ->
  (holds r (rename f the_inv) <-> holds h inv).
Proof.
  intros Hf H. unfold the_inv. rewrite rename_rename. apply (holds_ren_ext (fun v => f (vlookup (combine sv (lpv g b)) v)) r h inv).
  - intros v. rewrite Hf. apply to_base_sort.
  - intros v Hv. pose proof (inv_state _ _ Hinv v Hv) as X. rewrite (same_sv ts St) in X. unfold sv, cur_vars in X. apply in_map_iff in X as [x [<- Hx]].
    rewrite (to_base x Hx). apply H, Hx.
Qed.
Theorem invariant_solution : lsolution g (wset trivial_defs b the_inv).
Proof.
  destruct sh_ne as [N1 [N2 N3]].
  assert (Wb : wset trivial_defs b the_inv b = Some the_inv) by (unfold wset; rewrite Nat.eqb_refl; reflexivity).
  assert (W0 : wset trivial_defs b the_inv entry = Some tt_true) by (unfold wset; rewrite (proj2 (Nat.eqb_neq entry b)) by congruence; reflexivity).
  assert (W1 : wset trivial_defs b the_inv exit = Some tt_false) by (unfold wset; rewrite (proj2 (Nat.eqb_neq exit b)) by congruence; reflexivity).
  destruct (sh_0 _ _ _ _ _ Sh) as [A0 B0], (sh_1 _ _ _ _ _ Sh) as [A1 B1], (sh_2 _ _ _ _ _ Sh) as [A2 B2].
  split.
  - intros p d E v Hv. unfold wset in E. destruct (Nat.eqb_spec p b) as [->|Np].
    + injection E as <-. unfold the_inv in Hv. rewrite vars_rename in Hv. apply in_map_iff in Hv as [u [<- Hu]].
      pose proof (inv_state _ _ Hinv u Hu) as X. rewrite (same_sv ts St) in X. unfold sv, cur_vars in X. apply in_map_iff in X as [x [<- Hx]].
      rewrite (to_base x Hx). exact Hx.
    + unfold trivial_defs in E. destruct (Nat.eqb p entry); [injection E as <-; destruct Hv|]. destruct (Nat.eqb p exit); [injection E as <-; destruct Hv|discriminate].
  - exists tt_true. split; [exact W0|apply holds_true].
  - exists tt_false. split; [exact W1|apply holds_false].
  - assert (Cur : forall r, holds r (rename cur the_inv) <-> holds r inv) by (intros r; apply inv_at; [apply cur_sort|reflexivity]).
    assert (Nxt : forall r, holds r (rename nxt the_inv) <-> holds (TransSys.at_time 1 r) inv).
    { intros r. apply inv_at; [apply nxt_sort|]. intros x _. unfold TransSys.at_time. cbn [eval]. rewrite shiftv_cur. reflexivity. }
    assert (Fa : forall r, sfact (TransSys.at_time 1 r) = (b, args r nv)) by (intros r; unfold sfact; rewrite args_at, <- nv_shift; reflexivity).
    intros e He. apply (sh_in _ _ _ _ _ Sh) in He. destruct He as [->|[->| ->]].
    + rewrite A0, B0. exists tt_true, the_inv. split; [exact W0|]. split; [exact Wb|]. intros r Hl _. apply Nxt. apply (inv_init _ _ Hinv).
      apply (same_init ts St), init_iff. exists r. split; [exact Hl|]. rewrite Fa, A0, B0, (proj1 (empty_cur entry (or_introl eq_refl))). auto.
    + rewrite A1, B1. exists the_inv, the_inv. split; [exact Wb|]. split; [exact Wb|]. intros r Hl Hc. apply Cur in Hc. apply Nxt.
      apply (inv_step _ _ Hinv r); [exact Hc|]. apply (same_step ts St), step_iff. exists r. split; [exact Hl|]. rewrite Fa, A1, B1. auto.
    + rewrite A2, B2. exists the_inv, tt_false. split; [exact Wb|]. split; [exact W1|]. intros r Hl Hc. exfalso. apply Cur in Hc.
      apply (inv_bad _ _ Hinv r Hc). apply (same_bad ts St), bad_iff. exists r. split; [exact Hl|]. rewrite A2, B2, (proj2 (empty_cur exit (or_intror eq_refl))). auto.
Qed.
End Same.

(** *** The path *)
Lemma path_from_ts_ok n : is_transition_system g = true -> path_from_ts g n = Some (map lid (error_edges n)).
Proof.
  intros Ht. unfold path_from_ts. rewrite Ht, find_body. pose proof (lwf_ids g W) as N. destruct sh_ne as [N1 [N2 N3]].
  destruct (sh_0 _ _ _ _ _ Sh) as [A0 B0], (sh_1 _ _ _ _ _ Sh) as [A1 B1], (sh_2 _ _ _ _ _ Sh) as [A2 B2].
  rewrite !in_ids_map, out_ids_map.
  destruct (find (fun i => Nat.eqb (lsource g i) (ltarget g i)) (map lid (filter (fun e => Nat.eqb (lto e) b) (ledges g)))) as [i|] eqn:Ef.
  2:{ exfalso. assert (X := find_none _ _ Ef (lid e1)). cbv beta in X. rewrite (lsource_in g e1 N in1), (ltarget_in g e1 N in1), A1, B1, Nat.eqb_refl in X.
      specialize (X (in_map lid _ e1 (proj2 (filter_In _ _ _) (conj in1 (proj2 (Nat.eqb_eq _ _) B1))))). discriminate. }
  apply find_some in Ef as [E1 E2]. apply in_map_iff in E1 as [e [<- He]]. apply filter_In in He as [He He2].
  rewrite (lsource_in g e N He), (ltarget_in g e N He) in E2. apply (self_loop e He) in E2. subst e.
  destruct (filter (fun e => Nat.eqb (lfrom e) entry) (ledges g)) as [|x l] eqn:F0.
  { exfalso. assert (X : In e0 (filter (fun e => Nat.eqb (lfrom e) entry) (ledges g))) by (apply filter_In; split; [apply in0|apply Nat.eqb_eq, A0]). rewrite F0 in X. destruct X. }
  assert (Ex : x = e0).
  { assert (X : In x (x :: l)) by (left; reflexivity). rewrite <- F0 in X. apply filter_In in X as [X1 X2]. apply Nat.eqb_eq in X2.
    apply (sh_in _ _ _ _ _ Sh) in X1 as [X1|[->| ->]]; [exact X1| |]; congruence. }
  subst x. cbn [map].
  destruct (filter (fun e => Nat.eqb (lto e) exit) (ledges g)) as [|y l'] eqn:F2.
  { exfalso. assert (X : In e2 (filter (fun e => Nat.eqb (lto e) exit) (ledges g))) by (apply filter_In; split; [apply in2|apply Nat.eqb_eq, B2]). rewrite F2 in X. destruct X. }
  assert (Ey : y = e2).
  { assert (X : In y (y :: l')) by (left; reflexivity). rewrite <- F2 in X. apply filter_In in X as [X1 X2]. apply Nat.eqb_eq in X2.
    apply (sh_in _ _ _ _ _ Sh) in X1 as [->|[->|X1]]; [| |exact X1]; congruence. }
  subst y. cbn [map]. unfold error_edges. cbn [map]. rewrite map_app. cbn [map].
  assert (R : map lid (repeat e1 n) = repeat (lid e1) n) by (clear; induction n as [|n IH]; cbn; [|rewrite IH]; reflexivity).
  rewrite R. reflexivity.
Qed.
Lemma error_edges_in n e : In e (error_edges n) -> In e (ledges g).
Proof.
  intros [<-|H]; [apply in0|]. apply in_app_or in H as [H|[<-|[]]]; [apply repeat_spec in H; subst; apply in1|apply in2].
Qed.
Lemma error_edges_connected n : connected entry (error_edges n) exit.
Proof.
  destruct (sh_0 _ _ _ _ _ Sh) as [A0 B0], (sh_1 _ _ _ _ _ Sh) as [A1 B1], (sh_2 _ _ _ _ _ Sh) as [A2 B2].
  split; [exact A0|]. rewrite B0. induction n as [|n IH]; cbn [repeat app connected]; [auto|]. split; [exact A1|]. rewrite B1. exact IH.
Qed.

(** *** Well-formedness, auxiliary variables *)
Lemma subsetb_spec l l' : subsetb l l' = true <-> incl l l'.
Proof. unfold subsetb. rewrite forallb_forall. split; intros H v Hv; [apply inb_true, H, Hv|apply inb_true, H, Hv]. Qed.
Theorem the_ts_wf : ts_wf the_ts = true.
Proof.
  unfold ts_wf, is_state_formula, is_transition_formula, nextvars. cbn [svars avars tinit ttrans tquery the_ts].
  rewrite !andb_true_iff. repeat split.
  - apply subsetb_spec. intros v Hv. unfold the_init in Hv. rewrite vars_rename in Hv. apply in_map_iff in Hv as [u [<- Hu]].
    apply (proj1 (Helim _ _)) in Hu. apply in_or_app. destruct (vars_init u Hu) as [C|[C [T _]]].
    + left. unfold nv, nxt_vars in C. apply in_map_iff in C as [x [<- Hx]]. rewrite (ren_nv x Hx). unfold sv, cur_vars. apply in_map, Hx.
    + right. rewrite ren_out; [exact C|]. intros J. apply nv_time in J. congruence.
  - apply subsetb_spec. intros v Hv. apply (proj1 (Helim _ _)) in Hv. apply in_or_app. destruct (vars_bad v Hv) as [C|[C _]]; auto.
  - apply subsetb_spec. intros v Hv. rewrite <- nv_shift. apply in_or_app. destruct (vars_loop v Hv) as [C|[C|[C _]]]; auto; right; apply in_or_app; auto.
  - apply forallb_forall. intros v Hv. unfold is_time0. rewrite (sv_time v Hv). reflexivity.
  - apply forallb_forall. intros v Hv. unfold is_time0. rewrite (proj1 (aux_inv v Hv)). reflexivity.
  - apply forallb_forall. intros v Hv. apply negb_true_iff, inb_false, (aux_inv v Hv).
Qed.
Lemma the_ts_same : same_ts the_ts.
Proof. split; try reflexivity; intros; tauto. Qed.
End Shape.

(** Removing auxiliary variables. *)
Section NoAux.
Variable qe : qe_fn.
Hypothesis Hqe : qe_ok qe.
Variable ts : tsys.
Hypothesis Wf : ts_wf ts = true.

Lemma drop_aux_ok f f' : is_state_formula ts f = true -> drop_aux qe (avars ts) f = Some f' ->
  (forall v, In v (vars f') -> In v (svars ts)) /\
  forall s, (exists r, agree_on (svars ts) r s /\ holds r f') <-> (exists r, agree_on (svars ts) r s /\ holds r f).
Proof.
  intros Sf E. unfold is_state_formula in Sf. rewrite subsetb_spec in Sf. unfold drop_aux in E.
  assert (Da : forall v, In v (avars ts) -> ~ In v (svars ts)) by (apply (wf_disj ts Wf)).
  destruct (existsb (fun v => inb v (avars ts)) (vars f)) eqn:Ex.
  - apply Hqe in E. destruct E as [Pv Ps]. 
    assert (Kp : forall v, In v (filter (fun v => negb (inb v (avars ts))) (vars f)) -> In v (svars ts)).
    { intros v Hv. apply filter_In in Hv as [H1 H2]. apply negb_true_iff, inb_false in H2. apply Sf in H1. apply in_app_or in H1 as [H1|H1]; [exact H1|contradiction]. }
    split; [intros v Hv; apply Kp, Pv, Hv|]. intros s. split.
    + intros [r [Ag H]]. apply Ps in H as [r' [Ag' H']]. exists (fun v => if inb v (svars ts) then s v else r' v). split.
      * intros v Hv. apply inb_true in Hv. rewrite Hv. reflexivity.
      * refine (proj1 (holds_agree r' _ f _) H'). intros v Hv. destruct (inb v (svars ts)) eqn:I; [|reflexivity]. apply inb_true in I.
        rewrite <- (Ag v I). symmetry. apply Ag'. apply filter_In. split; [exact Hv|]. apply negb_true_iff, inb_false. intros X. apply (Da v X I).
    + intros [r [Ag H]]. exists r. split; [exact Ag|]. apply Ps. exists r. split; [intros v _; reflexivity|exact H].
  - injection E as <-. split; [|intros; tauto]. intros v Hv. apply Sf in Hv as X. apply in_app_or in X as [X|X]; [exact X|]. exfalso.
    assert (Y : existsb (fun v => inb v (avars ts)) (vars f) = true) by (apply existsb_exists; exists v; split; [exact Hv|apply inb_true, X]). congruence.
Qed.
Theorem ensure_no_aux_ok ts' : ensure_no_aux qe ts = Some ts' ->
  ts_wf ts' = true /\ no_aux ts' = true /\ svars ts' = svars ts /\
  (forall s, Init ts' s <-> Init ts s) /\ (forall s s', Step ts' s s' <-> Step ts s s') /\ (forall s, Bad ts' s <-> Bad ts s).
Proof.
  intros E. unfold ensure_no_aux in E. destruct (avars ts) as [|a0 al] eqn:Ea.
  - injection E as <-. split; [exact Wf|]. split; [|split; [reflexivity|]; split; [|split]; intros; tauto].
    unfold no_aux. unfold ts_wf in Wf. repeat (apply andb_prop in Wf as [Wf ?]). unfold is_state_formula in *. rewrite Ea, app_nil_r in *. apply andb_true_iff. auto.
  - rewrite <- Ea in E. destruct (drop_aux qe (avars ts) (tinit ts)) as [i|] eqn:Ei; [|discriminate].
    destruct (drop_aux qe (avars ts) (tquery ts)) as [q|] eqn:Eq; [|discriminate]. injection E as <-.
    assert (Wf' := Wf). unfold ts_wf in Wf'. repeat (apply andb_prop in Wf' as [Wf' ?]).
    destruct (drop_aux_ok _ _ Wf' Ei) as [V1 S1]. destruct (drop_aux_ok _ _ H3 Eq) as [V2 S2].
    split; [|split; [|split; [reflexivity|]; split; [exact S1|]; split; [intros; reflexivity|exact S2]]].
    + unfold ts_wf, is_state_formula, is_transition_formula, nextvars in *. cbn [svars avars tinit ttrans tquery] in *. rewrite !andb_true_iff. repeat split; try assumption.
      * apply subsetb_spec. intros v Hv. apply in_or_app. left. apply V1, Hv.
      * apply subsetb_spec. intros v Hv. apply in_or_app. left. apply V2, Hv.
    + unfold no_aux. cbn [svars tinit tquery]. apply andb_true_iff. split; apply subsetb_spec; [exact V1|exact V2].
Qed.
End NoAux.
