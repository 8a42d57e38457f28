(** * From a linear graph to a transition system in the termination front end (src/termination/Frontend.cc:445-493). *)
From Coq Require Import Permutation.
From Verif Require Import Syntax Solver TransSys TSLemmas Graph GraphOps GraphOpsProofs DfsProofs GraphSem Names ListLemmas SimpleTransModel MergeModel MergeProofs LinearModel LinearProofs LinearPath LinearTS PropGraph ExpandProofs ContractModel ContractProofs ContractLabels ContractSem ContractWf ContractDef LMerge NontermProofs SingleLoopProofs TermRuns.
Open Scope list_scope.
Open Scope nat_scope.

(** ** Specification *)
(** One step of a linear graph, and an infinite run from its entry. *)
Definition lstep (g : lgraph) (a b : fact) : Prop := exists e, In e (ledges g) /\ lfollows g e a b.
Definition lforever (g : lgraph) : Prop := endless (lstep g) (entry, []).

(** ** Model *)
(** [isTriviallyTerminating] (src/termination/Frontend.cc:445-452). *)
Definition trivially_terminating (g : lgraph) : bool := forallb (fun e => Nat.eqb (lfrom e) entry) (ledges g).
(** [isTransitionSystemWithoutQuery] (src/TransformationUtils.cc:37-51). *)
Definition is_ts_noquery (g : lgraph) : bool :=
  match reverse_post_order g with
  | Some [b; l] =>
      Nat.eqb b entry &&
      match out_ids g b with [i] => Nat.eqb (ltarget g i) l | _ => false end &&
      match out_ids g l with [i] => Nat.eqb (ltarget g i) l | _ => false end
  | _ => false
  end.
(** What the front end does with the graph: answer YES at once, hand a transition system to the analyses, or fail. *)
Inductive front := FYes | FSystem (ts : tsys)
| FThrow   (** the constructor of [TransitionSystem] throws (src/TransitionSystem.h:56); nothing catches this *)
| FBroken. (** a vertex or formula that is not there is used (src/TransformationUtils.cc:57, 86, 113-114: assertions) *)
Section Front.
Variable elim : elim_fn.
Variables (nv nid ctr : nat).
Variable ord : list var -> list var.
(** src/termination/Frontend.cc:481-493. *)
Definition term_front (g : lgraph) : front :=
  if trivially_terminating g then FYes
  else match (if is_ts_noquery g then to_ts_noquery elim g else single_loop elim nv nid ctr ord g) with
       | None => FBroken
       | Some ts => if ts_wf ts then if term_eqb (ttrans ts) tt_false then FYes else FSystem ts else FThrow
       end.
End Front.

(** ** Graphs that stop at once *)
Theorem trivial_stops g : (forall e, In e (ledges g) -> lto e <> entry) -> trivially_terminating g = true -> ~ lforever g.
Proof.
  intros N T E. unfold trivially_terminating in T. rewrite forallb_forall in T. apply endless_inv in E as [a [[e [He F]] E]].
  apply endless_inv in E as [b [[e' [He' F']] _]]. destruct F as [r [_ [_ ->]]], F' as [r' [_ [E' _]]]. injection E' as E' _.
  apply (N e He). rewrite E'. apply Nat.eqb_eq, T, He'.
Qed.

Lemma forever_same ts ts' : (forall s s', Step ts s s' -> Step ts' s s') -> forall s, forever ts s -> forever ts' s.
Proof. intros H s F. apply (recurrent_forever ts' (forever ts)); [|exact F]. intros x Fx. inversion Fx as [? y S Fy]; subst. eauto. Qed.

(** ** Orders *)
Section Order.
Variable g : lgraph.
Hypothesis N : NoDup (map lid (ledges g)).
Variable b : sym.
Variable e0 : ledge.
Hypothesis In0 : In e0 (ledges g).
Hypothesis F0 : lfrom e0 = entry. Hypothesis T0 : lto e0 = b.
Hypothesis Bne : b <> entry.
Hypothesis Out0 : forall e, In e (ledges g) -> lfrom e = entry -> lto e = b.
Lemma order2 : (forall e, In e (ledges g) -> lfrom e = b -> lto e = b) -> reverse_post_order g = Some [entry; b].
Proof.
  intros Out1. destruct (C42_reverse_post_order g N) as [o [Eo [No [Ho Oo]]]]. rewrite Eo. f_equal.
  assert (Mem : forall v, In v o -> v = entry \/ v = b).
  { intros v Hv. apply Ho in Hv. assert (G : forall p q, path g p q -> p = entry \/ p = b -> q = entry \/ q = b).
    { intros p q H. induction H as [|e q He _ IH]; [auto|]. intros [E|E]; apply IH; right; auto. }
    apply (G entry v Hv). auto. }
  assert (Stay : forall p q, path g p q -> p = b -> q = b).
  { intros p q H. induction H as [|e q He _ IH]; [auto|]. intros E. apply IH. auto. }
  assert (R0 : In entry o) by (apply Ho; constructor). apply in_split in R0 as [l1 [l2 E]].
  destruct (Oo e0 l1 l2 In0) as [X|X]; [rewrite F0; exact E| |].
  2:{ rewrite F0, T0 in X. exfalso. apply Bne. symmetry. apply (Stay _ _ X eq_refl). }
  rewrite T0 in X. apply in_split in X as [l3 [l4 E2]]. subst l2 o.
  assert (N1 : ~ In entry (l1 ++ l3 ++ b :: l4)) by (apply NoDup_remove_2 in No; exact No).
  assert (N2 : ~ In b ((l1 ++ entry :: l3) ++ l4)) by (apply (NoDup_remove_2 (l1 ++ entry :: l3)); rewrite <- app_assoc; exact No).
  rewrite !in_app_iff in N1, N2. cbn [In] in N1, N2. rewrite ?in_app_iff in N1, N2. cbn [In] in N1, N2.
  assert (G : forall l, (forall v, In v l -> In v l1 \/ In v l3 \/ In v l4) -> l = []).
  { intros [|v l] H; [reflexivity|]. exfalso. specialize (H v (or_introl eq_refl)). destruct (Mem v) as [-> | ->]; [|tauto|tauto].
    rewrite !in_app_iff. cbn [In]. rewrite in_app_iff. cbn [In]. tauto. }
  rewrite (G l1), (G l3), (G l4); auto.
Qed.
Lemma order3 e2 : In e2 (ledges g) -> lfrom e2 = b -> lto e2 = exit -> b <> exit -> (forall e, In e (ledges g) -> lfrom e = b -> lto e = b \/ lto e = exit) ->
  (forall e, In e (ledges g) -> lfrom e <> exit) -> reverse_post_order g = Some [entry; b; exit].
Proof.
  intros In2 F2 T2 Bx Out1 Out2. destruct (C42_reverse_post_order g N) as [o [Eo [No [Ho Oo]]]]. rewrite Eo. f_equal.
  assert (Mem : forall v, In v o -> v = entry \/ v = b \/ v = exit).
  { intros v Hv. apply Ho in Hv. assert (G : forall p q, path g p q -> p = entry \/ p = b \/ p = exit -> q = entry \/ q = b \/ q = exit).
    { intros p q H. induction H as [|e q He _ IH]; [auto|]. intros [E|[E|E]]; apply IH; [right; left; auto|right; apply Out1; auto|destruct (Out2 e He E)]. }
    apply (G entry v Hv). auto. }
  assert (Stop : forall p q, path g p q -> p = exit -> q = exit).
  { intros p q H. induction H as [|e q He _ IH]; [auto|]. intros E. destruct (Out2 e He E). }
  assert (Stay : forall p q, path g p q -> p = b -> q = b \/ q = exit).
  { intros p q H. induction H as [|e q He P IH]; [auto|]. intros E. destruct (Out1 e He E) as [X|X]; [auto|]. right. apply (Stop _ _ P X). }
  assert (R0 : In entry o) by (apply Ho; constructor). apply in_split in R0 as [l1 [l2 E]].
  destruct (Oo e0 l1 l2 In0) as [X|X]; [rewrite F0; exact E| |].
  2:{ rewrite F0, T0 in X. exfalso. destruct (Stay _ _ X eq_refl) as [Y|Y]; [apply Bne; congruence|discriminate Y]. }
  rewrite T0 in X. apply in_split in X as [l3 [l4 E2]]. subst l2. destruct (Oo e2 (l1 ++ entry :: l3) l4 In2) as [X|X].
  { rewrite F2, E, <- app_assoc. reflexivity. }
  2:{ rewrite F2, T2 in X. exfalso. apply Bx. apply (Stop _ _ X eq_refl). }
  rewrite T2 in X. apply in_split in X as [l5 [l6 E2]]. subst l4 o.
  assert (N1 : ~ In entry (l1 ++ l3 ++ b :: l5 ++ exit :: l6)) by (apply NoDup_remove_2 in No; exact No).
  assert (N2 : ~ In b ((l1 ++ entry :: l3) ++ l5 ++ exit :: l6)) by (apply (NoDup_remove_2 (l1 ++ entry :: l3)); rewrite <- app_assoc; exact No).
  assert (N3 : ~ In exit ((l1 ++ entry :: l3 ++ b :: l5) ++ l6)).
  { apply (NoDup_remove_2 (l1 ++ entry :: l3 ++ b :: l5)). rewrite <- app_assoc. cbn [app]. rewrite <- app_assoc. cbn [app]. exact No. }
  rewrite !in_app_iff in N1, N2, N3. cbn [In] in N1, N2, N3. rewrite !in_app_iff in N1, N2, N3. cbn [In] in N1, N2, N3. rewrite ?in_app_iff in N3. cbn [In] in N3.
  assert (G : forall l, (forall v, In v l -> In v l1 \/ In v l3 \/ In v l5 \/ In v l6) -> l = []).
  { intros [|v l] H; [reflexivity|]. exfalso. specialize (H v (or_introl eq_refl)). destruct (Mem v) as [-> |[-> | ->]]; [|tauto|tauto|tauto].
    rewrite in_app_iff. cbn [In]. rewrite in_app_iff. cbn [In]. rewrite in_app_iff. cbn [In]. tauto. }
  rewrite (G l1), (G l3), (G l5), (G l6); auto.
Qed.
End Order.

(** ** One loop and no query *)
Section Loop.
Variable g : lgraph.
Hypothesis W : lwf g.
Variable b : sym.
Variables e0 e1 : ledge.
Hypothesis Bx : b <> exit.
Hypothesis In0 : In e0 (ledges g). Hypothesis F0 : lfrom e0 = entry. Hypothesis T0 : lto e0 = b.
Hypothesis In1 : In e1 (ledges g). Hypothesis F1 : lfrom e1 = b. Hypothesis T1 : lto e1 = b.
Hypothesis U0 : forall e, In e (ledges g) -> lfrom e = entry -> e = e0.
Hypothesis U1 : forall e, In e (ledges g) -> lfrom e = b -> e = e1.
Variable elim : elim_fn.
Hypothesis Helim : elim_ok elim.

Lemma Bne : b <> entry. Proof. rewrite <- T0. apply (lwf_entry g W e0 In0). Qed.
Lemma e01 : lid e0 <> lid e1.
Proof.
  intros E. assert (X : e0 = e1); [|apply Bne; rewrite <- F1, <- X; exact F0].
  pose proof (lfind_in g e0 (lwf_ids g W) In0) as A. pose proof (lfind_in g e1 (lwf_ids g W) In1) as B. rewrite E in A. congruence.
Qed.
Lemma loop_order : reverse_post_order g = Some [entry; b].
Proof. apply (order2 g (lwf_ids g W) b e0 In0 F0 T0 Bne); [intros e He E; rewrite (U0 e He E); exact T0|]. intros e He E. rewrite (U1 e He E). exact T1. Qed.

(** A query is added, which does not change the runs. *)
Definition e2 : ledge := mkLEdge (S (lid e0 + lid e1)) b exit tt_true.
Definition g3 : lgraph := mkLGraph [e0; e1; e2] (lpv g).
Lemma g3_wf : lwf g3.
Proof.
  assert (V : forall p, lvertex g3 p -> lvertex g p).
  { assert (Vb : lvertex g b) by (right; right; exists e1; rewrite F1; auto).
    intros p [->|[->|[e [He H]]]]; [left; reflexivity|right; left; reflexivity|]. destruct He as [<-|[<-|[<-|[]]]]; cbn in H.
    - rewrite F0, T0 in H. destruct H as [->| ->]; [left; reflexivity|exact Vb].
    - rewrite F1, T1 in H. destruct H as [->| ->]; exact Vb.
    - destruct H as [->| ->]; [exact Vb|right; left; reflexivity]. }
  split.
  - exact (lwf_rep g W).
  - cbn [ledges g3 map lid e2]. pose proof e01. repeat (constructor; [cbn [In]; lia|]). constructor.
  - intros e v He Hv. assert (X : In e (ledges g) \/ e = e2) by (destruct He as [<-|[<-|[<-|[]]]]; auto).
    destruct X as [X|X]; [|subst e; cbn in Hv; tauto]. destruct (lwf_label g W e v X Hv) as [A|[A|[A B]]]; [left; exact A|right; left; exact A|].
    right; right. split; [exact A|]. intros p Hp. exact (B p (V p Hp)).
  - intros e [<-|[<-|[<-|[]]]]; [apply (lwf_entry g W), In0|apply (lwf_entry g W), In1|discriminate].
  - intros e [<-|[<-|[<-|[]]]]; [apply (lwf_exit g W), In0|apply (lwf_exit g W), In1|exact Bx].
Qed.
Lemma g3_shape : ts_shape g3 b e0 e1 e2.
Proof.
  split; [split; [exact Bne|exact Bx]|auto|auto|split; reflexivity| |].
  - intros e. cbn. intuition.
  - apply (order3 g3 (lwf_ids _ g3_wf) b e0 (or_introl eq_refl) F0 T0 Bne) with (e2 := e2); cbn [ledges g3 In]; auto.
    + intros e [<-|[<-|[<-|[]]]] E; [exact T0|destruct Bne; congruence|destruct Bne; exact E].
    + intros e [<-|[<-|[<-|[]]]] E; [destruct Bne; congruence|auto|auto].
    + apply (lwf_exit _ g3_wf).
Qed.
Notation ts3 := (the_ts g3 b e0 e1 e2 elim).
Notation sf := (sfact g3 b).
Lemma runs_ts3 : lforever g <-> exists s, Init ts3 s /\ forever ts3 s.
Proof.
  split.
  - intros E. apply endless_inv in E as [f [[e [He F]] E]]. assert (X : e = e0) by (apply (U0 e He); destruct F as [r [_ [X _]]]; injection X as X _; congruence). subst e.
    destruct (next_state g3 b e0 _ _ F T0) as [s ->]. exists s. split; [apply (init_iff g3 b e0 e1 e2 g3_wf g3_shape elim Helim), F|].
    clear F. apply (recurrent_forever ts3 (fun s => endless (lstep g) (sf s))); [|exact E]. clear s E. intros s E.
    apply endless_inv in E as [f [[e [He' F]] E]]. assert (X : e = e1) by (apply (U1 e He'); destruct F as [r [_ [X _]]]; injection X as X _; congruence). subst e.
    destruct (next_state g3 b e1 _ _ F T1) as [s' ->]. exists s'. split; [|exact E]. apply (step_iff g3 b e0 e1 e2 g3_wf g3_shape elim), F.
  - intros [s [I Fo]]. apply (endless_step _ _ (sf s)).
    + exists e0. split; [exact In0|]. apply (init_iff g3 b e0 e1 e2 g3_wf g3_shape elim Helim) in I. exact I.
    + apply (endless_coind _ (fun f => exists s, f = sf s /\ forever ts3 s)); [|eauto]. intros f [x [-> Fx]]. inversion Fx as [? x' Sx Fx']; subst.
      exists (sf x'). split; [|eauto]. exists e1. split; [exact In1|]. apply (step_iff g3 b e0 e1 e2 g3_wf g3_shape elim) in Sx. exact Sx.
Qed.

(** *** What [toTransitionSystem] takes as the state variables: those of the last self-loop. *)
Definition all_aux : list var := concat (map (laux_vars g) (ledges g)).
Lemma vars_fold es : forall s n a,
  let '(s', n', a') := fold_left (fun (acc : list var * list var * list var) e =>
     let '(s, n, a) := acc in
     if Nat.eqb (lfrom e) (lto e) then (cur_vars g (lfrom e), nxt_vars g (lto e), a ++ laux_vars g e)
     else (s, n, a ++ laux_vars g e)) es (s, n, a) in
  a' = a ++ concat (map (laux_vars g) es) /\
  ((exists e, In e es /\ lfrom e = lto e /\ s' = cur_vars g (lto e) /\ n' = nxt_vars g (lto e)) \/ ((forall e, In e es -> lfrom e <> lto e) /\ s' = s /\ n' = n)).
Proof.
  induction es as [|e es IH]; intros s n a; cbn [fold_left map concat].
  - rewrite app_nil_r. split; [reflexivity|]. right. split; [intros e []|auto].
  - destruct (Nat.eqb_spec (lfrom e) (lto e)) as [E|E].
    + specialize (IH (cur_vars g (lfrom e)) (nxt_vars g (lto e)) (a ++ laux_vars g e)). destruct (fold_left _ es _) as [[s' n'] a'].
      destruct IH as [-> H]. rewrite <- app_assoc. split; [reflexivity|]. left. destruct H as [[x [H1 [H2 H3]]]|[_ [-> ->]]].
      * exists x. split; [right; exact H1|auto].
      * exists e. split; [left; reflexivity|]. rewrite E. auto.
    + specialize (IH s n (a ++ laux_vars g e)). destruct (fold_left _ es _) as [[s' n'] a']. destruct IH as [-> H]. rewrite <- app_assoc. split; [reflexivity|].
      destruct H as [[x [H1 [H2 H3]]]|[H1 [-> ->]]]; [left; exists x; split; [right; exact H1|auto]|]. right. split; [|auto]. intros x [<-|Hx]; auto.
Qed.
Lemma system_vars_loop : exists e, In e (ledges g) /\ lfrom e = lto e /\ system_vars g = (cur_vars g (lto e), nxt_vars g (lto e), all_aux).
Proof.
  pose proof (vars_fold (ledges g) [] [] []) as H. unfold system_vars. destruct (fold_left _ (ledges g) _) as [[s n] a].
  destruct H as [-> [[e [H1 [H2 [-> ->]]]]|[H _]]]; [exists e; auto|]. destruct (H e1 In1). congruence.
Qed.
Definition loop_init (q : sym) : term := rename (vlookup (combine (nxt_vars g q) (cur_vars g q))) (elim (fun v => inb v (nxt_vars g q)) (lfla e0)).
Definition loop_ts (q : sym) : tsys := mkTS (cur_vars g q) all_aux (loop_init q) (lfla e1) tt_true.
Lemma loop_parts_ok q : system_vars g = (cur_vars g q, nxt_vars g q, all_aux) -> ts_parts elim g [entry; b] = (Some (loop_init q), Some (lfla e1), None).
Proof.
  intros Es. unfold ts_parts. rewrite Es. cbn [nth length].
  assert (G : forall es i t d,
    fold_left (fun (acc : option term * option term * option term) e =>
      let '(i, t, d) := acc in
      (if Nat.eqb (lfrom e) entry && Nat.eqb (lto e) b then Some (rename (vlookup (combine (nxt_vars g q) (cur_vars g q))) (elim (fun v => inb v (nxt_vars g q)) (lfla e))) else i,
       if Nat.eqb (lfrom e) b && Nat.eqb (lto e) b then Some (lfla e) else t,
       if Nat.eqb 2 3 && Nat.eqb (lfrom e) b && Nat.eqb (lto e) entry then Some (elim (fun v => inb v (cur_vars g q)) (lfla e)) else d)) es (i, t, d)
    = (pick (fun e => Nat.eqb (lfrom e) entry && Nat.eqb (lto e) b) (fun e => rename (vlookup (combine (nxt_vars g q) (cur_vars g q))) (elim (fun v => inb v (nxt_vars g q)) (lfla e))) es i,
       pick (fun e => Nat.eqb (lfrom e) b && Nat.eqb (lto e) b) lfla es t, d)).
  { induction es as [|e es IH]; intros i t d; [reflexivity|]. cbn [fold_left pick]. rewrite IH. reflexivity. }
  rewrite G. rewrite (pick_ok _ _ e0), (pick_ok _ _ e1); auto; intros e He; rewrite andb_true_iff, !Nat.eqb_eq; (split; [intros [X _]; auto|intros ->; auto]).
Qed.
Theorem noquery_ts : exists q, (exists e, In e (ledges g) /\ lfrom e = q /\ lto e = q) /\ to_ts_noquery elim g = Some (loop_ts q).
Proof.
  destruct system_vars_loop as [e [He [E S]]]. exists (lto e). split; [exists e; auto|]. unfold to_ts_noquery. rewrite loop_order, S, (loop_parts_ok _ S). reflexivity.
Qed.

(** The loop of the system is the loop of the graph. *)
Lemma loop_here s s' : (Init (loop_ts b) s <-> Init ts3 s) /\ (Step (loop_ts b) s s' <-> Step ts3 s s').
Proof. split; reflexivity. Qed.
Lemma all_aux_spec v : In v all_aux -> vtag v = TTime 0 /\ forall p, lvertex g p -> ~ In v (cur_vars g p).
Proof.
  intros H. unfold all_aux in H. apply in_concat in H as [l [Hl H]]. apply in_map_iff in Hl as [e [<- He]]. apply filter_In in H as [H1 H2].
  apply nodup_In in H1. apply andb_prop in H2 as [H2 H3]. apply negb_true_iff in H2, H3. apply inb_false in H2, H3.
  destruct (lwf_label g W e v He H1) as [X|[X|X]]; [contradiction|contradiction|exact X].
Qed.
Lemma in_all_aux e v : In e (ledges g) -> In v (vars (lfla e)) -> ~ In v (cur_vars g (lfrom e)) -> ~ In v (nxt_vars g (lto e)) -> In v all_aux.
Proof.
  intros He Hv N1 N2. unfold all_aux. apply in_concat. exists (laux_vars g e). split; [apply in_map, He|]. apply filter_In. split; [apply nodup_In, Hv|].
  apply (proj2 (inb_false _ _)) in N1. apply (proj2 (inb_false _ _)) in N2. rewrite N1, N2. reflexivity.
Qed.
Lemma cur_time p v : In v (cur_vars g p) -> vtag v = TTime 0. Proof. intros H. apply in_map_iff in H as [x [<- _]]. reflexivity. Qed.
Lemma nxt_time p v : In v (nxt_vars g p) -> vtag v = TTime 1. Proof. intros H. apply in_map_iff in H as [x [<- _]]. reflexivity. Qed.
Lemma cur_disj p q v : In v (cur_vars g p) -> In v (cur_vars g q) -> p = q.
Proof.
  intros H1 H2. apply in_map_iff in H1 as [x [<- H1]]. apply in_map_iff in H2 as [y [E H2]]. apply (rep_disj _ (lwf_rep g W) p q x H1).
  replace x with y; [exact H2|]. pose proof (rep_base _ (lwf_rep g W) p x H1). pose proof (rep_base _ (lwf_rep g W) q y H2). destruct x, y. unfold cur in E. cbn in *. injection E as -> ->. congruence.
Qed.
Lemma nxt_disj p q v : In v (nxt_vars g p) -> In v (nxt_vars g q) -> p = q.
Proof.
  intros H1 H2. apply in_map_iff in H1 as [x [<- H1]]. apply in_map_iff in H2 as [y [E H2]]. apply (rep_disj _ (lwf_rep g W) p q x H1).
  replace x with y; [exact H2|]. pose proof (rep_base _ (lwf_rep g W) p x H1). pose proof (rep_base _ (lwf_rep g W) q y H2). destruct x, y. unfold nxt in E. cbn in *. injection E as -> ->. congruence.
Qed.
Lemma next_cur q : map (shiftv 1) (cur_vars g q) = nxt_vars g q.
Proof. unfold nxt_vars, cur_vars. rewrite map_map. apply map_ext. intros x. reflexivity. Qed.
Lemma loop_wf : ts_wf (loop_ts b) = true.
Proof.
  pose proof (the_ts_wf g3 b e0 e1 e2 g3_wf g3_shape elim Helim) as X. unfold ts_wf, is_state_formula, is_transition_formula, nextvars in *.
  cbn [svars avars tinit ttrans tquery the_ts loop_ts] in *. rewrite !andb_true_iff in *. destruct X as [[[[[A _] C] D] E] F].
  assert (I : incl (ts_aux g3) all_aux).
  { intros v Hv. unfold ts_aux in Hv. apply in_concat in Hv as [l [Hl Hv]]. apply in_map_iff in Hl as [e [<- He]].
    destruct He as [<-|[<-|[<-|[]]]]; [| |cbn in Hv; destruct Hv]; apply in_concat; [exists (laux_vars g e0)|exists (laux_vars g e1)]; (split; [apply in_map; assumption|exact Hv]). }
  repeat split; auto.
  - apply subsetb_spec. apply subsetb_spec in A. intros v Hv. apply A in Hv. apply in_app_iff in Hv as [Hv|Hv]; apply in_app_iff; auto.
  - apply subsetb_spec. apply subsetb_spec in C. intros v Hv. apply C in Hv. rewrite !in_app_iff in *. specialize (I v). tauto.
  - apply forallb_forall. intros v Hv. unfold is_time0. rewrite (proj1 (all_aux_spec v Hv)). reflexivity.
  - apply forallb_forall. intros v Hv. apply negb_true_iff, inb_false. apply (all_aux_spec v Hv). right; right. exists e1. rewrite F1. auto.
Qed.

(** The state variables come from another loop: the system is well formed only if the labels do not mention the state. *)
Section Other.
Variable q : sym.
Hypothesis Vq : lvertex g q.
Hypothesis Nq : q <> b.
Hypothesis Wf : ts_wf (loop_ts q) = true.
Lemma other_trans v : In v (vars (lfla e1)) -> vtag v = TTime 0 /\ forall p, lvertex g p -> ~ In v (cur_vars g p).
Proof.
  intros Hv. unfold ts_wf, is_transition_formula in Wf. cbn [svars avars tinit ttrans tquery loop_ts] in Wf. rewrite !andb_true_iff in Wf. destruct Wf as [[[[_ C] _] _] _].
  apply subsetb_spec in C. specialize (C v Hv). unfold nextvars in C. cbn [svars loop_ts] in C. rewrite next_cur, !in_app_iff in C.
  destruct (lwf_label g W e1 v In1 Hv) as [A|[A|A]]; [| |exact A]; rewrite ?F1, ?T1 in A.
  - destruct C as [C|[C|C]]; [destruct Nq; apply (cur_disj q b v C A)|apply nxt_time in C; apply cur_time in A; congruence|apply all_aux_spec, C].
  - destruct C as [C|[C|C]]; [apply nxt_time in A; apply cur_time in C; congruence|destruct Nq; apply (nxt_disj q b v C A)|apply all_aux_spec, C].
Qed.
Lemma other_elim v : In v (vars (elim (fun v => inb v (nxt_vars g q)) (lfla e0))) -> ~ In v (nxt_vars g q) /\ ~ In v (cur_vars g q).
Proof.
  intros Hv. pose proof (proj1 (Helim _ _) v Hv) as Hv0. assert (Nn : ~ In v (nxt_vars g q)).
  { intros X. destruct (lwf_label g W e0 v In0 Hv0) as [A|[A|[A _]]].
    - rewrite F0 in A. unfold cur_vars in A. rewrite (rep_entry _ (lwf_rep g W)) in A. destruct A.
    - rewrite T0 in A. apply Nq, (nxt_disj q b v X A).
    - apply nxt_time in X. congruence. }
  split; [exact Nn|]. intros X. destruct (lwf_label g W e0 v In0 Hv0) as [A|[A|[_ A]]].
  - rewrite F0 in A. unfold cur_vars in A. rewrite (rep_entry _ (lwf_rep g W)) in A. destruct A.
  - apply nxt_time in A. apply cur_time in X. congruence.
  - apply (A q Vq X).
Qed.
Lemma other_init : loop_init q = elim (fun v => inb v (nxt_vars g q)) (lfla e0).
Proof.
  unfold loop_init. apply rename_id. intros v Hv. apply other_elim in Hv as [Hv _]. apply vlookup_out. intros X. apply Hv. apply in_map_iff in X as [[a c] [E X]]. apply in_combine_l in X. cbn in E. subst. exact X.
Qed.
Lemma free_label (r s : valuation) t l : (forall v, In v (vars t) -> ~ In v l) -> holds r t -> holds (fun v => if inb v l then s v else r v) t.
Proof. intros N H. unfold holds, holdsb in *. rewrite (eval_ext _ r); [exact H|]. intros v Hv. cbn [eval]. rewrite (proj2 (inb_false _ _) (N v Hv)). reflexivity. Qed.
Lemma other_init_iff s : Init (loop_ts q) s <-> exists r, holds r (lfla e0).
Proof.
  unfold Init. cbn [svars tinit loop_ts]. rewrite other_init. destruct (Helim (fun v => inb v (nxt_vars g q)) (lfla e0)) as [_ Hs]. split.
  - intros [r [_ H]]. destruct (proj2 (Hs r)) as [r' [_ H']]; eauto.
  - intros [r H]. destruct (proj1 (Hs r)) as [r' [_ H']]; [eauto|]. exists (fun v => if inb v (cur_vars g q) then s v else r' v). split.
    + intros v Hv. rewrite (proj2 (inb_true _ _) Hv). reflexivity.
    + apply free_label; [|exact H']. intros v Hv. apply (other_elim v Hv).
Qed.
Lemma other_step_iff s s' : Step (loop_ts q) s s' <-> exists r, holds r (lfla e1).
Proof.
  unfold Step. cbn [svars ttrans loop_ts]. split; [intros [r [_ [_ H]]]; eauto|]. intros [r H].
  exists (fun v => if inb v (nxt_vars g q) then s' (shiftv (-1) v) else if inb v (cur_vars g q) then s v else r v). split; [|split].
  - intros v Hv. rewrite (proj2 (inb_true _ _) Hv). destruct (inb v (nxt_vars g q)) eqn:X; [|reflexivity]. apply inb_true, nxt_time in X. apply cur_time in Hv. congruence.
  - intros v Hv. rewrite (proj2 (inb_true (shiftv 1 v) (nxt_vars g q))) by (rewrite <- next_cur; apply in_map, Hv). f_equal. apply cur_time in Hv. destruct v as [bs t so]. cbn in Hv. subst t. reflexivity.
  - apply (free_label _ (fun v => s' (shiftv (-1) v))); [|apply (free_label _ s); [|exact H]]; intros v Hv X; destruct (other_trans v Hv) as [A B]; [apply nxt_time in X; congruence|apply (B q Vq X)].
Qed.
Lemma here_init_iff : (exists s, Init ts3 s) <-> exists r, holds r (lfla e0).
Proof.
  split; [intros [s I]; apply (init_iff g3 b e0 e1 e2 g3_wf g3_shape elim Helim) in I as [r [H _]]; eauto|]. intros [r H].
  assert (Fo : lfollows g3 e0 (entry, []) (lto e0, args r (nxt_vars g3 (lto e0)))).
  { exists r. split; [exact H|]. split; [|reflexivity]. rewrite F0. unfold cur_vars. cbn [lpv g3]. rewrite (rep_entry _ (lwf_rep g W)). reflexivity. }
  destruct (next_state g3 b e0 _ _ Fo T0) as [s Es]. rewrite Es in Fo. exists s. apply (init_iff g3 b e0 e1 e2 g3_wf g3_shape elim Helim), Fo.
Qed.
Lemma here_step_iff s s' : Step ts3 s s' <-> exists r, holds r (lfla e1).
Proof.
  unfold Step. cbn [svars ttrans the_ts]. split; [intros [r [_ [_ H]]]; eauto|]. intros [r H].
  assert (Vb : lvertex g b) by (right; right; exists e1; rewrite F1; auto).
  exists (fun v => if inb v (nxt_vars g b) then s' (shiftv (-1) v) else if inb v (cur_vars g b) then s v else r v). split; [|split].
  - intros v Hv. change (cur_vars g3 b) with (cur_vars g b) in Hv. rewrite (proj2 (inb_true _ _) Hv). destruct (inb v (nxt_vars g b)) eqn:X; [|reflexivity]. apply inb_true, nxt_time in X. apply cur_time in Hv. congruence.
  - intros v Hv. change (cur_vars g3 b) with (cur_vars g b) in Hv. rewrite (proj2 (inb_true (shiftv 1 v) (nxt_vars g b))) by (rewrite <- next_cur; apply in_map, Hv). f_equal. apply cur_time in Hv. destruct v as [bs t so]. cbn in Hv. subst t. reflexivity.
  - apply (free_label _ (fun v => s' (shiftv (-1) v))); [|apply (free_label _ s); [|exact H]]; intros v Hv X; destruct (other_trans v Hv) as [A B]; [apply nxt_time in X; congruence|apply (B b Vb X)].
Qed.
Lemma forever_all ts : (forall s s', Step ts s s' <-> exists r, holds r (lfla e1)) -> forall s, forever ts s <-> exists r, holds r (lfla e1).
Proof.
  intros H s. split; [intros Fo; inversion Fo as [? s' S _]; subst; apply H in S; exact S|]. intros X. apply (recurrent_forever ts (fun _ => True)); [|exact Logic.I].
  intros x _. exists x. split; [apply H, X|exact Logic.I].
Qed.
Lemma other_runs : (exists s, Init ts3 s /\ forever ts3 s) <-> exists s, Init (loop_ts q) s /\ forever (loop_ts q) s.
Proof.
  pose proof (forever_all ts3 here_step_iff) as A. pose proof (forever_all (loop_ts q) other_step_iff) as B. split.
  - intros [s [I Fo]]. exists s. split; [apply other_init_iff, here_init_iff; eauto|]. apply B, (A s), Fo.
  - intros [s [I Fo]]. apply other_init_iff, here_init_iff in I as [x I]. exists x. split; [exact I|]. apply A, (B s), Fo.
Qed.
End Other.
Theorem noquery_runs : exists ts, to_ts_noquery elim g = Some ts /\ (ts_wf ts = true -> (lforever g <-> exists s, Init ts s /\ forever ts s)) /\
  ((forall e, In e (ledges g) -> lfrom e = lto e -> lto e = b) -> ts_wf ts = true).
Proof.
  destruct noquery_ts as [q [[e [He [Q1 Q2]]] E]]. exists (loop_ts q). split; [exact E|]. split.
  - intros Wf. rewrite runs_ts3. destruct (Nat.eq_dec q b) as [->|Nq].
    { split; intros [s [I Fo]]; exists s; (split; [exact I|]); revert Fo; apply forever_same; intros x y H; exact H. }
     apply other_runs; auto. right; right. exists e. auto.
  - intros H. rewrite <- Q2, (H e He); [apply loop_wf|congruence].
Qed.
End Loop.

(** ** The test for this shape *)
Theorem noquery_shape g : lwf g -> (forall e, In e (ledges g) -> lto e <> exit) -> is_ts_noquery g = true ->
  exists b e0 e1, b <> exit /\ In e0 (ledges g) /\ lfrom e0 = entry /\ lto e0 = b /\ In e1 (ledges g) /\ lfrom e1 = b /\ lto e1 = b /\
    (forall e, In e (ledges g) -> lfrom e = entry -> e = e0) /\ (forall e, In e (ledges g) -> lfrom e = b -> e = e1).
Proof.
  intros W Nx H. unfold is_ts_noquery in H. destruct (reverse_post_order g) as [[|a [|b [|c l]]]|]; try discriminate.
  apply andb_prop in H as [H Hl]. apply andb_prop in H as [Ha Hb]. apply Nat.eqb_eq in Ha. subst a. rewrite out_ids_map in Hb, Hl.
  assert (One : forall p (P : nat -> bool), match map lid (filter (fun e => Nat.eqb (lfrom e) p) (ledges g)) with [i] => P i | _ => false end = true ->
    exists e, In e (ledges g) /\ lfrom e = p /\ P (lid e) = true /\ forall x, In x (ledges g) -> lfrom x = p -> x = e).
  { intros p P Hp. destruct (filter (fun e => Nat.eqb (lfrom e) p) (ledges g)) as [|e [|e' l]] eqn:F; try discriminate.
    assert (X : In e [e]) by (left; reflexivity). rewrite <- F in X. apply filter_In in X as [X1 X2]. apply Nat.eqb_eq in X2. exists e. repeat (split; [assumption|]).
    intros x Hx E. assert (Y : In x (filter (fun e => Nat.eqb (lfrom e) p) (ledges g))) by (apply filter_In; rewrite E, Nat.eqb_refl; auto). rewrite F in Y. destruct Y as [Y|[]]; auto. }
  destruct (One _ _ Hb) as [e0 [A1 [A2 [A3 A4]]]]. destruct (One _ _ Hl) as [e1 [B1 [B2 [B3 B4]]]]. rewrite (ltarget_in g e0 (lwf_ids g W) A1) in A3. rewrite (ltarget_in g e1 (lwf_ids g W) B1) in B3.
  apply Nat.eqb_eq in A3, B3. exists b, e0, e1. split; [rewrite <- A3; apply Nx, A1|]. repeat (split; [assumption|]). exact B4.
Qed.

(** ** The single loop *)
Section SL.
Variable g : lgraph.
Hypothesis W : lwf g.
Notation V := (inner_vertices g).
Hypothesis NF : names_free g V.
Hypothesis ET : et_free g.
Variable ord : list var -> list var.
Hypothesis Hord : forall l, Permutation (ord l) l.
Variables (nv nid ctr : nat).
Hypothesis Fnv : ~ lvertex g nv.
Hypothesis Fnid : forall e, In e (ledges g) -> lid e <> nid.
Hypothesis Nx : forall e, In e (ledges g) -> lto e <> exit.
Notation c := (contracted nv nid ord g).
Notation F := (final_graph nv nid ctr ord g).
Notation nf := (nfact g V ord nv).

Lemma Hno : forall e, In e (ledges g) -> lfrom e = entry -> lto e <> exit. Proof. auto. Qed.
Lemma cw : lwf c.
Proof. apply c_wf; auto. Qed.
Lemma sl_edge e' : In e' (ledges c) -> e' = loop_edge g V nv nid \/ exists e, In e (ledges g) /\ lfrom e = entry /\ In (lto e) V /\ e' = in_edge g V nv e.
Proof.
  intros H. destruct (c_edge g W ord nv nid Hno e' H) as [->|e A _ B _|e A B C D]; [auto|destruct (Nx e A B)|right; exists e; auto].
Qed.
(** States of the contracted graph stand for the facts of the graph. *)
Theorem contract_runs : lforever g <-> lforever c.
Proof.
  split.
  - intros E. apply (endless_coind _ (fun f => (f = (entry, []) /\ lforever g) \/ exists s p, In p V /\ at_loc V s p /\ f = nf s /\ endless (lstep g) (p, args s (args_of g p)))); [|auto].
    clear E. intros f [[-> E]|[s [p [Vp [L [-> E]]]]]]; apply endless_inv in E as [f' [[e [He Fo]] E]].
    + assert (Fe : lfrom e = entry) by (destruct Fo as [r [_ [X _]]]; injection X as X _; congruence). destruct (V_to g W e He) as [X|Vq]; [destruct (Nx e He X)|].
      destruct (to_args g e _ _ Fo) as [r Hr]. destruct (at_exists g V (lto e) r Vq) as [s [L As]].
      assert (Ef : f' = (lto e, args s (args_of g (lto e)))) by (destruct Fo as [r' [_ [_ ->]]]; cbn [snd] in Hr; congruence).
      rewrite Ef in *. exists (nf s). split; [|right; exists s, (lto e); auto]. exists (in_edge g V nv e). split; [apply c_in; auto|].
      apply (in_follows g W V NF ord Hord nv nid Fnv e s (entry, []) He Vq). auto.
    + assert (Fe : lfrom e = p) by (destruct Fo as [r [_ [X _]]]; injection X as X _; congruence). destruct (V_to g W e He) as [X|Vq]; [destruct (Nx e He X)|].
      destruct (to_args g e _ _ Fo) as [r Hr]. destruct (at_exists g V (lto e) r Vq) as [s' [L' As]].
      assert (Ef : f' = (lto e, args s' (args_of g (lto e)))) by (destruct Fo as [r' [_ [_ ->]]]; cbn [snd] in Hr; congruence).
      rewrite Ef in *. exists (nf s'). split; [|right; exists s', (lto e); auto]. exists (loop_edge g V nv nid). split; [apply c_loop|].
      apply (loop_follows g W V ord Hord nv nid s s'). exists e. rewrite Fe. auto 8.
  - intros E. apply (endless_coind _ (fun f => (f = (entry, []) /\ lforever c) \/ exists s p, In p V /\ at_loc V s p /\ f = (p, args s (args_of g p)) /\ endless (lstep c) (nf s))); [|auto].
    clear E. intros f [[-> E]|[s [p [Vp [L [-> E]]]]]]; apply endless_inv in E as [f' [[e' [He' Fo]] E]].
    + destruct (sl_edge e' He') as [->|[e [He [Fe [Vq ->]]]]].
      * exfalso. destruct Fo as [r [_ [X _]]]. injection X as X _. apply (nv_entry g nv Fnv). symmetry. exact X.
      * destruct (to_nv g V ord nv nid _ _ _ Fo eq_refl) as [s ->]. apply (in_follows g W V NF ord Hord nv nid Fnv e s (entry, []) He Vq) in Fo as [L Fo].
        exists (lto e, args s (args_of g (lto e))). split; [exists e; auto|]. right. exists s, (lto e). auto.
    + destruct (sl_edge e' He') as [->|[e [He [Fe [Vq ->]]]]].
      * destruct (to_nv g V ord nv nid _ _ _ Fo eq_refl) as [s' ->]. apply (loop_follows g W V ord Hord nv nid s s') in Fo as [e [He [Ve [Vt [L1 [L2 Fo]]]]]].
        assert (Ep : lfrom e = p) by (apply (at_unique V s (lfrom e) p Ve L1 L)). rewrite Ep in Fo.
        exists (lto e, args s' (args_of g (lto e))). split; [exists e; auto|]. right. exists s', (lto e). auto.
      * exfalso. destruct Fo as [r [_ [X _]]]. cbn [lfrom in_edge] in X. injection X as X _. apply (nv_entry g nv Fnv). congruence.
Qed.
Theorem merge_runs : lforever c <-> lforever F.
Proof.
  split; apply endless_mono; intros a b [e [He Fo]].
  - destruct (F_rep c ctr e He) as [e' [He' P]]. exists e'. split; [exact He'|]. apply (F_follows c cw ctr e' a b He'). eauto.
  - apply (F_follows c cw ctr e a b He) in Fo as [e' [He' [_ Fo]]]. exists e'. auto.
Qed.
Variable elim : elim_fn.
Hypothesis Helim : elim_ok elim.
Theorem single_loop_runs : (exists e, In e (ledges g) /\ lfrom e = entry) ->
  exists ts, single_loop elim nv nid ctr ord g = Some ts /\ ts_wf ts = true /\ (lforever g <-> exists s, Init ts s /\ forever ts s).
Proof.
  intros [e [He Fe]]. destruct (V_to g W e He) as [X|Vq]; [destruct (Nx e He X)|].
  destruct (F_rep c ctr _ (c_in g ord nv nid e He Fe Vq)) as [e0 [I0 [P0 Q0]]]. destruct (F_rep c ctr _ (c_loop g ord nv nid)) as [e1 [I1 [P1 Q1]]]. cbn in P0, Q0, P1, Q1.
  assert (Kind : forall x, In x (ledges F) -> (lfrom x = nv /\ lto x = nv) \/ (lfrom x = entry /\ lto x = nv)).
  { intros x Hx. destruct (F_edge c cw ctr x Hx) as [[e' [He' [A B]]] _]. destruct (sl_edge e' He') as [->|[y [_ [Ey [_ ->]]]]]; cbn in A, B; [left|right]; split; congruence. }
  pose proof (nv_entry g nv Fnv) as Ne. pose proof (nv_exit g nv Fnv) as Nex.
  destruct (noquery_runs F (F_wf c cw ctr) nv e0 e1 Nex I0) with (elim := elim) as [ts [E [R Wf]]]; auto; try congruence.
  - intros x Hx Ex. destruct (Kind x Hx) as [[A B]|[A B]]; [congruence|]. symmetry. apply (F_unique c ctr e0 x I0 Hx). split; congruence.
  - intros x Hx Ex. destruct (Kind x Hx) as [[A B]|[A B]]; [|congruence]. symmetry. apply (F_unique c ctr e1 x I1 Hx). split; congruence.
  - exists ts. split; [exact E|]. assert (T : ts_wf ts = true) by (apply Wf; intros x Hx _; destruct (Kind x Hx) as [[_ B]|[_ B]]; exact B).
    split; [exact T|]. rewrite contract_runs, merge_runs. apply R, T.
Qed.
(** Without an edge from the entry there is no initial state to be found. *)
Theorem single_loop_isolated : (forall e, In e (ledges g) -> lfrom e <> entry) -> single_loop elim nv nid ctr ord g = None.
Proof.
  intros Ne. unfold single_loop, to_ts_noquery. destruct (C42_reverse_post_order F (F_ids c ctr)) as [o [Eo [No [Ho _]]]]. rewrite Eo. destruct (system_vars F) as [[s n] a].
  assert (All : forall x, In x (ledges F) -> lfrom x = nv /\ lto x = nv).
  { intros x Hx. destruct (F_edge c cw ctr x Hx) as [[e' [He' [A B]]] _]. destruct (sl_edge e' He') as [->|[y [Iy [Ey _]]]]; [cbn in A, B; split; congruence|destruct (Ne y Iy Ey)]. }
  assert (O : forall v, In v o -> v = entry).
  { intros v Hv. apply Ho in Hv. assert (G : forall p q, path F p q -> p = entry -> q = entry); [|apply (G _ _ Hv eq_refl)].
    intros p q H. induction H as [|x q Hx _ IH]; [auto|]. intros E. exfalso. apply (nv_entry g nv Fnv). destruct (All x Hx). congruence. }
  assert (N1 : nth 0 o entry = entry).
  { destruct o as [|v o]; [reflexivity|]. apply O. left. reflexivity. }
  assert (X : fst (fst (ts_parts elim F o)) = None); [|destruct (ts_parts elim F o) as [[i t] d]; cbn in X; subst i; reflexivity].
  unfold ts_parts. destruct (system_vars F) as [[s' n'] a']. rewrite N1.
  assert (G : forall es acc, (forall x, In x es -> lfrom x = nv) -> fst (fst acc) = None ->
     fst (fst (fold_left (fun (acc : option term * option term * option term) e => let '(i, t, d) := acc in
       (if Nat.eqb (lfrom e) entry && Nat.eqb (lto e) (nth 1 o entry) then Some (rename (vlookup (combine n' s')) (elim (fun v => inb v n') (lfla e))) else i,
        if Nat.eqb (lfrom e) (nth 1 o entry) && Nat.eqb (lto e) (nth 1 o entry) then Some (lfla e) else t,
        if Nat.eqb (length o) 3 && Nat.eqb (lfrom e) (nth 1 o entry) && Nat.eqb (lto e) (nth 2 o entry) then Some (elim (fun v => inb v s') (lfla e)) else d)) es acc)) = None).
  { induction es as [|x es IH]; intros [[i t] d] H Hi; [exact Hi|]. cbn [fold_left]. apply IH; [intros y Hy; apply H; right; exact Hy|]. cbn [fst] in *. rewrite (H x (or_introl eq_refl)).
    rewrite (proj2 (Nat.eqb_neq nv entry) (nv_entry g nv Fnv)). exact Hi. }
  apply G; [intros x Hx; apply All, Hx|reflexivity].
Qed.
End SL.
