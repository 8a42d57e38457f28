(** * The error path of the single-loop transformation. *)
From Coq Require Import Permutation.
From Verif Require Import Syntax Solver TransSys TSLemmas Graph GraphOps GraphOpsProofs DfsProofs GraphSem Names ListLemmas SimpleTransModel MergeModel MergeProofs LinearModel LinearProofs LinearPath LinearTS PropGraph ExpandProofs ContractModel ContractProofs ContractLabels ContractSem ContractWf ContractDef LMerge NontermProofs SingleLoopProofs.
Open Scope list_scope.
Open Scope nat_scope.

Lemma filter_unique {A} (P : A -> bool) l x : NoDup l -> In x l -> P x = true -> (forall y, In y l -> P y = true -> y = x) -> filter P l = [x].
Proof.
  induction l as [|y l IH]; intros N Hx Px U; [destruct Hx|]. inversion N as [|? ? Hn N']; subst. cbn [filter]. destruct (P y) eqn:Py.
  - assert (y = x) by (apply U; [left; reflexivity|exact Py]). subst y. f_equal. destruct (filter P l) as [|z l'] eqn:E; [reflexivity|]. exfalso.
    assert (Hz : In z (filter P l)) by (rewrite E; left; reflexivity). apply filter_In in Hz as [Hz Pz]. apply Hn. rewrite <- (U z (or_intror Hz) Pz). exact Hz.
  - apply IH; [exact N'| |exact Px|intros z Hz; apply U; right; exact Hz]. destruct Hx as [->|Hx]; [congruence|exact Hx].
Qed.
Definition no_parallel (g : lgraph) : Prop := forall e e', In e (ledges g) -> In e' (ledges g) -> lfrom e = lfrom e' -> lto e = lto e' -> e = e'.
Lemma pick_edge g P p e : NoDup (map lid (ledges g)) -> In e (ledges g) -> lfrom e = p -> P (lid e) = true ->
  (forall e', In e' (ledges g) -> lfrom e' = p -> P (lid e') = true -> e' = e) -> filter P (out_ids g p) = [lid e].
Proof.
  intros N He Ef Pe U. rewrite out_ids_map. apply filter_unique.
  - revert N. clear. induction (ledges g) as [|x l IH]; cbn; intros N; [constructor|]. inversion N as [|? ? X N']; subst. destruct (Nat.eqb (lfrom x) p); [|apply IH, N']. cbn. constructor; [|apply IH, N'].
    intros Y. apply X. apply in_map_iff in Y as [z [Ez Hz]]. apply filter_In in Hz as [Hz _]. apply in_map_iff. eauto.
  - apply in_map, filter_In. split; [exact He|]. apply Nat.eqb_eq, Ef.
  - exact Pe.
  - intros y Hy Py. apply in_map_iff in Hy as [e' [<- Hy]]. apply filter_In in Hy as [Hy Ey]. apply Nat.eqb_eq in Ey. rewrite (U e' Hy Ey Py). reflexivity.
Qed.
Lemma last_all {A} (l : list A) x d : l <> [] -> (forall y, In y l -> y = x) -> last l d = x.
Proof.
  induction l as [|y l IH]; intros N H; [contradiction|]. destruct l as [|z l]; [apply H; left; reflexivity|]. change (last (y :: z :: l) d) with (last (z :: l) d).
  apply IH; [discriminate|]. intros u Hu. apply H. right. exact Hu.
Qed.

Lemma F2len {A B} (P : A -> B -> Prop) l l' : Forall2 P l l' -> length l = length l'.
Proof. induction 1; cbn; congruence. Qed.
Section SLP.
Variable g : lgraph.
Hypothesis W : lwf g.
Notation V := (inner_vertices g).
Hypothesis NF : names_free g V.
Hypothesis ET : et_free g.
Hypothesis NP : no_parallel g.
Variable ord : list var -> list var.
Hypothesis Hord : forall l, Permutation (ord l) l.
Variables (nv nid ctr : nat).
Hypothesis Fnv : ~ lvertex g nv.
Hypothesis Fnid : forall e, In e (ledges g) -> lid e <> nid.
Hypothesis Hin : exists e, In e (ledges g) /\ lfrom e = entry /\ lto e <> exit.
Hypothesis Hout : exists e, In e (ledges g) /\ lto e = exit /\ lfrom e <> entry.
Hypothesis Hno : forall e, In e (ledges g) -> lfrom e = entry -> lto e <> exit.
Notation c := (contracted nv nid ord g).
Notation F := (final_graph nv nid ctr ord g).
Notation nvv := (nv_vars g V ord).
Notation L := (loop_edge g V nv nid).
Notation nfact := (nfact g V ord nv).

Lemma cw : lwf c. Proof. apply c_wf; auto. Qed.
Lemma ce e' : In e' (ledges c) -> sedge g nv nid e'. Proof. apply c_edge; auto. Qed.

(** Runs of the merged graph are runs of the contracted graph. *)
Lemma F_runs es f f' : lruns F es f f' -> exists es', lruns c es' f f' /\ Forall2 par es es'.
Proof.
  intros H. induction H as [f|e es f f1 f2 He Fo _ [es' [R P]]]; [exists []; split; constructor|].
  apply (F_follows c cw ctr e f f1 He) in Fo as [e' [H1 [H2 H3]]]. exists (e' :: es'). split; [econstructor; eassumption|constructor; assumption].
Qed.
Lemma inputs_spec r : holds r (mkOr (sl_inputs c)) <-> exists e, In e (ledges g) /\ lfrom e = entry /\ In (lto e) V /\ holds r (shift (-1) (lfla (in_edge g V nv e))).
Proof.
  rewrite holds_or, Exists_exists. unfold sl_inputs. split.
  - intros [t [Ht H]]. apply in_map_iff in Ht as [e' [<- He']]. apply filter_In in He' as [He' E]. apply Nat.eqb_eq in E. destruct (ce e' He') as [->|e Ie Vp Ee ->|e Ie Ee Vq ->]; cbn in E.
    + destruct (nv_en g nv Fnv E).
    + destruct (nv_en g nv Fnv E).
    + exists e. auto.
  - intros [e [He [Ee [Vq H]]]]. eexists. split; [|exact H]. apply (in_map (fun e => shift (-1) (lfla e))). apply filter_In. split; [apply c_in; auto|]. cbn. rewrite Ee. apply Nat.eqb_refl.
Qed.
Lemma outputs_spec r n : holds r (shift (Z.of_nat n) (mkOr (sl_outputs c))) <-> exists e, In e (ledges g) /\ In (lfrom e) V /\ lto e = exit /\ holds r (shift (Z.of_nat n) (lfla (out_edge g nv e))).
Proof.
  assert (Es : shift (Z.of_nat n) (mkOr (sl_outputs c)) = mkOr (map (shift (Z.of_nat n)) (sl_outputs c))).
  { unfold shift. destruct (Z.eqb _ 0); [rewrite map_id; reflexivity|reflexivity]. }
  rewrite Es, holds_or, Exists_exists. unfold sl_outputs. rewrite map_map. split.
  - intros [t [Ht H]]. apply in_map_iff in Ht as [e' [<- He']]. apply filter_In in He' as [He' E]. apply andb_true_iff in E as [_ E]. apply Nat.eqb_eq in E. destruct (ce e' He') as [->|e Ie Vp Ee ->|e Ie Ee Vq ->]; cbn in E.
    + destruct (nv_ex g nv Fnv E).
    + exists e. auto.
    + destruct (nv_ex g nv Fnv E).
  - intros [e [He [Vp [Ee H]]]]. eexists. split; [|exact H]. apply (in_map (fun e => shift (Z.of_nat n) (lfla e)) _ (out_edge g nv e)). apply filter_In. split; [apply c_out; auto|]. cbn [lfrom lto out_edge].
    rewrite (proj2 (Nat.eqb_neq _ _) (nv_en g nv Fnv)), Ee. reflexivity.
Qed.
Lemma transition_spec : sl_transition c = lfla L.
Proof.
  unfold sl_transition. assert (A : forall x, In x (filter (fun e => negb (Nat.eqb (lfrom e) entry) && negb (Nat.eqb (lto e) exit)) (ledges c)) -> x = L).
  { intros x Hx. apply filter_In in Hx as [Hx E]. apply andb_true_iff in E as [E1 E2]. apply negb_true_iff, Nat.eqb_neq in E1, E2. destruct (ce x Hx) as [->|e Ie Vp Ee ->|e Ie Ee Vq ->]; [reflexivity| |]; cbn in E1, E2; contradiction. }
  assert (B : In L (filter (fun e => negb (Nat.eqb (lfrom e) entry) && negb (Nat.eqb (lto e) exit)) (ledges c))).
  { apply filter_In. split; [apply c_loop|]. cbn [loop_edge lfrom lto]. rewrite (proj2 (Nat.eqb_neq _ _) (nv_en g nv Fnv)), (proj2 (Nat.eqb_neq _ _) (nv_ex g nv Fnv)). reflexivity. }
  apply last_all.
  - intros X. apply map_eq_nil in X. rewrite X in B. destruct B.
  - intros t Ht. apply in_map_iff in Ht as [x [<- Hx]]. rewrite (A x Hx). reflexivity.
Qed.
Lemma labels_app es : forall i es', path_labels i (es ++ es') = path_labels i es ++ path_labels (i + Z.of_nat (length es)) es'.
Proof.
  induction es as [|e es IH]; intros i es'; cbn [app path_labels length]; [rewrite Z.add_0_r; reflexivity|]. f_equal. rewrite IH. f_equal. f_equal. lia.
Qed.
Lemma labels_repeat n : forall i, path_labels i (repeat L n) = map (fun j => shift (i + Z.of_nat j) (lfla L)) (seq 0 n).
Proof.
  induction n as [|n IH]; intros i; [reflexivity|]. cbn [repeat path_labels seq map]. rewrite Z.add_0_r. f_equal. rewrite IH, <- seq_shift, map_map. apply map_ext. intros j. f_equal. lia.
Qed.
(** The query of the back translation is satisfiable when there is an error path. *)
Lemma query_sat e0 e1 e2 elim n : elim_ok elim -> ts_shape F nv e0 e1 e2 -> error_path (the_ts F nv e0 e1 e2 elim) n -> exists r, Forall (holds r) (sl_query c n).
Proof.
  intros He Sh Ep. pose proof (F_wf c cw ctr) as WF. apply (error_path_runs F nv e0 e1 e2 WF Sh elim He _ (the_ts_same F nv e0 e1 e2 elim) n) in Ep.
  destruct (F_runs _ _ _ Ep) as [es [R P]]. unfold error_edges in P. inversion P as [|? x ? es1 P0 P1]; subst. apply Forall2_app_inv_l in P1 as [ls [os [P1 [P2 ->]]]].
  inversion P2 as [|? y ? os1 P3 P4]; subst. inversion P4; subst. destruct (lruns_connected _ _ _ _ R) as [_ Inc].
  destruct (sh_0 _ _ _ _ _ Sh) as [A0 B0], (sh_1 _ _ _ _ _ Sh) as [A1 B1], (sh_2 _ _ _ _ _ Sh) as [A2 B2].
  assert (El : ls = repeat L n).
  { assert (Hl : forall z, In z ls -> z = L).
    { intros z Hz. assert (Pz : par e1 z).
      { clear -P1 Hz. apply In_nth_error in Hz as [k Hk]. assert (X : exists u, nth_error (repeat e1 n) k = Some u /\ par u z).
        { revert k Hk. induction P1 as [|u v l l' Huv _ IH]; intros [|k] Hk; cbn in Hk; try discriminate; [injection Hk as <-; exists u; auto|apply (IH k Hk)]. }
        destruct X as [u [Hu Hp]]. apply nth_error_In, repeat_spec in Hu. subst u. exact Hp. }
      destruct Pz as [Z1 Z2]. destruct (ce z) as [->|e Ie Vp Ee ->|e Ie Ee Vq ->]; [apply Inc; right; apply in_app_iff; left; exact Hz|reflexivity| |]; cbn in Z1, Z2.
      - exfalso. apply (nv_ex g nv Fnv). congruence.
      - exfalso. apply (nv_en g nv Fnv). congruence. }
    assert (Ll : length ls = n) by (pose proof (F2len _ _ _ P1) as Y; rewrite repeat_length in Y; symmetry; exact Y).
    rewrite <- Ll. clear -Hl. induction ls as [|z ls IH]; [reflexivity|]. cbn. rewrite (Hl z (or_introl eq_refl)). f_equal. apply IH. intros u Hu. apply Hl. right. exact Hu. }
  subst ls. assert (Ex : exists e, In e (ledges g) /\ lfrom e = entry /\ In (lto e) V /\ x = in_edge g V nv e).
  { destruct P0 as [Z1 Z2]. destruct (ce x) as [->|e Ie Vp Ee ->|e Ie Ee Vq ->]; [apply Inc; left; reflexivity| | |exists e; auto]; cbn in Z1, Z2; exfalso; apply (nv_en g nv Fnv); congruence. }
  assert (Ey : exists e, In e (ledges g) /\ In (lfrom e) V /\ lto e = exit /\ y = out_edge g nv e).
  { destruct P3 as [Z1 Z2]. destruct (ce y) as [->|e Ie Vp Ee ->|e Ie Ee Vq ->]; [apply Inc; right; apply in_app_iff; right; left; reflexivity| |exists e; auto|]; cbn in Z1, Z2; exfalso; apply (nv_ex g nv Fnv); congruence. }
  destruct Ex as [ei [I1 [I2 [I3 ->]]]], Ey as [eo [O1 [O2 [O3 ->]]]].
  destruct (runs_labels c cw _ _ _ R (entry_ok c cw) (-1)%Z) as [r [H _]]. exists r.
  change (in_edge g V nv ei :: repeat L n ++ [out_edge g nv eo]) with ([in_edge g V nv ei] ++ (repeat L n ++ [out_edge g nv eo])) in H.
  rewrite labels_app, Forall_app in H. destruct H as [H1 H]. rewrite labels_app, Forall_app, labels_repeat in H. destruct H as [H2 H3].
  unfold sl_query. constructor; [|apply Forall_app; split].
  - apply inputs_spec. exists ei. repeat split; auto. apply Forall_inv in H1. exact H1.
  - rewrite transition_spec. cbn [length] in H2. apply Forall_forall. intros t Ht. apply in_map_iff in Ht as [i [<- Hi]]. rewrite Forall_forall in H2. apply H2. apply in_map_iff. exists i. split; [reflexivity|exact Hi].
  - constructor; [|constructor]. apply outputs_spec. exists eo. repeat split; auto. apply Forall_inv in H3. rewrite repeat_length in H3. cbn [length] in H3.
    replace (-1 + Z.of_nat 1 + Z.of_nat n)%Z with (Z.of_nat n) in H3 by lia. exact H3.
Qed.

(** ** Walking along a model *)
Section Walk.
Variable r : valuation.
Variable n : nat.
Hypothesis Q : Forall (holds r) (sl_query c n).
Definition st (i : nat) : valuation := fun b => r (shiftv (Z.of_nat i) (cur b)).
Lemma st_args i l : args (st i) l = args r (map (shiftv (Z.of_nat i)) (map cur l)).
Proof. symmetry. rewrite (args_map r (shiftv (Z.of_nat i)) _ (shiftv_sort _)). rewrite (args_map _ cur _ cur_sort). reflexivity. Qed.
Lemma st_fact i : (@pair sym (list value) nv (args r (map (shiftv (Z.of_nat i)) (cur_vars c nv)))) = nfact (st i).
Proof. unfold ContractSem.nfact, contracted. rewrite (nv_cur g V ord nv nid), st_args. reflexivity. Qed.
Lemma st_loc i q : holds (st i) (Var (locv q)) <-> holds r (Var (shiftv (Z.of_nat i) (cur (locv q)))).
Proof. unfold holds, holdsb. cbn [eval]. rewrite (shiftv_sort (Z.of_nat i) (cur (locv q))). reflexivity. Qed.
Lemma q_in : exists e, In e (ledges g) /\ lfrom e = entry /\ In (lto e) V /\ at_loc V (st 0) (lto e) /\ lfollows g e (entry, []) (lto e, args (st 0) (args_of g (lto e))).
Proof.
  apply Forall_inv in Q. apply inputs_spec in Q as [e [He [Ee [Vq H]]]]. exists e. split; [exact He|]. split; [exact Ee|]. split; [exact Vq|].
  pose proof (label_follows c (in_edge g V nv e) r (-1) H) as X. cbn [lfrom lto in_edge] in X. change (-1 + 1)%Z with (Z.of_nat 0) in X. rewrite (st_fact 0) in X.
  apply (in_follows g W V NF ord Hord nv nid Fnv e (st 0) _ He Vq) in X as [X1 X2]. split; [exact X1|]. rewrite Ee in X2. unfold cur_vars in X2. 
  rewrite (rep_entry _ (lwf_rep c cw)) in X2. exact X2.
Qed.
Lemma q_loop i : i < n -> exists e, In e (ledges g) /\ In (lfrom e) V /\ In (lto e) V /\ at_loc V (st i) (lfrom e) /\ at_loc V (st (S i)) (lto e) /\
  lfollows g e (lfrom e, args (st i) (args_of g (lfrom e))) (lto e, args (st (S i)) (args_of g (lto e))).
Proof.
  intros Hi. unfold sl_query in Q. apply Forall_inv_tail, Forall_app in Q as [Q1 _]. rewrite transition_spec, Forall_forall in Q1.
  assert (H : holds r (shift (Z.of_nat i) (lfla L))) by (apply Q1, in_map_iff; exists i; split; [reflexivity|apply in_seq; lia]).
  pose proof (label_follows c L r (Z.of_nat i) H) as X. cbn [lfrom lto loop_edge] in X. replace (Z.of_nat i + 1)%Z with (Z.of_nat (S i)) in X by lia. rewrite (st_fact i), (st_fact (S i)) in X.
  apply (loop_follows g W V ord Hord nv nid) in X. exact X.
Qed.
Lemma q_out : exists e, In e (ledges g) /\ In (lfrom e) V /\ lto e = exit /\ holds (st n) (Var (locv (lfrom e))) /\ lfollows g e (lfrom e, args (st n) (args_of g (lfrom e))) (exit, []).
Proof.
  unfold sl_query in Q. apply Forall_inv_tail, Forall_app in Q as [_ Q1]. apply Forall_inv in Q1. apply outputs_spec in Q1 as [e [He [Vp [Ee H]]]]. exists e. split; [exact He|]. split; [exact Vp|]. split; [exact Ee|].
  pose proof (label_follows c (out_edge g nv e) r (Z.of_nat n) H) as X. cbn [lfrom lto out_edge] in X. rewrite (st_fact n), Ee in X. unfold cur_vars in X.
  rewrite (rep_exit _ (lwf_rep c cw)) in X. apply (out_follows g W V NF ord Hord nv nid Fnv e (st n) _ He Vp) in X. exact X.
Qed.
Lemma V_ne p : In p V -> p <> entry /\ p <> exit. Proof. intros H. apply in_V in H. tauto. Qed.
Lemma take_exit i e : In e (ledges g) -> lto e = exit -> can_be_taken g r n i (lid e) = Nat.eqb i (n + 1).
Proof. intros He E. unfold can_be_taken. rewrite (ltarget_in g e (lwf_ids g W) He), E, Nat.eqb_refl. reflexivity. Qed.
Lemma take_inner i e : In e (ledges g) -> lto e <> exit -> i <> n + 1 -> (can_be_taken g r n i (lid e) = true <-> holds (st i) (Var (locv (lto e)))).
Proof.
  intros He N Ni. unfold can_be_taken. rewrite (ltarget_in g e (lwf_ids g W) He), (proj2 (Nat.eqb_neq _ _) N), (proj2 (Nat.eqb_neq _ _) Ni). symmetry. apply st_loc.
Qed.
Lemma walk_end p : In p V -> at_loc V (st n) p -> exists es, sl_walk g r n (S n) p 1 = Some (map lid es) /\ lruns g es (p, args (st n) (args_of g p)) (exit, []).
Proof.
  intros Hp Ap. destruct q_out as [e [He [Vp [Ee [Hl Fo]]]]]. assert (lfrom e = p) by (apply (Ap _ Vp), Hl). subst p. exists [e]. split; [|econstructor; [exact He|exact Fo|constructor]].
  cbn [sl_walk]. rewrite (pick_edge g _ (lfrom e) e (lwf_ids g W) He eq_refl).
  - reflexivity.
  - rewrite (take_exit (S n) e He Ee). apply Nat.eqb_eq. lia.
  - intros e' He' Ef T. apply NP; auto. destruct (Nat.eq_dec (lto e') exit) as [E|N]; [congruence|]. exfalso. unfold can_be_taken in T. rewrite (ltarget_in g e' (lwf_ids g W) He'), (proj2 (Nat.eqb_neq _ _) N) in T.
    replace (Nat.eqb (S n) (n + 1)) with true in T by (symmetry; apply Nat.eqb_eq; lia). discriminate T.
Qed.
Lemma walk_loop k : forall i p, i + k = n -> In p V -> at_loc V (st i) p -> exists es, sl_walk g r n (S i) p (S k) = Some (map lid es) /\ lruns g es (p, args (st i) (args_of g p)) (exit, []).
Proof.
  induction k as [|k IH]; intros i p E Hp Ap.
  - assert (i = n) by lia. subst i. apply walk_end; assumption.
  - destruct (q_loop i) as [e [He [Vp [Vq [A1 [A2 Fo]]]]]]; [lia|]. assert (p = lfrom e) by (apply (at_unique V (st i)); assumption). subst p.
    destruct (IH (S i) (lto e)) as [es [Es R]]; [lia|exact Vq|exact A2|]. exists (e :: es). split; [|econstructor; [exact He|exact Fo|exact R]].
    change (sl_walk g r n (S i) (lfrom e) (S (S k))) with
      (match filter (can_be_taken g r n (S i)) (out_ids g (lfrom e)) with [id] => option_map (cons id) (sl_walk g r n (S (S i)) (ltarget g id) (S k)) | _ => None end).
    rewrite (pick_edge g _ (lfrom e) e (lwf_ids g W) He eq_refl).
    + rewrite (ltarget_in g e (lwf_ids g W) He), Es. reflexivity.
    + apply (take_inner (S i) e He); [apply V_ne, Vq|lia|]. apply (A2 _ Vq). reflexivity.
    + intros e' He' Ef T. apply NP; auto. destruct (Nat.eq_dec (lto e') exit) as [E'|N].
      * rewrite (take_exit (S i) e' He' E') in T. apply Nat.eqb_eq in T. lia.
      * apply (take_inner (S i) e' He' N) in T; [|lia]. destruct (V_to g W e' He') as [|V']; [contradiction|]. apply (A2 _ V'), T.
Qed.
Theorem walk_ok : exists es, sl_walk g r n 0 entry (n + 2) = Some (map lid es) /\ lruns g es (entry, []) (exit, []).
Proof.
  destruct q_in as [e [He [Ee [Vq [A Fo]]]]]. destruct (walk_loop n 0 (lto e) eq_refl Vq A) as [es [Es R]]. exists (e :: es). split; [|econstructor; [exact He|exact Fo|exact R]].
  replace (n + 2) with (S (S n)) by lia.
  change (sl_walk g r n 0 entry (S (S n))) with
    (match filter (can_be_taken g r n 0) (out_ids g entry) with [id] => option_map (cons id) (sl_walk g r n 1 (ltarget g id) (S n)) | _ => None end).
  rewrite (pick_edge g _ entry e (lwf_ids g W) He Ee).
  - rewrite (ltarget_in g e (lwf_ids g W) He), Es. reflexivity.
  - apply (take_inner 0 e He); [apply V_ne, Vq|lia|]. apply (A _ Vq). reflexivity.
  - intros e' He' Ef T. apply NP; auto; [congruence|]. destruct (Nat.eq_dec (lto e') exit) as [E'|N].
    + rewrite (take_exit 0 e' He' E') in T. apply Nat.eqb_eq in T. lia.
    + apply (take_inner 0 e' He' N) in T; [|lia]. destruct (V_to g W e' He') as [|V']; [contradiction|]. apply (A _ V'), T.
Qed.
End Walk.

Theorem sl_path_ok check e0 e1 e2 elim n : check_ok check -> elim_ok elim -> ts_shape F nv e0 e1 e2 -> error_path (the_ts F nv e0 e1 e2 elim) n ->
  match sl_path nv nid ord check g n with
  | PathDerivation d => lrefutation g d
  | NoPath => False
  | PathThrows => exists q, check q = UNKNOWN
  end.
Proof.
  intros Hc He Sh Ep. unfold sl_path. destruct (check (sl_query c n)) as [r| |] eqn:Eq; [| |eauto].
  - destruct (walk_ok r n (check_sat _ Hc _ _ Eq)) as [es [Es R]]. rewrite Es. destruct (lruns_connected _ _ _ _ R) as [Cn Inc]. cbn [fst] in Cn.
    pose proof (from_error_path_ok g W check es Hc Inc Cn) as X. destruct (from_error_path check g (map lid es)) as [| |d]; [exact X| |apply X].
    destruct X as [X|X]; [contradiction|eauto].
  - exfalso. destruct (query_sat e0 e1 e2 elim n He Sh Ep) as [r Hr]. apply (check_unsat _ Hc _ Eq r Hr).
Qed.
End SLP.
