(** * General linear-graph BMC: correctness. *)
From Verif Require Import Syntax Solver TransSys Names Graph GraphOps GraphOpsProofs GraphSem SimpleTransModel MergeModel MergeProofs LinearModel LinearProofs LinearPath LinearTS KindModel BmcImcModel BmcGraphModel.
Open Scope list_scope.
Open Scope nat_scope.

Lemma hash_split a a' b b' : all_chars num_char a = true -> all_chars num_char a' = true ->
  (a ++ "#" ++ b = a' ++ "#" ++ b')%string -> a = a' /\ b = b'.
Proof.
  revert a'. induction a as [|x a IH]; intros a' H H' E; destruct a' as [|y a']; cbn in *.
  - injection E as ->. auto.
  - injection E as <- _. discriminate H'.
  - injection E as -> _. discriminate H.
  - injection E as -> E. apply andb_prop in H as [_ H]. apply andb_prop in H' as [_ H']. destruct (IH a' H H' E) as [-> ->]. auto.
Qed.
Lemma reach_var_inj p k q j : reach_var p k = reach_var q j -> p = q /\ k = j.
Proof.
  unfold reach_var. intros E. injection E as E. 
  apply hash_split in E as [E1 E2]; [|apply to_string_chars|apply to_string_chars].
  apply to_string_inj in E1, E2. unfold sym in *. lia.
Qed.

Section Labels.
Variable g : lgraph.
Hypothesis W : lwf g.

Lemma labels_runs r es : forall i p q, connected p es q -> (forall e, In e es -> In e (ledges g)) -> Forall (holds r) (path_labels i es) ->
  lruns g es (p, args r (map (shiftv i) (cur_vars g p))) (q, args r (map (shiftv (i + Z.of_nat (length es))) (cur_vars g q))).
Proof.
  induction es as [|e es IH]; intros i p q C Hin HL.
  - cbn in C. subst q. cbn [length]. rewrite Z.add_0_r. constructor.
  - destruct C as [<- C]. cbn [path_labels] in HL. apply Forall_cons_iff in HL as [H1 H2].
    econstructor; [apply Hin; left; reflexivity|apply (label_follows g), H1|].
    cbn [length]. replace (i + Z.of_nat (S (length es)))%Z with (i + 1 + Z.of_nat (length es))%Z by lia.
    apply IH; [exact C|intros x Hx; apply Hin; right; exact Hx|exact H2].
Qed.
Lemma labels_runs_exit r es : connected entry es exit -> (forall e, In e es -> In e (ledges g)) -> Forall (holds r) (path_labels 0 es) ->
  lruns g es (entry, []) (exit, []).
Proof.
  intros C Hin HL. pose proof (labels_runs r es 0%Z entry exit C Hin HL) as H. unfold cur_vars in H.
  rewrite (rep_entry _ (lwf_rep g W)), (rep_exit _ (lwf_rep g W)) in H. exact H.
Qed.
Lemma path_labels_app a : forall i b, path_labels i (a ++ b) = path_labels i a ++ path_labels (i + Z.of_nat (length a)) b.
Proof.
  induction a as [|e a IH]; intros i b; cbn [app path_labels length]; [rewrite Z.add_0_r; reflexivity|].
  rewrite IH. cbn [app]. do 3 f_equal. lia.
Qed.
Lemma connected_snoc es : forall p q e, connected p es q -> lfrom e = q -> connected p (es ++ [e]) (lto e).
Proof. induction es as [|x es IH]; intros p q e C E; cbn in *; [subst; auto|]. destruct C as [C1 C2]. split; [exact C1|]. eapply IH; eauto. Qed.
Lemma lruns_derivable es f f' : lruns g es f f' -> lderivable g f -> lderivable g f'.
Proof. intros H. induction H as [|e es f f' f'' He F _ IH]; intros D; [exact D|]. apply IH. econstructor; eauto. Qed.
Lemma derivable_lruns f : lderivable g f -> exists es, lruns g es (entry, []) f.
Proof.
  intros H. induction H as [|e f f' He _ [es IH] F]; [exists []; constructor|].
  exists (es ++ [e]). apply lruns_app. exists f. split; [exact IH|]. econstructor; [exact He|exact F|constructor].
Qed.
Lemma in_edges_spec p e : In e (in_edges g p) <-> In e (ledges g) /\ lto e = p.
Proof.
  unfold in_edges. rewrite in_flat_map, in_ids_map. split.
  - intros [i [Hi He]]. destruct (lfind g i) as [x|] eqn:E; [|destruct He]. destruct He as [<-|[]].
    apply in_map_iff in Hi as [y [<- Hy]]. apply filter_In in Hy as [H1 H2]. apply Nat.eqb_eq in H2.
    rewrite (lfind_in g y (lwf_ids g W) H1) in E. injection E as <-. auto.
  - intros [H <-]. exists (lid e). split; [apply in_map, filter_In; split; [exact H|apply Nat.eqb_refl]|].
    rewrite (lfind_in g e (lwf_ids g W) H). left; reflexivity.
Qed.

(** ** The contents of the solver after k levels *)
Fixpoint frontier_at (k : nat) : list sym :=
  match k with O => [entry] | S n => next_frontier g (frontier_at n) n end.
Fixpoint asserts_at (k : nat) : list term :=
  match k with O => [reach entry 0] | S n => asserts_at n ++ level_asserts g (frontier_at n) n end.
Fixpoint known_at (k : nat) : list (sym * nat) :=
  match k with O => [(entry, 0)] | S n => known_at n ++ map (fun p => (p, S n)) (frontier_at (S n)) end.

Lemma next_spec k p : In p (frontier_at (S k)) <-> exists e, In e (ledges g) /\ lto e = p /\ In (lfrom e) (frontier_at k).
Proof.
  cbn [frontier_at]. unfold next_frontier. rewrite filter_In, lvertices_spec. unfold pred_transitions. split.
  - intros [_ H]. destruct (filter (fun e => smem (lfrom e) (frontier_at k)) (in_edges g p)) as [|e l] eqn:E; [discriminate H|].
    assert (X : In e (filter (fun e => smem (lfrom e) (frontier_at k)) (in_edges g p))) by (rewrite E; left; reflexivity).
    apply filter_In in X as [X1 X2]. apply in_edges_spec in X1 as [X0 X1]. apply smem_in in X2. eauto.
  - intros [e [H1 [H2 H3]]]. split; [subst p; right; right; exists e; auto|].
    assert (X : In e (filter (fun e => smem (lfrom e) (frontier_at k)) (in_edges g p))).
    { apply filter_In. split; [apply in_edges_spec; auto|apply smem_in, H3]. }
    destruct (filter (fun e => smem (lfrom e) (frontier_at k)) (in_edges g p)); [destruct X|reflexivity].
Qed.
Lemma known_spec n p j : In (p, j) (known_at n) <-> j <= n /\ In p (frontier_at j).
Proof.
  induction n as [|n IH]; cbn [known_at].
  - cbn. split.
    + intros [E|[]]. injection E as <- <-. split; [lia|left; reflexivity].
    + intros [L H]. assert (j = 0) by lia. subst j. cbn in H. destruct H as [<-|[]]. left; reflexivity.
  - rewrite in_app_iff, IH, in_map_iff. split.
    + intros [[L H]|[q [E H]]]; [split; [lia|exact H]|]. injection E as <- <-. split; [lia|exact H].
    + intros [L H]. destruct (Nat.eq_dec j (S n)) as [->|N]; [right; exists p; auto|left; split; [lia|exact H]].
Qed.

(** A node that is reached in a model is reached along an edge. *)
Lemma asserts_le r n m : n <= m -> Forall (holds r) (asserts_at m) -> Forall (holds r) (asserts_at n).
Proof.
  induction 1 as [|m L IH]; [auto|]. cbn [asserts_at]. rewrite Forall_app. intros [H _]. auto.
Qed.
Lemma reached_back r n p : Forall (holds r) (asserts_at (S n)) -> In p (frontier_at (S n)) -> holds r (reach p (S n)) ->
  exists e, In e (in_edges g p) /\ In (lfrom e) (frontier_at n) /\ holds r (reach (lfrom e) n) /\ holds r (shift (Z.of_nat n) (lfla e)).
Proof.
  intros H Hp Hr. cbn [asserts_at] in H. apply Forall_app in H as [_ H]. rewrite Forall_forall in H.
  specialize (H (mkImplies (reach p (S n)) (mkOr (pred_transitions g (frontier_at n) n p)))).
  assert (X : holds r (mkImplies (reach p (S n)) (mkOr (pred_transitions g (frontier_at n) n p)))).
  { apply H. unfold level_asserts. apply in_map_iff. exists p. split; [reflexivity|exact Hp]. }
  unfold mkImplies in X. apply holds_or2 in X as [X|X]; [apply holds_not in X; contradiction|].
  apply holds_or in X. apply Exists_exists in X as [t [Ht X]]. unfold pred_transitions in Ht. apply in_map_iff in Ht as [e [<- He]].
  apply filter_In in He as [He1 He2]. apply smem_in in He2. apply holds_and2 in X as [X1 X2]. exists e. auto.
Qed.
Lemma walk_ok r N n : Forall (holds r) (asserts_at N) -> n <= N -> forall p, In p (frontier_at n) -> holds r (reach p n) ->
  let es := rev (walk_back g r (known_at N) n p) in
  length es = n /\ connected entry es p /\ (forall e, In e es -> In e (ledges g)) /\ Forall (holds r) (path_labels 0 es).
Proof.
  intros HN. induction n as [|n IH]; intros L p Hp Hr; cbn [walk_back].
  - cbn in Hp. destruct Hp as [<-|[]]. cbn. split; [reflexivity|]. split; [reflexivity|]. split; [intros e []|constructor].
  - destruct (reached_back r n p (asserts_le r (S n) N L HN) Hp Hr) as [e0 [H1 [H2 [H3 H4]]]].
    match goal with |- context [find ?f ?l] => destruct (find f l) as [e|] eqn:E end.
    + apply find_some in E as [E1 E2]. apply andb_prop in E2 as [E2 E3]. apply andb_prop in E2 as [E2 E4].
      apply existsb_exists in E2 as [[q j] [K E2]]. apply andb_prop in E2 as [E5 E6]. apply Nat.eqb_eq in E5, E6. cbn in E5, E6. subst q j.
      apply known_spec in K as [_ K]. apply in_edges_spec in E1 as [E1 E1'].
      destruct (IH ltac:(lia) (lfrom e) K E4) as [I1 [I2 [I3 I4]]]. cbn [rev].
      split; [rewrite app_length, I1; cbn; lia|]. split; [rewrite <- E1'; eapply connected_snoc; [exact I2|reflexivity]|].
      split; [intros x Hx; apply in_app_or in Hx as [Hx|[<-|[]]]; auto|].
      rewrite path_labels_app, Forall_app, I1. split; [exact I4|]. cbn [path_labels]. constructor; [exact E3|constructor].
    + exfalso. apply (find_none _ _ E) in H1. rewrite H4, H3, !andb_true_r in H1.
      assert (Z : existsb (fun q => Nat.eqb (fst q) (lfrom e0) && Nat.eqb (snd q) n) (known_at N) = true).
      { apply existsb_exists. exists (lfrom e0, n). split; [apply known_spec; split; [lia|exact H2]|]. cbn. rewrite !Nat.eqb_refl. reflexivity. }
      rewrite Z in H1. discriminate.
Qed.

(** ** A run gives a model *)
Definition vertex_at (es : list ledge) (j : nat) : option sym := nth_error (entry :: map lto es) j.
Definition on_path (es : list ledge) (v : var) : bool :=
  existsb (fun jp => var_eqb v (reach_var (snd jp) (fst jp))) (combine (seq 0 (S (length es))) (entry :: map lto es)).
Lemma on_path_spec es p j : on_path es (reach_var p j) = true <-> vertex_at es j = Some p.
Proof.
  unfold on_path, vertex_at. rewrite existsb_exists.
  assert (L : S (length es) = length (entry :: map lto es)) by (cbn; rewrite map_length; reflexivity). rewrite L. split.
  - intros [[i q] [H E]]. cbn in E. destruct (var_eqb_spec (reach_var p j) (reach_var q i)) as [E'|]; [|discriminate].
    apply reach_var_inj in E' as [-> ->]. revert H. generalize (entry :: map lto es). intros l H.
    assert (G : forall l k, In (i, q) (combine (seq k (length l)) l) -> nth_error l (i - k) = Some q /\ k <= i).
    { clear. induction l as [|a l IH]; intros k H; [destruct H|]. cbn in H. destruct H as [H|H].
      - injection H as <- <-. rewrite Nat.sub_diag. split; [reflexivity|lia].
      - apply IH in H as [H L]. split; [|lia]. replace (i - k) with (S (i - S k)) by lia. exact H. }
    apply G in H as [H _]. rewrite Nat.sub_0_r in H. exact H.
  - intros H. exists (j, p). split; [|cbn; destruct (var_eqb_spec (reach_var p j) (reach_var p j)); congruence].
    revert H. generalize (entry :: map lto es). intros l H.
    assert (G : forall l k i, nth_error l i = Some p -> In (k + i, p) (combine (seq k (length l)) l)).
    { clear. induction l as [|a l IH]; intros k i H; [destruct i; discriminate|]. destruct i as [|i]; cbn in *.
      - injection H as ->. left. f_equal. lia.
      - right. replace (k + S i) with (S k + i) by lia. apply IH, H. }
    apply (G l 0 j H).
Qed.
Lemma connected_vertex es : forall p q, connected p es q -> forall j e, nth_error es j = Some e -> nth_error (p :: map lto es) j = Some (lfrom e).
Proof.
  induction es as [|x es IH]; intros p q C j e E; [destruct j; discriminate|]. destruct C as [C1 C2]. destruct j as [|j]; cbn in E |- *.
  - injection E as <-. subst. reflexivity.
  - apply (IH _ _ C2 j e E).
Qed.
Lemma path_frontier es q : connected entry es q -> (forall e, In e es -> In e (ledges g)) -> forall j p, vertex_at es j = Some p -> In p (frontier_at j).
Proof.
  intros C Hin. induction j as [|j IH]; intros p E.
  - cbn in E. injection E as <-. left. reflexivity.
  - unfold vertex_at in E. cbn [nth_error] in E. rewrite nth_error_map in E. destruct (nth_error es j) as [e|] eqn:Ee; [|discriminate].
    cbn in E. injection E as <-. apply next_spec. exists e. split; [apply Hin, (nth_error_In _ j), Ee|]. split; [reflexivity|].
    apply IH. apply (connected_vertex es entry q C j e Ee).
Qed.
Lemma run_model es q : lruns g es (entry, []) (q, []) -> exists r, Forall (holds r) (asserts_at (length es)) /\ holds r (reach q (length es)).
Proof.
  intros R. destruct (lruns_connected g es _ _ R) as [C Hin]. cbn [fst] in C.
  destruct (runs_labels g W es _ _ R (entry_ok g W) 0%Z) as [r0 [HL _]].
  set (r := fun v => match vtag v with TBase => VBool (on_path es v) | _ => r0 v end).
  exists r.
  assert (Hreach : forall p j, holds r (reach p j) <-> vertex_at es j = Some p).
  { intros p j. rewrite <- on_path_spec. unfold holds, holdsb, reach. cbn. destruct (on_path es (reach_var p j)); cbn; split; auto. }
  assert (Hlab : forall j e, nth_error es j = Some e -> holds r (shift (Z.of_nat j) (lfla e))).
  { intros j e E. assert (X : In (shift (Z.of_nat j) (lfla e)) (path_labels 0 es)) by (apply (nth_error_In _ j); rewrite nth_labels, E; reflexivity).
    rewrite Forall_forall in HL. refine (proj1 (holds_agree r0 r _ _) (HL _ X)). intros v Hv. unfold r.
    destruct (label_times g W 0 es v Hin) as [i [T _]]; [|rewrite T; reflexivity].
    unfold lvars. apply in_concat. exists (vars (shift (Z.of_nat j) (lfla e))). split; [apply in_map, X|exact Hv]. }
  split.
  - assert (G : forall k, k <= length es -> Forall (holds r) (asserts_at k)); [|apply G; lia].
    induction k as [|k IH]; intros L; cbn [asserts_at].
    + constructor; [|constructor]. apply Hreach. reflexivity.
    + apply Forall_app. split; [apply IH; lia|]. unfold level_asserts. apply Forall_forall. intros t Ht. apply in_map_iff in Ht as [p [<- Hp]].
      unfold mkImplies. apply holds_or2. destruct (holds_dec r (reach p (S k))) as [Y|N]; [|left; apply holds_not, N]. right.
      apply Hreach in Y. unfold vertex_at in Y. cbn [nth_error] in Y. rewrite nth_error_map in Y.
      destruct (nth_error es k) as [e|] eqn:E; [|discriminate]. cbn in Y. injection Y as <-.
      apply holds_or. apply Exists_exists. exists (mkAnd [shift (Z.of_nat k) (lfla e); reach (lfrom e) k]). 
      pose proof (connected_vertex es entry q C k e E) as V.
      split; [unfold pred_transitions; apply in_map_iff; exists e; split; [reflexivity|]; apply filter_In; split; [apply in_edges_spec; split; [apply Hin, (nth_error_In _ k), E|reflexivity]|apply smem_in, (path_frontier es q C Hin k), V]|].
      apply holds_and2. split; [apply Hlab, E|apply Hreach, V].
  - apply Hreach. unfold vertex_at. destruct (length es) as [|n] eqn:L; [destruct es; [cbn in *; congruence|discriminate]|].
    destruct (connected_last es _ _ C n L) as [e [E1 E2]]. cbn [nth_error]. rewrite nth_error_map, E1. cbn. congruence.
Qed.

(** ** The loop *)
Variable check : check_fn.
Hypothesis Hc : check_ok check.
Variable nw : bool.

Definition no_run (n : nat) : Prop := forall es, length es = n -> ~ lruns g es (entry, []) (exit, []).
(** What an answer found at level [n] means. *)
Record found (w : option path_witness) (n : nat) : Prop := {
  found_path : exists es, length es = n /\ lruns g es (entry, []) (exit, []);
  found_witness : match w with
    | None => nw = false
    | Some (PathDerivation d) => nw = true /\ lrefutation g d /\ length d = S n
    | Some NoPath => False
    | Some PathThrows => nw = true /\ exists q, check q = UNKNOWN
    end
}.
Lemma no_run_0 : no_run 0.
Proof. intros es L R. destruct es; [|discriminate]. inversion R. Qed.
Lemma bmcg_loop_spec fuel : forall k u res u', bmcg_loop check g nw fuel k (asserts_at k) (frontier_at k) (known_at k) u = (res, u') ->
  (u' = false -> u = false) /\
  match res with
  | GUnsafe w n => k < n /\ n <= k + fuel /\ found w n /\ (u' = false -> (forall i, i <= k -> no_run i) -> forall i, i < n -> no_run i)
  | GFuel => u' = false -> (forall i, i <= k -> no_run i) -> forall i, i <= k + fuel -> no_run i
  end.
Proof.
  induction fuel as [|fuel IH]; intros k u res u' E; cbn [bmcg_loop] in E.
  - injection E as <- <-. split; [auto|]. intros _ H i L. apply H. lia.
  - change (next_frontier g (frontier_at k) k) with (frontier_at (S k)) in E.
    change (asserts_at k ++ level_asserts g (frontier_at k) k) with (asserts_at (S k)) in E.
    change (known_at k ++ map (fun p => (p, S k)) (frontier_at (S k))) with (known_at (S k)) in E.
    assert (Step : forall (P : Prop), no_run (S k) -> ((forall i, i <= S k -> no_run i) -> P) -> (forall i, i <= k -> no_run i) -> P).
    { intros P X Y Z. apply Y. intros i L. destruct (Nat.eq_dec i (S k)) as [->|N]; [exact X|apply Z; lia]. }
    assert (Cont : forall u1, (u' = false -> u1 = false -> u = false) -> (u1 = false -> no_run (S k)) ->
       bmcg_loop check g nw fuel (S k) (asserts_at (S k)) (frontier_at (S k)) (known_at (S k)) u1 = (res, u') ->
       (u' = false -> u = false) /\ match res with
        | GUnsafe w n => k < n /\ n <= k + S fuel /\ found w n /\ (u' = false -> (forall i, i <= k -> no_run i) -> forall i, i < n -> no_run i)
        | GFuel => u' = false -> (forall i, i <= k -> no_run i) -> forall i, i <= k + S fuel -> no_run i end).
    { intros u1 Hu HX E'. apply IH in E' as [A B]. split; [intros X; apply Hu; auto|]. destruct res as [w n|].
      - destruct B as [B1 [B2 [B3 B4]]]. split; [lia|]. split; [lia|]. split; [exact B3|]. intros X. exact (Step _ (HX (A X)) (B4 X)).
      - intros X Y i L. apply (Step (forall i, i <= S k + fuel -> no_run i) (HX (A X)) (B X) Y). lia. }
    destruct (smem exit (frontier_at (S k))) eqn:Ex.
    + apply smem_in in Ex. destruct (check (asserts_at (S k) ++ [reach exit (S k)])) as [r| |] eqn:Ec.
      * injection E as <- <-. split; [auto|]. split; [lia|]. split; [lia|]. split.
        -- apply (check_sat _ Hc) in Ec. apply Forall_app in Ec as [E1 E2]. apply Forall_inv in E2.
           destruct (walk_ok r (S k) (S k) E1 (le_n _) exit Ex E2) as [K1 [K2 [K3 K4]]].
           set (es := rev (walk_back g r (known_at (S k)) (S k) exit)) in *.
           pose proof (labels_runs_exit r es K2 K3 K4) as R.
           split; [exists es; auto|]. destruct nw eqn:En; [|reflexivity]. unfold bmc_witness. rewrite E2.
           cbv zeta. assert (K5 : length (walk_back g r (known_at (S k)) (S k) exit) = S k) by (pose proof K1 as K6; unfold es in K6; rewrite rev_length in K6; exact K6). change (known_at k ++ map (fun p => (p, S k)) (next_frontier g (frontier_at k) k)) with (known_at (S k)). rewrite K5, Nat.eqb_refl. fold es.
           pose proof (from_error_path_ok g W check es Hc K3 K2) as F. destruct (from_error_path check g (map lid es)) as [| |d] eqn:Ef.
           ++ exact F.
           ++ split; [reflexivity|]. destruct F as [F|F]; [contradiction|eauto].
           ++ destruct F as [F1 F2]. split; [reflexivity|]. split; [exact F1|]. apply (f_equal (@length _)) in F2. cbn [length] in F2. rewrite !map_length, K1 in F2. exact F2.
        -- intros Hu Hp i L. apply Hp. lia.
      * cbn [is_unknown] in E. rewrite orb_false_r in E. apply (Cont u); auto. intros _ es L R. destruct (run_model es exit R) as [r [R1 R2]].
        rewrite L in R1, R2. apply (check_unsat _ Hc _ Ec r). apply Forall_app. split; [exact R1|]. constructor; [exact R2|constructor].
      * cbn [is_unknown] in E. rewrite orb_true_r in E. apply (Cont true); auto; discriminate.
    + apply (Cont u); auto. intros _ es L R. apply smem_nin in Ex. apply Ex.
      destruct (lruns_connected g es _ _ R) as [C Hin]. cbn [fst] in C. apply (path_frontier es exit C Hin).
      unfold vertex_at. cbn [nth_error]. rewrite nth_error_map. destruct (connected_last es _ _ C k L) as [e [E1 E2]]. rewrite E1. cbn. congruence.
Qed.
End Labels.
