(** * Predicate abstraction: the interpolation tree. *)
From Verif Require Import Syntax Solver Graph GraphOps GraphOpsProofs ValidatorModel Names GraphSem SimpleTransModel UnreachProofs ReverseProofs SimplifierProofs ListLemmas EntailModel PdkModel SpacerModel ArgModel ArgClean.
Open Scope list_scope.
Open Scope nat_scope.

(** ** Lists *)
Lemma combine_in_nth {A B} (l : list A) (m : list B) x y : In (x, y) (combine l m) <-> exists i, nth_error l i = Some x /\ nth_error m i = Some y.
Proof.
  revert m. induction l as [|a l IH]; intros [|b m]; cbn [combine].
  - split; [intros []|intros [i [H _]]; destruct i; discriminate].
  - split; [intros []|intros [i [H _]]; destruct i; discriminate].
  - split; [intros []|intros [i [_ H]]; destruct i; discriminate].
  - split.
    + intros [E|H]; [injection E as <- <-; exists 0; auto|]. apply IH in H as [i H]. exists (S i). exact H.
    + intros [[|i] [H1 H2]]; cbn in H1, H2; [left; congruence|]. right. apply IH. eauto.
Qed.
Lemma combine_l {A B} (l : list A) (m : list B) x x' y : NoDup m -> In (x, y) (combine l m) -> In (x', y) (combine l m) -> x = x'.
Proof.
  intros N H H'. apply combine_in_nth in H as [i [H1 H2]]. apply combine_in_nth in H' as [j [H3 H4]].
  assert (i = j) by (apply (proj1 (NoDup_nth_error m) N); [apply nth_error_Some; congruence|congruence]). congruence.
Qed.
Lemma combine_r {A B} (l : list A) (m : list B) x y y' : NoDup l -> In (x, y) (combine l m) -> In (x, y') (combine l m) -> y = y'.
Proof.
  intros N H H'. apply combine_in_nth in H as [i [H1 H2]]. apply combine_in_nth in H' as [j [H3 H4]].
  assert (i = j) by (apply (proj1 (NoDup_nth_error l) N); [apply nth_error_Some; congruence|congruence]). congruence.
Qed.
Lemma nth_combine_seq0 {A} (l : list A) i x : nth_error l i = Some x -> nth_error (combine (seq 0 (length l)) l) i = Some (i, x).
Proof.
  assert (G : forall k, nth_error l i = Some x -> nth_error (combine (seq k (length l)) l) i = Some (k + i, x)).
  { revert i. induction l as [|a l IH]; intros i k H; [destruct i; discriminate|]. destruct i as [|i]; cbn [length seq combine nth_error] in *.
    - injection H as ->. do 2 f_equal; lia.
    - rewrite (IH i (S k) H). do 2 f_equal; lia. }
  intros H. exact (G 0 H).
Qed.

Lemma filter_keep {A} (f : A -> bool) l : (forall x, In x l -> f x = true) -> filter f l = l.
Proof. induction l as [|x l IH]; intros H; cbn [filter]; [reflexivity|]. rewrite (H x (or_introl eq_refl)). f_equal. apply IH. intros y Hy. apply H. right. exact Hy. Qed.

(** ** Shape of the reachability graph *)
Section Tree.
Variable h : hgraph.
Hypothesis W : arg_wf h.

Record gshape (st : gst) : Prop := {
  gs_len : 0 < length (g_nodes st);
  gs_root : nsym st 0 = entry;
  gs_edge : forall j, 0 < j < length (g_nodes st) -> In (n_edge (nd st j)) (gedges h) /\ eto (n_edge (nd st j)) = nsym st j /\ nsym st j <> exit;
  gs_srcs : forall j s, 0 < j < length (g_nodes st) -> In s (n_srcs (nd st j)) -> s < j;
  gs_syms : forall j, 0 < j < length (g_nodes st) -> map (nsym st) (n_srcs (nd st j)) = efrom (n_edge (nd st j))
}.
Variable st : gst.
Hypothesis G : gshape st.
Lemma nsym_entry j : j < length (g_nodes st) -> nsym st j = entry -> j = 0.
Proof.
  intros L E. destruct j as [|j]; [reflexivity|]. exfalso. destruct (gs_edge st G (S j)) as [A [B _]]; [lia|]. apply (aw_entry h W _ A). congruence.
Qed.

(** A valid candidate edge. *)
Variable e0 : hedge.
Variable srcs0 : list nat.
Hypothesis He0 : In e0 (gedges h).
Hypothesis Ls0 : forall s, In s srcs0 -> s < length (g_nodes st).
Hypothesis Ss0 : map (nsym st) srcs0 = efrom e0.

Definition argof (T : list tnode) (i : nat) : nat := match nth_error T i with Some n => t_arg n | None => 0 end.
Definition tsrcs (T : list tnode) (i : nat) : list nat := if Nat.eqb i 0 then srcs0 else n_srcs (nd st (argof T i)).
Definition nz (l : list nat) : list nat := filter (fun a => negb (Nat.eqb a 0)) l.
Record tnodes (T : list tnode) : Prop := {
  tn_root : nth_error T 0 = Some (mkTN None e0 0);
  tn_node : forall i n, 0 < i -> nth_error T i = Some n -> exists p, t_parent n = Some p /\ p < i /\ 0 < t_arg n < length (g_nodes st) /\ t_edge n = n_edge (nd st (t_arg n))
}.
Lemma kids_spec T i j : In j (kids T i) <-> exists n, nth_error T j = Some n /\ t_parent n = Some i.
Proof.
  unfold kids. rewrite filter_In, in_seq. split.
  - intros [_ H]. destruct (nth_error T j) as [n|]; [|discriminate]. destruct (t_parent n) as [p|] eqn:E; [|discriminate]. apply Nat.eqb_eq in H. subst p. eauto.
  - intros [n [H E]]. split; [split; [lia|apply nth_error_Some; congruence]|]. rewrite H, E. apply Nat.eqb_refl.
Qed.
Lemma kids_app T n i : kids (T ++ [n]) i = kids T i ++ match t_parent n with Some p => if Nat.eqb p i then [length T] else [] | None => [] end.
Proof.
  unfold kids. rewrite app_length. cbn [length]. rewrite seq_app, filter_app. cbn [seq filter]. f_equal.
  - apply filter_ext_in. intros j Hj. apply in_seq in Hj. rewrite nth_error_app1 by lia. reflexivity.
  - rewrite nth_error_app2, Nat.sub_diag by lia. cbn [nth_error]. cbn [Nat.add]. destruct (t_parent n) as [p|]; [|reflexivity]. destruct (Nat.eqb p i); reflexivity.
Qed.
Lemma kids_nodup T i : NoDup (kids T i).
Proof. apply NoDup_filter, seq_NoDup. Qed.
Lemma argof_app T n j : j < length T -> argof (T ++ [n]) j = argof T j.
Proof. intros L. unfold argof. rewrite nth_error_app1 by exact L. reflexivity. Qed.
Lemma tsrcs_app T n j : j < length T -> tsrcs (T ++ [n]) j = tsrcs T j.
Proof. intros L. unfold tsrcs. rewrite argof_app by exact L. reflexivity. Qed.
Lemma kids_lt T i j : In j (kids T i) -> j < length T.
Proof. intros H. apply kids_spec in H as [n [H _]]. apply nth_error_Some. congruence. Qed.

Definition waiting (i : nat) (stack : list (nat * nat)) : list nat := map fst (filter (fun x => Nat.eqb (snd x) i) stack).
Lemma make_loop_ok fuel : forall T stack T', tnodes T ->
  (forall a p, In (a, p) stack -> a < length (g_nodes st) /\ p < length T) ->
  (forall i, i < length T -> map (argof T) (kids T i) ++ nz (waiting i stack) = nz (tsrcs T i)) ->
  make_loop fuel st T stack = Some T' ->
  tnodes T' /\ forall i, i < length T' -> map (argof T') (kids T' i) = nz (tsrcs T' i).
Proof.
  induction fuel as [|f IH]; intros T stack T' Tn Sk Kd; [discriminate|]. cbn [make_loop]. destruct stack as [|[a p] s'].
  - intros E. injection E as <-. split; [exact Tn|]. intros i L. specialize (Kd i L). cbn in Kd. rewrite app_nil_r in Kd. exact Kd.
  - destruct (Sk a p (or_introl eq_refl)) as [La Lp]. destruct (Nat.eqb_spec a 0) as [E0|N0].
    + apply IH; [exact Tn|intros a' p' H; apply Sk; right; exact H|]. intros i L. rewrite <- (Kd i L). f_equal. unfold waiting. cbn [filter snd].
      destruct (Nat.eqb p i); [|reflexivity]. cbn [map fst]. unfold nz. cbn [filter]. rewrite E0. reflexivity.
    + set (n := mkTN (Some p) (n_edge (nd st a)) a). intros E. refine (IH _ _ _ _ _ _ E).
      * split; [rewrite nth_error_app1; [apply (tn_root T Tn)|apply nth_error_Some; rewrite (tn_root T Tn); discriminate]|].
        intros i m Li Hm. destruct (Nat.lt_ge_cases i (length T)) as [L|L].
        -- rewrite nth_error_app1 in Hm by exact L. apply (tn_node T Tn i m Li Hm).
        -- rewrite nth_error_app2 in Hm by exact L. destruct (i - length T) as [|k] eqn:D; [|destruct k; discriminate]. cbn in Hm. injection Hm as <-.
           exists p. cbn. split; [reflexivity|]. split; [lia|]. split; [lia|reflexivity].
      * intros a' p' H. rewrite app_length. cbn [length]. apply in_app_iff in H as [H|H].
        -- apply in_map_iff in H as [s [X Hs]]. injection X as <- <-. split; [|lia]. pose proof (gs_srcs st G a s) as Y. assert (s < a) by (apply Y; [lia|exact Hs]). lia.
        -- destruct (Sk a' p') as [A B]; [right; exact H|]. lia.
      * intros i L. rewrite app_length in L. cbn [length] in L. rewrite kids_app. cbn [t_parent n].
        assert (Wa : waiting i (map (fun x => (x, length T)) (n_srcs (nd st a)) ++ s') = (if Nat.eqb (length T) i then n_srcs (nd st a) else []) ++ waiting i s').
        { unfold waiting. rewrite filter_app, map_app. f_equal. clear. induction (n_srcs (nd st a)) as [|x l IHl]; cbn [map filter snd]; [destruct (Nat.eqb _ i); reflexivity|].
          destruct (Nat.eqb (length T) i) eqn:E; cbn [map fst]; [f_equal; exact IHl|exact IHl]. }
        rewrite Wa. destruct (Nat.lt_ge_cases i (length T)) as [L'|L'].
        -- assert (X : Nat.eqb (length T) i = false) by (apply Nat.eqb_neq; lia). rewrite X. cbn [app]. rewrite tsrcs_app by exact L'. rewrite <- (Kd i L').
           rewrite map_app. assert (Y : map (argof (T ++ [n])) (kids T i) = map (argof T) (kids T i)) by (apply map_ext_in; intros j Hj; apply argof_app, (kids_lt T i j Hj)).
           rewrite Y, <- app_assoc. f_equal. unfold waiting at 2. cbn [filter snd]. destruct (Nat.eqb p i).
           ++ cbn [map fst]. unfold nz at 2. cbn [filter]. assert (Z : Nat.eqb a 0 = false) by (apply Nat.eqb_neq; exact N0). rewrite Z. cbn [negb]. change (?x :: ?y) with ([x] ++ y).
              unfold argof. rewrite nth_error_app2, Nat.sub_diag by lia. reflexivity.
           ++ reflexivity.
        -- assert (i = length T) by lia. subst i. rewrite Nat.eqb_refl. assert (K0 : kids T (length T) = []).
           { destruct (kids T (length T)) as [|j l] eqn:K; [reflexivity|]. exfalso. assert (Hj : In j (kids T (length T))) by (rewrite K; left; reflexivity).
             apply kids_spec in Hj as [m [Hm Pm]]. destruct j as [|j]; [rewrite (tn_root T Tn) in Hm; injection Hm as <-; discriminate Pm|].
             destruct (tn_node T Tn (S j) m) as [q [Pq [Lq _]]]; [lia|exact Hm|]. assert (q = length T) by congruence. assert (S j < length T) by (apply nth_error_Some; congruence). lia. }
           rewrite K0. assert (X : Nat.eqb p (length T) = false) by (apply Nat.eqb_neq; lia). rewrite X. cbn [app map].
           assert (Y : waiting (length T) s' = []).
           { unfold waiting. assert (Z : filter (fun x => Nat.eqb (snd x) (length T)) s' = []); [|rewrite Z; reflexivity].
             assert (Q : forall l, (forall a p, In (a, p) l -> p < length T) -> filter (fun x : nat * nat => Nat.eqb (snd x) (length T)) l = []).
             { induction l as [|[a' p'] l IHl]; intros H; [reflexivity|]. cbn [filter snd]. pose proof (H a' p' (or_introl eq_refl)). assert (R : Nat.eqb p' (length T) = false) by (apply Nat.eqb_neq; lia).
               rewrite R. apply IHl. intros a'' p'' H'. apply (H a'' p''). right. exact H'. }
             apply Q. intros a' p' H'. apply (Sk a' p'). right. exact H'. }
           rewrite Y, app_nil_r. unfold tsrcs, argof. rewrite nth_error_app2, Nat.sub_diag by lia. cbn [nth_error t_arg n].
           assert (Z : Nat.eqb (length T) 0 = false); [|rewrite Z; reflexivity]. apply Nat.eqb_neq. intros Z. apply length_zero_iff_nil in Z. pose proof (tn_root T Tn) as R. rewrite Z in R. discriminate R.
Qed.
Lemma make_tree_ok fuel T : make_tree fuel st e0 srcs0 = Some T -> tnodes T /\ forall i, i < length T -> map (argof T) (kids T i) = nz (tsrcs T i).
Proof.
  apply make_loop_ok.
  - split; [reflexivity|]. intros i n L H. destruct i as [|i]; [lia|]. destruct i; discriminate.
  - intros a p H. apply in_map_iff in H as [s [E Hs]]. injection E as <- <-. split; [apply Ls0, Hs|cbn; lia].
  - intros i L. cbn in L. assert (i = 0) by lia. subst i. unfold tsrcs. cbn [Nat.eqb]. change (kids [mkTN None e0 0] 0) with (@nil nat). cbn [map app]. f_equal.
    unfold waiting. clear. induction srcs0 as [|x l IH]; cbn; [reflexivity|]. f_equal. exact IH.
Qed.

(** ** A finished tree *)
Section Done.
Variable T : list tnode.
Hypothesis Tn : tnodes T.
Hypothesis Kd : forall i, i < length T -> map (argof T) (kids T i) = nz (tsrcs T i).

Lemma node_edge i n : nth_error T i = Some n -> In (t_edge n) (gedges h) /\ (forall s, In s (tsrcs T i) -> s < length (g_nodes st)) /\ map (nsym st) (tsrcs T i) = efrom (t_edge n).
Proof.
  intros Hi. destruct i as [|i].
  - rewrite (tn_root T Tn) in Hi. injection Hi as <-. cbn. auto.
  - destruct (tn_node T Tn (S i) n) as [p [_ [_ [La Le]]]]; [lia|exact Hi|]. unfold tsrcs. cbn [Nat.eqb]. unfold argof. rewrite Hi, Le.
    split; [apply (gs_edge st G); lia|]. split; [|apply (gs_syms st G); lia]. intros s Hs. pose proof (gs_srcs st G (t_arg n) s La Hs). lia.
Qed.
Lemma kid_gt i j : In j (kids T i) -> i < j.
Proof.
  intros H. apply kids_spec in H as [n [H P]]. destruct j as [|j]; [rewrite (tn_root T Tn) in H; injection H as <-; discriminate P|].
  destruct (tn_node T Tn (S j) n) as [p [Pp [L _]]]; [lia|exact H|]. assert (p = i) by congruence. lia.
Qed.
Lemma kid_sym i j : In j (kids T i) -> t_sym T j = nsym st (argof T j).
Proof.
  intros H. pose proof (kid_gt i j H) as L. apply kids_spec in H as [n [H P]]. destruct (tn_node T Tn j n) as [p [_ [_ [La Le]]]]; [lia|exact H|].
  unfold t_sym, argof. rewrite H, Le. apply (gs_edge st G). lia.
Qed.
(** The children of a node are made for its sources; [true] needs no child. *)
Lemma kids_align i n : nth_error T i = Some n ->
  (efrom (t_edge n) = [entry] /\ kids T i = []) \/
  (map (argof T) (kids T i) = tsrcs T i /\ map (t_sym T) (kids T i) = efrom (t_edge n)).
Proof.
  intros Hi. destruct (node_edge i n Hi) as [He [Ls Ss]]. assert (L : i < length T) by (apply nth_error_Some; congruence). pose proof (Kd i L) as K.
  destruct (in_dec Nat.eq_dec entry (efrom (t_edge n))) as [I|N].
  - left. pose proof (aw_alone h W _ He I) as E. split; [exact E|]. rewrite E in Ss. destruct (tsrcs T i) as [|s [|s' l]]; try discriminate. cbn in Ss. injection Ss as Ss.
    apply nsym_entry in Ss; [|apply Ls; left; reflexivity]. subst s. cbn in K. apply map_eq_nil in K. exact K.
  - right. assert (Z : nz (tsrcs T i) = tsrcs T i).
    { unfold nz. apply filter_keep. intros s Hs. apply negb_true_iff, Nat.eqb_neq. intros ->. apply N. rewrite <- Ss. apply in_map_iff. exists 0. split; [apply (gs_root st G)|exact Hs]. }
    rewrite Z in K. split; [exact K|]. rewrite <- Ss, <- K, map_map. apply map_ext_in. intros j Hj. apply (kid_sym i j Hj).
Qed.
Lemma kid_inst i n j : nth_error T i = Some n -> In j (kids T i) -> exists k, In (j, (t_sym T j, k)) (combine (kids T i) (instances (efrom (t_edge n)))).
Proof.
  intros Hi Hj. destruct (kids_align i n Hi) as [[_ E]|[_ E]]; [rewrite E in Hj; destruct Hj|]. apply In_nth_error in Hj as [x Hx].
  assert (X : nth_error (map fst (instances (efrom (t_edge n)))) x = Some (t_sym T j)) by (rewrite instances_fst, <- E, nth_error_map, Hx; reflexivity).
  rewrite nth_error_map in X. destruct (nth_error (instances _) x) as [[p k]|] eqn:Y; [|discriminate]. cbn in X. injection X as ->.
  exists k. apply combine_in_nth. eauto.
Qed.
Lemma inst_kid i n p k : nth_error T i = Some n -> In (p, k) (instances (efrom (t_edge n))) -> p = entry \/ exists j, In (j, (p, k)) (combine (kids T i) (instances (efrom (t_edge n)))) /\ t_sym T j = p.
Proof.
  intros Hi Hp. destruct (kids_align i n Hi) as [[E _]|[_ E]]; [rewrite E in Hp; destruct Hp as [X|[]]; injection X as <- <-; left; reflexivity|]. right.
  apply In_nth_error in Hp as [x Hx]. assert (X : nth_error (map (t_sym T) (kids T i)) x = Some p) by (rewrite E, <- (instances_fst (efrom (t_edge n))), nth_error_map, Hx; reflexivity).
  rewrite nth_error_map in X. destruct (nth_error (kids T i) x) as [j|] eqn:Y; [|discriminate]. cbn in X. injection X as X. exists j. split; [apply combine_in_nth; eauto|exact X].
Qed.
Lemma combine_kid i n j p k : nth_error T i = Some n -> In (j, (p, k)) (combine (kids T i) (instances (efrom (t_edge n)))) ->
  In j (kids T i) /\ t_sym T j = p /\ In (p, k) (instances (efrom (t_edge n))).
Proof.
  intros Hi H. apply combine_in_nth in H as [x [H1 H2]]. split; [apply (nth_error_In _ x H1)|]. split; [|apply (nth_error_In _ x H2)].
  destruct (kids_align i n Hi) as [[_ E]|[_ E]]; [rewrite E in H1; destruct x; discriminate|].
  assert (X : nth_error (map (t_sym T) (kids T i)) x = nth_error (map fst (instances (efrom (t_edge n)))) x) by (rewrite E, instances_fst; reflexivity).
  rewrite !nth_error_map, H1, H2 in X. cbn in X. congruence.
Qed.
Lemma parent_kid j n : 0 < j -> nth_error T j = Some n -> exists p, t_parent n = Some p /\ p < j /\ In j (kids T p).
Proof.
  intros L Hj. destruct (tn_node T Tn j n L Hj) as [p [P [Lp _]]]. exists p. split; [exact P|]. split; [exact Lp|]. apply kids_spec. eauto.
Qed.

(** ** Versions *)
Definition vinv (acc : (sym -> nat) * (nat -> option nat)) : Prop :=
  (forall i k, snd acc i = Some k -> k < fst acc (t_sym T i)) /\
  (forall i j k, snd acc i = Some k -> snd acc j = Some k -> t_sym T i = t_sym T j -> i = j).
Lemma assign_ok acc k : vinv acc -> vinv (assign T acc k) /\ (forall i, snd acc i <> None -> snd (assign T acc k) i <> None) /\ snd (assign T acc k) k <> None /\
  (forall i, snd (assign T acc k) i <> None -> snd acc i <> None \/ i = k).
Proof.
  destruct acc as [cnt ver]. intros [A B]. cbn in A, B. unfold assign. cbn [fst snd]. split; [split; cbn [fst snd]|split; [|split]].
  - intros i x. destruct (Nat.eqb_spec i k) as [->|N].
    + intros E. injection E as <-. rewrite Nat.eqb_refl. lia.
    + intros E. apply A in E. destruct (Nat.eqb_spec (t_sym T i) (t_sym T k)) as [E'|_]; [rewrite E' in E; lia|exact E].
  - intros i j x. destruct (Nat.eqb_spec i k) as [->|Ni], (Nat.eqb_spec j k) as [->|Nj].
    + reflexivity.
    + intros E1 E2 E3. apply A in E2. rewrite <- E3 in E2. assert (cnt (t_sym T k) = x) by congruence. lia.
    + intros E1 E2 E3. apply A in E1. rewrite E3 in E1. assert (cnt (t_sym T k) = x) by congruence. lia.
    + apply B.
  - intros i H. destruct (Nat.eqb_spec i k); [discriminate|exact H].
  - rewrite Nat.eqb_refl. discriminate.
  - intros i H. destruct (Nat.eqb_spec i k); auto.
Qed.
Lemma assigns_ok ks : forall acc, vinv acc -> let acc' := fold_left (assign T) ks acc in
  vinv acc' /\ (forall i, snd acc i <> None -> snd acc' i <> None) /\ (forall k, In k ks -> snd acc' k <> None) /\ (forall i, snd acc' i <> None -> snd acc i <> None \/ In i ks).
Proof.
  induction ks as [|k ks IH]; intros acc V; cbn [fold_left]; [repeat split; auto; try apply V; intros ? []|].
  destruct (assign_ok acc k V) as [V1 [M1 [S1 R1]]]. destruct (IH _ V1) as [V2 [M2 [S2 R2]]]. split; [exact V2|]. split; [auto|]. split.
  - intros x [<-|Hx]; [apply M2, S1|apply S2, Hx].
  - intros i H. apply R2 in H as [H|H]; [|right; right; exact H]. apply R1 in H as [H|H]; [left; exact H|right; left; congruence].
Qed.
Lemma ver_loop_ok fuel : forall stack acc ver, vinv acc ->
  (forall i, i < length T -> (i = 0 \/ snd acc i <> None) -> In i stack \/ forall k, In k (kids T i) -> snd acc k <> None) ->
  ver_loop fuel T stack acc = Some ver ->
  (forall i j k, ver i = Some k -> ver j = Some k -> t_sym T i = t_sym T j -> i = j) /\
  (forall i, i < length T -> (i = 0 \/ ver i <> None) -> forall k, In k (kids T i) -> ver k <> None).
Proof.
  induction fuel as [|f IH]; intros stack acc ver V C; [discriminate|]. cbn [ver_loop]. destruct stack as [|i s'].
  - intros E. injection E as <-. split; [apply V|]. intros i L H. destruct (C i L H) as [[]|X]; exact X.
  - destruct (assigns_ok (kids T i) acc V) as [V2 [M2 [S2 R2]]]. intros E. refine (IH _ _ _ V2 _ E). intros j L H.
    destruct (Nat.eq_dec j i) as [->|N]; [right; exact S2|].
    assert (X : (j = 0 \/ snd acc j <> None) \/ In j (kids T i)) by (destruct H as [H|H]; [auto|apply R2 in H as [H|H]; auto]).
    destruct X as [X|X]; [|left; apply in_app_iff; left; rewrite <- in_rev; exact X].
    destruct (C j L X) as [[Y|Y]|Y]; [congruence|left; apply in_app_iff; auto|right; intros k Hk; apply M2, Y, Hk].
Qed.
Lemma versions_ok fuel ver : versions fuel T = Some ver ->
  (forall i j k, ver i = Some k -> ver j = Some k -> t_sym T i = t_sym T j -> i = j) /\ (forall i, 0 < i < length T -> ver i <> None).
Proof.
  intros E. destruct (ver_loop_ok fuel [0] (fun _ => 0, fun _ => None) ver) as [A B]; [split; cbn; discriminate| |exact E|].
  - intros i L [->|H]; [left; left; reflexivity|cbn in H; congruence].
  - split; [exact A|]. intros i. induction i as [i IH] using lt_wf_ind. intros L. destruct (nth_error T i) as [n|] eqn:Hn; [|apply nth_error_None in Hn; lia].
    destruct (parent_kid i n) as [p [_ [Lp Kp]]]; [lia|exact Hn|]. apply (B p); [lia| |exact Kp]. destruct (Nat.eq_dec p 0) as [Ep|Np]; [left; exact Ep|right; apply IH; lia].
Qed.

Variable ver : nat -> option nat.
Hypothesis Vi : forall i j k, ver i = Some k -> ver j = Some k -> t_sym T i = t_sym T j -> i = j.
Hypothesis Vt : forall i, 0 < i < length T -> ver i <> None.
Lemma ver_inj i j : 0 < i < length T -> 0 < j < length T -> t_sym T i = t_sym T j -> ver_of ver i = ver_of ver j -> i = j.
Proof.
  intros Li Lj S E. pose proof (Vt i Li) as A. pose proof (Vt j Lj) as B. unfold ver_of in E. destruct (ver i) as [a|] eqn:Ea; [|congruence]. destruct (ver j) as [b|] eqn:Eb; [|congruence].
  subst b. apply (Vi i j a Ea Eb S).
Qed.

(** ** Labels *)
Lemma assoc_in v l w : assoc v l = Some w -> In (v, w) l.
Proof. induction l as [|[a b] l IH]; cbn [assoc]; [discriminate|]. destruct (var_eqb_spec v a) as [->|N]; [intros E; injection E as <-; left; reflexivity|right; auto]. Qed.
Lemma in_assoc v l w : In (v, w) l -> exists w', assoc v l = Some w'.
Proof.
  induction l as [|[a b] l IH]; intros H; [destruct H|]. cbn [assoc]. destruct (var_eqb_spec v a) as [->|N]; [eauto|]. destruct H as [E|H]; [congruence|auto].
Qed.
Lemma sub_in i e a w : In (a, w) (label_sub h ver T i e) <->
  (exists b, In b (gpv h (eto e)) /\ a = tgt b /\ w = at_ver (ver_of ver i) b) \/
  (exists j p k b, In (j, (p, k)) (combine (kids T i) (instances (efrom e))) /\ In b (gpv h p) /\ a = src k b /\ w = at_ver (ver_of ver j) b).
Proof.
  unfold label_sub. rewrite in_app_iff, in_map_iff, in_flat_map. split.
  - intros [[b [E H]]|[[j [p k]] [H1 H2]]]; [injection E as <- <-; left; eauto|]. right. apply in_map_iff in H2 as [b [E H]]. cbn [fst snd] in *. injection E as <- <-. exists j, p, k, b. auto.
  - intros [[b [H [-> ->]]]|[j [p [k [b [H1 [H2 [-> ->]]]]]]]]; [left; eauto|right]. exists (j, (p, k)). split; [exact H1|]. apply in_map_iff. exists b. auto.
Qed.
Lemma base_inj p q a b : In a (gpv h p) -> In b (gpv h q) -> vbase a = vbase b -> vsort a = vsort b -> a = b.
Proof.
  intros Ha Hb E1 E2. pose proof (rep_base _ (aw_rep h W) p a Ha). pose proof (rep_base _ (aw_rep h W) q b Hb). destruct a, b; cbn in *. congruence.
Qed.
Lemma ren_tgt i n b : nth_error T i = Some n -> In b (gpv h (eto (t_edge n))) -> label_ren h ver T i (t_edge n) (tgt b) = at_ver (ver_of ver i) b.
Proof.
  intros Hi Hb. unfold label_ren. destruct (in_assoc (tgt b) (label_sub h ver T i (t_edge n)) (at_ver (ver_of ver i) b)) as [w E]; [apply sub_in; left; eauto|]. rewrite E.
  apply assoc_in, sub_in in E as [[b' [Hb' [E ->]]]|[j [p [k [b' [_ [_ [E _]]]]]]]]; [|discriminate E].
  unfold tgt in E. injection E as E1 E2. rewrite (base_inj _ _ b' b Hb' Hb); auto.
Qed.
Lemma ren_src i n j p k b : nth_error T i = Some n -> In (j, (p, k)) (combine (kids T i) (instances (efrom (t_edge n)))) -> In b (gpv h p) ->
  label_ren h ver T i (t_edge n) (src k b) = at_ver (ver_of ver j) b.
Proof.
  intros Hi Hj Hb. unfold label_ren. destruct (in_assoc (src k b) (label_sub h ver T i (t_edge n)) (at_ver (ver_of ver j) b)) as [w E]; [apply sub_in; right; exists j, p, k, b; auto|]. rewrite E.
  apply assoc_in, sub_in in E as [[b' [_ [E _]]]|[j' [p' [k' [b' [Hj' [Hb' [E ->]]]]]]]]; [discriminate E|].
  unfold src in E. injection E as E1 E2 E3. assert (b' = b) by (apply (base_inj p' p); auto). subst b' k'. assert (p' = p) by (apply (rep_disj _ (aw_rep h W) p' p b); auto). subst p'.
  rewrite (combine_l _ _ j j' (p, k) (instances_nodup _) Hj Hj'). reflexivity.
Qed.
Lemma ren_aux i n v : vtag v = TBase -> label_ren h ver T i (t_edge n) v = at_ver i v.
Proof.
  intros Tg. unfold label_ren. destruct (assoc v _) as [w|] eqn:E; [|reflexivity].
  apply assoc_in, sub_in in E as [[b' [_ [E _]]]|[j' [p' [k' [b' [_ [_ [E _]]]]]]]]; rewrite E in Tg; discriminate Tg.
Qed.
Lemma label_ren_sort i n : sort_preserving (label_ren h ver T i (t_edge n)).
Proof.
  intros v. unfold label_ren. destruct (assoc v _) as [w|] eqn:E; [|reflexivity].
  apply assoc_in, sub_in in E as [[b' [_ [-> ->]]]|[j' [p' [k' [b' [_ [_ [-> ->]]]]]]]]; reflexivity.
Qed.
(** The variables of a label before renaming. *)
Lemma fla_vars i n v : nth_error T i = Some n -> In v (own_vars h (t_edge n)) \/ In v (vars (efla (t_edge n))) ->
  (exists b, In b (gpv h (eto (t_edge n))) /\ v = tgt b) \/
  (exists j p k b, In (j, (p, k)) (combine (kids T i) (instances (efrom (t_edge n)))) /\ In b (gpv h p) /\ v = src k b) \/
  (vtag v = TBase /\ paux_name v).
Proof.
  intros Hi H. assert (X : In v (own_vars h (t_edge n)) \/ (vtag v = TBase /\ paux_name v)).
  { destruct H as [H|H]; [auto|]. apply (aw_vars h W (t_edge n) v (proj1 (node_edge i n Hi)) H). }
  destruct X as [X|X]; [|right; right; exact X]. unfold own_vars in X. apply in_app_iff in X as [X|X].
  - right. left. apply in_concat in X as [l [Hl X]]. apply in_map_iff in Hl as [[p k] [<- Hp]]. unfold src_vars in X. apply in_map_iff in X as [b [<- Hb]]. cbn [fst snd] in *.
    destruct (inst_kid i n p k Hi Hp) as [->|[j [Hj _]]]; [rewrite (rep_entry _ (aw_rep h W)) in Hb; destruct Hb|]. exists j, p, k, b. auto.
  - left. unfold tgt_vars in X. apply in_map_iff in X as [b [<- Hb]]. eauto.
Qed.
Lemma not_root_tgt i n b : nth_error T i = Some n -> In b (gpv h (eto (t_edge n))) -> eto e0 = exit -> 0 < i < length T.
Proof.
  intros Hi Hb Ex. split; [|apply nth_error_Some; congruence]. destruct i as [|i]; [|lia]. rewrite (tn_root T Tn) in Hi. injection Hi as <-. cbn in Hb. rewrite Ex, (rep_exit _ (aw_rep h W)) in Hb. destruct Hb.
Qed.
Hypothesis Ex : eto e0 = exit.
Lemma tsym_node i n : nth_error T i = Some n -> t_sym T i = eto (t_edge n).
Proof. intros H. unfold t_sym. rewrite H. reflexivity. Qed.
Lemma kid_pos i j : In j (kids T i) -> 0 < j < length T.
Proof. intros H. pose proof (kid_gt i j H). pose proof (kids_lt T i j H). lia. Qed.
(** Equal versions of arguments belong to the same node. *)
Lemma same_inst i j a b : 0 < i < length T -> 0 < j < length T -> In a (gpv h (t_sym T i)) -> In b (gpv h (t_sym T j)) ->
  at_ver (ver_of ver i) a = at_ver (ver_of ver j) b -> i = j /\ a = b.
Proof.
  intros Li Lj Ha Hb E. unfold at_ver in E. injection E as E1 E2 E3. assert (a = b) by (apply (base_inj _ _ a b Ha Hb); auto). subst b. split; [|reflexivity].
  apply ver_inj; auto; [apply (rep_disj _ (aw_rep h W) _ _ a Ha Hb)|lia].
Qed.
Lemma paux_state i j a p v : In a (gpv h p) -> paux_name v -> at_ver i a = at_ver j v -> False.
Proof. intros Ha [k E] X. unfold at_ver in X. injection X as E1 E2 E3. apply (aw_paux h W p a Ha). exists k. congruence. Qed.

Lemma label_ren_inj i n a b : nth_error T i = Some n ->
  In a (own_vars h (t_edge n) ++ vars (efla (t_edge n))) -> In b (own_vars h (t_edge n) ++ vars (efla (t_edge n))) ->
  label_ren h ver T i (t_edge n) a = label_ren h ver T i (t_edge n) b -> a = b.
Proof.
  intros Hi Ha Hb. rewrite in_app_iff in Ha, Hb. pose proof (tsym_node i n Hi) as Sy.
  apply (fla_vars i n a Hi) in Ha as [[x [Hx ->]]|[[j [p [k [x [Hj [Hx ->]]]]]]|[Ta Pa]]];
  apply (fla_vars i n b Hi) in Hb as [[y [Hy ->]]|[[j' [p' [k' [y [Hj' [Hy ->]]]]]]|[Tb Pb]]].
  - rewrite !(ren_tgt i n) by assumption. intros E. unfold at_ver in E. injection E as E1 E2. rewrite (base_inj _ _ x y Hx Hy); auto.
  - rewrite (ren_tgt i n), (ren_src i n j' p' k') by assumption. intros E. exfalso. destruct (combine_kid i n j' p' k' Hi Hj') as [K [S _]]. subst p'.
    destruct (same_inst i j' x y) as [X _]; auto; [apply (not_root_tgt i n x Hi Hx Ex)|apply (kid_pos i j' K)|rewrite Sy; exact Hx|]. pose proof (kid_gt i j' K). lia.
  - rewrite (ren_tgt i n), (ren_aux i n) by assumption. intros E. exfalso. apply (paux_state _ _ _ _ _ Hx Pb E).
  - rewrite (ren_tgt i n y), (ren_src i n j p k) by assumption. intros E. exfalso. destruct (combine_kid i n j p k Hi Hj) as [K [S _]]. subst p.
    destruct (same_inst j i x y) as [X _]; auto; [apply (kid_pos i j K)|apply (not_root_tgt i n y Hi Hy Ex)|rewrite Sy; exact Hy|]. pose proof (kid_gt i j K). lia.
  - rewrite (ren_src i n j p k), (ren_src i n j' p' k') by assumption. intros E. destruct (combine_kid i n j p k Hi Hj) as [K [S _]]. destruct (combine_kid i n j' p' k' Hi Hj') as [K' [S' _]]. subst p p'.
    destruct (same_inst j j' x y) as [X Y]; auto; [apply (kid_pos i j K)|apply (kid_pos i j' K')|]. subst j' y. pose proof (combine_r _ _ j _ _ (kids_nodup T i) Hj Hj') as Z. congruence.
  - rewrite (ren_src i n j p k), (ren_aux i n b) by assumption. intros E. exfalso. apply (paux_state _ _ _ _ _ Hx Pb E).
  - rewrite (ren_tgt i n y), (ren_aux i n a) by assumption. intros E. exfalso. symmetry in E. apply (paux_state _ _ _ _ _ Hy Pa E).
  - rewrite (ren_src i n j' p' k'), (ren_aux i n a) by assumption. intros E. exfalso. symmetry in E. apply (paux_state _ _ _ _ _ Hy Pa E).
  - rewrite !(ren_aux i n) by assumption. intros E. unfold at_ver in E. injection E as E1 E2. destruct a, b; cbn in *. congruence.
Qed.
(** The variables of a label. *)
Lemma label_vars i n v : nth_error T i = Some n -> In v (vars (label h ver T i n)) ->
  (exists j b, (j = i \/ In j (kids T i)) /\ 0 < j < length T /\ In b (gpv h (t_sym T j)) /\ v = at_ver (ver_of ver j) b) \/
  (exists u, paux_name u /\ v = at_ver i u).
Proof.
  intros Hi Hv. unfold label in Hv. rewrite vars_rename in Hv. apply in_map_iff in Hv as [u [<- Hu]].
  destruct (fla_vars i n u Hi (or_intror Hu)) as [[x [Hx ->]]|[[j [p [k [x [Hj [Hx ->]]]]]]|[Ta Pa]]].
  - left. exists i, x. rewrite (ren_tgt i n) by assumption. split; [auto|]. split; [apply (not_root_tgt i n x Hi Hx Ex)|]. rewrite (tsym_node i n Hi). auto.
  - left. exists j, x. rewrite (ren_src i n j p k) by assumption. destruct (combine_kid i n j p k Hi Hj) as [K [S _]]. subst p. split; [auto|]. split; [apply (kid_pos i j K)|auto].
  - right. exists u. rewrite (ren_aux i n) by assumption. auto.
Qed.

Definition TT : list (option nat * term) := combine (map t_parent T) (labels h ver T).
Lemma labels_length : length (labels h ver T) = length T.
Proof. unfold labels. rewrite map_length, combine_length, seq_length. lia. Qed.
Lemma nth_labels i n : nth_error T i = Some n -> nth_error (labels h ver T) i = Some (label h ver T i n).
Proof. intros H. unfold labels. rewrite nth_error_map, (nth_combine_seq0 T i n H). reflexivity. Qed.
Lemma nth_TT i n : nth_error T i = Some n -> nth_error TT i = Some (t_parent n, label h ver T i n).
Proof.
  intros H. unfold TT.
  assert (Y : nth_error (map t_parent T) i = Some (t_parent n)) by (rewrite nth_error_map, H; reflexivity). pose proof (nth_labels i n H) as Z.
  assert (Q : forall A B (i : nat) (l : list A) (m : list B) x y, nth_error l i = Some x -> nth_error m i = Some y -> nth_error (combine l m) i = Some (x, y)).
  { clear. induction i as [|i IH]; intros [|a l] [|b m] x y Y Z; cbn in *; try discriminate; [congruence|]. apply IH; assumption. }
  apply Q; assumption.
Qed.
Lemma TT_nth i p l : nth_error TT i = Some (p, l) -> exists n, nth_error T i = Some n /\ p = t_parent n /\ l = label h ver T i n.
Proof.
  intros H. destruct (nth_error T i) as [n|] eqn:E; [rewrite (nth_TT i n E) in H; injection H as <- <-; eauto|].
  apply nth_error_None in E. assert (X : nth_error TT i = None) by (apply nth_error_None; unfold TT; rewrite combine_length, map_length; lia). congruence.
Qed.
Lemma all_below_root m : m < length T -> in_sub TT 0 m.
Proof.
  induction m as [m IH] using lt_wf_ind. intros L. destruct (Nat.eq_dec m 0) as [->|N]; [constructor|]. destruct (nth_error T m) as [n|] eqn:Hn; [|apply nth_error_None in Hn; lia].
  destruct (parent_kid m n) as [p [P [Lp _]]]; [lia|exact Hn|]. apply (sub_up TT 0 m p (label h ver T m n)); [rewrite (nth_TT m n Hn), P; reflexivity|]. apply IH; lia.
Qed.
(** Only the arguments of its instance are shared between a subtree and the rest. *)
Lemma shared_vars n m m' nm nm' v : in_sub TT n m -> ~ in_sub TT n m' -> nth_error T m = Some nm -> nth_error T m' = Some nm' ->
  In v (vars (label h ver T m nm)) -> In v (vars (label h ver T m' nm')) -> In v (inst_vars h ver T n) /\ 0 < n.
Proof.
  intros Sm Sm' Hm Hm' Hv Hv'.
  assert (Ne : m <> m') by (intros ->; contradiction).
  destruct (label_vars m nm v Hm Hv) as [[j [b [Hj [Lj [Hb E]]]]]|[u [Pu E]]]; destruct (label_vars m' nm' v Hm' Hv') as [[j' [b' [Hj' [Lj' [Hb' E']]]]]|[u' [Pu' E']]].
  - destruct (same_inst j j' b b' Lj Lj' Hb Hb') as [X Y]; [congruence|]. subst j' b'.
    assert (Sj : in_sub TT n j).
    { destruct Hj as [->|Hj]; [exact Sm|]. apply kids_spec in Hj as [nj [Hnj Pj]]. apply (sub_up TT n j m (label h ver T j nj)); [rewrite (nth_TT j nj Hnj), Pj; reflexivity|exact Sm]. }
    destruct Hj' as [->|Hj']; [contradiction|]. apply kids_spec in Hj' as [nj [Hnj Pj]].
    inversion Sj as [X|m0 p l Hp Sp X]; subst.
    + split; [|lia]. unfold inst_vars. apply in_map, Hb.
    + exfalso. rewrite (nth_TT j nj Hnj), Pj in Hp. injection Hp as <- _. contradiction.
  - exfalso. rewrite E in E'. apply (paux_state _ _ _ _ _ Hb Pu' E').
  - exfalso. rewrite E in E'. symmetry in E'. apply (paux_state _ _ _ _ _ Hb' Pu E').
  - exfalso. rewrite E in E'. unfold at_ver in E'. injection E' as E1 E2 E3. apply Ne. lia.
Qed.

(** ** Interpolants *)
Section Itp.
Variable titp : titp_fn.
Hypothesis Ht : titp_ok titp.
Variable Is : list term.
Hypothesis EI : titp TT = Some Is.
Lemma itp_vars n J v : nth_error Is n = Some J -> In v (vars J) -> In v (inst_vars h ver T n) /\ 0 < n.
Proof.
  intros HJ Hv. destruct (Ht TT Is EI) as [L [_ X]]. assert (Ln : n < length TT) by (rewrite <- L; apply nth_error_Some; congruence).
  destruct (nth_error TT n) as [[p l]|] eqn:E; [|apply nth_error_None in E; lia]. destruct (X n p l J E HJ) as [_ Y].
  destruct (Y v Hv) as [[m [q [l1 [S1 [H1 V1]]]]] [m' [q' [l2 [S2 [H2 V2]]]]]]. apply TT_nth in H1 as [nm [H1 [-> ->]]]. apply TT_nth in H2 as [nm' [H2 [-> ->]]].
  apply (shared_vars n m m' nm nm' v); auto.
Qed.
Lemma itp_base_vars n J v : nth_error Is n = Some J -> In v (vars (rename base J)) -> In v (gpv h (t_sym T n)).
Proof.
  intros HJ Hv. rewrite vars_rename in Hv. apply in_map_iff in Hv as [u [<- Hu]]. destruct (itp_vars n J u HJ Hu) as [X _]. unfold inst_vars in X. apply in_map_iff in X as [b [<- Hb]].
  assert (E : base (at_ver (ver_of ver n) b) = b); [|rewrite E; exact Hb]. pose proof (rep_base _ (aw_rep h W) _ b Hb) as Tb. destruct b; cbn in *. subst. reflexivity.
Qed.
Lemma base_sort : sort_preserving base. Proof. intros v. reflexivity. Qed.
Lemma base_at k b : vtag b = TBase -> base (at_ver k b) = b.
Proof. intros E. destruct b; cbn in *. subst. reflexivity. Qed.
(** Moving an interpolant to another version of its instance. *)
Lemma itp_move n J (f : var -> var) (r rho : valuation) : sort_preserving f -> nth_error Is n = Some J ->
  (forall b, In b (gpv h (t_sym T n)) -> rho (at_ver (ver_of ver n) b) = r (f b)) -> (holds rho J <-> holds r (rename f (rename base J))).
Proof.
  intros Hf HJ Hr. rewrite (holds_rename f) by exact Hf. rewrite (holds_rename base) by apply base_sort.
  split; apply holds_agree; intros v Hv; destruct (itp_vars n J v HJ Hv) as [X _]; unfold inst_vars in X; apply in_map_iff in X as [b [<- Hb]];
    rewrite (base_at _ b (rep_base _ (aw_rep h W) _ b Hb)); rewrite (Hr b Hb); reflexivity.
Qed.
(** One step: from the interpolants of the children to the interpolant of the node. *)
Lemma itp_step i n r : nth_error T i = Some n -> holds r (efla (t_edge n)) ->
  (forall j p k J, In (j, (p, k)) (combine (kids T i) (instances (efrom (t_edge n)))) -> nth_error Is j = Some J -> holds r (rename (src k) (rename base J))) ->
  (0 < i -> forall J, nth_error Is i = Some J -> holds r (rename tgt (rename base J))) /\ (i = 0 -> False).
Proof.
  intros Hi Hl Hk. destruct (unrename (label_ren h ver T i (t_edge n)) (own_vars h (t_edge n) ++ vars (efla (t_edge n))) r (fun a b => label_ren_inj i n a b Hi)) as [rho A].
  destruct (Ht TT Is EI) as [L [Z X]].
  assert (Li : i < length Is) by (rewrite L; apply nth_error_Some; rewrite (nth_TT i n Hi); discriminate).
  destruct (nth_error Is i) as [J|] eqn:EJ; [|apply nth_error_None in EJ; lia].
  assert (H : holds rho J).
  { apply (proj1 (X i _ _ J (nth_TT i n Hi) EJ)).
    - unfold label. apply holds_rename; [apply label_ren_sort|]. apply (holds_agree r); [|exact Hl]. intros v Hv. symmetry. apply A. apply in_app_iff. auto.
    - intros j lj Jj Hj HJj. apply TT_nth in Hj as [nj [Hj [Pj _]]]. assert (Kj : In j (kids T i)) by (apply kids_spec; eauto).
      destruct (kid_inst i n j Hi Kj) as [k Hjk]. apply (itp_move j Jj (src k) r rho (src_sort k) HJj); [|apply (Hk j _ k Jj Hjk HJj)].
      intros b Hb. rewrite <- (ren_src i n j _ k b Hi Hjk Hb). apply A. apply in_app_iff. left. unfold own_vars. apply in_app_iff. left. apply in_concat. exists (src_vars h (t_sym T j, k)).
      split; [apply in_map; apply (combine_kid i n j _ k Hi Hjk)|unfold src_vars; cbn [fst snd]; apply in_map, Hb]. }
  split.
  - intros Lp J' EJ'. injection EJ' as <-. apply (itp_move i J tgt r rho tgt_sort EJ); [|exact H]. intros b Hb. rewrite (tsym_node i n Hi) in Hb. rewrite <- (ren_tgt i n b Hi Hb). apply A.
    apply in_app_iff. left. unfold own_vars. apply in_app_iff. right. unfold tgt_vars. apply in_map, Hb.
  - intros ->. apply (Z J rho EJ H).
Qed.
End Itp.

(** ** Models *)
Section Model.
Variable m : valuation.
Hypothesis Hm : Forall (holds m) (labels h ver T).
Lemma node_follows i n : nth_error T i = Some n ->
  follows h (t_edge n) (match kids T i with [] => [(entry, [])] | l => map (node_fact h ver T m) l end) (node_fact h ver T m i).
Proof.
  intros Hi. set (s := label_ren h ver T i (t_edge n)). exists (fun v => m (s v)). split; [|split].
  - assert (X : holds m (label h ver T i n)) by (rewrite Forall_forall in Hm; apply Hm; apply (nth_error_In _ i), nth_labels, Hi).
    apply (proj1 (holds_rename _ m _ (label_ren_sort i n))) in X. exact X.
  - assert (Src : forall j p k, In (j, (p, k)) (combine (kids T i) (instances (efrom (t_edge n)))) -> node_fact h ver T m j = (p, args (fun v => m (s v)) (src_vars h (p, k)))).
    { intros j p k Hj. destruct (combine_kid i n j p k Hi Hj) as [_ [<- _]]. unfold node_fact. f_equal. unfold inst_vars, src_vars, args. cbn [fst snd]. rewrite !map_map. apply map_ext_in. intros b Hb.
      cbn [eval]. unfold s. rewrite (ren_src i n j _ k b Hi Hj Hb). reflexivity. }
    destruct (kids_align i n Hi) as [[E K]|[_ E]].
    + rewrite E, K. cbn [instances inst_from map fst]. unfold src_vars. cbn [fst snd]. rewrite (rep_entry _ (aw_rep h W)). reflexivity.
    + assert (Y : map (node_fact h ver T m) (kids T i) = map (fun pi => (fst pi, args (fun v => m (s v)) (src_vars h pi))) (instances (efrom (t_edge n)))).
      { assert (Len : length (kids T i) = length (instances (efrom (t_edge n)))) by (rewrite <- (map_length fst (instances _)), instances_fst, <- E, map_length; reflexivity).
        revert Len Src. generalize (kids T i) (instances (efrom (t_edge n))). induction l as [|j l IH]; intros [|[p k] q] Len Src; try discriminate; [reflexivity|]. cbn [map fst].
        rewrite (Src j p k (or_introl eq_refl)). f_equal. apply IH; [cbn in Len; lia|]. intros j' p' k' H. apply Src. right. exact H. }
      rewrite <- Y. destruct (kids T i) as [|j l] eqn:K; [|reflexivity]. exfalso. cbn in E. apply (aw_from h W (t_edge n) (proj1 (node_edge i n Hi))). symmetry. exact E.
  - unfold node_fact. rewrite (tsym_node i n Hi). f_equal. unfold inst_vars, tgt_vars, args. rewrite (tsym_node i n Hi), !map_map. apply map_ext_in. intros b Hb. cbn [eval]. unfold s. rewrite (ren_tgt i n b Hi Hb). reflexivity.
Qed.
End Model.
End Done.
End Tree.
