(** * Property C46: entailment batches. *)
From Verif Require Import Syntax Solver TransSys Names EntailModel ExTac.
Open Scope list_scope.
Open Scope nat_scope.

(** Specification. *)
Definition entails (premises : list term) (c : term) : Prop := forall r, Forall (holds r) premises -> holds r c.
(** The activation variables do not occur in the input (golem renames all user variables, see Normalizer). *)
Definition no_act (l : list term) : Prop := forall t i, In t l -> ~ In (act i) (vars t).

Lemma entails_unsat ps c : unsat (ps ++ [mkNot c]) <-> entails ps c.
Proof.
  split.
  - intros U r H. destruct (holds_dec r c) as [Y|N]; [exact Y|]. exfalso. apply (U r). apply Forall_app. split; [exact H|].
    constructor; [|constructor]. apply holds_not, N.
  - intros E r H. apply Forall_app in H as [H1 H2]. apply Forall_inv in H2. apply holds_not in H2. apply H2, E, H1.
Qed.

(** One by one: everything returned is implied; with a solver that answers, exactly the implied candidates are
    returned, in order. *)
Theorem C46_one_by_one :
  forall check premises candidates, check_ok check ->
    (forall c, In c (one_by_one check premises candidates) -> In c candidates /\ entails premises c) /\
    (decisive check -> forall c, In c candidates -> entails premises c -> In c (one_by_one check premises candidates)).
Proof.
  intros check ps cs [HS HU]. unfold one_by_one. split.
  - intros c H. apply filter_In in H as [H1 H2]. split; [exact H1|]. apply entails_unsat. apply HU.
    destruct (check (ps ++ [mkNot c])); try discriminate H2. reflexivity.
  - intros D c H E. apply filter_In. split; [exact H|]. destruct (check (ps ++ [mkNot c])) as [m| |] eqn:Ec; [|reflexivity|destruct (D _ Ec)].
    exfalso. apply (proj2 (entails_unsat ps c) E m). apply HS, Ec.
Qed.
Print Assumptions C46_one_by_one.

(** ** The batch *)
Lemma act_inj i j : act i = act j -> i = j.
Proof.
  unfold act. intros E. injection E as E1. apply (to_string_inj (Z.of_nat i) (Z.of_nat j)) in E1. lia.
Qed.
Lemma nth_combine_seq {A} (l : list A) k i x : nth_error (combine (seq k (length l)) l) i = Some x <-> fst x = k + i /\ nth_error l i = Some (snd x).
Proof.
  revert k i. induction l as [|a l IH]; intros k i; cbn [length seq combine].
  - split; [destruct i; discriminate|]. intros [_ H]. destruct i; discriminate.
  - destruct i as [|i]; cbn [nth_error].
    + destruct x as [x1 x2]. cbn. split; [intros E; injection E as <- <-; split; [lia|reflexivity]|]. intros [-> E]. injection E as ->. f_equal. f_equal. lia.
    + rewrite IH. split; intros [-> E]; (split; [lia|exact E]).
Qed.
Lemma in_queries cs q : In q (queries cs) <-> exists i c, nth_error cs i = Some c /\ q = query i c.
Proof.
  unfold queries. split.
  - intros H. apply in_map_iff in H as [[i c] [<- H]]. apply In_nth_error in H as [k H]. apply (proj1 (nth_combine_seq _ _ _ _)) in H as [E H]. cbn in *. subst i. exists k, c. auto.
  - intros [i [c [H ->]]]. apply in_map_iff. exists (i, c). split; [reflexivity|]. apply (nth_error_In _ i). apply nth_combine_seq. auto.
Qed.
Lemma nth_queries cs i c : nth_error cs i = Some c -> nth_error (queries cs) i = Some (query i c).
Proof. intros H. unfold queries. rewrite nth_error_map. rewrite (proj2 (nth_combine_seq cs 0 i (i, c)) (conj eq_refl H)). reflexivity. Qed.
Lemma in_lits en t : In t (lits en) <-> exists i b, nth_error en i = Some b /\ t = lit i b.
Proof.
  unfold lits. split.
  - intros H. apply in_map_iff in H as [[i c] [<- H]]. apply In_nth_error in H as [k H]. apply (proj1 (nth_combine_seq _ _ _ _)) in H as [E H]. cbn in *. subst i. exists k, c. auto.
  - intros [i [c [H ->]]]. apply in_map_iff. exists (i, c). split; [reflexivity|]. apply (nth_error_In _ i). apply nth_combine_seq. auto.
Qed.
Lemma nth_combine {A B} (l : list A) (l' : list B) i x y : nth_error (combine l l') i = Some (x, y) <-> nth_error l i = Some x /\ nth_error l' i = Some y.
Proof.
  revert l' i. induction l as [|a l IH]; intros [|b l'] [|i]; cbn; try (split; [discriminate|intros [? ?]; discriminate]).
  - split; [intros E; injection E as -> ->; auto|intros [E1 E2]; congruence].
  - apply IH.
Qed.
Lemma queries_length cs : length (queries cs) = length cs.
Proof. unfold queries. rewrite map_length, combine_length, seq_length. lia. Qed.
Lemma disable_length m cs en : length en = length cs -> length (disable m (queries cs) en) = length cs.
Proof. intros L. unfold disable. rewrite map_length, combine_length, queries_length. lia. Qed.
Lemma nth_disable m cs en i c b : nth_error cs i = Some c -> nth_error en i = Some b ->
  nth_error (disable m (queries cs) en) i = Some (b && negb (holdsb m (query i c))).
Proof.
  intros Hc Hb. unfold disable. rewrite nth_error_map. rewrite (proj2 (nth_combine (queries cs) en i (query i c) b) (conj (nth_queries _ _ _ Hc) Hb)). reflexivity.
Qed.
Lemma disable_nth m cs en i b' : nth_error (disable m (queries cs) en) i = Some b' ->
  exists c b, nth_error cs i = Some c /\ nth_error en i = Some b /\ b' = b && negb (holdsb m (query i c)).
Proof.
  unfold disable. rewrite nth_error_map. destruct (nth_error (combine (queries cs) en) i) as [[q b]|] eqn:E; [|discriminate]. intros H. injection H as <-.
  apply (proj1 (nth_combine _ _ _ _ _)) in E as [E1 E2]. unfold queries in E1. rewrite nth_error_map in E1.
  destruct (nth_error (combine (seq 0 (length cs)) cs) i) as [[j c]|] eqn:E3; [|discriminate]. injection E1 as <-. apply (proj1 (nth_combine_seq _ _ _ _)) in E3 as [Ej Ec]. cbn in *. subst j.
  exists c, b. auto.
Qed.

Definition enabled (en : list bool) : nat := length (filter (fun b => b) en).
Lemma enabled_le (f : nat -> bool) en en' : length en' = length en -> (forall i b', nth_error en' i = Some b' -> exists b, nth_error en i = Some b /\ (b' = true -> b = true)) ->
  enabled en' <= enabled en.
Proof.
  revert en'. induction en as [|b en IH]; intros [|b' en'] L H; try discriminate L; [reflexivity|].
  injection L as L. assert (X : enabled en' <= enabled en) by (apply IH; [exact L|intros i b0 Hi; apply (H (S i) b0 Hi)]).
  destruct (H 0 b' eq_refl) as [b0 [E Hb]]. injection E as <-. unfold enabled in *. cbn. destruct b', b; cbn; try lia; specialize (Hb eq_refl); discriminate.
Qed.
Lemma enabled_lt en en' k : length en' = length en -> (forall i b', nth_error en' i = Some b' -> exists b, nth_error en i = Some b /\ (b' = true -> b = true)) ->
  nth_error en k = Some true -> nth_error en' k = Some false -> enabled en' < enabled en.
Proof.
  revert en' k. induction en as [|b en IH]; intros [|b' en'] k L H Hk Hk'; try discriminate L; [destruct k; discriminate|].
  injection L as L. assert (H' : forall i b0, nth_error en' i = Some b0 -> exists b, nth_error en i = Some b /\ (b0 = true -> b = true)) by (intros i b0 Hi; apply (H (S i) b0 Hi)).
  destruct (H 0 b' eq_refl) as [b0 [E Hb]]. injection E as <-. destruct k as [|k]; cbn in Hk, Hk'.
  - injection Hk as ->. injection Hk' as ->. pose proof (enabled_le (fun _ => true) en en' L H') as X. unfold enabled in *. cbn. lia.
  - pose proof (IH en' k L H' Hk Hk') as X. unfold enabled in *. cbn. destruct b', b; cbn; try lia; specialize (Hb eq_refl); discriminate.
Qed.

Section Batch.
Variable check : check_fn.
Hypothesis Hc : check_ok check.
Variable ps cs : list term.
Hypothesis Ap : no_act ps.
Hypothesis Ac : no_act cs.

(** Invariant: what is disabled is not implied. *)
Definition inv (en : list bool) : Prop := length en = length cs /\
  forall i c, nth_error cs i = Some c -> nth_error en i = Some false -> ~ entails ps c.

(** The valuation that switches the literals according to [en]. *)
Definition act_index (n : nat) (v : var) : option nat := find (fun i => var_eqb v (act i)) (seq 0 n).
Definition switch (en : list bool) (r : valuation) : valuation := fun v =>
  match act_index (length en) v with Some i => VBool (nth i en false) | None => r v end.
Lemma switch_act en r i b : nth_error en i = Some b -> switch en r (act i) = VBool b.
Proof.
  intros H. unfold switch, act_index. assert (L : i < length en) by (apply nth_error_Some; congruence).
  destruct (find _ _) as [j|] eqn:E.
  - apply find_some in E as [_ E]. destruct (var_eqb_spec (act i) (act j)) as [E'|]; [|discriminate]. apply act_inj in E'. subst j. f_equal. apply nth_error_nth. exact H.
  - exfalso. assert (X := find_none _ _ E i). cbv beta in X. rewrite var_eqb_refl in X. assert (Y : true = false) by (apply X, in_seq; lia). discriminate Y.
Qed.
Lemma switch_other en r v : (forall i, v <> act i) -> switch en r v = r v.
Proof.
  intros H. unfold switch, act_index. destruct (find _ _) as [j|] eqn:E; [|reflexivity]. apply find_some in E as [_ E].
  destruct (var_eqb_spec v (act j)) as [E'|]; [|discriminate]. destruct (H j E').
Qed.
Lemma switch_holds en r t l : no_act l -> In t l -> (holds (switch en r) t <-> holds r t).
Proof. intros N H. apply holds_agree. intros v Hv. apply switch_other. intros i ->. apply (N t i H Hv). Qed.
Lemma eval_switch en r i b : nth_error en i = Some b -> holdsb (switch en r) (Var (act i)) = b.
Proof. intros H. unfold holdsb. cbn [eval]. rewrite (switch_act en r i b H). destruct b; reflexivity. Qed.
Lemma switch_lits en r : holds (switch en r) (mkAnd (lits en)).
Proof.
  apply holds_and. apply Forall_forall. intros t Ht. apply in_lits in Ht as [i [b [Hb ->]]]. unfold lit. destruct b.
  - apply (eval_switch en r i true Hb).
  - apply holds_not. unfold holds. rewrite (eval_switch en r i false Hb). discriminate.
Qed.

Lemma unsat_implied en : inv en -> unsat (ps ++ [mkOr (queries cs); mkAnd (lits en)]) ->
  forall i c, nth_error cs i = Some c -> nth_error en i = Some true -> entails ps c.
Proof.
  intros [L _] U i c Hi Hb r Hr. destruct (holds_dec r c) as [Y|N]; [exact Y|]. exfalso. apply (U (switch en r)).
  apply Forall_app. split.
  - apply Forall_forall. intros t Ht. apply (switch_holds en r t ps Ap Ht). rewrite Forall_forall in Hr. apply Hr, Ht.
  - constructor; [|constructor; [apply switch_lits|constructor]]. apply holds_or. apply Exists_exists. exists (query i c).
    split; [apply in_queries; eauto|]. apply holds_and2. split; [apply (eval_switch en r i true Hb)|].
    apply holds_not. intros H. apply N. apply (switch_holds en r c cs Ac (nth_error_In _ _ Hi)), H.
Qed.

Lemma result_in en c : In c (map fst (filter snd (combine cs en))) <-> exists i, nth_error cs i = Some c /\ nth_error en i = Some true.
Proof.
  split.
  - intros H. apply in_map_iff in H as [[c' b] [<- H]]. apply filter_In in H as [H Hb]. cbn in Hb. subst b. apply In_nth_error in H as [i H].
    apply (proj1 (nth_combine _ _ _ _ _)) in H. exists i. exact H.
  - intros [i H]. apply in_map_iff. exists (c, true). split; [reflexivity|]. apply filter_In. split; [|reflexivity]. apply (nth_error_In _ i). apply nth_combine, H.
Qed.

Lemma sat_step en m : inv en -> check (ps ++ [mkOr (queries cs); mkAnd (lits en)]) = SAT m ->
  inv (disable m (queries cs) en) /\ enabled (disable m (queries cs) en) < enabled en.
Proof.
  intros [L I0] E. pose proof (check_sat _ Hc _ _ E) as H. apply Forall_app in H as [Hp H]. pose proof (Forall_inv H) as Hq. apply Forall_inv_tail, Forall_inv in H.
  assert (Lb : forall i b, nth_error en i = Some b -> holdsb m (Var (act i)) = b).
  { intros i b Hb. apply holds_and in H. rewrite Forall_forall in H. assert (X : In (lit i b) (lits en)) by (apply in_lits; eauto). apply H in X. unfold lit in X.
    destruct b; [exact X|]. apply holds_not in X. destruct (holdsb m (Var (act i))) eqn:Y; [destruct (X Y)|reflexivity]. }
  split; [split; [apply disable_length, L|]|].
  - intros i c Hi Hd. apply disable_nth in Hd as [c' [b [Hc' [Hb Hd]]]]. rewrite Hi in Hc'. injection Hc' as <-. destruct b; [|apply (I0 i c Hi Hb)].
    cbn [andb] in Hd. intros En. specialize (En m Hp). destruct (holdsb m (query i c)) eqn:Q; [|discriminate Hd].
    apply (proj1 (holds_and2 _ _ _)) in Q as [_ Q]. apply holds_not in Q. exact (Q En).
  - apply holds_or in Hq. apply Exists_exists in Hq as [q [Hq Hh]]. apply in_queries in Hq as [i [c [Hi ->]]]. pose proof (proj1 (proj1 (holds_and2 _ _ _) Hh)) as Ha.
    destruct (nth_error en i) as [b|] eqn:Eb; [|exfalso; apply nth_error_None in Eb; assert (i < length cs) by (apply nth_error_Some; congruence); lia].
    pose proof (Lb i b Eb) as Eb'. unfold holds in Ha. rewrite Ha in Eb'. subst b.
    apply (enabled_lt en _ i); [rewrite disable_length; auto| |exact Eb|].
    + intros j b' Hj. apply disable_nth in Hj as [c' [b [_ [Hb ->]]]]. exists b. split; [exact Hb|]. intros X. apply andb_true_iff in X. tauto.
    + rewrite (nth_disable m cs en i c true Hi Eb). unfold holds in Hh. rewrite Hh. reflexivity.
Qed.

Lemma batch_ok fuel : forall en l, inv en -> batch_loop check fuel ps cs en = Implied l ->
  forall c, In c l <-> In c cs /\ entails ps c.
Proof.
  induction fuel as [|f IH]; intros en l V E c; [discriminate|]. cbn [batch_loop] in E.
  assert (Dis : forall i c0, nth_error cs i = Some c0 -> nth_error en i = Some true \/ nth_error en i = Some false).
  { intros i c0 Hi. destruct (nth_error en i) as [[|]|] eqn:X; auto. exfalso. apply nth_error_None in X. destruct V as [L _]. assert (i < length cs) by (apply nth_error_Some; congruence). lia. }
  assert (Exact : (forall i c0, nth_error cs i = Some c0 -> nth_error en i = Some true -> entails ps c0) ->
    In c (map fst (filter snd (combine cs en))) <-> In c cs /\ entails ps c).
  { intros F. rewrite result_in. split.
    - intros [i [Hi Hb]]. split; [apply (nth_error_In _ _ Hi)|apply (F i c Hi Hb)].
    - intros [Hin En]. apply In_nth_error in Hin as [i Hi]. exists i. split; [exact Hi|]. destruct (Dis i c Hi) as [T|F']; [exact T|]. exfalso. apply (proj2 V i c Hi F' En). }
  destruct (existsb (fun b => b) en) eqn:Ex; cbn [negb] in E.
  - destruct (check _) as [m| |] eqn:Ec; [| |discriminate].
    + apply (IH _ l (proj1 (sat_step en m V Ec)) E c).
    + injection E as <-. apply Exact. intros i c0 Hi Hb. eapply unsat_implied; eauto. apply (check_unsat _ Hc _ Ec).
  - injection E as <-. apply Exact. intros i c0 Hi Hb. exfalso. assert (X : existsb (fun b => b) en = true) by (apply existsb_exists; exists true; split; [apply (nth_error_In _ _ Hb)|reflexivity]). congruence.
Qed.
Lemma batch_fuel fuel : forall en, inv en -> enabled en < fuel -> batch_loop check fuel ps cs en <> EFuel.
Proof.
  induction fuel as [|f IH]; intros en V L; [lia|]. cbn [batch_loop]. destruct (negb _); [discriminate|]. destruct (check _) as [m| |] eqn:Ec; try discriminate.
  destruct (sat_step en m V Ec) as [V' L']. apply IH; [exact V'|lia].
Qed.
Lemma batch_throw fuel : decisive check -> forall en, batch_loop check fuel ps cs en <> EThrow.
Proof.
  intros D. induction fuel as [|f IH]; intros en; [discriminate|]. cbn [batch_loop]. destruct (negb _); [discriminate|]. destruct (check _) as [m| |] eqn:Ec; [apply IH|discriminate|destruct (D _ Ec)].
Qed.
Lemma inv_start : inv (map (fun _ => true) cs).
Proof. split; [apply map_length|]. intros i c _ H. rewrite nth_error_map in H. destruct (nth_error cs i); discriminate H. Qed.
End Batch.

(** The batch returns exactly the implied candidates; it ends after at most one round per candidate plus one, and it
    throws only if the solver does not answer. *)
Theorem C46_batch :
  forall check premises candidates, check_ok check -> no_act premises -> no_act candidates ->
    (forall fuel l, implied_by check fuel premises candidates = Implied l ->
       forall c, In c l <-> In c candidates /\ entails premises c) /\
    implied_by check (S (length candidates)) premises candidates <> EFuel /\
    (decisive check -> exists l, implied_by check (S (length candidates)) premises candidates = Implied l).
Proof.
  intros check ps cs Hc Ap Ac. pose proof (inv_start ps cs) as V.
  assert (F : implied_by check (S (length cs)) ps cs <> EFuel).
  { apply batch_fuel; auto. unfold enabled. rewrite <- (map_length (fun _ : term => true) cs). apply Nat.lt_succ_r.
    generalize (map (fun _ : term => true) cs). intros l. induction l as [|b l IH]; [reflexivity|]. cbn. destruct b; cbn; lia. }
  split; [|split].
  - intros fuel l E. eapply batch_ok; eauto.
  - exact F.
  - intros D. pose proof (batch_throw check ps cs (S (length cs)) D (map (fun _ => true) cs)) as T. unfold implied_by in *.
    destruct (batch_loop check (S (length cs)) ps cs (map (fun _ => true) cs)) as [l| |]; [eauto|destruct T; reflexivity|destruct F; reflexivity].
Qed.
Print Assumptions C46_batch.

(** Every candidate position is reported separately and the order is kept: the result is a sub-sequence of the input. *)
Theorem C46_batch_order :
  forall check fuel premises candidates l, implied_by check fuel premises candidates = Implied l ->
    exists keep, length keep = length candidates /\ l = map fst (filter snd (combine candidates keep)).
Proof.
  intros check fuel ps cs l. unfold implied_by. assert (L : length (map (fun _ : term => true) cs) = length cs) by apply map_length. revert L.
  generalize (map (fun _ : term => true) cs). induction fuel as [|f IH]; intros en L E; [discriminate|]. cbn [batch_loop] in E.
  destruct (negb _); [injection E as <-; eauto|]. destruct (check _) as [m| |]; [|injection E as <-; eauto|discriminate].
  apply (IH (disable m (queries cs) en)); [apply disable_length, L|exact E].
Qed.
Print Assumptions C46_batch_order.

Module ExEntail.
Definition x := mkVar "x" (TTime 0) SInt.
Definition ge (k : Z) := mkLeq (mkInt k) (Var x).
Definition ps := [ge 2].
Definition cs := [ge 1; ge 5; ge 0].
(** First answer: a model with x = 3 refutes the second candidate; the rest is implied. *)
Definition m : valuation := fun v => if var_eqb v x then VInt 3 else VBool true.
Definition q en := ps ++ [mkOr (queries cs); mkAnd (lits en)].
Definition chk := table_check [(q [true; true; true], SAT m); (q [true; false; true], UNSAT); (ps ++ [mkNot (ge 1)], UNSAT); (ps ++ [mkNot (ge 0)], UNSAT)].
Example chk_ok : check_ok chk.
Proof. prove_table. Qed.
Example no_acts : no_act ps /\ no_act cs.
Proof. split; intros t i H V; cbn in H; repeat (destruct H as [<-|H]; [cbn in V; destruct V as [V|[]]; discriminate V|]); destruct H. Qed.
Example run : implied_by chk 4 ps cs = Implied [ge 1; ge 0].
Proof. vm_compute. reflexivity. Qed.
Example run1 : one_by_one chk ps cs = [ge 1; ge 0].
Proof. vm_compute. reflexivity. Qed.
End ExEntail.
