(** * Replacing one step of a derivation by several steps: proofs. *)
From Verif Require Import Syntax Solver TransSys Graph GraphOps GraphOpsProofs ValidatorModel ValidatorProofs FormulaModel FormulaProofs3 GraphSem SimpleTransModel UnreachProofs UnreachProofs2 ReverseProofs SimpleTransProofs SimpleTransProofs2 ListLemmas MergeModel MergeProofs ChainProofs ChainStep.
Open Scope nat_scope.

Definition expand (d : derivation) (i : nat) (ms : list step) (s : step) : derivation :=
  firstn i d ++ ms ++ [s] ++ map (shift_step i (length ms)) (skipn (S i) d).

Lemma nth_error_skipn {A} (l : list A) n k : nth_error (skipn n l) k = nth_error l (n + k).
Proof. revert l. induction n as [|n IH]; intros [|x l]; cbn; auto. - destruct k; reflexivity. Qed.
Lemma nth_error_firstn {A} (l : list A) n k : k < n -> nth_error (firstn n l) k = nth_error l k.
Proof. revert l k. induction n as [|n IH]; intros [|x l] [|k] H; cbn; auto; try lia. apply IH. lia. Qed.

Section Expand.
Variable d : derivation.
Variable i : nat.
Variable ms : list step.
Variable s s0 : step.
Hypothesis Hi : nth_error d i = Some s0.
Let d' := expand d i ms s.
Lemma i_lt : i < length d.
Proof. apply nth_error_Some. congruence. Qed.
Lemma expand_before k : k < i -> nth_error d' k = nth_error d k.
Proof.
  intros H. pose proof i_lt. unfold d', expand. rewrite nth_error_app1 by (rewrite firstn_length; lia). apply nth_error_firstn, H.
Qed.
Lemma firstn_len : length (firstn i d) = i.
Proof. pose proof i_lt. rewrite firstn_length. lia. Qed.
Lemma expand_mid j : j < length ms -> nth_error d' (i + j) = nth_error ms j.
Proof.
  intros H. unfold d', expand. rewrite nth_error_app2; rewrite firstn_len; [|lia]. rewrite nth_error_app1 by lia. f_equal. lia.
Qed.
Lemma expand_at : nth_error d' (i + length ms) = Some s.
Proof.
  unfold d', expand. rewrite nth_error_app2; rewrite firstn_len; [|lia]. rewrite nth_error_app2 by lia.
  replace (i + length ms - i - length ms) with 0 by lia. reflexivity.
Qed.
Lemma expand_after k : i < k -> nth_error d' (k + length ms) = option_map (shift_step i (length ms)) (nth_error d k).
Proof.
  intros H. unfold d', expand. rewrite nth_error_app2; rewrite firstn_len; [|lia]. rewrite nth_error_app2 by lia.
  replace (k + length ms - i - length ms) with (S (k - i - 1)) by lia. cbn [app nth_error]. rewrite nth_error_map. rewrite nth_error_skipn.
  replace (S i + (k - i - 1)) with k by lia. reflexivity.
Qed.
Lemma expand_len : length d' = length d + length ms.
Proof.
  pose proof i_lt. unfold d', expand. rewrite !app_length, map_length, skipn_length, firstn_len. cbn [length]. lia.
Qed.
Lemma expand_case k : k < i \/ (exists j, j < length ms /\ k = i + j) \/ k = i + length ms \/ (exists k0, i < k0 /\ k = k0 + length ms).
Proof.
  destruct (Nat.lt_ge_cases k i) as [H|H]; [auto|]. destruct (Nat.lt_ge_cases k (i + length ms)) as [H1|H1].
  - right. left. exists (k - i). lia.
  - destruct (Nat.eq_dec k (i + length ms)) as [->|N]; [auto|]. right. right. right. exists (k - length ms). lia.
Qed.
Hypothesis Hf : st_fact s = st_fact s0.
Lemma expand_fact k f : option_map st_fact (nth_error d k) = Some f -> option_map st_fact (nth_error d' (shift_premise i (length ms) k)) = Some f.
Proof.
  intros H. unfold shift_premise. destruct (Nat.leb_spec i k) as [L|L].
  - destruct (Nat.eq_dec k i) as [->|N].
    + rewrite Hi in H. cbn in H. rewrite expand_at. cbn. congruence.
    + rewrite expand_after by lia. destruct (nth_error d k) as [t|]; [exact H|discriminate].
  - rewrite expand_before by exact L. exact H.
Qed.

Variable g G : hgraph.
Hypothesis PV : gpv G = gpv g.
Hypothesis Sub : forall e, In e (gedges g) -> In e (gedges G).
Hypothesis D : error_derivation g d.
Hypothesis Pos : 0 < i.
Hypothesis MS : forall j x, nth_error ms j = Some x -> step_ok G d' (i + j) x /\ fst (st_fact x) <> exit.
Hypothesis SS : step_ok G d' (i + length ms) s.

Lemma before_fact k f : k < i -> option_map st_fact (nth_error d k) = Some f -> option_map st_fact (nth_error d' k) = Some f.
Proof. intros H. rewrite expand_before by exact H. auto. Qed.
Theorem expand_ok : error_derivation G d'.
Proof.
  pose proof (ed_ref g d D) as RF. pose proof i_lt as Hlt. split; [split|..].
  - rewrite expand_before by exact Pos. apply (ref_first g d RF).
  - destruct (ref_last g d RF) as [n [Hn Hl]]. exists (n + length ms). rewrite expand_len. split; [lia|].
    apply expand_fact in Hl. unfold shift_premise in Hl. destruct (Nat.leb_spec i n); [exact Hl|lia].
  - intros k t Hk Ht. destruct (expand_case k) as [H|[[j [Hj ->]]|[->|[k0 [Hk0 ->]]]]].
    + rewrite expand_before in Ht by exact H. destruct (ref_steps g d RF k t Hk Ht) as [e [ps [He [Hid [HF HL]]]]].
      exists e, ps. split; [auto|]. split; [exact Hid|]. split; [|apply (follows_pv g G e ps _ PV); exact HL].
      clear HL. induction HF as [|a b la lb [H1 H2] HF IH]; constructor; auto. split; [exact H1|]. apply before_fact; [lia|exact H2].
    + rewrite expand_mid in Ht by exact Hj. apply MS. exact Ht.
    + rewrite expand_at in Ht. injection Ht as <-. exact SS.
    + rewrite expand_after in Ht by exact Hk0. destruct (nth_error d k0) as [t0|] eqn:E0; [|discriminate]. cbn in Ht. injection Ht as <-.
      destruct (ref_steps g d RF k0 t0 ltac:(lia) E0) as [e [ps [He [Hid [HF HL]]]]].
      exists e, ps. split; [auto|]. split; [exact Hid|]. split; [|apply (follows_pv g G e ps _ PV); exact HL].
      unfold shift_step. cbn [st_premises]. clear HL Hid E0. induction HF as [|a b la lb [H1 H2] HF IH]; cbn [map]; constructor; auto. split.
      * unfold shift_premise. destruct (Nat.leb_spec i a); lia.
      * apply expand_fact. exact H2.
  - rewrite expand_before by exact Pos. apply (ed_first g d D).
  - intros k t Ht Hx. rewrite expand_len. destruct (expand_case k) as [H|[[j [Hj ->]]|[->|[k0 [Hk0 ->]]]]].
    + rewrite expand_before in Ht by exact H. pose proof (ed_last g d D k t Ht Hx). lia.
    + rewrite expand_mid in Ht by exact Hj. exfalso. eapply (proj2 (MS j t Ht)). exact Hx.
    + rewrite expand_at in Ht. injection Ht as <-. rewrite Hf in Hx. pose proof (ed_last g d D i s0 Hi Hx). lia.
    + rewrite expand_after in Ht by exact Hk0. destruct (nth_error d k0) as [t0|] eqn:E0; [|discriminate]. cbn in Ht. injection Ht as <-.
      cbn [shift_step st_fact] in Hx. pose proof (ed_last g d D k0 t0 E0 Hx). lia.
Qed.
End Expand.

(** ** Time versions *)
Section Times.
Variable g : hgraph.
Hypothesis R : rep_wf (gpv g).
Lemma at_time_inj n n' p p' a b : In a (gpv g p) -> In b (gpv g p') -> at_time n a = at_time n' b -> n = n' /\ a = b /\ p = p'.
Proof.
  intros Ha Hb E. unfold at_time in E. injection E as E1 E2 E3. pose proof (rep_base _ R _ _ Ha). pose proof (rep_base _ R _ _ Hb).
  assert (a = b) by (destruct a, b; cbn in *; congruence). subst b. split; [lia|]. split; [reflexivity|]. eapply (rep_disj _ R); eauto.
Qed.
Lemma vars_at_nodup p n : NoDup (vars_at g p n).
Proof.
  unfold vars_at. apply NoDup_map_inj_in; [|apply (rep_nodup _ R)]. intros a b Ha Hb E. apply (at_time_inj n n p p a b Ha Hb E).
Qed.
Lemma at_time_sort n : sort_preserving (at_time n).
Proof. intros v. reflexivity. Qed.
Lemma vlookup_combine (ks vs : list var) k v : NoDup ks -> In (k, v) (combine ks vs) -> vlookup (combine ks vs) k = v.
Proof.
  revert vs. induction ks as [|a ks IH]; intros [|b vs] N H; cbn [combine] in *; try contradiction; inversion N as [|? ? Hn N']; subst.
  cbn [vlookup]. destruct H as [E|H].
  - injection E as -> ->. destruct (var_eqb_spec k k); [reflexivity|congruence].
  - destruct (var_eqb_spec k a) as [->|Nk]; [exfalso; apply Hn; eapply in_combine_l; eauto|]. apply IH; auto.
Qed.
Lemma vlookup_app (a b : vmap) v : vlookup (a ++ b) v = if in_dec var_dec v (map fst a) then vlookup a v else vlookup b v.
Proof.
  induction a as [|[x y] a IH]; [reflexivity|]. cbn [app vlookup map fst]. destruct (var_eqb_spec v x) as [->|N].
  - destruct (in_dec var_dec x (x :: map fst a)) as [_|X]; [reflexivity|exfalso; apply X; left; reflexivity].
  - rewrite IH. destruct (in_dec var_dec v (map fst a)) as [X|X], (in_dec var_dec v (x :: map fst a)) as [Y|Y]; try reflexivity.
    + exfalso. apply Y. right. exact X.
    + exfalso. destruct Y as [Y|Y]; [congruence|contradiction].
Qed.
Lemma in_combine_map {A B C} (f : A -> B) (h : A -> C) l x : In x l -> In (f x, h x) (combine (map f l) (map h l)).
Proof. induction l as [|y l IH]; [auto|]. cbn. intros [->|H]; auto. Qed.

Section Convert.
Variable e : hedge.
Variable p : sym.
Hypothesis E : efrom e = [p].
Lemma conv_src b : In b (gpv g p) -> convert_var g e (src 0 b) = at_time 0 b.
Proof.
  intros Hb. unfold convert_var. rewrite E. cbn [hd]. rewrite vlookup_app.
  assert (K : In (src 0 b) (map fst (combine (src_vars g (p, 0)) (vars_at g p 0)))).
  { change (src 0 b) with (fst (src 0 b, at_time 0 b)). apply in_map. apply in_combine_map, Hb. }
  destruct (in_dec _ _ _) as [_|X]; [|contradiction]. apply vlookup_combine; [apply src_vars_nodup, R|]. apply (in_combine_map (src 0) (at_time 0) _ b Hb).
Qed.
Lemma conv_tgt b : In b (gpv g (eto e)) -> convert_var g e (tgt b) = at_time 1 b.
Proof.
  intros Hb. unfold convert_var. rewrite E. cbn [hd]. rewrite vlookup_app. destruct (in_dec _ _ _) as [X|_].
  - exfalso. apply in_map_iff in X as [[x y] [Ex X]]. cbn [fst] in Ex. subst x. apply in_combine_l in X. apply in_src_vars in X as [a [_ X]].
    symmetry in X. exact (src_tgt_v _ _ _ X).
  - apply vlookup_combine; [apply tgt_vars_nodup, R|]. apply (in_combine_map tgt (at_time 1) _ b Hb).
Qed.
End Convert.
Lemma combine_map_in {A B C} (f : A -> B) (h : A -> C) l a b : In (a, b) (combine (map f l) (map h l)) -> exists x, In x l /\ a = f x /\ b = h x.
Proof. induction l as [|y l IH]; [intros []|]. cbn. intros [X|H]; [injection X as <- <-; eauto|]. destruct (IH H) as [x [Hx Ex]]. eauto. Qed.
Lemma conv_sort e : sort_preserving (convert_var g e).
Proof.
  apply vlookup_sort. intros a b H. apply in_app_iff in H as [H|H]; apply combine_map_in in H as [v [_ [-> ->]]]; reflexivity.
Qed.
Lemma sendv_sort k : sort_preserving (sendv k).
Proof. intros v. unfold sendv. destruct (vtag v); reflexivity. Qed.
Lemma sendv_at k n b : sendv k (at_time n b) = at_time (n + k) b.
Proof. unfold sendv, at_time. cbn. f_equal. f_equal. lia. Qed.
Lemma sent_sort k e : sort_preserving (fun v => sendv k (convert_var g e v)).
Proof. intros v. rewrite sendv_sort. apply conv_sort. Qed.

Definition facts_from (r : valuation) (k : nat) (c : list hedge) : list fact :=
  map (fun je => (eto (snd je), args r (vars_at g (eto (snd je)) (S (fst je))))) (combine (seq k (length c)) c).
Lemma sent_follows (r : valuation) k e p : efrom e = [p] -> holds r (sent_label g k e) ->
  follows g e [(p, args r (vars_at g p k))] (eto e, args r (vars_at g (eto e) (S k))).
Proof.
  intros E H. unfold sent_label in H. apply (holds_rename _ r _ (sent_sort k e)) in H.
  apply (follows_single g e p _ _ E). exists (fun v => r (sendv k (convert_var g e v))). split; [exact H|].
  split; f_equal.
  - unfold src_vars, vars_at, args. cbn [fst snd]. rewrite !map_map. apply map_ext_in. intros b Hb.
    pose proof (eval_var_ren (fun v => sendv k (convert_var g e v)) r (src 0 b) (sent_sort k e)) as X. etransitivity; [|symmetry; exact X]. cbv beta.
    rewrite (conv_src e p E b Hb), sendv_at. reflexivity.
  - unfold tgt_vars, vars_at, args. rewrite !map_map. apply map_ext_in. intros b Hb.
    pose proof (eval_var_ren (fun v => sendv k (convert_var g e v)) r (tgt b) (sent_sort k e)) as X. etransitivity; [|symmetry; exact X]. cbv beta.
    rewrite (conv_tgt e p E b Hb), sendv_at. reflexivity.
Qed.
Lemma path_runs (r : valuation) c : forall s k, linked s c ->
  (forall ie, In ie (combine (seq k (length c)) c) -> holds r (sent_label g (fst ie) (snd ie))) ->
  runs g c (s, args r (vars_at g s k)) (facts_from r k c).
Proof.
  induction c as [|e c IH]; intros s k L H; [exact I|]. destruct L as [E L]. cbn [length seq combine map facts_from runs fst snd].
  split; [apply sent_follows; [exact E|]|].
  - apply (H (k, e)). left. reflexivity.
  - apply IH; [exact L|]. intros ie Hie. apply H. right. exact Hie.
Qed.
End Times.
