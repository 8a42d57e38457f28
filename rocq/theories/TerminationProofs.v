From Verif Require Import Syntax Solver TransSys TSLemmas Graph ChcSystem TerminationModel.
Open Scope nat_scope.

(** ** States with well-sorted values *)
Definition norm (r : valuation) : valuation := fun v => coerce (vsort v) (r v).
Lemma norm_eval r t : eval (norm r) t = eval r t.
Proof. apply eval_ext. intros v _. unfold norm. apply coerce_idem. Qed.
Lemma norm_holds r t : holds (norm r) t <-> holds r t.
Proof. unfold holds, holdsb. rewrite norm_eval. tauto. Qed.
Lemma norm_args r l : args (norm r) l = args r l.
Proof. apply map_ext. intros v. apply norm_eval. Qed.
Lemma args_norm r s l : args r l = args s l -> agree_on l (norm r) (norm s).
Proof. intros E v Hv. exact (args_eq_ev r s l E v Hv). Qed.
Lemma args_agree' r s l : agree_on l r s -> args r l = args s l.
Proof. apply args_agree. Qed.

(** Executions. *)
Section Exec.
Variable ts : tsys.
Lemma Init_norm s : Init ts s -> Init ts (norm s).
Proof. intros [r [A H]]. exists (norm r). split; [|apply norm_holds, H]. intros v Hv. unfold norm. rewrite (A v Hv). reflexivity. Qed.
Lemma Step_norm s s' : Step ts s s' -> Step ts (norm s) (norm s').
Proof.
  intros [r [A [B H]]]. exists (norm r). split; [intros v Hv; unfold norm; rewrite (A v Hv); reflexivity|]. split; [|apply norm_holds, H].
  intros v Hv. unfold norm. rewrite (B v Hv), shiftv_sort. reflexivity.
Qed.
Lemma Steps_norm n s s' : Steps ts n s s' -> Steps ts n (norm s) (norm s').
Proof. intros H. induction H; [constructor|]. econstructor; [apply Step_norm; eassumption|assumption]. Qed.
End Exec.

(** ** Adding a counter *)
(** The valuation of an extended system. *)
Definition with_counters (r : valuation) (c c' : Z) : valuation :=
  fun v => if var_eqb v counter0 then VInt c else if var_eqb v counter1 then VInt c' else r v.
Lemma wc0 r c c' : with_counters r c c' counter0 = VInt c.
Proof. reflexivity. Qed.
Lemma wc1 r c c' : with_counters r c c' counter1 = VInt c'.
Proof. reflexivity. Qed.
Lemma wc_other r c c' v : v <> counter0 -> v <> counter1 -> with_counters r c c' v = r v.
Proof. intros H H'. unfold with_counters. destruct (var_eqb_spec v counter0); [contradiction|]. destruct (var_eqb_spec v counter1); [contradiction|reflexivity]. Qed.

(** The counter is not a variable of the system. *)
Definition no_counter (ts : tsys) : Prop := ~ In counter0 (svars ts) /\ ~ In counter0 (avars ts).

Section Counter.
Variable ts : tsys.
Hypothesis W : ts_wf ts = true.
Hypothesis NC : no_counter ts.
Lemma sv_c0 v : In v (svars ts) -> v <> counter0.
Proof. intros H ->. apply (proj1 NC H). Qed.
Lemma sv_c1 v : In v (svars ts) -> v <> counter1.
Proof. intros H ->. apply (wf_svars0 ts W) in H. discriminate H. Qed.
Lemma next_c0 v : In v (svars ts) -> shiftv 1 v <> counter0.
Proof. intros H E. pose proof (wf_svars0 ts W v H) as T. destruct v as [b t s]. cbn in T. subst t. discriminate E. Qed.
Lemma next_c1 v : In v (svars ts) -> shiftv 1 v <> counter1.
Proof.
  intros H E. apply (proj1 NC). change counter1 with (shiftv 1 counter0) in E. apply shiftv_inj in E. subst v. exact H.
Qed.
Lemma wc_args r c c' : args (with_counters r c c') (svars ts) = args r (svars ts).
Proof. apply args_agree. intros v Hv. apply wc_other; [apply sv_c0|apply sv_c1]; exact Hv. Qed.
Lemma wc_nargs r c c' : args (with_counters r c c') (nextvars ts) = args r (nextvars ts).
Proof.
  apply args_agree. intros v Hv. unfold nextvars in Hv. apply in_map_iff in Hv as [w [<- Hw]]. apply wc_other; [apply next_c0|apply next_c1]; exact Hw.
Qed.
Lemma wc_state r c c' t : (forall v, In v (vars t) -> In v (svars ts) \/ In v (avars ts)) -> (holds (with_counters r c c') t <-> holds r t).
Proof.
  intros H. apply holds_agree. intros v Hv. apply wc_other.
  - intros ->. destruct (H _ Hv) as [X|X]; [apply (proj1 NC X)|apply (proj2 NC X)].
  - intros ->. destruct (H _ Hv) as [X|X]; [apply (wf_svars0 ts W) in X|apply (wf_avars0 ts W) in X]; discriminate X.
Qed.
Lemma wc_trans r c c' : holds (with_counters r c c') (ttrans ts) <-> holds r (ttrans ts).
Proof.
  apply holds_agree. intros v Hv. apply (wf_trans ts W) in Hv as [Hv|[[w [Hw ->]]|Hv]]; apply wc_other.
  - apply sv_c0, Hv. - apply sv_c1, Hv. - apply next_c0, Hw. - apply next_c1, Hw.
  - intros ->. apply (proj2 NC Hv).
  - intros ->. apply (wf_avars0 ts W) in Hv. discriminate Hv.
Qed.
Definition cfact (s : state) (c : Z) : list value := args s (svars ts) ++ [VInt c].
Lemma cfact_cur r c c' : avals (with_counters r c c') (atom_of (svars ts ++ [counter0])) = cfact r c.
Proof. unfold atom_of. rewrite avals_vars. unfold args, cfact. rewrite map_app. f_equal. apply wc_args. Qed.
Lemma cfact_next r c c' : avals (with_counters r c c') (atom_of (map (shiftv 1) (svars ts ++ [counter0]))) = args r (nextvars ts) ++ [VInt c'].
Proof. unfold atom_of. rewrite avals_vars, map_app. unfold args at 1. rewrite map_app. f_equal. apply wc_nargs. Qed.
Lemma next_args r s' : (forall v, In v (svars ts) -> r (shiftv 1 v) = s' v) -> args r (nextvars ts) = args s' (svars ts).
Proof.
  intros H. unfold nextvars. rewrite args_map by apply shiftv_sort. apply args_agree. exact H.
Qed.
Lemma cfact_agree r s c : agree_on (svars ts) r s -> cfact r c = cfact s c.
Proof. intros A. unfold cfact. f_equal. apply args_agree', A. Qed.

Lemma int_value (r : valuation) v : is_int v = true -> exists z, eval r (Var v) = VInt z.
Proof.
  intros H. unfold is_int in H. destruct (sort_eqb_spec (vsort v) SInt) as [E|]; [|discriminate]. cbn [eval]. pose proof (coerce_sort (vsort v) (r v)) as S. rewrite E in S |- *.
  destruct (coerce SInt (r v)); try discriminate S. eauto.
Qed.
Lemma abs_value (r : valuation) v : is_int v = true -> exists z, eval r (abs_term v) = VInt z.
Proof.
  intros H. destruct (int_value r v H) as [z E]. unfold abs_term, mkIte, mkGeq, mkLeq, mkNeg, mkTimes, mkInt. cbn [eval map interp fold1]. cbn [eval] in E. rewrite E. cbn [vleq asb].
  destruct (Z.leb 0 z); cbn; eauto.
Qed.
Lemma sum_value (r : valuation) vs : exists z, eval r (sum_term vs) = VInt z.
Proof.
  unfold sum_term. assert (A : forall v, In v (filter is_int vs) -> is_int v = true) by (intros v H; apply filter_In in H; tauto).
  destruct (filter is_int vs) as [|a l]; [cbn; eauto|]. unfold mkPlus. cbn [map eval interp fold1]. destruct (abs_value r a (A a (or_introl eq_refl))) as [z E]. rewrite E.
  assert (A' : forall v, In v l -> is_int v = true) by (intros v H; apply A; right; exact H). clear A E. revert z A'.
  induction l as [|b l IH]; intros z A; [cbn; eauto|]. cbn [map fold_left]. destruct (abs_value r b (A b (or_introl eq_refl))) as [zb E]. rewrite E. cbn [vadd]. apply IH. intros v H. apply A. right. exact H.
Qed.
Lemma holds_gt r a b x y : eval r a = VInt x -> eval r b = VInt y -> (holds r (mkGt a b) <-> (y < x)%Z).
Proof.
  intros A B. unfold mkGt, mkLt. rewrite holds_not. unfold holds, holdsb, mkLeq. cbn [eval map interp]. rewrite A, B. cbn. destruct (Z.leb_spec x y); split; intros; try lia; try congruence.
Qed.
Lemma dec_holds r c : holds (with_counters r c (c - 1)) counter_dec.
Proof. unfold counter_dec. apply holds_eq. cbn. reflexivity. Qed.
Lemma neg_query r c c' : (c < 0)%Z -> holds (with_counters r c c') (mkLt (Var counter0) (mkInt 0)).
Proof. intros H. unfold mkLt. apply holds_not. unfold holds, holdsb. cbn. destruct (Z.leb_spec 0 c); [lia|discriminate]. Qed.

(** The counting system. *)
Lemma term_reach m s0 : Init ts s0 -> exists c, (forall n s, Steps ts n s0 s -> cderivable (term_clauses ts m) pred (cfact s (c - Z.of_nat n))).
Proof.
  intros [r [A H]]. destruct (sum_value r (svars ts)) as [z Ez]. exists (m * z + 1)%Z. set (c := (m * z + 1)%Z). intros n. induction n as [|n IH]; intros s Hs.
  - inversion Hs; subst. replace (c - Z.of_nat 0)%Z with c by lia. rewrite <- (cfact_agree r s c A), <- (cfact_cur r c c).
    apply (cder (term_clauses ts m) (mkClause (atom_of (svars ts ++ [counter0])) (mkAnd [tinit ts; mkGt (Var counter0) (mkTimes [mkInt m; sum_term (svars ts)])]) []) (with_counters r c c)).
    + left. reflexivity.
    + intros a [].
    + apply holds_and2. split; [apply wc_state; [apply (wf_init ts W)|exact H]|].
      assert (Ez' : eval (with_counters r c c) (sum_term (svars ts)) = VInt z).
      { rewrite <- Ez. apply eval_agree. intros v Hv. unfold sum_term in Hv. assert (X : In v (svars ts)).
        { assert (Y : forall w, In w (filter is_int (svars ts)) -> In w (svars ts)) by (intros w Hw; apply filter_In in Hw; tauto). destruct (filter is_int (svars ts)) as [|a l]; [destruct Hv|].
          apply in_vars_app in Hv as [t [Ht Hv]]. apply in_map_iff in Ht as [w [<- Hw]]. cbn in Hv. apply Y. destruct Hv as [<-|[<-|[<-|[]]]]; exact Hw. }
        apply wc_other; [apply sv_c0|apply sv_c1]; exact X. }
      apply (holds_gt _ _ _ c (m * z)%Z); [reflexivity| |unfold c; lia]. unfold mkTimes. cbn [eval map interp fold1 fold_left mkInt]. rewrite Ez'. reflexivity.
  - apply Steps_snoc in Hs as [t [H1 [r1 [A1 [B1 H2]]]]]. specialize (IH t H1). set (k := (c - Z.of_nat n)%Z) in *. replace (c - Z.of_nat (S n))%Z with (k - 1)%Z by (unfold k; lia).
    unfold cfact at 1. rewrite <- (next_args r1 s B1), <- (cfact_next r1 k (k - 1)).
    apply (cder (term_clauses ts m) (mkClause (atom_of (map (shiftv 1) (svars ts ++ [counter0]))) (mkAnd [ttrans ts; counter_dec]) [atom_of (svars ts ++ [counter0])]) (with_counters r1 k (k - 1))).
    + right. left. reflexivity.
    + intros a [<-|[]]. cbn [asym atom_of]. rewrite (cfact_cur r1 k (k - 1)), (cfact_agree r1 t k A1). exact IH.
    + apply holds_and2. split; [apply wc_trans, H2|apply dec_holds].
Qed.
Lemma term_bound m : ~ cderivable (term_clauses ts m) exit [] -> forall s0, Init ts s0 -> exists B, forall n s, Steps ts n s0 s -> n <= B.
Proof.
  intros N s0 H0. destruct (term_reach m s0 H0) as [c Hc]. exists (Z.to_nat c). intros n s Hs.
  destruct (Nat.le_gt_cases n (Z.to_nat c)) as [L|L]; [exact L|]. exfalso. apply N. pose proof (Hc n s Hs) as D. set (k := (c - Z.of_nat n)%Z) in *.
  change (cderivable (term_clauses ts m) (asym query_head) (avals (with_counters s k k) query_head)).
  apply (cder (term_clauses ts m) (mkClause query_head (mkLt (Var counter0) (mkInt 0)) [atom_of (svars ts ++ [counter0])]) (with_counters s k k)).
  - right. right. left. reflexivity.
  - intros a [<-|[]]. cbn [asym atom_of]. rewrite (cfact_cur s k k). exact D.
  - apply neg_query. unfold k. lia.
Qed.

(** Counting only the steps on which the signal is raised. *)
Hypothesis NQ : state_formula ts (tquery ts).
Fixpoint signals (n : nat) (sq : nat -> state) : nat :=
  match n with O => 0 | S k => signals k sq + (if holds_dec (sq k) (tquery ts) then 1 else 0) end.
Definition execution (sq : nat -> state) (n : nat) : Prop := Init ts (sq 0) /\ forall i, i < n -> Step ts (sq i) (sq (S i)).

Lemma bounds_value (r : valuation) vs : exists z, forall t, In t (lower_bounds vs) -> exists y, eval r t = VInt y /\ (y < z)%Z.
Proof.
  assert (G : forall l, (forall t, In t l -> exists y, eval r t = VInt y) -> exists z, forall t, In t l -> exists y, eval r t = VInt y /\ (y < z)%Z).
  { induction l as [|a l IH]; intros H; [exists 0%Z; intros t []|]. destruct (H a (or_introl eq_refl)) as [y Ey]. destruct IH as [z Hz]; [intros t Ht; apply H; right; exact Ht|].
    exists (Z.max z (y + 1)). intros t [<-|Ht]; [exists y; split; [exact Ey|lia]|]. destruct (Hz t Ht) as [y' [E L]]. exists y'. split; [exact E|lia]. }
  apply G. intros t [<-|Ht]; [exists 0%Z; reflexivity|]. apply in_concat in Ht as [l [Hl Ht]]. apply in_map_iff in Hl as [v [<- _]]. destruct (is_int v) eqn:I; [|destruct Ht].
  destruct (int_value r v I) as [z E]. destruct Ht as [<-|[<-|[]]]; [eauto|]. unfold mkNeg, mkTimes. cbn [eval map interp fold1 fold_left mkInt]. cbn [eval] in E. rewrite E. cbn. eauto.
Qed.
Lemma live_reach (sq : nat -> state) : Init ts (sq 0) -> exists c, forall k, (forall i, i < k -> Step ts (sq i) (sq (S i))) ->
  cderivable (live_clauses ts) pred (cfact (sq k) (c - Z.of_nat (signals k sq))).
Proof.
  intros [r [A H]]. destruct (bounds_value r (svars ts)) as [c Hc]. exists c. intros k. induction k as [|k IH]; intros HS.
  - replace (c - Z.of_nat (signals 0 sq))%Z with c by (cbn; lia). rewrite <- (cfact_agree r (sq 0) c A), <- (cfact_cur r c c).
    apply (cder (live_clauses ts) (mkClause (atom_of (svars ts ++ [counter0])) (mkAnd [tinit ts; mkAnd (map (mkGt (Var counter0)) (lower_bounds (svars ts)))]) []) (with_counters r c c)).
    + left. reflexivity.
    + intros a [].
    + apply holds_and2. split; [apply wc_state; [apply (wf_init ts W)|exact H]|]. apply holds_and. apply Forall_forall. intros t Ht. apply in_map_iff in Ht as [b [<- Hb]].
      destruct (Hc b Hb) as [y [Ey L]]. apply (holds_gt _ _ _ c y); [reflexivity| |exact L]. rewrite <- Ey. apply eval_agree. intros v Hv.
      assert (X : In v (svars ts)).
      { destruct Hb as [<-|Hb]; [destruct Hv|]. apply in_concat in Hb as [l [Hl Hb]]. apply in_map_iff in Hl as [w [<- Hw]]. destruct (is_int w); [|destruct Hb].
        destruct Hb as [<-|[<-|[]]]; cbn in Hv; destruct Hv as [<-|[]]; exact Hw. }
      apply wc_other; [apply sv_c0|apply sv_c1]; exact X.
  - assert (D : cderivable (live_clauses ts) pred (cfact (sq k) (c - Z.of_nat (signals k sq)))) by (apply IH; intros i Hi; apply HS; lia).
    destruct (HS k (Nat.lt_succ_diag_r k)) as [r1 [A1 [B1 H2]]]. set (x := (c - Z.of_nat (signals k sq))%Z) in *.
    assert (Q : forall c', holds (with_counters r1 x c') (tquery ts) <-> holds (sq k) (tquery ts)).
    { intros c'. rewrite wc_state by (apply (wf_query ts W)). apply holds_agree. intros v Hv. apply A1, NQ, Hv. }
    unfold cfact. cbn [signals]. destruct (holds_dec (sq k) (tquery ts)) as [Y|Nn].
    + replace (c - Z.of_nat (signals k sq + 1))%Z with (x - 1)%Z by (unfold x; lia). rewrite <- (next_args r1 (sq (S k)) B1), <- (cfact_next r1 x (x - 1)).
      apply (cder (live_clauses ts) (mkClause (atom_of (map (shiftv 1) (svars ts ++ [counter0]))) (mkAnd [ttrans ts; tquery ts; counter_dec]) [atom_of (svars ts ++ [counter0])]) (with_counters r1 x (x - 1))).
      * right. right. left. reflexivity.
      * intros a [<-|[]]. cbn [asym atom_of]. rewrite (cfact_cur r1 x (x - 1)), (cfact_agree r1 (sq k) x A1). exact D.
      * apply holds_and3. split; [apply wc_trans, H2|]. split; [apply Q, Y|apply dec_holds].
    + replace (c - Z.of_nat (signals k sq + 0))%Z with x by (unfold x; lia). rewrite <- (next_args r1 (sq (S k)) B1), <- (cfact_next r1 x x).
      apply (cder (live_clauses ts) (mkClause (atom_of (map (shiftv 1) (svars ts ++ [counter0]))) (mkAnd [ttrans ts; mkNot (tquery ts); mkEq (Var counter1) (Var counter0)]) [atom_of (svars ts ++ [counter0])]) (with_counters r1 x x)).
      * right. left. reflexivity.
      * intros a [<-|[]]. cbn [asym atom_of]. rewrite (cfact_cur r1 x x), (cfact_agree r1 (sq k) x A1). exact D.
      * apply holds_and3. split; [apply wc_trans, H2|]. split; [apply holds_not; rewrite Q; exact Nn|]. apply holds_eq. reflexivity.
Qed.
Lemma live_bound : ~ cderivable (live_clauses ts) exit [] -> forall sq : nat -> state, Init ts (sq 0) ->
  exists B, forall k, (forall i, i < k -> Step ts (sq i) (sq (S i))) -> signals k sq <= B.
Proof.
  intros N sq H0. destruct (live_reach sq H0) as [c Hc]. exists (Z.to_nat c). intros k HS.
  destruct (Nat.le_gt_cases (signals k sq) (Z.to_nat c)) as [L|L]; [exact L|]. exfalso. apply N. pose proof (Hc k HS) as D. set (x := (c - Z.of_nat (signals k sq))%Z) in *.
  change (cderivable (live_clauses ts) (asym query_head) (avals (with_counters (sq k) x x) query_head)).
  apply (cder (live_clauses ts) (mkClause query_head (mkLt (Var counter0) (mkInt 0)) [atom_of (svars ts ++ [counter0])]) (with_counters (sq k) x x)).
  - right. right. right. left. reflexivity.
  - intros a [<-|[]]. cbn [asym atom_of]. rewrite (cfact_cur (sq k) x x). exact D.
  - apply neg_query. unfold x. lia.
Qed.
End Counter.

(** ** Lassos *)
Section Lasso.
Variable ts : tsys.
Hypothesis W : ts_wf ts = true.
Let V := svars ts.
Definition defaults : list value := map (fun v => default_value (vsort v)) V.
(** A valuation that stores a state under the stored copies and the flag. *)
Definition with_store (r st : valuation) (b : bool) : valuation := fun v =>
  if var_eqb v stored_flag then VBool b else
  match vtag v with TTime (Zneg xH) => st (shiftv 1 v) | _ => r v end.
Lemma ws_flag r st b : with_store r st b stored_flag = VBool b.
Proof. reflexivity. Qed.
Lemma ws_stored r st b v : In v V -> with_store r st b (stored v) = st v.
Proof.
  intros H. pose proof (wf_svars0 ts W v H) as T. destruct v as [x t s]. cbn in T. subst t. unfold with_store, stored. cbn [shiftv vtag vbase vsort Z.add].
  match goal with |- context [var_eqb ?a ?b] => destruct (var_eqb_spec a b) as [E|_] end; [discriminate E|]. reflexivity.
Qed.
Lemma ws_time r st b n v : vtag v = TTime n -> (0 <= n)%Z -> with_store r st b v = r v.
Proof.
  intros T L. unfold with_store. destruct (var_eqb_spec v stored_flag) as [->|_]; [discriminate T|]. rewrite T. destruct n; try reflexivity. lia.
Qed.
Lemma ws_cur r st b : args (with_store r st b) V = args r V.
Proof. apply args_agree. intros v Hv. apply (ws_time _ _ _ 0); [apply (wf_svars0 ts W v Hv)|lia]. Qed.
Lemma ws_next r st b : args (with_store r st b) (nextvars ts) = args r (nextvars ts).
Proof.
  apply args_agree. intros v Hv. unfold nextvars in Hv. apply in_map_iff in Hv as [w [<- Hw]]. apply (ws_time _ _ _ 1); [|lia].
  pose proof (wf_svars0 ts W w Hw) as T. destruct w as [x t s]. cbn in *. subst t. reflexivity.
Qed.
Lemma ws_sto r st b : map (eval (with_store r st b)) (map (fun v => Var (stored v)) V) = args st V.
Proof.
  rewrite map_map. apply map_ext_in. intros v Hv. cbn [eval]. rewrite (ws_stored r st b v Hv). unfold stored. rewrite shiftv_sort. reflexivity.
Qed.
Lemma ws_trans r st b : holds (with_store r st b) (ttrans ts) <-> holds r (ttrans ts).
Proof.
  apply holds_agree. intros v Hv. apply (wf_trans ts W) in Hv as [Hv|[[w [Hw ->]]|Hv]].
  - apply (ws_time _ _ _ 0); [apply (wf_svars0 ts W v Hv)|lia].
  - apply (ws_time _ _ _ 1); [|lia]. pose proof (wf_svars0 ts W w Hw) as T. destruct w as [x t s]. cbn in *. subst t. reflexivity.
  - apply (ws_time _ _ _ 0); [apply (wf_avars0 ts W v Hv)|lia].
Qed.
Definition lfact (s st : list value) (b : bool) : list value := s ++ st ++ [VBool b].
Lemma vals_vars r l : map (eval r) (map Var l) = args r l.
Proof. rewrite map_map. reflexivity. Qed.
Lemma vals_default r : map (eval r) (map (fun v => Const (default_value (vsort v))) V) = defaults.
Proof. rewrite map_map. reflexivity. Qed.

(** What the clauses derive. *)
Let cs := lasso_clauses ts.
Let ns := mkAtom pred (map Var V ++ map (fun v => Const (default_value (vsort v))) V ++ [tt_false]).
Lemma ns_vals r : avals r ns = lfact (args r V) defaults false.
Proof. unfold avals, ns, lfact. cbn [aargs]. rewrite !map_app, vals_vars, vals_default. reflexivity. Qed.
Lemma lasso_reach n s0 s : Init ts s0 -> Steps ts n s0 s -> cderivable cs pred (lfact (args s V) defaults false).
Proof.
  intros [r0 [A0 H0]]. revert s. induction n as [|n IH]; intros s Hs.
  - inversion Hs; subst. rewrite <- (args_agree' r0 s V A0), <- ns_vals. apply (cder cs (mkClause ns (tinit ts) []) r0); [left; reflexivity|intros a []|exact H0].
  - apply Steps_snoc in Hs as [t [H1 [r [A [B H2]]]]]. specialize (IH t H1).
    set (q := with_store r (fun v => default_value (vsort v)) false).
    assert (E : avals q (mkAtom pred (map Var (nextvars ts) ++ map (fun v => Var (stored v)) V ++ [Var stored_flag])) = lfact (args s V) defaults false).
    { unfold avals, lfact. cbn [aargs]. rewrite !map_app, vals_vars. unfold q. rewrite ws_next, ws_sto, (next_args ts r s B). f_equal. f_equal.
      apply map_ext. intros v. cbn [eval]. unfold coerce. destruct (vsort v); reflexivity. }
    rewrite <- E. apply (cder cs (mkClause (mkAtom pred (map Var (nextvars ts) ++ map (fun v => Var (stored v)) V ++ [Var stored_flag])) (ttrans ts) [mkAtom pred (map Var V ++ map (fun v => Var (stored v)) V ++ [Var stored_flag])]) q).
    + right. left. reflexivity.
    + intros a [<-|[]]. cbn [asym].
      assert (E' : avals q (mkAtom pred (map Var V ++ map (fun v => Var (stored v)) V ++ [Var stored_flag])) = lfact (args t V) defaults false).
      { unfold avals, lfact. cbn [aargs]. rewrite !map_app, vals_vars. unfold q. rewrite ws_cur, ws_sto, (args_agree' r t V A). f_equal. f_equal.
        apply map_ext. intros v. cbn [eval]. unfold coerce. destruct (vsort v); reflexivity. }
      rewrite E'. exact IH.
    + apply ws_trans, H2.
Qed.
Lemma lasso_loop n s0 s m s' : Init ts s0 -> Steps ts n s0 s -> Steps ts (S m) s s' -> cderivable cs pred (lfact (args s' V) (args s V) true).
Proof.
  intros H0 Hs. pose proof (lasso_reach n s0 s H0 Hs) as D. revert s'. induction m as [|m IH]; intros s' Hm.
  - inversion Hm as [|? ? t ? [r [A [B H2]]] Ht]; subst. inversion Ht; subst.
    assert (E : avals r (mkAtom pred (map Var (nextvars ts) ++ map Var V ++ [tt_true])) = lfact (args s' V) (args s V) true).
    { unfold avals, lfact. cbn [aargs]. rewrite !map_app, !vals_vars, (next_args ts r s' B), (args_agree' r s V A). reflexivity. }
    rewrite <- E. apply (cder cs (mkClause (mkAtom pred (map Var (nextvars ts) ++ map Var V ++ [tt_true])) (ttrans ts) [ns]) r).
    + right. right. left. reflexivity.
    + intros a [<-|[]]. cbn [asym]. rewrite ns_vals, (args_agree' r s V A). exact D.
    + exact H2.
  - apply (proj1 (Steps_snoc ts (S m) s s')) in Hm as [t [H1 [r [A [B H2]]]]]. specialize (IH t H1). set (q := with_store r s true).
    assert (E : avals q (mkAtom pred (map Var (nextvars ts) ++ map (fun v => Var (stored v)) V ++ [Var stored_flag])) = lfact (args s' V) (args s V) true).
    { unfold avals, lfact. cbn [aargs]. rewrite !map_app, vals_vars. unfold q. rewrite ws_next, ws_sto, (next_args ts r s' B). reflexivity. }
    rewrite <- E. apply (cder cs (mkClause (mkAtom pred (map Var (nextvars ts) ++ map (fun v => Var (stored v)) V ++ [Var stored_flag])) (ttrans ts) [mkAtom pred (map Var V ++ map (fun v => Var (stored v)) V ++ [Var stored_flag])]) q).
    + right. left. reflexivity.
    + intros a [<-|[]]. cbn [asym].
      assert (E' : avals q (mkAtom pred (map Var V ++ map (fun v => Var (stored v)) V ++ [Var stored_flag])) = lfact (args t V) (args s V) true).
      { unfold avals, lfact. cbn [aargs]. rewrite !map_app, vals_vars. unfold q. rewrite ws_cur, ws_sto, (args_agree' r t V A). reflexivity. }
      rewrite E'. exact IH.
    + apply ws_trans, H2.
Qed.

(** A state that is reachable and reaches itself. *)
Definition has_lasso : Prop := exists n m s0 s s', Init ts s0 /\ Steps ts n s0 s /\ Steps ts (S m) s s' /\ args s V = args s' V.

Definition meaning (p : sym) (vs : list value) : Prop :=
  (p = pred -> forall s st b, length s = length V -> length st = length V -> vs = lfact s st b ->
     exists n s0 t, Init ts s0 /\ Steps ts n s0 t /\
       (b = false -> args t V = s) /\
       (b = true -> args t V = st /\ exists m u, Steps ts (S m) t u /\ args u V = s)) /\
  (p = exit -> has_lasso).
Lemma app_len_inj {A} (a b a' b' : list A) : length a = length a' -> a ++ b = a' ++ b' -> a = a' /\ b = b'.
Proof.
  revert a'. induction a as [|x a IH]; intros [|y a'] L E; try discriminate L; [auto|]. cbn in *. injection E as -> E. destruct (IH a' ltac:(lia) E) as [-> ->]. auto.
Qed.
Lemma lfact_inj s st b s' st' b' : length s = length V -> length s' = length V -> length st = length V -> length st' = length V ->
  lfact s st b = lfact s' st' b' -> s = s' /\ st = st' /\ b = b'.
Proof.
  intros L1 L2 L3 L4 E. unfold lfact in E. apply app_len_inj in E as [E1 E]; [|lia]. apply app_len_inj in E as [E2 E]; [|lia]. injection E as E. auto.
Qed.
Lemma sto_vals r : map (eval r) (map (fun v => Var (stored v)) V) = args (fun v => r (stored v)) V.
Proof. rewrite map_map. apply map_ext. intros v. cbn [eval]. unfold stored. rewrite shiftv_sort. reflexivity. Qed.
Lemma next_state r : args r (nextvars ts) = args (fun v => r (shiftv 1 v)) V.
Proof. unfold nextvars. apply args_map, shiftv_sort. Qed.
Lemma step_of r : holds r (ttrans ts) -> Step ts r (fun v => r (shiftv 1 v)).
Proof. intros H. exists r. split; [intros v _; reflexivity|]. split; [reflexivity|exact H]. Qed.
Lemma flag_val r : exists b, eval r (Var stored_flag) = VBool b.
Proof. cbn [eval]. pose proof (coerce_sort SBool (r stored_flag)) as S. cbn [vsort stored_flag]. destruct (coerce SBool (r stored_flag)); try discriminate S. eauto. Qed.
(** Continuing an execution at a state with the same values. *)
Lemma steps_join n s0 t r s' : Init ts s0 -> Steps ts n s0 t -> args t V = args r V -> Step ts r s' ->
  exists s0' t', Init ts s0' /\ Steps ts n s0' t' /\ args t' V = args r V /\ Step ts t' (norm s') .
Proof.
  intros H0 Hn E Hs. exists (norm s0), (norm t). split; [apply Init_norm, H0|]. split; [apply Steps_norm, Hn|]. split; [rewrite norm_args; exact E|].
  apply (Step_agree ts (norm r) (norm t) (norm s') (norm s')); [intros v Hv; symmetry; revert v Hv; apply args_norm, E|intros v _; reflexivity|apply Step_norm, Hs].
Qed.

Lemma lasso_sound : forall p vs, cderivable cs p vs -> meaning p vs.
Proof.
  apply cderivable_least. intros c r Hc Hb Hf. assert (LV : forall x, length (args x V) = length V) by (intros x; apply args_length).
  assert (LD : length defaults = length V) by (apply map_length).
  destruct Hc as [<-|[<-|[<-|[<-|[]]]]]; cbn [chead cfla cbody asym] in *; (split; [intros Ep|intros Ep; try discriminate Ep]); try (discriminate Ep).
  - intros s st b Ls Lst E. rewrite ns_vals in E. apply lfact_inj in E as [<- [<- <-]]; auto.
    exists 0, r, r. split; [exists r; split; [intros v _; reflexivity|exact Hf]|]. split; [constructor|]. split; [reflexivity|discriminate].
  - intros s st b Ls Lst E. unfold avals in E. cbn [aargs] in E. rewrite !map_app, vals_vars, sto_vals in E. cbn [map] in E. destruct (flag_val r) as [b0 Eb]. rewrite Eb, next_state in E.
    change (lfact (args (fun v => r (shiftv 1 v)) V) (args (fun v => r (stored v)) V) b0 = lfact s st b) in E. apply lfact_inj in E as [<- [<- <-]]; auto.
    specialize (Hb _ (or_introl eq_refl)). cbn [asym] in Hb. destruct Hb as [Hb _]. destruct (Hb eq_refl (args r V) (args (fun v => r (stored v)) V) b0) as [n [s0 [t [H0 [Hn [HF HT]]]]]]; auto.
    { unfold avals, lfact. cbn [aargs]. rewrite !map_app, vals_vars, sto_vals. cbn [map]. rewrite Eb. reflexivity. }
    destruct b0.
    + destruct (HT eq_refl) as [Et [m [u [Hm Eu]]]]. exists n, (norm s0), (norm t). split; [apply Init_norm, H0|]. split; [apply Steps_norm, Hn|]. split; [discriminate|]. intros _.
      split; [rewrite norm_args; exact Et|]. exists (S m), (norm (fun v => r (shiftv 1 v))). split; [|apply norm_args].
      apply (proj2 (Steps_snoc ts (S m) _ _)). exists (norm u). split; [apply Steps_norm, Hm|].
      apply (Step_agree ts (norm r) (norm u) (norm (fun v => r (shiftv 1 v))) _); [intros v Hv; symmetry; revert v Hv; apply args_norm, Eu|intros v _; reflexivity|apply Step_norm, step_of, Hf].
    + specialize (HF eq_refl). destruct (steps_join n s0 t r _ H0 Hn HF (step_of r Hf)) as [s0' [t' [H0' [Hn' [Et' St']]]]].
      exists (S n), s0', (norm (fun v => r (shiftv 1 v))). split; [exact H0'|]. split; [apply (proj2 (Steps_snoc ts n _ _)); eauto|]. split; [intros _; apply norm_args|discriminate].
  - intros s st b Ls Lst E. unfold avals in E. cbn [aargs] in E. rewrite !map_app, !vals_vars, next_state in E. cbn [map eval tt_true] in E.
    change (lfact (args (fun v => r (shiftv 1 v)) V) (args r V) true = lfact s st b) in E. apply lfact_inj in E as [<- [<- <-]]; auto.
    specialize (Hb _ (or_introl eq_refl)). destruct Hb as [Hb _]. cbn [asym] in Hb. destruct (Hb eq_refl (args r V) defaults false) as [n [s0 [t [H0 [Hn [HF _]]]]]]; auto.
    { apply ns_vals. }
    specialize (HF eq_refl). destruct (steps_join n s0 t r _ H0 Hn HF (step_of r Hf)) as [s0' [t' [H0' [Hn' [Et' St']]]]].
    exists n, s0', t'. split; [exact H0'|]. split; [exact Hn'|]. split; [discriminate|]. intros _. split; [exact Et'|].
    exists 0, (norm (fun v => r (shiftv 1 v))). split; [apply Steps_1, St'|apply norm_args].
  - specialize (Hb _ (or_introl eq_refl)). destruct Hb as [Hb _]. cbn [asym] in Hb. destruct (Hb eq_refl (args r V) (args r V) true) as [n [s0 [t [H0 [Hn [_ HT]]]]]]; auto.
    { unfold avals, lfact. cbn [aargs]. rewrite !map_app, !vals_vars. reflexivity. }
    destruct (HT eq_refl) as [Et [m [u [Hm Eu]]]]. exists n, m, s0, t, u. split; [exact H0|]. split; [exact Hn|]. split; [exact Hm|]. congruence.
Qed.
Lemma lasso_complete : has_lasso -> cderivable cs exit [].
Proof.
  intros [n [m [s0 [s [s' [H0 [Hn [Hm E]]]]]]]]. pose proof (lasso_loop n s0 s m s' H0 Hn Hm) as D. rewrite E in D.
  change (cderivable cs (asym query_head) (avals s' query_head)).
  apply (cder cs (mkClause query_head tt_true [mkAtom pred (map Var V ++ map Var V ++ [tt_true])]) s').
  - right. right. right. left. reflexivity.
  - intros a [<-|[]]. cbn [asym]. unfold avals. cbn [aargs]. rewrite !map_app, !vals_vars. exact D.
  - apply holds_true.
Qed.
End Lasso.
