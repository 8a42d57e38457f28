(** * TRL: the main loop. *)
From Verif Require Import Syntax Solver TransSys TSLemmas KTo1Model FormulaModel FormulaProofs Lin MbpModel MbpLia MbpProofs Names ListLemmas TrlModel TrlGreedy TrlProofs.
Open Scope list_scope.
Open Scope nat_scope.

Lemma holds_ext r r' t : (forall v, In v (vars t) -> coerce (vsort v) (r v) = coerce (vsort v) (r' v)) -> (holds r t <-> holds r' t).
Proof. intros H. unfold holds, holdsb. rewrite (eval_ext r r' t H). tauto. Qed.
Lemma nth_error_firstn_lt {A} (l : list A) n k : k < n -> nth_error (firstn n l) k = nth_error l k.
Proof. revert n k. induction l as [|a l IH]; intros [|n] [|k] H; cbn; try reflexivity; try lia. apply IH. lia. Qed.
Lemma firstn_S_nth {A} (l : list A) n a : nth_error l n = Some a -> firstn (S n) l = firstn n l ++ [a].
Proof. revert n. induction l as [|b l IH]; intros [|n] H; try discriminate; cbn in *; [injection H as ->; reflexivity|]. f_equal. apply IH, H. Qed.

(** ** Loops found in traces *)
Section Loops.
Variable same : term -> term -> bool.
Lemma last_known_in t seen p : last_known same t seen = Some p -> exists u, In (u, p) seen.
Proof. induction seen as [|[u i] seen IH]; cbn; [discriminate|]. destruct (same t u); [intros E; injection E as <-; eauto|]. intros E. destruct (IH E) as [w H]. eauto. Qed.
Lemma loop_scan_ok trs : forall i seen best l, (forall u p, In (u, p) seen -> p < i) -> (forall b, best = Some b -> 1 <= lp_len b /\ lp_start b + lp_len b < i + length trs) ->
  loop_scan same trs i seen best = Some l -> 1 <= lp_len l /\ lp_start l + lp_len l < i + length trs.
Proof.
  induction trs as [|t trs IH]; intros i seen best l Hs Hb; cbn [loop_scan length]; [intros E; apply Hb in E; cbn [length] in E; exact E|]. intros E.
  replace (i + S (length trs)) with (S i + length trs) by lia. apply IH in E; [exact E| |].
  - intros u p [H|H]; [injection H as <- <-; lia|apply Hs in H; lia].
  - intros b Eb. cbn [length] in Hb. destruct (last_known same t seen) as [p|] eqn:El; [|specialize (Hb b Eb); lia]. destruct (last_known_in _ _ _ El) as [u Hu]. apply Hs in Hu.
    destruct best as [b0|]; [|injection Eb as <-; cbn; lia]. destruct (Nat.ltb (i - p) (lp_len b0)); [injection Eb as <-; cbn; lia|]. specialize (Hb b Eb). lia.
Qed.
Lemma get_loop_ok trace l : get_loop same trace = Some l -> 1 <= lp_len l /\ lp_start l + lp_len l < length trace.
Proof.
  intros E. apply loop_scan_ok in E; [|intros u p []|discriminate]. rewrite map_length, combine_length, seq_length in E. lia.
Qed.
End Loops.

Section Run.
Variable check : check_fn.
Hypothesis Hc : check_ok check.
Variable mbp : mbp_fn.
Hypothesis Hmbp : mbp_ok mbp.
Variable ts : tsys.
Hypothesis wf : ts_wf ts = true.
(** The names TRL reserves. *)
Definition trl_names : Prop := forall v, In v (svars ts ++ avars ts) -> vbase v <> "trl_id"%string /\ forall n, vbase v <> String.append "trl_lc" (to_string n).
Hypothesis names : trl_names.
Lemma state_id v : In v (svars ts) -> vbase v <> "trl_id"%string.
Proof. intros H. apply names. apply in_app_iff. left. exact H. Qed.
Lemma counter_fresh n k : ~ In (counter_var n k) (map (shv k) (svars ts)).
Proof.
  intros H. apply in_map_iff in H as [w [E Hw]]. apply (f_equal vbase) in E. assert (B : vbase (shv k w) = vbase w) by (unfold shv, shiftv; destruct (vtag w); reflexivity). rewrite B in E.
  destruct (names w) as [_ N]; [apply in_app_iff; left; exact Hw|]. apply (N (Z.of_nat n)). exact E.
Qed.
Lemma trans_rel_vars : rel_vars ts (ttrans ts).
Proof.
  intros v Hv. destruct (wf_trans ts wf v Hv) as [H|[[w [Hw ->]]|H]]; [left; exact H|right; left; eauto|]. right. right. split; [apply (wf_avars0 ts wf), H|]. apply names. apply in_app_iff. right. exact H.
Qed.

(** ** Blocking clauses *)
Record binfo := mkBI { bi_loop : loop; bi_idx : nat; bi_p : term }.
Definition bc_of (b : binfo) : bclause :=
  let l := bi_loop b in
  let shifted := shift_to ts (mkNot (bi_p b)) (lp_start l) (lp_start l + lp_len l) in
  mkBC (if Nat.eqb (lp_len l) 1 then mkOr [shifted; mkLt (mkInt 0) (Var (index_var (lp_start l)))] else shifted) (lp_start l + lp_len l - 1).
Definition pairv (x y : state) : valuation := fun v => coerce (vsort v) (if inb v (nextvars ts) then y (shiftv (-1) v) else x v).
Definition bP (b : binfo) (x y : state) : Prop := holds (pairv x y) (bi_p b).
Lemma bP_dec b x y : {bP b x y} + {~ bP b x y}.
Proof. unfold bP, holds. destruct (holdsb (pairv x y) (bi_p b)); [left; reflexivity|right; discriminate]. Qed.
Lemma not_next v : In v (svars ts) -> inb v (nextvars ts) = false.
Proof.
  intros H. apply inb_false. intros X. apply in_map_iff in X as [w [<- Hw]]. apply (wf_svars0 ts wf) in H. rewrite (shiftv_time 1 w 0%Z) in H by (apply (wf_svars0 ts wf), Hw). discriminate H.
Qed.
Lemma not_state v : In v (svars ts) -> inb (shiftv 1 v) (svars ts) = false.
Proof.
  intros H. apply inb_false. intros X. apply (wf_svars0 ts wf) in X. rewrite (shiftv_time 1 v 0%Z) in X by (apply (wf_svars0 ts wf), H). discriminate X.
Qed.
Lemma next_in v : In v (svars ts) -> inb (shiftv 1 v) (nextvars ts) = true.
Proof. intros H. apply inb_true, in_map, H. Qed.
Lemma shift_back v : shiftv (-1) (shiftv 1 v) = v.
Proof. rewrite shiftv_shiftv. apply shiftv_0. Qed.
Record b_ok (rels : list term) (b : binfo) : Prop := {
  bo_len : 1 <= lp_len (bi_loop b);
  bo_idx : 1 <= bi_idx b < length rels;
  bo_vars : forall v, In v (vars (bi_p b)) -> In v (svars ts ++ nextvars ts);
  bo_rel : exists rel, nth_error rels (bi_idx b) = Some rel /\ forall r, holds r (bi_p b) -> exists r', agree_on (svars ts ++ nextvars ts) r r' /\ holds r' rel
}.
(** The i-th relation. *)
Definition Ri (rels : list term) (i : nat) (x y : state) : Prop := exists rel, nth_error rels i = Some rel /\ rsem ts rel x y.
Lemma bP_rel rels b x y : b_ok rels b -> bP b x y -> Ri rels (bi_idx b) x y.
Proof.
  intros [_ _ V [rel [E U]]] H. exists rel. split; [exact E|]. destruct (U _ H) as [r' [A Hr]].
  exists (fun v => if inb v (svars ts) then x v else if inb v (nextvars ts) then y (shiftv (-1) v) else r' v). split; [|split].
  - intros v Hv. apply inb_true in Hv. rewrite Hv. reflexivity.
  - intros v Hv. rewrite (not_state v Hv), (next_in v Hv), shift_back. reflexivity.
  - refine (proj1 (holds_ext _ _ _ _) Hr). intros v _. destruct (inb v (svars ts)) eqn:Es.
    + apply inb_true in Es. rewrite <- (A v) by (apply in_app_iff; left; exact Es). unfold pairv. rewrite (not_next v Es), coerce_idem. reflexivity.
    + destruct (inb v (nextvars ts)) eqn:En; [|reflexivity]. pose proof En as Hn. apply inb_true in Hn. rewrite <- (A v) by (apply in_app_iff; right; exact Hn). unfold pairv. rewrite En, coerce_idem. reflexivity.
Qed.

(** ** One assignment for a trace *)
Definition bigv (sg : nat -> state) (id : nat -> nat) (w : nat -> valuation) : valuation := fun v =>
  match vtag v with
  | TTime z => if String.eqb (vbase v) "trl_id" then VInt (Z.of_nat (id (Z.to_nat z))) else glue (svars ts) (fun z => sg (Z.to_nat z)) (fun z => w (Z.to_nat z)) v
  | _ => VBool false
  end.
Lemma big_state sg id w k v : In v (svars ts) -> bigv sg id w (shv k v) = sg k v.
Proof.
  intros H. pose proof (wf_svars0 ts wf v H) as T. unfold bigv, shv. rewrite (shiftv_time _ v 0%Z T).
  assert (B : vbase (shiftv (Z.of_nat k) v) = vbase v) by (unfold shiftv; rewrite T; reflexivity). rewrite B. pose proof (state_id v H) as N. apply String.eqb_neq in N. rewrite N.
  rewrite glue_state by assumption. rewrite Nat2Z.id. reflexivity.
Qed.
Lemma big_aux sg id w k v : ~ In v (svars ts) -> vtag v = TTime 0 -> vbase v <> "trl_id"%string -> bigv sg id w (shv k v) = w k v.
Proof.
  intros H T N. unfold bigv, shv. rewrite (shiftv_time _ v 0%Z T).
  assert (B : vbase (shiftv (Z.of_nat k) v) = vbase v) by (unfold shiftv; rewrite T; reflexivity). rewrite B. apply String.eqb_neq in N. rewrite N.
  rewrite glue_aux by assumption. rewrite Nat2Z.id. reflexivity.
Qed.
Lemma big_index sg id w k : bigv sg id w (index_var k) = VInt (Z.of_nat (id k)).
Proof. unfold bigv, index_var. cbn [vtag vbase]. rewrite Nat2Z.id. reflexivity. Qed.
Lemma big_rel sg id w k rel : rel_vars ts rel -> agree_on (svars ts) (w k) (sg k) -> (forall v, In v (svars ts) -> w k (shiftv 1 v) = sg (S k) v) -> holds (w k) rel -> holds (bigv sg id w) (sh k rel).
Proof.
  intros V A B H. unfold sh. rewrite holds_shift. refine (proj1 (holds_agree (w k) _ _ _) H). intros v Hv. change (shiftv (Z.of_nat k) v) with (shv k v).
  destruct (V v Hv) as [Hs|[[u [Hu ->]]|[T N]]].
  - rewrite big_state by exact Hs. apply A, Hs.
  - replace (shv k (shiftv 1 u)) with (shv (S k) u) by (unfold shv; rewrite shiftv_shiftv; f_equal; lia). rewrite big_state by exact Hu. apply B, Hu.
  - destruct (inb v (svars ts)) eqn:E; [apply inb_true in E; rewrite big_state by exact E; apply A, E|]. apply inb_false in E. rewrite big_aux by assumption. reflexivity.
Qed.
Lemma shift_to_sorted b e : well_sorted (map (fun v => (v, Var (shv b v))) (svars ts) ++ map (fun v => (v, Var (shv (e - 1) v))) (nextvars ts)).
Proof.
  intros v u E r. apply lookup_in, in_app_iff in E as [E|E]; apply in_map_iff in E as [x [E _]]; injection E as <- <-; cbn [eval]; rewrite coerce_sort; apply shv_sort.
Qed.
Lemma lookup_self (f : var -> var) vs w : In w vs -> lookup w (map (fun v => (v, Var (f v))) vs) = Some (Var (f w)).
Proof.
  induction vs as [|x vs IH]; intros Hw; [destruct Hw|]. cbn. destruct (var_eqb_spec w x) as [->|N]; [reflexivity|]. destruct Hw as [->|Hw]; [congruence|apply IH, Hw].
Qed.
Lemma big_shift_to sg id w p b e : (forall v, In v (vars p) -> In v (svars ts ++ nextvars ts)) -> b < e ->
  (holds (bigv sg id w) (shift_to ts p b e) <-> holds (pairv (sg b) (sg e)) p).
Proof.
  intros V L. unfold shift_to. rewrite (holds_subst _ _ _ (shift_to_sorted b e)). apply holds_agree. intros v Hv. unfold Syntax.upd, pairv. rewrite lookup_app.
  destruct (inb v (svars ts)) eqn:Es.
  - apply inb_true in Es. rewrite (lookup_self (shv b) _ v Es), (not_next v Es). cbn [eval]. rewrite big_state by exact Es. rewrite shv_sort. reflexivity.
  - apply inb_false in Es. specialize (V v Hv). apply in_app_iff in V as [V|V]; [contradiction|].
    assert (N : lookup v (map (fun v => (v, Var (shv b v))) (svars ts)) = None) by (apply lookup_none; rewrite map_map; cbn [fst]; rewrite map_id; exact Es).
    rewrite N, (lookup_self (shv (e - 1)) _ v V). apply in_map_iff in V as [u [<- Hu]]. rewrite (next_in u Hu), shift_back. cbn [eval].
    replace (shv (e - 1) (shiftv 1 u)) with (shv e u) by (unfold shv; rewrite shiftv_shiftv; f_equal; lia). rewrite big_state by exact Hu. rewrite shv_sort, shiftv_sort. reflexivity.
Qed.

Record inv (frames : list (list term)) (rels : list term) (bs : list binfo) (size : nat -> nat) : Prop := {
  iv_hd : nth_error rels 0 = Some (ttrans ts);
  iv_vars : forall rel, In rel rels -> rel_vars ts rel;
  iv_trans : forall i rel, 1 <= i -> nth_error rels i = Some rel -> transitive_rel ts rel;
  iv_size : forall j, 1 <= size j <= length rels;
  iv_frames : forall j, j < length frames -> nth_error frames j = Some (frame j (firstn (size j) rels) (map bc_of bs));
  iv_b : forall b, In b bs -> b_ok rels b;
  iv_bsize : forall b, In b bs -> lp_start (bi_loop b) < length frames -> bi_idx b < size (lp_start (bi_loop b));
  iv_query : forall j, j < length frames -> unsat (frames_query ts (firstn j frames) ++ [sh j (tquery ts)])
}.
Notation tr_ok rels bs size := (trace_ok state (Ri rels) size binfo bs (fun b => lp_start (bi_loop b)) (fun b => lp_len (bi_loop b)) bP).

Lemma mk_index_eq r k z : holds r (mkEq (Var (index_var k)) (mkInt z)) <-> coerce SInt (r (index_var k)) = VInt z.
Proof. rewrite holds_eq. reflexivity. Qed.
Lemma big_index_eq sg id w k z : holds (bigv sg id w) (mkEq (Var (index_var k)) (mkInt z)) <-> Z.of_nat (id k) = z.
Proof. rewrite mk_index_eq, big_index. cbn [coerce]. split; [intros E; injection E as E; exact E|intros ->; reflexivity]. Qed.

Lemma trace_sat frames rels bs size : inv frames rels bs size -> forall K sg id, K <= length frames -> tr_ok rels bs size K sg id -> no_aux ts = true -> Init ts (sg 0) ->
  exists r, Forall (holds r) (frames_query ts (firstn K frames)) /\ forall v, In v (svars ts) -> r (shv K v) = sg K v.
Proof.
  intros J K sg id HK T Na Hi.
  assert (W : exists w : nat -> valuation, forall j, j < K -> exists rel, nth_error rels (id j) = Some rel /\ agree_on (svars ts) (w j) (sg j) /\ (forall v, In v (svars ts) -> w j (shiftv 1 v) = sg (S j) v) /\ holds (w j) rel).
  { clear HK. induction K as [|K IH]; [exists (fun _ => sg 0); intros j Hj; lia|]. destruct IH as [w Hw]; [intros j Hj; apply T; lia|].
    destruct (so_rel _ _ _ _ _ _ _ _ _ _ _ (T K (Nat.lt_succ_diag_r K))) as [rel [E [r [R1 [R2 R3]]]]]. exists (fun j => if Nat.eqb j K then r else w j). intros j Hj.
    destruct (Nat.eqb_spec j K) as [->|N]; [exists rel; auto|apply Hw; lia]. }
  destruct W as [w Hw]. exists (bigv sg id w). split; [|intros v Hv; apply big_state, Hv]. unfold frames_query. constructor.
  - apply Init_holds in Hi; [|exact Na]. refine (proj1 (holds_agree _ _ _ _) Hi). intros v Hv. rewrite <- (shiftv_0 v) at 2. symmetry. apply (big_state sg id w 0). apply (no_aux_init ts Na), Hv.
  - apply Forall_concat, Forall_forall. intros f Hf. apply In_nth_error in Hf as [j Hj]. assert (Lj : j < K).
    { assert (X : nth_error (firstn K frames) j <> None) by congruence. apply nth_error_Some in X. rewrite firstn_length in X. lia. }
    rewrite nth_error_firstn_lt in Hj by exact Lj. rewrite (iv_frames _ _ _ _ J j) in Hj by lia. injection Hj as <-.
    destruct (T j Lj) as [S1 S2 S3 S4]. destruct (Hw j Lj) as [rel [E [A [B H]]]]. unfold frame. apply Forall_app. split; [|apply Forall_app; split].
    + unfold transitivity. destruct j as [|j']; [constructor|]. constructor; [|constructor]. apply holds_or. destruct S3 as [S3|S3]; [lia| |].
      * apply Exists_cons_hd. apply big_index_eq. lia.
      * apply Exists_cons_tl, Exists_cons_hd. rewrite holds_not, holds_eq. change (eval (bigv sg id w) (Var (index_var (S j')))) with (coerce SInt (bigv sg id w (index_var (S j')))).
        change (eval (bigv sg id w) (Var (index_var j'))) with (coerce SInt (bigv sg id w (index_var j'))). rewrite !big_index. cbn [coerce]. intros X. injection X as X. apply S3. replace (S j' - 1) with j' by lia. lia.
    + constructor; [|constructor]. unfold next_step. apply holds_or, Exists_exists. exists (mkAnd [sh j rel; mkEq (Var (index_var j)) (mkInt (Z.of_nat (id j)))]). split.
      * apply in_map_iff. exists (id j, rel). split; [reflexivity|].
        assert (E' : nth_error (firstn (size j) rels) (id j) = Some rel) by (rewrite nth_error_firstn_lt by exact S1; exact E).
        apply (nth_error_In (combine (seq 0 (length (firstn (size j) rels))) (firstn (size j) rels)) (id j)).
        clear - E'. assert (G : forall (l : list term) a k x, nth_error l k = Some x -> nth_error (combine (seq a (length l)) l) k = Some (a + k, x)).
        { induction l as [|y l IH]; intros a k x Ek; destruct k as [|k]; try discriminate; cbn in *; [injection Ek as ->; rewrite Nat.add_0_r; reflexivity|]. rewrite (IH (S a) k x Ek). f_equal. f_equal. lia. }
        rewrite (G _ 0 _ _ E'). reflexivity.
      * apply holds_and. constructor; [|constructor; [apply big_index_eq; reflexivity|constructor]]. apply big_rel; auto. apply (iv_vars _ _ _ _ J). apply nth_error_In in E. exact E.
    + apply Forall_forall. intros c Hc'. apply in_map_iff in Hc' as [bc [<- Hb]]. apply filter_In in Hb as [Hb Ed]. apply in_map_iff in Hb as [b [<- Hb]]. apply Nat.eqb_eq in Ed. change (bc_depth (bc_of b)) with (lp_start (bi_loop b) + lp_len (bi_loop b) - 1) in Ed.
      destruct (iv_b _ _ _ _ J b Hb) as [B1 B2 B3 B4]. specialize (S4 b Hb). cbv beta in S4. assert (Es : lp_start (bi_loop b) + lp_len (bi_loop b) = S j) by (clear - Ed B1; lia). specialize (S4 Es). unfold bc_of; cbv zeta; cbn [bc_clause].
      assert (Sh : ~ bP b (sg (lp_start (bi_loop b))) (sg (S j)) -> holds (bigv sg id w) (shift_to ts (mkNot (bi_p b)) (lp_start (bi_loop b)) (lp_start (bi_loop b) + lp_len (bi_loop b)))).
      { intros N. apply big_shift_to; [|lia|].
        - intros v Hv. apply B3. rewrite vars_not in Hv. exact Hv.
        - rewrite Es. rewrite holds_not. exact N. }
      destruct (Nat.eqb_spec (lp_len (bi_loop b)) 1) as [L1|L1].
      * apply holds_or. destruct S4 as [[_ S4]|S4].
        -- apply Exists_cons_tl, Exists_cons_hd. unfold mkLt. rewrite holds_not. unfold holds, holdsb, mkLeq, mkInt. cbn [eval map interp vsort index_var].
           change (mkVar "trl_id" (TTime (Z.of_nat (lp_start (bi_loop b)))) SInt) with (index_var (lp_start (bi_loop b))). rewrite big_index. cbn [asb]. change (coerce SInt (VInt (Z.of_nat (id (lp_start (bi_loop b)))))) with (VInt (Z.of_nat (id (lp_start (bi_loop b))))). cbn [vleq]. rewrite Z.leb_le. clear - S4; lia.
        -- apply Exists_cons_hd, Sh, S4.
      * destruct S4 as [[S4 _]|S4]; [contradiction|apply Sh, S4].
Qed.

(** ** SAFE *)
Lemma replayed frames rels bs size : inv frames rels bs size -> no_aux ts = true -> 0 < length frames -> unsat (frames_query ts frames) ->
  forall n s s', Init ts s -> Steps ts n s s' -> exists k sg id, k < length frames /\ tr_ok rels bs size k sg id /\ sg 0 = s /\ sg k = s'.
Proof.
  intros J Na Hl Hu n s s' Hi Hs.
  assert (Tr : forall i a b c, 1 <= i -> Ri rels i a b -> Ri rels i b c -> Ri rels i a c).
  { intros i a b c Li [rel [E1 H1]] [rel' [E2 H2]]. assert (rel' = rel) by congruence. subst rel'. exists rel. split; [exact E1|]. apply (iv_trans _ _ _ _ J i rel Li E1 a b c H1 H2). }
  assert (Rn : run state (Ri rels) s s').
  { clear Hi. revert s' Hs. induction n as [|n IH]; intros s' Hs; [inversion Hs; constructor|]. apply Steps_snoc in Hs as [t [H1 H2]]. econstructor; [apply IH, H1|]. exists (ttrans ts). split; [apply (iv_hd _ _ _ _ J)|exact H2]. }
  destruct (replay state (Ri rels) Tr size (fun j => proj1 (iv_size _ _ _ _ J j)) binfo bs (fun b => lp_start (bi_loop b)) (fun b => lp_len (bi_loop b)) bi_idx bP bP_dec) with (last := length frames - 1) (I := Init ts) (s := s) (t := s')
    as [k [sg [id [Kl [T [E0 Ek]]]]]]; auto.
  - intros b x y Hbb. apply bP_rel, (iv_b _ _ _ _ J b Hbb).
  - intros b Hbb. apply (bo_idx _ _ (iv_b _ _ _ _ J b Hbb)).
  - intros b Hbb. apply (bo_len _ _ (iv_b _ _ _ _ J b Hbb)).
  - intros b Hbb L. apply (iv_bsize _ _ _ _ J b Hbb). lia.
  - intros sg id Hi' T. destruct (trace_sat _ _ _ _ J (length frames) sg id) as [r [R1 _]]; auto; [replace (length frames) with (S (length frames - 1)) by lia; exact T|]. rewrite firstn_all in R1. apply (Hu r R1).
  - exists k, sg, id. split; [lia|]. auto.
Qed.
Lemma final frames rels bs size : inv frames rels bs size -> no_aux ts = true -> 0 < length frames -> unsat (frames_query ts frames) -> safe ts.
Proof.
  intros J Na Hl Hu n [s [s' [Hi [Hs Hb]]]]. destruct (replayed _ _ _ _ J Na Hl Hu n s s' Hi Hs) as [k [sg [id [Kl [T [E0 Ek]]]]]].
  assert (Hi' : Init ts (sg 0)) by (rewrite E0; exact Hi). destruct (trace_sat _ _ _ _ J k sg id) as [r [R1 R2]]; auto; [lia|].
  apply (iv_query _ _ _ _ J k) with (r := r); [lia|]. apply Forall_app. split; [exact R1|]. constructor; [|constructor]. apply Bad_holds in Hb; [|exact Na]. unfold sh. rewrite holds_shift.
  refine (proj1 (holds_agree _ _ _ _) Hb). intros v Hv. rewrite <- Ek. symmetry. apply R2, (no_aux_query ts Na), Hv.
Qed.

(** ** The witness *)
Section Witness.
Variable qe : qe_fn.
Hypothesis Hq : qe_ok qe.
Definition at_step (x : state) : valuation := bigv (fun _ => x) (fun _ => 0) (fun _ => x).
Definition sys_formula (i : nat) (f : term) : Prop := forall v, In v (vars f) -> In v (system_vars ts i).
Lemma sys_agree i f r r' : sys_formula i f -> (forall v, In v (svars ts) -> r (shv i v) = r' (shv i v)) -> (holds r f <-> holds r' f).
Proof. intros V H. apply holds_agree. intros v Hv. apply V, in_map_iff in Hv as [w [<- Hw]]. apply H, Hw. Qed.
Lemma parts_ok ext n : forall i cur parts, sys_formula i cur -> invariant_parts qe ts ext cur i n = Some parts ->
  forall k sg, k < n -> holds (at_step (sg i)) cur -> (forall j, i <= j <= i + k -> exists rel r, (forall r', holds r' (sh j rel) -> holds r' (sh j ext)) /\ rel_vars ts rel /\ agree_on (svars ts) r (sg j) /\ (forall v, In v (svars ts) -> r (shiftv 1 v) = sg (S j) v) /\ holds r rel) ->
  exists p, In p parts /\ holds (sg (S (i + k))) p.
Proof.
  induction n as [|n IH]; intros i cur parts V E k sg Hk Hc' Hr; [lia|]. cbn [invariant_parts] in E. destruct (qe (mkAnd [cur; sh i ext]) (system_vars ts (S i))) as [c|] eqn:Eq; [|discriminate].
  destruct (invariant_parts qe ts ext c (S i) n) as [ps|] eqn:Ep; [|discriminate]. cbn [option_map] in E. injection E as <-. destruct (Hq _ _ _ Eq) as [Q1 Q2].
  assert (Hn : holds (at_step (sg (S i))) c).
  { destruct (Hr i) as [rel [r [Re [Rv [A [B H]]]]]]; [lia|]. apply Q2. exists (bigv sg (fun _ => 0) (fun _ => r)). split.
    - intros v Hv. apply in_map_iff in Hv as [w [<- Hw]]. unfold at_step. rewrite !big_state by exact Hw. reflexivity.
    - apply holds_and. constructor; [|constructor; [|constructor]].
      + refine (proj1 (sys_agree i cur _ _ V _) Hc'). intros v Hv. unfold at_step. rewrite !big_state by exact Hv. reflexivity.
      + apply Re. apply big_rel; assumption. }
  destruct k as [|k].
  - exists (shift (- Z.of_nat (S i)) c). split; [left; reflexivity|]. rewrite Nat.add_0_r. rewrite holds_shift. refine (proj1 (holds_agree _ _ _ _) Hn). intros v Hv. apply Q1, in_map_iff in Hv as [w [<- Hw]].
    unfold at_step. rewrite big_state by exact Hw. unfold shv. rewrite shiftv_shiftv. replace (- Z.of_nat (S i) + Z.of_nat (S i))%Z with 0%Z by lia. rewrite shiftv_0. reflexivity.
  - destruct (IH (S i) c ps Q1 Ep k sg) as [p [Hp1 Hp2]]; [lia|exact Hn|intros j Hj; apply Hr; lia|]. exists p. split; [right; exact Hp1|]. replace (S (i + S k)) with (S (S i + k)) by lia. exact Hp2.
Qed.
Lemma parts_state ext n : forall i cur parts, invariant_parts qe ts ext cur i n = Some parts -> forall p, In p parts -> state_formula ts p.
Proof.
  induction n as [|n IH]; intros i cur parts E p Hp; cbn [invariant_parts] in E; [injection E as <-; destruct Hp|].
  destruct (qe (mkAnd [cur; sh i ext]) (system_vars ts (S i))) as [c|] eqn:Eq; [|discriminate]. destruct (invariant_parts qe ts ext c (S i) n) as [ps|] eqn:Ep; [|discriminate]. cbn [option_map] in E. injection E as <-.
  destruct Hp as [<-|Hp]; [|apply (IH _ _ _ Ep p Hp)]. intros v Hv. rewrite vars_shift in Hv. apply in_map_iff in Hv as [u [<- Hu]]. destruct (Hq _ _ _ Eq) as [Q1 _]. apply Q1, in_map_iff in Hu as [w [<- Hw]].
  unfold shv. rewrite shiftv_shiftv. match goal with |- context [shiftv ?z w] => replace z with 0%Z by lia end. rewrite shiftv_0. exact Hw.
Qed.
Record covers (f : term) : Prop := {
  cv_state : state_formula ts f;
  cv_reach : forall n s s', Init ts s -> Steps ts n s s' -> holds s' f
}.
Lemma witness_covers frames rels bs size u f : inv frames rels bs size -> no_aux ts = true -> length frames = S u -> unsat (frames_query ts frames) -> trl_invariant qe ts rels u = Some f -> covers f.
Proof.
  intros J Na El Hu E. unfold trl_invariant in E. destruct (invariant_parts qe ts (mkOr rels) (tinit ts) 0 u) as [parts|] eqn:Ep; [|discriminate]. cbn [option_map] in E. injection E as <-. split.
  - apply state_formula_or. intros g [<-|Hg]; [apply (no_aux_init ts Na)|apply (parts_state _ _ _ _ _ Ep g Hg)].
  - intros n s s' Hi Hs. destruct (replayed _ _ _ _ J Na ltac:(lia) Hu n s s' Hi Hs) as [k [sg [id [Kl [T [E0 Ek]]]]]]. apply holds_or.
    destruct k as [|k]; [apply Exists_cons_hd; rewrite <- Ek, E0; apply Init_holds; assumption|]. apply Exists_cons_tl, Exists_exists.
    assert (V0 : sys_formula 0 (tinit ts)) by (intros v Hv; apply in_map_iff; exists v; split; [apply shv_0|apply (no_aux_init ts Na), Hv]).
    destruct (parts_ok (mkOr rels) u 0 (tinit ts) parts V0 Ep k sg) as [p [Hp1 Hp2]].
    + lia.
    + rewrite <- E0 in Hi. apply Init_holds in Hi; [|exact Na]. refine (proj1 (holds_agree _ _ _ _) Hi). intros v Hv. rewrite <- (shiftv_0 v) at 2. symmetry. apply (big_state (fun _ => sg 0) _ _ 0). apply (no_aux_init ts Na), Hv.
    + intros j Hj. destruct (so_rel _ _ _ _ _ _ _ _ _ _ _ (T j ltac:(lia))) as [rel [Er [r [R1 [R2 R3]]]]]. apply nth_error_In in Er. exists rel, r. split; [|split; [apply (iv_vars _ _ _ _ J rel Er)|auto]].
      intros r' Hr'. unfold sh in *. rewrite holds_shift in *. apply holds_or, Exists_exists. exists rel. auto.
    + exists p. split; [exact Hp1|]. rewrite <- Ek. exact Hp2.
Qed.
End Witness.

(** ** What a model of the frames says *)
Definition over_time (t : term) : Prop := forall v, In v (vars t) -> exists k w, In w (svars ts) /\ v = shv k w.
Lemma combine_seq_nth {A} (l : list A) : forall a i x, In (i, x) (combine (seq a (length l)) l) -> a <= i /\ nth_error l (i - a) = Some x.
Proof.
  induction l as [|y l IH]; intros a i x H; [destruct H|]. cbn in H. destruct H as [H|H]; [injection H as <- <-; rewrite Nat.sub_diag; split; [lia|reflexivity]|].
  apply IH in H as [H1 H2]. split; [lia|]. replace (i - a) with (S (i - S a)) by lia. exact H2.
Qed.
Lemma nth_firstn_some {A} (l : list A) n k x : nth_error (firstn n l) k = Some x -> nth_error l k = Some x.
Proof. revert n k. induction l as [|a l IH]; intros [|n] [|k] H; try discriminate; cbn in *; [exact H|]. apply (IH n k H). Qed.
Lemma model_step m rels n k t : holds m (next_step k (firstn n rels)) -> trace_step mbp ts m rels k = Some t -> holds m t /\ over_time t.
Proof.
  intros H E. apply holds_or, Exists_exists in H as [d [Hd H]]. apply in_map_iff in Hd as [[i rel] [<- Hd]]. cbn [fst snd] in H. apply holds_and in H. inversion H as [|? ? H1 H']; subst. apply Forall_inv in H'. clear H.
  apply combine_seq_nth in Hd as [_ Hd]. rewrite Nat.sub_0_r in Hd. apply nth_firstn_some in Hd. apply mk_index_eq in H'. unfold trace_step in E. rewrite H' in E. cbn [asz] in E.
  destruct (Z.ltb_spec (Z.of_nat i) 0); [lia|]. rewrite Nat2Z.id, Hd in E. apply (project_to_ok _ Hmbp) in E; [|exact H1]. split; [apply (mbp_model _ _ _ _ E H1)|].
  intros v Hv. apply (mbp_vars _ _ _ _ E), in_map_iff in Hv as [u [<- Hu]]. apply in_app_iff in Hu as [Hu|Hu]; [eauto|]. apply in_map_iff in Hu as [w [<- Hw]]. exists (S k), w. split; [exact Hw|].
  unfold shv. rewrite shiftv_shiftv. f_equal. lia.
Qed.
Lemma model_trace frames rels bs size m u trace : inv frames rels bs size -> length frames = S u -> Forall (holds m) (frames_query ts frames) -> trace_of mbp ts m rels u = Some trace ->
  length trace = S u /\ Forall (fun t => holds m t /\ over_time t) trace.
Proof.
  intros J El Hm E. apply mapM_forall2 in E. assert (Hn : Forall (fun k => exists n, holds m (next_step k (firstn n rels))) (seq 0 (S u))).
  { apply Forall_forall. intros k Hk. apply in_seq in Hk. exists (size k). unfold frames_query in Hm. apply Forall_inv_tail in Hm. rewrite Forall_concat in Hm. rewrite Forall_forall in Hm.
    assert (Hf : In (frame k (firstn (size k) rels) (map bc_of bs)) frames) by (apply (nth_error_In _ k); apply (iv_frames _ _ _ _ J); lia). apply Hm in Hf. unfold frame in Hf. apply Forall_app in Hf as [_ Hf]. apply Forall_inv in Hf. exact Hf. }
  revert E Hn. rewrite <- (seq_length (S u) 0) at 3. generalize (seq 0 (S u)) as ks. intros ks. revert trace. induction ks as [|k ks IH]; intros trace E Hn; inversion E as [|? t ? tr Et Er]; subst; [split; [reflexivity|constructor]|].
  destruct (IH _ Er (Forall_inv_tail Hn)) as [L F]. split; [cbn; rewrite L; reflexivity|]. constructor; [|exact F]. destruct (Forall_inv Hn) as [n Hk]. apply (model_step m rels n k t Hk Et).
Qed.
Lemma diff_var_inj i j : diff_var i = diff_var j -> i = j.
Proof. intros E. apply (f_equal vbase) in E. unfold diff_var in E. cbn [vbase String.append] in E. repeat (injection E as E). apply to_string_inj in E. lia. Qed.
Lemma extend_time l m v : vtag v <> TBase -> extend ts l m v = m v.
Proof.
  intros H. unfold extend. induction (int_vars ts) as [|p ps IH]; cbn [fold_right]; [reflexivity|]. unfold set_val at 1. destruct (var_eqb_spec v (diff_var (fst p))) as [E|E]; [subst v; exfalso; apply H; reflexivity|exact IH].
Qed.
Lemma extend_over l m t : over_time t -> (holds (extend ts l m) t <-> holds m t).
Proof.
  intros V. apply holds_agree. intros v Hv. apply extend_time. destruct (V v Hv) as [k [w [Hw ->]]]. unfold shv. rewrite (shiftv_time _ w 0%Z) by (apply (wf_svars0 ts wf), Hw). discriminate.
Qed.
Lemma extend_diff l m i w : In (i, w) (int_vars ts) -> extend ts l m (diff_var i) = eval m (diff_term l w).
Proof.
  assert (Fn : forall j w w', In (j, w) (int_vars ts) -> In (j, w') (int_vars ts) -> w = w').
  { intros j w1 w2 H1 H2. apply filter_In in H1 as [H1 _]. apply filter_In in H2 as [H2 _]. apply combine_seq_nth in H1 as [_ H1]. apply combine_seq_nth in H2 as [_ H2]. congruence. }
  intros H. unfold extend. revert Fn H. generalize (int_vars ts) as ps. induction ps as [|[j w'] ps IH]; intros Fn H; [destruct H|]. cbn [fold_right fst snd]. unfold set_val at 1.
  destruct (var_eqb_spec (diff_var i) (diff_var j)) as [E|E].
  - apply diff_var_inj in E. subst j. rewrite (Fn i w w'); [reflexivity|exact H|left; reflexivity].
  - destruct H as [H|H]; [injection H as -> ->; contradiction E; reflexivity|]. apply IH; [|exact H]. intros k x y Hx Hy. apply (Fn k); right; assumption.
Qed.
Lemma extend_eqs l m : Forall (holds (extend ts l m)) (diff_eqs ts l).
Proof.
  apply Forall_forall. intros e He. apply in_map_iff in He as [[i w] [<- Hi]]. cbn [fst snd]. destruct (int_vars_sort ts i w Hi) as [Ws Wi].
  assert (X : eval (extend ts l m) (diff_term l w) = eval m (diff_term l w)).
  { apply eval_agree. intros v Hv. apply extend_time. assert (T : forall k, vtag (shv k w) <> TBase) by (intros k; unfold shv; rewrite (shiftv_time _ w 0%Z) by (apply (wf_svars0 ts wf), Wi); discriminate).
    unfold diff_term in Hv. apply in_vars_app in Hv as [t0 [[<-|[<-|[]]] Hv]]; [destruct Hv as [<-|[]]; apply T|]. apply in_vars_app in Hv as [t0 [[<-|[<-|[]]] Hv]]; [destruct Hv|destruct Hv as [<-|[]]; apply T]. }
  rewrite holds_eq, X. cbn [eval]. rewrite (extend_diff l m i w Hi). unfold diff_var at 1. cbn [vsort]. rewrite (diff_eval l m w Ws). reflexivity.
Qed.
Lemma learn_ok m l n trace rel : 1 <= lp_len l -> Forall (fun t => holds m t /\ over_time t) trace ->
  transitive_projection mbp ts (mkAnd (firstn (lp_len l) (skipn (lp_start l) trace))) m l n = Some rel ->
  transitive_rel ts (unshift_from ts rel 0 (lp_len l)) /\ rel_vars ts (unshift_from ts rel 0 (lp_len l)).
Proof.
  intros Hl Ht E. assert (Hf : Forall (fun t => holds m t /\ over_time t) (firstn (lp_len l) (skipn (lp_start l) trace))).
  { apply Forall_forall. intros t Hi. rewrite Forall_forall in Ht. apply Ht. rewrite <- (firstn_skipn (lp_start l) trace). apply in_app_iff. right. rewrite <- (firstn_skipn (lp_len l) (skipn (lp_start l) trace)). apply in_app_iff. left. exact Hi. }
  apply (learned_ok mbp Hmbp ts wf l Hl n (counter_fresh n) _ _ _ E).
  - apply holds_and. eapply Forall_impl; [|exact Hf]. intros t [H _]. exact H.
  - apply holds_and. constructor; [|constructor; [apply holds_and, extend_eqs|constructor]]. apply holds_and. eapply Forall_impl; [|exact Hf]. intros t [H1 H2]. apply (extend_over l m t H2), H1.
Qed.

(** ** The loop *)
Lemma find_relation_in simp val rels rel : find_relation check simp val rels = Some rel -> In rel rels.
Proof.
  induction rels as [|r rels IH]; cbn; [discriminate|]. destruct (term_eqb _ tt_false); [intros E; right; auto|]. destruct (term_eqb _ tt_true); [intros E; injection E as <-; left; reflexivity|].
  destruct (is_sat _); [intros E; injection E as <-; left; reflexivity|intros E; right; auto].
Qed.
Lemma inv_frame frames rels bs size : inv frames rels bs size -> unsat (frames_query ts frames ++ [sh (length frames) (tquery ts)]) ->
  inv (frames ++ [frame (length frames) rels (map bc_of bs)]) rels bs (fun j => if Nat.eqb j (length frames) then length rels else size j).
Proof.
  intros J Hq. pose proof (iv_size _ _ _ _ J 0) as L0. split; try apply J.
  - intros j. destruct (Nat.eqb j (length frames)); [lia|apply (iv_size _ _ _ _ J)].
  - intros j Hj. rewrite app_length in Hj. cbn in Hj. destruct (Nat.eqb_spec j (length frames)) as [->|N].
    + rewrite nth_error_app2, Nat.sub_diag by lia. rewrite firstn_all. reflexivity.
    + rewrite nth_error_app1 by lia. apply (iv_frames _ _ _ _ J). lia.
  - intros b Hb L. rewrite app_length in L. cbn in L. destruct (Nat.eqb_spec (lp_start (bi_loop b)) (length frames)) as [E|N]; [apply (bo_idx _ _ (iv_b _ _ _ _ J b Hb))|apply (iv_bsize _ _ _ _ J b Hb); lia].
  - intros j Hj. rewrite app_length in Hj. cbn in Hj. destruct (Nat.eq_dec j (length frames)) as [->|N].
    + rewrite firstn_app, Nat.sub_diag, firstn_all. cbn [firstn]. rewrite app_nil_r. exact Hq.
    + rewrite firstn_app. replace (j - length frames) with 0 by lia. cbn [firstn]. rewrite app_nil_r. apply (iv_query _ _ _ _ J). lia.
Qed.
Lemma frame_more j rels bs b : j <> bc_depth (bc_of b) -> frame j rels (map bc_of (bs ++ [b])) = frame j rels (map bc_of bs).
Proof.
  intros N. unfold frame. rewrite map_app, filter_app. cbn [map filter]. destruct (Nat.eqb_spec (bc_depth (bc_of b)) j); [congruence|]. rewrite app_nil_r. reflexivity.
Qed.
Lemma inv_block frames rels bs size b : inv frames rels bs size -> b_ok rels b -> lp_start (bi_loop b) <= length frames ->
  inv (firstn (lp_start (bi_loop b)) frames) rels (bs ++ [b]) size.
Proof.
  intros J B L. pose proof (bo_len _ _ B) as Lb. assert (Lf : length (firstn (lp_start (bi_loop b)) frames) = lp_start (bi_loop b)) by (rewrite firstn_length; lia). split; try apply J.
  - intros j Hj. rewrite Lf in Hj. rewrite nth_error_firstn_lt by exact Hj. rewrite (iv_frames _ _ _ _ J) by lia. f_equal. symmetry. apply frame_more. unfold bc_of. cbv zeta. cbn [bc_depth]. lia.
  - intros b' Hb. apply in_app_iff in Hb as [Hb|[<-|[]]]; [apply (iv_b _ _ _ _ J b' Hb)|exact B].
  - intros b' Hb. rewrite Lf. apply in_app_iff in Hb as [Hb|[<-|[]]]; [|lia]. intros Hj. apply (iv_bsize _ _ _ _ J b' Hb). lia.
  - intros j Hj. rewrite Lf in Hj. rewrite firstn_firstn. replace (Nat.min j (lp_start (bi_loop b))) with j by lia. apply (iv_query _ _ _ _ J). lia.
Qed.
Lemma inv_learn frames rels bs size rel : inv frames rels bs size -> transitive_rel ts rel -> rel_vars ts rel -> inv frames (rels ++ [rel]) bs size.
Proof.
  intros J T V. assert (L : 1 <= length rels) by (pose proof (iv_size _ _ _ _ J 0); lia). split.
  - rewrite nth_error_app1 by lia. apply (iv_hd _ _ _ _ J).
  - intros r Hr. apply in_app_iff in Hr as [Hr|[<-|[]]]; [apply (iv_vars _ _ _ _ J r Hr)|exact V].
  - intros i r Hi E. destruct (Nat.lt_ge_cases i (length rels)) as [H|H]; [rewrite nth_error_app1 in E by exact H; apply (iv_trans _ _ _ _ J i r Hi E)|].
    rewrite nth_error_app2 in E by exact H. destruct (i - length rels) as [|k]; cbn in E; [injection E as <-; exact T|destruct k; discriminate].
  - intros j. pose proof (iv_size _ _ _ _ J j). rewrite app_length. cbn. lia.
  - intros j Hj. rewrite (iv_frames _ _ _ _ J j Hj). f_equal. f_equal. rewrite firstn_app. pose proof (iv_size _ _ _ _ J j). replace (size j - length rels) with 0 by lia. cbn [firstn]. rewrite app_nil_r. reflexivity.
  - intros b Hb. destruct (iv_b _ _ _ _ J b Hb) as [B1 B2 B3 [r [B4 B5]]]. split; [exact B1|rewrite app_length; cbn; lia|exact B3|]. exists r. split; [rewrite nth_error_app1 by lia; exact B4|exact B5].
  - apply (iv_bsize _ _ _ _ J).
  - apply (iv_query _ _ _ _ J).
Qed.

Variable qe : qe_fn.
Variable simp : term -> term.
Variable same : term -> term -> bool.
Hypothesis Na : no_aux ts = true.
Theorem trl_loop_safe cw fuel : forall frames rels bs size lc i, inv frames rels bs size ->
  trl_loop check mbp qe simp same ts cw fuel (length frames) frames rels (map bc_of bs) lc = TrlSafe i -> safe ts /\ (forall f, i = Some f -> qe_ok qe -> covers f).
Proof.
  induction fuel as [|fuel IH]; intros frames rels bs size lc i J; cbn [trl_loop]; [discriminate|].
  destruct (check (frames_query ts frames ++ [sh (length frames) (tquery ts)])) as [m0| |] eqn:C1; try discriminate. apply (check_unsat _ Hc) in C1.
  pose proof (inv_frame _ _ _ _ J C1) as J1. set (frames' := frames ++ [frame (length frames) rels (map bc_of bs)]) in *. set (size' := fun j => if Nat.eqb j (length frames) then length rels else size j) in *.
  assert (L' : length frames' = S (length frames)) by (unfold frames'; rewrite app_length; cbn; lia).
  destruct (check (frames_query ts frames')) as [m| |] eqn:C2; [| |discriminate].
  - destruct (trace_of mbp ts m rels (length frames)) as [trace|] eqn:Et; [|discriminate]. apply (check_sat _ Hc) in C2. destruct (model_trace _ _ _ _ _ _ _ J1 L' C2 Et) as [Lt Ft].
    destruct (get_loop same trace) as [l|] eqn:El; [|rewrite <- L'; apply (IH frames' rels bs size' lc i J1)]. apply get_loop_ok in El as [Ll Sl]. cbv zeta.
    set (val := loop_valuation ts l m).
    assert (Done : forall rel rels' idx lc', inv frames' rels' bs size' -> 1 <= idx -> nth_error rels' idx = Some rel ->
      match check (map (fun p => mkEq (Var (fst p)) (snd p)) val ++ [rel]) with
      | SAT m2 => match blocking_clause mbp ts l rel m2 with
                  | None => TrlThrow
                  | Some c => trl_loop check mbp qe simp same ts cw fuel (lp_start l) (firstn (lp_start l) frames') rels' (map bc_of bs ++ [mkBC c (lp_start l + lp_len l - 1)]) lc'
                  end
      | _ => TrlThrow
      end = TrlSafe i -> safe ts /\ (forall f, i = Some f -> qe_ok qe -> covers f)).
    { intros rel rels' idx lc' J2 Hi Ei. destruct (check (map _ val ++ [rel])) as [m2| |] eqn:C3; try discriminate. apply (check_sat _ Hc), Forall_app in C3 as [_ C3]. apply Forall_inv in C3.
      unfold blocking_clause. destruct (trl_project mbp ts rel m2 0) as [p|] eqn:Ep; [|discriminate]. apply (project_to_ok _ Hmbp) in Ep; [|exact C3].
      assert (M0 : map (shv 0) (svars ts ++ nextvars ts) = svars ts ++ nextvars ts) by (rewrite <- (map_id (svars ts ++ nextvars ts)) at 2; apply map_ext; intros v; apply shv_0). rewrite M0 in Ep.
      pose (b := mkBI l idx p). assert (B : b_ok rels' b).
      { split; [exact Ll|split; [exact Hi|]|apply (mbp_vars _ _ _ _ Ep)|].
        - apply nth_error_Some. cbn [b bi_idx]. congruence.
        - exists rel. split; [exact Ei|apply (mbp_under _ _ _ _ Ep)]. }
      intros E. pose proof (inv_block _ _ _ _ b J2 B) as J3. cbn [b bi_loop] in J3. specialize (J3 ltac:(lia)). apply (IH _ _ _ _ lc' i J3). rewrite <- E. rewrite map_app. cbn [map]. rewrite firstn_length. replace (Nat.min (lp_start l) (length frames')) with (lp_start l) by lia. reflexivity. }
    destruct (find_relation check simp val (tl rels)) as [rel|] eqn:Ef.
    + apply find_relation_in in Ef. apply In_nth_error in Ef as [k Ek]. apply (Done rel rels (S k) lc J1); [lia|]. destruct rels; [destruct k; discriminate|exact Ek].
    + destruct (transitive_projection mbp ts (mkAnd (firstn (lp_len l) (skipn (lp_start l) trace))) m l lc) as [rel|] eqn:Er; [|discriminate].
      destruct (learn_ok m l lc trace rel Ll Ft Er) as [T V]. apply (Done _ _ (length rels) (S lc) (inv_learn _ _ _ _ _ J1 T V)).
      * pose proof (iv_size _ _ _ _ J 0). lia.
      * rewrite nth_error_app2, Nat.sub_diag by lia. reflexivity.
  - apply (check_unsat _ Hc) in C2. intros E. split; [apply (final _ _ _ _ J1 Na); [lia|exact C2]|]. intros f -> Hq. destruct cw; [|discriminate]. destruct (trl_invariant qe ts rels (length frames)) as [f'|] eqn:Ei; [|discriminate].
    injection E as ->. apply (witness_covers qe Hq _ _ _ _ _ _ J1 Na L' C2 Ei).
Qed.
Theorem trl_safe cw fuel i : trl check mbp qe simp same ts cw fuel = TrlSafe i -> safe ts /\ (forall f, i = Some f -> qe_ok qe -> covers f).
Proof.
  apply (trl_loop_safe cw fuel [] [ttrans ts] [] (fun _ => 1) 0 i). split; cbn.
  - reflexivity.
  - intros rel [<-|[]]. apply trans_rel_vars.
  - intros j rel Hj E. destruct j as [|[|j]]; [lia|discriminate|discriminate].
  - intros _. lia.
  - intros j Hj. lia.
  - intros b [].
  - intros b [].
  - intros j Hj. lia.
Qed.
End Run.
