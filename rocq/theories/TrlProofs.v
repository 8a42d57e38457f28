(** * TRL: projections and learned relations. *)
From Verif Require Import Syntax Solver TransSys TSLemmas KTo1Model FormulaModel FormulaProofs FormulaProofs2 Lin MbpModel MbpLia MbpProofs Names TrlModel.
Open Scope list_scope.
Open Scope nat_scope.

(** ** Implicants *)
Lemma mapM_forall2 {A B} (f : A -> option B) l : forall out, MbpModel.mapM f l = Some out -> Forall2 (fun a b => f a = Some b) l out.
Proof.
  induction l as [|a l IH]; intros out; cbn; [intros E; injection E as <-; constructor|]. destruct (f a) eqn:E; [|discriminate].
  change ((fix go l0 := match l0 with [] => Some [] | a0 :: l' => match f a0, go l' with Some b0, Some bs => Some (b0 :: bs) | _, _ => None end end) l) with (MbpModel.mapM f l).
  destruct (MbpModel.mapM f l); [|discriminate]. intros X. injection X as <-. constructor; auto.
Qed.
Record implicant_of (m : valuation) (t : term) (ls : list term) : Prop := {
  io_under : forall r, Forall (holds r) ls -> holds r t;
  io_vars : forall v, In v (lvars ls) -> In v (vars t);
  io_model : holds m t -> Forall (holds m) ls
}.
Lemma implicant_self m t : implicant_of m t [t].
Proof.
  split.
  - intros r H. apply Forall_inv in H. exact H.
  - intros v Hv. apply in_lvars in Hv as [u [[<-|[]] Hv]]. exact Hv.
  - intros H. constructor; [exact H|constructor].
Qed.
Lemma collect_ok m t : forall ls, collect m t = Some ls -> implicant_of m t ls.
Proof.
  induction t as [v|c|f ts IH] using term_ind'; intros ls; cbn [collect].
  - destruct (is_atom (Var v)); [|discriminate]. intros E. injection E as <-. apply implicant_self.
  - destruct (is_atom (Const c)); [|discriminate]. intros E. injection E as <-. apply implicant_self.
  - destruct (is_atom (App f ts)) eqn:Ea; [intros E; injection E as <-; apply implicant_self|].
    destruct f; try discriminate.
    + destruct (MbpModel.mapM (collect m) ts) as [lss|] eqn:E; [|discriminate]. intros X. injection X as <-. apply mapM_forall2 in E.
      clear Ea. assert (G : Forall2 (implicant_of m) ts lss).
      { revert lss E. induction ts as [|t ts IHt]; intros lss E; inversion E; subst; constructor; [apply (Forall_inv IH); assumption|]. apply IHt; [apply (Forall_inv_tail IH)|assumption]. }
      clear E IH. split.
      * intros r H. apply holds_and. induction G as [|t l ts lss Ht G IHG]; constructor; cbn [concat] in H; apply Forall_app in H as [H1 H2]; [apply (io_under _ _ _ Ht), H1|apply IHG, H2].
      * intros v Hv. apply in_vars_app. induction G as [|t l ts lss Ht G IHG]; [destruct Hv|]. cbn [concat] in Hv. unfold lvars in Hv. rewrite map_app, concat_app, in_app_iff in Hv.
        destruct Hv as [Hv|Hv]; [exists t; split; [left; reflexivity|apply (io_vars _ _ _ Ht), Hv]|]. destruct (IHG Hv) as [u [Hu Hv']]. exists u. split; [right; exact Hu|exact Hv'].
      * intros H. apply holds_and in H. induction G as [|t l ts lss Ht G IHG]; cbn [concat]; [constructor|]. apply Forall_app. inversion H; subst. split; [apply (io_model _ _ _ Ht); assumption|apply IHG; assumption].
    + intros E. assert (X : exists u, In u ts /\ (holdsb m u = true) /\ collect m u = Some ls).
      { clear IH Ea. induction ts as [|u ts IHt]; [discriminate|]. destruct (holdsb m u) eqn:Hu; [exists u; split; [left; reflexivity|auto]|]. destruct (IHt E) as [w [Hw R]]. exists w. split; [right; exact Hw|exact R]. }
      destruct X as [u [Hu [Hm X]]]. rewrite Forall_forall in IH. destruct (IH u Hu ls X) as [A1 A2 A3]. split.
      * intros r H. apply holds_or. apply Exists_exists. exists u. split; [exact Hu|apply A1, H].
      * intros v Hv. apply in_vars_app. exists u. split; [exact Hu|apply A2, Hv].
      * intros _. apply A3. exact Hm.
    + destruct ts as [|a [|]]; try discriminate. destruct (is_atom a); [|discriminate]. intros E. injection E as <-. apply implicant_self.
Qed.

Section Rel.
Variable mbp : mbp_fn.
Hypothesis Hmbp : mbp_ok mbp.
Lemma project_to_ok fla keep m g : project_to mbp fla keep m = Some g -> holds m fla -> is_mbp fla keep m g.
Proof.
  unfold project_to. destruct (mbp fla keep m) as [g0|] eqn:E; [|discriminate]. destruct (is_bool g0) eqn:Eb; [|discriminate]. destruct (nnf g0) as [f|] eqn:En; [|discriminate].
  destruct (collect m f) as [ls|] eqn:Ec; [|discriminate]. cbn [option_map]. intros X Hm. injection X as <-. destruct (Hmbp fla keep m g0 E Hm) as [M1 M2 M3].
  destruct (collect_ok m f ls Ec) as [C1 C2 C3]. pose proof (nnf_ok g0 Eb f En) as Nn. destruct Nn as [N1 [N2 N4]]. split.
  - intros v Hv. apply M1. apply (nnf_vars v g0 f En). apply in_vars_app in Hv as [t [Ht Hv]]. assert (In v (lvars ls)) by (apply in_lvars; eauto). apply C2. assumption.
  - intros H. apply holds_and, C3, N4, M2, H.
  - intros r H. apply M3, N4, C1, holds_and, H.
Qed.

(** ** Top-level conjuncts *)
Lemma purify_vars v t : In v (vars (fst (purify t))) -> In v (vars t).
Proof.
  induction t as [x|c|f ts IH] using term_ind'; cbn [purify]; try (intros H; exact H). destruct f; try (intros H; exact H). destruct ts as [|a [|]]; try (intros H; exact H).
  pose proof (Forall_inv IH) as Ha. cbv beta in Ha. revert Ha. destruct (purify a) as [p s]. intros Ha. cbn [fst] in *. intros H. apply in_vars_app. exists a. split; [left; reflexivity|apply Ha, H].
Qed.
Lemma juncts_vars fuel j : forall queue seen acc out v, juncts_loop fuel j queue seen acc = Some out ->
  (exists a, In a out /\ In v (vars a)) -> (exists l, In l queue /\ In v (vars (fst l))) \/ (exists a, In a acc /\ In v (vars a)).
Proof.
  induction fuel as [|fuel IH]; intros queue seen acc out v E Ho; [discriminate|]. destruct queue as [|l queue]; cbn [juncts_loop] in E.
  - injection E as <-. right. exact Ho.
  - assert (Sk : forall seen' , juncts_loop fuel j queue seen' acc = Some out -> (exists l0, In l0 (l :: queue) /\ In v (vars (fst l0))) \/ (exists a, In a acc /\ In v (vars a))).
    { intros seen' E'. destruct (IH _ _ _ _ v E' Ho) as [[l0 [H0 H1]]|H]; [left; exists l0; split; [right; exact H0|exact H1]|right; exact H]. }
    assert (Ad : forall seen' a, (In v (vars a) -> In v (vars (fst l))) -> juncts_loop fuel j queue seen' (acc ++ [a]) = Some out -> (exists l0, In l0 (l :: queue) /\ In v (vars (fst l0))) \/ (exists a, In a acc /\ In v (vars a))).
    { intros seen' a Ha E'. destruct (IH _ _ _ _ v E' Ho) as [[l0 [H0 H1]]|[b [Hb H]]]; [left; exists l0; split; [right; exact H0|exact H1]|].
      apply in_app_iff in Hb as [Hb|[<-|[]]]; [right; eauto|left; exists l; split; [left; reflexivity|apply Ha, H]]. }
    assert (Nt : forall t, In v (vars (mkNot t)) -> In v (vars t)) by (intros t H; apply in_vars_app in H as [u [[<-|[]] H]]; exact H).
    assert (Ch : forall seen' f ts (g : term -> literal), fst l = App f ts -> (forall t, In v (vars (fst (g t))) -> In v (vars t)) -> juncts_loop fuel j (rev (map g ts) ++ queue) seen' acc = Some out ->
      (exists l0, In l0 (l :: queue) /\ In v (vars (fst l0))) \/ (exists a, In a acc /\ In v (vars a))).
    { intros seen' f ts g El Hg E'. destruct (IH _ _ _ _ v E' Ho) as [[l0 [H0 H1]]|H]; [|right; exact H]. left. apply in_app_iff in H0 as [H0|H0]; [|exists l0; split; [right; exact H0|exact H1]].
      apply in_rev, in_map_iff in H0 as [t [<- Ht]]. exists l. split; [left; reflexivity|]. rewrite El. apply in_vars_app. exists t. split; [exact Ht|apply Hg, H1]. }
    destruct (existsb (lit_eqb l) seen); [eapply Sk; eauto|].
    destruct l as [[x|c|f ts] [|]]; cbn [fst] in *; try (eapply Ad; [|exact E]; auto; fail).
    + destruct (is_junction j f); [eapply (Ch _ f ts purify eq_refl (purify_vars v)); eauto|eapply Ad; [|exact E]; auto].
    + destruct (is_junction (other j) f); [|eapply Ad; [|exact E]; auto]. eapply (Ch _ f ts _ eq_refl); [|exact E]. intros t. unfold flip. cbn [fst]. apply purify_vars.
Qed.
Lemma top_juncts_vars j t out a v : top_juncts j t = Some out -> In a out -> In v (vars a) -> In v (vars t).
Proof.
  intros E Ha Hv. destruct (juncts_vars _ _ _ _ _ _ v E) as [[l [[<-|[]] H]]|[b [[] _]]]; [eauto|apply purify_vars, H].
Qed.

(** ** The learned relation is transitive *)
Variable ts : tsys.
Hypothesis wf : ts_wf ts = true.
(** Two states related by a formula over current, next-state and other variables. *)
Definition rsem (rel : term) (a b : state) : Prop :=
  exists r, agree_on (svars ts) r a /\ (forall v, In v (svars ts) -> r (shiftv 1 v) = b v) /\ holds r rel.
Definition rel_vars (rel : term) : Prop := forall v, In v (vars rel) -> In v (svars ts) \/ (exists w, In w (svars ts) /\ v = shiftv 1 w) \/ (vtag v = TTime 0 /\ vbase v <> "trl_id"%string).
Definition transitive_rel (rel : term) : Prop := forall a b c, rsem rel a b -> rsem rel b c -> rsem rel a c.

Section Learn.
Variable l : loop.
Hypothesis Hlen : 1 <= lp_len l.
Variable n : nat.
Hypothesis fresh : forall k, ~ In (counter_var n k) (map (shv k) (svars ts)).
Notation lc := (counter_var n (lp_start l)).
Notation beg w := (shv (lp_start l) w).
Notation fin w := (shv (lp_start l + lp_len l) w).
Definition dl (nu : valuation) (w : var) : Z := asz (coerce SInt (nu (fin w))) - asz (coerce SInt (nu (beg w))).
Definition zcnt (nu : valuation) : Z := asz (coerce SInt (nu lc)).
Lemma int_coerce x : coerce SInt x = VInt (asz (coerce SInt x)).
Proof. destruct (zinj_all (coerce SInt x) (coerce_sort SInt x)) as [k ->]. reflexivity. Qed.
Lemma shv_sort k w : vsort (shv k w) = vsort w.
Proof. apply shiftv_sort. Qed.
Lemma diff_eval nu w : vsort w = SInt -> eval nu (diff_term l w) = VInt (dl nu w).
Proof.
  intros Ew. unfold diff_term, mkMinus, mkNeg, mkPlus, mkTimes, mkInt. cbn [eval map interp fold1 fold_left].
  rewrite !shv_sort. unfold dl. rewrite Ew. rewrite (int_coerce (nu (fin w))), (int_coerce (nu (beg w))). cbn [vmul vadd asz]. f_equal; lia.
Qed.
Lemma int_vars_sort i w : In (i, w) (int_vars ts) -> vsort w = SInt /\ In w (svars ts).
Proof.
  intros H. unfold int_vars in H. apply filter_In in H as [H1 H2]. split; [apply sort_eqb_eq, H2|]. apply in_combine_r in H1. exact H1.
Qed.
Lemma back_sorted : well_sorted (back_sub ts l).
Proof.
  intros v u E r. apply lookup_in, in_map_iff in E as [[i w] [E H]]. injection E as <- <-. cbn [fst snd]. rewrite diff_eval by apply (int_vars_sort i w H). reflexivity.
Qed.
Lemma recurrent_eval t : recurrent_sum t = true -> (forall v, In v (vars t) -> In v (diff_vars ts)) ->
  exists co, (forall nu', eval nu' (subst (back_sub ts l) t) = VInt (evs Z 0%Z Z.add Z.mul (zval (upd nu' (back_sub ts l))) co)) /\ (forall v, In v (map fst co) -> In v (diff_vars ts)).
Proof.
  unfold recurrent_sum. destruct (zparse t) as [p|] eqn:E; [|discriminate]. intros H Hv. apply andb_true_iff in H as [H0 _]. apply Z.eqb_eq in H0.
  destruct (zparse_ok t p E) as [P1 [P2 P3]]. exists (lco p). split.
  - intros nu'. rewrite (eval_subst _ _ _ back_sorted), P1. f_equal. unfold zev, lev. rewrite H0. reflexivity.
  - intros v Hk. apply Hv, P2, Hk.
Qed.
Lemma evs_add (x y z : var -> Z) co : (forall v, In v (map fst co) -> z v = (x v + y v)%Z) ->
  evs Z 0%Z Z.add Z.mul z co = (evs Z 0%Z Z.add Z.mul x co + evs Z 0%Z Z.add Z.mul y co)%Z.
Proof.
  induction co as [|[v k] co IH]; intros H; cbn [evs]; [lia|]. rewrite (H v) by (left; reflexivity). rewrite IH by (intros u Hu; apply H; right; exact Hu). lia.
Qed.
Lemma zval_diff v : In v (diff_vars ts) -> exists w, In w (svars ts) /\ vsort w = SInt /\ forall nu', zval (upd nu' (back_sub ts l)) v = dl nu' w.
Proof.
  intros H. destruct (lookup v (back_sub ts l)) as [u|] eqn:E.
  - pose proof E as E'. apply lookup_in, in_map_iff in E' as [[i w] [E' Hw]]. cbn [fst snd] in E'. injection E' as <- <-. destruct (int_vars_sort i w Hw) as [Ws Wi]. exists w. split; [exact Wi|]. split; [exact Ws|].
    intros nu'. unfold zval, xval, upd. rewrite E, (diff_eval nu' w Ws). reflexivity.
  - exfalso. apply lookup_none in E. apply E. unfold back_sub. rewrite map_map. exact H.
Qed.
Lemma recurrent_shape x c : recurrent ts l x c = [] \/ exists k t, recurrent_sum t = true /\ (forall v, In v (vars t) -> In v (vars c)) /\
  (recurrent ts l x c = [mkEq (mkTimes [Const (VInt k); Var x]) (subst (back_sub ts l) t)] \/ recurrent ts l x c = [mkLeq (mkTimes [mkInt k; Var x]) (subst (back_sub ts l) t)]).
Proof.
  assert (Va : forall f ts' t, c = App f ts' -> In t ts' -> forall v, In v (vars t) -> In v (vars c)) by (intros f ts' t -> Ht v Hx; apply in_vars_app; eauto).
  destruct c as [| |f ts']; try (left; reflexivity). destruct f; try (left; reflexivity).
  all: destruct ts' as [|a [|b [|]]]; try (left; reflexivity); try (destruct a as [|[| |]|]; left; reflexivity).
  - destruct a as [y|ca|fa la].
    + destruct b as [|[|k|]|]; try (left; reflexivity). cbn [recurrent]. destruct (recurrent_sum (Var y)) eqn:R; [|left; reflexivity]. right. exists k, (Var y). split; [exact R|]. split; [apply (Va _ _ _ eq_refl); left; reflexivity|left; reflexivity].
    + destruct ca as [|k|]; try (left; reflexivity). cbn [recurrent]. destruct (recurrent_sum b) eqn:R; [|left; reflexivity]. right. exists k, b. split; [exact R|]. split; [apply (Va _ _ _ eq_refl); right; left; reflexivity|left; reflexivity].
    + destruct b as [|[|k|]|]; try (left; reflexivity). cbn [recurrent]. destruct (recurrent_sum (App fa la)) eqn:R; [|left; reflexivity]. right. exists k, (App fa la). split; [exact R|]. split; [apply (Va _ _ _ eq_refl); left; reflexivity|left; reflexivity].
  - destruct a as [y|[|k|]|fa la]; try (left; reflexivity). cbn [recurrent]. destruct (recurrent_sum b) eqn:R; [|left; reflexivity]. right. exists k, b. split; [exact R|]. split; [apply (Va _ _ _ eq_refl); right; left; reflexivity|right; reflexivity].
Qed.
Lemma recurrent_sum_ok nu1 nu2 nu3 c : (forall v, In v (vars c) -> In v (diff_vars ts)) ->
  (forall w, In w (svars ts) -> vsort w = SInt -> dl nu3 w = (dl nu1 w + dl nu2 w)%Z) -> zcnt nu3 = (zcnt nu1 + zcnt nu2)%Z ->
  Forall (holds nu1) (recurrent ts l lc c) -> Forall (holds nu2) (recurrent ts l lc c) -> Forall (holds nu3) (recurrent ts l lc c).
Proof.
  intros Hv Hd Hz.
  assert (EvE : forall k t, recurrent_sum t = true -> (forall v, In v (vars t) -> In v (diff_vars ts)) ->
    exists co, (forall v, In v (map fst co) -> In v (diff_vars ts)) /\ forall nu, eval nu (mkTimes [Const (VInt k); Var lc]) = VInt (k * zcnt nu) /\
      eval nu (subst (back_sub ts l) t) = VInt (evs Z 0%Z Z.add Z.mul (zval (upd nu (back_sub ts l))) co)).
  { intros k t R V. destruct (recurrent_eval t R V) as [co [C1 C2]]. exists co. split; [exact C2|]. intros nu'. split; [|apply C1].
    unfold mkTimes. cbn [eval map interp fold1 fold_left vsort counter_var]. rewrite (int_coerce (nu' lc)). reflexivity. }
  assert (Add : forall co, (forall v, In v (map fst co) -> In v (diff_vars ts)) ->
    evs Z 0%Z Z.add Z.mul (zval (upd nu3 (back_sub ts l))) co = (evs Z 0%Z Z.add Z.mul (zval (upd nu1 (back_sub ts l))) co + evs Z 0%Z Z.add Z.mul (zval (upd nu2 (back_sub ts l))) co)%Z).
  { intros co C. apply evs_add. intros v Hk. destruct (zval_diff v (C v Hk)) as [w [W1 [W2 W3]]]. rewrite !W3. apply Hd; assumption. }
  assert (Eq1 : forall k t, recurrent_sum t = true -> (forall v, In v (vars t) -> In v (diff_vars ts)) -> holds nu1 (mkEq (mkTimes [Const (VInt k); Var lc]) (subst (back_sub ts l) t)) ->
     holds nu2 (mkEq (mkTimes [Const (VInt k); Var lc]) (subst (back_sub ts l) t)) -> holds nu3 (mkEq (mkTimes [Const (VInt k); Var lc]) (subst (back_sub ts l) t))).
  { intros k t R V. destruct (EvE k t R V) as [co [C1 C2]]. rewrite !holds_eq. rewrite !(proj1 (C2 _)), !(proj2 (C2 _)). rewrite (Add co C1), Hz. intros A B. injection A as A. injection B as B. f_equal. lia. }
  assert (Le1 : forall k t, recurrent_sum t = true -> (forall v, In v (vars t) -> In v (diff_vars ts)) -> holds nu1 (mkLeq (mkTimes [mkInt k; Var lc]) (subst (back_sub ts l) t)) ->
     holds nu2 (mkLeq (mkTimes [mkInt k; Var lc]) (subst (back_sub ts l) t)) -> holds nu3 (mkLeq (mkTimes [mkInt k; Var lc]) (subst (back_sub ts l) t))).
  { intros k t R V. destruct (EvE k t R V) as [co [C1 C2]]. unfold holds, holdsb, mkLeq. cbn [eval map interp asb]. change (Const (VInt k)) with (mkInt k) in C2.
    change (interp FTimes (map (eval nu1) [mkInt k; Var lc])) with (eval nu1 (mkTimes [mkInt k; Var lc])).
    rewrite !(proj1 (C2 _)), !(proj2 (C2 _)). cbn [vleq asb]. rewrite !Z.leb_le. rewrite (Add co C1), Hz. lia. }
  destruct (recurrent_shape lc c) as [->|[k [t [R [V [->| ->]]]]]]; [intros; constructor| |]; intros A B; (constructor; [|constructor]); pose proof (fun v H => Hv v (V v H)) as V'.
  - apply Eq1; [exact R|exact V'|apply (Forall_inv A)|apply (Forall_inv B)].
  - apply Le1; [exact R|exact V'|apply (Forall_inv A)|apply (Forall_inv B)].
Qed.

(** The valuation under which the relation before renaming is read. *)
Definition ren_val (r : valuation) : valuation := fun v => upd r (map (fun v => (shv 0 v, Var v)) (svars ts) ++ map (fun v => (shv (lp_len l - 1) v, Var v)) (nextvars ts)) (shiftv (- Z.of_nat (lp_start l)) v).
Lemma lookup_app v (s1 s2 : submap) : lookup v (s1 ++ s2) = match lookup v s1 with Some u => Some u | None => lookup v s2 end.
Proof. induction s1 as [|[w u] s1 IH]; cbn; [reflexivity|]. destruct (var_eqb v w); [reflexivity|exact IH]. Qed.
Lemma lookup_map_var (f : var -> var) vs w : (forall a b, f a = f b -> a = b) -> In w vs -> lookup (f w) (map (fun v => (f v, Var v)) vs) = Some (Var w).
Proof.
  intros Hf. induction vs as [|x vs IH]; intros Hw; [destruct Hw|]. cbn. destruct (var_eqb_spec (f w) (f x)) as [E|E]; [apply Hf in E; subst; reflexivity|].
  destruct Hw as [->|Hw]; [congruence|apply IH, Hw].
Qed.
Lemma shv_inj k a b : shv k a = shv k b -> a = b. Proof. apply shiftv_inj. Qed.
Lemma shv_0 v : shv 0 v = v. Proof. apply shiftv_0. Qed.
Lemma unshift_sorted : well_sorted (map (fun v => (shv 0 v, Var v)) (svars ts) ++ map (fun v => (shv (lp_len l - 1) v, Var v)) (nextvars ts)).
Proof.
  intros v u E r. apply lookup_in, in_app_iff in E as [E|E]; apply in_map_iff in E as [w [E _]]; injection E as <- <-; cbn [eval]; rewrite coerce_sort, shv_sort; reflexivity.
Qed.
Lemma ren_holds r F : holds r (unshift_from ts (shift (- Z.of_nat (lp_start l)) F) 0 (lp_len l)) <-> holds (ren_val r) F.
Proof. unfold unshift_from. rewrite (holds_subst _ _ _ unshift_sorted), holds_shift. reflexivity. Qed.
Lemma ren_beg r w : In w (svars ts) -> ren_val r (beg w) = coerce (vsort w) (r w).
Proof.
  intros Hw. unfold ren_val, shv. rewrite shiftv_shiftv. replace (- Z.of_nat (lp_start l) + Z.of_nat (lp_start l))%Z with 0%Z by lia. rewrite shiftv_0. unfold upd. rewrite lookup_app.
  assert (E : lookup w (map (fun v => (shiftv (Z.of_nat 0) v, Var v)) (svars ts)) = Some (Var w)).
  { rewrite <- (shiftv_0 w) at 1. apply (lookup_map_var (shiftv (Z.of_nat 0))); [intros a b; apply shiftv_inj|exact Hw]. }
  rewrite E. reflexivity.
Qed.
Lemma shiftv_time k v m : vtag v = TTime m -> vtag (shiftv k v) = TTime (m + k).
Proof. intros E. unfold shiftv. rewrite E. reflexivity. Qed.
Lemma ren_fin r w : In w (svars ts) -> ren_val r (fin w) = coerce (vsort w) (r (shiftv 1 w)).
Proof.
  intros Hw. unfold ren_val, shv. rewrite shiftv_shiftv. replace (- Z.of_nat (lp_start l) + Z.of_nat (lp_start l + lp_len l))%Z with (Z.of_nat (lp_len l)) by lia. unfold upd. rewrite lookup_app.
  assert (E0 : lookup (shiftv (Z.of_nat (lp_len l)) w) (map (fun v => (shiftv (Z.of_nat 0) v, Var v)) (svars ts)) = None).
  { apply lookup_none. rewrite map_map. cbn [fst]. intros H. apply in_map_iff in H as [x [E Hx]]. apply (f_equal vtag) in E.
    rewrite (shiftv_time _ x 0%Z), (shiftv_time _ w 0%Z) in E by (apply (wf_svars0 ts wf); assumption). injection E as E. lia. }
  rewrite E0. assert (E : lookup (shiftv (Z.of_nat (lp_len l)) w) (map (fun v => (shiftv (Z.of_nat (lp_len l - 1)) v, Var v)) (nextvars ts)) = Some (Var (shiftv 1 w))).
  { replace (shiftv (Z.of_nat (lp_len l)) w) with (shiftv (Z.of_nat (lp_len l - 1)) (shiftv 1 w)) by (rewrite shiftv_shiftv; f_equal; lia).
    apply (lookup_map_var (shiftv (Z.of_nat (lp_len l - 1)))); [intros a b; apply shiftv_inj|apply in_map, Hw]. }
  rewrite E. cbn [eval]. rewrite shiftv_sort. reflexivity.
Qed.
Lemma ren_lc r : ren_val r lc = r (counter_var n 0).
Proof.
  unfold ren_val. assert (E : shiftv (- Z.of_nat (lp_start l)) lc = counter_var n 0).
  { unfold shiftv, counter_var. cbn [vtag vbase vsort]. do 2 f_equal. lia. }
  rewrite E. unfold upd. rewrite lookup_app.
  assert (E0 : lookup (counter_var n 0) (map (fun v => (shv 0 v, Var v)) (svars ts)) = None).
  { apply lookup_none. rewrite map_map. cbn [fst]. apply fresh. }
  rewrite E0. assert (E1 : lookup (counter_var n 0) (map (fun v => (shv (lp_len l - 1) v, Var v)) (nextvars ts)) = None).
  { apply lookup_none. rewrite map_map. cbn [fst]. intros H. unfold nextvars in H. rewrite in_map_iff in H. destruct H as [x [Ex Hx]]. apply in_map_iff in Hx as [w [<- Hw]].
    apply (f_equal vtag) in Ex. unfold shv in Ex. rewrite shiftv_shiftv, (shiftv_time _ w 0%Z) in Ex by (apply (wf_svars0 ts wf), Hw). unfold counter_var in Ex. cbn [vtag] in Ex. injection Ex as Ex. lia. }
  rewrite E1. reflexivity.
Qed.

Lemma learned_ok fla m rel : transitive_projection mbp ts fla m l n = Some rel -> holds m fla -> holds (extend ts l m) (mkAnd [fla; mkAnd (diff_eqs ts l)]) ->
  transitive_rel (unshift_from ts rel 0 (lp_len l)) /\ rel_vars (unshift_from ts rel 0 (lp_len l)).
Proof.
  unfold transitive_projection. intros E Hm Hx. destruct (project_to mbp (mkAnd [fla; mkAnd (diff_eqs ts l)]) (diff_vars ts) (extend ts l m)) as [pj|] eqn:E1; [|discriminate].
  destruct (top_juncts Conj pj) as [cs|] eqn:E2; [|discriminate]. destruct (project_to mbp fla (system_vars ts (lp_start l)) m) as [pre|] eqn:E3; [|discriminate].
  destruct (project_to mbp fla (system_vars ts (lp_start l + lp_len l)) m) as [post|] eqn:E4; [|discriminate]. injection E as <-.
  pose proof (mbp_vars _ _ _ _ (project_to_ok _ _ _ _ E1 Hx)) as V1. pose proof (mbp_vars _ _ _ _ (project_to_ok _ _ _ _ E3 Hm)) as V3. pose proof (mbp_vars _ _ _ _ (project_to_ok _ _ _ _ E4 Hm)) as V4.
  assert (Vc : forall c v, In c cs -> In v (vars c) -> In v (diff_vars ts)) by (intros c v Hc Hv; apply V1; eapply top_juncts_vars; eauto).
  split.
  - intros a b c [r1 [A1 [B1 H1]]] [r2 [A2 [B2 H2]]]. rewrite ren_holds in H1, H2. apply holds_and in H1, H2.
    inversion H1 as [|? ? L1 H1']; subst. inversion H1' as [|? ? R1 H1'']; subst. inversion H1'' as [|? ? P1 H13]; subst. apply Forall_inv in H13. clear H1 H1' H1''.
    inversion H2 as [|? ? L2 H2']; subst. inversion H2' as [|? ? R2 H2'']; subst. inversion H2'' as [|? ? P2 H23]; subst. apply Forall_inv in H23. clear H2 H2' H2''.
    set (r3 := fun v => if inb v (svars ts) then r1 v else if inb v (nextvars ts) then r2 v else VInt (zcnt (ren_val r1) + zcnt (ren_val r2))).
    assert (S3 : forall w, In w (svars ts) -> r3 w = r1 w) by (intros w Hw; unfold r3; apply inb_true in Hw; rewrite Hw; reflexivity).
    assert (N3 : forall w, In w (svars ts) -> r3 (shiftv 1 w) = r2 (shiftv 1 w)).
    { intros w Hw. unfold r3. assert (N : inb (shiftv 1 w) (svars ts) = false).
      { apply inb_false. intros X. apply (wf_svars0 ts wf) in X. rewrite (shiftv_time _ w 0%Z) in X by (apply (wf_svars0 ts wf), Hw). discriminate X. }
      rewrite N. assert (M : inb (shiftv 1 w) (nextvars ts) = true) by (apply inb_true, in_map, Hw). rewrite M. reflexivity. }
    assert (Z3 : zcnt (ren_val r3) = (zcnt (ren_val r1) + zcnt (ren_val r2))%Z).
    { unfold zcnt at 1. rewrite ren_lc. unfold r3.
      assert (N : inb (counter_var n 0) (svars ts) = false) by (apply inb_false; intros X; apply (fresh 0); apply in_map_iff; exists (counter_var n 0); split; [apply shv_0|exact X]). rewrite N.
      assert (M : inb (counter_var n 0) (nextvars ts) = false).
      { apply inb_false. intros X. apply in_map_iff in X as [w [Ew Hw]]. apply (f_equal vtag) in Ew. rewrite (shiftv_time _ w 0%Z) in Ew by (apply (wf_svars0 ts wf), Hw). discriminate Ew. }
      rewrite M. reflexivity. }
    assert (D3 : forall w, In w (svars ts) -> vsort w = SInt -> dl (ren_val r3) w = (dl (ren_val r1) w + dl (ren_val r2) w)%Z).
    { intros w Hw Ws. unfold dl. rewrite !ren_beg, !ren_fin by exact Hw. rewrite (S3 w Hw), (N3 w Hw). rewrite Ws, !coerce_idem. rewrite (B1 w Hw), (A2 w Hw). lia. }
    exists r3. split; [intros w Hw; rewrite S3 by exact Hw; apply A1, Hw|]. split; [intros w Hw; rewrite N3 by exact Hw; apply B2, Hw|].
    rewrite ren_holds. apply holds_and. constructor; [|constructor; [|constructor; [|constructor; [|constructor]]]].
    + clear - Z3 L1 L2. assert (G : forall nu, holds nu (mkLt (mkInt 0) (Var lc)) <-> (0 < zcnt nu)%Z).
      { intros nu. unfold mkLt. rewrite holds_not. unfold holds, holdsb, mkLeq, mkInt. cbn [eval map interp asb vsort counter_var]. unfold zcnt. rewrite (int_coerce (nu lc)). cbn [vleq asz]. rewrite Z.leb_le. lia. }
      rewrite G in *. lia.
    + apply holds_and. apply holds_and in R1, R2. clear E1 E2 E3 E4. induction cs as [|c0 cs IH]; cbn [map concat] in *; [constructor|]. apply Forall_app in R1 as [R11 R12]. apply Forall_app in R2 as [R21 R22]. apply Forall_app. split.
      * apply (recurrent_sum_ok (ren_val r1) (ren_val r2)); auto. intros v Hv. apply (Vc c0 v); [left; reflexivity|exact Hv].
      * apply IH; auto. intros c1 v Hc Hv. apply (Vc c1 v); [right; exact Hc|exact Hv].
    + apply (holds_agree (ren_val r1) (ren_val r3) pre); [|exact P1]. intros v Hv. apply V3, in_map_iff in Hv as [w [<- Hw]]. rewrite !ren_beg, S3 by exact Hw. reflexivity.
    + apply (holds_agree (ren_val r2) (ren_val r3) post); [|exact H23]. intros v Hv. apply V4, in_map_iff in Hv as [w [<- Hw]]. rewrite !ren_fin, N3 by exact Hw. reflexivity.
  - clear Hx. intros v Hv. unfold unshift_from in Hv. apply in_vars_subst in Hv as [u [Hu Hv]]. rewrite vars_shift in Hu. apply in_map_iff in Hu as [x [<- Hx]].
    assert (Key : (exists w, In w (svars ts) /\ (x = beg w \/ x = fin w)) \/ x = lc).
    { apply in_vars_app in Hx as [t [Ht Hx]]. destruct Ht as [<-|[<-|[<-|[<-|[]]]]].
      - right. apply in_vars_app in Hx as [t [[<-|[]] Hx]]. apply in_vars_app in Hx as [t [[<-|[<-|[]]] Hx]]; [destruct Hx as [Hx|[]]; congruence|destruct Hx].
      - apply in_vars_app in Hx as [t [Ht Hx]]. apply in_concat in Ht as [y [Hy Ht]]. apply in_map_iff in Hy as [c [<- Hc]].
        assert (Bs : forall t', (forall v, In v (vars t') -> In v (diff_vars ts)) -> In x (vars (subst (back_sub ts l) t')) -> exists w, In w (svars ts) /\ (x = beg w \/ x = fin w)).
        { intros t' Vt X. apply in_vars_subst in X as [u [Hu X]]. specialize (Vt u Hu). destruct (lookup u (back_sub ts l)) as [s|] eqn:Es.
          - apply lookup_in, in_map_iff in Es as [[i w] [Es Hw]]. cbn [fst snd] in Es. injection Es as <- <-. exists w. split; [apply (int_vars_sort i w Hw)|]. unfold diff_term in X.
            apply in_vars_app in X as [t0 [[<-|[<-|[]]] X]]; [destruct X as [X|[]]; auto|]. apply in_vars_app in X as [t0 [[<-|[<-|[]]] X]]; [destruct X|destruct X as [X|[]]; auto].
          - exfalso. apply lookup_none in Es. apply Es. unfold back_sub. rewrite map_map. exact Vt. }
        assert (Sh : exists k t', (forall v, In v (vars t') -> In v (vars c)) /\ (t = mkEq (mkTimes [Const (VInt k); Var lc]) (subst (back_sub ts l) t') \/ t = mkLeq (mkTimes [mkInt k; Var lc]) (subst (back_sub ts l) t'))).
        { destruct (recurrent_shape lc c) as [Q|[k [t' [_ [V [Q|Q]]]]]]; rewrite Q in Ht; [destruct Ht| |]; destruct Ht as [<-|[]]; exists k, t'; split; auto. }
        destruct Sh as [k [t' [Vt' Sh]]]. assert (Hx' : In x (vars (mkTimes [Const (VInt k); Var lc])) \/ In x (vars (subst (back_sub ts l) t'))).
        { destruct Sh as [-> | ->]; apply in_vars_app in Hx as [t0 [[<-|[<-|[]]] Hx]]; auto. }
        destruct Hx' as [X|X]; [|left; apply (Bs t' (fun v Hv => Vc c v Hc (Vt' v Hv)) X)]. right. apply in_vars_app in X as [t0 [[<-|[<-|[]]] X]]; [destruct X|destruct X as [X|[]]; congruence].
      - left. apply V3, in_map_iff in Hx as [w [<- Hw]]. eauto.
      - left. apply V4, in_map_iff in Hx as [w [<- Hw]]. eauto. }
    rewrite lookup_app in Hv. destruct Key as [[w [Hw [->| ->]]]| ->].
    + left. unfold shv in Hv at 1. rewrite shiftv_shiftv in Hv. replace (- Z.of_nat (lp_start l) + Z.of_nat (lp_start l))%Z with 0%Z in Hv by lia. rewrite shiftv_0 in Hv.
      assert (E : lookup w (map (fun v => (shv 0 v, Var v)) (svars ts)) = Some (Var w)) by (rewrite <- (shv_0 w) at 1; apply (lookup_map_var (shv 0)); [apply shv_inj|exact Hw]).
      rewrite E in Hv. destruct Hv as [<-|[]]. exact Hw.
    + right. left. exists w. split; [exact Hw|]. assert (Ef : shiftv (- Z.of_nat (lp_start l)) (fin w) = shiftv (Z.of_nat (lp_len l)) w) by (unfold shv; rewrite shiftv_shiftv; f_equal; lia). rewrite !Ef in Hv.
      assert (E0 : lookup (shiftv (Z.of_nat (lp_len l)) w) (map (fun v => (shv 0 v, Var v)) (svars ts)) = None).
      { apply lookup_none. rewrite map_map. cbn [fst]. intros H. apply in_map_iff in H as [x [E Hx']]. apply (f_equal vtag) in E. unfold shv in E.
        rewrite (shiftv_time _ x 0%Z), (shiftv_time _ w 0%Z) in E by (apply (wf_svars0 ts wf); assumption). injection E as E. lia. }
      rewrite E0 in Hv. assert (E : lookup (shiftv (Z.of_nat (lp_len l)) w) (map (fun v => (shv (lp_len l - 1) v, Var v)) (nextvars ts)) = Some (Var (shiftv 1 w))).
      { replace (shiftv (Z.of_nat (lp_len l)) w) with (shv (lp_len l - 1) (shiftv 1 w)) by (unfold shv; rewrite shiftv_shiftv; f_equal; lia).
        apply (lookup_map_var (shv (lp_len l - 1))); [apply shv_inj|apply in_map, Hw]. }
      rewrite E in Hv. destruct Hv as [<-|[]]. reflexivity.
    + right. right. assert (E : shiftv (- Z.of_nat (lp_start l)) lc = counter_var n 0) by (unfold shiftv, counter_var; cbn [vtag vbase vsort]; do 2 f_equal; lia). rewrite E in Hv.
      assert (E0 : lookup (counter_var n 0) (map (fun v => (shv 0 v, Var v)) (svars ts)) = None) by (apply lookup_none; rewrite map_map; cbn [fst]; apply fresh).
      rewrite E0 in Hv. assert (Q1 : lookup (counter_var n 0) (map (fun v => (shv (lp_len l - 1) v, Var v)) (nextvars ts)) = None).
      { apply lookup_none. rewrite map_map. cbn [fst]. intros H. unfold nextvars in H. rewrite in_map_iff in H. destruct H as [y [Ex Hy]]. apply in_map_iff in Hy as [w [<- Hw]].
        apply (f_equal vtag) in Ex. unfold shv in Ex. rewrite shiftv_shiftv, (shiftv_time _ w 0%Z) in Ex by (apply (wf_svars0 ts wf), Hw). unfold counter_var in Ex. cbn [vtag] in Ex. injection Ex as Ex. lia. }
      rewrite Q1 in Hv. subst v. split; [reflexivity|]. unfold counter_var. cbn [vbase]. discriminate.
Qed.
End Learn.
End Rel.
