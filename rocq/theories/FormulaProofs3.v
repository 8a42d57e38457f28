(** * Proofs about the formula utilities, part 3: trivial quantifier elimination. *)
From Coq Require Import QArith Qcanon.
From Verif Require Import Syntax Solver KTo1Model DarModel FormulaModel FormulaProofs.
Open Scope Z_scope.

Definition keys (s : submap) : list var := map fst s.
(** All definitions of the map hold. *)
Definition defs (r : valuation) (s : submap) : Prop := forall k u, In (k, u) s -> eval r (Var k) = eval r u.

Lemma defs_app r a b : defs r (a ++ b) <-> defs r a /\ defs r b.
Proof.
  unfold defs. split.
  - intros H. split; intros; apply H, in_or_app; auto.
  - intros [H1 H2] k u H. apply in_app_or in H as [H|H]; auto.
Qed.
Lemma defs_cons r k u s : defs r ((k, u) :: s) <-> eval r (Var k) = eval r u /\ defs r s.
Proof.
  unfold defs. split.
  - intros H. split; [apply H; simpl; auto|intros; apply H; simpl; auto].
  - intros [H1 H2] k' u' [E|H]; [inversion E; subst; exact H1|auto].
Qed.

Lemma lookup_nodup k u s : NoDup (keys s) -> In (k, u) s -> lookup k s = Some u.
Proof.
  induction s as [|[k' u'] s IH]; simpl; [tauto|]. intros N [E|H]; inversion N; subst.
  - inversion E; subst. rewrite var_eqb_refl. reflexivity.
  - destruct (var_eqb_spec k k') as [->|]; [|auto]. exfalso. apply H2. change k' with (fst (k', u)). apply in_map, H.
Qed.

(** Under its definitions, the substitution is the identity. *)
Lemma defs_upd r s t : defs r s -> eval (upd r s) t = eval r t.
Proof.
  intros D. apply eval_ext. intros v Hv. unfold upd.
  destruct (lookup v s) as [u|] eqn:E; [|reflexivity].
  apply lookup_in in E. rewrite <- (D _ _ E). simpl. apply coerce_idem.
Qed.
Lemma defs_subst r s t : well_sorted s -> defs r s -> eval r (subst s t) = eval r t.
Proof. intros W D. rewrite eval_subst by exact W. apply defs_upd, D. Qed.

Lemma well_sorted_in s k u r : NoDup (keys s) -> well_sorted s -> In (k, u) s -> sort_of (eval r u) = vsort k.
Proof. intros N W H. eapply W. apply lookup_nodup; eauto. Qed.
Lemma well_sorted_intro s : (forall k u, In (k, u) s -> forall r, sort_of (eval r u) = vsort k) -> well_sorted s.
Proof. intros H v u E r. apply H. apply lookup_in, E. Qed.

(** Triangular maps: a right-hand side mentions only keys that come later. *)
Fixpoint triangular (seen : list var) (s : submap) : Prop :=
  match s with
  | [] => True
  | (k, u) :: s' => (forall v, In v (vars u) -> ~ In v (k :: seen)) /\ triangular (k :: seen) s'
  end.
Lemma triangular_app a b : forall seen, triangular seen (a ++ b) <-> triangular seen a /\ triangular (rev (keys a) ++ seen) b.
Proof.
  induction a as [|[k u] a IH]; intros seen; simpl; [tauto|]. rewrite IH, <- app_assoc. simpl. tauto.
Qed.
Lemma triangular_weak s : forall a b, (forall v, In v a -> In v b) -> triangular b s -> triangular a s.
Proof.
  induction s as [|[k u] s IH]; intros a b H T; simpl; [auto|]. destruct T as [T1 T2]. split.
  - intros v Hv [->|Hin]; apply (T1 v Hv); [left; reflexivity|right; auto].
  - eapply IH; [|exact T2]. intros v [->|Hv]; [left; reflexivity|right; auto].
Qed.

Record xinv (fla : term) (all : submap) (root : term) : Prop := {
  xi_sem : forall r, holds r fla <-> holds r root /\ defs r all;
  xi_nodup : NoDup (keys all);
  xi_fresh : forall k, In k (keys all) -> ~ In k (vars root);
  xi_tri : triangular [] all;
  xi_sorted : forall k u, In (k, u) all -> forall r, sort_of (eval r u) = vsort k;
  xi_vars : (forall v, In v (vars root) -> In v (vars fla)) /\ (forall k u, In (k, u) all -> In k (vars fla) /\ forall v, In v (vars u) -> In v (vars fla))
}.

Lemma filter_all {A} (f : A -> bool) l : (forall x, In x l -> f x = true) -> filter f l = l.
Proof. induction l; simpl; intros H; [reflexivity|]. rewrite H by auto. f_equal. apply IHl. auto. Qed.

Lemma NoDup_app_intro {A} (a b : list A) : NoDup a -> NoDup b -> (forall x, In x a -> ~ In x b) -> NoDup (a ++ b).
Proof.
  induction a as [|x a IH]; simpl; intros H1 H2 H; [exact H2|]. inversion H1; subst. constructor.
  - rewrite in_app_iff. intros [X|X]; [auto|apply (H x); auto].
  - apply IH; auto.
Qed.

Lemma triangular_fresh s seen : (forall k u v, In (k, u) s -> In v (vars u) -> ~ In v (keys s) /\ ~ In v seen) -> triangular seen s.
Proof.
  revert seen. induction s as [|[k u] s IH]; intros seen H; simpl; [auto|]. split.
  - intros v Hv Hin. destruct (H k u v) as [H1 H2]; simpl; auto. destruct Hin as [Hin|Hin]; [apply H1; simpl; auto|auto].
  - apply IH. intros k' u' v Hk Hv. destruct (H k' u' v) as [H1 H2]; [simpl; auto|auto|]. simpl in H1.
    split; [tauto|]. intros [->|X]; tauto.
Qed.

Section R.
Variable retrieve : retrieve_fn.
Hypothesis Hret : retrieve_ok retrieve.

Lemma xinv_step fla all root res ns : retrieve root = (res, ns) -> xinv fla all root ->
  xinv fla (add_new all ns) (subst ns (match res with Some b => Const (VBool b) | None => root end)).
Proof.
  intros E [S N F T W [V1 V2]]. pose proof (Hret root) as [RS RN RD RR RI RC]. rewrite E in *. simpl fst in *. simpl snd in *.
  assert (EA : add_new all ns = all ++ ns).
  { unfold add_new. f_equal. apply filter_all. intros [k u] Hk. simpl. unfold in_keys.
    apply negb_true_iff, inb_false. intros Hin. apply (F k Hin). apply RD. change k with (fst (k, u)). apply in_map, Hk. }
  rewrite EA. set (root1 := match res with Some b => Const (VBool b) | None => root end).
  assert (Sem1 : forall r, holds r root1 <-> holds r root).
  { intros r. unfold root1. destruct res as [b|]; [|tauto]. unfold holds. rewrite (RC b eq_refl r). tauto. }
  assert (Var1 : forall v, In v (vars root1) -> In v (vars root)).
  { unfold root1. destruct res; simpl; tauto. }
  assert (WS : forall k u, In (k, u) ns -> forall r, sort_of (eval r u) = vsort k) by
    (intros k u Hk r; eapply well_sorted_in; eauto).
  assert (D : forall r, holds r root -> defs r ns) by (intros r Hr k u Hk; apply (RI r k u Hr Hk)).
  assert (SubV : forall v, In v (vars (subst ns root1)) -> In v (vars root) /\ ~ In v (keys ns)).
  { intros v Hv. apply in_vars_subst in Hv as [w [Hw Hv]]. destruct (lookup w ns) as [u|] eqn:El.
    - apply lookup_in in El. apply (RR _ _ _ El Hv).
    - subst w. split; [auto|]. apply lookup_none, El. }
  constructor.
  - intros r. rewrite S, defs_app. split.
    + intros [Hr Hd]. specialize (D r Hr). repeat split; auto.
      unfold holds, holdsb. rewrite defs_subst by auto. apply Sem1, Hr.
    + intros [Hr [Hd Hn]]. split; [|exact Hd]. unfold holds, holdsb in Hr. rewrite defs_subst in Hr by auto. apply Sem1, Hr.
  - unfold keys. rewrite map_app. apply NoDup_app_intro; auto. intros k Hk Hk'. apply (F k Hk), RD, Hk'.
  - intros k Hk Hv. apply SubV in Hv as [Hv1 Hv2]. unfold keys in Hk. rewrite map_app in Hk. apply in_app_or in Hk as [Hk|Hk].
    + apply (F k Hk Hv1).
    + apply Hv2, Hk.
  - apply triangular_app. split; [exact T|]. apply triangular_fresh. intros k u v Hk Hv.
    destruct (RR k u v Hk Hv) as [H1 H2]. split; [exact H2|]. rewrite app_nil_r, <- in_rev. intros Hin. apply (F v Hin H1).
  - intros k u Hk r. apply in_app_or in Hk as [Hk|Hk]; [apply (W _ _ Hk)|apply (WS _ _ Hk)].
  - split.
    + intros v Hv. apply V1, SubV, Hv.
    + intros k u Hk. apply in_app_or in Hk as [Hk|Hk]; [apply (V2 _ _ Hk)|]. split.
      * apply V1, RD. change k with (fst (k, u)). apply in_map, Hk.
      * intros v Hv. apply V1. apply (RR _ _ _ Hk Hv).
Qed.

Lemma extract_loop_ok fla fuel : forall root all sub simp, xinv fla all root ->
  extract_loop retrieve fuel root all = Some (sub, simp) -> xinv fla sub simp.
Proof.
  induction fuel as [|fuel IH]; intros root all sub simp HI E; [discriminate|].
  simpl in E. destruct (retrieve root) as [res ns] eqn:Er.
  pose proof (xinv_step fla all root res ns Er HI) as HI'. cbv zeta in E.
  destruct (term_eqb _ _); [inversion E; subst; exact HI'|eapply IH; eauto].
Qed.

Lemma xinv_init fla : xinv fla [] fla.
Proof.
  constructor; simpl; auto; try tauto.
  - intros r. split; [intros H; split; [exact H|intros ? ? []]|tauto].
  - constructor.
Qed.

(** *** Termination: every round that changes the formula removes a variable. *)
Lemma subst_no_key s t : (forall v, In v (vars t) -> ~ In v (keys s)) -> subst s t = t.
Proof.
  induction t as [v|c|f ts IH] using term_ind'; intros H; simpl.
  - destruct (lookup v s) eqn:E; [|reflexivity]. apply lookup_in in E. exfalso. apply (H v); [simpl; auto|].
    change v with (fst (v, t)). apply in_map, E.
  - reflexivity.
  - f_equal. rewrite <- map_id. apply map_ext_in. rewrite Forall_forall in IH. intros t Ht. apply IH; [exact Ht|].
    intros v Hv. apply H. apply in_vars_app. eauto.
Qed.
Definition nvars (t : term) : nat := length (nodup var_dec (vars t)).
Lemma extract_loop_total fuel : forall root all, (nvars root < fuel)%nat ->
  exists out, extract_loop retrieve fuel root all = Some out.
Proof.
  induction fuel as [|fuel IH]; intros root all H; [lia|]. simpl. destruct (retrieve root) as [res ns] eqn:Er.
  cbv zeta. set (root1 := match res with Some b => Const (VBool b) | None => root end).
  destruct (term_eqb_spec (subst ns root1) root1) as [E|NE]; [eauto|]. apply IH.
  pose proof (Hret root) as [RS RN RD RR RI RC]. rewrite Er in *. simpl fst in *. simpl snd in *.
  destruct res as [b|]; [exfalso; apply NE; reflexivity|]. subst root1.
  assert (X : exists v, In v (vars root) /\ In v (keys ns)).
  { destruct (existsb (fun v => inb v (keys ns)) (vars root)) eqn:E.
    - apply existsb_exists in E as [v [H1 H2]]. apply inb_true in H2. eauto.
    - exfalso. apply NE, subst_no_key. intros v Hv Hk. assert (Y : existsb (fun v => inb v (keys ns)) (vars root) = true).
      { apply existsb_exists. exists v. split; [exact Hv|]. apply inb_true, Hk. } congruence. }
  destruct X as [v [Hv1 Hv2]].
  assert (SubV : forall w, In w (vars (subst ns root)) -> In w (vars root) /\ ~ In w (keys ns)).
  { intros w Hw. apply in_vars_subst in Hw as [x [Hx Hw]]. destruct (lookup x ns) as [u|] eqn:El.
    - apply lookup_in in El. apply (RR _ _ _ El Hw).
    - subst x. split; [auto|]. apply lookup_none, El. }
  assert (L : (S (nvars (subst ns root)) <= nvars root)%nat).
  { unfold nvars. change (S (length (nodup var_dec (vars (subst ns root))))) with (length (v :: nodup var_dec (vars (subst ns root)))).
    apply NoDup_incl_length.
    - constructor; [|apply NoDup_nodup]. rewrite nodup_In. intros Hin. apply SubV in Hin. tauto.
    - intros w [<-|Hw]; apply nodup_In; [exact Hv1|]. apply nodup_In in Hw. apply SubV, Hw. }
  lia.
Qed.
End R.

(** ** Transitive closure *)
Lemma keys_close s : keys (close s) = keys s.
Proof. induction s as [|[k u] s IH]; simpl; [reflexivity|]. f_equal. exact IH. Qed.

Lemma close_ok s : forall seen, triangular seen s -> NoDup (keys s) ->
  (forall k u, In (k, u) s -> forall r, sort_of (eval r u) = vsort k) ->
  (forall r, defs r (close s) <-> defs r s) /\
  (forall k u, In (k, u) (close s) -> forall r, sort_of (eval r u) = vsort k) /\
  (forall k u v, In (k, u) (close s) -> In v (vars u) -> ~ In v (keys s) /\ ~ In v seen /\ exists k' u', In (k', u') s /\ In v (vars u')).
Proof.
  induction s as [|[k u] s IH]; intros seen T N W.
  - simpl. repeat split; auto; try tauto.
  - simpl in T. destruct T as [T1 T2]. inversion N as [|? ? N1 N2]; subst.
    destruct (IH (k :: seen) T2 N2) as [A [B C]]; [intros; eapply W; simpl; eauto|].
    assert (WC : well_sorted (close s)) by (apply well_sorted_intro; exact B).
    cbn [close]. split; [|split].
    + intros r. rewrite !defs_cons, A. split; intros [H1 H2]; split; auto.
      * rewrite H1. apply defs_subst; [exact WC|]. apply A, H2.
      * rewrite H1. symmetry. apply defs_subst; [exact WC|]. apply A, H2.
    + intros k' u' [E|H] r; [inversion E; subst|apply (B _ _ H)].
      rewrite eval_subst by exact WC. apply (W k' u). simpl; auto.
    + intros k' u' v [E|H] Hv.
      * inversion E; subst. apply in_vars_subst in Hv as [w [Hw Hv]]. destruct (lookup w (close s)) as [z|] eqn:El.
        -- apply lookup_in in El. destruct (C _ _ _ El Hv) as [C1 [C2 [k2 [u2 [C3 C4]]]]]. simpl in C2 |- *.
           split; [tauto|]. split; [tauto|]. exists k2, u2. split; auto.
        -- subst w. apply lookup_none in El. change (map fst (close s)) with (keys (close s)) in El. rewrite keys_close in El.
           pose proof (T1 v Hw) as T3. simpl in T3 |- *. split; [tauto|]. split; [tauto|]. exists k', u. split; auto.
      * destruct (C _ _ _ H Hv) as [C1 [C2 [k2 [u2 [C3 C4]]]]]. simpl in C2 |- *.
        split; [tauto|]. split; [tauto|]. exists k2, u2. split; auto.
Qed.

(** ** Reverting definitions of kept variables *)
Section K.
Variable keep : var -> bool.
Variable fractional : term -> bool.

Lemma shifted_var_ok u v c : shifted_var u = Some (v, c) ->
  vsort v <> SBool /\ sort_of c = vsort v /\ In v (vars u) /\ forall r, eval r u = vadd (eval r (Var v)) c.
Proof.
  unfold shifted_var.
  destruct u as [w|c'|f ts]; try discriminate.
  - destruct (sort_eqb_spec (vsort w) SBool) as [E|E]; simpl; [discriminate|]. intros H; inversion H; subst.
    split; [exact E|]. split; [destruct (vsort v); try reflexivity; congruence|]. split; [simpl; auto|].
    intros r. simpl. pose proof (coerce_sort (vsort v) (r v)) as S.
    destruct (coerce (vsort v) (r v)) as [b|z|q]; simpl in S; rewrite <- S; simpl; try congruence.
    + rewrite Z.add_0_r. reflexivity.
    + f_equal. simpl. ring.
  - destruct f; try discriminate. destruct ts as [|a [|b [|d ts]]]; try (destruct a; discriminate); try discriminate.
    + destruct a as [w|c'|]; try discriminate; destruct b as [w'|c''|]; try discriminate;
      match goal with |- (if ?x then _ else _) = _ -> _ => destruct x eqn:E; [|discriminate] end;
      intros H; inversion H; subst; apply andb_true_iff in E as [E1 E2]; apply sort_eqb_eq in E2;
      (split; [intros X; rewrite X in E1; discriminate|]); (split; [exact E2|]); (split; [simpl; auto|]); intros r; simpl.
      * reflexivity.
      * pose proof (coerce_sort (vsort v) (r v)) as S. rewrite <- E2 in S. rewrite <- E2.
        destruct (coerce _ (r v)), c; simpl in S; try discriminate; simpl; try (f_equal; lia); f_equal; ring.
    + destruct a as [w|c'|]; try discriminate; destruct b as [w'|c''|]; discriminate.
Qed.

Lemma neg_value_sort c : sort_of (neg_value c) = sort_of c.
Proof. destruct c; reflexivity. Qed.
Lemma vadd_shift a b c : sort_of a = sort_of c -> sort_of b = sort_of c -> sort_of c <> SBool ->
  (a = vadd b c <-> b = vadd a (neg_value c)).
Proof.
  destruct a, b, c; simpl; intros H1 H2 H3; try discriminate; try congruence.
  - split; intros H; inversion H; f_equal; lia.
  - split; intros H; inversion H; f_equal; ring.
Qed.

Definition reverted (r : valuation) (k : var) (u : term) (v : var) (w : term) : Prop := eval r (Var k) = eval r u <-> eval r (Var v) = eval r w.

(** Result of the loop over the keys.  [M] is the set of processed definitions whose meaning is
    carried by the two outputs; [dropped] the definitions given up. *)
Record kinv (all done : submap) (reapply : submap) (restore : list term) (dropped : submap) : Prop := {
  ki_keys : forall v w, In (v, w) reapply -> keep v = false /\
              (exists k u, In (k, u) all /\ In v (vars u)) /\ (forall x, In x (vars w) -> keep x = true /\ exists u, In (x, u) all);
  ki_sorted : forall v w, In (v, w) reapply -> forall r, sort_of (eval r w) = vsort v;
  ki_nodup : NoDup (keys reapply);
  ki_restore : forall e, In e restore -> exists k u, In (k, u) all /\ e = mkEq (Var k) u /\ ~ In k (keys dropped) /\ In k (keys done);
  ki_dropped : forall k u, In (k, u) dropped -> keep k = false /\ In (k, u) all;
  ki_dnodup : NoDup (keys dropped);
  ki_dkeys : forall k, In k (keys dropped) -> In k (keys done);
  ki_sem : forall r, defs r done <-> defs r dropped /\ Forall (holds r) restore /\ defs r reapply
}.

Lemma process_keys_ok all : (forall k u, In (k, u) all -> forall r, sort_of (eval r u) = vsort k) ->
  forall s done reapply restore dropped re rs,
  NoDup (keys (done ++ s)) -> (forall x, In x s -> In x all) ->
  kinv all done reapply restore dropped ->
  process_keys keep fractional s reapply restore = (re, rs) ->
  exists dropped', kinv all (done ++ s) re rs dropped'.
Proof.
  intros W. induction s as [|[k u] s IH]; intros done reapply restore dropped re rs N Sub K E.
  - simpl in E. inversion E; subst. rewrite app_nil_r. eauto.
  - assert (Hku : In (k, u) all) by (apply Sub; simpl; auto).
    assert (Sub' : forall x, In x s -> In x all) by (intros; apply Sub; simpl; auto).
    assert (EQ : done ++ (k, u) :: s = (done ++ [(k, u)]) ++ s) by (rewrite <- app_assoc; reflexivity).
    rewrite EQ in N |- *.
    assert (Nk : ~ In k (keys done)).
    { unfold keys in N. rewrite <- app_assoc, map_app in N. simpl in N. apply NoDup_remove_2 in N. rewrite in_app_iff in N. tauto. }
    destruct K as [K1 K2 K3 K4 K5 K6 K7 K8].
    assert (Nd : ~ In k (keys dropped)) by (intros H; apply Nk, K7, H).
    assert (D1 : forall r, defs r (done ++ [(k, u)]) <-> defs r done /\ eval r (Var k) = eval r u).
    { intros r. rewrite defs_app, defs_cons. split; [tauto|]. intros [H1 H2]. repeat split; auto. intros ? ? []. }
    (* restoring the equality *)
    assert (RESTORE : process_keys keep fractional s reapply (restore ++ [mkEq (Var k) u]) = (re, rs) ->
              exists dropped', kinv all ((done ++ [(k, u)]) ++ s) re rs dropped').
    { intros E'. eapply (IH _ _ _ dropped); [exact N|exact Sub'| |exact E']. constructor; auto.
      - intros e He. apply in_app_or in He as [He|[<-|[]]].
        + destruct (K4 e He) as [k' [u' [H1 [H2 [H3 H4]]]]]. exists k', u'. repeat split; auto.
          unfold keys. rewrite map_app. apply in_or_app. left. exact H4.
        + exists k, u. repeat split; auto. unfold keys. rewrite map_app. apply in_or_app. right. simpl; auto.
      - intros k' Hk'. unfold keys. rewrite map_app. apply in_or_app. left. apply K7, Hk'.
      - intros r. rewrite D1, K8, Forall_app, Forall_cons_iff, holds_eq. intuition. }
    (* reverting it *)
    assert (REVERT : forall v w, In v (vars u) -> negb (keep v) && negb (in_keys v reapply) = true -> keep k = true ->
              (forall x, In x (vars w) -> x = k) -> (forall r, sort_of (eval r w) = vsort v) ->
              (forall r, eval r (Var k) = eval r u <-> eval r (Var v) = eval r w) ->
              process_keys keep fractional s (reapply ++ [(v, w)]) restore = (re, rs) ->
              exists dropped', kinv all ((done ++ [(k, u)]) ++ s) re rs dropped').
    { intros v w Hv Hu Hk Hw Ws Hr E'. apply andb_true_iff in Hu as [U1 U2]. apply negb_true_iff in U1, U2.
      unfold in_keys in U2. apply inb_false in U2.
      eapply (IH _ _ _ dropped); [exact N|exact Sub'| |exact E']. constructor; auto.
      - intros v' w' H. apply in_app_or in H as [H|[H|[]]]; [apply (K1 _ _ H)|]. inversion H; subst.
        split; [exact U1|]. split; [eauto|]. intros x Hx. rewrite (Hw x Hx). eauto.
      - intros v' w' H r. apply in_app_or in H as [H|[H|[]]]; [apply (K2 _ _ H)|]. inversion H; subst. apply Ws.
      - unfold keys. rewrite map_app. apply NoDup_app_intro; auto; [simpl; constructor; [tauto|constructor]|].
        simpl. intros x Hx [<-|[]]. auto.
      - intros e He. destruct (K4 e He) as [k' [u' [H1 [H2 [H3 H4]]]]]. exists k', u'. repeat split; auto.
        unfold keys. rewrite map_app. apply in_or_app. left. exact H4.
      - intros k' Hk'. unfold keys. rewrite map_app. apply in_or_app. left. apply K7, Hk'.
      - intros r. rewrite D1, K8, defs_app, defs_cons. specialize (Hr r).
        assert (defs r []) by (intros ? ? []). tauto. }
    cbn [process_keys] in E. destruct (keep k) eqn:Ek.
    + assert (SHIFT : match shifted_var u with
        | Some (v, c) => if negb (keep v) && negb (in_keys v reapply)
                         then process_keys keep fractional s (reapply ++ [(v, mkPlus [Var k; Const (neg_value c)])]) restore
                         else process_keys keep fractional s reapply (restore ++ [mkEq (Var k) u])
        | None => process_keys keep fractional s reapply (restore ++ [mkEq (Var k) u])
        end = (re, rs) -> exists dropped', kinv all ((done ++ [(k, u)]) ++ s) re rs dropped').
      { intros E'. destruct (shifted_var u) as [[v c]|] eqn:Es; [|apply RESTORE, E'].
        destruct (negb (keep v) && negb (in_keys v reapply)) eqn:Eu; [|apply RESTORE, E'].
        destruct (shifted_var_ok u v c Es) as [S1 [S2 [S3 S4]]].
        assert (Sk : vsort k = vsort v).
        { rewrite <- (W k u Hku (fun _ => VInt 0)), S4. rewrite <- S2.
          pose proof (coerce_sort (vsort v) ((fun _ => VInt 0) v)) as X. cbn [eval]. rewrite <- S2 in *.
          destruct (coerce _ _), c; simpl in *; try congruence; reflexivity. }
        apply (REVERT v (mkPlus [Var k; Const (neg_value c)])); auto.
        - intros x [<-|[]]; reflexivity.
        - intros r. cbn. pose proof (coerce_sort (vsort k) (r k)) as X. pose proof (neg_value_sort c) as Y.
          rewrite Sk in *. rewrite <- S2 in *. destruct (coerce _ _), c; simpl in *; try congruence; reflexivity.
        - intros r. rewrite S4. cbn [eval map mkPlus interp fold1 fold_left]. apply vadd_shift.
          + rewrite coerce_sort. congruence.
          + rewrite coerce_sort. congruence.
          + congruence. }
      destruct u as [v|c|f ts]; [|apply SHIFT, E|apply SHIFT, E].
      destruct (negb (keep v) && negb (in_keys v reapply)) eqn:Eu; [|apply SHIFT; exact E].
      apply (REVERT v (Var k)); auto; simpl; auto.
      * intros x [<-|[]]; reflexivity.
      * intros r. rewrite coerce_sort. rewrite <- (W k (Var v) Hku r). simpl. apply coerce_sort.
      * intros r. split; intros X; symmetry; exact X.
    + destruct (sort_eqb (vsort k) SInt && fractional u); [apply RESTORE, E|].
      eapply (IH _ _ _ (dropped ++ [(k, u)])); [exact N|exact Sub'| |exact E]. constructor; auto.
      * intros e He. destruct (K4 e He) as [k' [u' [H1 [H2 [H3 H4]]]]]. exists k', u'. repeat split; auto.
        -- unfold keys. rewrite map_app, in_app_iff. intros [X|[X|[]]]; [auto|]. simpl in X. subst k'. auto.
        -- unfold keys. rewrite map_app. apply in_or_app. left. exact H4.
      * intros k' u' H. apply in_app_or in H as [H|[H|[]]]; [apply (K5 _ _ H)|]. inversion H; subst. auto.
      * unfold keys. rewrite map_app. apply NoDup_app_intro; auto; [simpl; constructor; [tauto|constructor]|].
        simpl. intros x Hx [<-|[]]. auto.
      * intros k' Hk'. unfold keys in *. rewrite map_app in *. rewrite in_app_iff in *. destruct Hk' as [H|H]; [left; apply K7, H|right; exact H].
      * intros r. rewrite D1, K8, defs_app, defs_cons. assert (defs r []) by (intros ? ? []). tauto.
Qed.

Lemma kinv_init all : kinv all [] [] [] [].
Proof.
  constructor; simpl; try tauto; try (constructor; fail).
  intros r. split; [intros _; repeat split; try constructor; intros ? ? []|intros _ ? ? []].
Qed.
End K.

Lemma upd_not_key r s v : ~ In v (keys s) -> upd r s v = r v.
Proof. intros H. unfold upd. apply lookup_none in H. rewrite H. reflexivity. Qed.
Lemma eval_upd_fresh r s t : (forall v, In v (vars t) -> ~ In v (keys s)) -> eval (upd r s) t = eval r t.
Proof. intros H. apply eval_agree. intros v Hv. apply upd_not_key, H, Hv. Qed.

Lemma close_id s : (forall k u v, In (k, u) s -> In v (vars u) -> ~ In v (keys s)) -> close s = s.
Proof.
  assert (G : forall s, (forall k u v, In (k, u) s -> In v (vars u) -> ~ In v (keys s)) -> close s = s).
  { clear s. induction s as [|[k u] s IH]; intros H; [reflexivity|]. cbn [close].
    rewrite IH.
    - f_equal. f_equal. apply subst_no_key. intros v Hv Hk. apply (H k u v); simpl; auto.
    - intros k' u' v Hk Hv Hin. apply (H k' u' v); simpl; auto. }
  apply G.
Qed.

(** The projections of the formula and of the result onto the kept variables coincide. *)
Theorem try_eliminate_ok retrieve keep fractional fuel fla g : retrieve_ok retrieve ->
  try_eliminate retrieve keep fractional fuel fla = Some g ->
  (forall v, In v (vars g) -> In v (vars fla)) /\
  forall r, (exists r', (forall v, keep v = true -> r' v = r v) /\ holds r' fla) <->
            (exists r', (forall v, keep v = true -> r' v = r v) /\ holds r' g).
Proof.
  intros Hret E. unfold try_eliminate in E.
  destruct (extract_loop retrieve fuel fla []) as [[sub simp]|] eqn:Ex; [|discriminate].
  pose proof (extract_loop_ok retrieve Hret fla fuel fla [] sub simp (xinv_init fla) Ex) as [S N F T W [V1 V2]].
  destruct (close_ok sub [] T N W) as [C1 [C2 C3]].
  destruct (process_keys keep fractional (close sub) [] []) as [re rs] eqn:Ep.
  destruct (process_keys_ok keep fractional (close sub) C2 (close sub) [] [] [] [] re rs) as [dr K]; auto.
  { simpl. rewrite keys_close. exact N. }
  { apply kinv_init; exact fractional. }
  simpl app in K. destruct K as [K1 K2 K3 K4 K5 K6 K7 K8]. injection E as Eg0.
  set (f := match rs with [] => simp | _ => mkAnd (rs ++ [simp]) end) in *.
  assert (Hf : forall r, holds r f <-> Forall (holds r) rs /\ holds r simp).
  { intros r. unfold f. destruct rs as [|e rs']; [split; [intros; split; [constructor|assumption]|tauto]|].
    rewrite holds_and, Forall_app. split; intros [A B]; split; auto. inversion B; auto. }
  assert (Hfv : forall v, In v (vars f) -> In v (vars simp) \/ exists e, In e rs /\ In v (vars e)).
  { intros v. unfold f. destruct rs as [|e rs']; [auto|]. intros H. apply in_vars_app in H as [e' [He Hv]].
    apply in_app_or in He as [He|[<-|[]]]; eauto. }
  assert (CR : close re = re).
  { apply close_id. intros k u v Hk Hv Hin. destruct (K1 _ _ Hk) as [_ [_ K]]. destruct (K v Hv) as [Kv _].
    apply in_map_iff in Hin as [[v' w'] [Ev Hin]]. simpl in Ev. subst v'. apply K1 in Hin. destruct Hin. congruence. }
  assert (Wre : well_sorted re) by (apply well_sorted_intro; exact K2).
  assert (Eg : g = subst re f).
  { rewrite <- Eg0, CR. destruct re; [|reflexivity]. symmetry. apply subst_no_key. intros v _ []. }
  clearbody f. clear Eg0 CR. rewrite Eg. clear Eg.
  assert (kept_re : forall v, keep v = true -> ~ In v (keys re)).
  { intros v Hv Hin. apply in_map_iff in Hin as [[v' w'] [Ev Hin]]. simpl in Ev. subst v'. apply K1 in Hin. destruct Hin. congruence. }
  assert (kept_dr : forall v, keep v = true -> ~ In v (keys dr)).
  { intros v Hv Hin. apply in_map_iff in Hin as [[v' w'] [Ev Hin]]. simpl in Ev. subst v'. apply K5 in Hin. destruct Hin. congruence. }
  assert (dr_keys : forall v, In v (keys dr) -> In v (keys sub)) by (intros v Hv; rewrite <- keys_close; apply K7, Hv).
  assert (rhs_dr : forall k u v, In (k, u) (close sub) -> In v (vars u) -> ~ In v (keys dr)).
  { intros k u v Hk Hv Hin. destruct (C3 k u v Hk Hv) as [X _]. apply X, dr_keys, Hin. }
  assert (cl_vars : forall k u, In (k, u) (close sub) -> In k (vars fla) /\ forall v, In v (vars u) -> In v (vars fla)).
  { intros k u Hk. split.
    - assert (X : In k (keys sub)) by (rewrite <- keys_close; change k with (fst (k, u)); apply in_map, Hk).
      apply in_map_iff in X as [[k' u'] [X1 X2]]. simpl in X1. subst k'. apply (proj1 (V2 _ _ X2)).
    - intros v Hv. destruct (C3 _ _ _ Hk Hv) as [_ [_ [k' [u' [X1 X2]]]]]. apply (proj2 (V2 _ _ X1)), X2. }
  split.
  { intros v Hv. apply in_vars_subst in Hv as [w [Hw Hv]]. destruct (lookup w re) as [z|] eqn:El.
    - apply lookup_in in El. destruct (K1 _ _ El) as [_ [_ X]]. destruct (X v Hv) as [_ [u Hu]]. apply (proj1 (cl_vars _ _ Hu)).
    - subst w. apply Hfv in Hw as [Hw|[e [He Hw]]]; [apply V1, Hw|].
      destruct (K4 e He) as [k [u [X1 [-> _]]]]. apply in_vars_app in Hw as [x [[<-|[<-|[]]] Hx]].
      + destruct Hx as [<-|[]]. apply (proj1 (cl_vars _ _ X1)).
      + apply (proj2 (cl_vars _ _ X1)), Hx. }
  intros r. split.
  - intros [r' [Ha Hr]]. exists r'. split; [exact Ha|]. apply S in Hr as [Hs Hd]. apply C1, K8 in Hd as [D1 [D2 D3]].
    unfold holds, holdsb. rewrite defs_subst by auto. apply Hf. auto.
  - intros [r' [Ha Hr]]. apply holds_subst in Hr; [|exact Wre]. set (r1 := upd r' re) in *.
    exists (upd r1 dr). split.
    + intros v Hv. rewrite upd_not_key by auto. unfold r1. rewrite upd_not_key by auto. auto.
    + apply Hf in Hr as [Hrs Hsimp].
      apply S. split.
      * unfold holds, holdsb. rewrite eval_upd_fresh; [exact Hsimp|]. intros v Hv Hk. apply (F v); auto.
      * apply C1, K8. split; [|split].
        -- intros k u Hk. cbn [eval]. unfold upd at 1. rewrite (lookup_nodup k u dr K6 Hk).
           rewrite eval_upd_fresh by (intros v Hv; apply (rhs_dr k u v); [apply K5, Hk|exact Hv]).
           apply coerce_id. apply (C2 k u). apply K5, Hk.
        -- apply Forall_forall. intros e He. rewrite Forall_forall in Hrs. specialize (Hrs e He).
           destruct (K4 e He) as [k [u [X1 [-> [X3 X4]]]]]. apply holds_eq. apply holds_eq in Hrs.
           rewrite !eval_upd_fresh; [exact Hrs| |].
           ++ intros v Hv. apply (rhs_dr k u v X1 Hv).
           ++ intros v [<-|[]]. exact X3.
        -- intros v w Hvw. destruct (K1 _ _ Hvw) as [Kv [[k [u [Hk Hv]]] Kw]].
           rewrite !eval_upd_fresh.
           ++ unfold r1. cbn [eval]. unfold upd at 1. rewrite (lookup_nodup v w re K3 Hvw).
              rewrite eval_upd_fresh by (intros x Hx; apply kept_re, Kw, Hx). apply coerce_id. apply (K2 _ _ Hvw).
           ++ intros x Hx. apply kept_dr, Kw, Hx.
           ++ intros x [<-|[]]. apply (rhs_dr k u v Hk Hv).
Qed.
