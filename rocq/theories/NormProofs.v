(** * Normalization of one clause. *)
From Verif Require Import Syntax Solver KTo1Model Graph GraphSem ChcSystem Names SimpleTransModel MergeModel MergeProofs FormulaProofs3 NormModel.
Open Scope list_scope.
Open Scope nat_scope.

Lemma typed_ok t : forall s, typed t = Some s -> forall r, sort_of (eval r t) = s.
Proof.
  induction t as [v|c|f ts IH] using term_ind'; intros s H r.
  - cbn in *. injection H as <-. apply coerce_sort.
  - cbn in *. congruence.
  - assert (Ar : forall op, (forall a b, sort_of a = SInt -> sort_of b = SInt -> sort_of (op a b) = SInt) -> (forall a b, sort_of a = SReal -> sort_of b = SReal -> sort_of (op a b) = SReal) ->
       forall s', (s' = SInt \/ s' = SReal) -> forall l a, sort_of a = s' -> Forall (fun x => sort_of (eval r x) = s') l -> sort_of (fold_left op (map (eval r) l) a) = s').
    { intros op O1 O2 s' Hs'. induction l as [|x l IHl]; intros a Ha F; [exact Ha|]. apply Forall_cons_iff in F as [F1 F2]. cbn [map fold_left].
      apply IHl; [|exact F2]. destruct Hs' as [->| ->]; auto. }
    assert (A1 : forall a b, sort_of a = SInt -> sort_of b = SInt -> sort_of (vadd a b) = SInt) by (intros [] []; cbn; congruence).
    assert (A2 : forall a b, sort_of a = SReal -> sort_of b = SReal -> sort_of (vadd a b) = SReal) by (intros [] []; cbn; congruence).
    assert (M1 : forall a b, sort_of a = SInt -> sort_of b = SInt -> sort_of (vmul a b) = SInt) by (intros [] []; cbn; congruence).
    assert (M2 : forall a b, sort_of a = SReal -> sort_of b = SReal -> sort_of (vmul a b) = SReal) by (intros [] []; cbn; congruence).
    assert (Sel : forall s' t1 ts', Forall (fun x => forall s0, typed x = Some s0 -> forall r0, sort_of (eval r0 x) = s0) (t1 :: ts') ->
       forallb (fun x => match typed x with Some s0 => sort_eqb s0 s' | _ => false end) ts' = true ->
       Forall (fun x => sort_of (eval r x) = s') ts').
    { intros s' t1 ts' F B. apply Forall_cons_iff in F as [_ F]. rewrite forallb_forall in B. rewrite Forall_forall in *. intros x Hx. specialize (B x Hx).
      destruct (typed x) as [s0|] eqn:E; [|discriminate]. destruct (sort_eqb_spec s0 s'); [|discriminate]. subst. apply (F x Hx _ E). }
    destruct f; cbn [typed] in H; cbn [eval].
    1,2: injection H as <-; reflexivity.
    + injection H as <-. destruct ts as [|a [|b l]]; reflexivity.
    + injection H as <-. destruct ts as [|a [|b [|]]]; reflexivity.
    + injection H as <-. destruct ts as [|a [|b [|]]]; reflexivity.
    + destruct ts as [|t1 ts']; [discriminate|]. cbn [map interp fold1]. pose proof (Forall_inv IH) as I1. destruct (typed t1) as [[]|] eqn:E1; try discriminate.
      * destruct (forallb _ ts') eqn:E2; [|discriminate]. injection H as <-. apply (Ar vadd A1 A2 SInt (or_introl eq_refl)); [apply (I1 _ E1)|]. apply (Sel SInt t1 ts' IH).
        rewrite forallb_forall in *. intros x Hx. specialize (E2 x Hx). destruct (typed x) as [[]|]; try discriminate; reflexivity.
      * destruct (forallb _ ts') eqn:E2; [|discriminate]. injection H as <-. apply (Ar vadd A1 A2 SReal (or_intror eq_refl)); [apply (I1 _ E1)|]. apply (Sel SReal t1 ts' IH).
        rewrite forallb_forall in *. intros x Hx. specialize (E2 x Hx). destruct (typed x) as [[]|]; try discriminate; reflexivity.
    + destruct ts as [|t1 ts']; [discriminate|]. cbn [map interp fold1]. pose proof (Forall_inv IH) as I1. destruct (typed t1) as [[]|] eqn:E1; try discriminate.
      * destruct (forallb _ ts') eqn:E2; [|discriminate]. injection H as <-. apply (Ar vmul M1 M2 SInt (or_introl eq_refl)); [apply (I1 _ E1)|]. apply (Sel SInt t1 ts' IH).
        rewrite forallb_forall in *. intros x Hx. specialize (E2 x Hx). destruct (typed x) as [[]|]; try discriminate; reflexivity.
      * destruct (forallb _ ts') eqn:E2; [|discriminate]. injection H as <-. apply (Ar vmul M1 M2 SReal (or_intror eq_refl)); [apply (I1 _ E1)|]. apply (Sel SReal t1 ts' IH).
        rewrite forallb_forall in *. intros x Hx. specialize (E2 x Hx). destruct (typed x) as [[]|]; try discriminate; reflexivity.
    + destruct ts as [|c [|a [|b [|]]]]; try discriminate. destruct (typed a) as [sa|] eqn:Ea; [|discriminate]. destruct (typed b) as [sb|] eqn:Eb; [|discriminate].
      destruct (sort_eqb_spec sa sb); [|discriminate]. injection H as <-. subst sb. apply Forall_cons_iff in IH as [_ IH]. apply Forall_cons_iff in IH as [Ia IH]. apply Forall_cons_iff in IH as [Ib _].
      cbn. destruct (asb (eval r c)); [apply (Ia _ Ea)|apply (Ib _ Eb)].
    + injection H as <-. destruct ts as [|a [|b [|]]]; reflexivity.
    + injection H as <-. destruct ts; reflexivity.
    + destruct ts as [|a [|b [|]]]; try discriminate. destruct (typed a) as [[]|] eqn:Ea; try discriminate. destruct (typed b) as [[]|] eqn:Eb; try discriminate.
      injection H as <-. apply Forall_cons_iff in IH as [Ia IH]. apply Forall_cons_iff in IH as [Ib _]. specialize (Ia _ Ea r). specialize (Ib _ Eb r).
      cbn. destruct (eval r a), (eval r b); cbn in *; try discriminate. reflexivity.
    + destruct ts as [|a [|b [|]]]; try discriminate. destruct (typed a) as [[]|] eqn:Ea; try discriminate. destruct (typed b) as [[]|] eqn:Eb; try discriminate.
      injection H as <-. apply Forall_cons_iff in IH as [Ia IH]. apply Forall_cons_iff in IH as [Ib _]. specialize (Ia _ Ea r). specialize (Ib _ Eb r).
      cbn. destruct (eval r a), (eval r b); cbn in *; try discriminate. reflexivity.
Qed.

(** ** Names *)
Lemma xvar_inj n s n' s' : xvar n s = xvar n' s' -> n = n' /\ s = s'.
Proof. unfold xvar. intros E. injection E as E1 E2. split; [|exact E2]. apply to_string_inj in E1. lia. Qed.
Lemma nauxv_inj n s n' s' : nauxv n s = nauxv n' s' -> n = n' /\ s = s'.
Proof. unfold nauxv. intros E. injection E as E1 E2. split; [|exact E2]. apply to_string_inj in E1. lia. Qed.
(** Names that normalization gives to arguments of predicates. *)
Definition reserved (v : var) : Prop := exists n s, v = tgt (xvar n s) \/ exists i, v = src i (xvar n s).
Lemma naux_not_reserved n s : ~ reserved (nauxv n s).
Proof. intros [m [s' [E|[i E]]]]; discriminate E. Qed.

Lemma aux_map_fst l : forall n, map fst (aux_map n l) = l.
Proof. induction l as [|v l IH]; intros n; [reflexivity|]. cbn. rewrite IH. reflexivity. Qed.
Lemma aux_map_in l : forall n v w, In (v, w) (aux_map n l) -> exists k, n <= k < n + length l /\ w = nauxv k (vsort v) /\ In v l.
Proof.
  induction l as [|u l IH]; intros n v w H; [destruct H|]. cbn in H. destruct H as [E|H].
  - injection E as <- <-. exists n. cbn. split; [lia|auto].
  - destruct (IH _ _ _ H) as [k [H1 [H2 H3]]]. exists k. cbn. split; [lia|auto].
Qed.
Lemma aux_map_inj l : forall n v v' w, In (v, w) (aux_map n l) -> In (v', w) (aux_map n l) -> v = v'.
Proof.
  induction l as [|u l IH]; intros n v v' w H H'; [destruct H|]. cbn in H, H'. destruct H as [E|H], H' as [E'|H'].
  - congruence.
  - injection E as <- <-. apply aux_map_in in H' as [k [K1 [K2 _]]]. apply nauxv_inj in K2. lia.
  - injection E' as <- <-. apply aux_map_in in H as [k [K1 [K2 _]]]. apply nauxv_inj in K2. lia.
  - eapply IH; eassumption.
Qed.

(** ** Splitting the equalities *)
Lemma vlookup_app_l m m' v : In v (map fst m) -> vlookup (m ++ m') v = vlookup m v.
Proof.
  induction m as [|[a b] m IH]; cbn; [intros []|]. intros H. destruct (var_eqb_spec v a); [reflexivity|]. apply IH. destruct H; congruence.
Qed.
Lemma split_eqs_spec l : forall m m' es, split_eqs m l = (m', es) -> NoDup (map fst m) ->
  NoDup (map fst m') /\ (exists x, m' = m ++ x) /\
  (forall v n, In (v, n) m' -> In (v, n) m \/ In (n, Var v) l) /\
  (forall n arg, In (n, arg) l -> (exists v, arg = Var v /\ In (v, n) m') \/
     (exists v, arg = Var v /\ In v (map fst m') /\ In (mkEq (Var n) (Var (vlookup m' v))) es) \/ In (mkEq (Var n) arg) es) /\
  (forall t, In t es -> exists n arg, In (n, arg) l /\
     (t = mkEq (Var n) arg /\ (forall v, arg <> Var v) \/ exists v, arg = Var v /\ In v (map fst m') /\ t = mkEq (Var n) (Var (vlookup m' v)))).
Proof.
  induction l as [|[n arg] l IH]; intros m m' es E N.
  - cbn in E. injection E as <- <-. split; [exact N|]. split; [exists []; rewrite app_nil_r; reflexivity|]. split; [auto|]. split; [intros ? ? []|intros ? []].
  - cbn [split_eqs] in E.
    assert (Other : forall v0, (arg = Var v0 -> mapped m v0 = true) -> forall x es0, (arg = Var v0 /\ x = Var (vlookup m v0) \/ (x = arg /\ forall v, arg <> Var v)) ->
        split_eqs m l = (m', es0) -> es = mkEq (Var n) x :: es0 -> 
        NoDup (map fst m') /\ (exists x, m' = m ++ x) /\
        (forall v n0, In (v, n0) m' -> In (v, n0) m \/ In (n0, Var v) ((n, arg) :: l)) /\
        (forall n0 arg0, In (n0, arg0) ((n, arg) :: l) -> (exists v, arg0 = Var v /\ In (v, n0) m') \/
           (exists v, arg0 = Var v /\ In v (map fst m') /\ In (mkEq (Var n0) (Var (vlookup m' v))) es) \/ In (mkEq (Var n0) arg0) es) /\
        (forall t, In t es -> exists n0 arg0, In (n0, arg0) ((n, arg) :: l) /\
           (t = mkEq (Var n0) arg0 /\ (forall v, arg0 <> Var v) \/ exists v, arg0 = Var v /\ In v (map fst m') /\ t = mkEq (Var n0) (Var (vlookup m' v))))).
    { intros v0 Hv0 x es0 Hx E0 ->. destruct (IH m m' es0 E0 N) as [A [B [C [D F]]]]. destruct B as [y B].
      split; [exact A|]. split; [eauto|]. split; [intros v n0 H; destruct (C v n0 H) as [X|X]; [auto|right; right; exact X]|].
      assert (K : arg = Var v0 -> In v0 (map fst m') /\ vlookup m v0 = vlookup m' v0).
      { intros Ha. specialize (Hv0 Ha). unfold mapped in Hv0. rewrite inb_true in Hv0. subst m'. split; [rewrite map_app, in_app_iff; auto|]. symmetry. apply vlookup_app_l, Hv0. }
      split.
      - intros n0 arg0 [E1|H].
        + injection E1 as <- <-. right. destruct Hx as [[Ha ->]|[-> Ha]].
          * left. exists v0. destruct (K Ha) as [K1 K2]. split; [exact Ha|]. split; [exact K1|]. left. rewrite K2. reflexivity.
          * right. left. reflexivity.
        + destruct (D n0 arg0 H) as [X|[[v [X1 [X2 X3]]]|X]]; [auto| |]; right; [left; exists v|right]; cbn; auto.
      - intros t [<-|H].
        + exists n, arg. split; [left; reflexivity|]. destruct Hx as [[Ha ->]|[-> Ha]].
          * right. destruct (K Ha) as [K1 K2]. exists v0. rewrite K2. auto.
          * left. auto.
        + destruct (F t H) as [n0 [arg0 [H1 H2]]]. exists n0, arg0. split; [right; exact H1|exact H2]. }
    assert (dv : var) by exact (xvar 0 SInt).
    destruct arg as [v|c|f ts].
    + destruct (mapped m v) eqn:Em.
      * destruct (split_eqs m l) as [m1 es1] eqn:E1. injection E as <- <-. eapply (Other v); [intros _; exact Em| |reflexivity|reflexivity]. left. auto.
      * unfold mapped in Em. rewrite inb_false in Em. destruct (IH (m ++ [(v, n)]) m' es E) as [A [B [C [D F]]]].
        { rewrite map_app. cbn. apply NoDup_app_intro; [exact N|constructor; [intros []|constructor]|]. intros x Hx [<-|[]]. auto. }
        split; [exact A|]. destruct B as [y ->]. split; [exists ([(v, n)] ++ y); rewrite app_assoc; reflexivity|]. split; [|split].
        -- intros v1 n1 H. destruct (C v1 n1 H) as [X|X]; [|right; right; exact X]. apply in_app_iff in X as [X|[X|[]]]; [auto|]. injection X as <- <-. right. left. reflexivity.
        -- intros n1 arg1 [X|X]; [|apply D, X]. injection X as <- <-. left. exists v. split; [reflexivity|]. rewrite !in_app_iff. left. right. left. reflexivity.
        -- intros t H. destruct (F t H) as [n1 [a1 [X1 X2]]]. exists n1, a1. split; [right; exact X1|exact X2].
    + destruct (split_eqs m l) as [m1 es1] eqn:E1. injection E as <- <-. eapply (Other dv); [discriminate| |reflexivity|reflexivity]. right. split; [reflexivity|discriminate].
    + destruct (split_eqs m l) as [m1 es1] eqn:E1. injection E as <- <-. eapply (Other dv); [discriminate| |reflexivity|reflexivity]. right. split; [reflexivity|discriminate].
Qed.

(** ** The label of one clause *)
Section Label.
Variable fla : term.
Variable eqs : list neq.
Variable cnt : nat.
Hypothesis Nd : NoDup (map fst eqs).
Hypothesis Res : forall n arg, In (n, arg) eqs -> reserved n.
Hypothesis Ty : forall n arg, In (n, arg) eqs -> typed arg = Some (vsort n).
Hypothesis Ua : forall n arg v, In (n, arg) eqs -> In v (vars arg) -> ~ reserved v.
Hypothesis Uf : forall v, In v (vars fla) -> ~ reserved v.

Let m := fst (split_eqs [] eqs).
Let es := snd (split_eqs [] eqs).
Let fla1 := norm_fla fla eqs.
Let ls := local_vars (map fst eqs) fla1.
Let am := aux_map cnt ls.
Let F (v : var) : var := vlookup am (vlookup m v).
Let label := rename (vlookup am) fla1.

Lemma lb_split : split_eqs [] eqs = (m, es). Proof. unfold m, es. destruct (split_eqs [] eqs). reflexivity. Qed.
Lemma lb_m v n : In (v, n) m -> In (n, Var v) eqs.
Proof. destruct (split_eqs_spec eqs [] m es lb_split (NoDup_nil _)) as [_ [_ [C _]]]. intros H. destruct (C v n H) as [[]|X]; exact X. Qed.
Lemma lb_cases n arg : In (n, arg) eqs -> (exists v, arg = Var v /\ In (v, n) m) \/
     (exists v, arg = Var v /\ In v (map fst m) /\ In (mkEq (Var n) (Var (vlookup m v))) es) \/ In (mkEq (Var n) arg) es.
Proof. destruct (split_eqs_spec eqs [] m es lb_split (NoDup_nil _)) as [_ [_ [_ [D _]]]]. apply D. Qed.
Lemma lb_es t : In t es -> exists n arg, In (n, arg) eqs /\
     (t = mkEq (Var n) arg /\ (forall v, arg <> Var v) \/ exists v, arg = Var v /\ In v (map fst m) /\ t = mkEq (Var n) (Var (vlookup m v))).
Proof. destruct (split_eqs_spec eqs [] m es lb_split (NoDup_nil _)) as [_ [_ [_ [_ E]]]]. apply E. Qed.
Lemma lb_mnodup : NoDup (map fst m).
Proof. destruct (split_eqs_spec eqs [] m es lb_split (NoDup_nil _)) as [A _]. exact A. Qed.

Lemma lb_msort : sort_preserving (vlookup m).
Proof. apply vlookup_sort. intros a b H. apply lb_m in H. apply Ty in H. cbn in H. congruence. Qed.
Lemma lb_amsort : sort_preserving (vlookup am).
Proof. apply vlookup_sort. intros a b H. apply aux_map_in in H as [k [_ [-> _]]]. reflexivity. Qed.
Lemma lb_Fsort : sort_preserving F.
Proof. intros v. unfold F. rewrite lb_amsort, lb_msort. reflexivity. Qed.

Let body := match es with [] => fla | _ => mkAnd [fla; mkAnd es] end.
Lemma lb_fla1 : fla1 = rename (vlookup m) body.
Proof. unfold fla1, norm_fla, body. rewrite lb_split. reflexivity. Qed.
Lemma lb_label : label = rename F body.
Proof. unfold label. rewrite lb_fla1, rename_rename. reflexivity. Qed.
Lemma lb_body r : holds r body <-> holds r fla /\ forall t, In t es -> holds r t.
Proof.
  unfold body. destruct es as [|t0 l].
  - split; [intros H; split; [exact H|intros t []]|tauto].
  - rewrite holds_and2, holds_and, Forall_forall. tauto.
Qed.
Lemma lb_body_vars v : In v (vars body) <-> In v (vars fla) \/ exists t, In t es /\ In v (vars t).
Proof.
  unfold body. destruct es as [|t0 l].
  - split; [auto|]. intros [H|[t [[] _]]]. exact H.
  - unfold mkAnd at 1. rewrite in_vars_app. split.
    + intros [t [[<-|[<-|[]]] H]]; [auto|]. right. unfold mkAnd in H. apply in_vars_app in H. exact H.
    + intros [H|H]; [exists fla; cbn; auto|]. exists (mkAnd (t0 :: l)). split; [cbn; auto|]. unfold mkAnd. apply in_vars_app. exact H.
Qed.

(** A normalized variable is not renamed. *)
Lemma lb_fix n arg : In (n, arg) eqs -> vlookup m n = n /\ F n = n.
Proof.
  intros H. assert (A : vlookup m n = n).
  { apply vlookup_out. intros I. apply in_map_iff in I as [[v k] [E I]]. cbn in E. subst v. apply lb_m in I. apply (Ua k (Var n) n I); [left; reflexivity|]. exact (Res n arg H). }
  split; [exact A|]. unfold F. rewrite A. apply vlookup_out. unfold am. rewrite aux_map_fst. unfold ls, local_vars. rewrite filter_In. intros [_ I].
  assert (X : inb n (map fst eqs) = true) by (rewrite inb_true; apply in_map_iff; exists (n, arg); auto). rewrite X in I. discriminate.
Qed.
(** A variable of the clause is either mapped to a normalized variable or local. *)
Definition user (v : var) : Prop := In v (vars fla) \/ exists n arg, In (n, arg) eqs /\ In v (vars arg).
Lemma lb_user_body v : In v (vars fla) \/ (exists n arg, In (n, arg) eqs /\ (forall w, arg <> Var w) /\ In v (vars arg)) -> In v (vars body).
Proof.
  intros H. apply lb_body_vars. destruct H as [H|[n [arg [H1 [H2 H3]]]]]; [auto|]. right. destruct (lb_cases n arg H1) as [[w [E _]]|[[w [E _]]|X]].
  - exfalso. apply (H2 w E).
  - exfalso. apply (H2 w E).
  - exists (mkEq (Var n) arg). split; [exact X|]. unfold mkEq. apply in_vars_app. exists arg. cbn. auto.
Qed.
Lemma lb_user v : user v -> (exists n, In (v, n) m /\ F v = n /\ vlookup m v = n) \/ (~ In v (map fst m) /\ exists a, In (v, a) am /\ F v = a).
Proof.
  intros U. assert (NR : ~ reserved v) by (destruct U as [U|[n [arg [H1 H2]]]]; [apply Uf, U|apply (Ua n arg v H1 H2)]).
  destruct (in_dec var_dec v (map fst m)) as [I|I].
  - left. pose proof (vlookup_in m v I) as H. exists (vlookup m v). split; [exact H|]. split; [|reflexivity]. unfold F.
    pose proof (lb_m _ _ H) as H'. destruct (lb_fix _ _ H') as [A B]. unfold F in B. rewrite A in B. exact B.
  - right. split; [exact I|]. assert (E : vlookup m v = v) by (apply vlookup_out, I). unfold F. rewrite E.
    assert (L : In v ls).
    { unfold ls, local_vars. rewrite filter_In, nodup_In. split.
      - rewrite lb_fla1, vars_rename. rewrite <- E. apply in_map. apply lb_user_body. destruct U as [U|[n [arg [H1 H2]]]]; [auto|]. right. exists n, arg. split; [exact H1|]. split; [|exact H2].
        intros w ->. cbn in H2. destruct H2 as [->|[]]. destruct (lb_cases _ _ H1) as [[w [X Y]]|[[w [X [Y _]]]|X]].
        + injection X as <-. apply I. apply in_map_iff. exists (v, n). auto.
        + injection X as <-. auto.
        + destruct (lb_es _ X) as [n' [arg' [H3 [[H4 H5]|[w [_ [H5 H4]]]]]]].
          * unfold mkEq in H4. injection H4 as _ H4. apply (H5 v). auto.
          * unfold mkEq in H4. injection H4 as _ H4. rewrite H4 in NR. assert (Z : In (w, vlookup m w) m) by (apply vlookup_in, H5). apply lb_m, Res in Z. auto.
      - destruct (inb_spec v (map fst eqs)) as [Y|Y]; [|reflexivity]. exfalso. apply in_map_iff in Y as [[k arg] [Y1 Y2]]. cbn in Y1. subst k. apply NR, (Res v arg Y2). }
    assert (D : In v (map fst am)) by (unfold am; rewrite aux_map_fst; exact L). apply vlookup_in in D. exists (vlookup am v). split; [exact D|reflexivity].
Qed.

(** The renaming of local variables. *)
Lemma lb_am v a : In (v, a) am -> F v = a.
Proof.
  intros H. assert (L : In v ls) by (apply aux_map_in in H as [k [_ [_ H]]]; exact H).
  assert (Nm : vlookup m v = v).
  { unfold ls, local_vars in L. rewrite filter_In, nodup_In in L. destruct L as [L1 L2]. rewrite lb_fla1, vars_rename in L1. apply in_map_iff in L1 as [u [E Hu]].
    destruct (in_dec var_dec u (map fst m)) as [I|I].
    - exfalso. apply vlookup_in, lb_m in I. rewrite E in I. assert (X : inb v (map fst eqs) = true) by (rewrite inb_true; apply in_map_iff; exists (v, Var u); auto).
      rewrite X in L2. discriminate.
    - rewrite (vlookup_out m u I) in E. subst u. apply vlookup_out, I. }
  unfold F. rewrite Nm. assert (N : NoDup ls) by (unfold ls, local_vars; apply NoDup_filter, NoDup_nodup).
  revert H N. unfold am. generalize cnt. clear. revert v a. generalize ls. intros l. induction l as [|u l IH]; intros v a n H N; [destruct H|]. inversion N as [|? ? N1 N2]; subst. cbn in H |- *.
  destruct H as [E|H]; [injection E as -> ->; rewrite var_eqb_refl; reflexivity|].
  destruct (var_eqb_spec v u) as [->|D]; [exfalso; apply N1; apply aux_map_in in H as [k [_ [_ H]]]; exact H|]. apply IH; assumption.
Qed.

(** Every solution of the label gives an instance of the clause. *)
Lemma label_back r' : holds r' label -> exists r, holds r fla /\ (forall n arg, In (n, arg) eqs -> eval r' (Var n) = eval r arg) /\
  (forall v a, In (v, a) am -> eval r' (Var a) = eval r (Var v)).
Proof.
  intros H. exists (fun v => r' (F v)). rewrite lb_label in H. apply (proj1 (holds_rename F r' body lb_Fsort)) in H. apply (proj1 (lb_body _)) in H as [H1 H2].
  split; [exact H1|]. split.
  2:{ intros v a Hin. cbn. rewrite (lb_am v a Hin). apply aux_map_in in Hin as [k [_ [-> _]]]. reflexivity. }
  intros n arg Hin. destruct (lb_fix n arg Hin) as [F1 F2]. destruct (lb_cases n arg Hin) as [[v [-> Hv]]|[[v [-> [Hv He]]]|He]].
  - assert (Fv : F v = n).
    { destruct (lb_user v) as [[k [K1 [K2 _]]]|[K _]]; [right; exists n, (Var v); cbn; auto| |].
      - assert (k = n); [|congruence]. pose proof lb_mnodup as N. revert K1 Hv N. generalize m. clear. intros l. induction l as [|[a b] l IH]; [intros []|].
        cbn. intros X Y N. inversion N as [|? ? N1 N2]; subst. destruct X as [X|X], Y as [Y|Y]; [congruence| | |auto].
        + injection X as -> ->. exfalso. apply N1. apply in_map_iff. exists (v, n). auto.
        + injection Y as -> ->. exfalso. apply N1. apply in_map_iff. exists (v, k). auto.
      - exfalso. apply K. apply in_map_iff. exists (v, n). auto. }
    cbn. rewrite Fv. f_equal. apply Ty in Hin. cbn in Hin. congruence.
  - specialize (H2 _ He). apply holds_eq in H2. cbn in H2. rewrite F2 in H2.
    assert (Z : In (v, vlookup m v) m) by (apply vlookup_in, Hv). pose proof (lb_m _ _ Z) as Z'. destruct (lb_fix _ _ Z') as [_ Fz]. rewrite Fz in H2.
    destruct (lb_user v) as [[k [K1 [K2 K3]]]|[K _]]; [right; exists n, (Var v); cbn; auto| |contradiction].
    cbn. rewrite H2, K2, <- K3. f_equal. apply lb_msort.
  - specialize (H2 _ He). apply holds_eq in H2. cbn in H2. rewrite F2 in H2. cbn. exact H2.
Qed.

(** Every instance of the clause gives a solution of the label. *)
Lemma label_forth r : holds r fla -> exists r', holds r' label /\
  (forall n arg, In (n, arg) eqs -> eval r' (Var n) = eval r arg) /\
  (forall v a, In (v, a) am -> eval r' (Var a) = eval r (Var v)).
Proof.
  intros H.
  set (r' := fun w => match find (fun p : neq => var_eqb (fst p) w) eqs with
                      | Some (_, arg) => eval r arg
                      | None => match find (fun p : var * var => var_eqb (snd p) w) am with Some (v, _) => r v | None => r w end end).
  assert (R1 : forall n arg, In (n, arg) eqs -> r' n = eval r arg).
  { intros n arg Hin. unfold r'. destruct (find _ eqs) as [[k a]|] eqn:E.
    - apply find_some in E as [E1 E2]. cbn in E2. destruct (var_eqb_spec k n) as [->|]; [|discriminate]. f_equal.
      clear - E1 Hin Nd. revert E1 Hin Nd. generalize eqs. intros l. induction l as [|[x y] l IH]; [intros []|]. cbn. intros X Y N. inversion N as [|? ? N1 N2]; subst.
      destruct X as [X|X], Y as [Y|Y]; [congruence| | |auto].
      + injection X as -> ->. exfalso. apply N1. apply in_map_iff. exists (n, arg). auto.
      + injection Y as -> ->. exfalso. apply N1. apply in_map_iff. exists (n, a). auto.
    - exfalso. apply (find_none _ _ E (n, arg)) in Hin. cbn in Hin. rewrite var_eqb_refl in Hin. discriminate. }
  assert (R2 : forall v a, In (v, a) am -> r' a = r v).
  { intros v a Hin. unfold r'. destruct (find (fun p : neq => _) eqs) as [[k ar]|] eqn:E.
    - exfalso. apply find_some in E as [E1 E2]. cbn in E2. destruct (var_eqb_spec k a) as [->|]; [|discriminate]. apply Res in E1.
      apply aux_map_in in Hin as [x [_ [-> _]]]. apply naux_not_reserved in E1. exact E1.
    - destruct (find (fun p : var * var => _) am) as [[u b]|] eqn:E'.
      + apply find_some in E' as [E1 E2]. cbn in E2. destruct (var_eqb_spec b a) as [->|]; [|discriminate]. f_equal. eapply aux_map_inj; eassumption.
      + exfalso. apply (find_none _ _ E' (v, a)) in Hin. cbn in Hin. rewrite var_eqb_refl in Hin. discriminate. }
  assert (V1 : forall n arg, In (n, arg) eqs -> eval r' (Var n) = eval r arg).
  { intros n arg Hin. cbn. rewrite (R1 n arg Hin). apply coerce_id. apply typed_ok, (Ty n arg Hin). }
  assert (V2 : forall v, user v -> coerce (vsort v) (r' (F v)) = coerce (vsort v) (r v)).
  { intros v U. destruct (lb_user v U) as [[n [K1 [K2 _]]]|[_ [a [K1 K2]]]]; rewrite K2.
    - rewrite (R1 _ _ (lb_m _ _ K1)). cbn. apply coerce_idem.
    - rewrite (R2 _ _ K1). reflexivity. }
  assert (V3 : forall t, (forall v, In v (vars t) -> user v) -> eval (fun v => r' (F v)) t = eval r t).
  { intros t Ht. apply eval_ext. intros v Hv. apply V2, Ht, Hv. }
  exists r'. split; [|split; [exact V1|]].
  2:{ intros v a Hin. cbn. rewrite (R2 v a Hin). apply aux_map_in in Hin as [k [_ [-> _]]]. reflexivity. }
  rewrite lb_label. apply (proj2 (holds_rename F r' body lb_Fsort)). apply lb_body. split.
  - unfold holds, holdsb. rewrite V3; [exact H|]. intros v Hv. left. exact Hv.
  - intros t Ht. destruct (lb_es t Ht) as [n [arg [Hin [[-> NV]|[v [-> [Hv ->]]]]]]]; apply holds_eq.
    + destruct (lb_fix n arg Hin) as [_ Fn]. rewrite (V3 arg) by (intros v Hv; right; exists n, arg; auto). rewrite <- (V1 n arg Hin). cbn. rewrite Fn. reflexivity.
    + destruct (lb_fix n _ Hin) as [_ Fn]. assert (Z : In (v, vlookup m v) m) by (apply vlookup_in, Hv). pose proof (lb_m _ _ Z) as Z'. destruct (lb_fix _ _ Z') as [_ Fz].
      pose proof (V1 _ _ Hin) as X1. pose proof (V1 _ _ Z') as X2. cbn. rewrite Fn, Fz. cbn in X1, X2. congruence.
Qed.

(** The variables of the label. *)
Lemma label_vars v : In v (vars label) -> In v (map fst eqs) \/ exists k s, cnt <= k < cnt + length ls /\ v = nauxv k s.
Proof.
  rewrite lb_label, vars_rename. intros H. apply in_map_iff in H as [u [<- H]].
  assert (K : user u \/ exists n arg, In (n, arg) eqs /\ n = u).
  { apply lb_body_vars in H as [H|[t [Ht H]]]; [left; left; exact H|]. destruct (lb_es t Ht) as [n [arg [Hin C]]].
    destruct C as [[-> _]|[w [-> [Hw ->]]]]; unfold mkEq in H; apply in_vars_app in H as [x [[<-|[<-|[]]] Hx]].
    - cbn in Hx. destruct Hx as [<-|[]]. right. eauto.
    - left. right. exists n, arg. auto.
    - cbn in Hx. destruct Hx as [<-|[]]. right. eauto.
    - cbn in Hx. destruct Hx as [<-|[]]. right. apply vlookup_in, lb_m in Hw. exists (vlookup m w), (Var w). auto. }
  destruct K as [U|[n [arg [K1 ->]]]].
  - destruct (lb_user u U) as [[n [K1 [-> _]]]|[_ [a [K1 ->]]]].
    + left. apply lb_m in K1. apply in_map_iff. exists (n, Var u). auto.
    + right. apply aux_map_in in K1 as [k [K2 [-> _]]]. eauto.
  - left. destruct (lb_fix u arg K1) as [_ ->]. apply in_map_iff. exists (u, arg). auto.
Qed.
End Label.
