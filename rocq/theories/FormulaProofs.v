(** * Proofs about the formula utilities. *)
From Coq Require Import QArith Qcanon.
From Verif Require Import Syntax Solver KTo1Model DarModel FormulaModel.
Open Scope Z_scope.

Lemma rseq_ok {A} (l : list (res A)) l' : rseq l = Ok l' <-> Forall2 (fun x a => x = Ok a) l l'.
Proof.
  revert l'. induction l as [|x l IH]; intros l'; simpl.
  - split; [intros E; inversion E; constructor|intros H; inversion H; reflexivity].
  - destruct x as [a|]; simpl.
    + split.
      * destruct (rseq l) as [as'|] eqn:E; simpl; [|discriminate]. intros H; inversion H; subst.
        constructor; [reflexivity|]. apply IH. reflexivity.
      * intros H. inversion H as [|? ? ? ? H1 H2]; subst. inversion H1; subst. apply IH in H2. rewrite H2. reflexivity.
    + split; [discriminate|]. intros H. inversion H. discriminate.
Qed.

Lemma rseq_map {A B} (f : A -> res B) l l' : rseq (map f l) = Ok l' <-> Forall2 (fun x a => f x = Ok a) l l'.
Proof.
  rewrite rseq_ok. revert l'. induction l as [|x l IH]; intros l'; simpl; split; intros H; inversion H; subst;
    constructor; auto; apply IH; assumption.
Qed.

(** ** Sorts *)
Lemma sort_eqb_eq a b : sort_eqb a b = true -> a = b.
Proof. destruct (sort_eqb_spec a b); congruence. Qed.

Lemma fold_sort f (Hf : forall a b, sort_of (f a b) = match a, b with VInt _, VInt _ => SInt | _, _ => SReal end)
      (s : sort) vs : forall v, sort_of v = s -> s <> SBool -> Forall (fun x => sort_of x = s) vs ->
   sort_of (fold_left f vs v) = s.
Proof.
  induction vs as [|w vs IH]; intros v Hv Ns HF; simpl; [exact Hv|].
  inversion HF; subst. apply IH; auto. rewrite Hf. destruct v, w; simpl in *; try congruence.
Qed.

Lemma typeof_eval t : forall s, typeof t = Some s -> forall r, sort_of (eval r t) = s.
Proof.
  induction t as [v|c|f ts IH] using term_ind'; intros s Hs r.
  - inversion Hs; subst. apply coerce_sort.
  - inversion Hs; subst. reflexivity.
  - rewrite Forall_forall in IH.
    assert (ALL : forall a, forallb (fun o => match o with Some s' => sort_eqb a s' | None => false end) (map typeof ts) = true ->
        Forall (fun x => sort_of x = a) (map (eval r) ts)).
    { intros a H. rewrite forallb_forall in H. apply Forall_forall. intros x Hx.
      apply in_map_iff in Hx as [t [<- Ht]]. specialize (H (typeof t) (in_map _ _ _ Ht)).
      destruct (typeof t) as [s'|] eqn:E; [|discriminate]. apply sort_eqb_eq in H. subst s'. eapply IH; eauto. }
    cbn [eval]. cbn [typeof] in Hs.
    destruct f; cbn [interp].
    + destruct (forallb _ _); inversion Hs; reflexivity.
    + destruct (forallb _ _); inversion Hs; reflexivity.
    + destruct ts as [|a [|b ts]]; simpl in Hs |- *; try destruct (typeof a) as [[]|]; try discriminate. inversion Hs; reflexivity.
    + destruct ts as [|a [|b [|c ts]]]; simpl in Hs |- *; try discriminate;
      try destruct (typeof a) as [x|]; try discriminate; try destruct (typeof b) as [y|]; try discriminate.
      destruct (sort_eqb x y); inversion Hs; reflexivity.
    + destruct ts as [|a [|b [|c ts]]]; simpl in Hs |- *; try discriminate;
      try destruct (typeof a) as [[]|]; try discriminate; try destruct (typeof b) as [[]|]; try discriminate;
      inversion Hs; reflexivity.
    + destruct ts as [|a ts]; [discriminate|]. simpl in Hs. 
      destruct (typeof a) as [[]|] eqn:Ea; try discriminate;
      match type of Hs with (if ?c then _ else _) = _ => destruct c eqn:Ec; [|discriminate] end;
      inversion Hs; subst.
      * assert (H := ALL SInt). simpl map in H. rewrite Ea in H. specialize (H Ec).
        inversion H; subst. simpl. apply fold_sort; auto; try congruence.
        intros x y. destruct x, y; reflexivity.
      * assert (H := ALL SReal). simpl map in H. rewrite Ea in H. specialize (H Ec).
        inversion H; subst. simpl. apply fold_sort; auto; try congruence.
        intros x y. destruct x, y; reflexivity.
    + destruct ts as [|a ts]; [discriminate|]. simpl in Hs. 
      destruct (typeof a) as [[]|] eqn:Ea; try discriminate;
      match type of Hs with (if ?c then _ else _) = _ => destruct c eqn:Ec; [|discriminate] end;
      inversion Hs; subst.
      * assert (H := ALL SInt). simpl map in H. rewrite Ea in H. specialize (H Ec).
        inversion H; subst. simpl. apply fold_sort; auto; try congruence.
        intros x y. destruct x, y; reflexivity.
      * assert (H := ALL SReal). simpl map in H. rewrite Ea in H. specialize (H Ec).
        inversion H; subst. simpl. apply fold_sort; auto; try congruence.
        intros x y. destruct x, y; reflexivity.
    + destruct ts as [|a [|b [|c [|d ts]]]]; simpl in Hs |- *; try discriminate;
      destruct (typeof a) as [[]|] eqn:Ea; try discriminate; destruct (typeof b) as [x|] eqn:Eb; try discriminate;
      destruct (typeof c) as [y|] eqn:Ec; try discriminate.
      destruct (sort_eqb x y) eqn:E; inversion Hs; subst. apply sort_eqb_eq in E. subst y.
      destruct (asb (eval r a)); [eapply IH|eapply IH]; simpl; eauto.
    + destruct ts as [|a [|b [|c ts]]]; simpl in Hs |- *; try discriminate;
      try destruct (typeof a) as [[]|]; try discriminate; try destruct (typeof b) as [[]|]; try discriminate;
      inversion Hs; reflexivity.
    + destruct ts as [|a ts]; [discriminate|]. simpl in Hs. destruct (typeof a); [|discriminate].
      match type of Hs with (if ?c then _ else _) = _ => destruct c; [|discriminate] end. inversion Hs; reflexivity.
    + destruct ts as [|a [|b [|c ts]]]; simpl in Hs |- *; try discriminate;
      destruct (typeof a) as [[]|] eqn:Ea; try discriminate; try (destruct (typeof b) as [[]|] eqn:Eb; discriminate).
      destruct (typeof b) as [[]|] eqn:Eb; try discriminate. inversion Hs; subst.
      pose proof (IH a (or_introl eq_refl) _ Ea r) as Ra. pose proof (IH b (or_intror (or_introl eq_refl)) _ Eb r) as Rb.
      destruct (eval r a), (eval r b); try discriminate. reflexivity.
    + destruct ts as [|a [|b [|c ts]]]; simpl in Hs |- *; try discriminate;
      destruct (typeof a) as [[]|] eqn:Ea; try discriminate; try (destruct (typeof b) as [[]|] eqn:Eb; discriminate).
      destruct (typeof b) as [[]|] eqn:Eb; try discriminate. inversion Hs; subst.
      pose proof (IH a (or_introl eq_refl) _ Ea r) as Ra. pose proof (IH b (or_intror (or_introl eq_refl)) _ Eb r) as Rb.
      destruct (eval r a), (eval r b); try discriminate. reflexivity.
Qed.

Lemma is_bool_eval t r : is_bool t = true -> exists b, eval r t = VBool b.
Proof.
  unfold is_bool. destruct (typeof t) as [[]|] eqn:E; try discriminate. intros _.
  pose proof (typeof_eval t _ E r) as H. destruct (eval r t); try discriminate. eauto.
Qed.

Lemma typeof_junct f l : (f = FAnd \/ f = FOr) ->
  typeof (App f l) = if forallb (fun o => match o with Some s' => sort_eqb SBool s' | None => false end) (map typeof l) then Some SBool else None.
Proof. intros [-> | ->]; reflexivity. Qed.
Lemma is_bool_junct f l : (f = FAnd \/ f = FOr) -> is_bool (App f l) = true <-> forallb is_bool l = true.
Proof.
  intros Hf. unfold is_bool at 1. rewrite (typeof_junct f l Hf).
  assert (E : forallb (fun o => match o with Some s' => sort_eqb SBool s' | None => false end) (map typeof l) = forallb is_bool l).
  { clear. induction l as [|x l IH]; [reflexivity|]. cbn [map forallb]. rewrite IH. unfold is_bool at 2. destruct (typeof x) as [[]|]; reflexivity. }
  rewrite E. destruct (forallb is_bool l); split; intros; congruence.
Qed.
Lemma is_bool_not a : is_bool (App FNot [a]) = is_bool a.
Proof. unfold is_bool; simpl. destruct (typeof a) as [[]|]; reflexivity. Qed.

(** ** NNF *)
Definition neg_rel (t t' : term) : Prop := forall r, holds r t' <-> ~ holds r t.

Lemma Forall2_impl_in {A B} (P Q : A -> B -> Prop) l l' :
  Forall2 P l l' -> (forall x y, In x l -> P x y -> Q x y) -> Forall2 Q l l'.
Proof. intros H. induction H; intros HI; constructor; [apply HI; simpl; auto|apply IHForall2; intros; apply HI; simpl; auto]. Qed.

Lemma Forall2_holds_all (R : term -> term -> Prop) l l' r :
  Forall2 (fun x y => holds r y <-> holds r x) l l' -> (Forall (holds r) l' <-> Forall (holds r) l).
Proof. intros H. induction H; [split; constructor|]. rewrite !Forall_cons_iff. tauto. Qed.
Lemma Forall2_holds_ex l l' r :
  Forall2 (fun x y => holds r y <-> holds r x) l l' -> (Exists (holds r) l' <-> Exists (holds r) l).
Proof. intros H. induction H; [split; intros X; inversion X|]. rewrite !Exists_cons. tauto. Qed.
Lemma Forall2_neg_all l l' r :
  Forall2 (fun x y => holds r y <-> ~ holds r x) l l' -> (Forall (holds r) l' <-> ~ Exists (holds r) l).
Proof.
  intros H. induction H; [split; [intros _ X; inversion X|constructor]|].
  rewrite Forall_cons_iff, Exists_cons. tauto.
Qed.
Lemma Forall2_neg_ex l l' r :
  Forall2 (fun x y => holds r y <-> ~ holds r x) l l' -> (Exists (holds r) l' <-> ~ Forall (holds r) l).
Proof.
  intros H. induction H as [|x y l l' Hxy H IH]; [split; [intros X; inversion X|intros X; exfalso; apply X; constructor]|].
  rewrite Forall_cons_iff, Exists_cons. destruct (holds_dec r x); tauto.
Qed.

Lemma Forall2_forallb_r {A B} (P : A -> B -> Prop) (f : B -> bool) l l' :
  Forall2 P l l' -> (forall x y, In x l -> P x y -> f y = true) -> forallb f l' = true.
Proof.
  intros H. induction H; intros HI; simpl; [reflexivity|].
  rewrite (HI x y); simpl; auto. apply IHForall2. intros; eapply HI; simpl; eauto.
Qed.

Lemma nnf_unfold_bool_atom t : is_atom t = true -> is_nnf t = true.
Proof. intros H. destruct t; simpl in *; rewrite ?H; auto. Qed.

(** negate on formulas in NNF *)
Lemma negate_ok t : is_nnf t = true -> is_bool t = true -> forall t', nnf_negate t = Ok t' ->
  is_nnf t' = true /\ is_bool t' = true /\ (forall r, holds r t' <-> ~ holds r t).
Proof.
  induction t as [v|c|f ts IH] using term_ind'; intros Hn Hb t' E.
  - simpl in E. destruct (sort_eqb (vsort v) SBool) eqn:Es; [|discriminate]. inversion E; subst.
    split; [simpl; rewrite Es; reflexivity|]. split; [unfold mkNot; rewrite is_bool_not; exact Hb|]. intros r. apply holds_not.
  - simpl in E. destruct (sort_eqb (sort_of c) SBool) eqn:Es; [|discriminate]. inversion E; subst.
    split; [simpl; rewrite Es; reflexivity|]. split; [unfold mkNot; rewrite is_bool_not; exact Hb|]. intros r. apply holds_not.
  - rewrite Forall_forall in IH.
    assert (ATOM : is_atom (App f ts) = true -> Ok (mkNot (App f ts)) = Ok t' ->
        is_nnf t' = true /\ is_bool t' = true /\ (forall r, holds r t' <-> ~ holds r (App f ts))).
    { intros Ha E'. inversion E'; subst. split; [cbn [is_nnf mkNot]; rewrite Ha; reflexivity|].
      split; [unfold mkNot; rewrite is_bool_not; exact Hb|]. intros r. apply holds_not. }
    destruct f; try (cbn [nnf_negate] in E; destruct (is_atom _) eqn:Ea; [apply ATOM; auto|discriminate]; fail).
    + cbn [nnf_negate] in E. destruct (rseq (map nnf_negate ts)) as [l'|] eqn:El; simpl in E; [|discriminate].
      inversion E; subst. apply rseq_map in El.
      cbn [is_nnf is_atom orb] in Hn. rewrite forallb_forall in Hn.
      apply is_bool_junct in Hb; auto. rewrite forallb_forall in Hb.
      split; [|split].
      * cbn [is_nnf is_atom orb mkOr]. eapply Forall2_forallb_r; [exact El|]. intros x y Hx Hy. apply (IH x Hx (Hn x Hx) (Hb x Hx) y Hy).
      * apply is_bool_junct; auto. eapply Forall2_forallb_r; [exact El|]. intros x y Hx Hy. apply (IH x Hx (Hn x Hx) (Hb x Hx) y Hy).
      * intros r. change (App FAnd ts) with (mkAnd ts). rewrite holds_or, holds_and. apply Forall2_neg_ex.
        eapply Forall2_impl_in; [exact El|]. intros x y Hx Hy. apply (IH x Hx (Hn x Hx) (Hb x Hx) y Hy).
    + cbn [nnf_negate] in E. destruct (rseq (map nnf_negate ts)) as [l'|] eqn:El; simpl in E; [|discriminate].
      inversion E; subst. apply rseq_map in El.
      cbn [is_nnf is_atom orb] in Hn. rewrite forallb_forall in Hn.
      apply is_bool_junct in Hb; auto. rewrite forallb_forall in Hb.
      split; [|split].
      * cbn [is_nnf is_atom orb mkAnd]. eapply Forall2_forallb_r; [exact El|]. intros x y Hx Hy. apply (IH x Hx (Hn x Hx) (Hb x Hx) y Hy).
      * apply is_bool_junct; auto. eapply Forall2_forallb_r; [exact El|]. intros x y Hx Hy. apply (IH x Hx (Hn x Hx) (Hb x Hx) y Hy).
      * intros r. change (App FOr ts) with (mkOr ts). rewrite holds_or, holds_and. apply Forall2_neg_all.
        eapply Forall2_impl_in; [exact El|]. intros x y Hx Hy. apply (IH x Hx (Hn x Hx) (Hb x Hx) y Hy).
    + cbn [is_nnf is_atom orb] in Hn. destruct ts as [|a [|b ts]]; try discriminate.
      cbn [nnf_negate] in E. inversion E; subst.
      split; [apply nnf_unfold_bool_atom, Hn|]. split; [rewrite <- is_bool_not; exact Hb|].
      intros r. change (App FNot [t']) with (mkNot t'). rewrite holds_not. destruct (holds_dec r t'); tauto.
Qed.

Lemma negate_total t : is_nnf t = true -> is_bool t = true -> exists t', nnf_negate t = Ok t'.
Proof.
  induction t as [v|c|f ts IH] using term_ind'; intros Hn Hb.
  - simpl in *. rewrite orb_false_r in Hn. rewrite Hn. eauto.
  - simpl in *. rewrite orb_false_r in Hn. rewrite Hn. eauto.
  - rewrite Forall_forall in IH.
    assert (L : forallb is_nnf ts = true -> forallb is_bool ts = true -> exists l', rseq (map nnf_negate ts) = Ok l').
    { clear Hn Hb. rewrite !forallb_forall. induction ts as [|x ts IHt]; intros H1 H2; [simpl; eauto|].
      destruct (IH x (or_introl eq_refl)) as [x' Ex]; [apply H1|apply H2|]; simpl; auto.
      destruct IHt as [l' El]; [intros; apply IH; simpl; auto|intros; apply H1; simpl; auto|intros; apply H2; simpl; auto|].
      rewrite Ex; simpl. rewrite El; simpl. eauto. }
    destruct f; cbn [is_nnf] in Hn; cbn [nnf_negate];
      try (rewrite orb_false_r in Hn; rewrite Hn; eauto; fail).
    + apply is_bool_junct in Hb; auto. destruct (L Hn Hb) as [l' ->]. simpl; eauto.
    + apply is_bool_junct in Hb; auto. destruct (L Hn Hb) as [l' ->]. simpl; eauto.
    + destruct ts as [|a [|b ts]]; try discriminate. eauto.
Qed.

Lemma is_bool_eq2 a b l : is_bool (App FEq (a :: b :: l)) = true -> is_bool a = true -> l = [] /\ is_bool b = true.
Proof.
  unfold is_bool. simpl. destruct (typeof a) as [[]|]; try discriminate.
  destruct (typeof b) as [[]|]; simpl; try (destruct l; discriminate). destruct l as [|c l]; simpl; [auto|].
  destruct (typeof c); discriminate.
Qed.

Lemma holds_eq_bool r a b : is_bool a = true -> is_bool b = true ->
  (holds r (App FEq [a; b]) <-> (holds r a <-> holds r b)).
Proof.
  intros Ha Hb. change (App FEq [a; b]) with (mkEq a b). rewrite holds_eq. unfold holds, holdsb.
  destruct (is_bool_eval a r Ha) as [x ->]. destruct (is_bool_eval b r Hb) as [y ->]. simpl.
  destruct x, y; split; intros H; try reflexivity; try tauto; try discriminate; destruct H as [H1 H2];
    try (specialize (H1 eq_refl); discriminate); try (specialize (H2 eq_refl); discriminate).
Qed.

Lemma nnf_ok t : is_bool t = true -> forall t', nnf t = Ok t' ->
  is_nnf t' = true /\ is_bool t' = true /\ (forall r, holds r t' <-> holds r t).
Proof.
  induction t as [v|c|f ts IH] using term_ind'; intros Hb t' E.
  - simpl in E. destruct (sort_eqb (vsort v) SBool) eqn:Es; [|discriminate]. inversion E; subst.
    split; [simpl; rewrite Es; reflexivity|]. split; [exact Hb|tauto].
  - simpl in E. destruct (sort_eqb (sort_of c) SBool) eqn:Es; [|discriminate]. inversion E; subst.
    split; [simpl; rewrite Es; reflexivity|]. split; [exact Hb|tauto].
  - rewrite Forall_forall in IH.
    destruct (is_atom (App f ts)) eqn:Ea.
    { assert (E' : nnf (App f ts) = Ok (App f ts)) by (cbn [nnf]; rewrite Ea; reflexivity).
      rewrite E' in E. inversion E; subst. split; [apply nnf_unfold_bool_atom, Ea|]. split; [exact Hb|tauto]. }
    cbn [nnf] in E. rewrite Ea in E. destruct f; try discriminate.
    + destruct (rseq (map nnf ts)) as [l'|] eqn:El; simpl in E; [|discriminate].
      inversion E; subst. apply rseq_map in El. apply is_bool_junct in Hb; auto. rewrite forallb_forall in Hb.
      split; [|split].
      * cbn [is_nnf is_atom orb mkAnd]. eapply Forall2_forallb_r; [exact El|]. intros x y Hx Hy. apply (IH x Hx (Hb x Hx) y Hy).
      * apply is_bool_junct; auto. eapply Forall2_forallb_r; [exact El|]. intros x y Hx Hy. apply (IH x Hx (Hb x Hx) y Hy).
      * intros r. change (App FAnd ts) with (mkAnd ts). rewrite !holds_and. apply (Forall2_holds_all eq).
        eapply Forall2_impl_in; [exact El|]. intros x y Hx Hy. apply (IH x Hx (Hb x Hx) y Hy).
    + destruct (rseq (map nnf ts)) as [l'|] eqn:El; simpl in E; [|discriminate].
      inversion E; subst. apply rseq_map in El. apply is_bool_junct in Hb; auto. rewrite forallb_forall in Hb.
      split; [|split].
      * cbn [is_nnf is_atom orb mkOr]. eapply Forall2_forallb_r; [exact El|]. intros x y Hx Hy. apply (IH x Hx (Hb x Hx) y Hy).
      * apply is_bool_junct; auto. eapply Forall2_forallb_r; [exact El|]. intros x y Hx Hy. apply (IH x Hx (Hb x Hx) y Hy).
      * intros r. change (App FOr ts) with (mkOr ts). rewrite !holds_or. apply Forall2_holds_ex.
        eapply Forall2_impl_in; [exact El|]. intros x y Hx Hy. apply (IH x Hx (Hb x Hx) y Hy).
    + destruct ts as [|a ts]; [discriminate|].
      assert (ts = []). { unfold is_bool in Hb; simpl in Hb. destruct (typeof a) as [[]|], ts; simpl in Hb; try discriminate; reflexivity. }
      subst ts. rewrite is_bool_not in Hb.
      destruct (nnf a) as [a'|] eqn:En; simpl in E; [|discriminate].
      destruct (IH a (or_introl eq_refl) Hb a' En) as [A1 [A2 A3]].
      destruct (negate_ok a' A1 A2 t' E) as [B1 [B2 B3]].
      split; [exact B1|]. split; [exact B2|]. intros r. change (App FNot [a]) with (mkNot a).
      rewrite B3, holds_not, A3. tauto.
    + destruct ts as [|a [|b ts]]; try discriminate.
      cbn [is_atom] in Ea. apply negb_false_iff in Ea.
      destruct (is_bool_eq2 a b ts Hb Ea) as [-> Hb2].
      destruct (nnf a) as [a'|] eqn:En; simpl in E; [|discriminate].
      destruct (nnf b) as [b'|] eqn:En'; simpl in E; [|discriminate].
      destruct (IH a (or_introl eq_refl) Ea a' En) as [A1 [A2 A3]].
      destruct (IH b (or_intror (or_introl eq_refl)) Hb2 b' En') as [C1 [C2 C3]].
      destruct (nnf_negate a') as [na|] eqn:Ena; simpl in E; [|discriminate].
      destruct (nnf_negate b') as [nb|] eqn:Enb; simpl in E; [|discriminate].
      destruct (negate_ok a' A1 A2 na Ena) as [B1 [B2 B3]].
      destruct (negate_ok b' C1 C2 nb Enb) as [D1 [D2 D3]].
      inversion E; subst. split; [|split].
      * cbn [is_nnf is_atom orb mkAnd mkOr forallb]. rewrite B1, C1, D1, A1. reflexivity.
      * apply is_bool_junct; auto. cbn [forallb]. rewrite !andb_true_iff. repeat split; auto;
          apply is_bool_junct; auto; cbn [forallb]; rewrite ?A2, ?B2, ?C2, ?D2; reflexivity.
      * intros r. rewrite holds_and2, !holds_or2, holds_eq_bool by assumption.
        rewrite B3, D3, A3, C3. destruct (holds_dec r a), (holds_dec r b); tauto.
Qed.

Lemma nnf_total t : supported t = true -> is_bool t = true -> exists t', nnf t = Ok t'.
Proof.
  induction t as [v|c|f ts IH] using term_ind'; intros Hn Hb.
  - simpl in *. rewrite orb_false_r in Hn. rewrite Hn. eauto.
  - simpl in *. rewrite orb_false_r in Hn. rewrite Hn. eauto.
  - rewrite Forall_forall in IH.
    destruct (is_atom (App f ts)) eqn:Ea; [exists (App f ts); cbn [nnf]; rewrite Ea; reflexivity|].
    assert (L : forallb supported ts = true -> forallb is_bool ts = true -> exists l', rseq (map nnf ts) = Ok l').
    { clear Hn Hb Ea. rewrite !forallb_forall. induction ts as [|x ts IHt]; intros H1 H2; [simpl; eauto|].
      destruct (IH x (or_introl eq_refl)) as [x' Ex]; [apply H1|apply H2|]; simpl; auto.
      destruct IHt as [l' El]; [intros; apply IH; simpl; auto|intros; apply H1; simpl; auto|intros; apply H2; simpl; auto|].
      rewrite Ex; simpl. rewrite El; simpl. eauto. }
    cbn [supported] in Hn. rewrite Ea in Hn. cbn [nnf]. rewrite Ea.
    destruct f; try discriminate.
    + apply is_bool_junct in Hb; auto. destruct (L Hn Hb) as [l' ->]. simpl; eauto.
    + apply is_bool_junct in Hb; auto. destruct (L Hn Hb) as [l' ->]. simpl; eauto.
    + destruct ts as [|a [|b ts]]; try discriminate. rewrite is_bool_not in Hb.
      destruct (IH a (or_introl eq_refl) Hn Hb) as [a' Ea']. rewrite Ea'. simpl.
      destruct (nnf_ok a Hb a' Ea') as [A1 [A2 _]]. apply negate_total; auto.
    + destruct ts as [|a [|b [|c ts]]]; try discriminate.
      cbn [orb] in Hn. apply andb_true_iff in Hn as [Hn1 Hn2].
      cbn [is_atom] in Ea. apply negb_false_iff in Ea.
      destruct (is_bool_eq2 a b [] Hb Ea) as [_ Hb2].
      destruct (IH a (or_introl eq_refl) Hn1 Ea) as [a' Ea'].
      destruct (IH b (or_intror (or_introl eq_refl)) Hn2 Hb2) as [b' Eb'].
      rewrite Ea', Eb'. simpl.
      destruct (nnf_ok a Ea a' Ea') as [A1 [A2 _]]. destruct (nnf_ok b Hb2 b' Eb') as [B1 [B2 _]].
      destruct (negate_total a' A1 A2) as [na ->]. destruct (negate_total b' B1 B2) as [nb ->]. simpl. eauto.
Qed.

(** ** DNF *)
Definition cube_holds (r : valuation) (c : cube) : Prop := Forall (fun l => holds r (lit_term l)) c.

Lemma conflicting_unsat c r : conflicting c = true -> ~ cube_holds r c.
Proof.
  unfold conflicting. rewrite existsb_exists. intros [l1 [H1 H]]. rewrite existsb_exists in H.
  destruct H as [l2 [H2 H]]. apply andb_true_iff in H as [E S].
  destruct (term_eqb_spec (fst l1) (fst l2)) as [E'|]; [|discriminate].
  intros HC. unfold cube_holds in HC. rewrite Forall_forall in HC.
  pose proof (HC l1 H1) as A. pose proof (HC l2 H2) as B. unfold lit_term in *. rewrite E' in A.
  destruct (snd l1), (snd l2); try discriminate; apply holds_not in A || apply holds_not in B; tauto.
Qed.

Lemma combinations_holds r cs :
  (exists c, In c (combinations cs) /\ cube_holds r c) <-> Forall (fun cl => exists c, In c cl /\ cube_holds r c) cs.
Proof.
  induction cs as [|cl cs IH]; simpl.
  - split; [constructor|]. intros _. exists []. split; [auto|constructor].
  - rewrite Forall_cons_iff, <- IH. split.
    + intros [c [Hc Hr]]. apply in_flat_map in Hc as [x [Hx Hc]]. apply in_map_iff in Hc as [y [<- Hy]].
      apply Forall_app in Hr as [R1 R2]. split; eauto.
    + intros [[x [Hx Rx]] [y [Hy Ry]]]. exists (x ++ y). split.
      * apply in_flat_map. exists x. split; [exact Hx|]. apply in_map_iff. eauto.
      * apply Forall_app. auto.
Qed.

Lemma conj_cubes_holds r cs :
  (exists c, In c (conj_cubes cs) /\ cube_holds r c) <-> Forall (fun cl => exists c, In c cl /\ cube_holds r c) cs.
Proof.
  rewrite <- combinations_holds. unfold conj_cubes. split; intros [c [Hc Hr]]; exists c; split; auto.
  - apply filter_In in Hc. apply Hc.
  - apply filter_In. split; [exact Hc|]. destruct (conflicting c) eqn:E; [|reflexivity].
    exfalso. exact (conflicting_unsat c r E Hr).
Qed.

Definition cube_lits (c : cube) : bool := forallb (fun l => is_atom (fst l)) c.

Lemma combinations_lits cs : Forall (fun cl => forallb cube_lits cl = true) cs ->
  forallb cube_lits (combinations cs) = true.
Proof.
  induction cs as [|cl cs IH]; intros H; simpl; [reflexivity|].
  apply Forall_cons_iff in H as [H1 H2]. apply IH in H2. rewrite forallb_forall in H1, H2 |- *.
  intros c Hc. apply in_flat_map in Hc as [x [Hx Hc]]. apply in_map_iff in Hc as [y [<- Hy]].
  unfold cube_lits. rewrite forallb_app. apply andb_true_iff. split; [apply (H1 _ Hx)|apply (H2 _ Hy)].
Qed.

Lemma dnf_cubes_ok t : is_nnf t = true -> exists cs, dnf_cubes t = Ok cs /\
  forallb cube_lits cs = true /\
  (forall r, holds r t <-> exists c, In c cs /\ cube_holds r c).
Proof.
  assert (ATOM : forall t, is_atom t = true -> dnf_cubes t = Ok [[(t, true)]] ->
     exists cs, dnf_cubes t = Ok cs /\ forallb cube_lits cs = true /\
       (forall r, holds r t <-> exists c, In c cs /\ cube_holds r c)).
  { intros u Ha E. exists [[(u, true)]]. split; [exact E|]. split; [cbn; rewrite Ha; reflexivity|].
    intros r. split.
    - intros H. exists [(u, true)]. split; [simpl; auto|]. constructor; [exact H|constructor].
    - intros [c [[<-|[]] H]]. inversion H; subst; assumption. }
  induction t as [v|c|f ts IH] using term_ind'; intros Hn.
  - apply ATOM; simpl in *; rewrite orb_false_r in Hn; rewrite ?Hn; auto.
  - apply ATOM; simpl in *; rewrite orb_false_r in Hn; rewrite ?Hn; auto.
  - rewrite Forall_forall in IH.
    destruct (is_atom (App f ts)) eqn:Ea; [apply ATOM; auto; cbn [dnf_cubes]; rewrite Ea; reflexivity|].
    cbn [is_nnf] in Hn. rewrite Ea in Hn. cbn [orb] in Hn. cbn [dnf_cubes]. rewrite Ea.
    assert (L : forallb is_nnf ts = true -> exists css, rseq (map dnf_cubes ts) = Ok css /\
       Forall (fun cl => forallb cube_lits cl = true) css /\
       (forall r, Forall2 (fun t cs => holds r t <-> exists c, In c cs /\ cube_holds r c) ts css)).
    { clear Hn Ea. rewrite forallb_forall. induction ts as [|x ts IHt]; intros H.
      - exists []. simpl. repeat constructor.
      - destruct (IH x (or_introl eq_refl)) as [cs [E1 [E2 E3]]]; [apply H; simpl; auto|].
        destruct IHt as [css [F1 [F2 F3]]]; [intros; apply IH; simpl; auto|intros; apply H; simpl; auto|].
        exists (cs :: css). simpl. rewrite E1; simpl. rewrite F1; simpl. repeat split; auto; constructor; auto. }
    destruct f; try discriminate.
    + destruct (L Hn) as [css [E1 [E2 E3]]]. rewrite E1. simpl. exists (conj_cubes css). split; [reflexivity|]. split.
      * pose proof (combinations_lits css E2) as HC. rewrite forallb_forall in HC |- *. intros c Hc. apply HC.
        apply filter_In in Hc. apply Hc.
      * intros r. change (App FAnd ts) with (mkAnd ts). rewrite holds_and, conj_cubes_holds.
        specialize (E3 r). clear -E3. induction E3; [split; constructor|]. rewrite !Forall_cons_iff. tauto.
    + destruct (L Hn) as [css [E1 [E2 E3]]]. rewrite E1. simpl. exists (concat css). split; [reflexivity|]. split.
      * clear -E2. induction E2; simpl; [reflexivity|]. rewrite forallb_app, H, IHE2. reflexivity.
      * intros r. change (App FOr ts) with (mkOr ts). rewrite holds_or. specialize (E3 r). clear -E3. induction E3.
        -- split; [intros X; inversion X|intros [c [[] _]]].
        -- rewrite Exists_cons, IHE3, H. simpl. split.
           ++ intros [[c [H1 H2]]|[c [H1 H2]]]; exists c; rewrite in_app_iff; auto.
           ++ intros [c [H1 H2]]. apply in_app_or in H1 as [H1|H1]; eauto.
    + destruct ts as [|a [|b ts]]; try discriminate. exists [[(a, false)]]. split; [reflexivity|].
      split; [cbn; rewrite Hn; reflexivity|]. intros r. split.
      * intros H. exists [(a, false)]. split; [simpl; auto|]. constructor; [exact H|constructor].
      * intros [c [[<-|[]] H]]. inversion H; subst; assumption.
Qed.

Lemma dnf_ok t t' : is_bool t = true -> to_dnf t = Ok t' -> is_dnf t' = true /\ (forall r, holds r t' <-> holds r t).
Proof.
  intros Hb E. unfold to_dnf in E. destruct (nnf t) as [n|] eqn:En; simpl in E; [|discriminate].
  destruct (nnf_ok t Hb n En) as [A1 [A2 A3]].
  destruct (dnf_cubes_ok n A1) as [cs [B1 [B2 B3]]]. rewrite B1 in E. simpl in E. inversion E; subst. split.
  - cbn [is_dnf mkOr]. rewrite forallb_forall in B2 |- *. intros x Hx. apply in_map_iff in Hx as [c [<- Hc]].
    apply B2 in Hc. cbn [mkAnd]. unfold cube_lits in Hc. rewrite forallb_forall in Hc |- *.
    intros y Hy. apply in_map_iff in Hy as [l [<- Hl]]. apply Hc in Hl. unfold lit_term, is_lit.
    destruct (snd l); [rewrite Hl; reflexivity|]. cbn. rewrite Hl. reflexivity.
  - intros r. rewrite <- A3, B3, holds_or, Exists_exists. split.
    + intros [x [Hx Hr]]. apply in_map_iff in Hx as [c [<- Hc]]. exists c. split; [exact Hc|].
      apply holds_and in Hr. apply Forall_forall. intros l Hl. rewrite Forall_forall in Hr. apply Hr, in_map, Hl.
    + intros [c [Hc Hr]]. exists (mkAnd (map lit_term c)). split; [apply in_map_iff; eauto|].
      apply holds_and. apply Forall_forall. intros x Hx. apply in_map_iff in Hx as [l [<- Hl]].
      unfold cube_holds in Hr. rewrite Forall_forall in Hr. apply Hr, Hl.
Qed.

Lemma dnf_total t : supported t = true -> is_bool t = true -> exists t', to_dnf t = Ok t'.
Proof.
  intros Hs Hb. unfold to_dnf. destruct (nnf_total t Hs Hb) as [n En]. rewrite En. simpl.
  destruct (nnf_ok t Hb n En) as [A1 _]. destruct (dnf_cubes_ok n A1) as [cs [-> _]]. simpl. eauto.
Qed.
