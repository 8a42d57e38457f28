(** * A checked proof refutes the assertions. *)
From Verif Require Import Names AletheModel AletheSpec.
Open Scope string_scope.
Open Scope list_scope.
Open Scope nat_scope.

Lemma atm_ind' (P : atm -> Prop) :
  (forall s k, P (T s k)) -> (forall o l, Forall P l -> P (O o l)) -> (forall f l, Forall P l -> P (A f l)) ->
  (forall vs c, P c -> P (All vs c)) -> (forall ns ds b, Forall P ds -> P b -> P (Let ns ds b)) -> forall t, P t.
Proof.
  intros H1 H2 H3 H4 H5.
  fix IH 1. intros [s k|o l|f l|vs c|ns ds b].
  - apply H1.
  - apply H2. induction l; constructor; auto.
  - apply H3. induction l; constructor; auto.
  - apply H4, IH.
  - apply H5; [|apply IH]. induction ds; constructor; auto.
Qed.

Lemma map_ext_Forall2' {X Y} (f g : X -> Y) l : Forall (fun x => f x = g x) l -> map f l = map g l.
Proof. induction 1; simpl; congruence. Qed.

Lemma existsb_false_In {X} (f : X -> bool) l x : existsb f l = false -> In x l -> f x = false.
Proof.
  intros H Hi. destruct (f x) eqn:E; [|reflexivity].
  assert (existsb f l = true) by (apply existsb_exists; eauto). congruence.
Qed.
Lemma existsb_In {X} (f : X -> bool) l x : In x l -> f x = true -> existsb f l = true.
Proof. intros. apply existsb_exists; eauto. Qed.

Lemma den_agree I : forall t r r', (forall s, occurs s t = true -> r s = r' s) -> den I r t = den I r' t.
Proof.
  induction t using atm_ind'; intros r r' H'; cbn [den].
  - destruct k; try reflexivity. unfold var_val. cbn in H'. unfold var_name in H'. destruct (minus_of s) as [x|]; [f_equal; f_equal; f_equal|]; apply H'; rewrite String.eqb_refl; reflexivity.
  - f_equal. apply map_ext_Forall2'. rewrite Forall_forall in *. intros x Hx. apply (H x Hx). intros s Hs. apply H'. cbn. eapply existsb_In; eauto.
  - f_equal. f_equal. apply map_ext_Forall2'. rewrite Forall_forall in *. intros x Hx. apply (H x Hx). intros s Hs. apply H'. cbn. eapply existsb_In; eauto.
  - reflexivity.
  - assert (E : map (den I r) ds = map (den I r') ds).
    { apply map_ext_Forall2'. rewrite Forall_forall in *. intros x Hx. apply (H x Hx). intros s Hs. apply H'. cbn. apply orb_true_intro. left. eapply existsb_In; eauto. }
    rewrite E. apply IHt. intros s Hs. unfold extend. destruct (slookup _ s); [reflexivity|]. apply H'. cbn. rewrite Hs. apply orb_true_r.
Qed.

Lemma slookup_In {X} (l : list (string * X)) s x : slookup l s = Some x -> In (s, x) l.
Proof. induction l as [|[n y] l IH]; cbn; [discriminate|]. destruct (String.eqb_spec n s); [intros [=]; subst; auto|auto]. Qed.
Lemma slookup_None {X} (l : list (string * X)) s : slookup l s = None <-> ~ In s (map fst l).
Proof.
  induction l as [|[n y] l IH]; cbn; [intuition|].
  destruct (String.eqb_spec n s); [split; [discriminate|intros H; exfalso; auto]|]. rewrite IH. intuition.
Qed.
Lemma slookup_NoDup {X} (l : list (string * X)) s x : NoDup (map fst l) -> In (s, x) l -> slookup l s = Some x.
Proof.
  induction l as [|[n y] l IH]; cbn; [tauto|]. intros HN [E|Hi]; inversion HN; subst.
  - injection E as -> ->. rewrite String.eqb_refl. reflexivity.
  - destruct (String.eqb_spec n s); [|auto]. subst. exfalso. apply H1. apply in_map_iff. exists (s, x); auto.
Qed.

Lemma read_true : read_number "true" = None. Proof. reflexivity. Qed.

(** The value of a constant of a sort. *)
Definition const_val (sort text : string) : aval := if String.eqb sort "Bool" then AB (String.eqb text "true") else AN (numeral text).
Lemma const_val_sort sort text : const_text sort text -> of_sort sort (const_val sort text).
Proof.
  unfold const_text, of_sort, const_val. destruct (String.eqb sort "Bool"); [eauto|].
  destruct (String.eqb sort "Int"); [|destruct (String.eqb sort "Real"); [|tauto]].
  - intros (z & E). exists z. unfold numeral. rewrite E. reflexivity.
  - intros (q & E). exists q. unfold numeral. rewrite E. reflexivity.
Qed.
Lemma inst_den I r m (Hm : forall s sort text, slookup m s = Some (sort, text) -> const_text sort text) :
  forall b t, inst_of m b t -> den I r t = den I (extend r (map (fun x => (fst x, const_val (fst (snd x)) (snd (snd x)))) m)) b.
Proof.
  assert (HL : forall s, slookup (map (fun x => (fst x, const_val (fst (snd x)) (snd (snd x)))) m) s =
    match slookup m s with Some x => Some (const_val (fst x) (snd x)) | None => None end).
  { clear Hm. induction m as [|[n y] m IH]; intros s; cbn; [reflexivity|]. destruct (String.eqb n s); auto. }
  induction b using atm_ind'; intros t Hi; inversion Hi; subst.
  - match goal with Hc : const_kind _ _, E : slookup _ _ = Some _ |- _ => rename Hc into HK; rename E into EK end.
    cbn [den]. unfold var_val. match goal with E : minus_of _ = None |- _ => rewrite E end. unfold extend. rewrite HL, EK. cbn. unfold const_val.
    unfold const_kind in HK. destruct (String.eqb sort "Bool"); [subst; reflexivity|]. destruct HK; subst; reflexivity.
  - match goal with Hc : const_kind _ _, E : slookup _ _ = Some _ |- _ => rename Hc into HK; rename E into EK end.
    cbn [den map]. unfold var_val. match goal with E : minus_of _ = Some _ |- _ => rewrite E end. unfold extend. rewrite HL, EK. cbn. unfold const_val.
    unfold const_kind in HK. destruct (String.eqb_spec sort "Bool"); [contradiction|]. destruct HK; subst; reflexivity.
  - match goal with E : _ -> slookup _ _ = None |- _ => rename E into EK end.
    cbn [den]. destruct k; try reflexivity. specialize (EK eq_refl). unfold var_val, var_name in *. destruct (minus_of s); unfold extend; rewrite HL, EK; reflexivity.
  - cbn [den]. f_equal. clear Hi. induction H3; cbn; [reflexivity|]. inversion H; subst. f_equal; auto.
  - cbn [den]. f_equal. f_equal. clear Hi. induction H3; cbn; [reflexivity|]. inversion H; subst. f_equal; auto.
Qed.
Lemma inst_not_all m b t : inst_of m b t -> is_all b = false /\ is_all t = false.
Proof. destruct 1; auto. Qed.

Lemma tr_den I r t : is_all t = false -> (tr I r t <-> den I r t = AB true).
Proof. destruct t; cbn; try discriminate; reflexivity. Qed.
Lemma aval_true_dec (v : aval) : v = AB true \/ v <> AB true.
Proof. destruct v as [[|]|q]; [left|right|right]; congruence. Qed.
Lemma as_bool_true v : as_bool v = true <-> v = AB true.
Proof. destruct v as [[|]|q]; cbn; split; congruence. Qed.

Section Rules.
Variable I : interp.
Variable r : asg.

Definition default (sort : string) : aval := if String.eqb sort "Bool" then AB true else AN (Q2Qc (inject_Z 0)).
Lemma default_sort s : of_sort s (default s).
Proof. unfold of_sort, default. destruct (String.eqb s "Bool"); [eauto|]. destruct (String.eqb s "Int"); [eauto|]. destruct (String.eqb s "Real"); eauto. Qed.

Lemma filter_fst_NoDup {X} (k : string * X -> bool) l : NoDup (map fst l) -> NoDup (map fst (filter k l)).
Proof.
  induction l as [|x l IH]; cbn; [auto|]. intros H. inversion H; subst. destruct (k x); [|auto].
  cbn. constructor; [|auto]. intros Hi. apply H2. apply in_map_iff in Hi as (y & E & Hy). apply filter_In in Hy as [Hy _]. apply in_map_iff. eauto.
Qed.
Lemma in_fst_inj {X} (l : list (string * X)) x y : NoDup (map fst l) -> In x l -> In y l -> fst x = fst y -> x = y.
Proof.
  intros HN Hx Hy E. destruct x as [a x], y as [b y]. cbn in E. subst b.
  apply (slookup_NoDup _ _ _ HN) in Hx. apply (slookup_NoDup _ _ _ HN) in Hy. congruence.
Qed.
Lemma rm_unused_ok vs b keep :
  NoDup (map fst vs) -> (forall x, In x vs -> keep x = false -> occurs (fst x) b = false) -> is_all b = false ->
  tr I r (All vs b) <-> tr I r (match filter keep vs with [] => b | vs' => All vs' b end).
Proof.
  intros HN Hk Hb.
  assert (E : tr I r (match filter keep vs with [] => b | vs' => All vs' b end) <-> tr I r (All (filter keep vs) b)).
  { destruct (filter keep vs) as [|x l]; [|reflexivity]. rewrite tr_den by assumption. cbn. split.
    - intros H r' Hr _. rewrite <- H. apply den_agree. intros s _. apply Hr. tauto.
    - intros H. apply H; [reflexivity|tauto]. }
  rewrite E. clear E. cbn [tr]. split.
  - intros H r' Hr Hs.
    set (r2 := extend r' (map (fun x => (fst x, default (snd x))) (filter (fun x => negb (keep x)) vs))).
    assert (L : forall s, slookup (map (fun x => (fst x, default (snd x))) (filter (fun x => negb (keep x)) vs)) s = None \/ exists x, In x vs /\ keep x = false /\ fst x = s /\ slookup (map (fun x => (fst x, default (snd x))) (filter (fun x => negb (keep x)) vs)) s = Some (default (snd x))).
    { intros s. destruct (slookup _ s) as [v|] eqn:E; [right|left; reflexivity].
      pose proof (slookup_In _ _ _ E) as Hi. apply in_map_iff in Hi as (x & Ex & Hx). injection Ex as <- <-. apply filter_In in Hx as [Hx Hk']. exists x. repeat split; auto. destruct (keep x); [discriminate|reflexivity]. }
    replace (den I r' b) with (den I r2 b).
    2:{ apply den_agree. intros s Ho. unfold r2, extend. destruct (L s) as [->|(x & Hx & Hkx & <- & ->)]; [reflexivity|]. rewrite (Hk x Hx Hkx) in Ho. discriminate. }
    apply H.
    + intros s Hn. unfold r2, extend. destruct (L s) as [->|(x & Hx & Hkx & <- & ->)].
      * apply Hr. intros Hi. apply Hn. apply in_map_iff in Hi as (y & <- & Hy). apply filter_In in Hy as [Hy _]. apply in_map. assumption.
      * exfalso. apply Hn. apply in_map. assumption.
    + intros x Hx. unfold r2, extend. destruct (L (fst x)) as [E|(y & Hy & Hky & Ey & ->)].
      * rewrite E. apply Hs. apply filter_In. split; [assumption|]. destruct (keep x) eqn:Ek; [reflexivity|]. exfalso.
        apply slookup_None in E. apply E. rewrite map_map. cbn. apply in_map. apply filter_In. rewrite Ek. auto.
      * rewrite <- (in_fst_inj _ _ _ HN Hy Hx Ey). apply default_sort.
  - intros H r' Hr Hs.
    set (r2 := fun s => if existsb (fun x => (String.eqb (fst x) s && keep x)%bool) vs then r' s else r s).
    replace (den I r' b) with (den I r2 b).
    2:{ apply den_agree. intros s Ho. unfold r2. destruct (existsb _ vs) eqn:E; [reflexivity|].
        destruct (in_dec String.string_dec s (map fst vs)) as [Hi|Hn]; [|symmetry; apply Hr; assumption].
        apply in_map_iff in Hi as (x & <- & Hx). pose proof (existsb_false_In _ _ _ E Hx) as E'. cbn in E'. rewrite String.eqb_refl in E'. cbn in E'.
        rewrite (Hk x Hx E') in Ho. discriminate. }
    apply H.
    + intros s Hn. unfold r2. destruct (existsb _ vs) eqn:E; [|reflexivity]. exfalso. apply existsb_exists in E as (x & Hx & Ex). apply andb_prop in Ex as [E1 E2]. apply String.eqb_eq in E1. subst s.
      apply Hn. apply in_map. apply filter_In. auto.
    + intros x Hx. apply filter_In in Hx as [Hx Hkx]. unfold r2. erewrite existsb_In; [apply Hs; assumption|eassumption|]. cbn. rewrite String.eqb_refl, Hkx. reflexivity.
Qed.

Lemma forall_inst_ok vs b t args :
  NoDup (map fst vs) -> length args = length vs ->
  (forall x, In x (combine vs args) -> const_text (snd (fst x)) (snd x)) ->
  inst_of (map (fun x => (fst (fst x), (snd (fst x), snd x))) (combine vs args)) b t ->
  tr I r (All vs b) -> tr I r t.
Proof.
  intros HN HL HC HI HA. destruct (inst_not_all _ _ _ HI) as [_ Ht]. apply tr_den; [assumption|].
  set (m := map (fun x => (fst (fst x), (snd (fst x), snd x))) (combine vs args)) in *.
  assert (Hf : map fst m = map fst vs).
  { unfold m. rewrite map_map. cbn. clear -HL. revert args HL. induction vs as [|v vs IH]; intros [|a args]; cbn; try discriminate; [reflexivity|].
    intros [= H]. f_equal. auto. }
  rewrite (inst_den I r m) with (b := b); [|intros s sort text E|assumption].
  2:{ apply slookup_In in E. unfold m in E. apply in_map_iff in E as (x & E & Hx). injection E as <- <- <-. auto. }
  cbn in HA. apply HA.
  - intros s Hn. unfold extend.
    assert (slookup (map (fun x : string * (string * string) => (fst x, const_val (fst (snd x)) (snd (snd x)))) m) s = None) as ->; [|reflexivity].
    apply slookup_None. rewrite map_map. change (~ In s (map fst m)). rewrite Hf. assumption.
  - intros x Hx.
    assert (exists a, In (x, a) (combine vs args)) as (a & Ha).
    { clear -HL Hx. revert args HL. induction vs as [|v vs IH]; intros [|a args]; cbn in *; try discriminate; [tauto|].
      intros [= H]. destruct Hx as [->|Hx]; [eauto|]. destruct (IH Hx args H) as (a' & ?). eauto. }
    unfold extend. rewrite slookup_NoDup with (x := const_val (snd x) a).
    + apply const_val_sort. apply (HC (x, a) Ha).
    + rewrite map_map. change (NoDup (map fst m)). rewrite Hf. assumption.
    + apply in_map_iff. exists (fst x, (snd x, a)). split; [reflexivity|]. unfold m. apply in_map_iff. exists (x, a). auto.
Qed.

Lemma eq_true_den a b : is_all a = false -> is_all b = false -> ltrue I r (EEq a b) -> den I r a = den I r b.
Proof. intros Ha Hb. cbn. rewrite Ha, Hb. cbn. auto. Qed.
Lemma aval_dec (x y : aval) : {x = y} + {x <> y}.
Proof. destruct x as [x|x], y as [y|y]; try (right; congruence); [destruct (Bool.bool_dec x y)|destruct (Qc_eq_dec x y)]; (left; congruence) || (right; congruence). Qed.
Lemma unit_eq a b : is_all a = false -> is_all b = false -> ctrue I r [EEq a b] -> den I r a = den I r b.
Proof.
  intros Ha Hb H. destruct (aval_dec (den I r a) (den I r b)) as [E|N]; [assumption|]. exfalso. apply H.
  intros l [<-|[]] Hl. apply N. apply eq_true_den; assumption.
Qed.
Lemma unit_true l : ltrue I r l -> ctrue I r [l].
Proof. intros H Hn. apply (Hn l); [left; reflexivity|assumption]. Qed.
Lemma eq_intro a b : is_all a = false -> is_all b = false -> den I r a = den I r b -> ltrue I r (EEq a b).
Proof. intros Ha Hb E. cbn. rewrite Ha, Hb. exact E. Qed.
Lemma eq_iff a b : ltrue I r (EEq a b) -> (tr I r a <-> tr I r b).
Proof.
  cbn. destruct (is_all a) eqn:Ea; cbn; [auto|]. destruct (is_all b) eqn:Eb; [auto|]. intros E. rewrite !tr_den, E by assumption. reflexivity.
Qed.
Lemma cong_args ps l l' : (forall p, In p ps -> ctrue I r p) -> Forall2 (same_or_equal ps) l l' -> map (den I r) l = map (den I r) l'.
Proof.
  intros Hp. induction 1 as [|x y l l' H _ IH]; cbn; [reflexivity|]. f_equal; [|assumption].
  destruct H as [->|(Hx & Hy & Hi)]; [reflexivity|]. apply unit_eq; auto.
Qed.
Lemma chain_ok ps a b : (forall p, In p ps -> ctrue I r p) -> eq_chain ps a b -> is_all a = false /\ is_all b = false /\ den I r a = den I r b.
Proof.
  intros Hp H. induction H as [a b Ha Hb|a b c l Ha Hb H IH].
  - repeat split; auto. apply unit_eq; auto. apply Hp. left. reflexivity.
  - destruct IH as (_ & Hc & E); [intros p Hi; apply Hp; right; assumption|]. repeat split; auto. rewrite <- E. apply unit_eq; auto. apply Hp. left. reflexivity.
Qed.

(** The rules preserve truth. *)
Theorem rule_sound props asserts ru ps args c :
  fits props r -> (forall a, In a asserts -> tr I r a) -> (forall p, In p ps -> ctrue I r p) -> rule_ok props asserts ru ps args c -> ctrue I r c.
Proof.
  intros HF HA HP HR.
  assert (HD : (ps = [] /\ exists o l b, rule_op ru o = true /\ is_all b = false /\ c = [EEq (O o l) b] /\ forall I r, fits props r -> den I r (O o l) = den I r b) -> ctrue I r c).
  { intros (_ & o & l & b & _ & Hb & -> & E). apply unit_true, eq_intro; auto. }
  destruct ru; cbn in HR; try (apply HD; exact HR); clear HD.
  - destruct HR as (_ & t & a & -> & Hi & E). apply unit_true. cbn. apply E. auto.
  - unfold ctrue in *. intros Hn. apply (HR (tr I r) (ltrue I r)).
    + intros p Hi Hq. apply (HP p Hi). intros l Hl. specialize (Hq l Hl). destruct l; exact Hq.
    + intros l Hl. specialize (Hn l Hl). destruct l; exact Hn.
  - destruct HR as (a & b & -> & ->). intros Hn. apply (HP [EEq a b]); [left; reflexivity|]. intros l [<-|[]] Hl. apply eq_iff in Hl.
    apply (Hn (ENeg a)); [left; reflexivity|]. cbn. intros Ha. apply (Hn (EPos b)); [right; left; reflexivity|]. cbn. apply Hl. assumption.
  - destruct HR as (a & b & -> & ->). intros Hn. apply (HP [EEq a b]); [left; reflexivity|]. intros l [<-|[]] Hl. apply eq_iff in Hl.
    apply (Hn (ENeg b)); [right; left; reflexivity|]. cbn. intros Hb. apply (Hn (EPos a)); [left; reflexivity|]. cbn. apply Hl. assumption.
  - destruct HR as (a & b & Ha & Hb & -> & ->). intros Hn. apply (HP _ (or_introl eq_refl)). intros l [<-|[]] Hl.
    cbn in Hl. injection Hl as Hl.
    apply (Hn (ENeg a)); [left; reflexivity|]. cbn. rewrite tr_den by assumption. intros Ea. rewrite Ea in Hl. cbn in Hl.
    apply (Hn (EPos b)); [right; left; reflexivity|]. cbn. rewrite tr_den by assumption. apply as_bool_true. assumption.
  - destruct HR as (a & b & -> & ->). intros Hn. apply (HP _ (or_introl eq_refl)). intros l [<-|[]] Hl. cbn in Hl. apply Hl. split.
    + destruct (is_all a) eqn:Ea.
      * exfalso. apply (Hn (ENeg a)); [left; reflexivity|]. cbn. intros Ht. apply Hl. split; [assumption|]. intros Hb. apply (Hn (EPos b)); [right; left; reflexivity|]. exact Hb.
      * rewrite tr_den by assumption. destruct (aval_true_dec (den I r a)) as [E|E]; [assumption|]. exfalso. apply (Hn (ENeg a)); [left; reflexivity|]. cbn. rewrite tr_den by assumption. assumption.
    + intros Hb. apply (Hn (EPos b)); [right; left; reflexivity|]. exact Hb.
  - destruct HR as (_ & vs & b & t & -> & HN & HL & HC & HI). apply unit_true. cbn [ltrue]. intros [Ht Hf]. apply Hf. eapply forall_inst_ok; eauto.
  - destruct HR as (_ & vs & b & keep & HN & Hk & Hb & ->). apply unit_true. cbn [ltrue is_all orb]. apply rm_unused_ok; assumption.
  - destruct HR as [(o & l & l' & -> & H)|(f & l & l' & -> & H)]; apply unit_true, eq_intro; auto; cbn [den]; rewrite (cong_args _ _ _ HP H); reflexivity.
  - destruct HR as (a & b & -> & H). destruct (chain_ok _ _ _ HP H) as (Ha & Hb & E). apply unit_true, eq_intro; auto.
  - destruct HR as (_ & l & Hl & ->). intros Hn. apply (Hn (EPos (O OAnd l))); [left; reflexivity|]. cbn. f_equal.
    apply forallb_forall. intros v Hv. apply in_map_iff in Hv as (x & <- & Hx). apply as_bool_true.
    destruct (aval_true_dec (den I r x)) as [E|E]; [assumption|]. exfalso. apply (Hn (ENeg x)); [right; apply in_map; assumption|]. cbn.
    rewrite Forall_forall in Hl. rewrite tr_den by auto. assumption.
  - destruct HR as (_ & ->). apply unit_true. reflexivity.
  - destruct HR as (_ & ->). apply unit_true. cbn. discriminate.
Qed.
End Rules.

Lemma mapO_In {X Y} (f : X -> option Y) l ys y : mapO f l = Some ys -> In y ys -> exists x, In x l /\ f x = Some y.
Proof.
  revert ys. induction l as [|x l IH]; cbn; intros ys E Hy; [injection E as <-; destruct Hy|].
  destruct (f x) eqn:Ex; [|discriminate]. destruct (mapO f l); [|discriminate]. injection E as <-. destruct Hy as [<-|Hy]; [eauto|].
  destruct (IH _ eq_refl Hy) as (x' & ? & ?). eauto.
Qed.
Lemma checked_sound props asserts ss e cs : checked props asserts ss e cs -> forall I r, fits props r -> (forall a, In a asserts -> tr I r a) -> forall c, In c cs -> ctrue I r c.
Proof.
  induction 1; intros I r HF HA x Hx; [destruct Hx|]. apply in_app_or in Hx as [Hx|[<-|[]]]; [eauto|].
  apply (rule_sound I r props asserts (s_rule s) ps (s_args s)); [assumption|assumption| |assumption]. intros p Hp. destruct (mapO_In _ _ _ _ H3 Hp) as (n & _ & E). apply nth_error_In in E. eauto.
Qed.
(** Assertions with a proof cannot all be true. *)
Theorem proof_sound props asserts ss : is_proof props asserts ss -> forall I r, fits props r -> ~ (forall a, In a asserts -> tr I r a).
Proof.
  intros (e & cs & H) I r HF HA. refine (checked_sound _ _ _ _ _ H I r HF HA [] _ _); [apply in_or_app; right; left; reflexivity|intros l []].
Qed.
