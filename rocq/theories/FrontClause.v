(** * From formulas to clauses: [chclause] keeps the meaning. *)
From Verif Require Import Syntax FrontModel FrontSpec FrontProofs.
From Coq Require Import Arith Permutation.
Local Open Scope string_scope.
Local Open Scope list_scope.
Local Open Scope nat_scope.

Lemma peqb_op f l g k : peqb (POp f l) (POp g k) = fsym_eqb f g && (fix go (l k : list pterm) : bool :=
    match l, k with [], [] => true | x :: l', y :: k' => peqb x y && go l' k' | _, _ => false end) l k.
Proof. reflexivity. Qed.
Lemma peqb_pred p l q k : peqb (PPred p l) (PPred q k) = String.eqb p q && (fix go (l k : list pterm) : bool :=
    match l, k with [], [] => true | x :: l', y :: k' => peqb x y && go l' k' | _, _ => false end) l k.
Proof. reflexivity. Qed.

Lemma peqb_iff a : forall b, peqb a b = true <-> a = b.
Proof.
  assert (G : forall l, Forall (fun a => forall b, peqb a b = true <-> a = b) l -> forall k,
    (fix go (l k : list pterm) : bool :=
      match l, k with [], [] => true | x :: l', y :: k' => peqb x y && go l' k' | _, _ => false end) l k = true <-> l = k).
  { induction 1 as [|x l Hx _ IH]; intros [|y k]; try (split; congruence).
    rewrite andb_true_iff, Hx, IH. split; [intros [-> ->]; reflexivity|intros [= -> ->]; auto]. }
  induction a as [v|c|f l IH|p l IH] using pterm_ind'; intros b.
  - destruct b; try (split; cbn; congruence). cbn [peqb]. destruct (var_eqb_spec v v0); split; congruence.
  - destruct b; try (split; cbn; congruence). cbn [peqb]. destruct (value_eqb_spec c c0); split; congruence.
  - destruct b as [| |g k|]; try (split; cbn; congruence). rewrite peqb_op, andb_true_iff, (G l IH k).
    destruct (fsym_eqb_spec f g) as [->|N].
    + split; [intros [_ ->]; reflexivity|intros [= ->]; auto].
    + split; [intros [H _]; discriminate|intros [= -> _]; congruence].
  - destruct b as [| | |q k]; try (split; cbn; congruence). rewrite peqb_pred, andb_true_iff, (G l IH k), String.eqb_eq.
    split; [intros [-> ->]; reflexivity|intros [= -> ->]; auto].
Qed.
Lemma peqb_spec a b : reflect (a = b) (peqb a b).
Proof. apply iff_reflect. symmetry. apply peqb_iff. Qed.

Definition seen_eqb (t : pterm) (s : bool) (y : pterm * bool) := peqb t (fst y) && Bool.eqb s (snd y).
Lemma seen_spec t s seen : existsb (seen_eqb t s) seen = true <-> In (t, s) seen.
Proof.
  rewrite existsb_exists. split.
  - intros [[u w] [H E]]. unfold seen_eqb in E. cbn [fst snd] in E. apply andb_true_iff in E as [E1 E2].
    destruct (peqb_spec t u); [|discriminate]. apply eqb_prop in E2. congruence.
  - intros H. exists (t, s). split; [exact H|]. unfold seen_eqb. cbn [fst snd]. destruct (peqb_spec t t); [|congruence].
    rewrite eqb_reflx. reflexivity.
Qed.

Definition is_notp (t : pterm) : bool := match t with POp FNot [_] => true | _ => false end.

Lemma purify_leaves t : forall s, leaves s t = leaves (if snd (purify t) then s else negb s) (fst (purify t)).
Proof.
  induction t as [v|c|f l IH|p l IH] using pterm_ind'; intros s; try reflexivity.
  destruct f; try reflexivity. destruct l as [|u [|w l]]; try reflexivity.
  inversion IH as [|? ? Hu _]; subst. cbn [purify leaves]. rewrite Hu. destruct (purify u) as [q b]. cbn [fst snd].
  destruct b, s; reflexivity.
Qed.

Lemma purify_size t : psize (fst (purify t)) <= psize t.
Proof.
  induction t as [v|c|f l IH|p l IH] using pterm_ind'; try (cbn; lia).
  destruct f; try (cbn; lia). destruct l as [|u [|w l]]; try (cbn; lia).
  inversion IH as [|? ? Hu _]; subst. cbn [purify]. destruct (purify u) as [q b]. cbn [fst] in *.
  cbn [psize map list_sum]. unfold list_sum. cbn [fold_right]. lia.
Qed.

Lemma purify_notp t : is_notp (fst (purify t)) = false.
Proof.
  induction t as [v|c|f l IH|p l IH] using pterm_ind'; try reflexivity.
  destruct f; try reflexivity. destruct l as [|u [|w l]]; try reflexivity.
  inversion IH as [|? ? Hu _]; subst. cbn [purify]. destruct (purify u) as [q b]. exact Hu.
Qed.

(** The leaves as a disjunction. *)
Definition leaf_true (M : preds) (r : valuation) (x : pterm * bool) : bool :=
  if snd x then ptrue_in M r (fst x) else negb (ptrue_in M r (fst x)).

Lemma existsb_flat_map {A B} (f : B -> bool) (g : A -> list B) l : existsb f (flat_map g l) = existsb (fun x => existsb f (g x)) l.
Proof. induction l as [|x l IH]; [reflexivity|]. cbn [flat_map existsb]. rewrite existsb_app, IH. reflexivity. Qed.

Lemma existsb_ext_in {A} (f g : A -> bool) l : (forall x, In x l -> f x = g x) -> existsb f l = existsb g l.
Proof. induction l as [|x l IH]; intros H; [reflexivity|]. cbn [existsb]. rewrite H, IH; auto; [|left; reflexivity]. intros y Hy. apply H. right. exact Hy. Qed.

Lemma existsb_map' {A B} (f : B -> bool) (g : A -> B) l : existsb f (map g l) = existsb (fun x => f (g x)) l.
Proof. induction l as [|x l IH]; [reflexivity|]. cbn [map existsb]. rewrite IH. reflexivity. Qed.
Lemma forallb_map' {A B} (f : B -> bool) (g : A -> B) l : forallb f (map g l) = forallb (fun x => f (g x)) l.
Proof. induction l as [|x l IH]; [reflexivity|]. cbn [map forallb]. rewrite IH. reflexivity. Qed.
Lemma negb_forallb' {A} (f : A -> bool) l : negb (forallb f l) = existsb (fun x => negb (f x)) l.
Proof. induction l as [|x l IH]; [reflexivity|]. cbn [forallb existsb]. rewrite negb_andb, IH. reflexivity. Qed.

Lemma leaves_meaning M r t : forall s, existsb (leaf_true M r) (leaves s t) = leaf_true M r (t, s).
Proof.
  assert (One : forall t s, existsb (leaf_true M r) [(t, s)] = leaf_true M r (t, s)).
  { intros. cbn [existsb]. apply orb_false_r. }
  induction t as [v|c|f l IH|p l IH] using pterm_ind'; intros s; try apply One.
  destruct f; try apply One.
  - cbn [leaves]. destruct s; [apply One|]. rewrite existsb_flat_map. rewrite Forall_forall in IH.
    rewrite (existsb_ext_in _ (fun x => leaf_true M r (x, false))) by (intros x Hx; apply IH, Hx).
    unfold leaf_true, ptrue_in. cbn [fst snd peval interp asb]. rewrite forallb_map', negb_forallb'. reflexivity.
  - cbn [leaves]. destruct s; [|apply One]. rewrite existsb_flat_map. rewrite Forall_forall in IH.
    rewrite (existsb_ext_in _ (fun x => leaf_true M r (x, true))) by (intros x Hx; apply IH, Hx).
    unfold leaf_true, ptrue_in. cbn [fst snd peval interp asb]. rewrite existsb_map'. reflexivity.
  - destruct l as [|u [|w l]]; try apply One. cbn [leaves]. inversion IH as [|? ? Hu _]; subst. rewrite Hu.
    unfold leaf_true, ptrue_in. cbn [fst snd peval interp asb map]. destruct s; cbn [negb]; [reflexivity|].
    rewrite negb_involutive. reflexivity.
Qed.

Section C.
Variable l_op : string -> list pterm -> option pterm.
Variable l_not : pterm -> pterm.
Variables l_or l_and : list pterm -> pterm.
Hypothesis L : logic_ok l_op l_not l_or l_and.

Definition lit (x : pterm * bool) : pterm := if snd x then fst x else l_not (fst x).

Lemma lit_true M r x : ptrue_in M r (lit x) = leaf_true M r x.
Proof. destruct x as [t [|]]; [reflexivity|]. apply (lo_not _ _ _ _ L). Qed.

Definition qsize (q : list (pterm * bool)) : nat := list_sum (map (fun x => psize (fst x)) q).
Definition qleaves (q : list (pterm * bool)) : list (pterm * bool) := flat_map (fun x => leaves (snd x) (fst x)) q.

Lemma qsize_app a b : qsize (a ++ b) = qsize a + qsize b.
Proof. unfold qsize. rewrite map_app, list_sum_app. reflexivity. Qed.
Lemma qsize_rev a : qsize (rev a) = qsize a.
Proof.
  induction a as [|x a IH]; [reflexivity|]. cbn [rev]. rewrite qsize_app, IH. unfold qsize. cbn. unfold list_sum. lia.
Qed.
Lemma qsize_purify (f : pterm -> pterm * bool) l : (forall t, psize (fst (f t)) <= psize t) -> qsize (map f l) <= list_sum (map psize l).
Proof.
  intros H. induction l as [|x l IH]; [cbn; lia|]. unfold qsize, list_sum in *. cbn [map fold_right]. specialize (H x). lia.
Qed.
Lemma psize_pos t : 1 <= psize t.
Proof. destruct t; cbn; lia. Qed.

Lemma in_qleaves_app x a b : In x (qleaves (a ++ b)) <-> In x (qleaves a) \/ In x (qleaves b).
Proof. unfold qleaves. rewrite flat_map_app, in_app_iff. tauto. Qed.
Lemma in_qleaves_rev x a : In x (qleaves (rev a)) <-> In x (qleaves a).
Proof. unfold qleaves. rewrite !in_flat_map. split; intros [y [H1 H2]]; exists y; (split; [|exact H2]); apply in_rev; [exact H1|rewrite rev_involutive; exact H1]. Qed.

Lemma qleaves_purify l x : In x (qleaves (map purify l)) <-> In x (flat_map (leaves true) l).
Proof.
  unfold qleaves. rewrite !in_flat_map. split.
  - intros [y [H1 H2]]. apply in_map_iff in H1 as [t [<- Ht]]. exists t. split; [exact Ht|]. rewrite purify_leaves.
    destruct (snd (purify t)); exact H2.
  - intros [t [H1 H2]]. exists (purify t). split; [apply in_map, H1|]. rewrite purify_leaves in H2.
    destruct (snd (purify t)); exact H2.
Qed.
Lemma qleaves_flip l x : In x (qleaves (map (fun x => flip (purify x)) l)) <-> In x (flat_map (leaves false) l).
Proof.
  unfold qleaves. rewrite !in_flat_map. split.
  - intros [y [H1 H2]]. apply in_map_iff in H1 as [t [<- Ht]]. exists t. split; [exact Ht|]. rewrite purify_leaves.
    unfold flip in H2. cbn [fst snd] in H2. destruct (snd (purify t)); exact H2.
  - intros [t [H1 H2]]. exists (flip (purify t)). split; [apply (in_map (fun x => flip (purify x))), H1|]. rewrite purify_leaves in H2.
    unfold flip. cbn [fst snd]. destruct (snd (purify t)); exact H2.
Qed.

Definition pure_queue (q : list (pterm * bool)) := Forall (fun x => is_notp (fst x) = false) q.

Definition below (n : nat) (q : list (pterm * bool)) (x : pterm * bool) : Prop :=
  exists y, In y q /\ psize (fst y) < n /\ In x (leaves (snd y) (fst y)).

Definition covered (K queue : list (pterm * bool)) (seen : list (pterm * bool)) : Prop :=
  forall t s x, In (t, s) seen -> In x (leaves s t) -> In x K \/ below (psize t) queue x.

Lemma purify_below l x n : In x (flat_map (leaves true) l) -> list_sum (map psize l) < n -> below n (map purify l) x.
Proof.
  intros H Hn. apply qleaves_purify in H. unfold qleaves in H. apply in_flat_map in H as [y [H1 H2]].
  exists y. split; [exact H1|]. split; [|exact H2]. apply in_map_iff in H1 as [t [<- Ht]].
  pose proof (purify_size t). assert (psize t <= list_sum (map psize l)).
  { clear -Ht. induction l as [|z l IH]; [contradiction|]. unfold list_sum in *. cbn [map fold_right]. destruct Ht as [->|Ht]; [lia|]. specialize (IH Ht). lia. }
  lia.
Qed.
Lemma flip_below l x n : In x (flat_map (leaves false) l) -> list_sum (map psize l) < n -> below n (map (fun x => flip (purify x)) l) x.
Proof.
  intros H Hn. apply qleaves_flip in H. unfold qleaves in H. apply in_flat_map in H as [y [H1 H2]].
  exists y. split; [exact H1|]. split; [|exact H2]. apply in_map_iff in H1 as [t [<- Ht]].
  pose proof (purify_size t). assert (psize t <= list_sum (map psize l)).
  { clear -Ht. induction l as [|z l IH]; [contradiction|]. unfold list_sum in *. cbn [map fold_right]. destruct Ht as [->|Ht]; [lia|]. specialize (IH Ht). lia. }
  unfold flip. cbn [fst]. lia.
Qed.
Lemma below_rev_app n a b x : below n a x \/ below n b x -> below n (rev a ++ b) x.
Proof.
  intros [[y [H1 H2]]|[y [H1 H2]]]; exists y; (split; [|exact H2]); apply in_or_app; [left|right; exact H1].
  apply in_rev. rewrite rev_involutive. exact H1.
Qed.
Lemma below_le n m q x : below n q x -> n <= m -> below m q x.
Proof. intros [y [H1 [H2 H3]]] H. exists y. repeat split; auto. lia. Qed.

Definition expands (t : pterm) (s : bool) : bool :=
  match t, s with POp FOr _, true => true | POp FAnd _, false => true | _, _ => false end.

Lemma leaves_atom t s : expands t s = false -> is_notp t = false -> leaves s t = [(t, s)].
Proof.
  destruct t as [| |f l|]; try reflexivity. destruct f, s; intros H1 H2; try discriminate; try reflexivity;
    destruct l as [|u [|w l]]; try reflexivity; discriminate.
Qed.

(** Leaves are neither disjunctions to expand nor negations. *)
Lemma leaf_shape t : forall s x, In x (leaves s t) -> is_notp (fst x) = false.
Proof.
  induction t as [v|c|f l IH|p l IH] using pterm_ind'; intros s x; try (intros [<-|[]]; reflexivity).
  rewrite Forall_forall in IH.
  destruct f; try (intros [<-|[]]; reflexivity); cbn [leaves].
  - destruct s; [intros [<-|[]]; reflexivity|]. rewrite in_flat_map. intros [u [H1 H2]]. exact (IH u H1 false x H2).
  - destruct s; [|intros [<-|[]]; reflexivity]. rewrite in_flat_map. intros [u [H1 H2]]. exact (IH u H1 true x H2).
  - destruct l as [|u [|w l]]; try (intros [<-|[]]; reflexivity). apply IH. left. reflexivity.
Qed.

(** An expansion step keeps the invariant. *)
Lemma covered_expand K q seen t s (ch : list (pterm * bool)) :
  covered K ((t, s) :: q) seen ->
  (forall x n, In x (leaves s t) -> psize t <= n -> below n ch x) ->
  covered K (rev ch ++ q) ((t, s) :: seen).
Proof.
  intros C B t' s' x [E|H1] H2.
  - injection E as -> ->. right. apply below_rev_app. left. apply B; auto.
  - destruct (C t' s' x H1 H2) as [H|[y [Y1 [Y2 Y3]]]]; [left; exact H|]. right. apply below_rev_app. destruct Y1 as [<-|Y1].
    + left. cbn [fst snd] in *. apply B; [exact Y3|lia].
    + right. exists y. auto.
Qed.

Lemma loop_spec fuel : forall queue seen K,
  qsize queue < fuel -> pure_queue queue ->
  NoDup K -> incl K seen -> covered K queue seen ->
  exists K', disjuncts_loop l_not fuel queue seen (map lit K) = Some (map lit K') /\ NoDup K' /\
    (forall x, In x K' <-> In x K \/ In x (qleaves queue)).
Proof.
  induction fuel as [|fuel IH]; intros queue seen K HS PQ ND IN SE; [lia|].
  destruct queue as [|[t s] q].
  - exists K. cbn [disjuncts_loop]. split; [reflexivity|]. split; [exact ND|]. intros x. cbn. tauto.
  - cbn [disjuncts_loop]. inversion PQ as [|? ? Pt Pq]; subst. cbn [fst] in Pt.
    assert (HS' : psize t + qsize q < S fuel) by exact HS. pose proof (psize_pos t) as PP.
    change (existsb (fun y => peqb t (fst y) && Bool.eqb s (snd y)) seen) with (existsb (seen_eqb t s) seen).
    assert (QL : forall x, In x (qleaves ((t, s) :: q)) <-> In x (leaves s t) \/ In x (qleaves q)).
    { intros x. unfold qleaves at 1. cbn [flat_map fst snd]. rewrite in_app_iff. reflexivity. }
    destruct (existsb (seen_eqb t s) seen) eqn:ES.
    { apply seen_spec in ES. 
      assert (TK : forall x n, In x (leaves s t) -> psize t <= n -> In x K \/ below n q x).
      { intros x n H Hn. destruct (SE t s x ES H) as [H'|[y [[<-|Y1] [Y2 Y3]]]]; [left; exact H'| |].
        - cbn [fst] in Y2. lia.
        - right. exists y. repeat split; auto. lia. }
      destruct (IH q seen K) as [K' [E [N' I']]]; auto; [lia| |].
      - intros t' s' x H1 H2. destruct (SE t' s' x H1 H2) as [H|[y [[<-|Y1] [Y2 Y3]]]]; [left; exact H| |].
        + apply TK; [exact Y3|]. cbn [fst] in Y2. lia.
        + right. exists y. auto.
      - exists K'. split; [exact E|]. split; [exact N'|]. intros x. rewrite I', QL. split; [tauto|].
        intros [H|[H|H]]; auto. destruct (TK x (psize t) H (le_n _)) as [H'|[y [Y1 [_ Y3]]]]; [left; exact H'|].
        right. unfold qleaves. apply in_flat_map. exists y. auto. }
    assert (NS : ~ In (t, s) seen) by (intros H; apply seen_spec in H; congruence).
    assert (Atom : expands t s = false ->
      exists K', disjuncts_loop l_not fuel q ((t, s) :: seen) (map lit K ++ [if s then t else l_not t]) = Some (map lit K') /\ NoDup K' /\
        (forall x, In x K' <-> In x K \/ In x (qleaves ((t, s) :: q)))).
    { intros EX. pose proof (leaves_atom t s EX Pt) as LA.
      change [if s then t else l_not t] with (map lit [(t, s)]). rewrite <- map_app.
      destruct (IH q ((t, s) :: seen) (K ++ [(t, s)])) as [K' [E [N' I']]]; auto; [lia| | | |].
      - apply (Permutation_NoDup (Permutation_cons_append K (t, s))). constructor; [|exact ND]. intros H. apply NS, IN, H.
      - intros x H. apply in_app_or in H as [H|[<-|[]]]; [right; apply IN, H|left; reflexivity].
      - intros t' s' x [H1|H1] H2.
        + injection H1 as -> ->. rewrite LA in H2. left. apply in_or_app. right. exact H2.
        + destruct (SE t' s' x H1 H2) as [H|[y [[<-|Y1] [Y2 Y3]]]]; [left; apply in_or_app; left; exact H| |].
          * cbn [fst snd] in Y3. rewrite LA in Y3. left. apply in_or_app. right. exact Y3.
          * right. exists y. auto.
      - exists K'. split; [exact E|]. split; [exact N'|]. intros x. rewrite I', QL, LA, in_app_iff. tauto. }
    assert (PF : forall l, pure_queue (map purify l)).
    { intros l. apply Forall_forall. intros y Hy. apply in_map_iff in Hy as [u [<- _]]. apply purify_notp. }
    assert (PF2 : forall l, pure_queue (map (fun x => flip (purify x)) l)).
    { intros l. apply Forall_forall. intros y Hy. apply in_map_iff in Hy as [u [<- _]]. unfold flip. cbn [fst]. apply purify_notp. }
    assert (PR : forall a, pure_queue a -> pure_queue (rev a ++ q)).
    { intros a Ha. apply Forall_app. split; [apply Forall_rev, Ha|exact Pq]. }
    assert (INS : incl K ((t, s) :: seen)) by (intros x H; right; apply IN, H).
    destruct t as [v|c|f l|p l]; try (apply Atom; reflexivity).
    destruct f; try (apply Atom; reflexivity); destruct s; try (apply Atom; reflexivity).
    + pose proof (qsize_purify (fun x => flip (purify x)) l purify_size) as QS. cbn [psize] in HS'.
      destruct (IH (rev (map (fun x => flip (purify x)) l) ++ q) ((POp FAnd l, false) :: seen) K) as [K' [E [N' I']]]; auto.
      * rewrite qsize_app, qsize_rev. lia.
      * apply covered_expand; [exact SE|]. intros x n H Hn. cbn [leaves psize] in H, Hn. apply flip_below; [exact H|lia].
      * exists K'. split; [exact E|]. split; [exact N'|]. intros x. rewrite I', QL, in_qleaves_app, in_qleaves_rev, qleaves_flip. cbn [leaves]. tauto.
    + pose proof (qsize_purify purify l purify_size) as QS. cbn [psize] in HS'.
      destruct (IH (rev (map purify l) ++ q) ((POp FOr l, true) :: seen) K) as [K' [E [N' I']]]; auto.
      * rewrite qsize_app, qsize_rev. lia.
      * apply covered_expand; [exact SE|]. intros x n H Hn. cbn [leaves psize] in H, Hn. apply purify_below; [exact H|lia].
      * exists K'. split; [exact E|]. split; [exact N'|]. intros x. rewrite I', QL, in_qleaves_app, in_qleaves_rev, qleaves_purify. cbn [leaves]. tauto.
Qed.

(** The literals returned are the literals of the formula, each once. *)
Lemma disjuncts_spec t : exists K, disjuncts l_not t = Some (map lit K) /\ NoDup K /\ (forall x, In x K <-> In x (leaves true t)).
Proof.
  unfold disjuncts. destruct (loop_spec (S (psize t)) [purify t] [] []) as [K [E [N I]]].
  - unfold qsize. cbn [map]. unfold list_sum. cbn [fold_right]. pose proof (purify_size t). lia.
  - constructor; [apply purify_notp|constructor].
  - constructor.
  - intros x [].
  - intros t' s' x [].
  - exists K. split; [exact E|]. split; [exact N|]. intros x. rewrite I. unfold qleaves. cbn [flat_map]. rewrite app_nil_r.
    rewrite (purify_leaves t true). destruct (snd (purify t)); cbn; tauto.
Qed.

Lemma disjuncts_meaning t ds M r : disjuncts l_not t = Some ds -> existsb (ptrue_in M r) ds = ptrue_in M r t.
Proof.
  intros H. destruct (disjuncts_spec t) as [K [E [_ I]]]. assert (ds = map lit K) by congruence. subst ds.
  rewrite existsb_map'. rewrite (existsb_ext_in _ (leaf_true M r)) by (intros x _; apply lit_true).
  transitivity (existsb (leaf_true M r) (leaves true t)); [|exact (leaves_meaning M r t true)].
  apply eq_true_iff_eq. rewrite !existsb_exists. split; intros [x [H1 H2]]; exists x; (split; [apply I, H1|exact H2]).
Qed.

(** ** Clauses *)
Lemma existsb_filter_split {A} (f p : A -> bool) l : existsb f l = existsb f (filter p l) || existsb f (filter (fun x => negb (p x)) l).
Proof.
  induction l as [|x l IH]; [reflexivity|]. cbn [existsb filter]. destruct (p x); cbn [negb existsb]; rewrite IH.
  - rewrite orb_assoc. reflexivity.
  - rewrite !orb_assoc. rewrite (orb_comm (f x)). reflexivity.
Qed.

Lemma clause_of_disjuncts_sound known ds c M r :
  clause_of_disjuncts l_not l_and known ds = Some c ->
  (existsb (ptrue_in M r) ds = true <-> clause_true M r c).
Proof.
  unfold clause_of_disjuncts.
  set (lits := filter (is_lit known) ds). set (rest := filter (fun t => negb (is_lit known t)) ds).
  set (pos := filter (fun t => negb (is_not t)) lits). set (neg := filter is_not lits).
  destruct (1 <? length pos) eqn:EP; [discriminate|]. apply Nat.ltb_ge in EP.
  destruct (mentions known (l_and (map l_not rest))); [discriminate|]. intros [= <-].
  rewrite (existsb_filter_split _ (is_lit known)). fold lits rest. rewrite (existsb_filter_split _ is_not lits). fold pos neg.
  unfold clause_true. cbn [p_fla p_body p_head]. rewrite (lo_and _ _ _ _ L), forallb_map'.
  assert (Bd : Forall (fun b => ptrue_in M r b = true) (map l_not neg) <-> existsb (ptrue_in M r) neg = false).
  { rewrite Forall_map, Forall_forall. split.
    - intros H. apply not_true_iff_false. intros E. apply existsb_exists in E as [x [H1 H2]]. specialize (H x H1). cbn beta in H.
      rewrite (lo_not _ _ _ _ L), H2 in H. discriminate.
    - intros H x Hx. rewrite (lo_not _ _ _ _ L). destruct (ptrue_in M r x) eqn:E; [|reflexivity].
      assert (existsb (ptrue_in M r) neg = true) by (apply existsb_exists; eauto). congruence. }
  rewrite Bd.
  assert (Fl : forallb (fun x => ptrue_in M r (l_not x)) rest = true <-> existsb (ptrue_in M r) rest = false).
  { rewrite forallb_forall. split.
    - intros H. apply not_true_iff_false. intros E. apply existsb_exists in E as [x [H1 H2]]. specialize (H x H1). cbn beta in H.
      rewrite (lo_not _ _ _ _ L), H2 in H. discriminate.
    - intros H x Hx. rewrite (lo_not _ _ _ _ L). destruct (ptrue_in M r x) eqn:E; [|reflexivity].
      assert (existsb (ptrue_in M r) rest = true) by (apply existsb_exists; eauto). congruence. }
  rewrite Fl.
  assert (Hd : existsb (ptrue_in M r) pos = true <-> match hd_error pos with Some h => ptrue_in M r h = true | None => False end).
  { destruct pos as [|h [|h' pos']]; cbn [hd_error existsb length] in *; [split; [discriminate|contradiction]| |lia].
    rewrite orb_false_r. tauto. }
  rewrite <- Hd. destruct (existsb (ptrue_in M r) neg), (existsb (ptrue_in M r) rest), (existsb (ptrue_in M r) pos);
    cbn [orb]; intuition congruence.
Qed.

Definition pure_clause (known : list pid) (c : pclause) : Prop :=
  (forall h, p_head c = Some h -> is_pred known h = true) /\
  Forall (fun b => is_pred known b = true) (p_body c) /\
  mentions known (p_fla c) = false.

Lemma clause_of_disjuncts_shape known ds c : clause_of_disjuncts l_not l_and known ds = Some c -> pure_clause known c.
Proof.
  unfold clause_of_disjuncts.
  set (lits := filter (is_lit known) ds). set (pos := filter (fun t => negb (is_not t)) lits). set (neg := filter is_not lits).
  destruct (1 <? length pos); [discriminate|]. destruct (mentions known _) eqn:EM; [discriminate|]. intros [= <-].
  unfold pure_clause. cbn [p_head p_body p_fla]. split; [|split; [|exact EM]].
  - intros h H. assert (Hin : In h pos) by (destruct pos; [discriminate|injection H as ->; left; reflexivity]).
    unfold pos, lits in Hin. rewrite !filter_In in Hin. destruct Hin as [[_ H1] H2].
    unfold is_lit in H1. apply orb_true_iff in H1 as [H1|H1]; [exact H1|].
    destruct h as [| |f l|]; try discriminate. destruct f; try discriminate. destruct l as [|u [|w l]]; discriminate.
  - rewrite Forall_map, Forall_forall. intros x Hx. unfold neg, lits in Hx. rewrite !filter_In in Hx. destruct Hx as [[_ H1] H2].
    destruct x as [| |f l|]; try discriminate. destruct f; try discriminate. destruct l as [|u [|w l]]; try discriminate.
    rewrite (lo_not_not _ _ _ _ L). unfold is_lit in H1. cbn in H1. exact H1.
Qed.

Lemma chclause_sound known t c M r : chclause l_not l_or l_and known t = Some c ->
  (ptrue_in M r t = true <-> clause_true M r c).
Proof.
  unfold chclause.
  assert (Or : forall u, clause_of_or l_not l_and known u = Some c -> (ptrue_in M r u = true <-> clause_true M r c)).
  { intros u. unfold clause_of_or. destruct (is_or u); [|discriminate]. destruct (disjuncts l_not u) as [ds|] eqn:E; [|discriminate].
    intros H. rewrite <- (disjuncts_meaning u ds M r E). eapply clause_of_disjuncts_sound; eauto. }
  destruct (is_or t); [apply Or|]. destruct (is_pred known t).
  - intros [= <-]. unfold clause_true. cbn [p_fla p_body p_head]. split; [intros; assumption|].
    intros H. apply H; [reflexivity|constructor].
  - destruct t as [| |f l|]; try discriminate. destruct f; try discriminate. destruct l as [|u [|w l]]; try discriminate.
    assert (NT : ptrue_in M r (POp FNot [u]) = negb (ptrue_in M r u)) by reflexivity.
    destruct (is_pred known u).
    + intros [= <-]. unfold clause_true. cbn [p_fla p_body p_head]. rewrite NT. split.
      * intros H _ F. inversion F as [|? ? F1 _]; subst. rewrite F1 in H. discriminate.
      * intros H. destruct (ptrue_in M r u) eqn:E; [|reflexivity]. exfalso. apply H; [reflexivity|]. constructor; [exact E|constructor].
    + destruct u as [| |f l|]; try discriminate. destruct f; try discriminate. intros H. rewrite <- (Or _ H).
      rewrite (lo_or _ _ _ _ L), existsb_map', NT. unfold ptrue_in at 1. cbn [peval interp asb].
      rewrite forallb_map', negb_forallb'.
      rewrite (existsb_ext_in (fun x => ptrue_in M r (l_not x)) (fun x => negb (asb (peval M r x)))); [tauto|].
      intros x _. apply (lo_not _ _ _ _ L).
Qed.

Lemma chclause_shape known t c : chclause l_not l_or l_and known t = Some c -> pure_clause known c.
Proof.
  unfold chclause.
  assert (Or : forall u, clause_of_or l_not l_and known u = Some c -> pure_clause known c).
  { intros u. unfold clause_of_or. destruct (is_or u); [|discriminate]. destruct (disjuncts l_not u) as [ds|]; [|discriminate].
    apply clause_of_disjuncts_shape. }
  destruct (is_or t); [apply Or|]. destruct (is_pred known t) eqn:EP.
  - intros [= <-]. unfold pure_clause. cbn [p_head p_body p_fla]. split; [intros h [= <-]; exact EP|]. split; [constructor|reflexivity].
  - destruct t as [| |f l|]; try discriminate. destruct f; try discriminate. destruct l as [|u [|w l]]; try discriminate.
    destruct (is_pred known u) eqn:EU.
    + intros [= <-]. unfold pure_clause. cbn [p_head p_body p_fla]. split; [discriminate|]. split; [constructor; [exact EU|constructor]|reflexivity].
    + destruct u as [| |f l|]; try discriminate. destruct f; try discriminate. apply Or.
Qed.

(** ** Acceptance *)
Lemma two_long {A} (l : list A) a b : In a l -> In b l -> a <> b -> 2 <= length l.
Proof.
  destruct l as [|x [|y l]]; [contradiction| |cbn; lia]. intros [<-|[]] [<-|[]] N. congruence.
Qed.

(** Two different positive predicates: refused. *)
Lemma two_heads_refused known t a b : is_or t = true ->
  In (a, true) (leaves true t) -> In (b, true) (leaves true t) -> a <> b ->
  is_pred known a = true -> is_pred known b = true -> chclause l_not l_or l_and known t = None.
Proof.
  intros O Ha Hb N Pa Pb. unfold chclause, clause_of_or. rewrite O. destruct (disjuncts_spec t) as [K [E [_ I]]]. rewrite E.
  unfold clause_of_disjuncts.
  set (pos := filter (fun t => negb (is_not t)) (filter (is_lit known) (map lit K))).
  assert (In_pos : forall x, In (x, true) (leaves true t) -> is_pred known x = true -> In x pos).
  { intros x Hx Px. unfold pos. apply filter_In. split; [apply filter_In; split|].
    - apply I in Hx. apply (in_map lit) in Hx. exact Hx.
    - unfold is_lit. rewrite Px. reflexivity.
    - destruct x; try discriminate. reflexivity. }
  pose proof (two_long pos a b (In_pos a Ha Pa) (In_pos b Hb Pb) N). destruct (Nat.ltb_spec 1 (length pos)); [reflexivity|lia].
Qed.

Hypothesis P : logic_pure l_not l_and.

Lemma is_pred_mentions known t : is_pred known t = true -> mentions known t = true.
Proof. destruct t; try discriminate. cbn. intros ->. reflexivity. Qed.

Lemma is_lit_mentions known t : is_lit known t = true -> mentions known t = true.
Proof.
  unfold is_lit. destruct (is_pred known t) eqn:E; [intros _; apply is_pred_mentions, E|].
  destruct t as [| |f l|]; try discriminate. destruct f; try discriminate. destruct l as [|u [|w l]]; try discriminate.
  cbn [orb]. intros H. cbn. rewrite (is_pred_mentions _ _ H). reflexivity.
Qed.

Lemma NoDup_short {A} (l : list A) : NoDup l -> (forall a b, In a l -> In b l -> a = b) -> length l <= 1.
Proof.
  intros N H. destruct l as [|x [|y l]]; cbn; try lia. inversion N as [|? ? N1 _]; subst. exfalso. apply N1.
  left. symmetry. apply H; [left|right; left]; reflexivity.
Qed.

Lemma filter_map_comm {A B} (f : A -> B) p l : filter p (map f l) = map f (filter (fun x => p (f x)) l).
Proof. induction l as [|x l IH]; [reflexivity|]. cbn [map filter]. destruct (p (f x)); cbn [map]; rewrite IH; reflexivity. Qed.

Lemma horn_accepted known t : is_or t = true -> horn known t -> exists c, chclause l_not l_or l_and known t = Some c.
Proof.
  intros O [H1 H2]. unfold chclause, clause_of_or. rewrite O. destruct (disjuncts_spec t) as [K [E [ND I]]]. rewrite E.
  unfold clause_of_disjuncts.
  (* the literal of a leaf *)
  assert (Lit : forall x, In x K -> is_lit known (lit x) = is_pred known (fst x)).
  { intros [u [|]] Hx; apply I in Hx; unfold lit; cbn [fst snd].
    - destruct (is_pred known u) eqn:Pu; [unfold is_lit; rewrite Pu; reflexivity|].
      apply not_true_iff_false. intros Q. apply is_lit_mentions in Q. rewrite (H2 u true Hx Pu) in Q. discriminate.
    - destruct (is_pred known u) eqn:Pu.
      + destruct u as [| | |p l]; try discriminate. rewrite (lp_not_pred _ _ P). unfold is_lit. rewrite Pu. apply orb_true_r.
      + apply not_true_iff_false. intros Q. apply is_lit_mentions in Q. rewrite (lp_not _ _ P) in Q by exact (H2 u false Hx Pu). discriminate. }
  set (pos := filter (fun t => negb (is_not t)) (filter (is_lit known) (map lit K))).
  assert (Hp : length pos <= 1).
  { unfold pos. rewrite !filter_map_comm. rewrite map_length.
    apply NoDup_short; [apply NoDup_filter, NoDup_filter, ND|].
    assert (Sh : forall x, In x (filter (fun x => negb (is_not (lit x))) (filter (fun x => is_lit known (lit x)) K)) ->
      snd x = true /\ is_pred known (fst x) = true /\ In x (leaves true t)).
    { intros x Hx. rewrite !filter_In in Hx. destruct Hx as [[Q1 Q2] Q3]. rewrite (Lit x Q1) in Q2.
      split; [|split; [exact Q2|apply I, Q1]]. destruct x as [u [|]]; [reflexivity|]. cbn [fst] in Q2.
      destruct u as [| | |p l]; try discriminate. unfold lit in Q3. cbn [fst snd] in Q3. rewrite (lp_not_pred _ _ P) in Q3. discriminate. }
    intros [a sa] [b sb] Ha Hb. apply Sh in Ha as [A1 [A2 A3]]. apply Sh in Hb as [B1 [B2 B3]]. cbn [fst snd] in *. subst sa sb.
    rewrite (H1 a b A3 B3 A2 B2). reflexivity. }
  destruct (Nat.ltb_spec 1 (length pos)); [lia|].
  rewrite (lp_and _ _ P).
  - eexists. reflexivity.
  - apply not_true_iff_false. intros Q. apply existsb_exists in Q as [x [Q1 Q2]]. apply in_map_iff in Q1 as [y [<- Q1]].
    apply filter_In in Q1 as [Q1 Q3]. apply in_map_iff in Q1 as [z [<- Q1]]. rewrite (Lit z Q1) in Q3.
    destruct (is_pred known (fst z)) eqn:Pz; [discriminate|]. destruct z as [u [|]]; cbn [fst] in *; unfold lit in Q2; cbn [fst snd] in Q2.
    + rewrite (lp_not _ _ P) in Q2; [discriminate|]. exact (H2 u true (proj1 (I _) Q1) Pz).
    + rewrite (lp_not _ _ P) in Q2; [discriminate|]. apply (lp_not _ _ P). exact (H2 u false (proj1 (I _) Q1) Pz).
Qed.
End C.
