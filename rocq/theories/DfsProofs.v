(** * Depth-first search and loop detection: proofs. *)
From Verif Require Import Syntax Solver Graph GraphOps GraphOpsProofs.
Open Scope nat_scope.

Inductive reach (next : sym -> list sym) : sym -> sym -> Prop :=
| reach_refl v : reach next v v
| reach_step v w u : In w (next v) -> reach next w u -> reach next v u.

Lemma reach_trans next a b c : reach next a b -> reach next b c -> reach next a c.
Proof. intros H. induction H; auto. intros. eapply reach_step; eauto. Qed.
Lemma reach_one next a b : In b (next a) -> reach next a b.
Proof. intros H. eapply reach_step; [exact H|constructor]. Qed.

Lemma filter_len_le {A} (f : A -> bool) l : length (filter f l) <= length l.
Proof. induction l as [|x l IH]; simpl; [lia|]. destruct (f x); simpl; lia. Qed.

Section DFS.
Variable next : sym -> list sym.

(** Post-order property of a list of finished vertices. *)
Definition ordered (o : list sym) : Prop :=
  forall l1 u l2, o = l1 ++ u :: l2 -> forall w, In w (next u) -> In w l1 \/ reach next w u.

Definition inv (m o : list sym) : Prop :=
  NoDup o /\ (forall x, In x o -> In x m) /\ (forall u w, In u o -> In w (next u) -> In w m) /\ ordered o.

Definition post (roots : list sym) (m o m' o' : list sym) : Prop :=
  inv m' o' /\ exists new, o' = o ++ new /\ (forall x, In x m' <-> In x m \/ In x new) /\
    (forall x, In x new -> ~ In x m) /\
    (forall x, In x roots -> In x m') /\
    (forall u, In u new -> exists w, In w roots /\ reach next w u).

Definition run_list (f : nat) (ws : list sym) (st : option (list sym * list sym)) :=
  fold_left (fun acc w => match acc with Some s => run_vertex next f w s | None => None end) ws st.

Lemma run_list_none f ws : run_list f ws None = None.
Proof. induction ws; simpl; auto. Qed.

Definition vertex_ok (f : nat) := forall v m o m' o', inv m o -> (forall x, In x m -> ~ In x o -> reach next x v) ->
  run_vertex next f v (m, o) = Some (m', o') -> post [v] m o m' o'.

Lemma run_list_ok f : vertex_ok f -> forall ws m o m' o', inv m o ->
  (forall x w, In x m -> ~ In x o -> In w ws -> reach next x w) ->
  run_list f ws (Some (m, o)) = Some (m', o') -> post ws m o m' o'.
Proof.
  intros Hv. induction ws as [|w ws IH]; intros m o m' o' Hi Hg E.
  - simpl in E. injection E as <- <-. split; [exact Hi|]. exists []. rewrite app_nil_r. split; [reflexivity|].
    split; [simpl; tauto|]. repeat split; intros x [].
  - cbn [run_list fold_left] in E. destruct (run_vertex next f w (m, o)) as [[m1 o1]|] eqn:E1;
      [|change (run_list f ws None = Some (m', o')) in E; rewrite run_list_none in E; discriminate].
    change (run_list f ws (Some (m1, o1)) = Some (m', o')) in E.
    destruct (Hv w m o m1 o1 Hi) as [I1 [n1 [O1 [M1 [D1 [R1 P1]]]]]]; [|exact E1|].
    { intros x Hx Hn. apply Hg; simpl; auto. }
    destruct (IH m1 o1 m' o' I1) as [I2 [n2 [O2 [M2 [D2 [R2 P2]]]]]]; [|exact E|].
    { intros x y Hx Hn Hy. apply Hg; [|intros H; apply Hn; rewrite O1; apply in_or_app; auto|simpl; auto].
      apply M1 in Hx as [Hx|Hx]; [exact Hx|]. exfalso. apply Hn. rewrite O1. apply in_or_app. auto. }
    split; [exact I2|]. exists (n1 ++ n2). split; [rewrite O2, O1, app_assoc; reflexivity|]. split; [|split; [|split]].
    + intros x. rewrite M2, M1, in_app_iff. tauto.
    + intros x Hx. apply in_app_or in Hx as [Hx|Hx]; [auto|]. intros Hm. apply (D2 x Hx). apply M1. auto.
    + intros x [<-|Hx]; [apply M2; left; apply R1; simpl; auto|auto].
    + intros u Hu. apply in_app_or in Hu as [Hu|Hu].
      * destruct (P1 u Hu) as [y [[<-|[]] Hr]]. exists w. simpl; auto.
      * destruct (P2 u Hu) as [y [Hy Hr]]. exists y. simpl; auto.
Qed.

Lemma run_vertex_ok f : vertex_ok f.
Proof.
  induction f as [|f IH]; intros v m o m' o' Hi Hg E; [discriminate|]. cbn [run_vertex fst snd] in E.
  destruct (smem v m) eqn:Em.
  - injection E as <- <-. apply smem_in in Em. split; [exact Hi|]. exists []. rewrite app_nil_r. split; [reflexivity|].
    split; [simpl; tauto|]. split; [intros x []|]. split; [intros x [<-|[]]; exact Em|intros x []].
  - apply smem_nin in Em. change (fold_left _ (next v) _) with (run_list f (next v) (Some (v :: m, o))) in E.
    destruct (run_list f (next v) (Some (v :: m, o))) as [[m1 o1]|] eqn:E1; [|discriminate]. injection E as <- <-.
    destruct Hi as [N [S [C O]]].
    assert (Hvo : ~ In v o) by (intros H; apply Em, S, H).
    destruct (run_list_ok f IH (next v) (v :: m) o m1 o1) as [[N1 [S1 [C1 Or1]]] [nw [O1 [M1 [D1 [R1 P1]]]]]]; [| |exact E1|].
    { split; [exact N|]. split; [intros x Hx; simpl; auto|]. split; [intros u w Hu Hw; right; eapply C; eauto|exact O]. }
    { intros x w [<-|Hx] Hn Hw; [apply reach_one, Hw|]. eapply reach_trans; [apply Hg; auto|apply reach_one, Hw]. }
    assert (Hv1 : ~ In v o1).
    { rewrite O1. intros H. apply in_app_or in H as [H|H]; [auto|]. apply (D1 v H). simpl. auto. }
    split.
    + split; [|split; [|split]].
      * rewrite <- (rev_involutive (o1 ++ [v])). apply NoDup_rev. rewrite rev_app_distr. simpl. constructor; [rewrite <- in_rev; exact Hv1|apply NoDup_rev, N1].
      * intros x Hx. apply in_app_or in Hx as [Hx|[<-|[]]]; [apply S1, Hx|]. apply M1. simpl. auto.
      * intros u w Hu Hw. apply in_app_or in Hu as [Hu|[<-|[]]]; [eapply C1; eauto|]. apply R1, Hw.
      * intros l1 u l2 E w Hw. destruct (exists_last (l := u :: l2)) as [l3 [z Ez]]; [discriminate|].
        rewrite Ez, app_assoc in E. apply app_inj_tail in E as [E' <-].
        destruct l2 as [|y l2].
        -- destruct l3 as [|? l3]; [|destruct l3; discriminate]. simpl in Ez. inversion Ez; subst u. rewrite app_nil_r in E'. subst l1.
           (* u = v *)
           specialize (R1 w Hw). apply M1 in R1 as [[<-|Hm]|Hn].
           ++ right. constructor.
           ++ destruct (in_dec Nat.eq_dec w o) as [Ho|Ho].
              ** left. rewrite O1. apply in_or_app. auto.
              ** right. apply Hg; auto.
           ++ left. rewrite O1. apply in_or_app. auto.
        -- destruct l3 as [|? l3]; [discriminate|]. simpl in Ez. inversion Ez; subst. apply (Or1 l1 s l3); auto.
    + exists (nw ++ [v]). split; [rewrite O1, app_assoc; reflexivity|]. split; [|split; [|split]].
      * intros x. rewrite M1. rewrite in_app_iff. simpl. tauto.
      * intros x Hx. apply in_app_or in Hx as [Hx|[<-|[]]]; [|exact Em]. intros H. apply (D1 x Hx). simpl; auto.
      * intros x [<-|[]]. apply M1. simpl. auto.
      * intros u Hu. exists v. split; [simpl; auto|]. apply in_app_or in Hu as [Hu|[<-|[]]]; [|constructor].
        destruct (P1 u Hu) as [w [Hw Hr]]. eapply reach_step; eauto.
Qed.

(** Termination: fuel larger than the number of unmarked vertices suffices. *)
Variable U : list sym.
Hypothesis Uclosed : forall v w, In v U -> In w (next v) -> In w U.
Definition unmarked (m : list sym) : nat := length (filter (fun x => negb (smem x m)) U).

Lemma unmarked_le m m' : (forall x, In x m -> In x m') -> unmarked m' <= unmarked m.
Proof.
  intros H. unfold unmarked. clear Uclosed. induction U as [|x l IH]; cbn [filter length]; [lia|].
  destruct (smem x m) eqn:E.
  - apply smem_in, H, smem_in in E. rewrite E. exact IH.
  - destruct (smem x m'); cbn [negb length]; lia.
Qed.
Lemma unmarked_lt m v : In v U -> ~ In v m -> unmarked (v :: m) < unmarked m.
Proof.
  intros Hu Hm. unfold unmarked. clear Uclosed. induction U as [|x l IH]; [destruct Hu|].
  assert (L : length (filter (fun y => negb (smem y (v :: m))) l) <= length (filter (fun y => negb (smem y m)) l)).
  { clear. induction l as [|y l IH]; cbn [filter]; [lia|].
    change (smem y (v :: m)) with (Nat.eqb y v || smem y m). destruct (smem y m), (Nat.eqb y v); cbn [orb negb length]; lia. }
  cbn [filter]. change (smem x (v :: m)) with (Nat.eqb x v || smem x m).
  destruct Hu as [->|Hu].
  - rewrite Nat.eqb_refl. apply smem_nin in Hm. rewrite Hm. cbn [orb negb length]. lia.
  - specialize (IH Hu). destruct (smem x m), (Nat.eqb x v); cbn [orb negb length]; lia.
Qed.

Lemma run_vertex_total f : forall v m o, In v U -> inv m o -> (forall x, In x m -> ~ In x o -> reach next x v) -> unmarked m < f ->
  exists r, run_vertex next f v (m, o) = Some r.
Proof.
  induction f as [|f IH]; intros v m o Hv Hi Hg Hf; [lia|]. cbn [run_vertex fst snd].
  destruct (smem v m) eqn:Em; [eauto|]. apply smem_nin in Em.
  change (fold_left _ (next v) _) with (run_list f (next v) (Some (v :: m, o))).
  enough (G : forall ws m1 o1, (forall w, In w ws -> In w U) -> inv m1 o1 ->
     (forall x w, In x m1 -> ~ In x o1 -> In w ws -> reach next x w) -> unmarked m1 < f ->
     exists r, run_list f ws (Some (m1, o1)) = Some r).
  { destruct (G (next v) (v :: m) o) as [[m' o'] E].
    - intros w Hw. eapply Uclosed; eauto.
    - destruct Hi as [N [S [C O]]].
      split; [exact N|]. split; [intros x Hx; simpl; auto|]. split; [intros u w Hu Hw; right; eapply C; eauto|exact O].
    - intros x w [<-|Hx] Hn Hw; [apply reach_one, Hw|]. eapply reach_trans; [apply Hg; auto|apply reach_one, Hw].
    - pose proof (unmarked_lt m v Hv Em). lia.
    - rewrite E. eauto. }
  intros ws. induction ws as [|w ws IHw]; intros m1 o1 Hws Hi1 Hg1 Hf1; [simpl; eauto|].
  cbn [run_list fold_left]. destruct (IH w m1 o1) as [[m2 o2] E2]; [apply Hws; simpl; auto|exact Hi1|intros; apply Hg1; simpl; auto|exact Hf1|].
  rewrite E2. change (exists r, run_list f ws (Some (m2, o2)) = Some r).
  destruct (run_vertex_ok f w m1 o1 m2 o2 Hi1) as [I2 [nw [O2 [M2 [D2 [R2 P2]]]]]]; [intros; apply Hg1; simpl; auto|exact E2|].
  apply IHw.
  - intros y Hy. apply Hws. simpl; auto.
  - exact I2.
  - intros x y Hx Hn Hy. apply Hg1; [|intros H; apply Hn; rewrite O2; apply in_or_app; auto|simpl; auto].
    apply M2 in Hx as [Hx|Hx]; [exact Hx|]. exfalso. apply Hn. rewrite O2. apply in_or_app. auto.
  - pose proof (unmarked_le m1 m2) as L. specialize (L (fun x Hx => proj2 (M2 x) (or_introl Hx))). lia.
Qed.
End DFS.

(** ** Post-order of a linear graph *)
Lemma succs_closed g v w : NoDup (map lid (ledges g)) -> In v (lvertices g) -> In w (succs g v) -> In w (lvertices g).
Proof.
  intros N _ H. apply succs_spec in H as [e [He [_ Hw]]]; [|exact N]. apply lvertices_spec. right. right. exists e. auto.
Qed.

Theorem post_order_ok g : NoDup (map lid (ledges g)) ->
  exists o, post_order g = Some o /\ NoDup o /\ (forall v, In v o <-> reach (succs g) entry v) /\ ordered (succs g) o.
Proof.
  intros N.
  assert (I0 : inv (succs g) [] []).
  { split; [constructor|]. split; [intros x []|]. split; [intros u w []|]. intros l1 u l2 E. destruct l1; discriminate. }
  destruct (run_vertex_total (succs g) (lvertices g) (fun v w => succs_closed g v w N) (S (S (length (lvertices g)))) entry [] []) as [[m o] E].
  - apply lvertices_spec. left. reflexivity.
  - exact I0.
  - intros x [].
  - unfold unmarked. pose proof (filter_len_le (fun x => negb (smem x [])) (lvertices g)). lia.
  - exists o. split; [unfold post_order; rewrite E; reflexivity|].
    destruct (run_vertex_ok (succs g) _ _ _ _ _ _ I0 (fun x (H : In x []) => match H with end) E) as [[N1 [S1 [C1 O1]]] [nw [On [M [D [R P]]]]]].
    simpl in On. subst nw. split; [exact N1|]. split; [|exact O1].
    intros v. split.
    + intros Hv. destruct (P v Hv) as [w [[<-|[]] Hr]]. exact Hr.
    + intros Hr. assert (He : In entry o).
      { specialize (R entry (or_introl eq_refl)). apply M in R as [[]|R]. exact R. }
      clear - Hr He C1 M. induction Hr as [v|v w u Hw _ IH]; [exact He|]. apply IH.
      specialize (C1 v w He Hw). apply M in C1 as [[]|C1]. exact C1.
Qed.
