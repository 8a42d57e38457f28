(** * Loop detection: proofs. *)
From Verif Require Import Syntax Solver Graph GraphOps GraphOpsProofs DfsProofs.
Open Scope nat_scope.

Section L.
Variable g : lgraph.
Hypothesis Nid : NoDup (map lid (ledges g)).

Lemma visit_unfold f v visited stack : visit g (S f) v visited stack = go_edges g (visit g f) v stack (out_ids g v) (v :: visited).
Proof. reflexivity. Qed.

Lemma out_edge v i : In i (out_ids g v) -> exists e, In e (ledges g) /\ lid e = i /\ lfrom e = v /\ ltarget g i = lto e /\ lsource g i = v /\ In (lto e) (succs g v).
Proof.
  intros H. pose proof H as H0. apply out_ids_spec in H as [e [H1 [H2 H3]]]. exists e.
  unfold ltarget, lsource. rewrite <- H2, (lfind_in g e Nid H1). repeat split; auto.
  apply succs_spec; [exact Nid|]. eauto.
Qed.

(** Finished vertices in finishing order: successors (other than itself) come earlier. *)
Definition topo (o : list sym) : Prop :=
  NoDup o /\ forall l1 u l2, o = l1 ++ u :: l2 -> forall w, In w (succs g u) -> w <> u -> In w l1.

Definition is_edge (i : nat) : Prop := exists e, In e (ledges g) /\ lid e = i.
(** A path of edge ids, last edge first (the order in which [visit] collects them). *)
Fixpoint back_path (l : list nat) : Prop :=
  match l with
  | [] => True
  | i :: l' => is_edge i /\ match l' with [] => True | j :: _ => lsource g i = ltarget g j end /\ back_path l'
  end.
Definition src_of := map (lsource g).

Definition state_ok (visited stack o : list sym) : Prop :=
  topo o /\ (forall x, In x visited <-> In x stack \/ In x o) /\ (forall x, In x stack -> ~ In x o) /\ NoDup stack.

Definition found (visited : list sym) (v : sym) (stack : list sym) (l0 : nat) (loop : list nat) : Prop :=
  back_path loop /\ NoDup (src_of loop) /\ lsource g l0 <> ltarget g l0 /\
  ((* incomplete *) (lsource g (last loop l0) = v /\ In (ltarget g l0) stack /\ (forall x, In x (src_of loop) -> x = v \/ ~ In x visited)) \/
   (* complete *) lsource g (last loop l0) = ltarget g l0).

Definition visit_spec (f : nat) : Prop := forall v visited stack o vis' loop,
  state_ok visited stack o -> ~ In v visited -> visit g f v visited stack = Some (vis', loop) ->
  match loop with
  | [] => exists nw, state_ok vis' stack (o ++ nw) /\ In v nw
  | l0 :: ls => found visited v stack l0 (l0 :: ls) /\ (forall i, In i (l0 :: ls) -> reach (succs g) v (lsource g i))
  end.

Lemma back_path_snoc l i d : l <> [] -> back_path l -> is_edge i -> lsource g (last l d) = ltarget g i -> back_path (l ++ [i]).
Proof.
  induction l as [|x l IH]; [congruence|]. intros _ [H1 [H2 H3]] Hi E. destruct l as [|y l].
  - simpl in *. auto.
  - cbn [app]. split; [exact H1|]. split; [exact H2|]. apply IH; auto. discriminate.
Qed.
Lemma last_snoc {A} (l : list A) x d : last (l ++ [x]) d = x.
Proof. apply last_last. Qed.
Lemma last_indep {A} (l : list A) d d' : l <> [] -> last l d = last l d'.
Proof. induction l as [|x l IH]; [congruence|]. intros _. destruct l; [reflexivity|]. apply IH. discriminate. Qed.

Lemma go_edges_ok f : visit_spec f -> forall v stack es vis o vis' loop,
  (forall i, In i es -> In i (out_ids g v)) ->
  state_ok vis (v :: stack) o ->
  go_edges g (visit g f) v stack es vis = Some (vis', loop) ->
  match loop with
  | [] => exists nw, state_ok vis' (v :: stack) (o ++ nw) /\ forall i, In i es -> ltarget g i <> v -> In (ltarget g i) (o ++ nw)
  | l0 :: ls => (back_path loop /\ NoDup (src_of loop) /\ lsource g l0 <> ltarget g l0 /\
       ((lsource g (last loop l0) = v /\ In (ltarget g l0) stack /\ (forall x, In x (src_of loop) -> x = v \/ ~ In x vis)) \/
        lsource g (last loop l0) = ltarget g l0)) /\ (forall i, In i loop -> reach (succs g) v (lsource g i))
  end.
Proof.
  intros IHf v stack. induction es as [|e es IH]; intros vis o vis' loop Hes Hst E.
  - simpl in E. injection E as <- <-. exists []. rewrite app_nil_r. split; [exact Hst|]. intros i [].
  - assert (Hes' : forall i, In i es -> In i (out_ids g v)) by (intros i Hi; apply Hes; simpl; auto).
    destruct (out_edge v e) as [ed [He1 [He2 [He3 [He4 [He5 He6]]]]]]; [apply Hes; simpl; auto|].
    cbn [go_edges] in E. destruct (Nat.eqb_spec (ltarget g e) v) as [Ev|Ev].
    { specialize (IH vis o vis' loop Hes' Hst E). destruct loop; [|exact IH].
      destruct IH as [nw [H1 H2]]. exists nw. split; [exact H1|]. intros i [<-|Hi] Hn; [congruence|auto]. }
    destruct (smem (ltarget g e) vis) eqn:Em; cbn [negb] in E.
    + apply smem_in in Em. destruct (smem (ltarget g e) (v :: stack)) eqn:Es.
      * injection E as <- <-. apply smem_in in Es. destruct Es as [Es|Es]; [congruence|].
        split.
        -- split; [split; [exists ed; auto|simpl; auto]|]. split; [repeat constructor; simpl; tauto|]. split; [congruence|].
           left. simpl. split; [exact He5|]. split; [exact Es|]. intros x [<-|[]]. auto.
        -- intros i [<-|[]]. rewrite He5. constructor.
      * apply smem_nin in Es. specialize (IH vis o vis' loop Hes' Hst E). destruct loop; [|exact IH].
        destruct IH as [nw [H1 H2]]. exists nw. split; [exact H1|]. intros i [<-|Hi] Hn; [|auto].
        destruct Hst as [_ [Hv _]]. apply Hv in Em as [Em|Em]; [contradiction|]. apply in_or_app. auto.
    + apply smem_nin in Em.
      destruct (visit g f (ltarget g e) vis (v :: stack)) as [[v2 lp]|] eqn:E2; [|discriminate].
      pose proof (IHf _ _ _ _ _ _ Hst Em E2) as R. destruct lp as [|l0 ls].
      * destruct R as [nw [R1 R2]]. specialize (IH v2 (o ++ nw) vis' loop Hes' R1 E). destruct loop as [|l0 ls].
        -- destruct IH as [nw2 [H1 H2]]. rewrite <- app_assoc in H1. exists (nw ++ nw2). split; [exact H1|].
           intros i [<-|Hi] Hn.
           ++ apply in_or_app. right. apply in_or_app. auto.
           ++ rewrite app_assoc. auto.
        -- destruct IH as [[P [N [NE C]]] Hr]. split; [|exact Hr]. split; [exact P|]. split; [exact N|]. split; [exact NE|].
           destruct C as [[C1 [C2 C3]]|C]; [left|right; exact C]. split; [exact C1|]. split; [exact C2|].
           intros x Hx. destruct (C3 x Hx) as [->|Hn]; [auto|]. right. intros Hv. apply Hn.
           destruct R1 as [_ [Rv _]]. destruct Hst as [_ [Hv0 _]]. apply Rv. apply Hv0 in Hv as [Hv|Hv]; [auto|].
           right. apply in_or_app. auto.
      * destruct R as [[P [N [NE C]]] Hr].
        assert (Hr' : forall i, In i (l0 :: ls) -> reach (succs g) v (lsource g i)).
        { intros i Hi. eapply reach_step; [|apply Hr, Hi]. rewrite He4. exact He6. }
        destruct (negb (Nat.eqb (ltarget g e) (ltarget g l0)) && Nat.eqb (ltarget g e) (lsource g (last (l0 :: ls) l0))) eqn:Ec;
          injection E as <- <-; cbn [app].
        -- apply andb_true_iff in Ec as [Ec1 Ec2]. apply Nat.eqb_eq in Ec2. apply negb_true_iff, Nat.eqb_neq in Ec1.
           destruct C as [[C1 [C2 C3]]|C]; [|congruence].
           split.
           ++ split; [|split; [|split]].
              ** change (l0 :: ls ++ [e]) with ((l0 :: ls) ++ [e]). apply (back_path_snoc _ _ l0); [discriminate|exact P|exists ed; auto|congruence].
              ** change (l0 :: ls ++ [e]) with ((l0 :: ls) ++ [e]). unfold src_of. rewrite map_app. change (map (lsource g) [e]) with [lsource g e]. rewrite He5.
                 rewrite <- (rev_involutive (map (lsource g) (l0 :: ls) ++ [v])). apply NoDup_rev. rewrite rev_app_distr. change (rev [v]) with [v]. cbn [app].
                 constructor; [|apply NoDup_rev; exact N]. rewrite <- in_rev. intros Hin.
                 destruct (C3 v Hin) as [X|X]; [congruence|]. apply X.
                 destruct Hst as [_ [Hv _]]. apply Hv. simpl. auto.
              ** exact NE.
              ** change (l0 :: ls ++ [e]) with ((l0 :: ls) ++ [e]). rewrite last_last, He5.
                 destruct C2 as [C2|C2]; [right; congruence|left]. split; [reflexivity|]. split; [exact C2|].
                 intros x Hx. unfold src_of in Hx. rewrite map_app in Hx. apply in_app_or in Hx as [Hx|[<-|[]]]; [|auto].
                 right. destruct (C3 x Hx) as [->|Hn]; auto.
           ++ intros i Hi. change (l0 :: ls ++ [e]) with ((l0 :: ls) ++ [e]) in Hi. apply in_app_or in Hi as [Hi|[<-|[]]]; [auto|].
              rewrite He5. constructor.
        -- split; [|exact Hr']. split; [exact P|]. split; [exact N|]. split; [exact NE|]. right.
           destruct C as [[C1 [C2 C3]]|C]; [|exact C].
           rewrite C1, Nat.eqb_refl, andb_true_r in Ec. apply negb_false_iff, Nat.eqb_eq in Ec. congruence.
Qed.

Lemma visit_ok f : visit_spec f.
Proof.
  induction f as [|f IH]; intros v visited stack o vis' loop Hst Hv E; [discriminate|].
  rewrite visit_unfold in E.
  assert (Hst' : state_ok (v :: visited) (v :: stack) o).
  { destruct Hst as [T [V [D N]]]. split; [exact T|]. split; [|split].
    - intros x. simpl. rewrite V. tauto.
    - intros x [<-|Hx]; [|auto]. intros H. apply Hv, V. auto.
    - constructor; [|exact N]. intros H. apply Hv, V. auto. }
  pose proof (go_edges_ok f IH v stack (out_ids g v) (v :: visited) o vis' loop (fun i H => H) Hst' E) as R.
  destruct loop as [|l0 ls].
  - destruct R as [nw [[[N T] [V [D Ns]]] C]]. exists (nw ++ [v]). rewrite app_assoc. split; [|apply in_or_app; simpl; auto].
    assert (Hnv : ~ In v (o ++ nw)) by (apply D; simpl; auto).
    split; [|split; [|split]].
    + split.
      * rewrite <- (rev_involutive ((o ++ nw) ++ [v])). apply NoDup_rev. rewrite rev_app_distr. cbn [rev app].
        constructor; [rewrite <- in_rev; exact Hnv|apply NoDup_rev, N].
      * intros l1 u l2 E' w Hw Hne. destruct (exists_last (l := u :: l2)) as [l3 [z Ez]]; [discriminate|].
        rewrite Ez, app_assoc in E'. apply app_inj_tail in E' as [E' <-]. destruct l2 as [|y l2].
        -- destruct l3 as [|? l3]; [|destruct l3; discriminate]. simpl in Ez. inversion Ez; subst u. rewrite app_nil_r in E'. subst l1.
           unfold succs in Hw. apply in_map_iff in Hw as [i [<- Hi]]. apply C; auto.
        -- destruct l3 as [|a l3]; [discriminate|]. simpl in Ez. inversion Ez; subst. apply (T l1 a l3); auto.
    + intros x. rewrite V, !in_app_iff. simpl. tauto.
    + intros x Hx H. apply in_app_or in H as [H|[<-|[]]].
      * apply (D x); simpl; auto.
      * inversion Ns; auto.
    + inversion Ns; auto.
  - destruct R as [[P [Nn [NE C]]] Hr]. split; [|exact Hr]. split; [exact P|]. split; [exact Nn|]. split; [exact NE|].
    destruct C as [[C1 [C2 C3]]|C]; [left|auto]. split; [exact C1|]. split; [exact C2|].
    intros x Hx. destruct (C3 x Hx) as [->|Hn]; [auto|]. right. intros H. apply Hn. simpl; auto.
Qed.

(** Totality. *)
Lemma visit_total f : forall v visited stack o, state_ok visited stack o -> In v (lvertices g) -> ~ In v visited ->
  unmarked (lvertices g) visited < f -> exists r, visit g f v visited stack = Some r.
Proof.
  induction f as [|f IH]; intros v visited stack o Hst Hin Hv Hf; [lia|]. rewrite visit_unfold.
  assert (Hst' : state_ok (v :: visited) (v :: stack) o).
  { destruct Hst as [T [V [D N]]]. split; [exact T|]. split; [|split].
    - intros x. simpl. rewrite V. tauto.
    - intros x [<-|Hx]; [|auto]. intros H. apply Hv, V. auto.
    - constructor; [|exact N]. intros H. apply Hv, V. auto. }
  assert (Hu : unmarked (lvertices g) (v :: visited) < f).
  { pose proof (unmarked_lt (lvertices g) visited v Hin Hv). lia. }
  assert (G : forall es vis o', (forall i, In i es -> In i (out_ids g v)) -> state_ok vis (v :: stack) o' -> unmarked (lvertices g) vis < f ->
     exists r, go_edges g (visit g f) v stack es vis = Some r).
  { induction es as [|e es IHe]; intros vis o' Hes Hs Hun; [simpl; eauto|].
    assert (Hes' : forall i, In i es -> In i (out_ids g v)) by (intros i Hi; apply Hes; simpl; auto).
    destruct (out_edge v e) as [ed [He1 [He2 [He3 [He4 [He5 He6]]]]]]; [apply Hes; simpl; auto|].
    cbn [go_edges]. destruct (Nat.eqb (ltarget g e) v); [eauto|].
    destruct (smem (ltarget g e) vis) eqn:Em; cbn [negb].
    - destruct (smem (ltarget g e) (v :: stack)); eauto.
    - apply smem_nin in Em.
      destruct (IH (ltarget g e) vis (v :: stack) o' Hs) as [[v2 lp] E2]; [|exact Em|exact Hun|].
      + rewrite He4. eapply succs_closed; eauto.
      + rewrite E2. destruct lp as [|l0 ls].
        * pose proof (visit_ok f _ _ _ _ _ _ Hs Em E2) as [nw [R1 R2]]. apply (IHe v2 (o' ++ nw)); auto.
          assert (L : unmarked (lvertices g) v2 <= unmarked (lvertices g) vis); [|lia].
          apply unmarked_le. intros x Hx. destruct Hs as [_ [V1 _]]. destruct R1 as [_ [V2 _]]. apply V2. apply V1 in Hx as [Hx|Hx]; [auto|].
          right. apply in_or_app. auto.
        * destruct (_ && _); eauto. }
  exact (G _ _ o (fun i H => H) Hst' Hu).
Qed.

(** A simple cycle through at least two vertices, as a list of edge ids in path order. *)
Record simple_cycle (l : list nat) : Prop := {
  cyc_edges : forall i, In i l -> is_edge i;
  cyc_len : 2 <= length l;
  cyc_chain : forall l1 i j l2, l = l1 ++ i :: j :: l2 -> ltarget g i = lsource g j;
  cyc_close : forall d, ltarget g (last l d) = lsource g (hd d l);
  cyc_simple : NoDup (map (lsource g) l)
}.

Lemma back_path_edges l : back_path l -> forall i, In i l -> is_edge i.
Proof. induction l as [|x l IH]; [intros _ i []|]. intros [H1 [_ H3]] i [<-|Hi]; auto. Qed.
Lemma back_path_chain l : back_path l -> forall l1 i j l2, l = l1 ++ i :: j :: l2 -> lsource g i = ltarget g j.
Proof.
  induction l as [|x l IH]; intros H l1 i j l2 E; [destruct l1; discriminate|]. destruct H as [_ [H2 H3]].
  destruct l1 as [|y l1]; simpl in E; inversion E; subst; [exact H2|]. eapply IH; eauto.
Qed.

Lemma no_cycle_topo o : topo o -> forall a b, In a o -> a <> b -> reach (succs g) a b -> reach (succs g) b a -> False.
Proof.
  intros [N T].
  (* position strictly decreases along non-trivial paths *)
  assert (P : forall a b, reach (succs g) a b -> forall l1 l2, o = l1 ++ a :: l2 -> a = b \/ In b l1).
  { intros a b H. induction H as [v|v w u Hw Hr IH]; intros l1 l2 E; [auto|].
    destruct (Nat.eq_dec w v) as [->|Hne]; [eapply IH; eauto|].
    pose proof (T l1 v l2 E w Hw Hne) as Hin. apply in_split in Hin as [k1 [k2 Ek]].
    destruct (IH k1 (k2 ++ v :: l2)) as [<-|Hin].
    - rewrite E, Ek, <- app_assoc. reflexivity.
    - right. rewrite Ek. apply in_or_app. simpl; auto.
    - right. rewrite Ek. apply in_or_app. auto. }
  intros a b Ha Hne Hab Hba. apply in_split in Ha as [l1 [l2 E]].
  destruct (P a b Hab l1 l2 E) as [X|X]; [congruence|].
  apply in_split in X as [k1 [k2 Ek]].
  destruct (P b a Hba k1 (k2 ++ a :: l2)) as [Y|Y]; [rewrite E, Ek, <- app_assoc; reflexivity|congruence|].
  rewrite E in N. apply NoDup_remove_2 in N. apply N. apply in_or_app. left. rewrite Ek. apply in_or_app. auto.
Qed.

Theorem detect_loop_ok : exists l, detect_loop g = Some l /\
  (l <> [] -> simple_cycle l /\ forall i, In i l -> reach (succs g) entry (lsource g i)) /\
  (l = [] -> 3 < length (lvertices g) -> forall a b, reach (succs g) entry a -> a <> b -> reach (succs g) a b -> reach (succs g) b a -> False).
Proof.
  unfold detect_loop. destruct (Nat.leb_spec (length (lvertices g)) 3) as [Hle|Hgt].
  - exists []. split; [reflexivity|]. split; [congruence|]. intros _ H. lia.
  - assert (S0 : state_ok [] [] []).
    { split; [split; [constructor|intros l1 u l2 E; destruct l1; discriminate]|]. split; [simpl; tauto|]. split; [intros x []|constructor]. }
    destruct (visit_total (S (S (length (lvertices g)))) entry [] [] [] S0) as [[vis lp] E].
    + apply lvertices_spec. left. reflexivity.
    + intros [].
    + unfold unmarked. pose proof (filter_len_le (fun x => negb (smem x [])) (lvertices g)). lia.
    + exists (rev lp). rewrite E. split; [reflexivity|].
      pose proof (visit_ok _ _ _ _ _ _ _ S0 (fun (H : In entry []) => match H with end) E) as R.
      destruct lp as [|l0 ls].
      * split; [simpl; congruence|]. intros _ _ a b Ha Hne Hab Hba.
        destruct R as [nw [[T [V [D Ns]]] Hin]]. simpl in T, V.
        assert (Hao : In a nw).
        { clear - Ha Hin T. assert (G : forall x y, reach (succs g) x y -> In x nw -> In y nw).
          { intros x y H. induction H as [|x w y Hw _ IH]; auto. intros Hx. apply IH.
            destruct (Nat.eq_dec w x) as [->|Hn]; [exact Hx|]. apply in_split in Hx as [l1 [l2 Ex]].
            pose proof (proj2 T l1 x l2 Ex w Hw Hn) as Hw1. rewrite Ex. apply in_or_app. auto. }
          eapply G; eauto. }
        eapply no_cycle_topo; eauto.
      * intros. destruct R as [[P [Nn [NE C]]] Hr]. split; [intros _; split|intros X; simpl in X; destruct (rev ls); discriminate].
        -- destruct C as [[_ [[] _]]|C].
           split.
           ++ intros i Hi. apply in_rev in Hi. eapply back_path_edges; eauto.
           ++ rewrite rev_length. destruct ls as [|x ls]; [|simpl; lia]. simpl in C. congruence.
           ++ intros l1 i j l2 El. symmetry. apply (back_path_chain _ P (rev l2) j i (rev l1)).
              apply (f_equal (@rev nat)) in El. rewrite rev_involutive in El. rewrite El, rev_app_distr. simpl.
              rewrite <- !app_assoc. reflexivity.
           ++ intros d. simpl rev. rewrite last_last.
              assert (Hh : hd d (rev ls ++ [l0]) = last (l0 :: ls) l0).
              { destruct (exists_last (l := l0 :: ls)) as [q [z Ez]]; [discriminate|]. rewrite Ez, last_last.
                change (rev ls ++ [l0]) with (rev (l0 :: ls)). rewrite Ez, rev_app_distr. reflexivity. }
              rewrite Hh. congruence.
           ++ rewrite map_rev. apply NoDup_rev. exact Nn.
        -- intros i Hi. apply in_rev in Hi. apply Hr, Hi.
Qed.
End L.
