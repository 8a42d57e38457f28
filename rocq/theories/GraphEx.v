(** * Checking well-formedness of concrete graphs (for the examples). *)
From Verif Require Import Syntax Solver Graph GraphOps GraphOpsProofs Names GraphSem.
Open Scope nat_scope.

Fixpoint pv_of (l : list (sym * list var)) (p : sym) : list var :=
  match l with [] => [] | (q, vs) :: l' => if Nat.eqb q p then vs else pv_of l' p end.
Fixpoint nodupb {A} (eqb : A -> A -> bool) (l : list A) : bool :=
  match l with [] => true | x :: l' => negb (existsb (eqb x) l') && nodupb eqb l' end.
Lemma nodupb_ok {A} (eqb : A -> A -> bool) l : (forall a b, reflect (a = b) (eqb a b)) -> nodupb eqb l = true -> NoDup l.
Proof.
  intros E. induction l as [|x l IH]; intros H; [constructor|]. cbn [nodupb] in H. apply andb_true_iff in H as [H1 H2].
  constructor; [|auto]. intros Hin. apply negb_true_iff in H1. assert (existsb (eqb x) l = true).
  { apply existsb_exists. exists x. split; [exact Hin|]. destruct (E x x); congruence. } congruence.
Qed.

Definition rep_checkb (l : list (sym * list var)) : bool :=
  forallb (fun x => negb (Nat.leb (fst x) 1)) l &&
  forallb (fun v => tag_eqb (vtag v) TBase) (concat (map snd l)) && nodupb var_eqb (concat (map snd l)).
Lemma pv_of_in l p v : In v (pv_of l p) -> In v (concat (map snd l)).
Proof.
  induction l as [|[q vs] l IH]; cbn; [auto|]. rewrite in_app_iff. destruct (Nat.eqb q p); auto.
Qed.
Lemma pv_of_nodup l p : NoDup (concat (map snd l)) -> NoDup (pv_of l p).
Proof.
  induction l as [|[q vs] l IH]; cbn; [constructor|]. intros N.
  destruct (Nat.eqb q p).
  - clear - N. induction vs as [|x vs IH]; [constructor|]. cbn in N. inversion N as [|? ? Hn N']; subst. constructor; [|auto].
    intros H. apply Hn. apply in_app_iff. auto.
  - apply IH. clear - N. induction vs as [|x vs IH]; [exact N|]. cbn in N. inversion N; subst. auto.
Qed.
Lemma pv_of_disj l p q v : NoDup (concat (map snd l)) -> In v (pv_of l p) -> In v (pv_of l q) -> p = q.
Proof.
  induction l as [|[x vs] l IH]; cbn; [intros _ []|]. intros N.
  assert (D : forall u, In u vs -> In u (concat (map snd l)) -> False).
  { clear - N. induction vs as [|y vs IH]; [intros ? []|]. cbn in N. inversion N as [|? ? Hn N']; subst. intros u [<-|Hu] H.
    - apply Hn. apply in_app_iff. auto.
    - eapply IH; eauto. }
  assert (N' : NoDup (concat (map snd l))).
  { clear - N. induction vs as [|y vs IH]; [exact N|]. cbn in N. inversion N; subst. auto. }
  destruct (Nat.eqb_spec x p) as [E1|H1], (Nat.eqb_spec x q) as [E2|H2]; auto.
  - congruence.
  - intros A B. destruct (D v A). eapply pv_of_in; eauto.
  - intros A B. destruct (D v B). eapply pv_of_in; eauto.
Qed.
Lemma rep_check_ok l : rep_checkb l = true -> rep_wf (pv_of l).
Proof.
  unfold rep_checkb. rewrite !andb_true_iff. intros [[H1 H2] H3].
  assert (Z : forall p, p <= 1 -> pv_of l p = []).
  { intros p Hp. clear H2 H3. induction l as [|[q vs] l IH]; [reflexivity|]. cbn in H1. apply andb_true_iff in H1 as [H1 H1']. cbn.
    destruct (Nat.eqb_spec q p) as [->|]; [|auto]. destruct p as [|[|p]]; cbn in H1; try discriminate; lia. }
  apply (nodupb_ok var_eqb _ var_eqb_spec) in H3. rewrite forallb_forall in H2. split.
  - apply Z. unfold entry. lia.
  - apply Z. unfold exit. lia.
  - intros p v Hv. apply pv_of_in in Hv. specialize (H2 v Hv). destruct (tag_eqb_spec (vtag v) TBase); congruence.
  - intros p. apply pv_of_nodup, H3.
  - intros p q v. apply pv_of_disj, H3.
Qed.

Definition is_time (v : var) : bool := match vtag v with TTime _ => true | _ => false end.
Definition aux_name (v : var) : bool := prefix "gaux#" (vbase v) || prefix "aux#g#" (vbase v).
Definition edge_checkb (g : hgraph) (e : hedge) : bool :=
  negb (Nat.eqb (length (efrom e)) 0) && Nat.ltb no_id (eid e) && Nat.ltb (eid e) (gfree g) &&
  forallb (fun v => (inb v (own_vars g e) || is_time v) && negb (aux_name v)) (vars (efla e)) &&
  negb (Nat.eqb (eto e) entry) && negb (existsb (Nat.eqb exit) (efrom e)).
Definition priv_checkb (g : hgraph) (e1 e2 : hedge) : bool :=
  Nat.eqb (eid e1) (eid e2) ||
  forallb (fun v => negb (inb v (vars (efla e2))) || (inb v (own_vars g e1) && inb v (own_vars g e2))) (vars (efla e1)).
Definition graph_checkb (g : hgraph) : bool :=
  nodupb Nat.eqb (map eid (gedges g)) && forallb (edge_checkb g) (gedges g) &&
  forallb (fun e1 => forallb (priv_checkb g e1) (gedges g)) (gedges g).

Lemma prefix_app a b : prefix a (a ++ b) = true.
Proof. induction a as [|c a IH]; [destruct b; reflexivity|]. cbn. destruct (Ascii.ascii_dec c c); [exact IH|congruence]. Qed.
Lemma aux_name_gaux k s : aux_name (gaux k s) = true.
Proof. unfold aux_name, gaux. cbn [vbase]. rewrite prefix_app. reflexivity. Qed.
Lemma aux_name_auxg k s : aux_name (auxg k s) = true.
Proof. unfold aux_name, auxg. cbn [vbase]. rewrite (prefix_app "aux#g#"). apply orb_true_r. Qed.

Theorem graph_check_ok l es fr ctr : rep_checkb l = true -> graph_checkb (mkGraph es (pv_of l) fr ctr) = true ->
  wf_graph (mkGraph es (pv_of l) fr ctr).
Proof.
  intros R H. set (g := mkGraph es (pv_of l) fr ctr) in *. unfold graph_checkb in H. rewrite !andb_true_iff in H. destruct H as [[H1 H2] H3].
  rewrite forallb_forall in H2, H3.
  assert (HE : forall e, In e (gedges g) -> efrom e <> [] /\ (no_id < eid e /\ eid e < gfree g) /\
    (forall v, In v (vars (efla e)) -> (In v (own_vars g e) \/ is_time v = true) /\ aux_name v = false) /\ eto e <> entry /\ ~ In exit (efrom e)).
  { intros e He. specialize (H2 e He). unfold edge_checkb in H2. rewrite !andb_true_iff in H2. destruct H2 as [[[[[A B] C] D] E] F].
    apply negb_true_iff, Nat.eqb_neq in A. apply Nat.ltb_lt in B. apply Nat.ltb_lt in C. rewrite forallb_forall in D.
    apply negb_true_iff, Nat.eqb_neq in E. split; [destruct (efrom e); [cbn in A; congruence|discriminate]|]. split; [auto|]. split; [|split; [exact E|]].
    - intros v Hv. specialize (D v Hv). apply andb_true_iff in D as [D1 D2]. apply negb_true_iff in D2. split; [|exact D2].
      apply orb_true_iff in D1 as [D1|D1]; [left; apply inb_true, D1|auto].
    - intros X. apply negb_true_iff in F. assert (existsb (Nat.eqb exit) (efrom e) = true).
      { apply existsb_exists. exists exit. split; [exact X|apply Nat.eqb_refl]. } congruence. }
  split.
  - apply rep_check_ok, R.
  - intros e He. apply (HE e He).
  - apply (nodupb_ok Nat.eqb _ Nat.eqb_spec), H1.
  - intros e He. apply (HE e He).
  - intros e v He Hv Ho p _ [b [_ X]]. destruct (HE e He) as [_ [_ [D _]]]. destruct (D v Hv) as [[D1|D1] _]; [auto|].
    destruct X as [[i ->]| ->]; discriminate D1.
  - intros e1 e2 v He1 He2 N V1 V2. specialize (H3 e1 He1). rewrite forallb_forall in H3. specialize (H3 e2 He2). unfold priv_checkb in H3.
    apply orb_true_iff in H3 as [X|X]; [apply Nat.eqb_eq in X; congruence|]. rewrite forallb_forall in X. specialize (X v V1).
    apply orb_true_iff in X as [X|X]; [apply negb_true_iff, inb_false in X; tauto|].
    apply andb_true_iff in X as [A B]. split; apply inb_true; assumption.
  - intros e v He Hv. destruct (HE e He) as [_ [_ [D _]]]. destruct (D v Hv) as [_ D2]. split.
    + intros k s _ ->. rewrite aux_name_gaux in D2. discriminate.
    + intros k s ->. rewrite aux_name_auxg in D2. discriminate.
  - intros e He. apply (HE e He).
  - intros e He. apply (HE e He).
Qed.
