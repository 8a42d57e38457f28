(** * TRL: every run of the system can be replayed in the frames.

    A combinatorial lemma: a concrete run is replayed step by step; whenever a step would violate a blocking clause, the tail of the
    trace is replaced by one step of the learned relation. *)
From Coq Require Import List Arith Lia Bool.
Import ListNotations.
Section Greedy.
Variable St : Type.
(** The i-th relation; relation 0 is the transition relation, the others are transitive. *)
Variable R : nat -> St -> St -> Prop.
Hypothesis R_trans : forall i a b c, 1 <= i -> R i a b -> R i b c -> R i a c.
(** Frame [j] offers the relations below [size j]. *)
Variable size : nat -> nat.
Hypothesis size_pos : forall j, 1 <= size j.
(** Blocking clauses: no step that ends frame [start + len - 1] may satisfy [P] between its start and end. *)
Variable B : Type.
Variable bs : list B.
Variables (bstart blen bidx : B -> nat).
Variable P : B -> St -> St -> Prop.
Hypothesis P_dec : forall b x y, {P b x y} + {~ P b x y}.
Hypothesis P_rel : forall b x y, In b bs -> P b x y -> R (bidx b) x y.
Hypothesis b_idx : forall b, In b bs -> 1 <= bidx b.
Hypothesis b_len : forall b, In b bs -> 1 <= blen b.
(** Frames up to [last] exist; a relation used in a blocking clause is offered by the frame in which the loop starts. *)
Variable last : nat.
Hypothesis b_size : forall b, In b bs -> bstart b <= last -> bidx b < size (bstart b).

Definition unblocked (j : nat) (sg : nat -> St) (id : nat -> nat) : Prop :=
  forall b, In b bs -> bstart b + blen b = S j -> blen b = 1 /\ id (bstart b) <> 0 \/ ~ P b (sg (bstart b)) (sg (S j)).
Record step_ok (j : nat) (sg : nat -> St) (id : nat -> nat) : Prop := {
  so_size : id j < size j;
  so_rel : R (id j) (sg j) (sg (S j));
  so_alt : 1 <= j -> id j = 0 \/ id j <> id (j - 1);
  so_free : unblocked j sg id
}.
Definition trace_ok (k : nat) (sg : nat -> St) (id : nat -> nat) : Prop := forall j, j < k -> step_ok j sg id.

Definition upd {A} (f : nat -> A) (k : nat) (x : A) : nat -> A := fun j => if Nat.eqb j k then x else f j.
Lemma upd_same {A} (f : nat -> A) k x : upd f k x k = x.
Proof. unfold upd. rewrite Nat.eqb_refl. reflexivity. Qed.
Lemma upd_other {A} (f : nat -> A) k x j : j <> k -> upd f k x j = f j.
Proof. unfold upd. destruct (Nat.eqb_spec j k); [contradiction|reflexivity]. Qed.
Lemma trace_ext k sg id sg' id' : (forall j, j <= k -> sg' j = sg j) -> (forall j, j < k -> id' j = id j) -> trace_ok k sg id -> trace_ok k sg' id'.
Proof.
  intros E1 E2 H j Hj. destruct (H j Hj) as [A1 A2 A3 A4]. split.
  - rewrite E2 by lia. exact A1.
  - rewrite E2, !E1 by lia. exact A2.
  - intros Hj'. rewrite !E2 by lia. apply A3, Hj'.
  - intros b Hb Eb. pose proof (b_len b Hb). rewrite !E1, E2 by lia. apply A4; assumption.
Qed.
Lemma trace_less k k' sg id : k' <= k -> trace_ok k sg id -> trace_ok k' sg id.
Proof. intros L H j Hj. apply H. lia. Qed.

Lemma extend_trace : forall n k i, 2 * k + (if Nat.eqb i 0 then 1 else 0) < n -> forall sg id y,
  k <= last -> trace_ok k sg id -> i < size k -> R i (sg k) y ->
  exists k' sg' id', 1 <= k' <= S k /\ trace_ok k' sg' id' /\ sg' 0 = sg 0 /\ sg' k' = y.
Proof.
  induction n as [|n IH]; intros k i Hn sg id y Kl T Hi Hr; [lia|].
  destruct (Nat.eq_dec i 0) as [I0|I0].
  - subst i. cbn [Nat.eqb] in Hn.
    destruct (existsb (fun b => Nat.eqb (bstart b + blen b) (S k) && (if P_dec b (upd sg (S k) y (bstart b)) y then true else false)) bs) eqn:E.
    + apply existsb_exists in E as [b [Hb E]]. apply andb_true_iff in E as [E1 E2]. apply Nat.eqb_eq in E1. pose proof (b_len b Hb) as Lb. pose proof (b_idx b Hb) as Ib.
      rewrite upd_other in E2 by lia. destruct (P_dec b (sg (bstart b)) y) as [Hp|]; [|discriminate].
      destruct (IH (bstart b) (bidx b)) with (sg := sg) (id := id) (y := y) as [k' [sg' [id' [K1 [K2 [K3 K4]]]]]].
      * destruct (Nat.eqb_spec (bidx b) 0); lia.
      * lia.
      * apply (trace_less k); [lia|exact T].
      * apply b_size; [exact Hb|lia].
      * apply P_rel; assumption.
      * exists k', sg', id'. split; [lia|]. auto.
    + exists (S k), (upd sg (S k) y), (upd id k 0). split; [lia|]. split; [|split; [apply upd_other; lia|apply upd_same]].
      intros j Hj. destruct (Nat.eq_dec j k) as [->|Nj].
      * split.
        -- rewrite upd_same. exact Hi.
        -- rewrite !upd_same, upd_other by lia. exact Hr.
        -- intros _. left. apply upd_same.
        -- intros b Hb Eb. right. intros Hp. rewrite upd_same in Hp.
           assert (X : existsb (fun b => Nat.eqb (bstart b + blen b) (S k) && (if P_dec b (upd sg (S k) y (bstart b)) y then true else false)) bs = true).
           { apply existsb_exists. exists b. split; [exact Hb|]. rewrite Eb, Nat.eqb_refl. cbn [andb]. destruct (P_dec b (upd sg (S k) y (bstart b)) y); [reflexivity|contradiction]. }
           congruence.
      * apply (trace_ext k sg id); [intros; apply upd_other; lia|intros; apply upd_other; lia|exact T|lia].
  - assert (Z : Nat.eqb i 0 = false) by (apply Nat.eqb_neq; exact I0). rewrite Z in Hn.
    destruct (Nat.eq_dec k 0) as [K0|K0]; [|destruct (Nat.eq_dec (id (k - 1)) i) as [Ei|Ni]].
    + (* the same as below, without a previous step *)
      subst k. destruct (existsb (fun b => Nat.eqb (bstart b + blen b) 1 && Nat.ltb 1 (blen b)) bs) eqn:E.
      { apply existsb_exists in E as [b [Hb E]]. apply andb_true_iff in E as [E1 E2]. apply Nat.eqb_eq in E1. apply Nat.ltb_lt in E2. lia. }
      exists 1, (upd sg 1 y), (upd id 0 i). split; [lia|]. split; [|split; [apply upd_other; lia|apply upd_same]]. intros j Hj. assert (j = 0) by lia. subst j. split.
      * rewrite upd_same. exact Hi.
      * rewrite !upd_same, upd_other by lia. exact Hr.
      * lia.
      * intros b Hb Eb. pose proof (b_len b Hb). left. assert (bstart b = 0) by lia. split; [lia|]. rewrite H0, upd_same. exact I0.
    + destruct (T (k - 1)) as [A1 A2 A3 A4]; [lia|]. rewrite Ei in A1, A2. replace (S (k - 1)) with k in A2 by lia.
      destruct (IH (k - 1) i) with (sg := sg) (id := id) (y := y) as [k' [sg' [id' [K1 [K2 [K3 K4]]]]]].
      * rewrite Z. lia.
      * lia.
      * apply (trace_less k); [lia|exact T].
      * exact A1.
      * apply (R_trans i _ (sg k)); [lia|exact A2|exact Hr].
      * exists k', sg', id'. split; [lia|]. auto.
    + destruct (existsb (fun b => Nat.eqb (bstart b + blen b) (S k) && Nat.ltb 1 (blen b) && (if P_dec b (upd sg (S k) y (bstart b)) y then true else false)) bs) eqn:E.
      * apply existsb_exists in E as [b [Hb E]]. rewrite !andb_true_iff in E. destruct E as [[E1 El] E2]. apply Nat.eqb_eq in E1. apply Nat.ltb_lt in El. pose proof (b_idx b Hb) as Ib.
        rewrite upd_other in E2 by lia. destruct (P_dec b (sg (bstart b)) y) as [Hp|]; [|discriminate].
        destruct (IH (bstart b) (bidx b)) with (sg := sg) (id := id) (y := y) as [k' [sg' [id' [K1 [K2 [K3 K4]]]]]].
        -- destruct (Nat.eqb_spec (bidx b) 0); lia.
        -- lia.
        -- apply (trace_less k); [lia|exact T].
        -- apply b_size; [exact Hb|lia].
        -- apply P_rel; assumption.
        -- exists k', sg', id'. split; [lia|]. auto.
      * exists (S k), (upd sg (S k) y), (upd id k i). split; [lia|]. split; [|split; [apply upd_other; lia|apply upd_same]].
        intros j Hj. destruct (Nat.eq_dec j k) as [->|Nj].
        -- split.
           ++ rewrite upd_same. exact Hi.
           ++ rewrite !upd_same, upd_other by lia. exact Hr.
           ++ intros _. right. rewrite upd_same, upd_other by lia. congruence.
           ++ intros b Hb Eb. pose proof (b_len b Hb) as Lb. destruct (Nat.eq_dec (blen b) 1) as [L1|L1].
              ** left. split; [exact L1|]. assert (Es : bstart b = k) by lia. rewrite Es, upd_same. exact I0.
              ** right. intros Hp. rewrite upd_same in Hp.
                 assert (X : existsb (fun b => Nat.eqb (bstart b + blen b) (S k) && Nat.ltb 1 (blen b) && (if P_dec b (upd sg (S k) y (bstart b)) y then true else false)) bs = true).
                 { apply existsb_exists. exists b. split; [exact Hb|]. rewrite Eb, Nat.eqb_refl. cbn [andb]. assert (L : Nat.ltb 1 (blen b) = true) by (apply Nat.ltb_lt; lia). rewrite L. cbn [andb].
                   destruct (P_dec b (upd sg (S k) y (bstart b)) y); [reflexivity|contradiction]. }
                 congruence.
        -- apply (trace_ext k sg id); [intros; apply upd_other; lia|intros; apply upd_other; lia|exact T|lia].
Qed.

(** Runs of relation 0. *)
Inductive run : St -> St -> Prop :=
| run_refl s : run s s
| run_step s t u : run s t -> R 0 t u -> run s u.
Lemma replay (I : St -> Prop) : (forall sg id, I (sg 0) -> trace_ok (S last) sg id -> False) ->
  forall s t, I s -> run s t -> exists k sg id, k <= last /\ trace_ok k sg id /\ sg 0 = s /\ sg k = t.
Proof.
  intros Ex s t Hs Hr. induction Hr as [s|s t u Hr IH Hu].
  - exists 0, (fun _ => s), (fun _ => 0). split; [lia|]. split; [intros j Hj; lia|auto].
  - destruct (IH Hs) as [k [sg [id [Kl [T [E0 Ek]]]]]].
    destruct (extend_trace (S (2 * k + 1)) k 0) with (sg := sg) (id := id) (y := u) as [k' [sg' [id' [K1 [K2 [K3 K4]]]]]].
    + cbn [Nat.eqb]. lia.
    + exact Kl.
    + exact T.
    + apply size_pos.
    + rewrite Ek. exact Hu.
    + exists k', sg', id'. split; [|split; [exact K2|split; [congruence|exact K4]]]. destruct (Nat.eq_dec k' (S last)) as [->|]; [|lia]. exfalso. apply (Ex sg' id'); [rewrite K3, E0; exact Hs|exact K2].
Qed.
End Greedy.
