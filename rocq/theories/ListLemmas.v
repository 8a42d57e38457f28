(** * Lists. *)
From Coq Require Import List Lia Arith.
Import ListNotations.
Lemma nth_error_Some_lt {A} (l : list A) i x : nth_error l i = Some x -> i < length l.
Proof. intros H. apply nth_error_Some. congruence. Qed.
Lemma Forall2_nth_intro {A B} (P : A -> B -> Prop) l : forall l', length l = length l' ->
  (forall i a b, nth_error l i = Some a -> nth_error l' i = Some b -> P a b) -> Forall2 P l l'.
Proof.
  induction l as [|a l IH]; intros [|b l'] L H; try discriminate; constructor.
  - apply (H 0); reflexivity.
  - apply IH; [injection L; auto|]. intros i x y Hx Hy. apply (H (S i)); assumption.
Qed.
Lemma Forall2_nth_elim {A B} (P : A -> B -> Prop) l l' : Forall2 P l l' -> forall i a b, nth_error l i = Some a -> nth_error l' i = Some b -> P a b.
Proof.
  intros H. induction H; intros [|i] u v Hu Hv; try discriminate; cbn in *.
  - congruence.
  - eauto.
Qed.
Lemma Forall2_nth_l {A B} (P : A -> B -> Prop) l l' : Forall2 P l l' -> forall i a, nth_error l i = Some a -> exists b, nth_error l' i = Some b /\ P a b.
Proof.
  intros H. induction H; intros [|i] u Hu; try discriminate; cbn in *.
  - exists y. split; [reflexivity|congruence].
  - eauto.
Qed.
Lemma Forall2_nth_r {A B} (P : A -> B -> Prop) l l' : Forall2 P l l' -> forall i b, nth_error l' i = Some b -> exists a, nth_error l i = Some a /\ P a b.
Proof.
  intros H. induction H; intros [|i] u Hu; try discriminate; cbn in *.
  - exists x. split; [reflexivity|congruence].
  - eauto.
Qed.
Lemma nth_error_combine {A B} (l : list A) : forall (l' : list B) i a b, nth_error (combine l l') i = Some (a, b) -> nth_error l i = Some a /\ nth_error l' i = Some b.
Proof.
  induction l as [|x l IH]; intros [|y l'] [|i] a b H; try discriminate; cbn in *.
  - injection H as <- <-. auto.
  - eauto.
Qed.
Lemma nth_error_combine_intro {A B} (l : list A) : forall (l' : list B) i a b, nth_error l i = Some a -> nth_error l' i = Some b -> nth_error (combine l l') i = Some (a, b).
Proof. induction l as [|x l IH]; intros [|y l'] [|i] a b H H'; try discriminate; cbn in *; [congruence|eauto]. Qed.
Lemma fst_combine_len {A B} (l : list A) : forall l' : list B, length l = length l' -> map fst (combine l l') = l.
Proof. induction l as [|x l IH]; intros [|y l'] L; try discriminate; cbn; [reflexivity|]. f_equal. apply IH. injection L. auto. Qed.
Lemma snd_combine_len {A B} (l : list A) : forall l' : list B, length l = length l' -> map snd (combine l l') = l'.
Proof. induction l as [|x l IH]; intros [|y l'] L; try discriminate; cbn; [reflexivity|]. f_equal. apply IH. injection L. auto. Qed.
Lemma nth_error_seq s n i : i < n -> nth_error (seq s n) i = Some (s + i).
Proof.
  revert s i. induction n as [|n IH]; intros s [|i] H; try lia; cbn.
  - f_equal. lia.
  - rewrite IH by lia. f_equal. lia.
Qed.
Lemma nth_error_ext {A} (l : list A) : forall l', (forall i, nth_error l i = nth_error l' i) -> l = l'.
Proof.
  induction l as [|x l IH]; intros [|y l'] H; [reflexivity|specialize (H 0); discriminate|specialize (H 0); discriminate|].
  f_equal; [specialize (H 0); cbn in H; congruence|]. apply IH. intros i. exact (H (S i)).
Qed.
