(** * Numbers are read back as they were written. *)
From Coq Require Import DecimalString Decimal DecimalPos.
From Verif Require Import Names AletheModel.
Open Scope string_scope.
Open Scope list_scope.
Open Scope nat_scope.

Fixpoint sall (p : ascii -> bool) (s : string) : bool := match s with EmptyString => true | String c r => (p c && sall p r)%bool end.
Lemma sall_app p a b : sall p (a ++ b)%string = (sall p a && sall p b)%bool.
Proof. induction a; cbn; [reflexivity|]. rewrite IHa. apply andb_assoc. Qed.
Lemma uint_digits d : sall digit (NilEmpty.string_of_uint d) = true.
Proof. induction d; cbn; auto. Qed.
Lemma read_uint_acc d acc : read_digits (Zpos acc) (NilEmpty.string_of_uint d) = Some (Zpos (Pos.of_uint_acc d acc)).
Proof.
  revert acc. induction d; intros acc; cbn [NilEmpty.string_of_uint read_digits Pos.of_uint_acc]; [reflexivity|..];
    rewrite <- IHd; (match goal with |- context [digit ?c] => change (digit c) with true end); cbv iota; f_equal; (match goal with |- context [Z.of_nat ?x] => let v := eval compute in (Z.of_nat x) in change (Z.of_nat x) with v end); lia.
Qed.
Lemma read_uint d : read_digits 0 (NilEmpty.string_of_uint d) = Some (Z.of_N (Pos.of_uint d)).
Proof.
  induction d; cbn [NilEmpty.string_of_uint read_digits Pos.of_uint]; [reflexivity|apply IHd|..];
    (match goal with |- context [digit ?c] => change (digit c) with true end); cbv iota;
    (match goal with |- read_digits ?x _ = _ => let v := eval compute in x in change x with v end); rewrite read_uint_acc; reflexivity.
Qed.
Lemma to_string_pos p : to_string (Zpos p) = NilEmpty.string_of_uint (Pos.to_uint p) /\ to_string (Zpos p) <> "".
Proof.
  unfold to_string. cbn. pose proof (Unsigned.to_uint_nonnil p). unfold NilZero.string_of_uint. destruct (Pos.to_uint p); cbn; split; try reflexivity; try discriminate; congruence.
Qed.
Lemma read_nat_pos p : read_nat (to_string (Zpos p)) = Some (Zpos p).
Proof.
  destruct (to_string_pos p) as [E N]. unfold read_nat. destruct (to_string (Z.pos p)) eqn:E'; [congruence|]. rewrite <- E', E', E, read_uint, Unsigned.of_to. reflexivity.
Qed.
Lemma read_nat_z z : (0 <= z)%Z -> read_nat (to_string z) = Some z.
Proof. destruct z; intros H; [reflexivity|apply read_nat_pos|lia]. Qed.
Lemma to_string_digits z : (0 <= z)%Z -> sall digit (to_string z) = true.
Proof. destruct z; intros H; [reflexivity| |lia]. destruct (to_string_pos p) as [-> _]. apply uint_digits. Qed.
Lemma to_string_head z : (0 <= z)%Z -> exists c s, to_string z = String c s /\ digit c = true.
Proof.
  intros H. pose proof (to_string_digits z H) as D. pose proof (read_nat_z z H) as R. destruct (to_string z) as [|c s]; [discriminate|].
  cbn in D. apply andb_prop in D as [D _]. eauto.
Qed.
Lemma split_at_none c s : sall digit s = true -> digit c = false -> split_at c s = None.
Proof.
  induction s as [|x s IH]; cbn; [reflexivity|]. intros H Hc. apply andb_prop in H as [Hx Hs]. destruct (Ascii.eqb_spec x c); [congruence|]. rewrite IH; auto.
Qed.
Lemma split_at_app c a b : sall digit a = true -> digit c = false -> split_at c (a ++ String c b)%string = Some (a, b).
Proof.
  induction a as [|x a IH]; cbn; [rewrite Ascii.eqb_refl; reflexivity|]. intros H Hc. apply andb_prop in H as [Hx Hs]. destruct (Ascii.eqb_spec x c); [congruence|]. rewrite IH; auto.
Qed.
Lemma read_digits_app a b acc x : read_digits acc a = Some x -> read_digits acc (a ++ b)%string = read_digits x b.
Proof. revert acc. induction a as [|c a IH]; cbn; intros acc; [congruence|]. destruct (digit c); [apply IH|discriminate]. Qed.
Lemma Q2Qc_this (q : Qc) : Q2Qc (Qnum q # Qden q) = q.
Proof. apply Qc_is_canon. cbn [this Q2Qc]. rewrite Qred_correct. destruct q as [[n d] H]. reflexivity. Qed.

Lemma no_split_dot s c : sall (fun x => negb (Ascii.eqb x c)) s = true -> split_at c s = None.
Proof. induction s as [|x s IH]; cbn; [reflexivity|]. intros H. apply andb_prop in H as [Hx Hs]. destruct (Ascii.eqb x c); [discriminate|]. rewrite IH; auto. Qed.

Lemma str_app_nil a : (a ++ "")%string = a.
Proof. induction a; cbn; congruence. Qed.
Lemma str_app_assoc a b c : ((a ++ b) ++ c)%string = (a ++ b ++ c)%string.
Proof. induction a; cbn; congruence. Qed.
Lemma read_positive_str (q : Qc) k : (0 <= Qnum q)%Z -> read_positive (positive_str q k) = Some q.
Proof.
  intros H. unfold positive_str, get_str. destruct (is_int q) eqn:EI.
  - unfold is_int in EI. apply Pos.eqb_eq in EI.
    destruct (is_real k); cbn [andb].
    + unfold read_positive. rewrite no_split_dot.
      2:{ rewrite sall_app. cbn. rewrite andb_true_r. pose proof (to_string_digits _ H) as D. induction (to_string (Qnum q)) as [|c s IH]; [reflexivity|].
          cbn in D |- *. apply andb_prop in D as [Dc Ds]. rewrite IH by assumption. destruct (Ascii.eqb_spec c "/"%char); [subst; discriminate|reflexivity]. }
      change (to_string (Qnum q) ++ ".0")%string with (to_string (Qnum q) ++ String dot "0")%string.
      rewrite split_at_app by (auto using to_string_digits). rewrite read_nat_z by assumption. change (read_nat "0") with (Some 0%Z). cbv iota.
      destruct (to_string_head _ H) as (c & s & E & _).
      assert (R : read_nat (to_string (Qnum q) ++ "0")%string = Some (10 * Qnum q)%Z).
      { pose proof (read_nat_z _ H) as R. rewrite E in R |- *. unfold read_nat in R |- *. cbn [append]. 
        change (String c (s ++ "0")%string) with (String c s ++ "0")%string. rewrite (read_digits_app _ _ _ _ R). cbn [read_digits]. change (digit "0") with true. cbv iota. f_equal. change (Z.of_nat (nat_of_ascii "0" - 48)) with 0%Z. lia. }
      rewrite R. f_equal. rewrite <- (Q2Qc_this q) at 2. apply Qc_is_canon. cbn [this Q2Qc]. rewrite !Qred_correct. unfold Qeq. cbn [Qnum Qden String.length Nat.pow]. rewrite EI. change (Pos.of_nat (10 * 1)) with 10%positive. lia.
    + rewrite str_app_nil. unfold read_positive. rewrite !split_at_none by (auto using to_string_digits). rewrite read_nat_z by assumption. f_equal. rewrite <- (Q2Qc_this q) at 2. rewrite EI. reflexivity.
  - rewrite andb_false_r. rewrite str_app_nil. change ("/" ++ to_string (Z.pos (Qden q)))%string with (String "/" (to_string (Z.pos (Qden q)))).
    unfold read_positive. rewrite split_at_app by (auto using to_string_digits). rewrite read_nat_z by assumption. rewrite read_nat_pos. rewrite Q2Qc_this. reflexivity.
Qed.
Lemma positive_str_head (q : Qc) k : (0 <= Qnum q)%Z -> exists c s, positive_str q k = String c s /\ digit c = true.
Proof.
  intros H. unfold positive_str, get_str. destruct (to_string_head _ H) as (c & s & E & D). rewrite E. destruct (is_int q); cbn; eauto.
Qed.
Lemma drop_last_app s c : drop_last (s ++ String c "")%string = s.
Proof. induction s as [|x s IH]; cbn; [reflexivity|]. rewrite IH. destruct s; reflexivity. Qed.
Lemma Qc_opp_num (q : Qc) : Qnum (- q)%Qc = (- Qnum q)%Z.
Proof.
  destruct q as [q H]. change (Qnum (Qred (- q)) = - Qnum q)%Z. rewrite Qred_opp, H. destruct q; reflexivity.
Qed.
Theorem read_number_str q k : read_number (number_str q k) = Some q.
Proof.
  unfold number_str. destruct (Z.ltb_spec (Qnum q) 0).
  - cbn [append read_number]. rewrite drop_last_app. rewrite read_positive_str by (rewrite Qc_opp_num; lia). f_equal. apply Qcopp_involutive.
  - destruct (positive_str_head q k) as (c & s & E & D); [lia|]. rewrite <- (read_positive_str q k) by lia. rewrite E. unfold read_number.
    destruct c as [[|] [|] [|] [|] [|] [|] [|] [|]]; try discriminate D; reflexivity.
Qed.
Lemma number_str_inj k a b : number_str a k = number_str b k -> a = b.
Proof. intros E. apply (f_equal read_number) in E. rewrite !read_number_str in E. congruence. Qed.
Lemma number_str_not_bool q k : number_str q k <> "true" /\ number_str q k <> "false".
Proof. split; intros E; apply (f_equal read_number) in E; rewrite read_number_str in E; discriminate E. Qed.
