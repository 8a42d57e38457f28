(** * Variable names: the string encoding of tags and versions
    (src/TermUtils.h:190-380, src/TermUtils.cc:757-787). *)
From Coq Require Import DecimalString DecimalZ Decimal.
From Verif Require Import Syntax Solver TransSys.
Open Scope string_scope.

(** [std::string::rfind] for a separator of two equal characters: the position of the last
    occurrence. *)
Definition starts (c : ascii) (s : string) : bool :=
  match s with String a _ => Ascii.eqb a c | _ => false end.
Fixpoint rfind2 (c : ascii) (s : string) : option nat :=
  match s with
  | "" => None
  | String a s' =>
    match rfind2 c s' with
    | Some n => Some (S n)
    | None => if (Ascii.eqb a c && starts c s')%bool then Some 0%nat else None
    end
  end.
Definition hash : ascii := "#".
Definition under : ascii := "_".

(** [erase(pos)] keeps the prefix, [substr(pos)] the suffix. *)
Fixpoint prefix_n (n : nat) (s : string) : string :=
  match n, s with S n', String a s' => String a (prefix_n n' s') | _, _ => "" end.
Fixpoint suffix_n (n : nat) (s : string) : string :=
  match n, s with S n', String _ s' => suffix_n n' s' | _, _ => s end.

(** [std::to_string(int)]. *)
Definition to_string (n : Z) : string := NilZero.string_of_int (Z.to_int n).

Definition int_range (z : Z) : bool := (Z.leb (-2147483648) z && Z.leb z 2147483647)%bool.

Definition is_digit (a : ascii) : bool :=
  let n := nat_of_ascii a in (Nat.leb 48 n && Nat.leb n 57)%bool.
Fixpoint digits (s : string) : string :=
  match s with String a s' => if is_digit a then String a (digits s') else "" | _ => "" end.

(** [std::stoi]: an optional minus sign and the longest prefix of digits; throws (None) if there is
    none or the number is not an [int].  Leading white space and a plus sign, which [stoi] also
    accepts, do not occur in names golem builds and are not modelled. *)
Definition stoi (s : string) : option Z :=
  let (neg, ds) := match s with
                   | String a s' => if Ascii.eqb a "-" then (true, digits s') else (false, digits s)
                   | _ => (false, "")
                   end in
  match NilEmpty.uint_of_string ds with
  | Some Nil | None => None
  | Some u => let z := Z.of_int (if neg then Neg u else Pos u) in
              if int_range z then Some z else None
  end.

(** ** TimeMachine (src/TermUtils.h:191-302) *)
(** [getVarVersionZero] (src/TermUtils.h:235-252). *)
Definition version_zero (name : string) : string := name ++ "##" ++ to_string 0.

(** [isVersionedName] (src/TermUtils.h:290-293). *)
Definition is_versioned (name : string) : bool :=
  match rfind2 hash name with Some _ => true | None => false end.

(** [getUnversionedName] (src/TermUtils.h:264-271) and [getVersionNumber] (lines 273-282). *)
Definition unversioned (name : string) : option string :=
  match rfind2 hash name with Some p => Some (prefix_n p name) | None => None end.
Definition version_number (name : string) : option Z :=
  match rfind2 hash name with Some p => stoi (suffix_n (p + 2) name) | None => None end.

(** [sendVarThroughTime] (src/TermUtils.h:222-233).  Signed overflow of [version + steps] is
    undefined behaviour in C++: None here. *)
Definition send_var (name : string) (steps : Z) : option string :=
  match rfind2 hash name with
  | None => None
  | Some p =>
    match stoi (suffix_n (p + 2) name) with
    | None => None
    | Some v => if int_range (v + steps)
                then Some (prefix_n (p + 2) name ++ to_string (v + steps)) else None
    end
  end.

(** ** VersionManager (src/TermUtils.h:304-394, src/TermUtils.cc:757-767) *)
Definition to_source (name : string) (instance : nat) : string :=
  name ++ "__" ++ "s" ++ "##" ++ to_string (Z.of_nat instance).
Definition to_target (name : string) : string := name ++ "__" ++ "t".
Definition ensure_no_version (name : string) : string :=
  match rfind2 hash name with Some p => prefix_n p name | None => name end.
Definition remove_tag (name : string) : option string :=
  match rfind2 under name with Some p => Some (prefix_n p name) | None => None end.
Definition to_base (name : string) : option string := remove_tag (ensure_no_version name).

(** The name of a structured variable (see Syntax.v). *)
Definition encode (v : var) : string :=
  match vtag v with
  | TBase => vbase v
  | TTime n => vbase v ++ "##" ++ to_string n
  | TSrc i => to_source (vbase v) i
  | TTgt => to_target (vbase v)
  end.

(** Names golem gives to the variables it versions: [x#<n>] (src/Normalizer.h:49), [aux#<n>]
    (src/Normalizer.cc:63), [gaux#<n>] (src/graph/ChcGraph.cc:313), ...: no "##", no "__". *)
Definition plain (s : string) : bool :=
  match rfind2 hash s, rfind2 under s with None, None => true | _, _ => false end.

(** * Proofs *)
Lemma append_assoc a b c : (a ++ b) ++ c = a ++ (b ++ c).
Proof. induction a; simpl; congruence. Qed.

Lemma rfind2_none_tail c a s : rfind2 c (String a s) = None -> rfind2 c s = None.
Proof. simpl. destruct (rfind2 c s); congruence. Qed.

Lemma rfind2_sep c p q :
  rfind2 c (String c q) = None -> rfind2 c (p ++ String c (String c q)) = Some (String.length p).
Proof.
  intros H. induction p as [|a p IH].
  - cbn [append]. simpl in H |- *. destruct (rfind2 c q) eqn:E; [discriminate|].
    rewrite Ascii.eqb_refl in *. simpl in *. destruct (starts c q); [discriminate|reflexivity].
  - change (String a p ++ String c (String c q)) with (String a (p ++ String c (String c q))).
    cbn [rfind2]. rewrite IH. reflexivity.
Qed.

(** Characters of printed numbers *)
Definition num_char (a : ascii) : bool := (is_digit a || Ascii.eqb a "-")%bool.
Fixpoint all_chars (f : ascii -> bool) (s : string) : bool :=
  match s with "" => true | String a s' => (f a && all_chars f s')%bool end.

Lemma uint_digits u : all_chars is_digit (NilEmpty.string_of_uint u) = true.
Proof. induction u; simpl; auto. Qed.

Lemma digits_all s : all_chars is_digit s = true -> digits s = s.
Proof.
  induction s as [|a s IH]; simpl; [reflexivity|]. intros H. apply andb_true_iff in H as [H1 H2].
  rewrite H1, IH; auto.
Qed.

Lemma to_string_chars n : all_chars num_char (to_string n) = true.
Proof.
  unfold to_string.
  assert (G : forall u, all_chars num_char (NilEmpty.string_of_uint u) = true).
  { induction u; simpl; auto. }
  destruct (Z.to_int n) as [u|u]; simpl.
  - unfold NilZero.string_of_uint. destruct u; try apply G. reflexivity.
  - unfold NilZero.string_of_uint. destruct u; try apply G. reflexivity.
Qed.

Lemma rfind2_num c s : all_chars num_char s = true -> num_char c = false -> rfind2 c s = None.
Proof.
  intros H Hc. induction s as [|a s IH]; simpl; [reflexivity|].
  simpl in H. apply andb_true_iff in H as [H1 H2]. rewrite IH by exact H2.
  destruct (Ascii.eqb_spec a c); [subst; congruence|reflexivity].
Qed.
Lemma starts_num c s : all_chars num_char s = true -> num_char c = false -> starts c s = false.
Proof.
  intros H Hc. destruct s as [|a s]; simpl; [reflexivity|].
  simpl in H. apply andb_true_iff in H as [H1 H2].
  destruct (Ascii.eqb_spec a c); [subst; congruence|reflexivity].
Qed.

Lemma hash_num n : rfind2 hash (String hash (to_string n)) = None.
Proof.
  simpl. rewrite rfind2_num by (auto using to_string_chars).
  rewrite starts_num by (auto using to_string_chars). reflexivity.
Qed.

Lemma rfind_versioned p n : rfind2 hash (p ++ "##" ++ to_string n) = Some (String.length p).
Proof. apply rfind2_sep, hash_num. Qed.

Lemma prefix_app p q : prefix_n (String.length p) (p ++ q) = p.
Proof. induction p as [|a p IH]; simpl; [destruct q; reflexivity|]. rewrite IH. reflexivity. Qed.
Lemma suffix_app p q k : suffix_n (String.length p + k) (p ++ q) = suffix_n k q.
Proof. induction p as [|a p IH]; simpl; auto. Qed.
Lemma prefix_app2 p q k : prefix_n (String.length p + k) (p ++ q) = p ++ prefix_n k q.
Proof. induction p as [|a p IH]; simpl; auto. rewrite IH. reflexivity. Qed.

Lemma to_int_nz n : Z.to_int n <> Pos Nil /\ Z.to_int n <> Neg Nil.
Proof.
  split; intros H; pose proof (DecimalZ.of_to n) as E; rewrite H in E; simpl in E; subst n; discriminate H.
Qed.

Lemma stoi_to_string n : int_range n = true -> stoi (to_string n) = Some n.
Proof.
  intros R. unfold stoi, to_string.
  pose proof (DecimalZ.of_to n) as E. pose proof (to_int_nz n) as [N1 N2].
  assert (U : forall u, u <> Nil -> NilEmpty.uint_of_string (digits (NilEmpty.string_of_uint u)) = Some u).
  { intros u _. rewrite digits_all by apply uint_digits. apply NilEmpty.usu. }
  assert (Fin : forall neg u, u <> Nil -> Z.of_int (if neg : bool then Neg u else Pos u) = n ->
     match Some u with
     | Some Nil | None => None
     | Some u => let z := Z.of_int (if neg then Neg u else Pos u) in if int_range z then Some z else None
     end = Some n).
  { intros neg u Nu Ez. destruct u; try congruence; cbv zeta; rewrite Ez, R; reflexivity. }
  destruct (Z.to_int n) as [u|u] eqn:Ei; cbn [NilZero.string_of_int].
  - assert (Nu : u <> Nil) by congruence.
    assert (Es : NilZero.string_of_uint u = NilEmpty.string_of_uint u) by (destruct u; try reflexivity; congruence).
    rewrite Es. specialize (U u Nu).
    destruct (NilEmpty.string_of_uint u) as [|a s] eqn:Eu; [destruct u; simpl in Eu; try discriminate; congruence|].
    assert (Ascii.eqb a "-" = false).
    { destruct u; simpl in Eu; try congruence; inversion Eu; subst; reflexivity. }
    rewrite H, U. apply (Fin false u Nu E).
  - assert (Nu : u <> Nil) by congruence.
    assert (Es : NilZero.string_of_uint u = NilEmpty.string_of_uint u) by (destruct u; try reflexivity; congruence).
    rewrite Es. rewrite Ascii.eqb_refl. cbv iota beta. rewrite U by exact Nu. apply (Fin true u Nu E).
Qed.

Lemma to_string_inj n m : to_string n = to_string m -> n = m.
Proof.
  unfold to_string. intros H. pose proof (to_int_nz n) as [N1 N2]. pose proof (to_int_nz m) as [M1 M2].
  apply DecimalZ.to_int_inj.
  assert (E : Some (Z.to_int n) = Some (Z.to_int m)) by (rewrite <- !NilZero.isi, H; auto).
  congruence.
Qed.

Lemma version_parts b n :
  unversioned (b ++ "##" ++ to_string n) = Some b /\
  (int_range n = true -> version_number (b ++ "##" ++ to_string n) = Some n).
Proof.
  unfold unversioned, version_number. rewrite rfind_versioned. split.
  - rewrite prefix_app. reflexivity.
  - intros R. rewrite suffix_app. simpl. apply stoi_to_string, R.
Qed.

Lemma send_var_versioned b n k : int_range n = true -> int_range (n + k) = true ->
  send_var (b ++ "##" ++ to_string n) k = Some (b ++ "##" ++ to_string (n + k)).
Proof.
  intros R R'. unfold send_var. rewrite rfind_versioned, suffix_app. 
  change (suffix_n 2 ("##" ++ to_string n)) with (to_string n). rewrite (stoi_to_string _ R), R'.
  rewrite prefix_app2. cbn [prefix_n append]. rewrite append_assoc. reflexivity.
Qed.

Lemma app_inj_l p q q' : p ++ q = p ++ q' -> q = q'.
Proof. induction p; simpl; intros H; [exact H|]. inversion H. auto. Qed.

Lemma versioned_inj b n b' n' : b ++ "##" ++ to_string n = b' ++ "##" ++ to_string n' -> b = b' /\ n = n'.
Proof.
  intros H. pose proof (version_parts b n) as [H1 _]. pose proof (version_parts b' n') as [H2 _].
  rewrite H in H1. assert (b = b') by congruence. subst b'. split; [reflexivity|].
  apply app_inj_l in H. apply (app_inj_l "##") in H. apply to_string_inj, H.
Qed.

Lemma rfind_tag p s : rfind2 under (String under s) = None ->
  rfind2 under (p ++ "__" ++ s) = Some (String.length p).
Proof. apply rfind2_sep. Qed.

Lemma to_base_source b i : to_base (to_source b i) = Some b.
Proof.
  unfold to_base, to_source, ensure_no_version.
  replace (b ++ "__" ++ "s" ++ "##" ++ to_string (Z.of_nat i))
     with ((b ++ "__s") ++ "##" ++ to_string (Z.of_nat i)) by (rewrite append_assoc; reflexivity).
  rewrite rfind_versioned, prefix_app. unfold remove_tag.
  change (b ++ "__s") with (b ++ "__" ++ "s"). rewrite rfind_tag by reflexivity. rewrite prefix_app. reflexivity.
Qed.

Lemma rfind2_app_none c p q : rfind2 c p = None -> rfind2 c q = None -> starts c q = false ->
  rfind2 c (p ++ q) = None.
Proof.
  induction p as [|a p IH]; intros Hp Hq Hs; [exact Hq|].
  change (String a p ++ q) with (String a (p ++ q)). simpl in *.
  destruct (rfind2 c p) eqn:E; [discriminate|]. rewrite (IH eq_refl Hq Hs).
  destruct p as [|x p]; simpl in *; [rewrite Hs, andb_false_r; reflexivity|].
  exact Hp.
Qed.

Lemma to_base_target b : rfind2 hash b = None -> to_base (to_target b) = Some b.
Proof.
  intros H. unfold to_base, to_target, ensure_no_version.
  rewrite rfind2_app_none; [|exact H|reflexivity|reflexivity].
  unfold remove_tag. rewrite rfind_tag by reflexivity. rewrite prefix_app. reflexivity.
Qed.

Lemma source_inj b i b' i' : to_source b i = to_source b' i' -> b = b' /\ i = i'.
Proof.
  intros H. pose proof (to_base_source b i) as H1. rewrite H, to_base_source in H1.
  inversion H1; subst. split; [reflexivity|].
  unfold to_source in H. apply app_inj_l in H. apply (app_inj_l "__") in H. apply (app_inj_l "s") in H.
  apply (app_inj_l "##") in H. apply to_string_inj in H. lia.
Qed.

Lemma app_length_s a b : String.length (a ++ b) = (String.length a + String.length b)%nat.
Proof. induction a; simpl; auto. Qed.

Lemma app_inj_r p p' q : p ++ q = p' ++ q -> p = p'.
Proof.
  intros H. pose proof (prefix_app p q) as H1. pose proof (prefix_app p' q) as H2.
  assert (L : String.length p = String.length p').
  { apply (f_equal String.length) in H. rewrite !app_length_s in H. lia. }
  rewrite L, H in H1. congruence.
Qed.

Lemma target_inj b b' : to_target b = to_target b' -> b = b'.
Proof. unfold to_target. apply app_inj_r. Qed.

(** the last character *)
Fixpoint last_char (s : string) (d : ascii) : ascii :=
  match s with "" => d | String a s' => last_char s' a end.
Lemma last_char_app p q d : q <> "" -> last_char (p ++ q) d = last_char q d.
Proof.
  revert d. induction p as [|a p IH]; intros d H; [reflexivity|]. simpl. rewrite IH by exact H.
  destruct q; [congruence|reflexivity].
Qed.
Lemma last_num s d : s <> "" -> all_chars num_char s = true -> num_char (last_char s d) = true.
Proof.
  revert d. induction s as [|a s IH]; intros d N H; [congruence|]. simpl in *.
  apply andb_true_iff in H as [H1 H2]. destruct s as [|b s]; [exact H1|]. apply IH; [discriminate|exact H2].
Qed.
Lemma to_string_ne n : to_string n <> "".
Proof.
  intros H. pose proof (to_int_nz n) as [N1 N2].
  assert (E : NilZero.int_of_string (to_string n) = Some (Z.to_int n)) by (apply NilZero.isi; auto).
  rewrite H in E. discriminate.
Qed.

Lemma last_versioned p n d : num_char (last_char (p ++ "##" ++ to_string n) d) = true.
Proof.
  rewrite last_char_app by discriminate. rewrite last_char_app by apply to_string_ne.
  apply last_num; [apply to_string_ne|apply to_string_chars].
Qed.
Lemma last_target p d : last_char (to_target p) d = "t"%char.
Proof. unfold to_target. rewrite last_char_app by discriminate. reflexivity. Qed.

Lemma source_shape b i : to_source b i = (b ++ "__s") ++ "##" ++ to_string (Z.of_nat i).
Proof. unfold to_source. rewrite append_assoc. reflexivity. Qed.

Lemma rfind_some_app c p q n : rfind2 c q = Some n -> rfind2 c (p ++ q) <> None.
Proof.
  intros H. induction p as [|a p IH]; simpl; [congruence|]. destruct (rfind2 c (p ++ q)); congruence.
Qed.

Lemma plain_hash s : plain s = true -> rfind2 hash s = None.
Proof. unfold plain. destruct (rfind2 hash s); congruence. Qed.
Lemma plain_under s : plain s = true -> rfind2 under s = None.
Proof. unfold plain. destruct (rfind2 hash s), (rfind2 under s); congruence. Qed.

Lemma encode_inj v w : plain (vbase v) = true -> plain (vbase w) = true -> vsort v = vsort w ->
  encode v = encode w -> v = w.
Proof.
  destruct v as [b t s], w as [b' t' s']. unfold encode; cbn [vtag vbase vsort]. intros Hb Hb' <- E.
  assert (NT : forall n c d, plain c = true -> ~ (d ++ "##" ++ to_string n = c)).
  { intros n c d Hc Ec. apply plain_hash in Hc. rewrite <- Ec, rfind_versioned in Hc. discriminate. }
  assert (NG : forall c d, plain c = true -> ~ to_target d = c).
  { intros c d Hc Ec. apply plain_under in Hc. rewrite <- Ec in Hc. unfold to_target in Hc.
    rewrite rfind_tag in Hc by reflexivity. discriminate. }
  assert (NS : forall d i c, plain c = true -> ~ to_source d i = c).
  { intros d i c Hc Ec. rewrite source_shape in Ec. exact (NT _ _ _ Hc Ec). }
  assert (ST : forall d i c n, plain c = true -> ~ to_source d i = c ++ "##" ++ to_string n).
  { intros d i c n Hc Ec. rewrite source_shape in Ec. apply versioned_inj in Ec as [Ec _].
    apply plain_under in Hc. rewrite <- Ec in Hc. change (d ++ "__s") with (d ++ "__" ++ "s") in Hc.
    rewrite rfind_tag in Hc by reflexivity. discriminate. }
  assert (GT : forall d c n, ~ to_target d = c ++ "##" ++ to_string n).
  { intros d c n Ec. pose proof (last_versioned c n " ") as L. rewrite <- Ec, last_target in L. discriminate. }
  assert (GS : forall d c i, ~ to_target d = to_source c i).
  { intros d c i Ec. rewrite source_shape in Ec. exact (GT _ _ _ Ec). }
  destruct t as [|n|i|], t' as [|n'|i'|].
  - subst; reflexivity.
  - exfalso. exact (NT _ _ _ Hb (eq_sym E)).
  - exfalso. exact (NS _ _ _ Hb (eq_sym E)).
  - exfalso. exact (NG _ _ Hb (eq_sym E)).
  - exfalso. exact (NT _ _ _ Hb' E).
  - apply versioned_inj in E as [-> ->]. reflexivity.
  - exfalso. exact (ST _ _ _ _ Hb (eq_sym E)).
  - exfalso. exact (GT _ _ _ (eq_sym E)).
  - exfalso. exact (NS _ _ _ Hb' E).
  - exfalso. exact (ST _ _ _ _ Hb' E).
  - apply source_inj in E as [-> ->]. reflexivity.
  - exfalso. exact (GS _ _ _ (eq_sym E)).
  - exfalso. exact (NG _ _ Hb' E).
  - exfalso. exact (GT _ _ _ E).
  - exfalso. exact (GS _ _ _ E).
  - apply target_inj in E as ->. reflexivity.
Qed.

Lemma digits_no_under s : all_chars num_char s = true -> rfind2 under s = None.
Proof. intros H. apply rfind2_num; auto. Qed.

Lemma plain_numbered p n : plain p = true -> 
  plain (p ++ "#" ++ to_string n) = true \/ exists q, p = q ++ "#".
Proof.
  intros H. 
  destruct (ascii_dec (last_char p " ") hash) as [E|E].
  - right. destruct p as [|a p]; [discriminate|]. clear H. revert a E. induction p as [|b p IH]; intros a E.
    + simpl in E. subst a. exists "". reflexivity.
    + simpl in E. destruct (IH b E) as [q Eq]. exists (String a q). simpl. rewrite Eq. reflexivity.
  - left. unfold plain.
    assert (U : rfind2 under (p ++ "#" ++ to_string n) = None).
    { apply rfind2_app_none; [apply plain_under, H| |reflexivity].
      change ("#" ++ to_string n) with (String hash (to_string n)). cbn [rfind2].
      rewrite rfind2_num by (auto using to_string_chars). reflexivity. }
    rewrite U.
    assert (G : rfind2 hash (p ++ "#" ++ to_string n) = None).
    { apply plain_hash in H. clear U. induction p as [|a p IH].
      - apply hash_num.
      - change (String a p ++ "#" ++ to_string n) with (String a (p ++ "#" ++ to_string n)).
        cbn [rfind2]. pose proof (rfind2_none_tail _ _ _ H) as H'.
        destruct p as [|b p].
        + change ("" ++ "#" ++ to_string n) with (String hash (to_string n)).
          rewrite hash_num. simpl in E. destruct (Ascii.eqb_spec a hash); [congruence|reflexivity].
        + rewrite IH; [|exact H'|exact E]. simpl in H |- *.
          destruct (rfind2 hash p); [discriminate|]. destruct (Ascii.eqb b hash && starts hash p)%bool; [discriminate|].
          exact H. }
    rewrite G. reflexivity.
Qed.
