(** * Proofs for C71: the clauses of an integer transition system. *)
From Verif Require Import Syntax Solver Graph ChcSystem SExprModel Names GraphSem NormModel NormProofs NormRun PropNorm TermRuns PropTermFront ItsModel ItsSpec.
Open Scope string_scope.
Open Scope list_scope.
Open Scope nat_scope.

Section SexprInd.
  Variable P : sexpr -> Prop.
  Hypothesis HA : forall s, P (Atom s).
  Hypothesis HL : forall l, Forall P l -> P (SList l).
  Fixpoint sexpr_ind' (e : sexpr) : P e :=
    match e with
    | Atom s => HA s
    | SList l => HL l ((fix go (l : list sexpr) : Forall P l := match l with [] => Forall_nil P | x :: l' => Forall_cons x (sexpr_ind' x) (go l') end) l)
    end.
End SexprInd.
Lemma fold_and {A} (P : A -> Prop) l : fold_right (fun a Q => P a /\ Q) True l <-> Forall P l.
Proof. induction l as [|a l IH]; cbn; [split; auto|]. rewrite IH. split; [intros [H1 H2]; auto|intros H; inversion H; auto]. Qed.
Lemma fold_or {A} (P : A -> Prop) l : fold_right (fun a Q => P a \/ Q) False l <-> Exists P l.
Proof. induction l as [|a l IH]; cbn; [split; [tauto|intros H; inversion H]|]. rewrite IH. split; [intros [H|H]; auto|intros H; inversion H; auto]. Qed.
Lemma word_of s : word (list_ascii_of_string s) = s.
Proof. apply string_of_list_ascii_of_string. Qed.
Lemma of_word s : list_ascii_of_string (word s) = s.
Proof. apply list_ascii_of_string_of_list_ascii. Qed.
Lemma as_atom_of s : as_atom (atom_of s) = Some s.
Proof. unfold as_atom, atom_of, str. f_equal. apply string_of_list_ascii_of_string. Qed.
Lemma atom_inj a b : atom_of a = atom_of b -> a = b.
Proof. unfold atom_of. intros H. injection H as H. rewrite <- (word_of a), <- (word_of b), H. reflexivity. Qed.
Lemma mapo_some {A B} (f : A -> option B) l ys : mapo f l = Some ys <-> map f l = map Some ys.
Proof.
  revert ys. induction l as [|x l IH]; intros ys; cbn [mapo map].
  - split; intros H; [injection H as <-; reflexivity|]. destruct ys; [reflexivity|discriminate].
  - fold (mapo f l). split.
    + destruct (f x) eqn:E, (mapo f l) eqn:E2; intros H; try discriminate. injection H as <-. cbn [map]. f_equal. apply IH. reflexivity.
    + destruct ys as [|y ys]; intros H; [discriminate|]. cbn [map] in H. injection H as H1 H2. rewrite H1. apply IH in H2. rewrite H2. reflexivity.
Qed.
Lemma mapo_total {A B} (f : A -> option B) l : Forall (fun x => exists y, f x = Some y) l -> exists ys, mapo f l = Some ys.
Proof. induction 1 as [|x l [y E] _ [ys IH]]; [exists []; reflexivity|]. exists (y :: ys). cbn [mapo]. fold (mapo f l). rewrite E, IH. reflexivity. Qed.
Lemma all_some_some {A} (l : list (option A)) xs : l = map Some xs -> all_some l = Some xs.
Proof. intros ->. induction xs as [|x xs IH]; [reflexivity|]. cbn. rewrite IH. reflexivity. Qed.
Lemma mapo_atoms l : mapo as_atom (map atom_of l) = Some l.
Proof. apply mapo_some. rewrite map_map. apply map_ext, as_atom_of. Qed.

(** What OpenSMT's constructors promise. *)
Record arith_logic_ok (l_const : string -> option Z) (l_mk : kind -> list term -> option term) : Prop := {
  al_const : forall s z, numeral s = Some z -> l_const s = Some z;
  al_arith : forall op k ts t r zs z, kind_of op = Some k -> l_mk k ts = Some t -> map (eval r) ts = map VInt zs -> arith_op op zs = Some z -> eval r t = VInt z;
  al_compare : forall op k a b t r x y, In op ["="; "<="; ">="; "<"; ">"] -> kind_of op = Some k -> l_mk k [a; b] = Some t -> eval r a = VInt x -> eval r b = VInt y ->
    exists c, eval r t = VBool c /\ (c = true <-> compares op x y);
  al_and : forall ts t r bs, l_mk KAnd ts = Some t -> map (eval r) ts = map VBool bs -> eval r t = VBool (forallb (fun b => b) bs);
  al_or : forall ts t r bs, l_mk KOr ts = Some t -> map (eval r) ts = map VBool bs -> eval r t = VBool (existsb (fun b => b) bs);
  al_vars : forall k ts t, l_mk k ts = Some t -> incl (vars t) (concat (map vars ts))
}.

(** ** Numerals and names *)
Lemma digit_same c : is_digit c = match digit_value c with Some _ => true | None => false end.
Proof. unfold is_digit, digit_value. destruct (_ && _); reflexivity. Qed.
Lemma numeral_const s z : numeral s = Some z -> looks_const s = true.
Proof.
  destruct s as [|c r]; [discriminate|]. cbn [numeral looks_const]. destruct (c =? "-")%char.
  - destruct r; [discriminate|]. intros _. apply orb_true_r.
  - cbn [natural number_from]. rewrite digit_same. destruct (digit_value c); [reflexivity|discriminate].
Qed.
Lemma name_var s : name s -> looks_const s = false.
Proof. destruct s as [|c r]; [contradiction|]. intros [D M]. cbn [looks_const]. rewrite digit_same, D. destruct (c =? "-")%char eqn:E; [apply Ascii.eqb_eq in E; contradiction|reflexivity]. Qed.
Lemma name_numeral s : name s -> numeral s = None.
Proof.
  intros N. destruct (numeral s) as [z|] eqn:E; [|reflexivity]. apply numeral_const in E. rewrite (name_var s N) in E. discriminate.
Qed.
Lemma arith_name r s : name s -> arith r (atom_of s) = Some (r s).
Proof. intros N. cbn [arith atom_of]. rewrite word_of, (name_numeral s N). reflexivity. Qed.

(** ** Guards without their quantifiers *)
Fixpoint sat0 (r : env) (e : sexpr) : Prop :=
  match e with
  | SList (Atom op :: l) =>
    if String.eqb (word op) "and" then fold_right (fun a P => sat0 r a /\ P) True l
    else if String.eqb (word op) "or" then fold_right (fun a P => sat0 r a \/ P) False l
    else if String.eqb (word op) "exists" then match l with [ds; b] => sat0 r b | _ => False end
    else match map (arith r) l with [Some a; Some b] => compares (word op) a b | _ => False end
  | _ => False
  end.
Lemma sat0_sat e : forall r, sat0 r e -> sat r e.
Proof.
  induction e as [s|l IH] using sexpr_ind'; intros r; [auto|]. destruct l as [|[op|] l]; auto. inversion IH as [|? ? _ IHl]; subst. cbn [sat sat0].
  destruct (String.eqb (word op) "and").
  { rewrite !fold_and. intros H. rewrite Forall_forall in *. auto. }
  destruct (String.eqb (word op) "or").
  { rewrite !fold_or, !Exists_exists. rewrite Forall_forall in IHl. intros [x [Hx H]]. eauto. }
  destruct (String.eqb (word op) "exists"); [|auto]. destruct l as [|ds [|b [|? ?]]]; auto. intros H. exists r. split; [auto|].
  inversion IHl as [|? ? _ I2]; subst. inversion I2 as [|? ? Hb _]; subst. auto.
Qed.
Lemma arith_agree e : forall r r', (forall n, In n (occurring e) -> r n = r' n) -> arith_form e -> arith r e = arith r' e.
Proof.
  induction e as [s|l IH] using sexpr_ind'; intros r r' A F.
  - cbn [arith]. destruct (numeral (word s)); [reflexivity|]. f_equal. apply A. left. reflexivity.
  - destruct l as [|[op|] l]; try contradiction. inversion IH as [|? ? _ IHl]; subst. cbn [arith_form] in F. rewrite fold_and in F. destruct F as [Fo [_ F]]. cbn [arith].
    assert (E : map (arith r) l = map (arith r') l).
    { apply map_ext_in. intros a Ha. rewrite Forall_forall in *. apply IHl; auto. intros n Hn. apply A. cbn [occurring].
      destruct (String.eqb_spec (word op) "exists") as [X|X]; [rewrite X in Fo; cbn in Fo; repeat (destruct Fo as [Fo|Fo]; [discriminate Fo|]); destruct Fo|].
      apply in_concat. exists (occurring a). split; [apply in_map, Ha|exact Hn]. }
    rewrite E. reflexivity.
Qed.
Lemma sat0_agree e : forall r r', (forall n, In n (occurring e) -> r n = r' n) -> guard_form e -> sat0 r e -> sat0 r' e.
Proof.
  induction e as [s|l IH] using sexpr_ind'; intros r r' A; [auto|]. destruct l as [|[op|] l]; auto. inversion IH as [|? ? _ IHl]; subst. cbn [sat0 guard_form].
  assert (Al : String.eqb (word op) "exists" = false -> forall a, In a l -> forall n, In n (occurring a) -> r n = r' n).
  { intros X a Ha n Hn. apply A. cbn [occurring]. rewrite X. apply in_concat. exists (occurring a). split; [apply in_map, Ha|exact Hn]. }
  destruct (String.eqb_spec (word op) "and") as [Y|Y].
  { rewrite !fold_and, !Forall_forall. rewrite Forall_forall in IHl. intros F H a Ha. apply (IHl a Ha r); auto. apply Al; [rewrite Y; reflexivity|exact Ha]. }
  destruct (String.eqb_spec (word op) "or") as [Z|Z].
  { rewrite fold_and, !fold_or, !Exists_exists, Forall_forall. rewrite Forall_forall in IHl. intros F [a [Ha H]]. exists a. split; [exact Ha|]. apply (IHl a Ha r); auto. apply Al; [rewrite Z; reflexivity|exact Ha]. }
  destruct (String.eqb (word op) "exists") eqn:X.
  { destruct l as [|ds [|b [|? ?]]]; auto. intros F H. inversion IHl as [|? ? _ I2]; subst. inversion I2 as [|? ? Hb _]; subst. apply (Hb r); auto. intros n Hn. apply A. cbn [occurring]. rewrite X. exact Hn. }
  intros [_ [_ F]]. rewrite Forall_forall in F. replace (map (arith r') l) with (map (arith r) l); [auto|].
  apply map_ext_in. intros a Ha. apply arith_agree; [apply (Al eq_refl a Ha)|apply F, Ha].
Qed.
(** Values for the bound variables can be chosen once and for all. *)
Lemma sat_sat0 e : forall r, guard_form e -> scopes_apart e -> sat r e -> exists r', (forall n, ~ In n (bound e) -> r' n = r n) /\ sat0 r' e.
Proof.
  induction e as [s|l IH] using sexpr_ind'; intros r; [contradiction|]. destruct l as [|[op|] l]; try contradiction. inversion IH as [|? ? _ IHl]; subst. cbn [sat sat0 guard_form scopes_apart bound].
  destruct (String.eqb_spec (word op) "and") as [Y|Y].
  { rewrite Y. intros F [P C] H. rewrite fold_and in F, C, H. change (String.eqb "and" "exists") with false. cbn [app].
    assert (G : exists r', (forall n, ~ In n (concat (map bound l)) -> r' n = r n) /\ Forall (sat0 r') l).
    { clear IH Y op. induction P as [|a l P1 P2 IHP]; [exists r; split; auto|]. inversion IHl as [|? ? Ia Il]; subst. inversion F as [|? ? Fa Fl]; subst. inversion C as [|? ? Ca Cl]; subst. inversion H as [|? ? Ha Hl]; subst.
      destruct (Ia r Fa Ca Ha) as [ra [Aa Sa]]. destruct (IHP Il Fl Cl Hl) as [rl [Arl Sl]].
      exists (fun n => if in_dec String.string_dec n (bound a) then ra n else rl n). cbn [map concat]. split.
      - intros n Hn. rewrite in_app_iff in Hn. destruct (in_dec String.string_dec n (bound a)) as [I|I]; [tauto|apply Arl; tauto].
      - constructor.
        + apply (sat0_agree a ra); auto. intros n Hn. destruct (in_dec String.string_dec n (bound a)) as [I|I]; [reflexivity|]. rewrite (Aa n I), Arl; [reflexivity|].
          intros X. apply in_concat in X as [b [Hb X]]. apply in_map_iff in Hb as [b' [<- Hb]]. rewrite Forall_forall in P1. exact (proj2 (P1 b' Hb) n X Hn).
        + rewrite Forall_forall in *. intros b Hb. apply (sat0_agree b rl); auto. intros n Hn. destruct (in_dec String.string_dec n (bound a)) as [I|I]; [|reflexivity]. destruct (proj1 (P1 b Hb) n I Hn). }
    destruct G as [r' [A G]]. exists r'. split; [exact A|apply fold_and, G]. }
  destruct (String.eqb_spec (word op) "or") as [Z|Z].
  { rewrite Z. intros F [_ C] H. rewrite fold_and in F, C. rewrite fold_or in H. change (String.eqb "or" "exists") with false. cbn [app]. apply Exists_exists in H as [a [Ha H]]. rewrite Forall_forall in *.
    destruct (IHl a Ha r (F a Ha) (C a Ha) H) as [r' [A S]]. exists r'. split; [|apply fold_or, Exists_exists; eauto].
    intros n Hn. apply A. intros X. apply Hn, in_concat. exists (bound a). split; [apply in_map, Ha|exact X]. }
  destruct (String.eqb (word op) "exists") eqn:X.
  { destruct l as [|ds [|b [|? ?]]]; try contradiction. intros F [_ C] [r1 [A1 H]]. rewrite fold_and in C. inversion IHl as [|? ? _ I2]; subst. inversion I2 as [|? ? Hb _]; subst. inversion C as [|? ? _ C2]; subst. inversion C2 as [|? ? Cb _]; subst.
    destruct (Hb r1 F Cb H) as [r' [A S]]. exists r'. split; [|exact S]. intros n Hn. cbn [map concat] in Hn. rewrite !in_app_iff in Hn. rewrite A by tauto. apply A1. tauto. }
  intros F _ H. exists r. auto.
Qed.

(** ** Guards as terms *)
Section Its.
Variable l_const : string -> option Z.
Variable l_mk : kind -> list term -> option term.
Variable code : string -> sym.
Hypothesis L : arith_logic_ok l_const l_mk.
Definition env_of (r : valuation) : env := fun n => asz (coerce SInt (r (ivar n))).
Lemma eval_ivar r n : eval r (Var (ivar n)) = VInt (env_of r n).
Proof. cbn. unfold env_of. pose proof (coerce_sort SInt (r (ivar n))) as H. destruct (coerce SInt (r (ivar n))); try discriminate. reflexivity. Qed.
Definition val_of (e : env) : valuation := fun v => VInt (e (vbase v)).
Lemma env_val e n : env_of (val_of e) n = e n.
Proof. reflexivity. Qed.

Lemma arith_meaning e : forall x t r, arith_form e -> parse_guard e = Some x -> translate l_const l_mk x = Some t -> exists z, arith (env_of r) e = Some z /\ eval r t = VInt z.
Proof.
  induction e as [s|l IH] using sexpr_ind'; intros x t r F P T.
  - cbn [parse_guard arith] in *. change (str s) with (word s) in P. injection P as <-. destruct F as [F|F].
    + rewrite (name_var _ F) in T. injection T as <-. rewrite (name_numeral _ F). exists (env_of r (word s)). split; [reflexivity|apply eval_ivar].
    + destruct (numeral (word s)) as [z|] eqn:E; [|congruence]. rewrite (numeral_const _ z E) in T. cbn [translate] in T. rewrite (al_const _ _ L _ z E) in T. injection T as <-. exists z. split; reflexivity.
  - destruct l as [|[op|] l]; try contradiction. inversion IH as [|? ? _ IHl]; subst. cbn [arith_form] in F. rewrite fold_and in F. destruct F as [Fo [Fn F]]. cbn [parse_guard arith] in *. change (str op) with (word op) in P.
    assert (X : String.eqb (word op) "exists" = false) by (cbn in Fo; repeat (destruct Fo as [<-|Fo]; [reflexivity|]); destruct Fo). rewrite X in P.
    destruct (kind_of (word op)) as [k|] eqn:K; [|discriminate]. destruct (mapo parse_guard l) as [xs|] eqn:M; [|discriminate]. injection P as <-. cbn [translate] in T. destruct (mapo (translate l_const l_mk) xs) as [ts|] eqn:M2; [|discriminate].
    assert (G : exists zs, map (arith (env_of r)) l = map Some zs /\ map (eval r) ts = map VInt zs).
    { apply mapo_some in M, M2. clear T Fn X K IH. revert xs ts M M2. induction l as [|a l IHm]; intros xs ts M M2.
      - destruct xs; [|discriminate]. destruct ts; [|discriminate]. exists []. auto.
      - destruct xs as [|x xs]; [discriminate|]. destruct ts as [|t1 ts]; [discriminate|]. injection M as Mx M. injection M2 as Mt M2. inversion IHl as [|? ? Ia Il]; subst. inversion F as [|? ? Fa Fl]; subst.
        destruct (Ia x t1 r Fa Mx Mt) as [z [Z1 Z2]]. destruct (IHm ltac:(assumption) ltac:(assumption) xs ts M M2) as [zs [S1 S2]]. exists (z :: zs). cbn [map]. rewrite Z1, Z2, S1, S2. auto. }
    destruct G as [zs [G1 G2]]. rewrite G1, (all_some_some _ zs eq_refl). assert (A : exists z, arith_op (word op) zs = Some z).
    { destruct zs as [|z zs]; [destruct l; [contradiction|discriminate]|]. cbn in Fo. destruct Fo as [<-|[<-|[<-|[]]]]; cbn; eauto. }
    destruct A as [z A]. exists z. split; [exact A|]. apply (al_arith _ _ L _ _ _ _ _ _ _ K T G2 A).
Qed.
Lemma guard_meaning e : forall x t r, guard_form e -> parse_guard e = Some x -> translate l_const l_mk x = Some t -> exists b, eval r t = VBool b /\ (b = true <-> sat0 (env_of r) e).
Proof.
  induction e as [s|l IH] using sexpr_ind'; intros x t r F P T; [contradiction|]. destruct l as [|[op|] l]; try contradiction. inversion IH as [|? ? _ IHl]; subst. cbn [guard_form parse_guard sat0] in *. change (str op) with (word op) in P.
  assert (G : Forall guard_form l -> forall xs ts, mapo parse_guard l = Some xs -> mapo (translate l_const l_mk) xs = Some ts -> exists bs, map (eval r) ts = map VBool bs /\ Forall2 (fun b e => b = true <-> sat0 (env_of r) e) bs l).
  { clear -IHl. intros F xs ts M M2. apply mapo_some in M, M2. revert xs ts M M2. induction l as [|a l IHm]; intros xs ts M M2.
    - destruct xs; [|discriminate]. destruct ts; [|discriminate]. exists []. auto.
    - destruct xs as [|x xs]; [discriminate|]. destruct ts as [|t1 ts]; [discriminate|]. injection M as Mx M. injection M2 as Mt M2. inversion IHl as [|? ? Ia Il]; subst. inversion F as [|? ? Fa Fl]; subst.
      destruct (Ia x t1 r Fa Mx Mt) as [b [B1 B2]]. destruct (IHm ltac:(assumption) ltac:(assumption) xs ts M M2) as [bs [S1 S2]]. exists (b :: bs). cbn [map]. rewrite B1, S1. auto. }
  destruct (String.eqb_spec (word op) "and") as [Y|Y].
  { rewrite Y in P. change (kind_of "and") with (Some KAnd) in P. change (String.eqb "and" "exists") with false in P. cbv iota in P. rewrite fold_and in F. destruct (mapo parse_guard l) as [xs|] eqn:M; [|discriminate]. injection P as <-. cbn [translate] in T.
    destruct (mapo (translate l_const l_mk) xs) as [ts|] eqn:M2; [|discriminate]. destruct (G F xs ts eq_refl M2) as [bs [E B]]. exists (forallb (fun b => b) bs). split; [apply (al_and _ _ L ts t r bs T E)|].
    rewrite fold_and. clear -B. induction B as [|b e bs l H _ IH]; cbn; [split; auto|]. rewrite andb_true_iff, H, IH. split; [intros [? ?]; auto|intros X; inversion X; auto]. }
  destruct (String.eqb_spec (word op) "or") as [Z|Z].
  { rewrite Z in P. change (kind_of "or") with (Some KOr) in P. change (String.eqb "or" "exists") with false in P. cbv iota in P. rewrite fold_and in F. destruct (mapo parse_guard l) as [xs|] eqn:M; [|discriminate]. injection P as <-. cbn [translate] in T.
    destruct (mapo (translate l_const l_mk) xs) as [ts|] eqn:M2; [|discriminate]. destruct (G F xs ts eq_refl M2) as [bs [E B]]. exists (existsb (fun b => b) bs). split; [apply (al_or _ _ L ts t r bs T E)|].
    rewrite fold_or. clear -B. induction B as [|b e bs l H _ IH]; cbn; [split; [discriminate|intros X; inversion X]|]. rewrite orb_true_iff, H, IH. split; [intros [? | ?]; auto|intros X; inversion X; auto]. }
  destruct (String.eqb (word op) "exists") eqn:X.
  { destruct l as [|ds [|b [|? ?]]]; try contradiction. inversion IHl as [|? ? _ I2]; subst. inversion I2 as [|? ? Hb _]; subst. exact (Hb x t r F P T). }
  destruct F as [Fo [Fl F]]. destruct l as [|a [|b [|? ?]]]; try discriminate Fl. inversion F as [|? ? Fa F2]; subst. inversion F2 as [|? ? Fb _]; subst.
  destruct (kind_of (word op)) as [k|] eqn:K; [|discriminate]. cbn [mapo] in P. destruct (parse_guard a) as [xa|] eqn:Pa; [|discriminate]. destruct (parse_guard b) as [xb|] eqn:Pb; [|discriminate]. injection P as <-.
  cbn [translate mapo] in T. destruct (translate l_const l_mk xa) as [ta|] eqn:Ta; [|discriminate]. destruct (translate l_const l_mk xb) as [tb|] eqn:Tb; [|discriminate].
  destruct (arith_meaning a xa ta r Fa Pa Ta) as [za [Za Ea]]. destruct (arith_meaning b xb tb r Fb Pb Tb) as [zb [Zb Eb]]. cbn [map]. rewrite Za, Zb. exact (al_compare _ _ L _ _ _ _ _ r _ _ Fo K T Ea Eb).
Qed.
(** The variables of the term are unversioned. *)
Fixpoint expr_size (e : expr) : nat := match e with ENode _ l => S (list_sum (map expr_size l)) | _ => 0 end.
Lemma translate_vars : forall n e t, expr_size e <= n -> translate l_const l_mk e = Some t -> forall v, In v (vars t) -> exists m, v = ivar m.
Proof.
  induction n as [|n IH]; intros e t S T v Hv.
  - destruct e as [m|s|k l]; cbn [expr_size] in S; [|destruct (l_const s) eqn:C; cbn [translate] in T; rewrite ?C in T; [injection T as <-; destruct Hv|discriminate]|lia]. injection T as <-. destruct Hv as [<-|[]]. eauto.
  - destruct e as [m|s|k l]; [injection T as <-; destruct Hv as [<-|[]]; eauto|cbn [translate] in T; destruct (l_const s); [injection T as <-; destruct Hv|discriminate]|].
    cbn [translate] in T. destruct (mapo (translate l_const l_mk) l) as [ts|] eqn:M; [|discriminate]. apply (al_vars _ _ L) in T. apply T in Hv. apply in_concat in Hv as [vs [Hvs Hv]]. apply in_map_iff in Hvs as [t' [<- Ht]].
    apply mapo_some in M. assert (X : In (Some t') (map (translate l_const l_mk) l)) by (rewrite M; apply in_map, Ht). apply in_map_iff in X as [e' [E He]].
    apply (IH e' t'); auto. cbn [expr_size] in S. assert (Y : expr_size e' <= list_sum (map expr_size l)); [|lia]. clear -He. unfold list_sum. induction l as [|a l IH]; [destruct He|]. cbn. destruct He as [->|He]; [lia|apply IH in He; lia].
Qed.
End Its.
