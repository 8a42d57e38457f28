From Coq Require Import List Ascii Bool Arith Lia.
Import ListNotations.
From Verif Require Import SExprModel.

Lemma bind_assoc {A B C} (x : res A) (f : A -> res B) (g : B -> res C) : bind (bind x f) g = bind x (fun a => bind (f a) g).
Proof. destruct x; reflexivity. Qed.
Lemma bind_ext {A B} (x : res A) (f g : A -> res B) : (forall a, x = Ok a -> f a = g a) -> bind x f = bind x g.
Proof. destruct x; cbn; auto. Qed.
Lemma bind_fuel {A B} (x : res A) (f : A -> res B) : bind x f = OutOfFuel -> x = OutOfFuel \/ exists a, x = Ok a /\ f a = OutOfFuel.
Proof. destruct x; cbn; intros H; try discriminate; eauto. Qed.
Lemma bind_ok {A B} (x : res A) (f : A -> res B) b : bind x f = Ok b -> exists a, x = Ok a /\ f a = Ok b.
Proof. destruct x; cbn; intros H; try discriminate; eauto. Qed.

(** ** [advance] makes progress *)
Lemma skip_comment_left t r g : match skip_comment t r g with Ok s' => length (rest s') <= length r /\ good s' = g | OutOfFuel => False | _ => True end.
Proof.
  revert t. induction r as [|c r IH]; intros t; cbn [skip_comment]; destruct (_ || _); cbn; auto; try lia.
  specialize (IH c). destruct (skip_comment c r g); auto. destruct IH. split; [cbn; lia|assumption].
Qed.
Lemma advance_left s : match advance s with Ok s' => left s' < left s | OutOfFuel => False | _ => True end.
Proof.
  unfold advance. destruct s as [t r g]. cbn [good]. destruct g; [|exact Logic.I]. cbv zeta. unfold get. cbn [rest]. destruct r as [|c r]; cbn [tok rest good].
  - change (cEof =? cSemi)%char with false. cbn. unfold left; cbn; lia.
  - destruct (c =? cSemi)%char; [|unfold left; cbn; lia]. pose proof (skip_comment_left c r true) as H. destruct (skip_comment c r true) as [s'| | |]; auto. destruct s' as [t' r' g']. cbn in H. destruct H as [H ->]. unfold left; cbn. lia.
Qed.

Lemma skip_ws_fuel n : forall s, left s < n -> skip_ws_f n s = skip_ws s.
Proof.
  assert (G : forall n m s, left s < n -> left s < m -> skip_ws_f n s = skip_ws_f m s).
  { clear. induction n as [|n IH]; intros m s H1 H2; [lia|]. destruct m as [|m]; [lia|]. cbn. destruct (is_ws (tok s)); [|reflexivity].
    pose proof (advance_left s) as L. destruct (advance s) as [s'| | |]; try reflexivity. cbn. apply IH; lia. }
  intros s H. apply G; lia.
Qed.
Lemma skip_ws_eq s : skip_ws s = if is_ws (tok s) then bind (advance s) skip_ws else Ok s.
Proof.
  unfold skip_ws at 1. cbn. destruct (is_ws (tok s)); [|reflexivity]. pose proof (advance_left s) as L. destruct (advance s) as [s'| | |]; try reflexivity. cbn. apply skip_ws_fuel. lia.
Qed.
Lemma skip_ws_post s : match skip_ws s with Ok s' => left s' <= left s /\ is_ws (tok s') = false /\ (is_ws (tok s) = false -> s' = s) | OutOfFuel => False | _ => True end.
Proof.
  remember (left s) as n eqn:En. revert s En. induction n as [n IH] using lt_wf_ind. intros s ->. rewrite skip_ws_eq.
  destruct (is_ws (tok s)) eqn:W; [|auto]. pose proof (advance_left s) as L. destruct (advance s) as [s'| | |]; auto. cbn [bind].
  specialize (IH (left s') L s' eq_refl). destruct (skip_ws s'); auto. split; [lia|]. split; [apply IH|discriminate].
Qed.
Lemma skip_ws_id s : is_ws (tok s) = false -> skip_ws s = Ok s.
Proof. intros H. rewrite skip_ws_eq, H. reflexivity. Qed.
Lemma skip_ws_idem s s' : skip_ws s = Ok s' -> skip_ws s' = Ok s'.
Proof. intros H. pose proof (skip_ws_post s) as P. rewrite H in P. apply skip_ws_id, P. Qed.

Definition token_loop (pipe : bool) (acc : text) (s : pstate) := token_loop_f (S (left s)) pipe acc s.
Lemma token_loop_fuel n pipe : forall acc s, left s < n -> token_loop_f n pipe acc s = token_loop pipe acc s.
Proof.
  assert (G : forall n m acc s, left s < n -> left s < m -> token_loop_f n pipe acc s = token_loop_f m pipe acc s).
  { clear. induction n as [|n IH]; intros m acc s H1 H2; [lia|]. destruct m as [|m]; [lia|]. cbn [token_loop_f]. cbv zeta.
    destruct (_ =? _)%char; [reflexivity|]. destruct (_ && _); [reflexivity|]. destruct (_ && _); [reflexivity|].
    pose proof (advance_left s) as L. destruct (advance s) as [s'| | |]; try reflexivity. cbn [bind]. apply IH; lia. }
  intros acc s H. apply G; lia.
Qed.
Lemma token_loop_eq pipe acc s : token_loop pipe acc s =
  (let c := tok s in
    if (c =? cNul)%char then Ok (acc, s)
    else if pipe && (c =? cPipe)%char then bind (advance s) (fun s' => Ok (acc, s'))
    else if negb pipe && (is_ws c || (c =? cOpen)%char || (c =? cClose)%char) then Ok (acc, s)
    else bind (advance s) (token_loop pipe (acc ++ [c]))).
Proof.
  unfold token_loop at 1. cbn [token_loop_f]. cbv zeta. destruct (_ =? _)%char; [reflexivity|]. destruct (_ && _); [reflexivity|]. destruct (_ && _); [reflexivity|].
  pose proof (advance_left s) as L. destruct (advance s) as [s'| | |]; try reflexivity. cbn [bind]. apply token_loop_fuel. lia.
Qed.
Lemma token_loop_left pipe : forall n acc s, left s <= n -> match token_loop pipe acc s with Ok (_, s') => left s' <= left s | OutOfFuel => False | _ => True end.
Proof.
  induction n as [n IH] using lt_wf_ind. intros acc s Hn. rewrite token_loop_eq. cbv zeta. destruct (_ =? _)%char; [cbn; lia|].
  pose proof (advance_left s) as L. destruct (_ && _); [destruct (advance s); cbn; auto; lia|]. destruct (_ && _); [cbn; lia|].
  destruct (advance s) as [s'| | |]; cbn [bind]; auto. assert (X : left s' < n) by lia. specialize (IH _ X (acc ++ [tok s]) s' (le_n _)). destruct (token_loop pipe (acc ++ [tok s]) s') as [[a b]| | |]; auto. lia.
Qed.
(** A token consumes something, unless there is nothing to consume. *)
Definition stuck (c : ascii) : bool := is_ws c || (c =? cNul)%char || (c =? cOpen)%char || (c =? cClose)%char.
Lemma parse_token_left s : match parse_token s with Ok (_, s') => left s' <= left s /\ (stuck (tok s) = false -> left s' < left s) | OutOfFuel => False | _ => True end.
Proof.
  unfold parse_token. pose proof (skip_ws_post s) as P. destruct (skip_ws s) as [s1| | |]; cbn [bind]; auto. destruct P as [P1 [P2 P3]].
  pose proof (advance_left s1) as L. destruct (tok s1 =? cPipe)%char eqn:Ep.
  - destruct (advance s1) as [s2| | |]; cbn [bind]; auto. change (token_loop_f (S (left s2)) true [] s2) with (token_loop true [] s2).
    pose proof (token_loop_left true (left s2) [] s2 (le_n _)) as T. destruct (token_loop true [] s2) as [[a b]| | |]; auto. lia.
  - change (token_loop_f (S (left s1)) false [] s1) with (token_loop false [] s1).
    pose proof (token_loop_left false (left s1) [] s1 (le_n _)) as T. destruct (token_loop false [] s1) as [[a b]| | |] eqn:E; auto. split; [lia|].
    intros St. assert (W : is_ws (tok s) = false) by (unfold stuck in St; rewrite !orb_false_iff in St; apply St). rewrite (P3 W) in *. clear s1 P1 P2 P3.
    rewrite token_loop_eq in E. cbv zeta in E. unfold stuck in St. rewrite !orb_false_iff in St. destruct St as [[[S1 S2] S3] S4]. rewrite S1, S2, S3, S4 in E. cbn [negb andb orb] in E.
    destruct (advance s) as [s2| | |]; try discriminate. cbn [bind] in E. pose proof (token_loop_left false (left s2) ([] ++ [tok s]) s2 (le_n _)) as T2. rewrite E in T2. lia.
Qed.

(** ** Fuel *)
Lemma parse_mono : forall n,
  (forall m s, n <= m -> parse_expr_f n s <> OutOfFuel -> parse_expr_f m s = parse_expr_f n s) /\
  (forall m acc s, n <= m -> parse_items_f n acc s <> OutOfFuel -> parse_items_f m acc s = parse_items_f n acc s).
Proof.
  induction n as [|n [IH1 IH2]]; [split; intros; exfalso; match goal with H : _ <> _ |- _ => apply H; reflexivity end|]. split.
  - intros m s L H. destruct m as [|m]; [lia|]. cbn [parse_expr_f] in *. destruct (skip_ws s) as [s1| | |]; cbn [bind] in *; try reflexivity.
    destruct (_ =? _)%char; [|reflexivity]. destruct (advance s1) as [s2| | |]; cbn [bind] in *; try reflexivity. destruct (skip_ws s2) as [s3| | |]; cbn [bind] in *; try reflexivity.
    rewrite (IH2 m [] s3); [reflexivity|lia|]. intros E. rewrite E in H. apply H. reflexivity.
  - intros m acc s L H. destruct m as [|m]; [lia|]. cbn [parse_items_f] in *. destruct (_ && _); [|reflexivity].
    assert (E : parse_expr_f m s = parse_expr_f n s) by (apply IH1; [lia|]; intros E; rewrite E in H; apply H; reflexivity).
    rewrite E. destruct (parse_expr_f n s) as [[e s1]| | |]; cbn [bind fst snd] in *; try reflexivity. destruct (skip_ws s1) as [s2| | |]; cbn [bind] in *; try reflexivity.
    apply IH2; [lia|exact H].
Qed.
Lemma parse_total : forall n,
  (forall s, 2 * left s + 1 <= n -> match parse_expr_f n s with Ok (_, s') => left s' <= left s /\ (stuck (tok s) = false \/ tok s = cOpen -> left s' < left s) | OutOfFuel => False | _ => True end) /\
  (forall acc s, 2 * left s + 2 <= n -> is_ws (tok s) = false -> match parse_items_f n acc s with Ok (_, s') => left s' <= left s | OutOfFuel => False | _ => True end).
Proof.
  induction n as [|n [IH1 IH2]]; [split; intros; lia|]. split.
  - intros s L. cbn [parse_expr_f]. pose proof (skip_ws_post s) as P. destruct (skip_ws s) as [s1| | |]; cbn [bind]; auto. destruct P as [P1 [P2 P3]].
    destruct (tok s1 =? cOpen)%char eqn:Eo.
    + pose proof (advance_left s1) as L1. destruct (advance s1) as [s2| | |]; cbn [bind]; auto. pose proof (skip_ws_post s2) as Q. destruct (skip_ws s2) as [s3| | |]; cbn [bind]; auto. destruct Q as [Q1 [Q2 _]].
      assert (X : 2 * left s3 + 2 <= n) by lia. specialize (IH2 [] s3 X Q2). destruct (parse_items_f n [] s3) as [[l s4]| | |]; cbn [bind fst snd]; auto. split; lia.
    + pose proof (parse_token_left s1) as T. destruct (parse_token s1) as [[a s2]| | |]; cbn [bind fst snd]; auto. split; [lia|]. intros St.
      assert (W : is_ws (tok s) = false).
      { destruct St as [St|St]; [unfold stuck in St; rewrite !orb_false_iff in St; apply St|rewrite St; reflexivity]. }
      rewrite (P3 W) in *. destruct St as [St|St]; [apply T, St|]. rewrite St in Eo. discriminate.
  - intros acc s L W. cbn [parse_items_f]. destruct (negb _ && negb _) eqn:Et.
    + apply andb_true_iff in Et as [E1 E2]. apply negb_true_iff in E1. apply negb_true_iff in E2.
      assert (Y : 2 * left s + 1 <= n) by lia. specialize (IH1 s Y). destruct (parse_expr_f n s) as [[e s1]| | |]; cbn [bind fst snd]; auto. destruct IH1 as [I1 I2].
      assert (Lt : left s1 < left s).
      { apply I2. unfold stuck. destruct (tok s =? cOpen)%char eqn:Eo; [right; apply Ascii.eqb_eq, Eo|left]. rewrite W, E1, E2. reflexivity. }
      pose proof (skip_ws_post s1) as P. destruct (skip_ws s1) as [s2| | |]; cbn [bind]; auto. destruct P as [P1 [P2 _]].
      assert (X : 2 * left s2 + 2 <= n) by lia. specialize (IH2 (acc ++ [e]) s2 X P2). destruct (parse_items_f n (acc ++ [e]) s2) as [[l s3]| | |]; auto. lia.
    + destruct (tok s =? cClose)%char; cbn; auto.
Qed.
Lemma parse_expr_fuel n s r : parse_expr_f n s = r -> r <> OutOfFuel -> parse_expr s = r.
Proof.
  intros H N. unfold parse_expr. pose proof (proj1 (parse_total (2 * left s + 2)) s ltac:(lia)) as T.
  destruct (Nat.le_ge_cases n (2 * left s + 2)) as [L|L].
  - rewrite (proj1 (parse_mono n) _ s L); congruence.
  - rewrite <- H. symmetry. apply (proj1 (parse_mono (2 * left s + 2))); [exact L|]. intros E. rewrite E in T. exact T.
Qed.

(** ** Reading a text *)
Definition enter (t : text) : res pstate := advance (mkP cSpace t true).
Lemma advance_enter c t : advance (mkP c t true) = enter t.
Proof. reflexivity. Qed.
Lemma enter_cons c t : c <> cSemi -> enter (c :: t) = Ok (mkP c t true).
Proof. intros H. unfold enter, advance. cbn [good get rest tok]. destruct (Ascii.eqb_spec c cSemi); [contradiction|reflexivity]. Qed.
Lemma enter_comment body t : ~ In cNl body -> ~ In cNul body -> enter (cSemi :: body ++ cNl :: t) = Ok (mkP cNl t true).
Proof.
  intros N1 N2. unfold enter, advance. cbn [good get rest tok]. change (cSemi =? cSemi)%char with true. cbv iota zeta.
  assert (G : forall b c, (c =? cNl)%char || (c =? cNul)%char = false -> ~ In cNl b -> ~ In cNul b -> skip_comment c (b ++ cNl :: t) true = Ok (mkP cNl t true)).
  { clear. induction b as [|d b IH]; intros c Hc N1 N2; cbn [skip_comment app]; rewrite Hc.
    - destruct t; reflexivity.
    - apply IH; [|intros H; apply N1; right; exact H|intros H; apply N2; right; exact H].
      destruct (Ascii.eqb_spec d cNl) as [->|]; [destruct (N1 (or_introl eq_refl))|]. destruct (Ascii.eqb_spec d cNul) as [->|]; [destruct (N2 (or_introl eq_refl))|]. reflexivity. }
  apply G; [reflexivity|exact N1|exact N2].
Qed.
Lemma ws_not_semi c : is_ws c = true -> c <> cSemi.
Proof. intros H ->. discriminate. Qed.
Lemma skip_gap g t : gap g -> bind (enter (g ++ t)) skip_ws = bind (enter t) skip_ws.
Proof.
  intros H. induction H as [|c g W _ IH|body g N1 N2 _ IH]; [reflexivity| |].
  - cbn [app]. rewrite enter_cons by (apply ws_not_semi, W). cbn [bind]. rewrite skip_ws_eq. cbn [tok]. rewrite W, advance_enter. exact IH.
  - cbn [app]. rewrite <- app_assoc. cbn [app]. rewrite enter_comment by assumption. cbn [bind]. rewrite skip_ws_eq. cbn [tok]. change (is_ws cNl) with true. cbv iota. rewrite advance_enter. exact IH.
Qed.

Lemma enter_delim k s : delimited k -> enter k = Ok s -> tok s = cNul \/ is_ws (tok s) = true \/ tok s = cOpen \/ tok s = cClose.
Proof.
  destruct k as [|c k]; [intros []|]. intros D E. cbn in D. destruct (ascii_dec c cSemi) as [->|N].
  - unfold enter, advance in E. cbn in E.
    assert (G : forall r t s, skip_comment t r true = Ok s -> tok s = cNul \/ is_ws (tok s) = true).
    { clear. induction r as [|c r IH]; intros t s; cbn [skip_comment]; destruct (Ascii.eqb_spec t cNl) as [->|N1]; cbn [orb].
      - intros H. injection H as <-. right. reflexivity.
      - destruct (Ascii.eqb_spec t cNul) as [->|N2]; intros H; [injection H as <-; left; reflexivity|discriminate].
      - intros H. injection H as <-. right. reflexivity.
      - destruct (Ascii.eqb_spec t cNul) as [->|N2]; intros H; [injection H as <-; left; reflexivity|apply (IH _ _ H)]. }
    destruct (G k cSemi s) as [H|H]; [destruct k; cbn in E |- *; exact E|tauto|tauto].
  - rewrite (enter_cons c k N) in E. injection E as <-. cbn [tok]. tauto.
Qed.
Lemma token_plain a k : (forall c, In c a -> ~ special c) -> delimited k -> forall acc,
  bind (enter (a ++ k)) (token_loop false acc) = bind (enter k) (fun s => Ok (acc ++ a, s)).
Proof.
  intros Ha D. induction a as [|c a IH]; intros acc.
  - cbn [app]. apply bind_ext. intros s E. rewrite app_nil_r, token_loop_eq. cbv zeta. destruct (enter_delim k s D E) as [T|[T|[T|T]]]; rewrite T; try reflexivity.
    cbn [negb andb orb]. destruct (_ =? _)%char; reflexivity.
  - cbn [app]. assert (Hc : ~ special c) by (apply Ha; left; reflexivity). unfold special in Hc.
    rewrite enter_cons by (intros ->; apply Hc; tauto). cbn [bind]. rewrite token_loop_eq. cbv zeta. cbn [tok].
    destruct (Ascii.eqb_spec c cNul) as [->|_]; [destruct Hc; tauto|]. cbn [andb negb]. destruct (is_ws c); [destruct Hc; tauto|].
    destruct (Ascii.eqb_spec c cOpen) as [->|_]; [destruct Hc; tauto|]. destruct (Ascii.eqb_spec c cClose) as [->|_]; [destruct Hc; tauto|]. cbn [orb].
    rewrite advance_enter, IH by (intros d Hd; apply Ha; right; exact Hd). rewrite <- app_assoc. reflexivity.
Qed.
Lemma token_quoted a k : ~ In cPipe a -> ~ In cSemi a -> ~ In cNul a -> forall acc,
  bind (enter (a ++ cPipe :: k)) (token_loop true acc) = bind (enter k) (fun s => Ok (acc ++ a, s)).
Proof.
  intros N1 N2 N3. induction a as [|c a IH]; intros acc.
  - cbn [app]. rewrite enter_cons by discriminate. cbn [bind]. rewrite token_loop_eq. cbv zeta. cbn [tok andb]. change (cPipe =? cNul)%char with false. change (cPipe =? cPipe)%char with true. cbv iota.
    rewrite advance_enter, app_nil_r. reflexivity.
  - cbn [app]. rewrite enter_cons by (intros ->; apply N2; left; reflexivity). cbn [bind]. rewrite token_loop_eq. cbv zeta. cbn [tok andb negb].
    destruct (Ascii.eqb_spec c cNul) as [->|_]; [destruct N3; left; reflexivity|]. destruct (Ascii.eqb_spec c cPipe) as [->|_]; [destruct N1; left; reflexivity|].
    rewrite advance_enter, IH; [rewrite <- app_assoc; reflexivity|intros H; apply N1; right; exact H|intros H; apply N2; right; exact H|intros H; apply N3; right; exact H].
Qed.

(** What remains after an expression. *)
Definition out (e : sexpr) (k : text) : res (sexpr * pstate) :=
  match e with SList _ => Ok (e, mkP cSpace k true) | Atom _ => bind (enter k) (fun s => Ok (e, s)) end.
Lemma out_skip {A} e k (F : sexpr -> pstate -> res A) :
  bind (out e k) (fun p => bind (skip_ws (snd p)) (F (fst p))) = bind (bind (enter k) skip_ws) (F e).
Proof.
  destruct e; cbn [out].
  - rewrite !bind_assoc. reflexivity.
  - cbn [bind fst snd]. rewrite skip_ws_eq. cbn [tok]. change (is_ws cSpace) with true. cbv iota. rewrite advance_enter. reflexivity.
Qed.

Scheme writes_mut := Induction for writes Sort Prop
with writes_items_mut := Induction for writes_items Sort Prop.
Combined Scheme writes_both from writes_mut, writes_items_mut.

Definition reads_expr (e : sexpr) (t : text) : Prop := forall k, (forall a, e = Atom a -> t = a -> delimited k) ->
  exists n, forall m, n <= m -> bind (enter (t ++ k)) (parse_expr_f m) = out e k.
Definition reads_items (l : list sexpr) (t : text) : Prop := forall k acc,
  exists n, forall m, n <= m -> bind (bind (enter (t ++ k)) skip_ws) (parse_items_f m acc) = Ok (acc ++ l, mkP cSpace k true).
(** The first character of an expression. *)
Lemma writes_first e t : writes e t -> exists c r, t = c :: r /\ c <> cSemi /\ is_ws c = false /\ c <> cNul /\ c <> cClose.
Proof.
  intros H. destruct H as [a [P1 [P2 P3]]|a N1 N2 N3|l t H].
  - destruct a as [|c r]; [contradiction|]. exists c, r. assert (Hc : ~ special c) by (apply P2; left; reflexivity). unfold special in Hc.
    split; [reflexivity|]. split; [intros ->; tauto|]. split; [destruct (is_ws c); [tauto|reflexivity]|]. split; intros ->; tauto.
  - eexists; eexists. split; [reflexivity|]. split; [discriminate|]. split; [reflexivity|]. split; discriminate.
  - eexists; eexists. split; [reflexivity|]. split; [discriminate|]. split; [reflexivity|]. split; discriminate.
Qed.

Theorem parse_writes : (forall e t, writes e t -> reads_expr e t) /\ (forall l t, writes_items l t -> reads_items l t).
Proof.
  apply (writes_both (fun e t _ => reads_expr e t) (fun l t _ => reads_items l t)).
  - (* plain *)
    intros a [P1 [P2 P3]] k D. exists 1. intros m Hm. destruct m as [|m]; [lia|]. specialize (D a eq_refl eq_refl).
    destruct a as [|c r]; [contradiction|]. assert (Hc : ~ special c) by (apply P2; left; reflexivity). unfold special in Hc.
    assert (T := token_plain (c :: r) k P2 D []). cbn [app] in T |- *. rewrite enter_cons in * by (intros ->; tauto). cbn [bind] in T |- *. cbn [parse_expr_f].
    assert (W : is_ws c = false) by (destruct (is_ws c); [tauto|reflexivity]). rewrite (skip_ws_id (mkP c (r ++ k) true) W). cbn [bind tok].
    destruct (Ascii.eqb_spec c cOpen) as [->|_]; [tauto|]. unfold parse_token. rewrite (skip_ws_id (mkP c (r ++ k) true) W). cbn [bind tok].
    destruct (Ascii.eqb_spec c cPipe) as [->|_]; [cbn in P3; congruence|]. unfold token_loop in T. rewrite T. rewrite bind_assoc. reflexivity.
  - (* quoted *)
    intros a N1 N2 N3 k _. exists 1. intros m Hm. destruct m as [|m]; [lia|]. cbn [app]. rewrite enter_cons by discriminate. cbn [bind parse_expr_f].
    rewrite (skip_ws_id (mkP cPipe ((a ++ [cPipe]) ++ k) true)) by reflexivity. cbn [bind tok]. change (cPipe =? cOpen)%char with false. cbv iota. unfold parse_token.
    rewrite (skip_ws_id (mkP cPipe ((a ++ [cPipe]) ++ k) true)) by reflexivity. cbn [bind tok]. change (cPipe =? cPipe)%char with true. cbv iota.
    rewrite advance_enter. rewrite <- app_assoc. cbn [app]. change (fun s => token_loop_f (S (left s)) true [] s) with (token_loop true []).
    rewrite (token_quoted a k N1 N2 N3 []). rewrite bind_assoc. reflexivity.
  - (* list *)
    intros l t _ IH k _. destruct (IH k []) as [n Hn]. exists (S n). intros m Hm. destruct m as [|m]; [lia|]. cbn [app]. rewrite enter_cons by discriminate. cbn [bind parse_expr_f].
    rewrite (skip_ws_id (mkP cOpen (t ++ k) true)) by reflexivity. cbn [bind tok]. change (cOpen =? cOpen)%char with true. cbv iota. rewrite advance_enter.
    specialize (Hn m ltac:(lia)). rewrite bind_assoc in Hn.
    transitivity (bind (bind (enter (t ++ k)) (fun s => bind (skip_ws s) (parse_items_f m []))) (fun p => Ok (SList (fst p), snd p))); [|rewrite Hn; reflexivity].
    rewrite bind_assoc. apply bind_ext. intros s _. rewrite bind_assoc. reflexivity.
  - (* end of list *)
    intros g Hg k acc. exists 1. intros m Hm. destruct m as [|m]; [lia|]. rewrite <- app_assoc. cbn [app]. rewrite (skip_gap g _ Hg), enter_cons by discriminate. cbn [bind].
    rewrite skip_ws_id by reflexivity. cbn [bind parse_items_f tok]. change (cClose =? cNul)%char with false. change (cClose =? cClose)%char with true. cbn. rewrite app_nil_r. reflexivity.
  - (* one more item *)
    intros g e t l t' Hg We IHe Wl IHl D k acc. destruct (IHe (t' ++ k)) as [n1 H1].
    { intros a E1 E2. specialize (D a E1 E2). destruct t'; [destruct D|exact D]. }
    destruct (IHl k (acc ++ [e])) as [n2 H2]. exists (S (max n1 n2)). intros m Hm. destruct m as [|m]; [lia|].
    specialize (H1 m ltac:(lia)). specialize (H2 m ltac:(lia)).
    destruct (writes_first e t We) as [c [r [-> [C1 [C2 [C3 C4]]]]]].
    rewrite <- !app_assoc. rewrite (skip_gap g _ Hg). cbn [app] in *. rewrite enter_cons in * by exact C1. cbn [bind] in *. rewrite (skip_ws_id (mkP c _ true) C2). cbn [bind parse_items_f tok].
    destruct (Ascii.eqb_spec c cNul) as [|_]; [contradiction|]. destruct (Ascii.eqb_spec c cClose) as [|_]; [contradiction|]. cbn [negb andb].
    rewrite H1. rewrite (out_skip e (t' ++ k) (fun e s => parse_items_f m (acc ++ [e]) s)). etransitivity; [exact H2|]. rewrite <- app_assoc. reflexivity.
Qed.

(** ** Printing *)
Fixpoint plain_expr (e : sexpr) : Prop :=
  match e with Atom a => plain a | SList l => (fix go (l : list sexpr) := match l with [] => True | x :: l' => plain_expr x /\ go l' end) l end.
Lemma to_string_writes : forall e, plain_expr e -> writes e (to_string e).
Proof.
  fix IH 1. intros [a|l] P.
  - apply w_plain, P.
  - cbn [to_string]. apply w_list. cbn [plain_expr] in P.
    assert (G : forall first, writes_items l ((fix go (first : bool) (l : list sexpr) : text := match l with [] => [cClose] | x :: l' => (if first then [] else [cSpace]) ++ to_string x ++ go false l' end) first l)).
    2:{ apply G. }
    revert P. induction l as [|x l IHl]; intros P first.
    + apply (wi_nil []). constructor.
    + destruct P as [Px Pl]. specialize (IHl Pl false). apply wi_cons; [destruct first; repeat constructor|apply IH, Px|exact IHl|].
      intros a _ _. destruct l; cbn; tauto.
Qed.
Lemma writes_nonempty e t : writes e t -> t <> [].
Proof. intros H E. destruct (writes_first e t H) as [c [r [-> _]]]. discriminate. Qed.
