(** * Property C51: reading and printing S-expressions. *)
From Coq Require Import List Ascii String Bool Arith Lia.
Import ListNotations.
From Verif Require Import SExprModel SExprProofs.
Open Scope list_scope.

(** C51.  Printing an expression and reading it back gives the expression; the reader stops right behind it. *)
Theorem C51_round_trip :
  forall l k, plain_expr (SList l) ->
    parse_expr (open_parser (to_string (SList l) ++ k)) = Ok (SList l, mkP cSpace k true).
Proof.
  intros l k P. apply to_string_writes in P. destruct (proj1 parse_writes _ _ P k) as [n H]; [intros; discriminate|]. specialize (H n (le_n _)).
  apply (parse_expr_fuel n); [|discriminate]. cbn [to_string app] in *. rewrite enter_cons in H by discriminate. exact H.
Qed.
Print Assumptions C51_round_trip.
(** The same for an atom followed by a delimiter. *)
Theorem C51_round_trip_atom :
  forall a c k, plain a -> is_ws c = true \/ c = cOpen \/ c = cClose -> parse_expr (open_parser (a ++ c :: k)) = Ok (Atom a, mkP c k true).
Proof.
  intros a c k P D. destruct (proj1 parse_writes _ _ (w_plain a P) (c :: k)) as [n H]; [intros; cbn; tauto|]. specialize (H n (le_n _)).
  apply (parse_expr_fuel n); [|discriminate]. cbn [out] in H. rewrite (enter_cons c k) in H by (destruct D as [D|[->| ->]]; [apply ws_not_semi, D|discriminate|discriminate]). cbn [bind] in H.
  destruct (writes_first _ _ (w_plain a P)) as [d [r [-> [C1 _]]]]. cbn [app] in *. rewrite enter_cons in H by exact C1. exact H.
Qed.
Print Assumptions C51_round_trip_atom.
(** Any layout of an expression - white space, comments, quoted atoms - is read as that expression. *)
Theorem C51_layout :
  forall l t k, writes (SList l) t -> parse_expr (open_parser (t ++ k)) = Ok (SList l, mkP cSpace k true).
Proof.
  intros l t k W. destruct (proj1 parse_writes _ _ W k) as [n H]; [intros; discriminate|]. specialize (H n (le_n _)).
  apply (parse_expr_fuel n); [|discriminate]. destruct (writes_first _ _ W) as [d [r [-> [C1 _]]]]. cbn [app] in *. rewrite enter_cons in H by exact C1. exact H.
Qed.
Print Assumptions C51_layout.
(** A whole file is read as the sequence of its expressions, provided it does not start with a comment. *)
Theorem C51_file :
  forall l t, writes_file l t -> hd_error t <> Some cSemi -> read_all t = Ok l.
Proof.
  assert (Len : forall l t, writes_file l t -> List.length l <= List.length t).
  { intros l t W. induction W as [g Hg|g x t l t' Hg Wx _ IH]; [cbn; lia|]. destruct (writes_first _ _ Wx) as [c [r [-> _]]]. rewrite !app_length. cbn. lia. }
  assert (G : forall l t, writes_file l t -> forall acc n s, skip_ws s = bind (enter t) skip_ws -> List.length l < n -> read_loop n acc s = Ok (acc ++ l)).
  { intros l t W. induction W as [g Hg|g x t l t' Hg Wx Wl IH]; intros acc n s E Hn; (destruct n as [|n]; [cbn in Hn; lia|]).
    - rewrite <- (app_nil_r g), (skip_gap g [] Hg) in E. cbn [read_loop]. unfold is_eof. rewrite E. cbn. rewrite app_nil_r. reflexivity.
    - rewrite (skip_gap g _ Hg) in E. destruct (writes_first _ _ Wx) as [c [r [-> [C1 [C2 _]]]]]. cbn [app] in E. rewrite enter_cons in E by exact C1. cbn [bind] in E. rewrite (skip_ws_id (mkP c _ true) C2) in E.
      cbn [read_loop]. unfold is_eof. rewrite E. cbn [bind fst snd good negb]. pose proof (C51_layout x _ t' Wx) as P. cbn [app open_parser get rest] in P. change (parse_expr (mkP c (r ++ t') true) = Ok (SList x, mkP cSpace t' true)) in P. rewrite P. cbn [bind fst snd].
      rewrite (IH (acc ++ [SList x]) n); [rewrite <- app_assoc; reflexivity| |cbn in Hn; lia].
      rewrite skip_ws_eq. cbn [tok]. change (is_ws cSpace) with true. cbv iota. rewrite advance_enter. reflexivity. }
  intros l t W H. unfold read_all. cbv zeta. rewrite (G l t W); [reflexivity| |].
  - destruct t as [|c t]; [reflexivity|]. rewrite enter_cons by (intros ->; apply H; reflexivity). reflexivity.
  - apply Len in W. destruct t as [|c t]; cbn in *; lia.
Qed.
Print Assumptions C51_file.

(** Reading ends on every input, unless it hangs in a comment at the end of the input: the loops of the parser make
    progress (the model gives every loop as many rounds as there are characters left, and that suffices). *)
Theorem C51_terminates : (forall s, parse_expr s <> OutOfFuel) /\ (forall input, read_all input <> OutOfFuel).
Proof.
  assert (P : forall s, match parse_expr s with Ok (_, s') => left s' <= left s /\ (stuck (tok s) = false \/ tok s = cOpen -> left s' < left s) | OutOfFuel => False | _ => True end).
  { intros s. apply (proj1 (parse_total (2 * left s + 2))). lia. }
  split; [intros s E; specialize (P s); rewrite E in P; exact P|]. intros input. unfold read_all. cbv zeta. generalize (open_parser input) as s. generalize (@nil sexpr) as acc.
  assert (G : forall n acc s, left s < n -> read_loop n acc s <> OutOfFuel).
  { induction n as [|n IH]; intros acc s L; [lia|]. cbn [read_loop]. unfold is_eof. pose proof (skip_ws_post s) as W. destruct (skip_ws s) as [s1| | |]; cbn [bind fst snd]; try discriminate; [|destruct W].
    destruct W as [W1 [W2 _]]. destruct (negb (good s1)); [discriminate|]. specialize (P s1). destruct (parse_expr s1) as [[e s2]| | |] eqn:Ee; cbn [bind fst snd]; try discriminate; [|destruct P].
    destruct e as [a|l]; [discriminate|]. apply IH. enough (left s2 < left s1) by lia. apply P.
    unfold parse_expr in Ee. replace (2 * left s1 + 2) with (S (2 * left s1 + 1)) in Ee by lia. cbn [parse_expr_f] in Ee. rewrite (skip_ws_id s1 W2) in Ee. cbn [bind] in Ee.
    destruct (Ascii.eqb_spec (tok s1) cOpen) as [T|T]; [right; exact T|]. destruct (parse_token s1) as [[x y]| | |]; cbn in Ee; discriminate. }
  intros acc s. apply G. lia.
Qed.
Print Assumptions C51_terminates.

(** ** Concrete texts and refutations *)
Definition str (s : string) : text := list_ascii_of_string s.
Definition nl : string := String cNl EmptyString.
Lemma plain_check a : a <> [] -> forallb (fun c => negb (is_ws c || (c =? cOpen)%char || (c =? cClose)%char || (c =? cSemi)%char || (c =? cNul)%char)) a = true -> hd_error a <> Some cPipe -> plain a.
Proof.
  intros N H P. split; [exact N|]. split; [|exact P]. intros c Hc S. rewrite forallb_forall in H. specialize (H c Hc). apply negb_true_iff in H. rewrite !orb_false_iff in H.
  destruct H as [[[[H1 H2] H3] H4] H5]. destruct S as [S|[->|[->|[->| ->]]]]; [congruence|discriminate|discriminate|discriminate|discriminate].
Qed.
Definition ex : sexpr := SList [Atom (str "and"); SList [Atom (str "not"); Atom (str "x")]; SList []].
Example C51_nonvacuous : plain_expr ex /\ to_string ex = str "(and (not x) ())" /\ read_all (to_string ex) = Ok [ex].
Proof.
  split; [|split; reflexivity]. cbn [plain_expr ex]. repeat split; apply plain_check; cbn; congruence.
Qed.
Example C51_file_nonvacuous : writes_file [SList [Atom (str "a b")]; SList []] (str ("( |a b|)" ++ nl ++ "; comment" ++ nl ++ "()")%string).
Proof.
  apply (wf_cons [] [Atom (str "a b")] (str "( |a b|)") [SList []] (str (nl ++ "; comment" ++ nl ++ "()"))); [constructor| |].
  - apply (w_list _ (str " |a b|)")). apply (wi_cons (str " ") (Atom (str "a b")) (str "|a b|") [] (str ")")).
    + apply gap_ws; [reflexivity|constructor].
    + apply (w_quoted (str "a b")); cbn; intuition discriminate.
    + apply (wi_nil []). constructor.
    + intros a E1 E2. injection E1 as <-. discriminate.
  - apply (wf_cons (str (nl ++ "; comment" ++ nl)) [] (str "()") [] []); [|apply (w_list [] (str ")")), (wi_nil []); constructor|apply wf_nil; constructor].
    apply gap_ws; [reflexivity|]. apply (gap_comment (str " comment") []); [cbn; intuition discriminate|cbn; intuition discriminate|constructor].
Qed.
(** A comment in the last line of an input that does not end with a newline: the reader never returns. *)
Theorem C51_final_comment_refuted : exists l t, read_all (t ++ [cNl]) = Ok l /\ read_all t = Hang.
Proof. exists [SList [Atom (str "a")]], (str "(a) ; end"). split; reflexivity. Qed.
(** A comment at the very beginning of an input is read as atoms and rejected. *)
Theorem C51_first_comment_refuted : exists l t, read_all (cNl :: t) = Ok l /\ read_all t = Throw.
Proof. exists [SList [Atom (str "a")]], (str (";c" ++ nl ++ "(a)")). split; reflexivity. Qed.
(** Quoted atoms are printed without their quotes: the printed text denotes another expression. *)
Theorem C51_quoted_refuted : exists e t k, writes e t /\ (exists s, parse_expr (open_parser (t ++ k)) = Ok (e, s)) /\ exists e' s', parse_expr (open_parser (to_string e ++ k)) = Ok (e', s') /\ e' <> e.
Proof.
  exists (SList [Atom (str "a b")]), (str "(|a b|)"), []. split; [|split; [eexists; reflexivity|eexists; eexists; split; [reflexivity|discriminate]]].
  apply (w_list _ (str "|a b|)")). apply (wi_cons [] (Atom (str "a b")) (str "|a b|") [] (str ")")); [constructor|apply (w_quoted (str "a b")); cbn; intuition discriminate|apply (wi_nil []); constructor|].
  intros a E1 E2. injection E1 as <-. discriminate.
Qed.
(** An atom at the very end of the input cannot be read. *)
Theorem C51_final_atom_refuted : parse_expr (open_parser (str "a")) = Throw /\ exists s, parse_expr (open_parser (str "a ")) = Ok (Atom (str "a"), s).
Proof. split; [reflexivity|eexists; reflexivity]. Qed.
Print Assumptions C51_quoted_refuted.

(** C51: the white space that separates s-expressions is exactly the four
    characters tab, newline, carriage return and space (by character code). *)
Theorem C51_whitespace : forall c, is_ws c = true <-> In (Ascii.nat_of_ascii c) [9; 10; 13; 32]%nat.
Proof.
  intros c. split.
  - intros H. unfold is_ws in H. repeat (apply Bool.orb_prop in H; destruct H as [H|H]);
      apply Ascii.eqb_eq in H; subst; vm_compute; auto.
  - intros H. cbn [In] in H.
    repeat (destruct H as [H|H]; [rewrite <- (Ascii.ascii_nat_embedding c), <- H; vm_compute; reflexivity|]).
    destruct H.
Qed.
