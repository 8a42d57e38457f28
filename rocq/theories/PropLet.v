(** * Property C52: printing a term with let-bindings. *)
From Coq Require Import List Ascii String Bool Arith Lia.
Import ListNotations.
From Verif Require Import Syntax SExprModel SExprProofs PropSExpr LetModel LetProofs.
Open Scope list_scope.
Open Scope nat_scope.

(** C52.  Printing succeeds (no failing look-up, the traversal ends); the text, read as an S-expression and with its
    let-bindings expanded, is the term.  Conditions: the names of symbols and let-variables need no quoting, different
    conjunctions / disjunctions get different let-variables, and no leaf is named like one of them (or "let"). *)
Theorem C52_print_with_lets :
  forall leaf_text leaf sym_text let_id root,
    (forall t, subterm t root -> children t = [] -> writes (leaf t) (leaf_text t)) ->
    (forall f, plain (sym_text f) /\ sym_text f <> txt "let") ->
    (forall t, subterm t root -> plain (let_id t)) ->
    (forall t, subterm t root -> children t = [] -> ~ In (txt "let") (atoms (leaf t)) /\
       forall u, subterm u root -> is_junction u = true -> ~ In (let_id u) (atoms (leaf t))) ->
    (forall t u, subterm t root -> subterm u root -> is_junction t = true -> is_junction u = true -> let_id t = let_id u -> t = u) ->
    exists fuel0, forall fuel, fuel0 <= fuel -> exists t e,
      print_with_lets leaf_text sym_text let_id fuel root = Some t /\
      (forall c k, is_ws c = true \/ c = cOpen \/ c = cClose -> exists s, parse_expr (open_parser (t ++ c :: k)) = Ok (e, s)) /\
      expand [] e = plain_sexpr leaf sym_text root.
Proof.
  intros leaf_text leaf sym_text let_id root HL HS HI HLi Inj.
  destruct (print_with_lets_ok leaf_text leaf sym_text let_id root HL (fun f => proj1 (HS f)) HI (fun f => proj2 (HS f)) HLi Inj) as [fuel0 H].
  exists fuel0. intros fuel Hf. destruct (H fuel Hf) as [t [e [E [W X]]]]. exists t, e. split; [exact E|]. split; [|exact X]. intros c k Hc.
  destruct (proj1 parse_writes e t W (c :: k)) as [n Hn]; [intros; cbn; tauto|]. specialize (Hn n (le_n _)).
  assert (Ho : exists s, out e (c :: k) = Ok (e, s)).
  { destruct e; cbn [out]; [|eauto]. rewrite enter_cons; [cbn; eauto|]. destruct Hc as [Hc|[->| ->]]; [apply ws_not_semi, Hc|discriminate|discriminate]. }
  destruct Ho as [s Hs]. exists s. rewrite Hs in Hn. apply (parse_expr_fuel n); [|discriminate].
  destruct (writes_first e t W) as [d [r [-> [C1 _]]]]. cbn [app] in *. rewrite enter_cons in Hn by exact C1. exact Hn.
Qed.
Print Assumptions C52_print_with_lets.

(** ** A concrete term with a shared subterm *)
Module ExLet.
Definition a : term := Var (mkVar "a" TBase SBool).
Definition b : term := Var (mkVar "b" TBase SBool).
Definition j : term := mkAnd [a; b].
Definition root : term := mkOr [j; mkNot j].
Definition leaf_text (t : term) : text := match t with Var v => txt (vbase v) | _ => txt "c" end.
Definition leaf (t : term) : sexpr := Atom (leaf_text t).
Definition sym_text (f : fsym) : text := match f with FAnd => txt "and" | FOr => txt "or" | FNot => txt "not" | _ => txt "f" end.
Definition let_id (t : term) : text := match t with App FAnd _ => txt "l7" | _ => txt "l9" end.
Lemma subs t : subterm t root -> t = root \/ t = j \/ t = mkNot j \/ t = a \/ t = b.
Proof.
  assert (G : forall u, subterm t u -> (u = root \/ u = j \/ u = mkNot j \/ u = a \/ u = b) -> t = root \/ t = j \/ t = mkNot j \/ t = a \/ t = b).
  { intros u H. induction H as [|c u Hc _ IH]; [auto|]. intros [->|[->|[->|[->| ->]]]]; cbn in Hc; apply IH; intuition. }
  intros H. apply (G root H). auto.
Qed.
Ltac cases H := apply subs in H as [->|[->|[->|[->| ->]]]].
Example C52_printed : print_with_lets leaf_text sym_text let_id 20 root
  = Some (txt "(let ((l7 (and a b )))(let ((l7 (and a b )))(let ((l9 (or l7 (not l7 ) )))l9)))").
Proof. vm_compute. reflexivity. Qed.
Example C52_nonvacuous :
  (forall t, subterm t root -> children t = [] -> writes (leaf t) (leaf_text t)) /\
  (forall f, plain (sym_text f) /\ sym_text f <> txt "let") /\
  (forall t, subterm t root -> plain (let_id t)) /\
  (forall t, subterm t root -> children t = [] -> ~ In (txt "let") (atoms (leaf t)) /\
     forall u, subterm u root -> is_junction u = true -> ~ In (let_id u) (atoms (leaf t))) /\
  (forall t u, subterm t root -> subterm u root -> is_junction t = true -> is_junction u = true -> let_id t = let_id u -> t = u).
Proof.
  split; [|split; [|split; [|split]]].
  - intros t H C. cases H; try discriminate; apply w_plain, plain_check; cbn; congruence.
  - intros f. split; [destruct f; apply plain_check; cbn; congruence|destruct f; discriminate].
  - intros t H. cases H; apply plain_check; cbn; congruence.
  - intros t H C. cases H; try discriminate; (split; [cbn; intuition discriminate|]); intros u Hu J; cases Hu; try discriminate; cbn; intuition discriminate.
  - intros t u Ht Hu J1 J2 E. cases Ht; cases Hu; try discriminate; reflexivity.
Qed.
(** A variable named like the let-variable of a conjunction is captured (in golem the printed variables are normalized
    names, so this needs a caller that prints other terms). *)
Definition v7 : term := Var (mkVar "l7" TBase SBool).
Definition bad : term := mkOr [j; v7].
Theorem C52_capture_refuted :
  exists t e, print_with_lets leaf_text sym_text let_id 20 bad = Some t /\ writes e t /\ expand [] e <> plain_sexpr leaf sym_text bad.
Proof.
  eexists; exists (SList [Atom (txt "let"); SList [SList [Atom (txt "l7"); SList [Atom (txt "and"); Atom (txt "a"); Atom (txt "b")]]];
                     SList [Atom (txt "let"); SList [SList [Atom (txt "l9"); SList [Atom (txt "or"); Atom (txt "l7"); Atom (txt "l7")]]]; Atom (txt "l9")]]).
  split; [vm_compute; reflexivity|].
  assert (P : forall s, plain (txt s) -> writes (Atom (txt s)) (txt s)) by (intros s H; apply w_plain, H).
  assert (WJ : writes (SList [Atom (txt "and"); Atom (txt "a"); Atom (txt "b")]) (txt "(and a b )")).
  { apply (w_list _ (txt "and a b )")). apply (wi_cons [] _ (txt "and") _ (txt " a b )")); [constructor|apply P, plain_check; cbn; congruence| |intros; cbn; tauto].
    apply (wi_cons (txt " ") _ (txt "a") _ (txt " b )")); [repeat constructor|apply P, plain_check; cbn; congruence| |intros; cbn; tauto].
    apply (wi_cons (txt " ") _ (txt "b") _ (txt " )")); [repeat constructor|apply P, plain_check; cbn; congruence| |intros; cbn; tauto].
    apply (wi_nil (txt " ")). repeat constructor. }
  assert (WO : writes (SList [Atom (txt "or"); Atom (txt "l7"); Atom (txt "l7")]) (txt "(or l7 l7 )")).
  { apply (w_list _ (txt "or l7 l7 )")). apply (wi_cons [] _ (txt "or") _ (txt " l7 l7 )")); [constructor|apply P, plain_check; cbn; congruence| |intros; cbn; tauto].
    apply (wi_cons (txt " ") _ (txt "l7") _ (txt " l7 )")); [repeat constructor|apply P, plain_check; cbn; congruence| |intros; cbn; tauto].
    apply (wi_cons (txt " ") _ (txt "l7") _ (txt " )")); [repeat constructor|apply P, plain_check; cbn; congruence| |intros; cbn; tauto].
    apply (wi_nil (txt " ")). repeat constructor. }
  split; [|vm_compute; discriminate].
  apply (writes_let (txt "l7") _ _ (txt "l7") (txt "(and a b )") (txt "(let ((l9 (or l7 l7 )))l9)")); [apply plain_check; cbn; congruence|reflexivity|exact WJ|].
  apply (writes_let (txt "l9") _ _ (txt "l9") (txt "(or l7 l7 )") (txt "l9")); [apply plain_check; cbn; congruence|reflexivity|exact WO|apply P, plain_check; cbn; congruence].
Qed.
End ExLet.
