(** * Properties C19, C20, C21: time shifts, names, substitution. *)
From Verif Require Import Syntax Solver TransSys Names.
Open Scope string_scope.

(** C19.  Evaluating a shifted formula = evaluating the original on the shifted assignment;
    shifts add up; shifting by 0 is the identity; shifting is injective. *)
Theorem C19_shift_eval :
  forall k (r : valuation) t, eval r (shift k t) = eval (fun v => r (shiftv k v)) t.
Proof. intros. rewrite shift_rename. apply eval_rename, shiftv_sort. Qed.
Print Assumptions C19_shift_eval.

Theorem C19_shift_compose : forall a b t, shift a (shift b t) = shift (a + b) t.
Proof. intros. apply shift_shift. Qed.
Print Assumptions C19_shift_compose.

Theorem C19_shift_back : forall a t, shift (- a) (shift a t) = t.
Proof. intros. rewrite shift_shift, Z.add_opp_diag_l. apply shift_0. Qed.
Print Assumptions C19_shift_back.

(** The names computed by sendVarThroughTime are the names of the shifted structured variables, for
    every base name, as long as version numbers fit an [int]. *)
Theorem C19_shift_name :
  forall v k n, vtag v = TTime n -> int_range n = true -> int_range (n + k) = true ->
    send_var (encode v) k = Some (encode (shiftv k v)).
Proof.
  intros [b t s] k n Ht R R'. simpl in Ht. subst t. unfold encode, shiftv; simpl.
  apply send_var_versioned; assumption.
Qed.
Print Assumptions C19_shift_name.

Theorem C19_version_zero_name :
  forall b s, version_zero b = encode (mkVar b (TTime 0) s).
Proof. reflexivity. Qed.
Print Assumptions C19_version_zero_name.

(** C20.  Printing and parsing names. *)
Theorem C20_version_roundtrip :
  forall b n, int_range n = true ->
    unversioned (b ++ "##" ++ to_string n) = Some b /\
    version_number (b ++ "##" ++ to_string n) = Some n.
Proof. intros b n R. pose proof (version_parts b n) as [H1 H2]. auto. Qed.
Print Assumptions C20_version_roundtrip.

Theorem C20_source_roundtrip : forall b i, to_base (to_source b i) = Some b.
Proof. exact to_base_source. Qed.
Print Assumptions C20_source_roundtrip.

Theorem C20_target_roundtrip : forall b, is_versioned b = false -> to_base (to_target b) = Some b.
Proof.
  intros b H. apply to_base_target. unfold is_versioned in H. destruct (rfind2 hash b); congruence.
Qed.
Print Assumptions C20_target_roundtrip.

(** Different (base, tag, version) triples never share a name, for base names without "##" and "__"
    (all names golem itself generates; see C20_generated_names). *)
Theorem C20_names_injective :
  forall v w, plain (vbase v) = true -> plain (vbase w) = true -> vsort v = vsort w ->
    encode v = encode w -> v = w.
Proof. exact encode_inj. Qed.
Print Assumptions C20_names_injective.

Theorem C20_generated_names :
  forall n, plain ("x#" ++ to_string n) = true /\ plain ("aux#" ++ to_string n) = true
         /\ plain ("gaux#" ++ to_string n) = true.
Proof.
  intros n. repeat split.
  - destruct (plain_numbered "x" n eq_refl) as [H|[[|a [|b q]] H]]; [exact H|discriminate..].
  - destruct (plain_numbered "aux" n eq_refl) as [H|[[|a [|b [|c [|d q]]]] H]]; [exact H|discriminate..].
  - destruct (plain_numbered "gaux" n eq_refl) as [H|[[|a [|b [|c [|d [|e q]]]]] H]]; [exact H|discriminate..].
Qed.
Print Assumptions C20_generated_names.

Theorem C20_generated_distinct :
  forall p n m, p ++ to_string n = p ++ to_string m -> n = m.
Proof. intros p n m H. apply app_inj_l in H. apply to_string_inj, H. Qed.
Print Assumptions C20_generated_distinct.

(** Without the condition on base names the encoding is not injective: a user variable whose base
    name ends in "__s" would collide with a source variable. *)
Theorem C20_unrestricted_refuted :
  exists v w, vsort v = vsort w /\ encode v = encode w /\ v <> w.
Proof.
  exists (mkVar "x__s" (TTime 0) SInt), (mkVar "x" (TSrc 0) SInt).
  split; [reflexivity|]. split; [reflexivity|discriminate].
Qed.
Print Assumptions C20_unrestricted_refuted.

(** C21.  Simultaneous substitution: [upd r s] gives each replaced variable the value of its
    replacement under [r]. *)
Theorem C21_substitution :
  forall s (r r' : valuation) t,
    well_sorted s ->
    (forall v u, lookup v s = Some u -> r' v = eval r u) ->
    (forall v, lookup v s = None -> r' v = r v) ->
    eval r (subst s t) = eval r' t.
Proof.
  intros s r r' t W H1 H2. rewrite eval_subst by exact W. apply eval_agree. intros v _.
  unfold upd. destruct (lookup v s) as [u|] eqn:E; [symmetry; apply H1, E|symmetry; apply H2, E].
Qed.
Print Assumptions C21_substitution.

(** No capture, no dangling variables: the variables of the result. *)
Theorem C21_substitution_vars :
  forall s t v, In v (vars (subst s t)) ->
    (In v (vars t) /\ lookup v s = None) \/
    (exists w u, In w (vars t) /\ lookup w s = Some u /\ In v (vars u)).
Proof.
  intros s t v H. apply in_vars_subst in H as [w [Hw H]]. destruct (lookup w s) as [u|] eqn:E.
  - right. exists w, u. auto.
  - left. subst w. auto.
Qed.
Print Assumptions C21_substitution_vars.

Module ExNames.
Definition x := mkVar "x#0" (TTime 0) SInt.
Definition y := mkVar "x#1" (TTime 0) SInt.
Example C19_C20_nonvacuous :
  send_var "x#0##3" (-4) = Some "x#0##-1" /\ version_number "x#0##-1" = Some (-1)%Z /\
  to_base "x#0__s##12" = Some "x#0" /\ plain "x#0" = true.
Proof. vm_compute. auto. Qed.
(** A swap is simultaneous. *)
Example C21_nonvacuous :
  subst [(x, Var y); (y, Var x)] (mkLeq (Var x) (Var y)) = mkLeq (Var y) (Var x).
Proof. vm_compute. reflexivity. Qed.
End ExNames.
