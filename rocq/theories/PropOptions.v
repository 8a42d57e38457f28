(** * C78: the command line. *)
From Coq Require Import List String ZArith Bool Lia.
Import ListNotations.
From Verif Require Import Names OptionsModel.
Open Scope string_scope.
Open Scope list_scope.

(** ** Specification *)
(** The arguments of the options of one kind, in order. *)
Fixpoint args_of {A : Type} (f : token -> option A) (ts : list token) : list A :=
  match ts with [] => [] | t :: ts' => match f t with Some a => a :: args_of f ts' | None => args_of f ts' end end.
Definition engine_arg t := match t with OEngine a => Some a | _ => None end.
Definition logic_arg t := match t with OLogic a => Some a | _ => None end.
Definition input_arg t := match t with OInput a => Some a | _ => None end.
Definition flow_arg t := match t with OFlow a => Some a | _ => None end.
Definition proof_arg t := match t with OProof a => Some a | _ => None end.
Definition backend_arg t := match t with OBackend a => Some a | _ => None end.
Definition compute_arg t := match t with OComputeWitness a => Some a | _ => None end.
Definition forced_arg t := match t with OForcedCovering a => Some a | _ => None end.
Definition lra_arg t := match t with OLraItp a => Some a | _ => None end.
(** The last setting is in force; without one the feature is off. *)
Definition last_enables (l : list (option string)) : Prop := exists l0 a, l = l0 ++ [a] /\ ~ (exists w, a = Some w /\ In w ["no"; "false"; "disable"]).
(** The options that end the parsing. *)
Definition stops (t : token) : Prop := t = OHelp \/ t = OVersion \/ t = OBad \/ t = OVerbose None.
(** The verbosity: the last --verbose, and one more for each later -v. *)
Inductive verbosity (atoi : string -> Z) : list token -> Z -> Prop :=
| vb_none ts : (forall a, ~ In (OVerbose a) ts) -> verbosity atoi ts (Z.of_nat (List.length (filter (fun t => match t with OV => true | _ => false end) ts)))
| vb_last ts a us : (forall b, ~ In (OVerbose b) us) -> verbosity atoi (ts ++ OVerbose (Some a) :: us) (atoi a + Z.of_nat (List.length (filter (fun t => match t with OV => true | _ => false end) us))).
Definition switch (o : opts) (k : string) (P : Prop) : Prop := (get o k = Some "true" /\ P) \/ (get o k = None /\ ~ P).
(** The meaning of the options. *)
Record options_ok (atoi : string -> Z) (ts : list token) (rest : list string) (o : opts) : Prop := {
  ok_engine : get o "engine" = hd_error (args_of engine_arg ts);
  ok_logic : get o "logic" = hd_error (args_of logic_arg ts);
  ok_input : get o "input" = hd_error (args_of input_arg ts ++ rest);
  ok_flow : get o "flow" = hd_error (args_of flow_arg ts);
  ok_proof : get o "proof-format" = hd_error (args_of proof_arg ts);
  ok_backend : get o "termination-backend" = hd_error (args_of backend_arg ts);
  ok_validate : switch o "validate" (In OValidate ts);
  ok_print : switch o "print-witness" (In OPrintWitness ts);
  ok_compute : switch o "compute-witness" (In OValidate ts \/ In OPrintWitness ts \/ last_enables (args_of compute_arg ts));
  ok_forced : switch o "forced-covering" (last_enables (args_of forced_arg ts));
  ok_useqe : switch o "tpa.use-qe" (exists a, In (OUseQE a) ts);
  ok_force : switch o "force-ts" (In OForceTS ts);
  ok_simplify : switch o "simplify-nested" (In OSimplifyNested ts);
  ok_lra : get o "lra-itp-algorithm" = Some (to_string (last (map atoi (args_of lra_arg ts)) 0%Z));
  ok_verbose : exists n, get o "verbose" = Some (to_string n) /\ verbosity atoi ts n
}.

(** ** The map *)
Lemma get_add o k v k' : get (add o k v) k' = match get o k' with Some w => Some w | None => if String.eqb k k' then Some v else None end.
Proof.
  unfold add. destruct (get o k) as [w|] eqn:E.
  - destruct (get o k') eqn:F; [reflexivity|]. destruct (String.eqb_spec k k') as [<-|]; [congruence|reflexivity].
  - unfold get. clear E. induction o as [|[a b] o IH]; cbn [app find fst].
    + cbn [option_map]. destruct (String.eqb k k'); reflexivity.
    + destruct (String.eqb a k'); [reflexivity|]. exact IH.
Qed.
Lemma get_add_if b o k k' : get (add_if b o k) k' = match get o k' with Some w => Some w | None => if b && String.eqb k k' then Some "true" else None end.
Proof. unfold add_if. destruct b; [apply get_add|]. destruct (get o k'); reflexivity. Qed.

(** ** The loop *)
Ltac each t := destruct t as [| | |a|a|a|a|a|a| | | | |a|a|a|a|[a|]|]; cbn [pstep]; intros H; try discriminate H; injection H as <-.
Definition keyed (t : token) : option (string * string) :=
  match t with
  | OEngine a => Some ("engine", a) | OLogic a => Some ("logic", a) | OInput a => Some ("input", a)
  | OFlow a => Some ("flow", a) | OProof a => Some ("proof-format", a) | OBackend a => Some ("termination-backend", a) | _ => None
  end.
Lemma loop_opts atoi k f : (forall t, f t = match keyed t with Some (k', a) => if String.eqb k' k then Some a else None | None => None end) ->
  forall ts s s', ploop atoi s ts = inl s' -> get (p_opts s') k = hd_error ((match get (p_opts s) k with Some v => [v] | None => [] end) ++ args_of f ts).
Proof.
  intros Hf. induction ts as [|t ts IH]; intros s s' E; cbn [ploop args_of] in *.
  - injection E as <-. destruct (get (p_opts s) k); reflexivity.
  - destruct (pstep atoi s t) as [s1|] eqn:P; [|discriminate]. rewrite (IH s1 s' E). rewrite Hf. revert P. each t; cbn [p_opts keyed]; try reflexivity;
      rewrite get_add; destruct (get (p_opts s) k); cbn [app hd_error]; try reflexivity; destruct (String.eqb _ k); reflexivity.
Qed.
Lemma loop_flag atoi (get_f : pst -> bool) (is_t : token -> bool) :
  (forall s t s1, pstep atoi s t = inl s1 -> get_f s1 = get_f s || is_t t) ->
  forall ts s s', ploop atoi s ts = inl s' -> get_f s' = get_f s || existsb is_t ts.
Proof.
  intros Hf. induction ts as [|t ts IH]; intros s s' E; cbn [ploop existsb] in *.
  - injection E as <-. rewrite orb_false_r. reflexivity.
  - destruct (pstep atoi s t) as [s1|] eqn:P; [|discriminate]. rewrite (IH s1 s' E), (Hf _ _ _ P), orb_assoc. reflexivity.
Qed.
Lemma loop_last atoi {A B : Type} (get_f : pst -> B) (f : token -> option A) (g : A -> B) :
  (forall s t s1, pstep atoi s t = inl s1 -> get_f s1 = match f t with Some a => g a | None => get_f s end) ->
  forall ts s s', ploop atoi s ts = inl s' -> get_f s' = last (map g (args_of f ts)) (get_f s).
Proof.
  intros Hf. induction ts as [|t ts IH]; intros s s' E; cbn [ploop args_of] in *.
  - injection E as <-. reflexivity.
  - destruct (pstep atoi s t) as [s1|] eqn:P; [|discriminate]. rewrite (IH s1 s' E). pose proof (Hf _ _ _ P) as X. destruct (f t) as [a|]; [|rewrite X; reflexivity].
    rewrite X. cbn [map]. destruct (map g (args_of f ts)) as [|b l] eqn:M; [reflexivity|]. cbn [last]. clear. revert b. induction l as [|c l IH]; intros b; [reflexivity|]. cbn [last]. destruct l; [reflexivity|]. apply (IH c).
Qed.
Lemma loop_verbose atoi ts s s' : ploop atoi s ts = inl s' ->
  ((forall a, ~ In (OVerbose a) ts) /\ p_verbose s' = p_verbose s + Z.of_nat (List.length (filter (fun t => match t with OV => true | _ => false end) ts)))%Z \/
  (exists pre a us, ts = pre ++ OVerbose (Some a) :: us /\ (forall b, ~ In (OVerbose b) us) /\ p_verbose s' = atoi a + Z.of_nat (List.length (filter (fun t => match t with OV => true | _ => false end) us)))%Z.
Proof.
  revert s. induction ts as [|t ts IH]; intros s E; cbn [ploop] in E.
  - injection E as <-. left. split; [intros a []|]. cbn. lia.
  - destruct (pstep atoi s t) as [s1|] eqn:P; [|discriminate]. destruct (IH s1 E) as [[N V]|[pre [a [us [-> [N V]]]]]].
    + revert P. each t; cbn [p_verbose] in V; try (left; split; [intros b [X|X]; [discriminate X|apply (N b X)]|exact V]).
      * right. exists [], a, ts. auto.
      * left. split; [intros b [X|X]; [discriminate X|apply (N b X)]|]. cbn [filter List.length]. lia.
    + right. exists (t :: pre), a, us. auto.
Qed.
Lemma loop_stop atoi ts s : (exists r, ploop atoi s ts = inr r) <-> Exists stops ts.
Proof.
  revert s. induction ts as [|t ts IH]; intros s; cbn [ploop].
  - split; [intros [r E]; discriminate|intros E; inversion E].
  - rewrite Exists_cons. destruct t as [| | |a|a|a|a|a|a| | | | |a|a|a|a|[a|]|]; cbn [pstep]; try rewrite IH;
      try (split; [intros H; right; exact H|intros [[H|[H|[H|H]]]|H]; try discriminate H; exact H]);
      (split; [intros _; left; unfold stops; auto|intros _; eexists; reflexivity]).
Qed.

Lemma disable_spec w : disable_keyword w = true <-> In w ["no"; "false"; "disable"].
Proof. unfold disable_keyword. rewrite !orb_true_iff, !String.eqb_eq. cbn [In]. intuition. Qed.
Notation enab := (fun a : option string => match a with Some w => negb (disable_keyword w) | None => true end).
Lemma enables l : last (map enab l) false = true <-> last_enables l.
Proof.
  unfold last_enables. destruct l as [|x l _] using rev_ind.
  - split; [discriminate|]. intros [l0 [a [E _]]]. destruct l0; discriminate E.
  - rewrite map_app. cbn [map]. rewrite last_last. split.
    + intros H. exists l, x. split; [reflexivity|]. intros [w [-> K]]. apply disable_spec in K. rewrite K in H. discriminate.
    + intros [l0 [a [E K]]]. apply app_inj_tail in E as [_ ->]. destruct a as [w|]; [|reflexivity]. destruct (disable_keyword w) eqn:D; [|reflexivity]. destruct K. exists w. split; [reflexivity|]. apply disable_spec, D.
Qed.
Lemma existsb_In (p : token -> bool) t ts : (forall u, p u = true <-> u = t) -> (existsb p ts = true <-> In t ts).
Proof. intros H. rewrite existsb_exists. split; [intros [u [Hu E]]; apply H in E as ->; exact Hu|intros Ht; exists t; split; [exact Ht|apply H; reflexivity]]. Qed.
Lemma switch_of o k (b : bool) (P : Prop) : get o k = (if b then Some "true" else None) -> (b = true <-> P) -> switch o k P.
Proof. intros E H. unfold switch. rewrite E. destruct b; [left; split; [reflexivity|apply H; reflexivity]|right; split; [reflexivity|]]. intros X. apply H in X. discriminate. Qed.

(** Parsing succeeds exactly if no option ends it and there is at most one file name; then every option has its meaning. *)
Theorem C78_options :
  forall atoi ts rest o, parse atoi ts rest = PDone o -> options_ok atoi ts rest o.
Proof.
  intros atoi ts rest o E. unfold parse in E. destruct (ploop atoi pinit ts) as [s|r] eqn:L; [|exfalso; clear - L E; subst r; revert L; generalize pinit; induction ts as [|t ts IH]; intros s L; cbn [ploop] in L; [discriminate|]; destruct (pstep atoi s t) eqn:P; [apply (IH _ L)|]; injection L as ->; destruct t as [| | |a|a|a|a|a|a| | | | |a|a|a|a|[a|]|]; cbn [pstep] in P; discriminate P].
  assert (Ok : forall k f, (forall t, f t = match keyed t with Some (k', a) => if String.eqb k' k then Some a else None | None => None end) -> get (p_opts s) k = hd_error (args_of f ts)) by (intros k f Hf; apply (loop_opts atoi k f Hf ts pinit s L)).
  assert (No : forall k, (forall t a, keyed t <> Some (k, a)) -> get (p_opts s) k = None).
  { intros k Hk. rewrite (Ok k (fun _ => None)); [clear; induction ts; auto|]. intros t. destruct (keyed t) as [[k' a]|] eqn:K; [|reflexivity]. destruct (String.eqb_spec k' k) as [->|]; [|reflexivity]. destruct (Hk t a K). }
  assert (Fl : forall get_f is_t, (forall s t s1, pstep atoi s t = inl s1 -> get_f s1 = get_f s || is_t t) -> get_f pinit = false -> get_f s = existsb is_t ts) by (intros get_f is_t Hf H0; rewrite (loop_flag atoi get_f is_t Hf ts pinit s L), H0; reflexivity).
  assert (Ev : p_validate s = existsb (fun t => match t with OValidate => true | _ => false end) ts) by (apply Fl; [|reflexivity]; intros x t x1; each t; cbn; rewrite ?orb_false_r, ?orb_true_r; reflexivity).
  assert (Ep : p_print s = existsb (fun t => match t with OPrintWitness => true | _ => false end) ts) by (apply Fl; [|reflexivity]; intros x t x1; each t; cbn; rewrite ?orb_false_r, ?orb_true_r; reflexivity).
  assert (Ef : p_force s = existsb (fun t => match t with OForceTS => true | _ => false end) ts) by (apply Fl; [|reflexivity]; intros x t x1; each t; cbn; rewrite ?orb_false_r, ?orb_true_r; reflexivity).
  assert (Es : p_simplify s = existsb (fun t => match t with OSimplifyNested => true | _ => false end) ts) by (apply Fl; [|reflexivity]; intros x t x1; each t; cbn; rewrite ?orb_false_r, ?orb_true_r; reflexivity).
  assert (Eq : p_useqe s = existsb (fun t => match t with OUseQE _ => true | _ => false end) ts) by (apply Fl; [|reflexivity]; intros x t x1; each t; cbn; rewrite ?orb_false_r, ?orb_true_r; reflexivity).
  assert (Ec : p_compute s = last (map enab (args_of compute_arg ts)) false) by (refine (loop_last atoi p_compute compute_arg enab _ ts pinit s L); intros x t x1; each t; reflexivity).
  assert (Eg : p_forced s = last (map enab (args_of forced_arg ts)) false) by (refine (loop_last atoi p_forced forced_arg enab _ ts pinit s L); intros x t x1; each t; reflexivity).
  assert (El : p_lra s = last (map atoi (args_of lra_arg ts)) 0%Z) by (refine (loop_last atoi p_lra lra_arg atoi _ ts pinit s L); intros x t x1; each t; reflexivity).
  assert (Vb : verbosity atoi ts (p_verbose s)).
  { destruct (loop_verbose atoi ts pinit s L) as [[N V]|[pre [a [us [-> [N V]]]]]]; rewrite V; [apply (vb_none atoi ts N)|apply (vb_last atoi pre a us N)]. }
  assert (Iv : existsb (fun t => match t with OValidate => true | _ => false end) ts = true <-> In OValidate ts) by (apply existsb_In; intros []; split; congruence).
  assert (Ip : existsb (fun t => match t with OPrintWitness => true | _ => false end) ts = true <-> In OPrintWitness ts) by (apply existsb_In; intros []; split; congruence).
  assert (If : existsb (fun t => match t with OForceTS => true | _ => false end) ts = true <-> In OForceTS ts) by (apply existsb_In; intros []; split; congruence).
  assert (Is : existsb (fun t => match t with OSimplifyNested => true | _ => false end) ts = true <-> In OSimplifyNested ts) by (apply existsb_In; intros []; split; congruence).
  assert (Iq : existsb (fun t => match t with OUseQE _ => true | _ => false end) ts = true <-> exists a, In (OUseQE a) ts).
  { rewrite existsb_exists. split; [intros [u [Hu Q]]; destruct u; try discriminate; eauto|intros [a Ha]; exists (OUseQE a); auto]. }
  assert (X : exists o0, (forall k, get o0 k = if String.eqb "input" k then hd_error (args_of input_arg ts ++ rest) else get (p_opts s) k) /\
     o = add (add (add_if (p_simplify s) (add_if (p_force s) (add_if (p_useqe s) (add_if (p_forced s) (add_if (p_validate s || p_compute s || p_print s) (add_if (p_print s) (add_if (p_validate s) o0 "validate") "print-witness") "compute-witness") "forced-covering") "tpa.use-qe") "force-ts") "simplify-nested") "lra-itp-algorithm" (to_string (p_lra s))) "verbose" (to_string (p_verbose s))).
  { pose proof (Ok "input" input_arg ltac:(intros []; reflexivity)) as Ei. unfold pfinish in E. destruct rest as [|f [|f' rest]]; [| |discriminate].
    - exists (p_opts s). split; [|injection E as <-; reflexivity]. intros k. rewrite app_nil_r. destruct (String.eqb_spec "input" k) as [<-|]; [exact Ei|reflexivity].
    - destruct (get (p_opts s) "input") eqn:G; [discriminate|]. exists (add (p_opts s) "input" f). split; [|injection E as <-; reflexivity]. intros k. rewrite get_add.
      destruct (String.eqb_spec "input" k) as [<-|]; [|destruct (get (p_opts s) k); reflexivity]. rewrite G. destruct (args_of input_arg ts); [reflexivity|discriminate Ei]. }
  destruct X as [o0 [Go ->]].
  assert (N : forall k, String.eqb "input" k = false -> (forall t a, keyed t <> Some (k, a)) -> get o0 k = None) by (intros k Hk Kk; rewrite Go, Hk; apply No, Kk).
  assert (K : forall k, In k ["validate"; "print-witness"; "compute-witness"; "forced-covering"; "tpa.use-qe"; "force-ts"; "simplify-nested"; "lra-itp-algorithm"; "verbose"] -> get o0 k = None).
  { intros k Hk. apply N; cbn in Hk; decompose [or] Hk; subst; try contradiction; try reflexivity; intros t0 a0; destruct t0; cbn; congruence. }
  split.
  1-6: rewrite !get_add, !get_add_if, Go; cbn [String.eqb Ascii.eqb Bool.eqb]; rewrite !andb_false_r.
  1: rewrite (Ok "engine" engine_arg ltac:(intros []; reflexivity)); destruct (args_of engine_arg ts); reflexivity.
  1: rewrite (Ok "logic" logic_arg ltac:(intros []; reflexivity)); destruct (args_of logic_arg ts); reflexivity.
  1: destruct (args_of input_arg ts ++ rest); reflexivity.
  1: rewrite (Ok "flow" flow_arg ltac:(intros []; reflexivity)); destruct (args_of flow_arg ts); reflexivity.
  1: rewrite (Ok "proof-format" proof_arg ltac:(intros []; reflexivity)); destruct (args_of proof_arg ts); reflexivity.
  1: rewrite (Ok "termination-backend" backend_arg ltac:(intros []; reflexivity)); destruct (args_of backend_arg ts); reflexivity.
  all: rewrite ?Ev, ?Ep, ?Ec, ?Eg, ?Eq, ?Ef, ?Es, ?El.
  1: apply (switch_of _ _ (p_validate s)); [|rewrite Ev; exact Iv].
  2: apply (switch_of _ _ (p_print s)); [|rewrite Ep; exact Ip].
  3: apply (switch_of _ _ (p_validate s || p_compute s || p_print s)); [|rewrite !orb_true_iff, Ev, Ep, Ec, Iv, Ip, enables; tauto].
  4: apply (switch_of _ _ (p_forced s)); [|rewrite Eg; apply enables].
  5: apply (switch_of _ _ (p_useqe s)); [|rewrite Eq; exact Iq].
  6: apply (switch_of _ _ (p_force s)); [|rewrite Ef; exact If].
  7: apply (switch_of _ _ (p_simplify s)); [|rewrite Es; exact Is].
  9: exists (p_verbose s); split; [|exact Vb].
  all: rewrite !get_add, !get_add_if, K by (cbn; auto 12); cbn [String.eqb Ascii.eqb Bool.eqb]; rewrite ?andb_false_r, ?andb_true_r.
  all: rewrite <- ?Ev, <- ?Ep, <- ?Ec, <- ?Eg, <- ?Eq, <- ?Ef, <- ?Es, <- ?El.
  all: repeat match goal with |- context [if ?b then _ else _] => destruct b end; reflexivity.
Qed.
Print Assumptions C78_options.

(** What happens otherwise: the first option that ends the parsing decides; if there is none, a second file name is an error. *)
Theorem C78_outcome :
  forall atoi ts rest,
    ((exists o, parse atoi ts rest = PDone o) <-> Forall (fun t => ~ stops t) ts /\ (rest = [] \/ exists f, rest = [f] /\ forall a, ~ In (OInput a) ts)) /\
    (forall pre t us, ts = pre ++ t :: us -> Forall (fun t => ~ stops t) pre -> stops t ->
      parse atoi ts rest = match t with OHelp | OVersion => PExit 0 | OBad => PAbort | _ => PNull end) /\
    (Forall (fun t => ~ stops t) ts -> (exists o, parse atoi ts rest = PDone o) \/ parse atoi ts rest = PExit 1).
Proof.
  intros atoi ts rest.
  assert (P1 : Forall (fun t => ~ stops t) ts -> exists s, ploop atoi pinit ts = inl s).
  { intros F. destruct (ploop atoi pinit ts) as [s|r] eqn:L; [eauto|]. exfalso. assert (X : Exists stops ts) by (apply (loop_stop atoi ts pinit); eauto). apply Exists_exists in X as [t [Ht St]]. rewrite Forall_forall in F. apply (F t Ht St). }
  assert (P2 : forall s, ploop atoi pinit ts = inl s -> get (p_opts s) "input" = hd_error (args_of input_arg ts)) by (intros s L; apply (loop_opts atoi "input" input_arg (fun t => ltac:(destruct t; reflexivity)) ts pinit s L)).
  assert (P3 : args_of input_arg ts = [] <-> forall a, ~ In (OInput a) ts).
  { clear. induction ts as [|t ts IH]; cbn [args_of In]; [split; [intros _ a []|auto]|]. destruct t; cbn [input_arg]; try (rewrite IH; split; [intros H b [X|X]; [discriminate X|apply (H b X)]|intros H b X; apply (H b); right; exact X]).
    split; [discriminate|intros H; destruct (H a); left; reflexivity]. }
  split; [|split].
  - split.
    + intros [o E]. unfold parse in E. destruct (ploop atoi pinit ts) as [s|r] eqn:L.
      * split; [apply Forall_forall; intros t Ht St; assert (X : exists r, ploop atoi pinit ts = inr r) by (apply loop_stop; apply Exists_exists; eauto); destruct X; congruence|].
        unfold pfinish in E. destruct rest as [|f [|f' rest]]; [left; reflexivity| |discriminate]. right. exists f. split; [reflexivity|]. apply P3. pose proof (P2 s eq_refl) as X. destruct (get (p_opts s) "input"); [discriminate|]. destruct (args_of input_arg ts); [reflexivity|discriminate X].
      * exfalso. clear - L E. subst r. revert L. generalize pinit. induction ts as [|t ts IH]; intros s L; cbn [ploop] in L; [discriminate|]. destruct (pstep atoi s t) eqn:P; [apply (IH _ L)|]. injection L as ->. destruct t as [| | |a|a|a|a|a|a| | | | |a|a|a|a|[a|]|]; cbn [pstep] in P; discriminate P.
    + intros [F R]. destruct (P1 F) as [s L]. unfold parse, pfinish. rewrite L. destruct R as [->|[f [-> R]]]; [eauto|]. rewrite (P2 s L). apply P3 in R. rewrite R. cbn [hd_error]. eauto.
  - intros pre t us -> F St. unfold parse.
    assert (X : ploop atoi pinit (pre ++ t :: us) = inr (match t with OHelp | OVersion => PExit 0 | OBad => PAbort | _ => PNull end)); [|rewrite X; reflexivity].
    clear - F St. generalize pinit. induction pre as [|u pre IH]; intros s; cbn [app ploop].
    + destruct St as [->|[->|[->| ->]]]; reflexivity.
    + apply Forall_cons_iff in F as [Nu F]. destruct (pstep atoi s u) as [s1|r] eqn:P; [apply (IH F)|]. exfalso. apply Nu. unfold stops. destruct u as [| | |a|a|a|a|a|a| | | | |a|a|a|a|[a|]|]; cbn [pstep] in P; try discriminate P; auto.
  - intros F. destruct (P1 F) as [s L]. unfold parse, pfinish. rewrite L. destruct rest as [|f [|f' rest]]; [eauto| |auto]. destruct (get (p_opts s) "input"); eauto.
Qed.
Print Assumptions C78_outcome.

(** The order of options of different kinds does not matter. *)
Definition kind (t : token) : nat :=
  match t with
  | OHelp => 0 | OVersion => 1 | OBad => 2 | OEngine _ => 3 | OLogic _ => 4 | OInput _ => 5 | OFlow _ => 6 | OProof _ => 7 | OBackend _ => 8 | OValidate => 9 | OPrintWitness => 10
  | OForceTS => 11 | OSimplifyNested => 12 | OComputeWitness _ => 13 | OForcedCovering _ => 14 | OUseQE _ => 15 | OLraItp _ => 16 | OVerbose _ | OV => 17
  end.
Definition of_kind (k : nat) (ts : list token) : list token := filter (fun t => Nat.eqb (kind t) k) ts.
Definition keys : list string :=
  ["engine"; "logic"; "input"; "flow"; "proof-format"; "termination-backend"; "validate"; "print-witness"; "compute-witness"; "forced-covering"; "tpa.use-qe"; "force-ts"; "simplify-nested"; "lra-itp-algorithm"; "verbose"].
Lemma args_kind {A} (f : token -> option A) k : (forall t a, f t = Some a -> kind t = k) -> forall ts, args_of f ts = args_of f (of_kind k ts).
Proof.
  intros H. induction ts as [|t ts IH]; [reflexivity|]. cbn [args_of of_kind filter]. fold (of_kind k ts). destruct (Nat.eqb_spec (kind t) k) as [E|E].
  - cbn [args_of]. rewrite IH. reflexivity.
  - destruct (f t) as [a|] eqn:F; [destruct (E (H t a F))|exact IH].
Qed.
Lemma in_kind t ts : In t ts <-> In t (of_kind (kind t) ts).
Proof. unfold of_kind. rewrite filter_In, Nat.eqb_refl. tauto. Qed.
Definition vstep (atoi : string -> Z) (n : Z) (t : token) : Z := match t with OVerbose (Some a) => atoi a | OV => (n + 1)%Z | _ => n end.
Lemma verbosity_fold atoi ts n : verbosity atoi ts n -> n = fold_left (vstep atoi) (of_kind 17 ts) 0%Z.
Proof.
  assert (X : forall us, (forall a, ~ In (OVerbose a) us) -> forall m, fold_left (vstep atoi) (of_kind 17 us) m = (m + Z.of_nat (List.length (filter (fun t => match t with OV => true | _ => false end) us)))%Z).
  { induction us as [|u us IH]; intros N m; [cbn; lia|]. assert (N' : forall a, ~ In (OVerbose a) us) by (intros a Ha; apply (N a); right; exact Ha).
    unfold of_kind. cbn [filter]. fold (of_kind 17 us). destruct u; cbn [kind Nat.eqb fold_left vstep List.length]; try apply (IH N'); [destruct (N a); left; reflexivity|]. rewrite (IH N'). lia. }
  intros [us N|us a vs N].
  - rewrite (X us N). lia.
  - unfold of_kind. rewrite filter_app, fold_left_app. cbn [filter kind Nat.eqb fold_left vstep]. symmetry. apply (X vs N).
Qed.
Theorem C78_order :
  forall atoi ts us rest o, (forall k, of_kind k ts = of_kind k us) -> parse atoi ts rest = PDone o ->
    exists o', parse atoi us rest = PDone o' /\ forall key, In key keys -> get o' key = get o key.
Proof.
  intros atoi ts us rest o K E. assert (I : forall t, In t us <-> In t ts) by (intros t; rewrite (in_kind t us), (in_kind t ts), K; tauto).
  assert (X : exists o', parse atoi us rest = PDone o').
  { apply C78_outcome. assert (Y : exists o, parse atoi ts rest = PDone o) by eauto. apply C78_outcome in Y as [F R]. rewrite Forall_forall in F. split; [apply Forall_forall; intros t Ht; apply F, I, Ht|].
    destruct R as [R|[f [R N]]]; [left; exact R|right; exists f; split; [exact R|]]. intros a Ha. apply (N a), I, Ha. }
  destruct X as [o' E']. exists o'. split; [exact E'|]. pose proof (C78_options _ _ _ _ E) as A. pose proof (C78_options _ _ _ _ E') as B.
  assert (G : forall T (f : token -> option T) k, (forall t a, f t = Some a -> kind t = k) -> args_of f us = args_of f ts) by (intros T f k Hf; rewrite (args_kind f k Hf us), (args_kind f k Hf ts), K; reflexivity).
  assert (Sw : forall k (P Q : Prop), (P <-> Q) -> switch o k P -> switch o' k Q -> get o' k = get o k) by (unfold switch; intros k P Q PQ [[-> H]|[-> H]] [[-> H']|[-> H']]; tauto || reflexivity).
  intros key H. cbn in H. decompose [or] H; subst; try contradiction; clear H.
  - rewrite (ok_engine _ _ _ _ A), (ok_engine _ _ _ _ B), (G _ engine_arg 3); [reflexivity|intros t0 a0; destruct t0; cbn; congruence].
  - rewrite (ok_logic _ _ _ _ A), (ok_logic _ _ _ _ B), (G _ logic_arg 4); [reflexivity|intros t0 a0; destruct t0; cbn; congruence].
  - rewrite (ok_input _ _ _ _ A), (ok_input _ _ _ _ B), (G _ input_arg 5); [reflexivity|intros t0 a0; destruct t0; cbn; congruence].
  - rewrite (ok_flow _ _ _ _ A), (ok_flow _ _ _ _ B), (G _ flow_arg 6); [reflexivity|intros t0 a0; destruct t0; cbn; congruence].
  - rewrite (ok_proof _ _ _ _ A), (ok_proof _ _ _ _ B), (G _ proof_arg 7); [reflexivity|intros t0 a0; destruct t0; cbn; congruence].
  - rewrite (ok_backend _ _ _ _ A), (ok_backend _ _ _ _ B), (G _ backend_arg 8); [reflexivity|intros t0 a0; destruct t0; cbn; congruence].
  - apply (Sw _ _ _ (iff_sym (I OValidate)) (ok_validate _ _ _ _ A) (ok_validate _ _ _ _ B)).
  - apply (Sw _ _ _ (iff_sym (I OPrintWitness)) (ok_print _ _ _ _ A) (ok_print _ _ _ _ B)).
  - refine (Sw _ _ _ _ (ok_compute _ _ _ _ A) (ok_compute _ _ _ _ B)). rewrite !I, (G _ compute_arg 13); [tauto|intros t0 a0; destruct t0; cbn; congruence].
  - refine (Sw _ _ _ _ (ok_forced _ _ _ _ A) (ok_forced _ _ _ _ B)). rewrite (G _ forced_arg 14); [tauto|intros t0 a0; destruct t0; cbn; congruence].
  - refine (Sw _ _ _ _ (ok_useqe _ _ _ _ A) (ok_useqe _ _ _ _ B)). split; intros [a Ha]; exists a; apply I, Ha.
  - apply (Sw _ _ _ (iff_sym (I OForceTS)) (ok_force _ _ _ _ A) (ok_force _ _ _ _ B)).
  - apply (Sw _ _ _ (iff_sym (I OSimplifyNested)) (ok_simplify _ _ _ _ A) (ok_simplify _ _ _ _ B)).
  - rewrite (ok_lra _ _ _ _ A), (ok_lra _ _ _ _ B), (G _ lra_arg 16); [reflexivity|intros t0 a0; destruct t0; cbn; congruence].
  - destruct (ok_verbose _ _ _ _ A) as [n [-> Vn]]. destruct (ok_verbose _ _ _ _ B) as [m [-> Vm]]. rewrite (verbosity_fold _ _ _ Vn), (verbosity_fold _ _ _ Vm), K. reflexivity.
Qed.
Print Assumptions C78_order.

(** Two settings that the table of options allows and that do not do what they say: switching the quantifier elimination of TPA off switches
    it on, and --verbose without a number reads a null pointer. *)
Theorem C78_use_qe_refuted : forall atoi rest o a, parse atoi [OUseQE (Some a)] rest = PDone o -> get o "tpa.use-qe" = Some "true".
Proof.
  intros atoi rest o a E. destruct (ok_useqe _ _ _ _ (C78_options _ _ _ _ E)) as [[X _]|[_ X]]; [exact X|]. destruct X. exists (Some a). left. reflexivity.
Qed.
Print Assumptions C78_use_qe_refuted.
Theorem C78_verbose_null : forall atoi pre us rest, Forall (fun t => ~ stops t) pre -> parse atoi (pre ++ OVerbose None :: us) rest = PNull.
Proof. intros atoi pre us rest F. destruct (C78_outcome atoi (pre ++ OVerbose None :: us) rest) as [_ [X _]]. apply (X pre (OVerbose None) us eq_refl F). unfold stops. auto. Qed.
Print Assumptions C78_verbose_null.

Module ExOptions.
Definition num (s : string) : Z := match stoi s with Some n => n | None => 0 end.
Definition ts := [OV; OEngine "bmc"; OVerbose (Some "3"); OV; OEngine "tpa"; OComputeWitness (Some "yes"); OComputeWitness (Some "no"); OPrintWitness; OForcedCovering None; OForcedCovering (Some "false"); OLraItp "2"].
Example C78_nonvacuous :
  exists o, parse num ts ["file.smt2"] = PDone o /\ get o "engine" = Some "bmc" /\ get o "verbose" = Some "4" /\ get o "compute-witness" = Some "true" /\ get o "forced-covering" = None /\
    get o "lra-itp-algorithm" = Some "2" /\ get o "input" = Some "file.smt2" /\ get o "validate" = None.
Proof. eexists. split; [vm_compute; reflexivity|]. repeat split; vm_compute; reflexivity. Qed.
(** [C78_order] applies to sequences that differ. *)
Example C78_order_nonvacuous :
  exists us o, us <> ts /\ (forall k, of_kind k ts = of_kind k us) /\ parse num ts ["file.smt2"] = PDone o.
Proof.
  exists ([OEngine "bmc"; OPrintWitness; OV; OVerbose (Some "3"); OComputeWitness (Some "yes"); OEngine "tpa"; OV; OComputeWitness (Some "no"); OForcedCovering None; OLraItp "2"; OForcedCovering (Some "false")]).
  eexists. split; [discriminate|]. split; [|vm_compute; reflexivity]. intros k. do 18 (destruct k as [|k]; [reflexivity|]). reflexivity.
Qed.
Example C78_two_files : parse num [OInput "a"] ["b"] = PExit 1 /\ parse num [] ["a"; "b"] = PExit 1 /\ parse num [OV; OHelp; OBad] ["b"] = PExit 0.
Proof. repeat split. Qed.
End ExOptions.
