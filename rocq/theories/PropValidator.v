(** * Properties C27, C28: the witness validator. *)
From Verif Require Import Syntax Solver Graph ValidatorModel ValidatorProofs ExTac.
Open Scope nat_scope.

(** C27, first half: an accepted validity witness makes every clause valid: definitions mention only the
    arguments of their predicate and are closed under every clause. *)
Theorem C27_clauses_hold :
  forall check g w, check_ok check -> validate_validity check g w = VALIDATED ->
    (forall p d, wlookup w p = Some d -> forall v, In v (vars d) -> In v (gpv g p)) /\
    forall e, In e (gedges g) ->
      (forall p, In p (efrom e) -> wlookup w p <> None) /\
      exists dt, wlookup w (eto e) = Some dt /\
        forall r, holds r (efla e) ->
          (forall p i d, In (p, i) (instances (efrom e)) -> wlookup w p = Some d -> holds r (rename (src i) d)) ->
          holds r (rename tgt dt).
Proof. intros check g w Hc V. exact (validated_edges check Hc g w V). Qed.
Print Assumptions C27_clauses_hold.

(** C27 for witnesses that define [true] as a valid and [false] as an unsatisfiable formula. *)
Theorem C27_validated_safe :
  forall check g w d0 d1, check_ok check -> gpv g exit = [] ->
    validate_validity check g w = VALIDATED ->
    wlookup w entry = Some d0 -> (forall r, holds r d0) ->
    wlookup w exit = Some d1 -> (forall r, ~ holds r d1) ->
    solution g (wlookup w) /\ chc_sat g /\ ~ derivable g exit [].
Proof.
  intros check g w d0 d1 Hc Hx V E0 T0 E1 T1.
  pose proof (validated_solution check Hc g w d0 d1 V E0 T0 E1 T1) as S.
  pose proof (solution_safe g _ Hx S) as N. split; [exact S|]. split; [apply chc_sat_iff; exact N|exact N].
Qed.
Print Assumptions C27_validated_safe.

Lemma forallb_or {A} (f : A -> bool) (P : Prop) l : (forall x, In x l -> f x = true \/ P) -> forallb f l = true \/ P.
Proof.
  induction l as [|x l IH]; intros H; [left; reflexivity|]. destruct (H x (or_introl eq_refl)) as [Hx|]; [|auto].
  destruct IH as [Hl|]; [intros y Hy; apply H; right; exact Hy| |auto]. left. cbn [forallb]. rewrite Hx, Hl. reflexivity.
Qed.
(** Every solution is accepted unless the solver gives up on a query. *)
Theorem C27_solutions_accepted :
  forall check g w, check_ok check ->
    NoDup (map fst w) -> solution g (wlookup w) -> validate_validity check g w = VALIDATED \/ exists q, check q = UNKNOWN.
Proof.
  intros check g w Hc N S. unfold validate_validity.
  assert (E1 : forallb (def_vars_ok g) w = true).
  { apply forallb_forall. intros [p d] Hin. unfold def_vars_ok. simpl. apply forallb_forall. intros v Hv.
    apply inb_true. apply (sol_vars _ _ S p d); [|exact Hv].
    clear - N Hin. induction w as [|[q e] w IH]; [destruct Hin|]. simpl in *. inversion N as [|? ? Hn N']; subst.
    destruct Hin as [E|Hin].
    - inversion E; subst. rewrite Nat.eqb_refl. reflexivity.
    - destruct (Nat.eqb_spec q p) as [->|]; [|auto]. exfalso. apply Hn. apply in_map_iff. exists (p, d). auto. }
  assert (E2 : forallb (edge_valid check w) (gedges g) = true \/ exists q, check q = UNKNOWN).
  { apply forallb_or. intros e He. unfold edge_valid, edge_query.
    destruct (sol_edge _ _ S e He) as [Hdef [dt [Et Ht]]].
    destruct (body_parts w (instances (efrom e))) as [ps|] eqn:Eb.
    - rewrite Et. destruct (body_parts_ok w _ ps Eb) as [_ H].
      set (q := mkAnd [mkAnd (efla e :: ps); mkNot (rename tgt dt)]).
      destruct (check [q]) as [m| |] eqn:Ec; [|left; reflexivity|right; eauto].
      exfalso. apply (check_sat _ Hc) in Ec. apply Forall_inv in Ec. unfold q in Ec.
      apply holds_and2 in Ec as [Ec1 Ec2]. apply holds_and in Ec1. apply Forall_cons_iff in Ec1 as [Hl Hb].
      apply holds_not in Ec2. apply Ec2. apply Ht; [exact Hl|]. apply H, Hb.
    - exfalso. assert (G : forall p i, In (p, i) (instances (efrom e)) -> wlookup w p <> None).
      { intros p i Hi. apply Hdef. eapply in_instances; eauto. }
      clear - Eb G. induction (instances (efrom e)) as [|[p i] l IH]; [discriminate|].
      simpl in Eb. destruct (wlookup w p) eqn:Ew; [|apply (G p i); simpl; auto].
      destruct (body_parts w l) eqn:El; [discriminate|]. apply IH; auto.
      intros q j Hq. apply (G q j). simpl; auto. }
  destruct E2 as [E2|]; [|auto]. left. rewrite E1, E2. reflexivity.
Qed.
Print Assumptions C27_solutions_accepted.

(** C27 as stated is false: the validator does not look at what [false] is defined as
    (src/Validator.cc:26-84 only asserts that a definition exists). *)
Definition bad_graph : hgraph := mkGraph [mkEdge 0 [entry] exit tt_true] (fun _ => []) 1 0.
Definition bad_witness : list (sym * term) := [(entry, tt_true); (exit, tt_true)].
Definition bad_query : term := mkAnd [mkAnd [tt_true; tt_true]; mkNot tt_true].
Theorem C27_refuted :
  exists check g w, check_ok check /\ rep_wf (gpv g) /\ wlookup w entry <> None /\ wlookup w exit <> None /\
    validate_validity check g w = VALIDATED /\ derivable g exit [].
Proof.
  exists (table_check [([bad_query], UNSAT)]), bad_graph, bad_witness.
  split; [prove_table|]. split; [split; simpl; try tauto; intros; constructor|].
  split; [discriminate|]. split; [discriminate|]. split; [vm_compute; reflexivity|].
  change (derivable bad_graph exit []) with (derivable bad_graph (eto (mkEdge 0 [entry] exit tt_true)) (args (fun _ => VBool true) (tgt_vars bad_graph exit))).
  apply der_edge.
  - simpl. auto.
  - intros p i [E|[]]. inversion E; subst. constructor.
  - apply holds_true.
Qed.
Print Assumptions C27_refuted.

(** ** C28 *)
(** An accepted derivation whose steps have the shape asserted in debug builds and use only earlier steps as
    premises is a derivation of [false]. *)
Theorem C28_validated_unsafe :
  forall check g d, check_ok check -> rep_wf (gpv g) ->
    validate_invalidity check g d = VALIDATED ->
    (forall i s, 0 < i -> nth_error d i = Some s -> exists e ps, shaped g d i s e ps) ->
    refutation g d /\ derivable g exit [].
Proof.
  intros check g d Hc Hr V Hs. pose proof (validated_refutation check Hc g Hr d V Hs) as R.
  split; [exact R|]. eapply refutation_derivable; eauto.
Qed.
Print Assumptions C28_validated_unsafe.

(** Every derivation of false is accepted unless the solver gives up on a query. *)
Lemma subst_same M r t : (forall v u, In (v, u) M -> eval r u = eval r (Var v)) -> eval r (subst M t) = eval r t.
Proof.
  intros H. induction t as [v|c|f ts IH] using term_ind'; cbn [subst].
  - destruct (lookup v M) as [u|] eqn:E; [|reflexivity]. apply H, lookup_in, E.
  - reflexivity.
  - cbn [eval]. f_equal. rewrite map_map. apply map_ext_in. rewrite Forall_forall in IH. exact IH.
Qed.
Lemma fill_same r vs : forall p v u, In (v, u) (fill vs (p, args r vs)) -> eval r u = eval r (Var v).
Proof.
  intros p v u. unfold fill, args. cbn [snd]. induction vs as [|x vs IH]; [intros []|]. cbn [map combine]. intros [E|H]; [|exact (IH H)].
  injection E as <- <-. reflexivity.
Qed.
Lemma find_edge_unique g e : NoDup (map eid (gedges g)) -> In e (gedges g) -> find_edge g (eid e) = Some e.
Proof.
  unfold find_edge. intros N H. induction (gedges g) as [|x l IH]; [destruct H|]. cbn [find]. inversion N as [|? ? N1 N2]; subst.
  destruct (Nat.eqb_spec (eid x) (eid e)) as [Ei|Ni].
  - destruct H as [->|H]; [reflexivity|]. exfalso. apply N1. rewrite Ei. apply in_map, H.
  - destruct H as [->|H]; [congruence|]. apply IH; assumption.
Qed.
Theorem C28_refutations_accepted :
  forall check g d, check_ok check -> NoDup (map eid (gedges g)) -> refutation g d ->
    validate_invalidity check g d = VALIDATED \/ exists q, check q = UNKNOWN.
Proof.
  intros check g d Hc N [R1 [n [Ln R2]] R3]. destruct d as [|s0 rest]; [discriminate|]. cbn [nth_error option_map] in R1. injection R1 as R1.
  unfold validate_invalidity. replace (fact_eqb (st_fact s0) (entry, [])) with true by (symmetry; apply fact_eqb_eq, R1). cbn [negb].
  assert (EL : nth_error (s0 :: rest) n = Some (last (s0 :: rest) s0)).
  { replace n with (pred (length (s0 :: rest))) by (rewrite Ln; reflexivity). apply nth_error_last. discriminate. }
  rewrite EL in R2. cbn [option_map] in R2. injection R2 as R2. replace (fact_eqb (st_fact (last (s0 :: rest) s0)) (exit, [])) with true by (symmetry; apply fact_eqb_eq, R2). cbn [negb].
  assert (Step : forall s, In s rest -> validate_step check g (s0 :: rest) s = VALIDATED \/ exists q, check q = UNKNOWN).
  { intros s Hs. apply In_nth_error in Hs as [j Hj]. destruct (R3 (S j) s ltac:(lia) Hj) as [e [ps [He [Ei [Fp [r [Hl [Eps Ef]]]]]]]].
    unfold validate_step. rewrite <- Ei, (find_edge_unique g e N He).
    assert (PS : exists m, premise_subst g (s0 :: rest) (instances (efrom e)) (st_premises s) = Some m /\ forall v u, In (v, u) m -> eval r u = eval r (Var v)).
    { subst ps. clear Ef Hl Ei. revert Fp. generalize (st_premises s). induction (instances (efrom e)) as [|pi l IH]; intros ks Fp.
      - exists []. split; [destruct ks; reflexivity|intros v u []].
      - cbn [map] in Fp. inversion Fp as [|k f ks' fs [_ Ek] Fp']; subst. destruct (IH ks' Fp') as [m [Em Hm]]. cbn [premise_subst]. rewrite Em.
        destruct (nth_error (s0 :: rest) k) as [sk|]; [|discriminate]. cbn [option_map] in Ek. injection Ek as Ek. eexists. split; [reflexivity|].
        intros v u Hin. apply in_app_iff in Hin as [Hin|Hin]; [|exact (Hm v u Hin)]. rewrite Ek in Hin. exact (fill_same r _ _ v u Hin). }
    destruct PS as [m [-> Hm]]. set (c := subst _ _).
    assert (Hh : holds r c).
    { unfold holds, holdsb, c. rewrite subst_same; [exact Hl|]. intros v u Hin. apply in_app_iff in Hin as [Hin|Hin]; [exact (Hm v u Hin)|].
      rewrite Ef in Hin. exact (fill_same r _ _ v u Hin). }
    destruct (term_eqb c tt_true); [auto|]. destruct (term_eqb c tt_false) eqn:EF; [apply term_eqb_iff in EF; rewrite EF in Hh; discriminate Hh|].
    destruct (check [c]) as [m'| |] eqn:Ec; [auto| |eauto]. exfalso. apply (check_unsat _ Hc _ Ec r). constructor; [exact Hh|constructor]. }
  revert Step. generalize (s0 :: rest). intros d Step. clear -Step. induction rest as [|s rest IH]; [auto|]. cbn [validate_steps].
  destruct (Step s (or_introl eq_refl)) as [->|]; [|auto]. apply IH. intros x Hx. apply Step. right. exact Hx.
Qed.
Print Assumptions C28_refutations_accepted.

(** C28 as stated is false: a step may use itself as its premise. *)
Definition cyc_graph : hgraph := mkGraph [mkEdge 0 [2] 2 tt_true; mkEdge 1 [2] exit tt_true] (fun _ => []) 2 0.
Definition cyc_derivation : derivation :=
  [mkStep [] (entry, []) 0; mkStep [1] (2, []) 0; mkStep [1] (exit, []) 1].
Theorem C28_refuted :
  exists g d, rep_wf (gpv g) /\ (forall check, validate_invalidity check g d = VALIDATED) /\ ~ derivable g exit [].
Proof.
  exists cyc_graph, cyc_derivation. split; [split; simpl; try tauto; intros; constructor|].
  split; [intros; reflexivity|].
  apply chc_sat_iff. exists (fun p _ => p = entry). split; [split; [reflexivity|]|discriminate].
  intros e r [<-|[<-|[]]] H _; simpl in *; specialize (H 2 0 (or_introl eq_refl)); discriminate.
Qed.
Print Assumptions C28_refuted.

(** ** A concrete counter: A(0); A(x) -> A(x+1); A(x), x = 2 -> false. *)
Module Ex.
Definition x := mkVar "x#1" TBase SInt.
Definition A : sym := 2.
Definition xs := Var (src 0 x).
Definition xt := Var (tgt x).
Definition num (n : Z) := Const (VInt n).
Definition g (bad : Z) : hgraph := mkGraph
  [mkEdge 0 [entry] A (mkEq xt (num 0)); mkEdge 1 [A] A (mkEq xt (mkPlus [xs; num 1])); mkEdge 2 [A] exit (mkEq xs (num bad))]
  (fun p => if Nat.eqb p A then [x] else []) 3 0.
Lemma g_rep bad : rep_wf (gpv (g bad)).
Proof.
  split; try reflexivity; simpl.
  - intros p v. destruct (Nat.eqb p A); [intros [<-|[]]; reflexivity|intros []].
  - intros p. destruct (Nat.eqb p A); repeat constructor; tauto.
  - intros p q v. destruct (Nat.eqb_spec p A) as [->|]; [|intros []]. destruct (Nat.eqb_spec q A) as [->|]; [auto|intros _ []].
Qed.

Definition w : list (sym * term) := [(entry, tt_true); (exit, tt_false); (A, mkLeq (num 0) (Var x))].
Definition queries : list term :=
  match map (edge_query w) (gedges (g (-1))) with
  | [Some a; Some b; Some c] => [a; b; c] | _ => [] end.
Definition chk : check_fn := table_check (map (fun q => ([q], UNSAT)) queries).
Lemma chk_ok : check_ok chk.
Proof.
  apply table_check_ok. unfold queries. cbn [map edge_query w g gedges].
  repeat (apply Forall_cons; [solve [prove_unsat]|]); apply Forall_nil.
Qed.
Example safe_validated : validate_validity chk (g (-1)) w = VALIDATED.
Proof. vm_compute. reflexivity. Qed.
Example safe_example : ~ derivable (g (-1)) exit [].
Proof.
  apply (C27_validated_safe chk (g (-1)) w tt_true tt_false chk_ok eq_refl safe_validated eq_refl holds_true eq_refl holds_false).
Qed.

Definition d : derivation :=
  [mkStep [] (entry, []) 0; mkStep [0] (A, [VInt 0]) 0; mkStep [1] (A, [VInt 1]) 1; mkStep [2] (A, [VInt 2]) 1;
   mkStep [3] (exit, []) 2].
Definition step_query (s : step) : term :=
  match find_edge (g 2) (st_clause s) with
  | Some e => match premise_subst (g 2) d (instances (efrom e)) (st_premises s) with
              | Some m => subst (m ++ fill (tgt_vars (g 2) (eto e)) (st_fact s)) (efla e) | None => tt_true end
  | None => tt_true end.
Definition chk2 : check_fn := table_check (map (fun s => ([step_query s], SAT (fun _ => VBool true))) (tl d)).
Lemma chk2_ok : check_ok chk2.
Proof.
  apply table_check_ok. cbn [map tl d]. repeat (apply Forall_cons; [solve [prove_sat]|]); apply Forall_nil.
Qed.
Example unsafe_validated : validate_invalidity chk2 (g 2) d = VALIDATED.
Proof. vm_compute. reflexivity. Qed.
Example unsafe_example : derivable (g 2) exit [].
Proof.
  apply (C28_validated_unsafe chk2 (g 2) d chk2_ok (g_rep 2) unsafe_validated).
  intros i s Hi Hs.
  destruct i as [|[|[|[|[|j]]]]]; [lia|injection Hs as <-|injection Hs as <-|injection Hs as <-|injection Hs as <-|].
  - exists (mkEdge 0 [entry] A (mkEq xt (num 0))), [mkStep [] (entry, []) 0].
    split; try reflexivity; repeat constructor; try lia.
  - exists (mkEdge 1 [A] A (mkEq xt (mkPlus [xs; num 1]))), [mkStep [0] (A, [VInt 0]) 0].
    split; try reflexivity; repeat constructor; try lia.
  - exists (mkEdge 1 [A] A (mkEq xt (mkPlus [xs; num 1]))), [mkStep [1] (A, [VInt 1]) 1].
    split; try reflexivity; repeat constructor; try lia.
  - exists (mkEdge 2 [A] exit (mkEq xs (num 2))), [mkStep [2] (A, [VInt 2]) 1].
    split; try reflexivity; repeat constructor; try lia.
  - simpl in Hs. destruct j; discriminate.
Qed.
End Ex.
