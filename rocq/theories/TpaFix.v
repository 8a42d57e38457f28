(** * TPA: fixed points and what they mean *)
From Verif Require Import Syntax Solver TransSys TSLemmas KTo1Model KTo1Proofs KTo1Proofs2 FormulaModel FormulaProofs2 InlineModel InlineProofs NontermProofs ListLemmas TrlProofs TrlRun TpaModel TpaProofs TpaQuery TpaLess.
Open Scope list_scope.
Open Scope nat_scope.

Section Fix.
Variable check : check_fn.
Hypothesis Hc : check_ok check.
Variable ts : tsys.
Hypothesis wf : ts_wf ts = true.
Hypothesis Fi : state_formula ts (tinit ts).
Hypothesis Fq : state_formula ts (tquery ts).
Notation sv := (svars ts).
Notation rel := (rel ts).
Notation pure := (pure ts).
(** The solver gave up on a query of Houdini: are the transitions in [c] closed under one more step? *)
Definition gave_up : Prop := exists f c, check [hd_base ts f; hd_query ts f c c] = UNKNOWN.

Definition all_rel (l : list term) (s s' : state) : Prop := forall c, In c l -> rel c s s'.
Lemma rel_all l s s' : (forall c, In c l -> pure c) -> (rel (mkAnd l) s s' <-> all_rel l s s').
Proof.
  intros P. split.
  - intros [r [R0 [R1 R2]]] c Hc'. exists r. repeat split; auto. apply holds_and in R2. rewrite Forall_forall in R2. auto.
  - intros H. destruct (glue_rels ts wf (fun i => if Z.leb i 0 then s else s') [] (NoDup_nil _)) as [r [R0 _]]; [intros ? ? []|].
    exists r. assert (A : agree_on sv r s) by (intros v Hv; specialize (R0 0%Z v Hv); rewrite shiftv_0 in R0; exact R0).
    assert (B : forall v, In v sv -> r (shiftv 1 v) = s' v) by (intros v Hv; exact (R0 1%Z v Hv)).
    split; [exact A|]. split; [exact B|]. apply holds_and, Forall_forall. intros c Hc'. eapply pure_hold0; eauto.
Qed.
Lemma pure_and l : (forall c, In c l -> pure c) -> pure (mkAnd l).
Proof. intros H. apply pure_app, H. Qed.

(** Closure of a relation under a transition on the right or on the left. *)
Definition closed (f : side) (Q : state -> state -> Prop) : Prop :=
  match f with
  | RIGHT => forall s s' s'', Q s s' -> Step ts s' s'' -> Q s s''
  | LEFT => forall s s' s'', Step ts s s' -> Q s' s'' -> Q s s''
  end.

(** An assignment for three states, with a transition between two of them. *)
Lemma glue_right s s' s'' : Step ts s' s'' -> exists r,
  agree_on sv r s /\ (forall v, In v sv -> r (shiftv 1 v) = s' v) /\ (forall v, In v sv -> r (shiftv 2 v) = s'' v) /\ holds r (shift 1 (ttrans ts)).
Proof.
  intros H. destruct (glue_rels ts wf (fun i => if Z.leb i 0 then s else if Z.leb i 1 then s' else s'') [(1%Z, ttrans ts)]) as [r [R0 R1]].
  - repeat constructor; cbn; intuition discriminate.
  - intros i t [K|[]]; injection K as <- <-; split; [apply (transf_trans ts wf)|exact H].
  - exists r. split; [intros v Hv; specialize (R0 0%Z v Hv); rewrite shiftv_0 in R0; exact R0|]. split; [intros v Hv; exact (R0 1%Z v Hv)|].
    split; [intros v Hv; exact (R0 2%Z v Hv)|apply (R1 1%Z); cbn; auto].
Qed.
Lemma glue_left s s' s'' : Step ts s s' -> exists r,
  agree_on sv r s /\ (forall v, In v sv -> r (shiftv 1 v) = s' v) /\ (forall v, In v sv -> r (shiftv 2 v) = s'' v) /\ holds r (ttrans ts).
Proof.
  intros H. destruct (glue_rels ts wf (fun i => if Z.leb i 0 then s else if Z.leb i 1 then s' else s'') [(0%Z, ttrans ts)]) as [r [R0 R1]].
  - repeat constructor; cbn; intuition discriminate.
  - intros i t [K|[]]; injection K as <- <-; split; [apply (transf_trans ts wf)|exact H].
  - exists r. split; [intros v Hv; specialize (R0 0%Z v Hv); rewrite shiftv_0 in R0; exact R0|]. split; [intros v Hv; exact (R0 1%Z v Hv)|].
    split; [intros v Hv; exact (R0 2%Z v Hv)|rewrite <- (shift_0 (ttrans ts)); apply (R1 0%Z); cbn; auto].
Qed.

Lemma dec_rel c s s' : pure c -> rel c s s' \/ ~ rel c s s'.
Proof.
  intros P. destruct (glue_rels ts wf (fun i => if Z.leb i 0 then s else s') [] (NoDup_nil _)) as [r [R0 _]]; [intros ? ? []|].
  assert (A : agree_on sv r s) by (intros v Hv; specialize (R0 0%Z v Hv); rewrite shiftv_0 in R0; exact R0).
  assert (B : forall v, In v sv -> r (shiftv 1 v) = s' v) by (intros v Hv; exact (R0 1%Z v Hv)).
  destruct (holdsb r c) eqn:E.
  - left. exists r. auto.
  - right. intros H. assert (holds r c) by (eapply pure_hold0; eauto). unfold holds in H0. congruence.
Qed.

Lemma hd_closed f c : pure c -> check [hd_base ts f; hd_query ts f c c] = UNSAT -> closed f (rel c).
Proof.
  intros P E. apply (check_unsat _ Hc) in E. destruct f; intros s s' s''; [intros Q St|intros St Q];
    (destruct (dec_rel c s s'' P) as [D|D]; [exact D|exfalso]).
  - destruct (glue_right s s' s'' St) as [r [A [B [C T]]]]. apply (E r). repeat constructor; [exact T|].
    apply holds_and2. split; [eapply pure_hold0; eauto|]. apply holds_not. intros H. apply D. apply (shift_next_rel ts wf c r s s'' P A C), H.
  - destruct (glue_left s s' s'' St) as [r [A [B [C T]]]]. apply (E r). repeat constructor; [exact T|].
    apply holds_and2. split; [eapply pure_hold; eauto|]. apply holds_not. intros H. apply D. apply (shift_next_rel ts wf c r s s'' P A C), H.
Qed.

(** ** Lists of candidates *)
Lemma removelast_in {A} (l : list A) x : In x (removelast l) -> In x l.
Proof. induction l as [|a l IH]; cbn; [tauto|]. destruct l; [intros []|]. intros [->|H]; [auto|right; apply IH, H]. Qed.
Lemma last_in {A} (l : list A) d : l <> [] -> In (last l d) l.
Proof. intros H. rewrite (app_removelast_last d H) at 2. apply in_app_iff. right; left; reflexivity. Qed.
Lemma firstn_incl {A} (l : list A) n x : In x (firstn n l) -> In x l.
Proof. intros H. rewrite <- (firstn_skipn n l). apply in_app_iff. auto. Qed.
Lemma skipn_incl {A} (l : list A) n x : In x (skipn n l) -> In x l.
Proof. intros H. rewrite <- (firstn_skipn n l). apply in_app_iff. auto. Qed.
Lemma removelast_length {A} (l : list A) : length (removelast l) = length l - 1.
Proof. induction l as [|a l IH]; [reflexivity|]. destruct l; [reflexivity|]. cbn [removelast length]. cbn [removelast] in IH. rewrite IH. cbn. lia. Qed.
Lemma replace_at_length {A} i (x : A) l : i < length l -> length (replace_at i x l) = length l.
Proof. intros H. unfold replace_at. rewrite app_length. cbn [length]. rewrite firstn_length, skipn_length. lia. Qed.
Lemma remove_at_in i l c : i < length l -> In c (remove_at i l) -> In c l.
Proof.
  intros H K. unfold remove_at in K. apply removelast_in in K. unfold replace_at in K. apply in_app_iff in K as [K|[<-|K]].
  - eapply firstn_incl, K.
  - apply last_in. intros ->. cbn in H. lia.
  - eapply skipn_incl, K.
Qed.
Lemma remove_at_length i l : i < length l -> length (remove_at i l) = length l - 1.
Proof. intros H. unfold remove_at. rewrite removelast_length, replace_at_length by exact H. reflexivity. Qed.
Lemma drop_pass_in f i : forall l c, i <= length l -> In c (drop_pass check ts f i l) -> In c l.
Proof.
  induction i as [|i IH]; cbn [drop_pass]; intros l c L H; [exact H|].
  destruct (is_sat _); [|eapply IH; [lia|exact H]]. apply remove_at_in with (i := i); [lia|]. apply IH; [|exact H]. rewrite remove_at_length; lia.
Qed.

Lemma Forall_replace (P : term -> Prop) j x l : j < length l -> (Forall P (replace_at j x l) <-> Forall P (firstn j l) /\ P x /\ Forall P (skipn (S j) l)).
Proof. intros H. unfold replace_at. rewrite Forall_app. split; [intros [A B]; inversion B; auto|intros [A [B C]]; auto]. Qed.
Lemma firstn_nth_skipn {A} (l : list A) j d : j < length l -> l = firstn j l ++ nth j l d :: skipn (S j) l.
Proof.
  revert j. induction l as [|a l IH]; intros j H; [cbn in H; lia|]. destruct j as [|j]; [reflexivity|]. cbn [firstn nth skipn app]. f_equal. apply IH. cbn in H. lia.
Qed.
Lemma squash_pass_ok fuel : forall j l r, Forall (holds r) (squash_pass fuel j l) <-> Forall (holds r) l.
Proof.
  induction fuel as [|fuel IH]; intros j l r; [reflexivity|]. cbn [squash_pass].
  destruct (Nat.leb_spec 1 (length l - 1)) as [L1|]; [|reflexivity]. destruct (Nat.ltb_spec j (length l - 1)) as [L2|]; [|reflexivity]. cbn [andb].
  set (x := mkAnd [nth j l tt_true; nth (length l - 1) l tt_true]).
  assert (K : Forall (holds r) (replace_at j x (removelast l)) <-> Forall (holds r) l).
  { assert (N : l <> []) by (intros ->; cbn in L1; lia). pose proof (app_removelast_last tt_true N) as El.
    assert (J : j < length (removelast l)) by (rewrite removelast_length; exact L2).
    assert (Enj : nth j l tt_true = nth j (removelast l) tt_true) by (rewrite El at 1; apply app_nth1, J).
    assert (Enl : nth (length l - 1) l tt_true = last l tt_true).
    { rewrite El at 2. rewrite app_nth2 by (rewrite removelast_length; lia). rewrite removelast_length, Nat.sub_diag. reflexivity. }
    rewrite Forall_replace by exact J. unfold x. rewrite holds_and2, Enj, Enl.
    assert (Forall (holds r) l <-> Forall (holds r) (removelast l) /\ holds r (last l tt_true)) as ->.
    { rewrite El at 1. rewrite Forall_app. split; [intros [A B]; inversion B; auto|intros [A B]; auto]. }
    assert (W : Forall (holds r) (removelast l) <-> Forall (holds r) (firstn j (removelast l)) /\ holds r (nth j (removelast l) tt_true) /\ Forall (holds r) (skipn (S j) (removelast l))).
    { pose proof (firstn_nth_skipn (removelast l) j tt_true J) as W. split.
      - intros A. rewrite W in A. apply Forall_app in A as [A B]. inversion B; auto.
      - intros [A [B C]]. rewrite W. apply Forall_app. split; [exact A|constructor; assumption]. }
    rewrite W. tauto. }
  destruct (Nat.leb _ 128); [exact K|]. rewrite IH. exact K.
Qed.
Lemma squash_ok fuel : forall l r, Forall (holds r) (squash fuel l) <-> Forall (holds r) l.
Proof.
  induction fuel as [|fuel IH]; intros l r; [reflexivity|]. cbn [squash]. destruct (Nat.ltb 128 (length l)); [|reflexivity]. rewrite IH. apply squash_pass_ok.
Qed.
Lemma squash_pass_pure fuel : forall j l, (forall c, In c l -> pure c) -> forall c, In c (squash_pass fuel j l) -> pure c.
Proof.
  induction fuel as [|fuel IH]; intros j l P c; [apply P|]. cbn [squash_pass].
  destruct (Nat.leb_spec 1 (length l - 1)) as [L1|]; [|apply P]. destruct (Nat.ltb_spec j (length l - 1)) as [L2|]; [|apply P]. cbn [andb].
  set (x := mkAnd [nth j l tt_true; nth (length l - 1) l tt_true]).
  assert (K : forall c, In c (replace_at j x (removelast l)) -> pure c).
  { intros y Hy. unfold replace_at in Hy. apply in_app_iff in Hy as [Hy|[<-|Hy]].
    - apply P. apply removelast_in. eapply firstn_incl, Hy.
    - apply pure_and. intros z [<-|[<-|[]]]; apply P, nth_In; lia.
    - apply P. apply removelast_in. eapply skipn_incl, Hy. }
  destruct (Nat.leb _ 128); [apply K|]. apply IH, K.
Qed.
Lemma squash_pure fuel : forall l, (forall c, In c l -> pure c) -> forall c, In c (squash fuel l) -> pure c.
Proof.
  induction fuel as [|fuel IH]; intros l P c; [apply P|]. cbn [squash]. destruct (Nat.ltb 128 (length l)); [|apply P]. apply IH. apply squash_pass_pure, P.
Qed.

(** ** Houdini *)
Lemma hd_loop_ok fuel : forall f cur l l', pure cur -> (forall c, In c l -> pure c) -> (forall r, holds r cur <-> Forall (holds r) l) ->
  hd_loop check ts fuel f cur l = Ret l' ->
  (forall c, In c l' -> pure c /\ exists l0, In c l0 /\ forall r, holds r cur -> Forall (holds r) l0) /\ (gave_up \/ closed f (all_rel l')).
Proof.
  induction fuel as [|fuel IH]; intros f cur l l' Pc Pl Q E; cbn [hd_loop] in E.
  - destruct (check _) as [m| |] eqn:Ec; cbn [is_sat] in E; [discriminate| |]; injection E as <-; (split; [intros c Hc'; split; [apply Pl, Hc'|exists l; split; [exact Hc'|intros r; apply Q]]|]).
    + right. apply hd_closed in Ec; [|exact Pc].
      assert (G : forall s s', all_rel l s s' <-> rel cur s s').
      { intros s s'. rewrite <- rel_all by exact Pl. split; intros [r [R0 [R1 R2]]]; exists r; repeat split; auto; [apply Q; apply holds_and in R2; exact R2|apply holds_and, Q, R2]. }
      destruct f; intros s s' s'' A B; apply (proj2 (G s s'')); [exact (Ec s s' s'' (proj1 (G s s') A) B)|exact (Ec s s' s'' A (proj1 (G s' s'') B))].
    + left. exists f, cur. exact Ec.
  - destruct (check _) as [m| |] eqn:Ec; cbn [is_sat] in E.
    + set (ld := drop_pass check ts f (length l) l) in *.
      assert (Hd : forall c, In c ld -> In c l) by (intros c; apply drop_pass_in; reflexivity).
      assert (Pd : forall c, In c ld -> pure c) by (intros c Hc'; apply Pl, Hd, Hc').
      destruct (IH f (mkAnd ld) ld l') as [A B]; auto; [apply pure_and, Pd|intros r; apply holds_and|]. split; [|exact B].
      intros c Hc'. destruct (A c Hc') as [A1 [l0 [A2 A3]]]. split; [exact A1|]. exists l0. split; [exact A2|]. intros r Hr. apply A3. apply holds_and.
      apply Forall_forall. intros d Hd'. apply Q in Hr. rewrite Forall_forall in Hr. apply Hr, Hd, Hd'.
    + injection E as <-. split; [intros c Hc'; split; [apply Pl, Hc'|exists l; split; [exact Hc'|intros r; apply Q]]|].
      right. apply hd_closed in Ec; [|exact Pc].
      assert (G : forall s s', all_rel l s s' <-> rel cur s s').
      { intros s s'. rewrite <- rel_all by exact Pl. split; intros [r [R0 [R1 R2]]]; exists r; repeat split; auto; [apply Q; apply holds_and in R2; exact R2|apply holds_and, Q, R2]. }
      destruct f; intros s s' s'' A B; apply (proj2 (G s s'')); [exact (Ec s s' s'' (proj1 (G s s') A) B)|exact (Ec s s' s'' A (proj1 (G s' s'') B))].
    + injection E as <-. split; [intros c Hc'; split; [apply Pl, Hc'|exists l; split; [exact Hc'|intros r; apply Q]]|]. left. exists f, cur. exact Ec.
Qed.

(** [rightInvariants] / [leftInvariants]: pure formulas that contain the identity and together are closed. *)
Definition inv_good (f : side) (inv : list term) : Prop :=
  (forall c, In c inv -> pure c) /\ (forall s, all_rel inv s s) /\ (gave_up \/ closed f (all_rel inv)).

Lemma add_new_in l : forall inv c, In c (fold_left add_new l inv) <-> In c inv \/ In c l.
Proof.
  induction l as [|a l IH]; intros inv c; cbn [fold_left]; [cbn; tauto|]. rewrite IH. unfold add_new.
  destruct (existsb (term_eqb a) inv) eqn:E.
  - apply existsb_exists in E as [x [E1 E2]]. destruct (term_eqb_spec a x); [subst x|discriminate]. cbn. intuition (subst; auto).
  - rewrite in_app_iff. cbn. tauto.
Qed.
Lemma houdini_ok fuel f cur inv inv' : pure cur -> (forall s, rel cur s s) -> inv_good f inv -> houdini check ts fuel f cur inv = Ret inv' -> inv_good f inv'.
Proof.
  intros P I0 [G1 [G2 G3]] E. unfold houdini in E. apply obind_ret in E as [l [El E]]. injection E as <-.
  assert (Q : forall r, holds r cur <-> Forall (holds r) (squash (length (conjuncts cur)) (conjuncts cur))).
  { intros r. rewrite squash_ok. unfold conjuncts. destruct (top_juncts_ok Conj cur) as [o [-> E]]. cbn [mkJunction] in E. specialize (E r). rewrite holds_and in E. symmetry. exact E. }
  assert (Pl : forall c, In c (squash (length (conjuncts cur)) (conjuncts cur)) -> pure c).
  { apply squash_pure. intros c Hc' v Hv. apply P. eapply conjuncts_vars; eauto. }
  destruct (hd_loop_ok _ _ _ _ _ P Pl Q El) as [A B]. split; [|split].
  - intros c Hc'. apply add_new_in in Hc' as [H|H]; [apply G1, H|apply A, H].
  - intros s c Hc'. apply add_new_in in Hc' as [H|H]; [apply G2, H|]. destruct (A c H) as [_ [l0 [A1 A2]]].
    destruct (I0 s) as [r [R0 [R1 R2]]]. exists r. repeat split; auto. apply A2 in R2. rewrite Forall_forall in R2. auto.
  - destruct G3 as [G3|G3]; [auto|]. destruct B as [B|B]; [auto|]. right.
    destruct f; intros s s' s'' H K c Hc'; apply add_new_in in Hc' as [Hin|Hin].
    + eapply G3; [intros d Hd|exact K|exact Hin]. apply H, add_new_in. auto.
    + eapply B; [intros d Hd|exact K|exact Hin]. apply H, add_new_in. auto.
    + eapply G3; [exact H|intros d Hd|exact Hin]. apply K, add_new_in. auto.
    + eapply B; [exact H|intros d Hd|exact Hin]. apply K, add_new_in. auto.
Qed.

(** ** Explanations *)
Definition excludes (t : term) : Prop := forall s s', holds s (tinit ts) -> holds s' (tquery ts) -> ~ rel t s s'.
Definition allowed (r : restr) (s s' : state) : Prop :=
  match r with Unrestricted => True | ToInit => holds s (tinit ts) | ToQuery => holds s' (tquery ts) end.
Definition eq_parts (r : restr) (i : nat) (ti lt ex : term) : Prop :=
  ti = eq_ti ts lt ex /\ pure lt /\ pure ex /\ (1 <= i) /\
  (forall n s s', n < Nat.pow 2 i -> Steps ts n s s' -> rel lt s s') /\ (forall s s', Steps ts (Nat.pow 2 i) s s' -> rel ex s s') /\
  (forall s0 s1 s2, match r with Unrestricted => True | ToInit => exists x, holds x (tinit ts) /\ rel lt x s0 | ToQuery => exists x, rel lt s2 x /\ holds x (tquery ts) end ->
     rel ex s0 s1 -> rel ex s1 s2 -> rel ex s0 s2) /\
  (forall s s', holds s (tinit ts) -> holds s' (tquery ts) -> ~ rel lt s s' /\ forall s1, rel lt s s1 -> ~ rel ex s1 s').
Definition expl_ok (e : expl) : Prop :=
  match e with
  | LessThanExpl r f ti =>
    pure ti /\ (forall s, rel ti s s) /\ excludes ti /\
    match f with
    | RIGHT => r <> ToQuery /\ forall s s' s'', allowed r s s'' -> rel ti s s' -> Step ts s' s'' -> rel ti s s''
    | LEFT => r <> ToInit /\ forall s s' s'', allowed r s s'' -> Step ts s s' -> rel ti s' s'' -> rel ti s s''
    end
  | EqualsExpl r i ti => exists lt ex, eq_parts r i ti lt ex
  end.

Lemma rel_and_all l c s s' : (forall x, In x l -> pure x) -> pure c -> (rel (mkAnd [mkAnd l; c]) s s' <-> all_rel l s s' /\ rel c s s').
Proof.
  intros Pl Pc. rewrite <- rel_all by exact Pl. split; [apply rel_and|]. intros [A B]. apply rel_and_pure; auto.
Qed.

Lemma is_unsat_spec q : is_unsat (check q) = true -> unsat q.
Proof. intros E. apply (check_unsat _ Hc). destruct (check q); try discriminate. reflexivity. Qed.

Lemma lt_right_fix rinv cur q : pure cur -> inv_good RIGHT rinv -> (forall s, rel cur s s) -> excludes cur ->
  q = Unrestricted \/ q = ToInit ->
  unsat (mkAnd [mkAnd rinv; cur; shift 1 (ttrans ts); mkNot (shift_next ts cur)] :: match q with ToInit => [tinit ts] | _ => [] end) ->
  gave_up \/ expl_ok (LessThanExpl q RIGHT (mkAnd [mkAnd rinv; cur])).
Proof.
  intros Pc [G1 [G2 [G3|G3]]] I0 Ex Hq U; [auto|]. right. split; [|split; [|split]].
  - apply pure_and. intros x [<-|[<-|[]]]; [apply pure_and, G1|exact Pc].
  - intros s. apply rel_and_all; auto.
  - intros s s' A B H. apply rel_and_all in H as [_ H]; auto. exact (Ex s s' A B H).
  - split; [intros ->; destruct Hq; discriminate|]. intros s s' s'' Al H St. apply rel_and_all in H as [H1 H2]; auto. apply rel_and_all; auto. split; [eapply G3; eauto|].
    destruct (dec_rel cur s s'' Pc) as [D|D]; [exact D|exfalso]. destruct (glue_right s s' s'' St) as [r [A [B [C T]]]]. apply (U r). constructor.
    + apply holds_and. repeat constructor; auto.
      * eapply pure_hold0; [apply pure_and, G1|apply rel_all; eauto|exact A|exact B].
      * eapply pure_hold0; eauto.
      * apply holds_not. intros H. apply D. apply (shift_next_rel ts wf cur r s s'' Pc A C), H.
    + destruct Hq as [->| ->]; constructor; [|constructor]. apply (sf_at0 ts _ r s Fi A), Al.
Qed.
Lemma lt_left_fix linv cur q : pure cur -> inv_good LEFT linv -> (forall s, rel cur s s) -> excludes cur ->
  q = Unrestricted \/ q = ToQuery ->
  unsat (mkAnd [ttrans ts; shift 1 (mkAnd linv); shift 1 cur; mkNot (shift_next ts cur)] :: match q with ToQuery => [shift 2 (tquery ts)] | _ => [] end) ->
  gave_up \/ expl_ok (LessThanExpl q LEFT (mkAnd [mkAnd linv; cur])).
Proof.
  intros Pc [G1 [G2 [G3|G3]]] I0 Ex Hq U; [auto|]. right. split; [|split; [|split]].
  - apply pure_and. intros x [<-|[<-|[]]]; [apply pure_and, G1|exact Pc].
  - intros s. apply rel_and_all; auto.
  - intros s s' A B H. apply rel_and_all in H as [_ H]; auto. exact (Ex s s' A B H).
  - split; [intros ->; destruct Hq; discriminate|]. intros s s' s'' Al St H. apply rel_and_all in H as [H1 H2]; auto. apply rel_and_all; auto. split; [eapply G3; eauto|].
    destruct (dec_rel cur s s'' Pc) as [D|D]; [exact D|exfalso]. destruct (glue_left s s' s'' St) as [r [A [B [C T]]]]. apply (U r). constructor.
    + apply holds_and. repeat constructor; auto.
      * eapply pure_hold; [apply pure_and, G1|apply rel_all; eauto|exact B|exact C].
      * eapply pure_hold; eauto.
      * apply holds_not. intros H. apply D. apply (shift_next_rel ts wf cur r s s'' Pc A C), H.
    + destruct Hq as [->| ->]; constructor; [|constructor]. apply (sf_at ts _ r 2 s'' Fq C), Al.
Qed.
Lemma lt_inv_fix f inv : inv_good f inv -> unsat [mkAnd [tinit ts; mkAnd inv; shift 1 (tquery ts)]] -> gave_up \/ expl_ok (LessThanExpl Unrestricted f (mkAnd inv)).
Proof.
  intros [G1 [G2 [G3|G3]]] U; [auto|]. right. split; [apply pure_and, G1|]. split; [intros s; apply rel_all; auto|]. split.
  - intros s s' A B [r [R0 [R1 R2]]]. apply (U r). constructor; [|constructor]. apply holds_and3. split; [apply (sf_at0 ts _ r s Fi R0), A|]. split; [exact R2|].
    apply (sf_at ts _ r 1 s' Fq R1), B.
  - destruct f; (split; [discriminate|]); intros s s' s'' _ H K; apply rel_all; auto.
    + apply rel_all in H; auto. eapply G3; eauto.
    + apply rel_all in K; auto. eapply G3; eauto.
Qed.

Definition lt_post (x : option expl * (list term * list term)) : Prop :=
  (inv_good RIGHT (fst (snd x)) /\ inv_good LEFT (snd (snd x))) /\ (gave_up \/ match fst x with Some e => expl_ok e | None => True end).
Lemma lt_level_ok fuel cur invs x : pure cur -> (forall s, rel cur s s) -> excludes cur -> inv_good RIGHT (fst invs) -> inv_good LEFT (snd invs) ->
  lt_level check ts fuel cur invs = Ret x -> lt_post x.
Proof.
  intros P I0 Ex G1 G2 E. unfold lt_level in E. apply obind_ret in E as [rinv [E1 E]]. apply houdini_ok in E1; auto.
  destruct (is_unsat (check [_])) eqn:U1; [injection E as <-|].
  { split; [split; auto|]. apply is_unsat_spec in U1. cbn [fst]. apply lt_right_fix; auto. }
  clear U1. destruct (is_unsat (check [_; _])) eqn:U2; [injection E as <-|].
  { split; [split; auto|]. apply is_unsat_spec in U2. cbn [fst]. apply lt_right_fix; auto. }
  clear U2. apply obind_ret in E as [linv [E2 E]]. apply houdini_ok in E2; auto.
  destruct (is_unsat (check [_])) eqn:U1; [injection E as <-|].
  { split; [split; auto|]. apply is_unsat_spec in U1. cbn [fst]. apply lt_left_fix; auto. }
  clear U1. destruct (is_unsat (check [_; _])) eqn:U2; [injection E as <-|].
  { split; [split; auto|]. apply is_unsat_spec in U2. cbn [fst]. apply lt_left_fix; auto. }
  clear U2. destruct (is_unsat (check [_])) eqn:U1; [injection E as <-|].
  { split; [split; auto|]. apply is_unsat_spec in U1. cbn [fst]. apply lt_inv_fix; auto. }
  clear U1. destruct (is_unsat (check [_])) eqn:U1; [injection E as <-|].
  { split; [split; auto|]. apply is_unsat_spec in U1. cbn [fst]. apply lt_inv_fix; auto. }
  injection E as <-. split; [split; auto|]. right. exact I.
Qed.
Lemma lt_fixed_ok fuel : forall curs invs x, (forall c, In c curs -> pure c /\ (forall s, rel c s s) /\ excludes c) ->
  inv_good RIGHT (fst invs) -> inv_good LEFT (snd invs) -> lt_fixed check ts fuel curs invs = Ret x -> lt_post x.
Proof.
  induction curs as [|c curs IH]; intros invs x H G1 G2 E; cbn [lt_fixed] in E.
  - injection E as <-. split; [split; auto|]. right. exact I.
  - apply obind_ret in E as [[e invs'] [E1 E]]. destruct (H c (or_introl eq_refl)) as [A [B C]].
    destruct (lt_level_ok _ _ _ _ A B C G1 G2 E1) as [[L1 L2] L3]. cbn [fst snd] in *. destruct e as [e|].
    + injection E as <-. split; [split; auto|]. exact L3.
    + eapply IH; eauto. intros d Hd. apply H. right; exact Hd.
Qed.

(** ** Equality fixed points *)
Lemma eq_level_ok i lt ex e : pure lt -> pure ex -> 1 <= i ->
  (forall n s s', n < Nat.pow 2 i -> Steps ts n s s' -> rel lt s s') -> (forall s s', Steps ts (Nat.pow 2 i) s s' -> rel ex s s') ->
  (forall s s', holds s (tinit ts) -> holds s' (tquery ts) -> ~ rel lt s s' /\ forall s1, rel lt s s1 -> ~ rel ex s1 s') ->
  eq_level check ts i lt ex = Some e -> expl_ok e.
Proof.
  intros Pl Pe Hi L X Ex E. unfold eq_level in E.
  assert (G : forall x s0 s1 s2 y, rel ex s0 s1 -> rel ex s1 s2 -> ~ rel ex s0 s2 -> exists r,
     (forall v, In v sv -> r (shiftv (-1) v) = x v) /\ agree_on sv r s0 /\ (forall v, In v sv -> r (shiftv 2 v) = s2 v) /\
     (forall v, In v sv -> r (shiftv 3 v) = y v) /\ holds r (mkAnd [two ex; mkNot (shift_next ts ex)])).
  { intros x s0 s1 s2 y H1 H2 N.
    destruct (glue_rels ts wf (fun i => if Z.leb i (-1) then x else if Z.leb i 0 then s0 else if Z.leb i 1 then s1 else if Z.leb i 2 then s2 else y) [] (NoDup_nil _)) as [r [R0 _]]; [intros ? ? []|].
    exists r. assert (A : agree_on sv r s0) by (intros v Hv; specialize (R0 0%Z v Hv); rewrite shiftv_0 in R0; exact R0).
    split; [intros v Hv; exact (R0 (-1)%Z v Hv)|]. split; [exact A|]. split; [intros v Hv; exact (R0 2%Z v Hv)|]. split; [intros v Hv; exact (R0 3%Z v Hv)|].
    apply holds_and2. split.
    - apply two_holds. split.
      + eapply pure_hold0; [exact Pe|exact H1|exact A|intros v Hv; exact (R0 1%Z v Hv)].
      + eapply pure_hold; [exact Pe|exact H2|intros v Hv; exact (R0 1%Z v Hv)|intros v Hv; exact (R0 2%Z v Hv)].
    - apply holds_not. intros H. apply N. apply (shift_next_rel ts wf ex r s0 s2 Pe A); [intros v Hv; exact (R0 2%Z v Hv)|exact H]. }
  destruct (is_unsat (check [_])) eqn:U1; [injection E as <-|].
  { apply is_unsat_spec in U1. exists lt, ex. repeat split; auto; try apply Ex; auto. intros s0 s1 s2 _ H1 H2.
    destruct (dec_rel ex s0 s2 Pe) as [D|D]; [exact D|exfalso]. destruct (G s0 s0 s1 s2 s0 H1 H2 D) as [r [_ [_ [_ [_ K]]]]]. apply (U1 r). auto. }
  clear U1. destruct (is_unsat (check [_; shift (-1) _])) eqn:U1; [injection E as <-|].
  { apply is_unsat_spec in U1. exists lt, ex. repeat split; auto; try apply Ex; auto. intros s0 s1 s2 [x [X1 X2]] H1 H2.
    destruct (dec_rel ex s0 s2 Pe) as [D|D]; [exact D|exfalso]. destruct (G x s0 s1 s2 s0 H1 H2 D) as [r [Q1 [Q2 [_ [_ K]]]]]. apply (U1 r). repeat constructor; [exact K|].
    apply holds_shift. apply holds_and2. split; [apply (sf_at0 ts _ (fun v => r (shiftv (-1) v)) x Fi Q1), X1|].
    eapply pure_hold0; [exact Pl|exact X2|exact Q1|]. intros v Hv. cbv beta. rewrite shiftv_shiftv. change (-1 + 1)%Z with 0%Z. rewrite shiftv_0. apply Q2, Hv. }
  clear U1. destruct (is_unsat (check _)) eqn:U1; [injection E as <-|discriminate].
  apply is_unsat_spec in U1. exists lt, ex. repeat split; auto; try apply Ex; auto. intros s0 s1 s2 [x [X1 X2]] H1 H2.
  destruct (dec_rel ex s0 s2 Pe) as [D|D]; [exact D|exfalso]. destruct (G s0 s0 s1 s2 x H1 H2 D) as [r [_ [_ [Q1 [Q2 K]]]]]. apply (U1 r). repeat constructor; [exact K|].
  apply holds_and2. split; [|apply (sf_at ts _ r 3 x Fq Q2), X2].
  eapply pure_hold; [exact Pl|exact X1|exact Q1|exact Q2].
Qed.
Lemma eq_fixed_ok : forall l i e,
  (forall k lt ex, nth_error l k = Some (lt, ex) -> pure lt /\ pure ex /\ 1 <= i + k /\
    (forall n s s', n < Nat.pow 2 (i + k) -> Steps ts n s s' -> rel lt s s') /\ (forall s s', Steps ts (Nat.pow 2 (i + k)) s s' -> rel ex s s') /\
    (forall s s', holds s (tinit ts) -> holds s' (tquery ts) -> ~ rel lt s s' /\ forall s1, rel lt s s1 -> ~ rel ex s1 s')) ->
  eq_fixed check ts i l = Some e -> expl_ok e.
Proof.
  induction l as [|[lt ex] l IH]; intros i e H E; cbn [eq_fixed] in E; [discriminate|].
  destruct (eq_level check ts i lt ex) as [e'|] eqn:El.
  - injection E as <-. specialize (H 0 lt ex eq_refl). rewrite Nat.add_0_r in H. destruct H as [A [B [C [D [F G]]]]]. exact (eq_level_ok i lt ex _ A B C D F G El).
  - eapply (IH (S i)); [|exact E]. intros k lt' ex' Hk. specialize (H (S k) lt' ex' Hk). rewrite Nat.add_succ_r in H. exact H.
Qed.

(** ** Consequences of an explanation *)
Lemma right_reach r ti s n s' : expl_ok (LessThanExpl r RIGHT ti) -> allowed r s s' -> Steps ts n s s' -> rel ti s s'.
Proof.
  intros [P [I0 [_ [Nq C]]]] Al H. revert s' Al H. induction n as [|n IH]; intros s' Al H.
  - inversion H; subst. apply I0.
  - apply Steps_snoc in H as [t [H1 H2]]. assert (Al' : forall u, allowed r s u) by (intros u; destruct r; [exact I|exact Al|congruence]).
    eapply C; [apply Al'|apply IH; [apply Al'|exact H1]|exact H2].
Qed.
Lemma left_reach r ti s n s' : expl_ok (LessThanExpl r LEFT ti) -> allowed r s s' -> Steps ts n s s' -> rel ti s s'.
Proof.
  intros [P [I0 [_ [Nq C]]]] Al H. assert (Al' : forall u, allowed r u s') by (intros u; destruct r; [exact I|congruence|exact Al]).
  clear Al. induction H as [s|n s t s' H1 H2 IH].
  - apply I0.
  - eapply C; [apply Al'|exact H1|apply IH, Al'].
Qed.
Lemma eq_reach r i ti lt ex s n s' : eq_parts r i ti lt ex -> allowed r s s' -> Steps ts n s s' -> rel lt s s' \/ exists s1, rel lt s s1 /\ rel ex s1 s'.
Proof.
  intros [_ [_ [_ [Hi [L [X [C _]]]]]]] Al H. set (k := Nat.pow 2 i) in *. assert (K : 1 <= k) by apply pow2_pos.
  assert (En : n = n mod k + n / k * k) by (rewrite Nat.add_comm, (Nat.mul_comm (n / k)); apply Nat.div_mod_eq).
  destruct (n / k) as [|q] eqn:Eq.
  - left. apply (L n); [|exact H]. rewrite En. assert (n mod k < k) by (apply Nat.mod_upper_bound; lia). lia.
  - right. rewrite En in H. apply (proj2 (npow_Steps ts _ _ _)) in H. apply npow_split in H as [s1 [H1 H2]].
    apply (proj1 (npow_Steps ts _ _ _)) in H1. apply (L (n mod k)) in H1; [|apply Nat.mod_upper_bound; lia]. exists s1. split; [exact H1|].
    clear En Eq. destruct r.
    + revert s' H2 Al. induction q as [|q IH]; intros s' H2 Al.
      * apply X. apply (proj1 (npow_Steps ts _ _ _)). replace (1 * k) with k in H2 by lia. exact H2.
      * replace (S (S q) * k) with (S q * k + k) in H2 by lia. apply npow_split in H2 as [t [H3 H4]].
        apply (C s1 t s'); [exact I|apply IH; [exact H3|exact I]|]. apply X. apply (proj1 (npow_Steps ts _ _ _)). exact H4.
    + cbn [allowed] in Al. revert s' H2. induction q as [|q IH]; intros s' H2.
      * apply X. apply (proj1 (npow_Steps ts _ _ _)). replace (1 * k) with k in H2 by lia. exact H2.
      * replace (S (S q) * k) with (S q * k + k) in H2 by lia. apply npow_split in H2 as [t [H3 H4]].
        apply (C s1 t s'); [exists s; auto|apply IH; exact H3|]. apply X. apply (proj1 (npow_Steps ts _ _ _)). exact H4.
    + cbn [allowed] in Al. clear H1. revert s1 H2. induction q as [|q IH]; intros s1 H2.
      * apply X. apply (proj1 (npow_Steps ts _ _ _)). replace (1 * k) with k in H2 by lia. exact H2.
      * replace (S (S q) * k) with (k + S q * k) in H2 by lia. apply npow_split in H2 as [t [H3 H4]].
        apply (C s1 t s'); [exists s'; split; [apply (L 0); [lia|constructor]|exact Al]| |apply IH, H4]. apply X. apply (proj1 (npow_Steps ts _ _ _)). exact H3.
Qed.

Lemma init_of s : Init ts s -> holds s (tinit ts).
Proof. intros [r [A H]]. apply (state_formula_holds ts _ r s Fi A), H. Qed.
Lemma bad_of s : Bad ts s -> holds s (tquery ts).
Proof. intros [r [A H]]. apply (state_formula_holds ts _ r s Fq A), H. Qed.

Lemma expl_safe e : expl_ok e -> safe ts.
Proof.
  intros H n [s [s' [H1 [H2 H3]]]]. apply init_of in H1. apply bad_of in H3. destruct e as [r f ti|r i ti].
  - assert (Al : allowed r s s') by (destruct r; cbn; auto). pose proof H as [_ [_ [Ex _]]]. apply (Ex s s' H1 H3).
    destruct f; [eapply right_reach|eapply left_reach]; eauto.
  - destruct H as [lt [ex H]]. assert (Al : allowed r s s') by (destruct r; cbn; auto).
    destruct (eq_reach _ _ _ _ _ _ _ _ H Al H2) as [K|[s1 [K1 K2]]]; destruct H as [_ [_ [_ [_ [_ [_ [_ Ex]]]]]]]; destruct (Ex s s' H1 H3) as [E1 E2]; [exact (E1 K)|exact (E2 s1 K1 K2)].
Qed.
End Fix.
