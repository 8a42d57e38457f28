(** * C60, C61, C62: the Alethe proof printed for an unsatisfiable system. *)
From Verif Require Import Names AletheModel AletheSpec AletheSound AletheNum AletheLet AletheSimp AletheSimp2 AletheBuild AletheInst AletheTop AletheSorted.
Open Scope string_scope.
Open Scope list_scope.
Open Scope nat_scope.

(** ** C60: evaluation of terms *)
(** The text of every number reads back as the number. *)
Theorem C60_numbers q k : read_number (number_str q k) = Some q.
Proof. apply read_number_str. Qed.
(** A well-sorted term over Int and Bool without variables that divides by zero nowhere: the recorded steps are right, and the last of them derives the equality of
    the term and the constant for its value. *)
Theorem C60_evaluation props asserts I r t k : sorted [] k t -> nz I r t -> (forall s k', t <> T s k') ->
  exists n s e cs, simplify t None (mkP [] 0 0 0) = Some (Some (vconst (den I r t), n), s) /\ checked props asserts (rev (p_out s)) e cs /\ nth_error cs n = Some [EEq t (vconst (den I r t))].
Proof.
  intros S N NT. destruct (ev_inst I r [] [] t k S N) as (g & G1 & G2 & G3); [intros s k' V; discriminate V|].
  rewrite instantiate_nil in G1 by (eapply srt_letfree; exact S).
  destruct (ev_simp props asserts t g G1) as (_ & _ & SI).
  assert (I0 : inv props asserts (mkP [] 0 0 0) [] []) by (repeat split; cbn; try constructor; try lia; try discriminate).
  destruct (SI None _ _ _ I0) as (res & s' & e' & cs' & E & I1 & _ & R); [discriminate|].
  assert (EC : canon g = vconst (den I r t)) by (rewrite (gsort_canon _ _ G3), G2; reflexivity). rewrite EC in R.
  destruct res as [[x n]|].
  - destruct R as (-> & R & _). exists n, s', e', cs'. split; [exact E|]. split; [apply I1|exact R].
  - exfalso. destruct R as (R & _). destruct (den I r t) as [[|]|q]; cbn in R; eapply NT; symmetry; exact R.
Qed.

(** ** C61: elimination of lets *)
(** Lets outside predicate arguments and declarations are eliminated, and the assertion keeps its meaning. *)
Theorem C61_lets a fuel : plain_top a = true -> lets a <= fuel ->
  exists t, elim_lets fuel a = Some t /\ letfree_top t = true /\ forall I r, tr I r t <-> tr I r a.
Proof. apply elim_lets_ok. Qed.

(** ** C62: the whole proof *)
(** A proof is sound: no interpretation of the predicates makes all the assertions true. *)
Theorem C62_sound props asserts ss : is_proof props asserts ss -> forall I r, fits props r -> ~ (forall a, In a asserts -> tr I r a).
Proof. apply proof_sound. Qed.
(** For a derivation of "false" with clauses over Int and Bool, a proof is printed. *)
Theorem C62_proof props asserts ts fuel I d vals facts :
  Forall (fun a => plain_top a = true /\ lets a <= fuel) asserts -> mapO (elim_lets fuel) asserts = Some ts -> refutation props I ts d vals facts ->
  exists ss, build fuel asserts d (inst_of_vals ts d vals) = Some ss /\ is_proof props asserts ss.
Proof. apply build_sorted. Qed.
(** Hence the assertions have no model. *)
Theorem C62_unsat props asserts ts fuel I d vals facts :
  Forall (fun a => plain_top a = true /\ lets a <= fuel) asserts -> mapO (elim_lets fuel) asserts = Some ts -> refutation props I ts d vals facts ->
  forall I' r, fits props r -> ~ (forall a, In a asserts -> tr I' r a).
Proof. intros HA HT HR. destruct (C62_proof _ _ _ _ _ _ _ _ HA HT HR) as (ss & _ & HP). exact (C62_sound _ _ _ HP). Qed.

(** ** A system with lets, an unused variable, "ite", "mod" and a predicate without arguments *)
Module ExAlethe.
Definition v s := T s KVar.
Definition n s := T s KInt.
Definition a0 := All [("x", "Int"); ("u", "Int")] (Let ["y"] [O OPlus [v "x"; n "1"]] (O OImp [O OEq [v "y"; O OIte [O OLt [v "x"; n "0"]; O OIDiv [n "1"; v "x"]; n "1"]]; A "P" [v "x"]])).
Definition a1 := All [("x", "Int"); ("z", "Int")] (O OImp [O OAnd [A "P" [v "x"]; O OEq [v "z"; O OMinus [v "x"; n "3"]]]; A "Q" [v "z"; O OGt [v "z"; n "(- 5)"]]]).
Definition a2 := All [("z", "Int"); ("b", "Bool")] (O OImp [O OAnd [A "Q" [v "z"; v "b"]; v "b"; O OEq [O OMod [v "z"; n "2"]; n "1"]]; v "R"]).
Definition a3 := All [("w", "Int")] (O OImp [v "R"; T "false" KBool]).
Definition asserts := [a0; a1; a2; a3].
Definition d := [mkC [] 0; mkC [0] 0; mkC [1] 1; mkC [2] 2; mkC [3] 3].
Definition z (x : Z) : aval := AN (Q2Qc (inject_Z x)).
Definition vals (i : nat) : asg := fun s =>
  match i with
  | 2 => if String.eqb s "z" then z (-3) else z 0
  | 3 => if String.eqb s "z" then z (-3) else if String.eqb s "b" then AB true else z 0
  | _ => z 0
  end.
Definition facts (i : nat) : sfact := match i with 1 => SFact "P" [z 0] | 2 => SFact "Q" [z (-3); AB true] | 3 => SFact "R" [] | _ => SFalse end.
Definition I0 := mkI (fun _ _ => false) (fun _ x => x).
Definition ts := Eval vm_compute in match mapO (elim_lets 1) asserts with Some l => l | None => [] end.
Ltac vars := split; [discriminate|]; split; [repeat constructor; cbn; intuition discriminate|]; cbn; intros x Hx;
  repeat match goal with H : _ \/ _ |- _ => destruct H | H : False |- _ => destruct H end; subst; first [exists SI; split; [reflexivity|eexists; reflexivity]|exists SB; split; [reflexivity|eexists; reflexivity]].
Ltac args := split; [discriminate|]; cbn; intros x Hx; repeat match goal with H : _ \/ _ |- _ => destruct H | H : False |- _ => destruct H end; subst;
  (split; [first [exists SI; reflexivity|exists SB; reflexivity]|cbn; repeat split]).
Ltac grd := apply nd_guard; [reflexivity|cbn; repeat split; try discriminate|vm_compute; reflexivity|].
Lemma ref : refutation ["R"] I0 ts d vals facts.
Proof.
  constructor.
  - intros c E. injection E as <-. reflexivity.
  - intros i c E Hc. destruct i as [|[|[|[|[|i]]]]]; cbn in E; try (destruct i; discriminate E); injection E as <-; [exfalso; apply Hc; reflexivity|..].
    + exists (nth 0 ts a0), []. split; [reflexivity|]. split; [|intros _; split; [reflexivity|]].
      * apply (sc_rule ["R"] I0 (vals 1) [("x", "Int"); ("u", "Int")] _ _ [] (SFact "P" (map (den I0 (vals 1)) [v "x"]))); [vars| |apply hd_atom; args]. cbn [conjuncts]. grd. apply nd_nil.
      * intros x [].
    + exists (nth 1 ts a0), [SFact "P" (map (den I0 (vals 2)) [v "x"])]. split; [reflexivity|]. split; [|intros _; split; [reflexivity|]].
      * replace (facts 2) with (SFact "Q" (map (den I0 (vals 2)) [v "z"; O OGt [v "z"; n "(- 5)"]])) by reflexivity.
        apply (sc_rule ["R"] I0 (vals 2) [("x", "Int"); ("z", "Int")] _ _ [SFact "P" (map (den I0 (vals 2)) [v "x"])]); [vars| |apply hd_atom; args]. cbn [conjuncts].
        apply nd_atom; [args|]. grd. apply nd_nil.
      * intros x Hx. exact Hx.
    + exists (nth 2 ts a0), [SFact "Q" (map (den I0 (vals 3)) [v "z"; v "b"])]. split; [reflexivity|]. split; [|intros _; split; [reflexivity|]].
      * apply (sc_rule ["R"] I0 (vals 3) [("z", "Int"); ("b", "Bool")] _ _ [SFact "Q" (map (den I0 (vals 3)) [v "z"; v "b"])]); [vars| |apply hd_prop; repeat split; [left; reflexivity|cbn; intuition discriminate]]. cbn [conjuncts].
        apply nd_atom; [args|]. grd. grd. apply nd_nil.
      * intros x Hx. exact Hx.
    + exists (nth 3 ts a0), [SFact "R" []]. split; [reflexivity|]. split; [|intros _; split; [reflexivity|]].
      * apply (sc_rule ["R"] I0 (vals 4) [("w", "Int")] _ _ [SFact "R" []]); [vars| |apply hd_false]. cbn [conjuncts]. apply nd_prop; [repeat split; [left; reflexivity|cbn; intuition discriminate]|apply nd_nil].
      * intros x Hx. exact Hx.
  - intros i c p E Hp Hn. destruct i as [|[|[|[|[|i]]]]]; cbn in E; try (destruct i; discriminate E); injection E as <-; cbn in Hp; repeat destruct Hp as [<-|Hp]; try destruct Hp; try congruence;
      (split; [lia|]; eexists; split; [reflexivity|discriminate]).
  - eexists. split; [discriminate|]. split; [reflexivity|]. split; [discriminate|reflexivity].
Qed.
Example hyps : Forall (fun a => plain_top a = true /\ lets a <= 1) asserts /\ mapO (elim_lets 1) asserts = Some ts /\ refutation ["R"] I0 ts d vals facts.
Proof. split; [repeat constructor; cbn; lia|]. split; [vm_compute; reflexivity|exact ref]. Qed.
(** The proof has this many steps. *)
Example proof_size : option_map (@length step) (build 1 asserts d (inst_of_vals ts d vals)) = Some 66.
Proof. vm_compute. reflexivity. Qed.
(** Evaluation of a closed term. *)
Definition tm := O OOr [O OGe [O OMod [n "(- 7)"; n "(- 2)"]; n "2"]; O ONot [O OEq [O OTimes [n "3"; n "4"]; n "12"]]; O OEq [T "true" KBool; O OLe [n "1"; O OIDiv [n "7"; n "2"]]]].
Example tm_hyps : sorted [] SB tm /\ nz I0 (fun _ => z 0) tm /\ (forall s k, tm <> T s k) /\ den I0 (fun _ => z 0) tm = AB true.
Proof. split; [vm_compute; reflexivity|]. split; [vm_compute; intuition discriminate|]. split; [discriminate|vm_compute; reflexivity]. Qed.
End ExAlethe.

(** ** Where no proof or a wrong proof is printed *)
(** The names and clauses of a list of steps, computed. *)
Fixpoint expand (ss : list step) (e : nenv) (cs : list (list elit)) : option (nenv * list (list elit)) :=
  match ss with
  | [] => Some (e, cs)
  | s :: r => match mapO (ex_lit (step_defs s ++ e)) (s_clause s) with Some c => expand r (step_defs s ++ e) (cs ++ [c]) | None => None end
  end.
Lemma expand_app ss s e cs : expand (ss ++ [s]) e cs = match expand ss e cs with Some (e', cs') => expand [s] e' cs' | None => None end.
Proof. revert e cs. induction ss as [|x ss IH]; intros e cs; [reflexivity|]. cbn [app expand]. destruct (mapO _ (s_clause x)); [apply IH|reflexivity]. Qed.
Lemma checked_expand props asserts ss e cs : checked props asserts ss e cs -> expand ss [] [] = Some (e, cs) /\ length ss = length cs.
Proof.
  induction 1 as [|ss e cs s ps c H [IH L] HI HN HE HP HR]; [split; reflexivity|]. rewrite expand_app, IH. cbn [expand]. rewrite HE. rewrite !app_length, L. split; reflexivity.
Qed.
(** Every step of a proof keeps its rule. *)
Lemma checked_rule props asserts ss e cs : checked props asserts ss e cs -> forall i s, nth_error ss i = Some s ->
  exists ps c, mapO (nth_error cs) (s_premises s) = Some ps /\ nth_error cs i = Some c /\ rule_ok props asserts (s_rule s) ps (s_args s) c.
Proof.
  induction 1 as [|ss e cs s ps c H IH HI HN HE HP HR]; intros i x Ex; [destruct i; discriminate Ex|].
  pose proof (checked_expand _ _ _ _ _ H) as (_ & L).
  assert (G : forall l qs, mapO (nth_error cs) l = Some qs -> mapO (nth_error (cs ++ [c])) l = Some qs).
  { induction l as [|k l IHl]; cbn; intros qs E; [exact E|]. destruct (nth_error cs k) eqn:Ek; [|discriminate]. destruct (mapO (nth_error cs) l); [|discriminate].
    rewrite nth_error_app1 by (apply nth_error_Some; congruence). rewrite Ek, (IHl _ eq_refl). exact E. }
  destruct (Nat.lt_ge_cases i (length ss)) as [LT|GE].
  - rewrite nth_error_app1 in Ex by exact LT. destruct (IH i x Ex) as (qs & c' & E1 & E2 & E3). exists qs, c'. split; [apply G; exact E1|]. split; [|exact E3].
    rewrite nth_error_app1 by (apply nth_error_Some; congruence). exact E2.
  - rewrite nth_error_app2 in Ex by exact GE. destruct (i - length ss) as [|m] eqn:Em; [|cbn in Ex; destruct m; discriminate Ex]. injection Ex as <-.
    exists ps, c. split; [apply G; exact HP|]. split; [|exact HR]. assert (i = length cs) as -> by lia. apply nth_last. reflexivity.
Qed.
(** The clauses of the premises of step [i], and its own. *)
Definition step_at (ss : list step) (i : nat) : option (rule * list (list elit) * list string * list elit) :=
  match expand ss [] [], nth_error ss i with
  | Some (_, cs), Some s => match mapO (nth_error cs) (s_premises s), nth_error cs i with Some ps, Some c => Some (s_rule s, ps, s_args s, c) | _, _ => None end
  | _, _ => None
  end.
Lemma wrong_step props asserts ss i ru ps args c : step_at ss i = Some (ru, ps, args, c) -> ~ rule_ok props asserts ru ps args c -> ~ is_proof props asserts ss.
Proof.
  unfold step_at. intros E N (e & cs & H). destruct (checked_expand _ _ _ _ _ H) as (X & _). rewrite X in E. destruct (nth_error ss i) as [s|] eqn:Es; [|discriminate E].
  destruct (checked_rule _ _ _ _ _ H i s Es) as (qs & c' & E1 & E2 & E3). rewrite E1, E2 in E. injection E as <- <- <- <-. contradiction.
Qed.
Module ExWrong.
Import ExAlethe.
Definition from (o : option (list step)) : list step := match o with Some l => l | None => [] end.
Definition ff := T "false" KBool.
(** (a) An implication without quantifier: the "implies" step cites the last step instead of the assertion. *)
Definition wa := [O OImp [A "P" [n "1"]; ff]; A "P" [n "1"]].
Definition da := [mkC [] 0; mkC [0] 1; mkC [1] 0].
Theorem C62_unquantified_refuted : (forall I r, ~ (forall a, In a wa -> tr I r a)) /\ exists ss, build 0 wa da (fun _ => Some []) = Some ss /\ ~ is_proof [] wa ss.
Proof.
  split.
  - intros I r H. pose proof (H _ (or_introl eq_refl)) as H1. pose proof (H _ (or_intror (or_introl eq_refl))) as H2. cbn in H1, H2. injection H2 as H2. rewrite H2 in H1. discriminate H1.
  - exists (from (build 0 wa da (fun _ => Some []))). split; [vm_compute; reflexivity|].
    eapply (wrong_step _ _ _ 2); [vm_compute; reflexivity|]. cbn. intros (a & b & _ & _ & E & _). discriminate E.
Qed.
(** (b) A conjunction inside a conjunction. *)
Definition wb := [A "P" [n "1"]; A "Q" [n "1"]; A "R" [n "1"]; All [("x", "Int")] (O OImp [O OAnd [O OAnd [A "P" [v "x"]; A "Q" [v "x"]]; A "R" [v "x"]]; ff])].
Definition db := [mkC [] 0; mkC [0] 0; mkC [0] 1; mkC [0] 2; mkC [1; 2; 3] 3].
Definition ib (i : nat) : option (list (string * string)) := match i with 4 => Some [("x", "1")] | _ => Some [] end.
Theorem C62_nested_refuted : (forall I r, ~ (forall a, In a wb -> tr I r a)) /\ exists ss, build 0 wb db ib = Some ss /\ ~ is_proof [] wb ss.
Proof.
  split.
  - intros I r H. pose proof (H _ (or_introl eq_refl)) as H1. pose proof (H _ (or_intror (or_introl eq_refl))) as H2. pose proof (H _ (or_intror (or_intror (or_introl eq_refl)))) as H3.
    pose proof (H _ (or_intror (or_intror (or_intror (or_introl eq_refl))))) as H4. cbn [tr den map] in H1, H2, H3. cbn in H4.
    specialize (H4 (fun s => if String.eqb s "x" then AN (numeral "1") else r s)).
    assert (X : AB (negb (i_pred I "P" [AN (numeral "1")] && (i_pred I "Q" [AN (numeral "1")] && true) && (i_pred I "R" [AN (numeral "1")] && true)) || false)%bool = AB true).
    { apply H4.
      - intros s Hs. destruct (String.eqb_spec s "x") as [->|]; [exfalso; apply Hs; left; reflexivity|reflexivity].
      - intros x [<-|[]]. exists 1%Z. reflexivity. }
    injection H1 as H1. injection H2 as H2. injection H3 as H3. cbn [den map] in *. unfold n in *. rewrite H1, H2, H3 in X. discriminate X.
  - exists (from (build 0 wb db ib)). split; [vm_compute; reflexivity|].
    eapply (wrong_step _ _ _ 13); [vm_compute; reflexivity|]. cbn [rule_ok].
    intros H. apply (H (fun a => match a with O _ _ => False | _ => True end) (fun _ => True)).
    + intros p Hp. repeat destruct Hp as [<-|Hp]; try destruct Hp; intros X.
      * apply (X _ (or_introl eq_refl)). exact Logic.I.
      * apply (X _ (or_introl eq_refl)). exact Logic.I.
      * apply (X _ (or_introl eq_refl)). exact Logic.I.
      * apply (X _ (or_intror (or_introl eq_refl))). cbn. tauto.
    + intros l [<-|[]]. cbn. tauto.
Qed.
(** (c) Reals: "3/2" and "1.5" are different texts. *)
Definition wc := [All [("x", "Real")] (O OImp [O OEq [v "x"; T "1.5" KReal]; A "P" [v "x"]]); All [("x", "Real")] (O OImp [A "P" [v "x"]; ff])].
Definition dc := [mkC [] 0; mkC [0] 0; mkC [1] 1].
Definition q32 : Qc := Q2Qc (3 # 2).
Theorem C60_reals_refuted : let ic := fun i : nat => Some [("x", number_str q32 KReal)] in
  exists ss, build 0 wc dc ic = Some ss /\ ~ is_proof [] wc ss /\
    exists t, step_at ss 6 = Some (REqSimplify, [], [], [EEq t (tbool false)]) /\ forall I r, den I r t = AB true.
Proof.
  cbn zeta. exists (from (build 0 wc dc (fun _ => Some [("x", number_str q32 KReal)]))). split; [vm_compute; reflexivity|].
  assert (X : exists t, step_at (from (build 0 wc dc (fun _ => Some [("x", number_str q32 KReal)]))) 6 = Some (REqSimplify, [], [], [EEq t (tbool false)]) /\ forall I r, den I r t = AB true).
  { eexists. split; [vm_compute; reflexivity|]. intros I r. vm_compute. reflexivity. }
  split; [|exact X]. destruct X as (t & X1 & X2). eapply wrong_step; [exact X1|]. intros (_ & o & l & b & E1 & E2 & E3 & E4).
  injection E3 as E3 E5. subst. specialize (E4 I0 (fun _ => AB true) (fun s H => match H with end)). rewrite X2 in E4. discriminate E4.
Qed.
(** (d) A minus sign in front of a variable. *)
Definition wd := [A "P" [n "1"]; All [("x", "Int")] (to_atm (AOp OImp [AOp OAnd [AFun "P" [AId "x"]; AOp OLt [AOp OMinus [AId "x"]; ANum "0"]]; AId "false"]))].
Definition dd := [mkC [] 0; mkC [0] 0; mkC [1] 1].
Theorem C62_minus_refuted : (forall I r, ~ (forall a, In a wd -> tr I r a)) /\ build 0 wd dd (fun i => if Nat.eqb i 2 then Some [("x", "1")] else Some []) = None.
Proof.
  split; [|vm_compute; reflexivity].
  intros I r H. pose proof (H _ (or_introl eq_refl)) as H1. pose proof (H _ (or_intror (or_introl eq_refl))) as H4. cbn [tr den map] in H1.
  specialize (H4 (fun s => if String.eqb s "x" then AN (numeral "1") else r s)).
  assert (X : AB (negb (i_pred I "P" [AN (numeral "1")] && true) || false)%bool = AB true).
  { apply H4.
    - intros s Hs. destruct (String.eqb_spec s "x") as [->|]; [exfalso; apply Hs; left; reflexivity|reflexivity].
    - intros x [<-|[]]. exists 1%Z. reflexivity. }
  injection H1 as H1. unfold n in H1. cbn [den] in H1. rewrite H1 in X. discriminate X.
Qed.
(** (e) An equality of three terms. *)
Definition we := O OEq [n "1"; n "1"; n "2"].
Theorem C60_chain_refuted : exists ss, simplify we None (mkP [] 0 0 0) = Some (Some (tbool true, 0), ss) /\ forall I r, den I r we = AB false.
Proof. eexists. split; [vm_compute; reflexivity|]. intros I r. vm_compute. reflexivity. Qed.
(** (f) A predicate without arguments as a fact. *)
Theorem C62_fact_refuted : (forall I r, ~ (forall a, In a [v "R"; O OImp [v "R"; ff]] -> tr I r a)) /\ build 0 [v "R"; O OImp [v "R"; ff]] [mkC [] 0; mkC [0] 0; mkC [1] 1] (fun _ => Some []) = None.
Proof.
  split; [|vm_compute; reflexivity]. intros I r H. pose proof (H _ (or_introl eq_refl)) as H1. pose proof (H _ (or_intror (or_introl eq_refl))) as H2. cbn in H1, H2. unfold var_val in *. cbn in H1, H2. rewrite H1 in H2. discriminate H2.
Qed.
(** (g) A let in the declaration of a let. *)
Definition wg := Let ["c"] [n "5"] (Let ["a"] [Let ["b"] [v "c"] (v "b")] (A "P" [v "a"])).
Theorem C61_nested_refuted : elim_lets 3 wg = Some (A "P" [v "c"]) /\ ~ forall I r, tr I r (A "P" [v "c"]) <-> tr I r wg.
Proof.
  split; [vm_compute; reflexivity|]. intros H.
  specialize (H (mkI (fun _ l => match l with [AN q] => Qc_eq_bool q (Q2Qc (inject_Z 5)) | _ => false end) (fun _ x => x)) (fun _ => AN 0%Qc)). destruct H as [_ H].
  assert (X : AB false = AB true) by (apply H; vm_compute; reflexivity). discriminate X.
Qed.
End ExWrong.
