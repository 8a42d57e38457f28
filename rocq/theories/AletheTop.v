(** * The whole proof. *)
From Verif Require Import Names AletheModel AletheSpec AletheSound AletheNum AletheLet AletheSimp AletheSimp2 AletheBuild AletheInst.
Open Scope string_scope.
Open Scope list_scope.
Open Scope nat_scope.

(** A clause, with constants for its variables, derives a fact from other facts. *)
Inductive clause_inst (props : list string) : atm -> list (string * string) -> list atm -> atm -> Prop :=
| ci_rule vs L R pairs l a : vs <> [] -> inst_ok vs (O OImp [L; R]) pairs -> body_facts props (instantiate pairs L) = Some l -> head_nf props (instantiate pairs R) = Some a ->
    clause_inst props (All vs (O OImp [L; R])) pairs l a
| ci_fact_q vs f args pairs a : vs <> [] -> inst_ok vs (A f args) pairs -> head_nf props (instantiate pairs (A f args)) = Some a -> clause_inst props (All vs (A f args)) pairs [] a
| ci_fact f args a : letfree (A f args) = true -> head_nf props (A f args) = Some a -> clause_inst props (A f args) [] [] a.
Definition is_imp (t : atm) : bool := match t with All _ (O OImp _) => true | _ => false end.
(** A derivation with the facts of its steps; only the steps with premises count. *)
Record deriv_ok (props : list string) (ts : list atm) (d : list cstep) (inst : nat -> option (list (string * string))) (facts : nat -> atm) : Prop := {
  do_first : forall c, nth_error d 0 = Some c -> c_premises c = [];
  do_step : forall i c, nth_error d i = Some c -> c_premises c <> [] ->
    exists t pairs l, nth_error ts (c_clause c) = Some t /\ inst i = Some pairs /\ clause_inst props t pairs l (facts i) /\
      (is_imp t = true -> length (filter (fun p => negb (Nat.eqb p 0)) (c_premises c)) = length l /\ incl l (map facts (filter (fun p => negb (Nat.eqb p 0)) (c_premises c)))) ;
  do_before : forall i c p, nth_error d i = Some c -> In p (c_premises c) -> p <> 0 -> p < i /\ exists c', nth_error d p = Some c' /\ c_premises c' <> [] }.

Section Top.
Variable props : list string.
Variable asserts : list atm.
Notation inv := (inv props asserts).
Variable ts : list atm.

Definition linv (i : nat) (s : pst) (e : nenv) (cs : list (list elit)) : Prop :=
  inv s e cs /\ (forall k t, nth_error ts k = Some t -> nth_error cs k = Some [EPos t] /\ get_name e (NA k) = Some t) /\
  (forall j, get_name e (NI j) <> None -> S j < i) /\ (forall n, get_name e (NLHS n) <> None -> S n < p_cur s).

Lemma instantiate_atom_not_all pairs R a : head_nf props (instantiate pairs R) = Some a -> is_all (instantiate pairs R) = false.
Proof. destruct (instantiate pairs R); cbn; try reflexivity. discriminate. Qed.

(** Simplification of the derived fact. *)
Lemma finish_ok R a k s e cs : inv s e cs -> head_nf props R = Some a -> nth_error cs k = Some [EPos R] ->
  exists k' s' e' cs', (r <- simplify R None ;;
    match r with
    | Some (x, _) =>
        j <- last_step ;; _ <- record [Neg (Raw R); Pos (Raw x)] REquiv1 [j] ;;
        j' <- last_step ;; _ <- record [Pos (Raw x)] RResolution [j'; k] ;; last_step
    | None => ret k
    end) s = Some (k', s') /\ inv s' e' cs' /\ grows e cs e' cs' /\ nth_error cs' k' = Some [EPos a] /\ (S k = p_cur s -> S k' = p_cur s') /\ p_cur s <= p_cur s'.
Proof.
  intros HI HH HK. destruct (head_simp props asserts R a HH) as (AR & AA & SR).
  destruct (SR None s e cs HI) as (r & s1 & e1 & cs1 & E1 & I1 & G1 & R1); [discriminate|].
  assert (LE : p_cur s <= p_cur s1).
  { destruct HI as (_ & L & _). destruct I1 as (_ & L1 & _). destruct G1 as ((m & ->) & _). rewrite app_length in L1. lia. }
  destruct r as [[x j]|].
  - destruct R1 as (-> & R1 & J1).
    destruct (record_plain props asserts s1 e1 cs1 [Neg (Raw R); Pos (Raw a)] REquiv1 [p_cur s1 - 1] [] [[EEq R a]] [ENeg R; EPos a] I1) as (s2 & E2 & I2 & C2 & _ & _ & G2); [reflexivity|reflexivity| |cbn; eauto|].
    { cbn [mapO]. replace (p_cur s1 - 1) with j by lia. rewrite R1. reflexivity. }
    destruct (record_plain props asserts s2 e1 _ [Pos (Raw a)] RResolution [p_cur s2 - 1; k] [] [[ENeg R; EPos a]; [EPos R]] [EPos a] I2) as (s3 & E3 & I3 & C3 & _ & _ & G3); [reflexivity|reflexivity| | |].
    { cbn [mapO]. replace (p_cur s2 - 1) with (p_cur s1) by lia. rewrite nth_last by (apply I1). rewrite (grows_nth _ _ _ _ _ _ G2 (grows_nth _ _ _ _ _ _ G1 HK)). reflexivity. }
    { apply (res_2 props asserts _ R); [right; left; reflexivity|left; left; reflexivity]. }
    exists (p_cur s3 - 1), s3, e1. eexists. unfold bnd, record, last_step. rewrite E1, E2, E3. split; [reflexivity|]. split; [exact I3|]. split; [eapply grows_trans; [exact G1|eapply grows_trans; eassumption]|].
    split; [|lia]. replace (p_cur s3 - 1) with (p_cur s2) by lia. apply nth_last. apply I2.
  - destruct R1 as (-> & -> & -> & ->). exists k, s, e, cs. unfold bnd, ret. rewrite E1. split; [reflexivity|]. split; [exact I1|]. split; [apply grows_refl|]. auto.
Qed.

Lemma gr_assump P e cs e' cs' : (forall k, ~ P (NA k)) -> gr P e cs e' cs' -> forall k t, nth_error cs k = Some [EPos t] /\ get_name e (NA k) = Some t -> nth_error cs' k = Some [EPos t] /\ get_name e' (NA k) = Some t.
Proof. intros HP G k t [A1 A2]. split; [eapply gr_nth; eassumption|]. apply G. exact A2. Qed.
Lemma gr_len P s e cs s' e' cs' : inv s e cs -> inv s' e' cs' -> gr P e cs e' cs' -> p_cur s <= p_cur s'.
Proof. intros (_ & L & _) (_ & L' & _) ((m & ->) & _). rewrite app_length in L'. lia. Qed.

Lemma coarse_step_ok inst i c done s e cs pairs t l a ps fs :
  linv i s e cs -> 1 <= i -> nth_error ts (c_clause c) = Some t -> inst i = Some pairs -> clause_inst props t pairs l a ->
  premise_steps done (c_premises c) = Some ps -> mapO (nth_error cs) ps = Some (map (fun f => [EPos f]) fs) -> (is_imp t = true -> length ps = length l /\ incl l fs) ->
  exists k s' e' cs', coarse_step ts inst i c done s = Some (k, s') /\ linv (S i) s' e' cs' /\ (exists m, cs' = cs ++ m) /\ nth_error cs' k = Some [EPos a] /\ (a = tbool false -> S k = p_cur s').
Proof.
  intros (HI & HA & HNI & HNL) Hi ET EP HC EPS HPS HIMP.
  destruct (HA _ _ ET) as [HCL HNM].
  assert (FI : get_name e (NI (i - 1)) = None).
  { destruct (get_name e (NI (i - 1))) eqn:E; [|reflexivity]. assert (S (i - 1) < i) by (apply HNI; congruence). lia. }
  (* the instantiated clause *)
  assert (X : exists R k s1 e1 cs1, (x <- instantiation i (c_clause c) t pairs ;; derive_predicate (fst x) (snd x) ps) s = Some ((R, k), s1) /\ inv s1 e1 cs1 /\
     gr (fun n => n = NI (i - 1) \/ exists j, n = NLHS j /\ p_cur s <= j /\ S j < p_cur s1) e cs e1 cs1 /\ nth_error cs1 k = Some [EPos R] /\ head_nf props R = Some a /\ (a = tbool false -> S k = p_cur s1)).
  { inversion HC; subst; clear HC.
    - destruct (HIMP eq_refl) as [HN HL].
      destruct (instantiation_ok props asserts i (c_clause c) vs (O OImp [L; R]) pairs s e cs HI H0 H HCL HNM FI) as (k & s1 & e1 & cs1 & E1 & I1 & G1 & R1 & C1 & LT).
      cbn [instantiate map] in E1, R1.
      destruct (derive_predicate_ok props asserts (instantiate pairs L) (instantiate pairs R) k l ps fs s1 e1 cs1 I1) as (k' & s2 & e2 & cs2 & E2 & I2 & G2 & R2 & C2 & LT2); auto.
      { eapply instantiate_atom_not_all; eassumption. }
      { destruct (get_name e1 (NLHS k)) eqn:E; [|reflexivity]. exfalso. assert (En : get_name e (NLHS k) <> None) by (destruct G1 as (_ & _ & G1); rewrite <- G1; [congruence|reflexivity|discriminate]).
        apply HNL in En. lia. }
      { eapply gr_mapO; eassumption. }
      exists (instantiate pairs R), k', s2, e2, cs2. split; [unfold bnd; rewrite E1; exact E2|]. split; [exact I2|]. split; [|auto].
      eapply gr_trans; [eapply gr_weak; [|exact G1]; cbn; auto|]. eapply gr_weak; [|exact G2]. cbn. intros n ->. right. exists k. repeat split; lia.
    - destruct (instantiation_ok props asserts i (c_clause c) vs (A f args) pairs s e cs HI H0 H HCL HNM FI) as (k & s1 & e1 & cs1 & E1 & I1 & G1 & R1 & C1 & LT).
      cbn [instantiate] in E1, R1.
      exists (A f (map (instantiate pairs) args)), k, s1, e1, cs1. split; [unfold bnd; rewrite E1; reflexivity|]. split; [exact I1|]. split; [eapply gr_weak; [|exact G1]; cbn; auto|]. auto.
    - exists (A f args), (c_clause c), s, e, cs. split; [reflexivity|]. split; [exact HI|]. split; [apply grows_gr, grows_refl|]. split; [exact HCL|]. split; [assumption|].
      intros ->. cbn in H0. destruct (mapO ev args); discriminate H0. }
  destruct X as (R & k & s1 & e1 & cs1 & E1 & I1 & G1 & R1 & H1 & L1).
  destruct (finish_ok R a k s1 e1 cs1 I1 H1 R1) as (k' & s2 & e2 & cs2 & E2 & I2 & G2 & R2 & L2 & LE2).
  exists k', s2, e2, cs2. split; [|split; [|split; [|split; [exact R2|auto]]]].
  - unfold coarse_step. unfold bnd at 1, lift at 1. rewrite ET. unfold bnd at 1, lift at 1. rewrite EP. unfold bnd at 1. unfold bnd at 1 in E1.
    destruct (instantiation i (c_clause c) t pairs s) as [[x sx]|]; [|discriminate E1]. unfold bnd at 1, lift at 1. rewrite EPS. unfold bnd at 1. rewrite E1. exact E2.
  - pose proof (gr_len _ _ _ _ _ _ _ HI I1 G1) as LE1.
    repeat split; try apply I2.
    + apply (grows_nth _ _ _ _ _ _ G2). eapply gr_nth; [exact G1|]. apply HA. assumption.
    + apply G2, G1. apply HA. assumption.
    + intros j Hj. destruct G2 as (_ & _ & G2). rewrite G2 in Hj by reflexivity. destruct (Nat.eq_dec j (i - 1)) as [->|N]; [lia|].
      destruct G1 as (_ & _ & G1). rewrite G1 in Hj; [apply HNI in Hj; lia|reflexivity|]. intros [E|(x & E & _)]; [injection E as E; contradiction|discriminate E].
    + intros n Hn. destruct G2 as (_ & _ & G2). rewrite G2 in Hn by reflexivity. destruct G1 as (_ & _ & G1).
      destruct (get_name e (NLHS n)) eqn:En; [assert (S n < p_cur s) by (apply HNL; congruence); lia|].
      destruct (Nat.le_gt_cases (p_cur s2) (S n)) as [LE|LT]; [|exact LT]. exfalso. apply Hn. rewrite G1, En; [reflexivity|reflexivity|].
      intros [E|(x & E & X1 & X2)]; [discriminate E|]. injection E as <-. lia.
  - destruct G1 as ((m1 & ->) & _). destruct G2 as ((m2 & ->) & _). exists (m1 ++ m2). rewrite app_assoc. reflexivity.
Qed.

(** The steps before [i] that count are done. *)
Definition done_ok (d : list cstep) (facts : nat -> atm) (i : nat) (done : list (nat * nat)) (cs : list (list elit)) : Prop :=
  forall j c, j < i -> nth_error d j = Some c -> c_premises c <> [] -> exists k, nlookup done j = Some k /\ nth_error cs k = Some [EPos (facts j)].
Lemma premises_done d facts i done cs c : done_ok d facts i done cs ->
  (forall p, In p (c_premises c) -> p <> 0 -> p < i /\ exists c', nth_error d p = Some c' /\ c_premises c' <> []) ->
  exists ps, premise_steps done (c_premises c) = Some ps /\ mapO (nth_error cs) ps = Some (map (fun f => [EPos f]) (map facts (filter (fun p => negb (Nat.eqb p 0)) (c_premises c)))) /\
    length ps = length (filter (fun p => negb (Nat.eqb p 0)) (c_premises c)).
Proof.
  intros HD HP. unfold premise_steps.
  assert (HP' : forall p, In p (filter (fun p => negb (Nat.eqb p 0)) (c_premises c)) -> p < i /\ exists c', nth_error d p = Some c' /\ c_premises c' <> []).
  { intros p Hp. apply filter_In in Hp as [Hp Hz]. apply HP; [exact Hp|]. intros ->. discriminate Hz. }
  revert HP'. generalize (filter (fun p => negb (Nat.eqb p 0)) (c_premises c)). induction l as [|p l IH]; intros H; [exists []; auto|].
  destruct IH as (ps & E1 & E2 & E3); [intros q Hq; apply H; right; exact Hq|]. destruct (H p (or_introl eq_refl)) as (Hp & c' & Ec & Hc). destruct (HD p c' Hp Ec Hc) as (k & K1 & K2).
  exists (k :: ps). cbn. rewrite K1, K2, E1, E2, E3. auto.
Qed.
Lemma coarse_steps_ok inst d facts : deriv_ok props ts d inst facts ->
  forall r i done s e cs, linv i s e cs -> (forall j, nth_error r j = nth_error d (i + j)) -> done_ok d facts i done cs ->
  exists s' e' cs', coarse_steps ts inst i r done s = Some (tt, s') /\ inv s' e' cs' /\ (exists m, cs' = cs ++ m) /\
    (forall c, r <> [] -> nth_error r (length r - 1) = Some c -> c_premises c <> [] -> facts (i + (length r - 1)) = tbool false -> nth_error cs' (p_cur s' - 1) = Some [EPos (tbool false)]).
Proof.
  intros HD. induction r as [|c r IH]; intros i done s e cs HL HR HDN.
  - exists s, e, cs. split; [reflexivity|]. split; [apply HL|]. split; [exists []; rewrite app_nil_r; reflexivity|]. intros c H. congruence.
  - assert (Ec : nth_error d i = Some c) by (rewrite <- (Nat.add_0_r i), <- HR; reflexivity).
    assert (HR' : forall j, nth_error r j = nth_error d (S i + j)) by (intros j; replace (S i + j) with (i + S j) by lia; rewrite <- HR; reflexivity).
    cbn [coarse_steps]. destruct (c_premises c) as [|p0 pr] eqn:EP.
    + assert (HL' : linv (S i) s e cs).
      { destruct HL as (A1 & A2 & A3 & A4). repeat split; auto; try apply A1; try (apply A2; assumption). intros j Hj. apply A3 in Hj. lia. }
      destruct (IH (S i) done s e cs HL' HR') as (s' & e' & cs' & E & I' & (m' & M') & F).
      { intros j c' Hj Ej Hc. apply (HDN j c'); auto. destruct (Nat.eq_dec j i) as [->|]; [congruence|lia]. }
      exists s', e', cs'. split; [exact E|]. split; [exact I'|]. split; [eauto|]. intros c1 _ E1 Hc1 Hf. destruct r as [|c2 r].
      * cbn in E1. injection E1 as <-. congruence.
      * apply (F c1); [discriminate|cbn [length] in E1 |- *; rewrite Nat.sub_succ, Nat.sub_0_r in *; exact E1|exact Hc1|]. rewrite <- Hf. f_equal. cbn [length]. lia.
    + 
      destruct (do_step _ _ _ _ _ HD i c Ec) as (t & pairs & l & T1 & T2 & T3 & T4); [congruence|].
      assert (1 <= i).
      { destruct i; [|lia]. pose proof (do_first _ _ _ _ _ HD c Ec). congruence. }
      destruct (premises_done d facts i done cs c HDN) as (ps & P1 & P2 & P3).
      { intros p Hp Hz. apply (do_before _ _ _ _ _ HD i c p Ec Hp Hz). }
      destruct (coarse_step_ok inst i c done s e cs pairs t l (facts i) ps _ HL H T1 T2 T3 P1 P2) as (k & s1 & e1 & cs1 & E1 & L1 & (m & G1) & R1 & F1).
      { intros Hi. rewrite P3. destruct (T4 Hi). auto. }
      destruct (IH (S i) ((i, k) :: done) s1 e1 cs1 L1 HR') as (s' & e' & cs' & E & I' & (m' & M') & F).
      { intros j c' Hj Ej Hc. cbn. destruct (Nat.eqb_spec i j) as [->|N]; [exists k; auto|]. destruct (HDN j c') as (k' & K1 & K2); auto; [lia|].
        exists k'. split; [exact K1|]. rewrite G1, nth_error_app1; [exact K2|]. apply nth_error_Some. congruence. }
      exists s', e', cs'. split; [unfold bnd; rewrite E1; exact E|]. split; [exact I'|]. split; [exists (m ++ m'); rewrite M', G1, app_assoc; reflexivity|]. intros c1 _ Ec1 Hc1 Hf. destruct r as [|c2 r].
      * cbn in E. injection E as <-. cbn in Hf. rewrite Nat.add_0_r in Hf. 
        assert (EK : S k = p_cur s1) by auto. replace (p_cur s1 - 1) with k by lia. rewrite M', nth_error_app1; [rewrite <- Hf; exact R1|]. apply nth_error_Some. congruence.
      * apply (F c1); [discriminate|cbn [length] in Ec1 |- *; rewrite Nat.sub_succ, Nat.sub_0_r in *; exact Ec1|exact Hc1|]. rewrite <- Hf. f_equal. cbn [length]. lia.
Qed.

(** ** The assumptions *)
Definition top_ok (t a : atm) : Prop := forall I r, tr I r t <-> tr I r a.
Lemma assumptions_ok fuel : forall l s e cs, inv s e cs -> (forall a, In a l -> In a asserts /\ exists t, elim_lets fuel a = Some t /\ top_ok t a) ->
  (forall k, p_cur s <= k -> get_name e (NA k) = None) ->
  exists ts' s' e', assumptions fuel l s = Some (ts', s') /\ inv s' e' (cs ++ map (fun t => [EPos t]) ts') /\ Forall2 (fun a t => elim_lets fuel a = Some t) l ts' /\
    (forall n t, get_name e n = Some t -> get_name e' n = Some t) /\ (forall k t, nth_error ts' k = Some t -> get_name e' (NA (p_cur s + k)) = Some t) /\
    (forall n, (forall k, n <> NA k) -> get_name e' n = get_name e n).
Proof.
  induction l as [|a l IH]; intros s e cs HI HL HN.
  - exists [], s, e. split; [reflexivity|]. split; [rewrite app_nil_r; exact HI|]. split; [constructor|]. repeat split; auto. intros [|k] t E; discriminate E.
  - destruct (HL a (or_introl eq_refl)) as (Ha & t & Et & Ht).
    destruct (record_named props asserts s e cs [Pos (Named t (NA (p_cur s)))] RAssume [] [] [] [EPos t] (NA (p_cur s)) t HI) as (s1 & E1 & I1 & C1 & G1 & N1); try reflexivity.
    { apply HN. lia. }
    { cbn. split; [reflexivity|]. exists t, a. split; [reflexivity|]. split; [exact Ha|exact Ht]. }
    destruct (IH s1 ((NA (p_cur s), t) :: e) (cs ++ [[EPos t]]) I1) as (ts' & s' & e' & E2 & I2 & F2 & M2 & K2 & O2).
    { intros x Hx. apply HL. right. exact Hx. }
    { intros k Hk. destruct G1 as (_ & _ & G1). rewrite G1; [apply HN; lia|reflexivity|]. intros [= E]. lia. }
    exists (t :: ts'), s', e'. split; [|split; [|split; [constructor; assumption|split; [|split]]]].
    + cbn [assumptions]. unfold bnd at 1, lift. rewrite Et. unfold bnd at 1, record. rewrite E1. unfold bnd. rewrite E2. reflexivity.
    + rewrite <- app_assoc in I2. exact I2.
    + intros n u En. apply M2. apply G1. exact En.
    + intros [|k] u E; cbn in E.
      * injection E as <-. rewrite Nat.add_0_r. apply M2. exact N1.
      * replace (p_cur s + S k) with (p_cur s1 + k) by lia. apply K2. exact E.
    + intros n Hn. rewrite O2 by exact Hn. cbn [get_name]. destruct (nm_eqb (NA (p_cur s)) n) eqn:En; [|reflexivity]. apply nm_eqb_eq in En. subst n. exfalso. apply (Hn (p_cur s)). reflexivity.
Qed.
End Top.

(** A derivation of "false" becomes a proof. *)
Theorem build_ok props asserts ts fuel d inst facts :
  Forall2 (fun a t => elim_lets fuel a = Some t /\ forall I r, tr I r t <-> tr I r a) asserts ts -> asserts <> [] ->
  deriv_ok props ts d inst facts -> d <> [] -> (forall c, nth_error d (length d - 1) = Some c -> c_premises c <> []) -> facts (length d - 1) = tbool false ->
  exists ss, build fuel asserts d inst = Some ss /\ is_proof props asserts ss.
Proof.
  intros HT HN HD Hd Hlast Hfalse.
  assert (I0 : inv props asserts (mkP [] 0 0 0) [] []).
  { repeat split; cbn; try constructor; try lia; try discriminate. }
  destruct (assumptions_ok props asserts fuel asserts (mkP [] 0 0 0) [] [] I0) as (ts' & s1 & e1 & E1 & I1 & F1 & _ & K1 & O1).
  { intros a Ha. split; [exact Ha|]. clear -HT Ha. induction HT as [|x t l ts [H1 H2] _ IH]; [destruct Ha|]. destruct Ha as [<-|Ha]; [exists t; split; [exact H1|exact H2]|auto]. }
  { reflexivity. }
  assert (ts' = ts) as ->.
  { clear -HT F1. revert ts' F1. induction HT as [|x t l ts [H1 _] _ IH]; intros ts' F; inversion F; subst; [reflexivity|]. f_equal; [congruence|auto]. }
  cbn [app] in I1.
  assert (L1 : linv props asserts ts 0 s1 e1 (map (fun t => [EPos t]) ts)).
  { split; [exact I1|]. split; [|split].
    - intros k t E. split; [rewrite nth_error_map, E; reflexivity|]. apply (K1 k t E).
    - intros j Hj. rewrite O1 in Hj by discriminate. cbn in Hj. congruence.
    - intros j Hj. rewrite O1 in Hj by discriminate. cbn in Hj. congruence. }
  destruct (coarse_steps_ok props asserts ts inst d facts HD d 0 [] s1 e1 _ L1) as (s2 & e2 & cs2 & E2 & I2 & (m & M2) & F2).
  { reflexivity. }
  { intros j c Hj. lia. }
  destruct (nth_error d (length d - 1)) as [c|] eqn:Ec.
  2:{ exfalso. apply nth_error_None in Ec. destruct d; [congruence|cbn in Ec; lia]. }
  specialize (F2 c Hd eq_refl (Hlast c eq_refl) Hfalse).
  assert (LP : S (p_cur s2 - 1) = p_cur s2).
  { destruct I2 as (_ & L2 & _). assert (p_cur s2 - 1 < length cs2) by (apply nth_error_Some; congruence). lia. }
  destruct (record_plain props asserts s2 e2 cs2 [Neg (Raw (tbool false))] RFalse [] [] [] [ENeg (tbool false)] I2) as (s3 & E3 & I3 & C3 & _ & _ & G3); [reflexivity|reflexivity|reflexivity|cbn; auto|].
  destruct (record_plain props asserts s3 e2 _ [] RResolution [p_cur s3 - 2; p_cur s3 - 1] [] [[EPos (tbool false)]; [ENeg (tbool false)]] [] I3) as (s4 & E4 & I4 & C4 & _ & _ & G4); [reflexivity|reflexivity| | |].
  { cbn [mapO]. replace (p_cur s3 - 2) with (p_cur s2 - 1) by lia. rewrite (grows_nth _ _ _ _ _ _ G3 F2). replace (p_cur s3 - 1) with (p_cur s2) by lia. rewrite nth_last by (apply I2). reflexivity. }
  { cbn. intros v w HP _. apply (HP [ENeg (tbool false)]); [right; left; reflexivity|]. intros l [<-|[]] Hv. apply (HP [EPos (tbool false)]); [left; reflexivity|]. intros l [<-|[]]. exact Hv. }
  exists (rev (p_out s4)). split.
  - unfold build. unfold bnd at 1. rewrite E1. unfold bnd at 1. rewrite E2. unfold bnd at 1, record at 1. rewrite E3. unfold record. rewrite E4. reflexivity.
  - exists e2, (cs2 ++ [[ENeg (tbool false)]]). apply I4.
Qed.
