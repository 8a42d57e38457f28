(** * The steps for one step of a derivation. *)
From Verif Require Import Names AletheModel AletheSpec AletheSound AletheNum AletheLet AletheSimp AletheSimp2.
Open Scope string_scope.
Open Scope list_scope.
Open Scope nat_scope.

(** ** Facts and bodies without variables *)
(** The fact of a predicate: its arguments evaluated.  Predicates without arguments are terminals. *)
Definition atom_nf (props : list string) (t : atm) : option atm :=
  match t with
  | A f l => option_map (fun vs => A f (map canon vs)) (mapO ev l)
  | T p KVar => if (sin p props && simple p)%bool then Some t else None
  | _ => None
  end.
(** A conjunct of a body: a predicate, or a constraint that is true. *)
Definition conj_nf (props : list string) (t : atm) : option (list atm) :=
  match atom_nf props t with
  | Some a => Some [a]
  | None => match ev t with Some (GB true) => Some [] | _ => None end
  end.
(** The facts a body needs. *)
Definition body_facts (props : list string) (t : atm) : option (list atm) :=
  match t with
  | O OAnd l => option_map (@concat atm) (mapO (conj_nf props) l)
  | _ => conj_nf props t
  end.
(** The fact of a head. *)
Definition head_nf (props : list string) (t : atm) : option atm :=
  match t with T s KBool => if String.eqb s "false" then Some t else None | _ => atom_nf props t end.

Lemma collect_ok t : letfree t = true -> exists used, collect t = Some used /\ forall s, In s used <-> occurs s t = true.
Proof.
  assert (G : forall l, Forall (fun t => letfree t = true -> exists used, collect t = Some used /\ forall s, In s used <-> occurs s t = true) l -> forallb letfree l = true ->
    exists used, (fix go (l : list atm) : option (list string) := match l with [] => Some [] | x :: r => match collect x, go r with Some a, Some b => Some (a ++ b) | _, _ => None end end) l = Some used /\ forall s, In s used <-> existsb (occurs s) l = true).
  { induction 1 as [|x l Hx _ IH]; intros F; [exists []; split; [reflexivity|cbn; intuition discriminate]|]. cbn in F. apply andb_prop in F as [F1 F2].
    destruct (Hx F1) as (u1 & -> & E1). destruct (IH F2) as (u2 & -> & E2). exists (u1 ++ u2). split; [reflexivity|]. intros s. rewrite in_app_iff, E1, E2. cbn. rewrite orb_true_iff. reflexivity. }
  induction t using atm_ind'; intros F; try discriminate F.
  - destruct k; try discriminate F.
    + exists [s]. split; [reflexivity|]. intros x. cbn. unfold var_name. rewrite (simple_minus s F). rewrite andb_true_r, String.eqb_eq. intuition.
    + exists []. split; [reflexivity|]. intros x. cbn. rewrite andb_false_r. intuition discriminate.
    + exists []. split; [reflexivity|]. intros x. cbn. rewrite andb_false_r. intuition discriminate.
    + exists []. split; [reflexivity|]. intros x. cbn. rewrite andb_false_r. intuition discriminate.
  - exact (G l H F).
  - exact (G l H F).
Qed.

Section Build.
Variable props : list string.
Variable asserts : list atm.
Notation inv := (inv props asserts).
Notation simp_ok := (simp_ok props asserts).

(** ** Bodies *)
Lemma atom_simp t a : atom_nf props t = Some a -> simp_ok t a.
Proof.
  destruct t as [s k|o l|f l|vs c|ns ds b]; cbn; try discriminate.
  - destruct k; try discriminate. destruct (sin s props && simple s)%bool; [|discriminate]. intros [= <-]. apply simp_T.
  - destruct (mapO ev l) as [vs|] eqn:E; [|discriminate]. intros [= <-]. apply simp_app. apply mapO_Forall2 in E.
    induction E as [|x y l vs Hx _ IH]; cbn; constructor; [apply ev_simp; exact Hx|exact IH].
Qed.
(** An atom in normal form. *)
Definition is_atom (a : atm) : Prop := match a with A _ _ => True | T p KVar => sin p props = true /\ simple p = true | _ => False end.
Lemma atom_nf_atom t a : atom_nf props t = Some a -> is_atom a.
Proof.
  destruct t as [s k|o l|f l|vs c|ns ds b]; cbn; try discriminate.
  - destruct k; try discriminate. destruct (sin s props && simple s)%bool eqn:E; [|discriminate]. intros [= <-]. apply andb_prop in E. exact E.
  - destruct (mapO ev l); [|discriminate]. intros [= <-]. exact Logic.I.
Qed.
Lemma sin_In s l : sin s l = true <-> In s l.
Proof. unfold sin. rewrite existsb_exists. split; [intros (x & Hx & E); apply String.eqb_eq in E; subst; exact Hx|intros H; exists s; split; [exact H|apply String.eqb_refl]]. Qed.
Lemma atom_bool a I r : is_atom a -> fits props r -> exists b, den I r a = AB b.
Proof.
  destruct a as [s k|o l|f l|vs c|ns ds b]; cbn; try tauto; [|eauto]. destruct k; try tauto. intros [H1 H2] HF. unfold var_val. rewrite (simple_minus _ H2). apply HF. apply sin_In. exact H1.
Qed.
Definition conj_of (l : list atm) : atm := match l with [] => tbool true | [x] => x | _ => O OAnd l end.
(** Conjuncts after simplification. *)
Lemma conj_simp t l : conj_nf props t = Some l -> exists t', simp_ok t t' /\ ((t' = tbool true /\ l = []) \/ (is_atom t' /\ l = [t'])).
Proof.
  unfold conj_nf. destruct (atom_nf props t) as [a|] eqn:E.
  - intros [= <-]. exists a. split; [apply atom_simp; exact E|]. right. split; [eapply atom_nf_atom; exact E|reflexivity].
  - destruct (ev t) as [[[|]|]|] eqn:Ev; try discriminate. intros [= <-]. exists (tbool true). split; [apply (ev_simp props asserts t (GB true) Ev)|auto].
Qed.
Lemma conj_list l ls : mapO (conj_nf props) l = Some ls -> exists l', Forall2 simp_ok l l' /\ and_args l' = Some (inr (concat ls)) /\ Forall is_atom (concat ls) /\
  (forall I r, forallb as_bool (map (den I r) l') = forallb as_bool (map (den I r) (concat ls))).
Proof.
  intros E. apply mapO_Forall2 in E. induction E as [|x y l ls Hx _ (l' & F & A1 & A2 & A3)]; [exists []; repeat split; constructor|].
  apply conj_simp in Hx as (t' & St & [(-> & ->)|(Ha & ->)]).
  - exists (tbool true :: l'). split; [constructor; assumption|]. cbn [concat app]. split; [exact A1|]. split; [exact A2|]. intros I r. cbn. apply A3.
  - exists (t' :: l'). split; [constructor; assumption|]. cbn [concat app]. split; [|split; [constructor; assumption|]].
    + destruct t' as [s k|o ll|f ll|vs c|ns ds b]; try destruct Ha; [|cbn; rewrite A1; reflexivity]. destruct k; try destruct Ha. cbn [and_args]. rewrite A1. reflexivity.
    + intros I r. cbn. rewrite A3. reflexivity.
Qed.
Lemma is_atom_not_all a : is_atom a -> is_all a = false.
Proof. destruct a; cbn; tauto. Qed.
Lemma conj_not_all l : Forall is_atom l -> is_all (conj_of l) = false.
Proof. intros H. destruct l as [|x [|y l]]; try reflexivity. inversion H; subst. apply is_atom_not_all. assumption. Qed.
(** A body is simplified to the conjunction of its facts. *)
Lemma body_simp t l : body_facts props t = Some l -> simp_ok t (conj_of l) /\ Forall is_atom l.
Proof.
  assert (K : conj_nf props t = Some l -> simp_ok t (conj_of l) /\ Forall is_atom l).
  { intros E. destruct (conj_simp _ _ E) as (t' & St & [(-> & ->)|(Ha & ->)]); split; auto. }
  intros E. destruct t as [s k|o args|f args|vs c|ns ds b]; try exact (K E).
  destruct o; try exact (K E). cbn in E. destruct (mapO (conj_nf props) args) as [ls|] eqn:EM; [|discriminate]. injection E as <-.
  destruct (conj_list _ _ EM) as (l' & F & A1 & A2 & A3). split; [|exact A2].
  apply (simp_op props asserts OAnd args l'); [discriminate|exact F|].
  apply (direct_one props asserts OAnd l' (conj_of (concat ls)) RAndSimplify).
  - cbn [direct]. rewrite A1. destruct (concat ls) as [|x [|y r]]; reflexivity.
  - reflexivity.
  - apply conj_not_all. exact A2.
  - intros I r HF. cbn [den op_den]. rewrite A3. destruct (concat ls) as [|x [|y rr]]; try reflexivity.
    inversion A2; subst. destruct (atom_bool x I r H1 HF) as (b & Eb). cbn. rewrite Eb. cbn. rewrite andb_true_r. reflexivity.
Qed.
Lemma head_simp t a : head_nf props t = Some a -> simp_ok t a.
Proof.
  destruct t as [s k|?|?|?|?]; try (apply atom_simp). destruct k; try (apply atom_simp). cbn. destruct (String.eqb s "false"); [|discriminate]. intros [= <-]. apply simp_T.
Qed.

(** ** Resolution *)
Lemma unit_nn (v : atm -> Prop) (w : elit -> Prop) ps a : (forall p, In p ps -> ~ (forall l, In l p -> ~ pl v w l)) -> In [EPos a] ps -> ~ ~ v a.
Proof. intros H Hi Hn. apply (H _ Hi). intros l [<-|[]]. exact Hn. Qed.
Lemma res_and ps l : (forall a, In a l -> In [EPos a] ps) -> In (EPos (O OAnd l) :: map ENeg l) ps -> rule_ok props asserts RResolution ps [] [EPos (O OAnd l)].
Proof.
  intros H Hi v w HP Hn. apply (HP _ Hi). intros x [<-|Hx]; [apply Hn; left; reflexivity|]. apply in_map_iff in Hx as (a & <- & Ha). cbn. intros Hf. apply (unit_nn v w ps a HP (H a Ha)). exact Hf.
Qed.
Lemma res_2 ps a b : In [EPos a] ps -> In [ENeg a; EPos b] ps \/ In [EPos b; ENeg a] ps -> rule_ok props asserts RResolution ps [] [EPos b].
Proof.
  intros Ha Hab v w HP Hn. destruct Hab as [Hi|Hi]; apply (HP _ Hi); intros x [<-|[<-|[]]]; cbn; try exact (Hn _ (or_introl eq_refl)); intros Hf; apply (unit_nn v w ps a HP Ha); exact Hf.
Qed.

Definition gr (P : nm -> Prop) (e : nenv) (cs : list (list elit)) (e' : nenv) (cs' : list (list elit)) : Prop :=
  (exists m, cs' = cs ++ m) /\ (forall n t, get_name e n = Some t -> get_name e' n = Some t) /\ (forall n, is_nt n = false -> ~ P n -> get_name e' n = get_name e n).
Lemma grows_gr P e cs e' cs' : grows e cs e' cs' -> gr P e cs e' cs'.
Proof. intros (A1 & A2 & A3). repeat split; auto. Qed.
Lemma gr_trans P e cs e1 cs1 e2 cs2 : gr P e cs e1 cs1 -> gr P e1 cs1 e2 cs2 -> gr P e cs e2 cs2.
Proof.
  intros ((m & ->) & A2 & A3) ((m' & ->) & B2 & B3). repeat split; auto.
  - exists (m ++ m'). rewrite app_assoc. reflexivity.
  - intros n Hn HP. rewrite B3, A3; auto.
Qed.
Lemma gr_weak (P Q : nm -> Prop) e cs e' cs' : (forall n, P n -> Q n) -> gr P e cs e' cs' -> gr Q e cs e' cs'.
Proof. intros H (A1 & A2 & A3). repeat split; auto. Qed.
Lemma gr_nth P e cs e' cs' k c : gr P e cs e' cs' -> nth_error cs k = Some c -> nth_error cs' k = Some c.
Proof. intros ((m & ->) & _) E. rewrite nth_error_app1; [assumption|]. apply nth_error_Some. congruence. Qed.
Lemma gr_mapO P e cs e' cs' l ps : gr P e cs e' cs' -> mapO (nth_error cs) l = Some ps -> mapO (nth_error cs') l = Some ps.
Proof.
  intros G. revert ps. induction l as [|k l IH]; cbn; intros ps E; [assumption|].
  destruct (nth_error cs k) eqn:Ek; [|discriminate]. destruct (mapO (nth_error cs) l); [|discriminate]. rewrite (gr_nth _ _ _ _ _ _ _ G Ek), (IH _ eq_refl). assumption.
Qed.
Lemma mapO_app {X Y} (f : X -> option Y) l1 l2 r1 r2 : mapO f l1 = Some r1 -> mapO f l2 = Some r2 -> mapO f (l1 ++ l2) = Some (r1 ++ r2).
Proof.
  intros M1 M2. revert r1 M1. induction l1 as [|y l1 IH]; cbn; intros r1 M1; [injection M1 as <-; exact M2|]. destruct (f y); [|discriminate]. destruct (mapO f l1); [|discriminate]. injection M1 as <-. rewrite (IH _ eq_refl). reflexivity.
Qed.
Lemma nm_eqb_refl n : nm_eqb n n = true.
Proof. destruct n; apply Nat.eqb_refl. Qed.
Lemma nm_eqb_eq a b : nm_eqb a b = true -> a = b.
Proof. destruct a, b; cbn; try discriminate; intros E; apply Nat.eqb_eq in E; congruence. Qed.

(** Recording a step that introduces one name. *)
Lemma record_named s e cs c ru ps args pcs c' n t :
  inv s e cs -> concat (map lit_defs c) = [(n, t)] -> is_nt n = false -> get_name e n = None -> mapO (ex_lit ((n, t) :: e)) c = Some c' -> mapO (nth_error cs) ps = Some pcs -> rule_ok props asserts ru pcs args c' ->
  exists s', record_full c ru ps args s = Some (tt, s') /\ inv s' ((n, t) :: e) (cs ++ [c']) /\ p_cur s' = S (p_cur s) /\ gr (fun m => m = n) e cs ((n, t) :: e) (cs ++ [c']) /\ get_name ((n, t) :: e) n = Some t.
Proof.
  intros HI HD HN HF HE HP HR. destruct (record_ok props asserts s e cs c ru ps args pcs c' HI) as (s' & E & I' & C1 & C2 & C3); auto.
  - rewrite HD. intros m u [[= <- <-]|[]]. split; [exact HF|]. intros k ->. discriminate HN.
  - rewrite HD. exact HE.
  - rewrite HD in I'. exists s'. split; [exact E|]. split; [exact I'|]. split; [exact C1|]. split; [|cbn; rewrite nm_eqb_refl; reflexivity]. split; [exists [c']; reflexivity|]. split.
    + intros m u Em. cbn. destruct (nm_eqb n m) eqn:X; [apply nm_eqb_eq in X; subst; congruence|exact Em].
    + intros m _ Hm. cbn. destruct (nm_eqb n m) eqn:X; [apply nm_eqb_eq in X; subst; exfalso; apply Hm; reflexivity|reflexivity].
Qed.

(** ** The body of a clause *)
Lemma true_step_ok s e cs : inv s e cs -> exists k s' cs', true_step s = Some (k, s') /\ inv s' e cs' /\ grows e cs e cs' /\ nth_error cs' k = Some [EPos (tbool true)].
Proof.
  intros HI. unfold true_step. destruct (Nat.eqb_spec (p_true s) 0) as [E|N].
  - eexists _, _, (cs ++ [[EPos (tbool true)]]). split; [reflexivity|]. destruct HI as (HC & HL & HN & HT). repeat split; cbn; auto.
    + apply (ck_step _ _ _ _ _ (mkS (p_cur s) [Pos (Raw (tbool true))] RTrue [] []) [] [EPos (tbool true)]); cbn; auto. tauto.
    + rewrite app_length. cbn. lia.
    + intros _. apply nth_last. exact HL.
    + eexists. reflexivity.
    + apply nth_last. exact HL.
  - exists (p_true s), s, cs. split; [reflexivity|]. split; [exact HI|]. split; [apply grows_refl|]. destruct HI as (_ & _ & _ & HT). auto.
Qed.
Lemma derive_lhs_ok l ps fs s e cs : inv s e cs -> Forall is_atom l -> mapO (nth_error cs) ps = Some (map (fun f => [EPos f]) fs) -> incl l fs -> length ps = length l ->
  exists k s' cs', derive_lhs (conj_of l) ps s = Some (k, s') /\ inv s' e cs' /\ grows e cs e cs' /\ nth_error cs' k = Some [EPos (conj_of l)].
Proof.
  intros HI HA HP HL HN. destruct l as [|x [|y l]].
  - apply true_step_ok. exact HI.
  - destruct ps as [|p [|? ?]]; try discriminate HN. cbn in HP. destruct (nth_error cs p) as [c|] eqn:Ep; [|discriminate HP].
    destruct fs as [|f [|? ?]]; try discriminate HP. injection HP as ->. specialize (HL x (or_introl eq_refl)) as [->|[]].
    exists p, s, cs. split; [|split; [exact HI|split; [apply grows_refl|exact Ep]]].
    inversion HA; subst. destruct x as [s0 k|?|?|?|?]; try destruct H1; [|reflexivity]. destruct k; try destruct H1. reflexivity.
  - set (l0 := x :: y :: l) in *. change (conj_of l0) with (O OAnd l0). cbn [derive_lhs].
    destruct (record_plain props asserts s e cs (Pos (Raw (O OAnd l0)) :: map (fun z => Neg (Raw z)) l0) RAndNeg [] [] [] (EPos (O OAnd l0) :: map ENeg l0) HI) as (s1 & E1 & I1 & C1 & _ & _ & G1).
    { cbn [map concat lit_defs ref_defs app]. clear. induction l0; cbn; auto. }
    { cbn [mapO ex_lit ex_ref option_map]. assert (mapO (ex_lit e) (map (fun z => Neg (Raw z)) l0) = Some (map ENeg l0)) as ->; [|reflexivity]. clear. induction l0 as [|z l0 IH]; cbn; [reflexivity|]. rewrite IH. reflexivity. }
    { reflexivity. }
    { cbn [rule_ok]. split; [reflexivity|]. exists l0. split; [|reflexivity]. eapply Forall_impl; [|exact HA]. apply is_atom_not_all. }
    destruct (record_plain props asserts s1 e _ [Pos (Raw (O OAnd l0))] RResolution (ps ++ [p_cur s1 - 1]) [] (map (fun f => [EPos f]) fs ++ [EPos (O OAnd l0) :: map ENeg l0]) [EPos (O OAnd l0)] I1) as (s2 & E2 & I2 & C2 & _ & _ & G2).
    { reflexivity. }
    { reflexivity. }
    { apply mapO_app; [eapply grows_mapO; [exact G1|exact HP]|]. cbn. replace (p_cur s1 - 1) with (p_cur s) by lia. rewrite nth_last by (apply HI). reflexivity. }
    { apply res_and; [|apply in_or_app; right; left; reflexivity]. intros a Ha. apply in_or_app. left. apply in_map_iff. exists a. split; [reflexivity|apply HL; exact Ha]. }
    exists (p_cur s2 - 1), s2, ((cs ++ [EPos (O OAnd l0) :: map ENeg l0]) ++ [[EPos (O OAnd l0)]]). unfold bnd, record, last_step. rewrite E1, E2. split; [reflexivity|]. split; [exact I2|]. split; [eapply grows_trans; eassumption|].
    replace (p_cur s2 - 1) with (p_cur s1) by lia. apply nth_last. apply I1.
Qed.
(** From an implication to its head. *)
Lemma derive_predicate_ok L R k l ps fs s e cs : inv s e cs -> is_all R = false ->
  nth_error cs k = Some [EPos (O OImp [L; R])] -> S k = p_cur s -> get_name e (NLHS k) = None ->
  body_facts props L = Some l -> mapO (nth_error cs) ps = Some (map (fun f => [EPos f]) fs) -> incl l fs -> length ps = length l ->
  exists k' s' e' cs', derive_predicate (O OImp [L; R]) k ps s = Some ((R, k'), s') /\ inv s' e' cs' /\ gr (fun n => n = NLHS k) e cs e' cs' /\ nth_error cs' k' = Some [EPos R] /\ S k' = p_cur s' /\ p_cur s < p_cur s'.
Proof.
  intros HI HR HK HS HF HB HP HL HN.
  destruct (body_simp _ _ HB) as ((AL & AC & SL) & HA). set (n := NLHS k) in *.
  destruct (record_named s e cs [Neg (Named L n); Pos (Raw R)] RImplies [p_cur s - 1] [] [[EPos (O OImp [L; R])]] [ENeg L; EPos R] n L HI) as (s1 & E1 & I1 & C1 & G1 & N1); try reflexivity.
  { exact HF. }
  { cbn [mapO]. replace (p_cur s - 1) with k by lia. rewrite HK. reflexivity. }
  { cbn. exists L, R. auto. }
  set (e1 := (n, L) :: e) in *. set (cs1 := cs ++ [[ENeg L; EPos R]]) in *.
  assert (K1 : nth_error cs1 (p_cur s1 - 1) = Some [ENeg L; EPos R]).
  { replace (p_cur s1 - 1) with (p_cur s) by lia. apply nth_last. apply HI. }
  destruct (SL (Some n) s1 e1 cs1 I1) as (res & s2 & e2 & cs2 & E2 & I2 & G2 & R2); [intros m [= <-]; exact N1|].
  assert (X : exists d s3 cs3, (match res with
                  | Some (y, _) =>
                      e <- last_step ;; d <- derive_lhs y ps ;;
                      _ <- record [Pos (Name n); Neg (Raw y)] REquiv2 [e] ;; k <- last_step ;;
                      _ <- record [Pos (Name n)] RResolution [d; k] ;; last_step
                  | None => derive_lhs L ps
                  end) s2 = Some (d, s3) /\ inv s3 e2 cs3 /\ grows e2 cs2 e2 cs3 /\ nth_error cs3 d = Some [EPos L]).
  { assert (HP2 : mapO (nth_error cs2) ps = Some (map (fun f => [EPos f]) fs)).
    { eapply grows_mapO; [exact G2|]. eapply gr_mapO; [exact G1|exact HP]. }
    destruct (derive_lhs_ok l ps fs s2 e2 cs2 I2 HA HP2 HL HN) as (d & s3 & cs3 & E3 & I3 & G3 & R3).
    destruct res as [[y j]|].
    - destruct R2 as (-> & R2 & J2).
      assert (N2 : get_name e2 n = Some L) by (apply G2; exact N1).
      destruct (record_plain props asserts s3 e2 cs3 [Pos (Name n); Neg (Raw (conj_of l))] REquiv2 [p_cur s2 - 1] [] [[EEq L (conj_of l)]] [EPos L; ENeg (conj_of l)] I3) as (s4 & E4 & I4 & C4 & _ & _ & G4).
      { reflexivity. }
      { cbn. rewrite N2. reflexivity. }
      { cbn. replace (p_cur s2 - 1) with j by lia. rewrite (grows_nth _ _ _ _ _ _ G3 R2). reflexivity. }
      { cbn. eauto. }
      destruct (record_plain props asserts s4 e2 _ [Pos (Name n)] RResolution [d; p_cur s4 - 1] [] [[EPos (conj_of l)]; [EPos L; ENeg (conj_of l)]] [EPos L] I4) as (s5 & E5 & I5 & C5 & _ & _ & G5).
      { reflexivity. }
      { cbn. rewrite N2. reflexivity. }
      { cbn [mapO]. rewrite (grows_nth _ _ _ _ _ _ G4 R3). replace (p_cur s4 - 1) with (p_cur s3) by lia. rewrite nth_last by (apply I3). reflexivity. }
      { apply (res_2 _ (conj_of l)); [left; reflexivity|right; right; left; reflexivity]. }
      exists (p_cur s5 - 1), s5, ((cs3 ++ [[EPos L; ENeg (conj_of l)]]) ++ [[EPos L]]). unfold bnd, record, last_step. rewrite E3, E4, E5. split; [reflexivity|]. split; [exact I5|].
      split; [eapply grows_trans; [exact G3|eapply grows_trans; eassumption]|]. replace (p_cur s5 - 1) with (p_cur s4) by lia. apply nth_last. apply I4.
    - destruct R2 as (R2 & _). rewrite R2 in *. exists d, s3, cs3. auto. }
  destruct X as (d & s3 & cs3 & E3 & I3 & G3 & R3).
  destruct (record_plain props asserts s3 e2 cs3 [Pos (Raw R)] RResolution [p_cur s1 - 1; d] [] [[ENeg L; EPos R]; [EPos L]] [EPos R] I3) as (s4 & E4 & I4 & C4 & _ & _ & G4).
  { reflexivity. }
  { reflexivity. }
  { cbn [mapO]. rewrite (grows_nth _ _ _ _ _ _ G3 (grows_nth _ _ _ _ _ _ G2 K1)), R3. reflexivity. }
  { apply (res_2 _ L); [right; left; reflexivity|left; left; reflexivity]. }
  exists (p_cur s4 - 1), s4, e2, (cs3 ++ [[EPos R]]). split; [|split; [exact I4|split; [|split; [|split; [lia|]]]]].
  - unfold derive_predicate. fold n. unfold bnd at 1. cbn [last_step]. unfold bnd at 1, record at 1. rewrite E1. unfold bnd at 1. cbn [last_step]. unfold bnd at 1. rewrite E2. unfold bnd at 1.
    rewrite E3. unfold bnd, record, last_step, ret. rewrite E4. reflexivity.
  - eapply gr_trans; [exact G1|]. apply grows_gr. eapply grows_trans; [exact G2|]. eapply grows_trans; eassumption.
  - replace (p_cur s4 - 1) with (p_cur s3) by lia. apply nth_last. apply I3.
  - destruct I2 as (_ & L2 & _). destruct I3 as (_ & L3 & _). destruct I1 as (_ & L1 & _). destruct G2 as ((m2 & ->) & _). destruct G3 as ((m3 & ->) & _). rewrite !app_length in *. lia.
Qed.
End Build.
