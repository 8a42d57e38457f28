(** * Simplification of terms without variables. *)
From Verif Require Import Names AletheModel AletheSpec AletheSound AletheNum.
Open Scope string_scope.
Open Scope list_scope.
Open Scope nat_scope.

(** ** Values of terms without variables *)
(** A constant: its value, and for numbers whether it is written as a real number. *)
Inductive gval := GB (b : bool) | GN (q : Qc) (real : bool).
Definition numk (real : bool) : tkind := if real then KReal else KInt.
Definition canon (g : gval) : atm := match g with GB b => tbool b | GN q r => tnum q (numk r) end.
Definition val (g : gval) : aval := match g with GB b => AB b | GN q _ => AN q end.
Fixpoint gbools (l : list gval) : option (list bool) :=
  match l with [] => Some [] | GB b :: r => match gbools r with Some x => Some (b :: x) | None => None end | _ => None end.
Fixpoint gnums (l : list gval) : option (list Qc) :=
  match l with [] => Some [] | GN q _ :: r => match gnums r with Some x => Some (q :: x) | None => None end | _ => None end.
(** The operators the code can evaluate. *)
Definition op_ev (o : aop) (l : list gval) : option gval :=
  match o, l with
  | OAnd, _ => option_map (fun x => GB (forallb (fun b => b) x)) (gbools l)
  | OOr, _ => option_map (fun x => GB (existsb (fun b => b) x)) (gbools l)
  | ONot, [GB b] => Some (GB (negb b))
  | OEq, [GB a; GB b] => Some (GB (Bool.eqb a b))
  | OEq, [GN x r; GN y r'] => if Bool.eqb r r' then Some (GB (Qc_eq_bool x y)) else None
  | OLt, [GN x _; GN y _] => Some (GB (qlt x y))
  | OLe, [GN x _; GN y _] => Some (GB (qle x y))
  | OGt, [GN x _; GN y _] => Some (GB (qlt y x))
  | OGe, [GN x _; GN y _] => Some (GB (qle y x))
  | OPlus, GN _ r :: _ => option_map (fun x => GN (qsum x) r) (gnums l)
  | OMinus, [GN x r; GN y _] => Some (GN (x - y)%Qc r)
  | OTimes, [GN x r; GN y _] => Some (GN (x * y)%Qc r)
  | ODiv, [GN x _; GN y _] => if Qc_eq_bool y 0 then None else Some (GN (x / y)%Qc true)
  | OIDiv, [GN x _; GN y _] => if Qc_eq_bool y 0 then None else Some (GN (zdiv x y) false)
  | OMod, [GN x _; GN y _] => if Qc_eq_bool y 0 then None else if Z.ltb (Qnum (x - y * zdiv x y)%Qc) 0 then None else Some (GN (x - y * zdiv x y)%Qc false)
  | _, _ => None
  end.
Fixpoint ev (t : atm) : option gval :=
  match t with
  | T s KBool => if String.eqb s "true" then Some (GB true) else if String.eqb s "false" then Some (GB false) else None
  | T s KInt => match read_number s with Some q => if String.eqb s (number_str q KInt) then Some (GN q false) else None | None => None end
  | T s KReal => match read_number s with Some q => if String.eqb s (number_str q KReal) then Some (GN q true) else None | None => None end
  | O OIte l => match l with [c; a; b] => match ev c with Some (GB true) => ev a | Some (GB false) => ev b | _ => None end | _ => None end
  | O o l => match mapO ev l with Some vs => op_ev o vs | None => None end
  | _ => None
  end.

Lemma gbools_val l bs : gbools l = Some bs -> l = map GB bs.
Proof. revert bs. induction l as [|[b|q r] l IH]; cbn; intros bs E; try discriminate; [injection E as <-; reflexivity|]. destruct (gbools l); [|discriminate]. injection E as <-. cbn. f_equal. auto. Qed.
Lemma gnums_val l qs : gnums l = Some qs -> map val l = map AN qs.
Proof. revert qs. induction l as [|[b|q r] l IH]; cbn; intros qs E; try discriminate; [injection E as <-; reflexivity|]. destruct (gnums l); [|discriminate]. injection E as <-. cbn. f_equal. auto. Qed.
Lemma tbool_den I r b : den I r (tbool b) = AB b.
Proof. destruct b; reflexivity. Qed.
Lemma canon_den I r g : den I r (canon g) = val g.
Proof. destruct g as [b|q rl]; cbn [canon]; [apply tbool_den|]. unfold tnum. destruct rl; cbn [numk den]; unfold numeral; rewrite read_number_str; reflexivity. Qed.
Lemma map_canon_den I r l : map (den I r) (map canon l) = map val l.
Proof. rewrite map_map. apply map_ext. apply canon_den. Qed.
Lemma canon_not_all g : is_all (canon g) = false.
Proof. destruct g as [[|]|]; reflexivity. Qed.
Lemma ev_canon g : ev (canon g) = Some g.
Proof. destruct g as [[|]|q [|]]; try reflexivity; cbn [canon tnum numk ev]; rewrite read_number_str, String.eqb_refl; reflexivity. Qed.
Lemma arg_number_tnum q rl : arg_number (tnum q (numk rl)) = Some q.
Proof. destruct rl; cbn; apply read_number_str. Qed.

(** ** States *)
Section Simp.
Variable props : list string.
Variable asserts : list atm.

Definition inv (s : pst) (e : nenv) (cs : list (list elit)) : Prop :=
  checked props asserts (rev (p_out s)) e cs /\ length cs = p_cur s /\ (forall n t, get_name e (NT n) = Some t -> n < p_name s) /\
  (p_true s <> 0 -> nth_error cs (p_true s) = Some [EPos (tbool true)]).
Definition is_nt (n : nm) : bool := match n with NT _ => true | _ => false end.
Definition grows (e : nenv) (cs : list (list elit)) (e' : nenv) (cs' : list (list elit)) : Prop :=
  (exists m, cs' = cs ++ m) /\ (forall n t, get_name e n = Some t -> get_name e' n = Some t) /\ (forall n, is_nt n = false -> get_name e' n = get_name e n).
Lemma grows_refl e cs : grows e cs e cs.
Proof. repeat split; auto. exists []. rewrite app_nil_r. reflexivity. Qed.
Lemma grows_trans e cs e1 cs1 e2 cs2 : grows e cs e1 cs1 -> grows e1 cs1 e2 cs2 -> grows e cs e2 cs2.
Proof.
  intros ((m & ->) & A2 & A3) ((m' & ->) & B2 & B3). repeat split; auto.
  - exists (m ++ m'). rewrite app_assoc. reflexivity.
  - intros n Hn. rewrite B3, A3; auto.
Qed.
Lemma grows_nth e cs e' cs' k c : grows e cs e' cs' -> nth_error cs k = Some c -> nth_error cs' k = Some c.
Proof. intros ((m & ->) & _) E. rewrite nth_error_app1; [assumption|]. apply nth_error_Some. congruence. Qed.
Lemma grows_mapO e cs e' cs' l ps : grows e cs e' cs' -> mapO (nth_error cs) l = Some ps -> mapO (nth_error cs') l = Some ps.
Proof.
  intros G. revert ps. induction l as [|k l IH]; cbn; intros ps E; [assumption|].
  destruct (nth_error cs k) eqn:Ek; [|discriminate]. destruct (mapO (nth_error cs) l); [|discriminate]. rewrite (grows_nth _ _ _ _ _ _ G Ek), (IH _ eq_refl). assumption.
Qed.
Lemma inv_last s e cs : inv s e cs -> forall c, cs <> [] -> nth_error cs (p_cur s - 1) = Some c -> last cs [] = c.
Proof.
  intros (_ & L & _) c Hn E. rewrite <- L in E. destruct (exists_last Hn) as (cs' & x & ->). rewrite app_length in E. cbn in E. replace (length cs' + 1 - 1) with (length cs' + 0) in E by lia.
  rewrite nth_error_app2 in E by lia. replace (length cs' + 0 - length cs') with 0 in E by lia. cbn in E. rewrite last_last. congruence.
Qed.
Lemma get_name_defs d e n : (forall m t, In (m, t) d -> get_name e m = None) -> forall t, get_name e n = Some t -> get_name (d ++ e) n = Some t.
Proof.
  intros H t E. induction d as [|[m u] d IH]; cbn; [assumption|].
  destruct (nm_eqb m n) eqn:Em.
  - assert (m = n) as ->. { destruct m, n; cbn in Em; try discriminate; apply Nat.eqb_eq in Em; congruence. }
    rewrite (H n u) in E by (left; reflexivity). discriminate.
  - apply IH. intros m' t' Hi. apply (H m' t'). right. exact Hi.
Qed.

(** Recording a step. *)
Lemma record_ok s e cs c ru ps args pcs c' :
  inv s e cs ->
  (forall n t, In (n, t) (concat (map lit_defs c)) -> get_name e n = None /\ forall k, n <> NT k) ->
  mapO (ex_lit (concat (map lit_defs c) ++ e)) c = Some c' ->
  mapO (nth_error cs) ps = Some pcs ->
  rule_ok props asserts ru pcs args c' ->
  exists s', record_full c ru ps args s = Some (tt, s') /\ inv s' (concat (map lit_defs c) ++ e) (cs ++ [c']) /\
    p_cur s' = S (p_cur s) /\ p_true s' = p_true s /\ p_name s' = p_name s.
Proof.
  intros (HC & HL & HN & HT) HF HE HP HR. eexists. split; [reflexivity|]. cbn. repeat split; cbn.
  - apply (ck_step _ _ _ _ _ (mkS (p_cur s) c ru ps args) pcs c'); cbn; auto. intros n t Hi. apply (HF n t Hi).
  - rewrite app_length. cbn. lia.
  - intros n t E. apply (HN n t). revert HF E. unfold step_defs. generalize (concat (map lit_defs c)). induction l as [|[m u] l IH]; cbn; intros HF E; [exact E|].
    destruct (nm_eqb m (NT n)) eqn:Em; [|apply IH; [intros; eapply HF; right; eassumption|exact E]].
    assert (m = NT n) as ->. { destruct m; cbn in Em; try discriminate; apply Nat.eqb_eq in Em; congruence. }
    exfalso. apply (proj2 (HF _ _ (or_introl eq_refl)) n). reflexivity.
  - intros Ht. specialize (HT Ht). rewrite nth_error_app1; [assumption|]. apply nth_error_Some. congruence.
Qed.
(** The common case: no new names. *)
Lemma record_plain s e cs c ru ps args pcs c' :
  inv s e cs -> concat (map lit_defs c) = [] -> mapO (ex_lit e) c = Some c' -> mapO (nth_error cs) ps = Some pcs -> rule_ok props asserts ru pcs args c' ->
  exists s', record_full c ru ps args s = Some (tt, s') /\ inv s' e (cs ++ [c']) /\ p_cur s' = S (p_cur s) /\ p_true s' = p_true s /\ p_name s' = p_name s /\ grows e cs e (cs ++ [c']).
Proof.
  intros HI HD HE HP HR. destruct (record_ok s e cs c ru ps args pcs c' HI) as (s' & E & I' & R); auto.
  - rewrite HD. intros n t [].
  - rewrite HD. exact HE.
  - rewrite HD in I'. exists s'. repeat split; try tauto; try apply I'. exists [c']. reflexivity.
Qed.
Lemma nth_last {X} (l : list X) x n : length l = n -> nth_error (l ++ [x]) n = Some x.
Proof. intros <-. rewrite nth_error_app2, Nat.sub_diag by lia. reflexivity. Qed.

(** ** What simplification does *)
Definition simp_at (t t' : atm) (name : option nm) (s : pst) (e : nenv) (cs : list (list elit)) (m : M sres) : Prop :=
  exists r s' e' cs', m s = Some (r, s') /\ inv s' e' cs' /\ grows e cs e' cs' /\
    match r with Some (x, k) => x = t' /\ nth_error cs' k = Some [EEq t t'] /\ S k = p_cur s' | None => t' = t /\ s' = s /\ e' = e /\ cs' = cs end.
Definition simp_ok (t t' : atm) : Prop :=
  is_all t = false /\ is_all t' = false /\
  forall name s e cs, inv s e cs -> (forall n, name = Some n -> get_name e n = Some t) -> simp_at t t' name s e cs (simplify t name).
Definition simp_all := fix all (l : list atm) : M (list sres) := match l with [] => ret [] | x :: r => y <- simplify x None ;; ys <- all r ;; ret (y :: ys) end.
Lemma simp_all_ok l l' : Forall2 simp_ok l l' -> forall s e cs, inv s e cs ->
  exists rs s' e' cs' ps, simp_all l s = Some (rs, s') /\ inv s' e' cs' /\ grows e cs e' cs' /\ new_args l rs = l' /\
    mapO (nth_error cs') (res_steps rs) = Some ps /\ Forall2 (same_or_equal ps) l l' /\ (some_res rs = false -> l' = l /\ s' = s /\ e' = e /\ cs' = cs).
Proof.
  induction 1 as [|x x' l l' (Hx & Hx' & H) _ IH]; intros s e cs HI.
  - exists [], s, e, cs, []. split; [reflexivity|]. split; [exact HI|]. split; [apply grows_refl|]. split; [reflexivity|]. split; [reflexivity|]. split; [constructor|auto].
  - destruct (H None s e cs HI) as (r & s1 & e1 & cs1 & E1 & I1 & G1 & R1); [discriminate|].
    destruct (IH s1 e1 cs1 I1) as (rs & s2 & e2 & cs2 & ps & E2 & I2 & G2 & N2 & P2 & F2 & S2).
    exists (r :: rs), s2, e2, cs2.
    assert (EE : simp_all (x :: l) s = Some (r :: rs, s2)).
    { cbn. unfold bnd. rewrite E1. change ((fix all (l : list atm) : M (list sres) := match l with [] => ret [] | x :: r => bnd (simplify x None) (fun y => bnd (all r) (fun ys => ret (y :: ys))) end) l) with (simp_all l). rewrite E2. reflexivity. }
    assert (GG : grows e cs e2 cs2) by (eapply grows_trans; eassumption).
    destruct r as [[y k]|].
    + destruct R1 as (-> & R1 & _). exists ([EEq x x'] :: ps). split; [exact EE|]. split; [exact I2|]. split; [exact GG|]. cbn. rewrite N2. split; [reflexivity|].
      rewrite (grows_nth _ _ _ _ _ _ G2 R1), P2. split; [reflexivity|]. split; [|discriminate].
      constructor; [right; repeat split; auto; left; reflexivity|].
      clear -F2. induction F2 as [|a b ? ? [->|(?&?&?)]]; constructor; auto; [left; reflexivity|right; repeat split; auto; right; assumption].
    + destruct R1 as (-> & -> & -> & ->). exists ps. split; [exact EE|]. split; [exact I2|]. split; [exact GG|]. cbn. rewrite N2. split; [reflexivity|]. split; [exact P2|]. split; [|intros E; destruct (S2 E) as (-> & ?); auto].
      constructor; [left; reflexivity|exact F2].
Qed.

(** The congruence step of [process]. *)
Lemma process_ok t t' name rs ps s e cs :
  inv s e cs -> (forall n, name = Some n -> get_name e n = Some t) -> mapO (nth_error cs) (res_steps rs) = Some ps -> rule_ok props asserts RCong ps [] [EEq t t'] ->
  exists n s' e' cs', process t name t' rs s = Some (n, s') /\ inv s' e' cs' /\ grows e cs e' cs' /\ get_name e' n = Some t /\
    nth_error cs' (p_cur s' - 1) = Some [EEq t t'] /\ p_cur s' <> 0.
Proof.
  intros HI HN HP HR. destruct name as [n|].
  - destruct (record_plain s e cs [Eql (Name n) (Raw t')] RCong (res_steps rs) [] ps [EEq t t'] HI) as (s' & E & I' & C1 & C2 & C3 & G); auto.
    { cbn. rewrite (HN n eq_refl). reflexivity. }
    exists n, s', e, (cs ++ [[EEq t t']]). unfold process, bnd, record. rewrite E. split; [reflexivity|]. split; [exact I'|]. split; [exact G|]. split; [auto|]. rewrite C1. split; [|discriminate]. cbn. rewrite Nat.sub_0_r. apply nth_last. apply HI.
  - set (n := NT (p_name s)).
    assert (HF : get_name e n = None).
    { destruct (get_name e n) eqn:E; [|reflexivity]. destruct HI as (_ & _ & HN' & _). apply HN' in E. lia. }
    exists n. unfold process, bnd, record, record_full. eexists. exists ((n, t) :: e), (cs ++ [[EEq t t']]). split; [reflexivity|]. cbn [p_cur].
    destruct HI as (HC & HL & HN' & HT).
    assert (GN' : forall m, get_name ((n, t) :: e) m = if nm_eqb n m then Some t else get_name e m) by reflexivity.
    assert (RF : nm_eqb n n = true) by apply Nat.eqb_refl.
    repeat split; cbn [p_out p_cur p_true p_name].
    + apply (ck_step _ _ _ _ _ (mkS (p_cur s) [Eql (Named t n) (Raw t')] RCong (res_steps rs) []) ps [EEq t t']); cbn; auto.
      intros m u [[= <- <-]|[]]. exact HF.
    + rewrite app_length. cbn. lia.
    + intros m u. rewrite GN'. destruct (nm_eqb n (NT m)) eqn:Em; [cbn in Em; apply Nat.eqb_eq in Em; lia|]. intros E. apply HN' in E. lia.
    + intros Ht. specialize (HT Ht). rewrite nth_error_app1; [assumption|]. apply nth_error_Some. congruence.
    + exists [[EEq t t']]. reflexivity.
    + intros m u E. rewrite GN'. destruct (nm_eqb n m) eqn:Em; [|exact E].
      assert (m = n) as ->. { destruct m; cbn in Em; try discriminate. apply Nat.eqb_eq in Em. subst. reflexivity. } congruence.
    + intros m Hm. rewrite GN'. destruct m; try discriminate Hm; reflexivity.
    + rewrite GN', RF. reflexivity.
    + cbn. rewrite Nat.sub_0_r. apply nth_last. exact HL.
    + discriminate.
Qed.

(** ** Operators on constants *)
Definition direct_ok (o : aop) (l : list atm) (x : atm) : Prop :=
  is_all x = false /\ forall s e cs, inv s e cs -> exists s' cs', simplify_direct o l s = Some (x, s') /\ inv s' e cs' /\ grows e cs e cs' /\ p_cur s' <> 0 /\ nth_error cs' (p_cur s' - 1) = Some [EEq (O o l) x].
Definition sem_eq (a b : atm) : Prop := forall I r, fits props r -> den I r a = den I r b.
Definition simp_rule (ru : rule) : bool :=
  match ru with REqSimplify | REquivSimplify | RCompSimplify | RAndSimplify | ROrSimplify | RNotSimplify | RIteSimplify | RSumSimplify | RMinusSimplify | RDivSimplify | RProdSimplify | RModSimplify => true | _ => false end.
Lemma rule_op_simp ru o : rule_op ru o = true -> simp_rule ru = true.
Proof. destruct ru; cbn; auto; discriminate. Qed.
Lemma simp_rule_ok ru o l b : rule_op ru o = true -> is_all b = false -> sem_eq (O o l) b -> rule_ok props asserts ru [] [] [EEq (O o l) b].
Proof.
  intros HO HB HS. pose proof (rule_op_simp _ _ HO) as HR.
  destruct ru; try discriminate HR; cbn [rule_ok]; (split; [reflexivity|]); exists o, l, b; repeat split; auto.
Qed.
Lemma eq_step s e cs ru o l b : inv s e cs -> rule_op ru o = true -> is_all b = false -> sem_eq (O o l) b ->
  exists s', record [Eql (Raw (O o l)) (Raw b)] ru [] s = Some (tt, s') /\ inv s' e (cs ++ [[EEq (O o l) b]]) /\ p_cur s' = S (p_cur s) /\ grows e cs e (cs ++ [[EEq (O o l) b]]).
Proof.
  intros HI HO HB HS. destruct (record_plain s e cs [Eql (Raw (O o l)) (Raw b)] ru [] [] [] [EEq (O o l) b] HI) as (s' & E & I' & C1 & C2 & C3 & G); auto.
  - apply simp_rule_ok; assumption.
  - exists s'. auto.
Qed.
Lemma direct_step_ok o l x ru s e cs : direct o l = Some (x, ru) -> rule_op ru o = true -> is_all x = false -> sem_eq (O o l) x -> inv s e cs ->
  exists s', direct_step o l s = Some (x, s') /\ inv s' e (cs ++ [[EEq (O o l) x]]) /\ p_cur s' = S (p_cur s) /\ grows e cs e (cs ++ [[EEq (O o l) x]]).
Proof.
  intros E HO HX HS HI. destruct (eq_step s e cs ru o l x HI HO HX HS) as (s' & E' & I' & C & G). exists s'.
  unfold direct_step, lift, bnd. rewrite E. cbn [fst snd]. rewrite E'. auto.
Qed.
Lemma direct_one o l x ru : direct o l = Some (x, ru) -> rule_op ru o = true -> is_all x = false -> sem_eq (O o l) x -> direct_ok o l x.
Proof.
  intros E HO HX HS. split; [assumption|]. intros s e cs HI. destruct (direct_step_ok o l x ru s e cs E HO HX HS HI) as (s' & E' & I' & C & G).
  exists s', (cs ++ [[EEq (O o l) x]]). split; [|split; [exact I'|split; [exact G|split; [lia|]]]].
  - destruct o; try exact E'; discriminate E.
  - rewrite C. cbn. rewrite Nat.sub_0_r. apply nth_last, HI.
Qed.
Lemma trans_ok s e cs a b ks ps : inv s e cs -> mapO (nth_error cs) ks = Some ps -> eq_chain ps a b ->
  exists s', record [Eql (Raw a) (Raw b)] RTrans ks s = Some (tt, s') /\ inv s' e (cs ++ [[EEq a b]]) /\ p_cur s' = S (p_cur s) /\ grows e cs e (cs ++ [[EEq a b]]).
Proof.
  intros HI HP HC. destruct (record_plain s e cs [Eql (Raw a) (Raw b)] RTrans ks [] ps [EEq a b] HI) as (s' & E & I' & C1 & C2 & C3 & G); auto.
  - cbn. eauto.
  - exists s'. auto.
Qed.

Lemma qle_lt x y : qle x y = negb (qlt y x).
Proof.
  unfold qle, qlt, Qccompare. rewrite <- (Qcompare_antisym y x). destruct (y ?= x)%Q; reflexivity.
Qed.
Lemma forallb_true (l : list bool) : forallb as_bool (map AB l) = forallb (fun b => b) l.
Proof. induction l; cbn; congruence. Qed.
Lemma existsb_true (l : list bool) : existsb as_bool (map AB l) = existsb (fun b => b) l.
Proof. induction l; cbn; congruence. Qed.
Lemma map_num_AN l : map as_num (map AN l) = l.
Proof. rewrite map_map. cbn. apply map_id. Qed.
Lemma qprod2 x y : qprod [x; y] = (x * y)%Qc.
Proof. cbn. ring. Qed.
Lemma qsum1 x : qsum [x] = x.
Proof. cbn. ring. Qed.
(** The evaluation agrees with the meaning. *)
Lemma op_ev_val o vs v I : op_ev o vs = Some v -> op_den I o (map val vs) = val v.
Proof.
  intros E.
  destruct o; cbn [op_ev] in E; try discriminate E;
    try (destruct (gbools vs) as [bs|] eqn:EB; [|discriminate E]; apply gbools_val in EB; subst vs; injection E as <-; cbn [op_den val]; rewrite map_map; cbn [val];
         change (map (fun x : bool => AB x) bs) with (map AB bs); rewrite ?forallb_true, ?existsb_true; reflexivity).
  1:{ destruct vs as [|[|q r] vs]; try discriminate E. destruct (gnums (GN q r :: vs)) as [qs|] eqn:EQ; [|discriminate E]. apply gnums_val in EQ. injection E as <-. cbn [op_den]. rewrite EQ, map_num_AN. reflexivity. }
  all: destruct vs as [|[a|q r] [|[a'|q' r'] [|? ?]]]; try discriminate E; cbn [map val op_den as_num as_bool chain2 aeqb or_zero] in *.
  all: try (injection E as <-; cbn [val]; rewrite ?andb_true_r; try reflexivity).
  - rewrite qsum1. reflexivity.
  - destruct (Qc_eq_bool q' 0); [discriminate E|]. injection E as <-. reflexivity.
  - rewrite qprod2. reflexivity.
  - destruct (Bool.eqb r r'); [|discriminate E]. injection E as <-. rewrite andb_true_r. reflexivity.
  - destruct (Qc_eq_bool q' 0); [discriminate E|]. destruct (Z.ltb _ 0); [discriminate E|]. injection E as <-. reflexivity.
  - destruct (Qc_eq_bool q' 0); [discriminate E|]. injection E as <-. reflexivity.
Qed.
Lemma mapO_Forall2 {X Y} (f : X -> option Y) l ys : mapO f l = Some ys <-> Forall2 (fun x y => f x = Some y) l ys.
Proof.
  revert ys. induction l as [|x l IH]; cbn; intros ys.
  - split; [intros [= <-]; constructor|inversion 1; reflexivity].
  - destruct (f x) as [y|] eqn:Ex; [|split; [discriminate|inversion 1; congruence]].
    destruct (mapO f l) as [ys'|]; split.
    + intros [= <-]. constructor; [assumption|]. apply IH. reflexivity.
    + inversion 1; subst. apply IH in H4. congruence.
    + discriminate.
    + inversion 1; subst. apply IH in H4. discriminate.
Qed.
Lemma ev_op_cases o l v : ev (O o l) = Some v -> (o = OIte /\ exists c a b, l = [c; a; b] /\ ((ev c = Some (GB true) /\ ev a = Some v) \/ (ev c = Some (GB false) /\ ev b = Some v))) \/
  (o <> OIte /\ exists vs, Forall2 (fun x y => ev x = Some y) l vs /\ op_ev o vs = Some v).
Proof.
  intros E. destruct (match o with OIte => true | _ => false end) eqn:EO.
  - destruct o; try discriminate EO. left. split; [reflexivity|]. cbn [ev] in E. destruct l as [|c [|a [|b [|? ?]]]]; try discriminate E.
    destruct (ev c) as [[[|]|]|] eqn:Ec; try discriminate E; exists c, a, b; auto.
  - right. split; [intros ->; discriminate EO|].
    assert (E' : match mapO ev l with Some vs => op_ev o vs | None => None end = Some v) by (destruct o; try exact E; discriminate EO).
    destruct (mapO ev l) as [vs|] eqn:EV; [|discriminate E']. exists vs. split; [apply mapO_Forall2; exact EV|exact E'].
Qed.
Theorem ev_val : forall t v, ev t = Some v -> forall I r, den I r t = val v.
Proof.
  induction t using atm_ind'; intros v E I r; try discriminate E.
  - destruct k; cbn [ev] in E; try discriminate E.
    + destruct (read_number s) as [q|] eqn:ER; [|discriminate E]. destruct (String.eqb s _); [|discriminate E]. injection E as <-. cbn. unfold numeral. rewrite ER. reflexivity.
    + destruct (read_number s) as [q|] eqn:ER; [|discriminate E]. destruct (String.eqb s _); [|discriminate E]. injection E as <-. cbn. unfold numeral. rewrite ER. reflexivity.
    + cbn. destruct (String.eqb s "true"); [injection E as <-; reflexivity|]. destruct (String.eqb s "false"); [injection E as <-; reflexivity|discriminate E].
  - rewrite Forall_forall in H. apply ev_op_cases in E as [(-> & c & a & b & -> & [(Ec & Ea)|(Ec & Eb)])|(_ & vs & Ev & Eo)].
    + cbn. rewrite (H c) with (v := GB true) by (first [left; reflexivity|assumption]). cbn. apply H; [|assumption]. right. left. reflexivity.
    + cbn. rewrite (H c) with (v := GB false) by (first [left; reflexivity|assumption]). cbn. apply H; [|assumption]. right. right. left. reflexivity.
    + cbn [den]. rewrite <- (op_ev_val _ _ _ I Eo). f_equal. clear Eo. induction Ev as [|x y l vs Hx _ IH]; cbn; [reflexivity|]. f_equal; [apply H; [left; reflexivity|exact Hx]|apply IH; intros; apply H; [right; assumption|assumption]].
Qed.

Lemma two_canon x r y r' : two_numbers [tnum x (numk r); tnum y (numk r')] = Some (x, y).
Proof. unfold two_numbers. rewrite !arg_number_tnum. reflexivity. Qed.
Lemma sem_canon o vs v : op_ev o vs = Some v -> sem_eq (O o (map canon vs)) (canon v).
Proof. intros E I r _. cbn [den]. rewrite map_canon_den, canon_den. apply op_ev_val. exact E. Qed.
Lemma and_args_bools bs : and_args (map canon (map GB bs)) = Some (if forallb (fun b => b) bs then inr [] else inl (tbool false)).
Proof. induction bs as [|[|] bs IH]; cbn; auto. Qed.
Lemma or_args_bools bs : (existsb (fun t => match t with T s KBool => String.eqb s "true" | _ => false end) (map canon (map GB bs)) = existsb (fun b => b) bs) /\
  (existsb (fun b => b) bs = false -> forallb (fun t => match t with T s KBool => String.eqb s "false" | _ => false end) (map canon (map GB bs)) = true).
Proof. induction bs as [|[|] bs [IH1 IH2]]; cbn; auto. Qed.
Lemma sum_canon vs qs : gnums vs = Some qs -> sum_args (map canon vs) = Some (qsum qs).
Proof.
  revert qs. induction vs as [|[b|q r] vs IH]; cbn [gnums map canon sum_args]; intros qs E; try discriminate; [injection E as <-; reflexivity|].
  rewrite arg_number_tnum. destruct (gnums vs) as [x|]; [|discriminate]. injection E as <-. rewrite (IH _ eq_refl). reflexivity.
Qed.
Lemma get_str_mod (q : Qc) : Z.ltb (Qnum q) 0 = false -> T (get_str q) KInt = canon (GN q false).
Proof. intros E. unfold canon, tnum, number_str, positive_str. cbn [numk is_real andb]. rewrite E, str_app_nil. reflexivity. Qed.
Lemma direct_canon o vs v : op_ev o vs = Some v -> o <> OGt -> o <> OGe -> exists ru, direct o (map canon vs) = Some (canon v, ru) /\ rule_op ru o = true.
Proof.
  intros E N1 N2. destruct o; cbn [op_ev] in E; try discriminate E; try congruence.
  - destruct vs as [|[|q r] vs]; try discriminate E. destruct (gnums (GN q r :: vs)) as [qs|] eqn:EQ; [|discriminate E]. apply sum_canon in EQ. injection E as <-.
    exists RSumSimplify. split; [|reflexivity]. change (direct OPlus (map canon (GN q r :: vs))) with (match sum_args (map canon (GN q r :: vs)) with Some x => Some (tnum x (kind_of (canon (GN q r))), RSumSimplify) | None => None end).
    rewrite EQ. reflexivity.
  - destruct vs as [|[a|q r] [|[a'|q' r'] [|? ?]]]; try discriminate E. injection E as <-. exists RMinusSimplify. split; [|reflexivity]. unfold direct. cbn [map canon]. rewrite two_canon. reflexivity.
  - destruct vs as [|[a|q r] [|[a'|q' r'] [|? ?]]]; try discriminate E. destruct (Qc_eq_bool q' 0) eqn:EZ; [discriminate E|]. injection E as <-. exists RDivSimplify. split; [|reflexivity]. unfold direct. cbn [map canon]. rewrite two_canon, EZ. reflexivity.
  - destruct vs as [|[a|q r] [|[a'|q' r'] [|? ?]]]; try discriminate E. injection E as <-. exists RProdSimplify. split; [|reflexivity]. unfold direct. cbn [map canon]. rewrite two_canon. reflexivity.
  - destruct (gbools vs) as [bs|] eqn:EB; [|discriminate E]. apply gbools_val in EB. subst vs. injection E as <-. exists RAndSimplify. split; [|reflexivity]. unfold direct. rewrite and_args_bools. destruct (forallb _ bs); reflexivity.
  - destruct (gbools vs) as [bs|] eqn:EB; [|discriminate E]. apply gbools_val in EB. subst vs. injection E as <-. exists ROrSimplify. split; [|reflexivity]. unfold direct. destruct (or_args_bools bs) as [-> H]. destruct (existsb _ bs); [reflexivity|]. rewrite H; reflexivity.
  - destruct vs as [|[[|]|q r] [|? ?]]; try discriminate E; injection E as <-; exists RNotSimplify; split; reflexivity.
  - destruct vs as [|[a|q r] [|[a'|q' r'] [|? ?]]]; try discriminate E.
    + injection E as <-. exists REquivSimplify. destruct a, a'; split; reflexivity.
    + destruct (Bool.eqb r r') eqn:ER; [|discriminate E]. apply Bool.eqb_prop in ER. subst r'. injection E as <-. exists REqSimplify. split; [|reflexivity].
      assert (HS : String.eqb (number_str q (numk r)) (number_str q' (numk r)) = Qc_eq_bool q q').
      { destruct (String.eqb_spec (number_str q (numk r)) (number_str q' (numk r))) as [ES|ES].
        - apply number_str_inj in ES. subst. unfold Qc_eq_bool. destruct (Qc_eq_dec q' q'); congruence.
        - unfold Qc_eq_bool. destruct (Qc_eq_dec q q'); congruence. }
      unfold direct. cbn [map canon tnum]. rewrite HS. destruct r; reflexivity.
  - destruct vs as [|[a|q r] [|[a'|q' r'] [|? ?]]]; try discriminate E. injection E as <-. exists RCompSimplify. split; [|reflexivity]. unfold direct. cbn [map canon]. rewrite two_canon. reflexivity.
  - destruct vs as [|[a|q r] [|[a'|q' r'] [|? ?]]]; try discriminate E. injection E as <-. exists RCompSimplify. split; [|reflexivity]. unfold direct. cbn [map canon]. rewrite two_canon. reflexivity.
  - destruct vs as [|[a|q r] [|[a'|q' r'] [|? ?]]]; try discriminate E. destruct (Qc_eq_bool q' 0) eqn:EZ; [discriminate E|]. destruct (Z.ltb _ 0) eqn:EL; [discriminate E|]. injection E as <-. exists RModSimplify. split; [|reflexivity]. unfold direct, divmod. cbn [map canon]. rewrite two_canon, EZ. change (Some (T (get_str (q - q' * zdiv q q')%Qc) KInt, RModSimplify) = Some (canon (GN (q - q' * zdiv q q')%Qc false), RModSimplify)). rewrite get_str_mod by exact EL. reflexivity.
  - destruct vs as [|[a|q r] [|[a'|q' r'] [|? ?]]]; try discriminate E. destruct (Qc_eq_bool q' 0) eqn:EZ; [discriminate E|]. injection E as <-. exists RDivSimplify. split; [|reflexivity]. unfold direct, divmod. cbn [map canon]. rewrite two_canon, EZ. reflexivity.
Qed.
Lemma last_S s : 0 < p_cur s -> last_step s = Some (p_cur s - 1, s).
Proof. reflexivity. Qed.
Theorem eval_direct o vs v : op_ev o vs = Some v -> direct_ok o (map canon vs) (canon v).
Proof.
  intros E. destruct (match o with OGt | OGe => true | _ => false end) eqn:EO.
  2:{ destruct (direct_canon o vs v E) as (ru & E1 & E2); [intros ->; discriminate EO|intros ->; discriminate EO|].
      eapply direct_one; eauto using canon_not_all, sem_canon. }
  split; [apply canon_not_all|]. intros s e cs HI.
  assert (exists q r q' r', vs = [GN q r; GN q' r']) as (q & r & q' & r' & ->).
  { destruct o; try discriminate EO; cbn in E; destruct vs as [|[a|q r] [|[a'|q' r'] [|? ?]]]; try discriminate E; eauto 6. }
  set (a := canon (GN q r)). set (b := canon (GN q' r')). change (map canon [GN q r; GN q' r']) with [a; b].
  assert (SL : forall x y z, sem_eq (O OLe [canon x; canon y]) z -> sem_eq (O OLe [canon x; canon y]) z) by auto.
  destruct o; try discriminate EO; cbn in E; injection E as <-.
  - (* >= *)
    unfold simplify_direct. cbn [map].
    assert (S1 : sem_eq (O OGe [a; b]) (O OLe [b; a])).
    { intros I r0 _. cbn. f_equal. }
    destruct (eq_step s e cs RCompSimplify OGe [a; b] (O OLe [b; a]) HI eq_refl eq_refl S1) as (s1 & E1 & I1 & C1 & G1).
    destruct (direct_canon OLe [GN q' r'; GN q r] (GB (qle q' q)) eq_refl) as (ru & D1 & D2); [discriminate|discriminate|]. change (map canon [GN q' r'; GN q r]) with [b; a] in D1.
    destruct (direct_step_ok OLe [b; a] (canon (GB (qle q' q))) ru s1 e _ D1 D2 (canon_not_all _) (sem_canon OLe [GN q' r'; GN q r] _ eq_refl) I1) as (s2 & E2 & I2 & C2 & G2).
    destruct (trans_ok s2 e _ (O OGe [a; b]) (canon (GB (qle q' q))) [p_cur s1 - 1; p_cur s2 - 1] [[EEq (O OGe [a; b]) (O OLe [b; a])]; [EEq (O OLe [b; a]) (canon (GB (qle q' q)))]] I2) as (s3 & E3 & I3 & C3 & G3).
    { cbn [mapO]. replace (p_cur s2 - 1) with (p_cur s1) by lia. rewrite (nth_last _ _ (p_cur s1)) by (apply I1).
      replace (p_cur s1 - 1) with (p_cur s) by lia. rewrite (grows_nth _ _ _ _ _ _ G2 (nth_last _ _ (p_cur s) (proj1 (proj2 HI)))). reflexivity. }
    { constructor; try reflexivity. constructor; [reflexivity|apply canon_not_all]. }
    exists s3. eexists. unfold bnd, last_step, ret. rewrite E1, E2, E3. split; [reflexivity|]. split; [exact I3|]. split; [eapply grows_trans; [eapply grows_trans|]; eassumption|]. split; [lia|].
    replace (p_cur s3 - 1) with (p_cur s2) by lia. apply nth_last. apply I2.
  - (* > *)
    unfold simplify_direct.
    assert (S1 : sem_eq (O OGt [a; b]) (O ONot [O OLe [a; b]])).
    { intros I r0 _. cbn. rewrite !andb_true_r. f_equal. rewrite qle_lt, negb_involutive. reflexivity. }
    destruct (eq_step s e cs RCompSimplify OGt [a; b] (O ONot [O OLe [a; b]]) HI eq_refl eq_refl S1) as (s1 & E1 & I1 & C1 & G1).
    destruct (direct_canon OLe [GN q r; GN q' r'] (GB (qle q q')) eq_refl) as (ru & D1 & D2); [discriminate|discriminate|]. change (map canon [GN q r; GN q' r']) with [a; b] in D1.
    set (i := canon (GB (qle q q'))) in *.
    destruct (direct_step_ok OLe [a; b] i ru s1 e _ D1 D2 (canon_not_all _) (sem_canon OLe [GN q r; GN q' r'] _ eq_refl) I1) as (s2 & E2 & I2 & C2 & G2).
    destruct (record_plain s2 e _ [Eql (Raw (O ONot [O OLe [a; b]])) (Raw (O ONot [i]))] RCong [p_cur s2 - 1] [] [[EEq (O OLe [a; b]) i]] [EEq (O ONot [O OLe [a; b]]) (O ONot [i])] I2) as (s3 & E3 & I3 & C3 & _ & _ & G3); [reflexivity|reflexivity| | |].
    { cbn [mapO]. replace (p_cur s2 - 1) with (p_cur s1) by lia. rewrite (nth_last _ _ (p_cur s1)) by (apply I1). reflexivity. }
    { cbn. left. exists ONot, [O OLe [a; b]], [i]. split; [reflexivity|]. constructor; [|constructor]. right. split; [reflexivity|]. split; [apply canon_not_all|left; reflexivity]. }
    destruct (direct_canon ONot [GB (qle q q')] (GB (negb (qle q q'))) eq_refl) as (ru' & D3 & D4); [discriminate|discriminate|]. change (map canon [GB (qle q q')]) with [i] in D3.
    assert (EV : negb (qle q q') = qlt q' q) by (rewrite qle_lt, negb_involutive; reflexivity).
    pose proof (sem_canon ONot [GB (qle q q')] _ eq_refl) as S4. rewrite EV in D3, S4. change (map canon [GB (qle q q')]) with [i] in S4.
    destruct (direct_step_ok ONot [i] (canon (GB (qlt q' q))) ru' s3 e _ D3 D4 (canon_not_all _) S4 I3) as (s4 & E4 & I4 & C4 & G4).
    destruct (trans_ok s4 e _ (O OGt [a; b]) (canon (GB (qlt q' q))) [p_cur s1 - 1; p_cur s3 - 1; p_cur s4 - 1]
      [[EEq (O OGt [a; b]) (O ONot [O OLe [a; b]])]; [EEq (O ONot [O OLe [a; b]]) (O ONot [i])]; [EEq (O ONot [i]) (canon (GB (qlt q' q)))]] I4) as (s5 & E5 & I5 & C5 & G5).
    { cbn [mapO]. replace (p_cur s1 - 1) with (p_cur s) by lia. replace (p_cur s3 - 1) with (p_cur s2) by lia. replace (p_cur s4 - 1) with (p_cur s3) by lia.
      rewrite (nth_last _ _ (p_cur s3)) by (apply I3).
      rewrite (grows_nth _ _ _ _ _ _ G4 (nth_last _ _ (p_cur s2) (proj1 (proj2 I2)))).
      rewrite (grows_nth _ _ _ _ _ _ (grows_trans _ _ _ _ _ _ (grows_trans _ _ _ _ _ _ G2 G3) G4) (nth_last _ _ (p_cur s) (proj1 (proj2 HI)))). reflexivity. }
    { constructor; try reflexivity. constructor; try reflexivity. constructor; [reflexivity|apply canon_not_all]. }
    exists s5. eexists. unfold bnd, last_step, ret. rewrite E1, E2. unfold record. rewrite E3, E4. change (record_full ?c ?r ?p []) with (record c r p). rewrite E5. split; [reflexivity|]. split; [exact I5|].
    split; [eapply grows_trans; [eapply grows_trans; [eapply grows_trans; [eapply grows_trans|]|]|]; eassumption|]. split; [lia|].
    replace (p_cur s5 - 1) with (p_cur s4) by lia. apply nth_last. apply I4.
Qed.
End Simp.
