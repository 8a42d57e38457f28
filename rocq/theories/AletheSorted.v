(** * Clauses over Int and Bool: derivations in terms of values. *)
From Verif Require Import Names AletheModel AletheSpec AletheSound AletheNum AletheLet AletheSimp AletheSimp2 AletheBuild AletheInst AletheTop.
Open Scope string_scope.
Open Scope list_scope.
Open Scope nat_scope.

(** ** Specification *)
Inductive ssort := SI | SB.
Definition sort_name (s : ssort) : string := match s with SI => "Int" | SB => "Bool" end.
Definition ssort_eqb (a b : ssort) : bool := match a, b with SI, SI | SB, SB => true | _, _ => false end.
(** Values of a sort. *)
Definition has_sort (s : ssort) (v : aval) : Prop := match s with SI => exists z, v = AN (Q2Qc (inject_Z z)) | SB => exists b, v = AB b end.
(** Well-sorted terms without predicates; [G] gives the sorts of the variables. *)
Section Sort.
Variable G : string -> option ssort.
Fixpoint srt (t : atm) : option ssort :=
  match t with
  | T s KVar => if simple s then G s else None
  | T s KBool => if (String.eqb s "true" || String.eqb s "false")%bool then Some SB else None
  | T s KInt => match read_number s with Some q => if (is_int q && String.eqb s (number_str q KInt))%bool then Some SI else None | None => None end
  | O o l =>
      let all k := forallb (fun x => match srt x with Some k' => ssort_eqb k k' | None => false end) l in
      match o, l with
      | OPlus, _ :: _ => if all SI then Some SI else None
      | (OMinus | OTimes | OIDiv | OMod), [_; _] => if all SI then Some SI else None
      | (OLt | OLe | OGt | OGe), [_; _] => if all SI then Some SB else None
      | (OAnd | OOr), _ => if all SB then Some SB else None
      | ONot, [_] => if all SB then Some SB else None
      | OEq, [_; _] => if (all SI || all SB)%bool then Some SB else None
      | OIte, [c; a; b] => match srt c, srt a, srt b with Some SB, Some k, Some k' => if ssort_eqb k k' then Some k else None | _, _, _ => None end
      | _, _ => None
      end
  | _ => None
  end.
End Sort.
(** No division by zero where the term is evaluated. *)
Fixpoint nz (I : interp) (r : asg) (t : atm) : Prop :=
  match t with
  | O OIte [c; a; b] => nz I r c /\ if as_bool (den I r c) then nz I r a else nz I r b
  | O o l => (fix all (l : list atm) : Prop := match l with [] => True | x :: l' => nz I r x /\ all l' end) l /\
             match o, l with (OIDiv | OMod), [_; b] => as_num (den I r b) <> 0%Qc | _, _ => True end
  | _ => True
  end.
(** The text of a value. *)
Definition vtext (v : aval) : string := match v with AB true => "true" | AB false => "false" | AN q => number_str q KInt end.
Definition var_sort (vs : list (string * string)) (s : string) : option ssort :=
  match slookup vs s with Some n => if String.eqb n "Int" then Some SI else if String.eqb n "Bool" then Some SB else None | None => None end.
(** ** Facts and clauses *)
Inductive sfact := SFalse | SFact (p : string) (args : list aval).
(** The conjuncts of a body. *)
Definition conjuncts (t : atm) : list atm := match t with O OAnd l => l | _ => [t] end.
Definition sorted (vs : list (string * string)) (k : ssort) (t : atm) : Prop := srt (var_sort vs) t = Some k.
(** Arguments of a predicate: well sorted, no division by zero. *)
Definition args_ok (I : interp) (vs : list (string * string)) (r : asg) (args : list atm) : Prop :=
  args <> [] /\ forall x, In x args -> (exists k, sorted vs k x) /\ nz I r x.
Definition prop_ok (props : list string) (vs : list (string * string)) (p : string) : Prop := In p props /\ simple p = true /\ ~ In p (map fst vs).
(** The conjuncts hold for the values [r] of the variables, given the facts. *)
Inductive needs (props : list string) (I : interp) (vs : list (string * string)) (r : asg) : list atm -> list sfact -> Prop :=
| nd_nil : needs props I vs r [] []
| nd_atom f args l fs : args_ok I vs r args -> needs props I vs r l fs -> needs props I vs r (A f args :: l) (SFact f (map (den I r) args) :: fs)
| nd_prop p l fs : prop_ok props vs p -> needs props I vs r l fs -> needs props I vs r (T p KVar :: l) (SFact p [] :: fs)
| nd_guard g l fs : sorted vs SB g -> nz I r g -> den I r g = AB true -> needs props I vs r l fs -> needs props I vs r (g :: l) fs.
(** The fact of a head. *)
Inductive head_is (props : list string) (I : interp) (vs : list (string * string)) (r : asg) : atm -> sfact -> Prop :=
| hd_false : head_is props I vs r (T "false" KBool) SFalse
| hd_atom f args : args_ok I vs r args -> head_is props I vs r (A f args) (SFact f (map (den I r) args))
| hd_prop p : prop_ok props vs p -> head_is props I vs r (T p KVar) (SFact p []).
(** Quantified variables: distinct symbols of sort Int or Bool, with values of their sorts. *)
Definition vars_ok (vs : list (string * string)) (r : asg) : Prop :=
  vs <> [] /\ NoDup (map fst vs) /\ forall x, In x vs -> exists k, snd x = sort_name k /\ has_sort k (r (fst x)).
(** A clause derives a fact from facts, with the values [r]. *)
Inductive sclause (props : list string) (I : interp) (r : asg) : atm -> list sfact -> sfact -> Prop :=
| sc_rule vs L R fs f : vars_ok vs r -> needs props I vs r (conjuncts L) fs -> head_is props I vs r R f -> sclause props I r (All vs (O OImp [L; R])) fs f
| sc_fact_q vs p args : vars_ok vs r -> args_ok I vs r args -> sclause props I r (All vs (A p args)) [] (SFact p (map (den I r) args))
| sc_fact p args : args_ok I [] r args -> sclause props I r (A p args) [] (SFact p (map (den I r) args)).
(** The constants for the variables of a clause that occur in it. *)
Definition pairs_of (t : atm) (r : asg) : list (string * string) :=
  match t with All vs b => map (fun x => (fst x, vtext (r (fst x)))) (filter (fun x => occurs (fst x) b) vs) | _ => [] end.
(** A derivation of "false" (src/Witnesses.h): step 0 is the fact "true"; a step with premises uses a clause and earlier steps.
    [vals i]: the values of the variables in step i. *)
Record refutation (props : list string) (I : interp) (ts : list atm) (d : list cstep) (vals : nat -> asg) (facts : nat -> sfact) : Prop := {
  rf_first : forall c, nth_error d 0 = Some c -> c_premises c = [];
  rf_step : forall i c, nth_error d i = Some c -> c_premises c <> [] ->
    exists t fs, nth_error ts (c_clause c) = Some t /\ sclause props I (vals i) t fs (facts i) /\
      (is_imp t = true -> let ps := filter (fun p => negb (Nat.eqb p 0)) (c_premises c) in length ps = length fs /\ incl fs (map facts ps));
  rf_before : forall i c p, nth_error d i = Some c -> In p (c_premises c) -> p <> 0 -> p < i /\ exists c', nth_error d p = Some c' /\ c_premises c' <> [];
  rf_last : exists c, d <> [] /\ nth_error d (length d - 1) = Some c /\ c_premises c <> [] /\ facts (length d - 1) = SFalse }.

(** ** Proofs *)
Definition vconst (v : aval) : atm := match v with AB b => tbool b | AN q => tnum q KInt end.
Definition fact_atm (f : sfact) : atm := match f with SFalse => tbool false | SFact p [] => T p KVar | SFact p vs => A p (map vconst vs) end.
Definition gsort (k : ssort) (g : gval) : Prop := match k with SI => exists z, g = GN (Q2Qc (inject_Z z)) false | SB => exists b, g = GB b end.
Lemma gsort_canon k g : gsort k g -> canon g = vconst (val g).
Proof. destruct k; intros (x & ->); reflexivity. Qed.
Lemma inj_add a b : (Q2Qc (inject_Z a) + Q2Qc (inject_Z b))%Qc = Q2Qc (inject_Z (a + b)).
Proof. apply Qc_is_canon. cbn [Qcplus this Q2Qc]. rewrite !Qred_correct. rewrite inject_Z_plus. reflexivity. Qed.
Lemma inj_mul a b : (Q2Qc (inject_Z a) * Q2Qc (inject_Z b))%Qc = Q2Qc (inject_Z (a * b)).
Proof. apply Qc_is_canon. cbn [Qcmult this Q2Qc]. rewrite !Qred_correct. rewrite inject_Z_mult. reflexivity. Qed.
Lemma inj_sub a b : (Q2Qc (inject_Z a) - Q2Qc (inject_Z b))%Qc = Q2Qc (inject_Z (a - b)).
Proof. apply Qc_is_canon. unfold Qcminus. cbn [Qcplus Qcopp this Q2Qc]. rewrite !Qred_correct. unfold Z.sub. rewrite inject_Z_plus, inject_Z_opp. reflexivity. Qed.
Lemma mod_nonneg x y : y <> 0%Qc -> Z.ltb (Qnum (x - y * zdiv x y)%Qc) 0 = false.
Proof.
  intros Hy. apply Z.ltb_ge.
  assert (H : (0 <= x - y * zdiv x y)%Qc).
  { unfold zdiv. set (q := (x / y)%Qc).
    assert (EQ : x = (y * q)%Qc) by (unfold q; field; exact Hy). rewrite EQ at 1. 
    destruct (Z.ltb_spec 0 (Qnum y)) as [L|L].
    - assert (HF : (Q2Qc (inject_Z (Qfloor q)) <= q)%Qc).
      { unfold Qcle. cbn [this Q2Qc]. rewrite Qred_correct. apply Qfloor_le. }
      assert (HY : (0 <= y)%Qc) by (unfold Qcle, Qle; cbn; lia).
      apply Qcle_minus_iff in HF. replace (y * q - y * Q2Qc (inject_Z (Qfloor q)))%Qc with (y * (q + - Q2Qc (inject_Z (Qfloor q))))%Qc by ring.
      apply (Qcmult_le_compat_r 0 y) in HF; [|exact HY]. rewrite Qcmult_0_l in HF. first [exact HF | rewrite Qcmult_comm; exact HF].
    - assert (HF : (q <= Q2Qc (inject_Z (Qceiling q)))%Qc).
      { unfold Qcle. cbn [this Q2Qc]. rewrite Qred_correct. apply Qle_ceiling. }
      assert (HY : (0 <= - y)%Qc). { unfold Qcle, Qle. rewrite Qc_opp_num. cbn. lia. }
      apply Qcle_minus_iff in HF. replace (y * q - y * Q2Qc (inject_Z (Qceiling q)))%Qc with (- y * (Q2Qc (inject_Z (Qceiling q)) + - q))%Qc by ring.
      apply (Qcmult_le_compat_r 0 (- y)) in HF; [|exact HY]. rewrite Qcmult_0_l in HF. first [exact HF | rewrite Qcmult_comm; exact HF]. }
  revert H. generalize (x - y * zdiv x y)%Qc. clear. intros q H. unfold Qcle, Qle in H. cbn in H. rewrite Z.mul_1_r in H. exact H.
Qed.
Lemma contains_app c a b : contains c (a ++ b)%string = (contains c a || contains c b)%bool.
Proof. unfold contains. induction a as [|x a IH]; cbn; [reflexivity|]. rewrite IH. apply orb_assoc. Qed.
Lemma digits_no_dot s : sall digit s = true -> contains dot s = false.
Proof.
  unfold contains. induction s as [|c s IH]; [reflexivity|]. cbn [sall list_ascii_of_string existsb]. intros H. apply andb_prop in H as [H1 H2]. rewrite (IH H2), orb_false_r.
  destruct (Ascii.eqb_spec dot c) as [<-|]; [discriminate H1|reflexivity].
Qed.
Lemma Q2Qc_int z : Qnum (Q2Qc (inject_Z z)) = z /\ Qden (Q2Qc (inject_Z z)) = 1%positive.
Proof.
  assert (E : Qred (inject_Z z) = inject_Z z).
  { apply Qred_identity. cbn. apply Z.gcd_1_r. }
  cbn [this Q2Qc]. rewrite E. split; reflexivity.
Qed.
Lemma is_int_z z : is_int (Q2Qc (inject_Z z)) = true.
Proof. unfold is_int. rewrite (proj2 (Q2Qc_int z)). reflexivity. Qed.
Lemma is_int_inv q : is_int q = true -> exists z, q = Q2Qc (inject_Z z).
Proof. unfold is_int. intros H. apply Pos.eqb_eq in H. exists (Qnum q). rewrite <- (Q2Qc_this q) at 1. rewrite H. reflexivity. Qed.
Lemma kind_num z : kind_of_value (number_str (Q2Qc (inject_Z z)) KInt) = KInt.
Proof.
  set (q := Q2Qc (inject_Z z)). unfold kind_of_value. destruct (number_str_not_bool q KInt) as [N1 N2]. apply String.eqb_neq in N1, N2. rewrite N1, N2. cbn [orb].
  assert (G : forall y, (0 <= y)%Z -> contains dot (get_str (Q2Qc (inject_Z y))) = false).
  { intros y Hy. unfold get_str. rewrite is_int_z, (proj1 (Q2Qc_int y)). apply digits_no_dot. apply to_string_digits. exact Hy. }
  replace (contains dot (number_str q KInt)) with false; [reflexivity|]. symmetry. unfold number_str, positive_str. cbn [is_real andb]. rewrite (proj1 (Q2Qc_int z) : Qnum q = z).
  destruct (Z.ltb_spec z 0).
  - replace (- q)%Qc with (Q2Qc (inject_Z (- z))).
    + rewrite !contains_app, G by lia. reflexivity.
    + unfold q. apply Qc_is_canon. cbn [Qcopp this Q2Qc]. rewrite !Qred_correct. rewrite inject_Z_opp. reflexivity.
  - rewrite contains_app. unfold q. rewrite G by lia. reflexivity.
Qed.

Lemma gsorts_bools gs : Forall (gsort SB) gs -> exists bs, gs = map GB bs /\ gbools gs = Some bs.
Proof. induction 1 as [|g gs (b & ->) _ (bs & -> & E)]; [exists []; split; reflexivity|]. exists (b :: bs). cbn. rewrite E. split; reflexivity. Qed.
Lemma gsorts_nums gs : Forall (gsort SI) gs -> exists zs, gs = map (fun z => GN (Q2Qc (inject_Z z)) false) zs /\ gnums gs = Some (map (fun z => Q2Qc (inject_Z z)) zs).
Proof. induction 1 as [|g gs (b & ->) _ (bs & -> & E)]; [exists []; split; reflexivity|]. exists (b :: bs). cbn. rewrite E. split; reflexivity. Qed.
Lemma qsum_ints zs : qsum (map (fun z => Q2Qc (inject_Z z)) zs) = Q2Qc (inject_Z (fold_right Z.add 0%Z zs)).
Proof. induction zs as [|z zs IH]; [reflexivity|]. cbn [map qsum fold_right]. unfold qsum in IH. rewrite IH. apply inj_add. Qed.
Lemma zdiv_int x y : exists z, zdiv x y = Q2Qc (inject_Z z).
Proof. unfold zdiv. eexists. reflexivity. Qed.

(** The sort of the result, by operator. *)
Definition res_sort (o : aop) (k : ssort) (n : nat) : option ssort :=
  match o, k with
  | OPlus, SI => match n with 0 => None | _ => Some SI end
  | (OMinus | OTimes | OIDiv | OMod), SI => if Nat.eqb n 2 then Some SI else None
  | (OLt | OLe | OGt | OGe), SI => if Nat.eqb n 2 then Some SB else None
  | (OAnd | OOr), SB => Some SB
  | ONot, SB => if Nat.eqb n 1 then Some SB else None
  | OEq, _ => if Nat.eqb n 2 then Some SB else None
  | _, _ => None
  end.
Lemma op_sorted o k gs k' : Forall (gsort k) gs -> res_sort o k (length gs) = Some k' ->
  (match o, map val gs with (OIDiv | OMod), [_; b] => as_num b <> 0%Qc | _, _ => True end) ->
  exists g, op_ev o gs = Some g /\ gsort k' g.
Proof.
  intros F E Z. destruct k.
  - destruct (gsorts_nums gs F) as (zs & -> & EN). rewrite map_length in E.
    destruct o; cbn [res_sort] in E; try discriminate E;
      [|destruct zs as [|x [|y [|]]]; cbn [length Nat.eqb] in E; try discriminate E; injection E as <-; cbn [map op_ev val as_num Bool.eqb] in *..].
    + destruct zs as [|z zs]; [discriminate E|]. injection E as <-. cbn [op_ev map] in *. rewrite EN. eexists. split; [reflexivity|]. exists (fold_right Z.add 0%Z (z :: zs)).
      change (map (fun z0 => Q2Qc (inject_Z z0)) zs) with (map (fun z0 => Q2Qc (inject_Z z0)) zs). rewrite <- qsum_ints. reflexivity.
    + eexists. split; [reflexivity|]. rewrite inj_sub. eexists. reflexivity.
    + eexists. split; [reflexivity|]. rewrite inj_mul. eexists. reflexivity.
    + eexists. split; [reflexivity|]. eexists. reflexivity.
    + eexists. split; [reflexivity|]. eexists. reflexivity.
    + eexists. split; [reflexivity|]. eexists. reflexivity.
    + eexists. split; [reflexivity|]. eexists. reflexivity.
    + eexists. split; [reflexivity|]. eexists. reflexivity.
    + destruct (Qc_eq_bool (Q2Qc (inject_Z y)) 0) eqn:EZ; [exfalso; apply Z; apply Qc_eq_bool_correct; exact EZ|]. rewrite mod_nonneg by exact Z.
      eexists. split; [reflexivity|]. destruct (zdiv_int (Q2Qc (inject_Z x)) (Q2Qc (inject_Z y))) as (z & ->). rewrite inj_mul, inj_sub. eexists. reflexivity.
    + destruct (Qc_eq_bool (Q2Qc (inject_Z y)) 0) eqn:EZ; [exfalso; apply Z; apply Qc_eq_bool_correct; exact EZ|].
      eexists. split; [reflexivity|]. destruct (zdiv_int (Q2Qc (inject_Z x)) (Q2Qc (inject_Z y))) as (z & ->). eexists. reflexivity.
  - destruct (gsorts_bools gs F) as (bs & -> & EN). rewrite map_length in E.
    destruct o; cbn [res_sort] in E; try discriminate E; cbn [op_ev].
    + injection E as <-. rewrite EN. eexists. split; [reflexivity|]. eexists. reflexivity.
    + injection E as <-. rewrite EN. eexists. split; [reflexivity|]. eexists. reflexivity.
    + destruct bs as [|x [|]]; try discriminate E. injection E as <-. eexists. split; [reflexivity|]. eexists. reflexivity.
    + destruct bs as [|x [|y [|]]]; try discriminate E. injection E as <-. eexists. split; [reflexivity|]. eexists. reflexivity.
Qed.
Lemma ssort_eqb_eq a b : ssort_eqb a b = true -> a = b.
Proof. destruct a, b; cbn; congruence. Qed.
(** Sorts of applications other than "ite". *)
Lemma srt_op G o l k : o <> OIte -> srt G (O o l) = Some k -> exists k', Forall (fun x => srt G x = Some k') l /\ res_sort o k' (length l) = Some k.
Proof.
  intros Ho E.
  assert (AL : forall k' l, forallb (fun x => match srt G x with Some k1 => ssort_eqb k' k1 | None => false end) l = true -> Forall (fun x => srt G x = Some k') l).
  { intros k' l' H. apply Forall_forall. rewrite forallb_forall in H. intros x Hx. specialize (H x Hx). destruct (srt G x); [|discriminate]. apply ssort_eqb_eq in H. congruence. }
  cbn [srt] in E.
  destruct o; try discriminate E; try contradiction;
    try (destruct l as [|x [|y [|z l]]]; try discriminate E;
         match type of E with (if forallb ?f ?l then _ else _) = _ => destruct (forallb f l) eqn:EF; [|discriminate E]; injection E as <- end;
         eexists; split; [apply AL; exact EF|reflexivity]).
  - destruct l as [|x l]; [discriminate E|]. match type of E with (if forallb ?f ?l then _ else _) = _ => destruct (forallb f l) eqn:EF; [|discriminate E]; injection E as <- end. exists SI. split; [apply AL; exact EF|reflexivity].
  - match type of E with (if forallb ?f ?l then _ else _) = _ => destruct (forallb f l) eqn:EF; [|discriminate E]; injection E as <- end. exists SB. split; [apply AL; exact EF|reflexivity].
  - match type of E with (if forallb ?f ?l then _ else _) = _ => destruct (forallb f l) eqn:EF; [|discriminate E]; injection E as <- end. exists SB. split; [apply AL; exact EF|reflexivity].
  - destruct l as [|x [|y [|z l]]]; try discriminate E. match type of E with (if ?c then _ else _) = _ => destruct c eqn:EF; [|discriminate E]; injection E as <- end.
    apply orb_prop in EF as [EF|EF]; [exists SI|exists SB]; (split; [apply AL; exact EF|reflexivity]).
Qed.
Definition nz_all (I : interp) (r : asg) := fix all (l : list atm) : Prop := match l with [] => True | x :: l' => nz I r x /\ all l' end.
Lemma nz_op I r o l : o <> OIte -> nz I r (O o l) -> Forall (nz I r) l /\ match o, l with (OIDiv | OMod), [_; b] => as_num (den I r b) <> 0%Qc | _, _ => True end.
Proof.
  intros Ho H. assert (H' : nz_all I r l /\ match o, l with (OIDiv | OMod), [_; b] => as_num (den I r b) <> 0%Qc | _, _ => True end).
  { destruct o; try contradiction; exact H. }
  destruct H' as [H1 H2]. split; [|exact H2]. clear -H1. induction l as [|x l IH]; [constructor|]. destruct H1. constructor; auto.
Qed.
Lemma srt_letfree G t k : srt G t = Some k -> letfree t = true.
Proof.
  revert k. induction t using atm_ind'; intros k0 E; try discriminate E.
  - cbn in E. cbn. destruct k; try discriminate E; cbn.
    + destruct (simple s); [reflexivity|discriminate].
    + destruct (read_number s); [reflexivity|discriminate].
    + destruct (String.eqb s "true" || String.eqb s "false")%bool; [reflexivity|discriminate].
  - cbn [letfree]. apply forallb_forall. rewrite Forall_forall in H.
    assert (D : o = OIte \/ o <> OIte) by (destruct o; auto; right; discriminate). destruct D as [->|D].
    + cbn [srt] in E. destruct l as [|c [|a [|b [|]]]]; try discriminate E.
      destruct (srt G c) eqn:E1; [|discriminate]. destruct (srt G a) eqn:E2; [|destruct s; discriminate]. destruct (srt G b) eqn:E3; [|destruct s; discriminate].
      intros x [<-|[<-|[<-|[]]]]; eapply H; eauto; cbn; auto.
    + destruct (srt_op G o l k0 D E) as (k' & F & _). rewrite Forall_forall in F. intros x Hx. eapply H; eauto.
Qed.
Lemma ev_op o l : o <> OIte -> ev (O o l) = match mapO ev l with Some vs => op_ev o vs | None => None end.
Proof. destruct o; try reflexivity. contradiction. Qed.

(** An instantiated term evaluates to its value. *)
Lemma ev_inst I r vs pairs : forall t k, sorted vs k t -> nz I r t ->
  (forall s k', var_sort vs s = Some k' -> occurs s t = true -> slookup pairs s = Some (vtext (r s)) /\ has_sort k' (r s)) ->
  exists g, ev (instantiate pairs t) = Some g /\ val g = den I r t /\ gsort k g.
Proof.
  unfold sorted. induction t using atm_ind'; intros k0 E N HP; try discriminate E.
  - cbn [srt] in E. destruct k; try discriminate E.
    + destruct (simple s) eqn:ES; [|discriminate E]. destruct (HP s k0 E) as [L HS]; [cbn; unfold var_name; rewrite (simple_minus s ES), String.eqb_refl; reflexivity|].
      cbn [instantiate den]. rewrite L. unfold var_val. rewrite (simple_minus s ES). destruct k0; destruct HS as (z & ->); cbn [vtext].
      * rewrite kind_num. exists (GN (Q2Qc (inject_Z z)) false). split; [|split; [reflexivity|eexists; reflexivity]]. apply (ev_canon (GN (Q2Qc (inject_Z z)) false)).
      * exists (GB z). split; [|split; [reflexivity|eexists; reflexivity]]. destruct z; reflexivity.
    + destruct (read_number s) as [q|] eqn:ER; [|discriminate E]. destruct (is_int q && String.eqb s (number_str q KInt))%bool eqn:EI; [|discriminate E]. apply andb_prop in EI as [EI ES]. injection E as <-.
      apply String.eqb_eq in ES. subst s. exists (GN q false). split; [apply (ev_canon (GN q false))|]. split; [cbn; unfold numeral; rewrite ER; reflexivity|]. destruct (is_int_inv q EI) as (z & ->). eexists. reflexivity.
    + destruct (String.eqb s "true" || String.eqb s "false")%bool eqn:EB; [|discriminate E]. injection E as <-. apply orb_prop in EB as [EB|EB]; apply String.eqb_eq in EB; subst s.
      * exists (GB true). repeat split. eexists. reflexivity.
      * exists (GB false). repeat split. eexists. reflexivity.
  - rewrite Forall_forall in H.
    assert (D : o = OIte \/ o <> OIte) by (destruct o; auto; right; discriminate). destruct D as [->|D].
    + cbn [srt] in E. destruct l as [|c [|a [|b [|]]]]; try discriminate E.
      destruct (srt _ c) as [kc|] eqn:E1; [|discriminate]. destruct (srt _ a) as [ka|] eqn:E2; [|destruct kc; discriminate]. destruct (srt _ b) as [kb|] eqn:E3; [|destruct kc; discriminate].
      destruct kc; [discriminate E|]. destruct (ssort_eqb ka kb) eqn:EK; [|discriminate E]. apply ssort_eqb_eq in EK as <-. injection E as <-.
      cbn [nz] in N. destruct N as [N1 N2].
      destruct (H c (or_introl eq_refl) SB E1 N1) as (g & G1 & G2 & (bb & ->)).
      { intros s k' V O1. apply HP; [exact V|]. cbn. rewrite O1. reflexivity. }
      cbn [instantiate map]. cbn [ev]. rewrite G1. cbn [den map op_den]. rewrite <- G2. cbn [val as_bool]. rewrite <- G2 in N2. cbn [val as_bool] in N2. destruct bb.
      * apply (H a (or_intror (or_introl eq_refl)) ka E2 N2). intros s k' V O1. apply HP; [exact V|]. cbn. rewrite O1. rewrite !orb_true_r. reflexivity.
      * apply (H b (or_intror (or_intror (or_introl eq_refl))) ka E3 N2). intros s k' V O1. apply HP; [exact V|]. cbn. rewrite O1. rewrite !orb_true_r. reflexivity.
    + destruct (srt_op _ o l k0 D E) as (k' & F & RS). destruct (nz_op I r o l D N) as [NL NZ]. rewrite Forall_forall in F, NL.
      assert (GL : exists gs, mapO ev (map (instantiate pairs) l) = Some gs /\ map val gs = map (den I r) l /\ Forall (gsort k') gs).
      { assert (HP' : forall x, In x l -> forall s k1, var_sort vs s = Some k1 -> occurs s x = true -> slookup pairs s = Some (vtext (r s)) /\ has_sort k1 (r s)).
        { intros x Hx s k1 V O1. apply HP; [exact V|]. cbn. eapply existsb_In; eassumption. }
        clear HP NZ RS E N. induction l as [|x l IH]; [exists []; repeat split; constructor|].
        destruct (H x (or_introl eq_refl) k') as (g & G1 & G2 & G3); [apply F; left; reflexivity|apply NL; left; reflexivity|apply HP'; left; reflexivity|].
        destruct IH as (gs & S1 & S2 & S3); [intros; apply H; auto; right; assumption|intros; apply F; right; assumption|intros; apply NL; right; assumption|intros y Hy; apply HP'; right; exact Hy|].
        exists (g :: gs). cbn [map mapO]. rewrite G1, S1, G2, S2. repeat split. constructor; assumption. }
      destruct GL as (gs & S1 & S2 & S3).
      assert (LE : length gs = length l) by (rewrite <- (map_length val gs), S2; apply map_length).
      destruct (op_sorted o k' gs k0 S3) as (g & G1 & G3).
      { rewrite LE. exact RS. }
      { rewrite S2. destruct o; auto; destruct l as [|x [|y [|]]]; auto. }
      exists g. split; [cbn [instantiate]; rewrite ev_op by exact D; rewrite S1; exact G1|]. split; [|exact G3].
      cbn [den]. rewrite <- S2. symmetry. apply (op_ev_val o gs g I G1).
Qed.

(** ** Clauses *)
Definition pairs_ok (vs : list (string * string)) (r : asg) (pairs : list (string * string)) (t : atm) : Prop :=
  forall s k, var_sort vs s = Some k -> occurs s t = true -> slookup pairs s = Some (vtext (r s)) /\ has_sort k (r s).
Lemma args_ev I vs r pairs args : (forall x, In x args -> (exists k, sorted vs k x) /\ nz I r x) -> (forall x, In x args -> pairs_ok vs r pairs x) ->
  exists gs, mapO ev (map (instantiate pairs) args) = Some gs /\ map canon gs = map vconst (map (den I r) args).
Proof.
  induction args as [|x args IH]; intros H P; [exists []; split; reflexivity|].
  destruct (H x (or_introl eq_refl)) as ((k & S) & N). destruct (ev_inst I r vs pairs x k S N (P x (or_introl eq_refl))) as (g & G1 & G2 & G3).
  destruct IH as (gs & E1 & E2); [intros; apply H; right; assumption|intros; apply P; right; assumption|].
  exists (g :: gs). cbn [map mapO]. rewrite G1, E1. split; [reflexivity|]. rewrite E2, (gsort_canon _ _ G3), G2. reflexivity.
Qed.
Lemma args_letfree I vs r args : args_ok I vs r args -> forallb letfree args = true.
Proof. intros (_ & H). apply forallb_forall. intros x Hx. destruct (H x Hx) as ((k & S) & _). eapply srt_letfree. exact S. Qed.
Lemma fact_args p vs : vs <> [] -> fact_atm (SFact p vs) = A p (map vconst vs).
Proof. destruct vs; [congruence|reflexivity]. Qed.
Lemma map_nonnil {X Y} (f : X -> Y) l : l <> [] -> map f l <> [].
Proof. destruct l; [congruence|discriminate]. Qed.
Lemma atom_inst props I vs r pairs f args : args_ok I vs r args -> (forall x, In x args -> pairs_ok vs r pairs x) ->
  atom_nf props (instantiate pairs (A f args)) = Some (fact_atm (SFact f (map (den I r) args))).
Proof.
  intros (HN & HA) HP. destruct (args_ev I vs r pairs args HA HP) as (gs & E1 & E2). cbn [instantiate atom_nf]. rewrite E1. cbn [option_map]. rewrite E2.
  rewrite fact_args by (apply map_nonnil; exact HN). reflexivity.
Qed.
(** No constants for other symbols than the variables. *)
Definition only_vars (vs pairs : list (string * string)) : Prop := forall s, slookup pairs s <> None -> In s (map fst vs).
Lemma prop_inst props vs pairs p : prop_ok props vs p -> only_vars vs pairs -> instantiate pairs (T p KVar) = T p KVar /\ atom_nf props (T p KVar) = Some (T p KVar) /\ letfree (T p KVar) = true.
Proof.
  intros (H1 & H2 & H3) HO. cbn. destruct (slookup pairs p) eqn:E; [exfalso; apply H3, HO; congruence|]. split; [reflexivity|]. rewrite H2. rewrite (proj2 (sin_In p props) H1). split; reflexivity.
Qed.
Lemma guard_not_atom props g pairs vs r : sorted vs SB g -> pairs_ok vs r pairs g -> atom_nf props (instantiate pairs g) = None.
Proof.
  unfold sorted. intros S P. destruct g as [s k|o l|f l|vs' c|ns ds b]; try discriminate S; [|reflexivity]. destruct k; try discriminate S; try reflexivity.
  cbn [srt] in S. destruct (simple s) eqn:ES; [|discriminate S]. destruct (P s SB S) as (L & (b & HB)); [cbn; unfold var_name; rewrite (simple_minus s ES), String.eqb_refl; reflexivity|].
  cbn [instantiate]. rewrite L, HB. destruct b; reflexivity.
Qed.
Lemma needs_nf props I vs r pairs l fs : needs props I vs r l fs -> only_vars vs pairs -> (forall x, In x l -> pairs_ok vs r pairs x) ->
  exists ls, mapO (conj_nf props) (map (instantiate pairs) l) = Some ls /\ concat ls = map fact_atm fs.
Proof.
  intros H HO. induction H as [|f args l fs HA _ IH|p l fs HA _ IH|g l fs S N D _ IH]; intros P.
  - exists []. split; reflexivity.
  - destruct IH as (ls & E1 & E2); [intros; apply P; right; assumption|].
    assert (EA : atom_nf props (instantiate pairs (A f args)) = Some (fact_atm (SFact f (map (den I r) args)))).
    { apply (atom_inst props I vs r pairs f args HA). intros x Hx s k V O1. apply (P (A f args) (or_introl eq_refl) s k V). cbn. eapply existsb_In; eassumption. }
    exists ([fact_atm (SFact f (map (den I r) args))] :: ls). cbn [map mapO]. unfold conj_nf at 1. rewrite EA, E1. split; [reflexivity|]. cbn [concat app]. rewrite E2. reflexivity.
  - destruct IH as (ls & E1 & E2); [intros; apply P; right; assumption|]. destruct (prop_inst props vs pairs p HA HO) as (I1 & I2 & _).
    exists ([T p KVar] :: ls). cbn [map mapO]. rewrite I1. unfold conj_nf at 1. rewrite I2, E1. split; [reflexivity|]. cbn [concat app]. rewrite E2. reflexivity.
  - destruct IH as (ls & E1 & E2); [intros; apply P; right; assumption|].
    destruct (ev_inst I r vs pairs g SB S N (P g (or_introl eq_refl))) as (v & G1 & G2 & (b & ->)).
    rewrite D in G2. cbn in G2. injection G2 as ->. exists ([] :: ls). cbn [map mapO]. unfold conj_nf at 1. rewrite (guard_not_atom props g pairs vs r S (P g (or_introl eq_refl))), G1, E1. split; [reflexivity|exact E2].
Qed.
Lemma needs_letfree props I vs r l fs : needs props I vs r l fs -> forallb letfree l = true.
Proof.
  induction 1 as [|f args l fs HA _ IH|p l fs HA _ IH|g l fs S N D _ IH]; cbn [forallb]; [reflexivity|..]; rewrite IH, andb_true_r.
  - cbn [letfree]. eapply args_letfree. exact HA.
  - apply HA.
  - eapply srt_letfree. exact S.
Qed.
Lemma body_nf props I vs r pairs L fs : needs props I vs r (conjuncts L) fs -> only_vars vs pairs -> pairs_ok vs r pairs L ->
  body_facts props (instantiate pairs L) = Some (map fact_atm fs) /\ letfree L = true.
Proof.
  intros H HO P.
  assert (PL : forall x, In x (conjuncts L) -> pairs_ok vs r pairs x).
  { intros x Hx s k V O1. apply (P s k V). destruct L as [| [] | | |]; cbn [conjuncts] in Hx; try (destruct Hx as [<-|[]]; exact O1). cbn. eapply existsb_In; eassumption. }
  destruct (needs_nf props I vs r pairs _ fs H HO PL) as (ls & E1 & E2). pose proof (needs_letfree _ _ _ _ _ _ H) as F.
  assert (D : (exists l, L = O OAnd l) \/ (conjuncts L = [L] /\ forall l, instantiate pairs L <> O OAnd l)).
  { destruct L as [s k|o l|f l|vs' c|ns ds b].
    - right. split; [reflexivity|]. intros l. cbn. destruct k; try discriminate. destruct (slookup pairs s); discriminate.
    - destruct o; try (right; split; [reflexivity|intros l0; discriminate]). left. exists l. reflexivity.
    - right. split; [reflexivity|]. discriminate.
    - cbn in F. discriminate F.
    - right. split; [reflexivity|]. discriminate. }
  destruct D as [(l & ->)|(D1 & D2)].
  - cbn [conjuncts] in *. split; [|exact F]. cbn [instantiate body_facts]. rewrite E1. cbn [option_map]. rewrite E2. reflexivity.
  - rewrite D1 in E1, F. cbn in F. rewrite andb_true_r in F. split; [|exact F]. cbn [map mapO] in E1. destruct (conj_nf props (instantiate pairs L)) as [x|] eqn:EC; [|discriminate E1]. injection E1 as <-. cbn in E2. rewrite app_nil_r in E2. subst x.
    unfold body_facts. destruct (instantiate pairs L) as [|o l| | |] eqn:EI; try exact EC. destruct o; try exact EC. exfalso. apply (D2 l). reflexivity.
Qed.
Lemma head_inst props I vs r pairs R f : head_is props I vs r R f -> only_vars vs pairs -> pairs_ok vs r pairs R ->
  head_nf props (instantiate pairs R) = Some (fact_atm f) /\ letfree R = true.
Proof.
  intros H HO P. inversion H; subst.
  - split; reflexivity.
  - split; [|cbn; eapply args_letfree; eassumption]. change (atom_nf props (instantiate pairs (A f0 args)) = Some (fact_atm (SFact f0 (map (den I r) args)))). apply (atom_inst props I vs r pairs f0 args H0).
    intros x Hx s k V O1. apply (P s k V). cbn. eapply existsb_In; eassumption.
  - destruct (prop_inst props vs pairs p H0 HO) as (I1 & I2 & I3). rewrite I1. split; [exact I2|exact I3].
Qed.
Lemma slookup_fst {X} (l : list (string * X)) s x : slookup l s = Some x -> In s (map fst l).
Proof. intros E. apply slookup_In in E. apply in_map_iff. exists (s, x). auto. Qed.
Lemma pairs_facts vs r b : vars_ok vs r -> let pairs := pairs_of (All vs b) r in
  (forall x, In x vs -> occurs (fst x) b = true -> slookup pairs (fst x) = Some (vtext (r (fst x)))) /\ (forall s, slookup pairs s <> None -> In s (map fst vs) /\ occurs s b = true).
Proof.
  intros (_ & ND & _) pairs. unfold pairs. cbn [pairs_of]. clear pairs. split.
  - intros x Hx Ho. apply slookup_NoDup.
    + rewrite map_map. cbn [fst]. clear -ND. induction vs as [|y vs IH]; cbn; [constructor|]. inversion ND; subst. destruct (occurs (fst y) b); cbn; [|auto]. constructor; [|auto].
      intros Hi. apply H1. apply in_map_iff in Hi as (z & <- & Hz). apply filter_In in Hz as [Hz _]. apply in_map. exact Hz.
    + apply in_map_iff. exists x. split; [reflexivity|]. apply filter_In. split; assumption.
  - intros s E. destruct (slookup _ s) as [v|] eqn:EL; [|congruence]. apply slookup_fst in EL. rewrite map_map in EL. cbn [fst] in EL. apply in_map_iff in EL as (x & <- & Hx). apply filter_In in Hx as [Hx Ho]. split; [apply in_map; exact Hx|exact Ho].
Qed.
Lemma var_sort_In vs r s k : vars_ok vs r -> var_sort vs s = Some k -> (exists n, In (s, n) vs) /\ has_sort k (r s).
Proof.
  intros (_ & _ & H) E. unfold var_sort in E. destruct (slookup vs s) as [n|] eqn:EL; [|discriminate E]. apply slookup_In in EL. split; [exists n; exact EL|].
  destruct (H _ EL) as (k' & E1 & E2). cbn [fst snd] in *. subst n. destruct k'; cbn in E; injection E as <-; exact E2.
Qed.
Lemma pairs_ok_of vs r b t : vars_ok vs r -> (forall s, occurs s t = true -> occurs s b = true) -> pairs_ok vs r (pairs_of (All vs b) r) t.
Proof.
  intros HV HS s k V O1. destruct (var_sort_In vs r s k HV V) as ((n & Hn) & HK). split; [|exact HK].
  apply (proj1 (pairs_facts vs r b HV) (s, n) Hn). cbn. apply HS. exact O1.
Qed.
Lemma inst_ok_of vs r b : vars_ok vs r -> letfree b = true -> inst_ok vs b (pairs_of (All vs b) r).
Proof.
  intros HV HF. destruct (pairs_facts vs r b HV) as (P1 & P2). constructor.
  - exact HF.
  - apply HV.
  - intros x Hx Ho. exists (vtext (r (fst x))). split; [apply P1; assumption|]. destruct HV as (_ & _ & HV). destruct (HV x Hx) as (k & -> & HK). destruct k; destruct HK as (z & ->); cbn [vtext].
    + split; [exists z; apply read_number_str|left; apply kind_num].
    + destruct z; (split; [cbn; auto|reflexivity]).
  - intros s text E. apply P2. congruence.
Qed.
Theorem sclause_inst props I r t fs f : sclause props I r t fs f -> clause_inst props t (pairs_of t r) (map fact_atm fs) (fact_atm f).
Proof.
  intros H. inversion H; subst; clear H.
  - assert (OV : only_vars vs (pairs_of (All vs (O OImp [L; R])) r)).
    { intros s E. apply (proj2 (pairs_facts vs r _ H0) s E). }
    destruct (body_nf props I vs r _ L fs H1 OV) as (B1 & B2).
    { apply pairs_ok_of; [exact H0|]. intros s E. cbn. rewrite E. reflexivity. }
    destruct (head_inst props I vs r _ R f H2 OV) as (B3 & B4).
    { apply pairs_ok_of; [exact H0|]. intros s E. cbn. rewrite E. apply orb_true_iff. right. reflexivity. }
    apply ci_rule; [apply H0| |exact B1|exact B3]. apply inst_ok_of; [exact H0|]. cbn. rewrite B2, B4. reflexivity.
  - apply ci_fact_q; [apply H0| |].
    + apply inst_ok_of; [exact H0|]. cbn. eapply args_letfree. eassumption.
    + change (atom_nf props (instantiate (pairs_of (All vs (A p args)) r) (A p args)) = Some (fact_atm (SFact p (map (den I r) args)))). apply (atom_inst props I vs r _ p args H1).
      intros x Hx. apply pairs_ok_of; [exact H0|]. intros s E. cbn. eapply existsb_In; eassumption.
  - cbn [pairs_of map]. assert (HF : letfree (A p args) = true) by (cbn; eapply args_letfree; eassumption). apply ci_fact; [exact HF|].
    rewrite <- (instantiate_nil (A p args) HF). change (atom_nf props (instantiate [] (A p args)) = Some (fact_atm (SFact p (map (den I r) args)))). apply (atom_inst props I [] r [] p args H0).
    intros x Hx s k V. discriminate V.
Qed.

(** ** The whole proof *)
(** The constants of a step. *)
Definition inst_of_vals (ts : list atm) (d : list cstep) (vals : nat -> asg) (i : nat) : option (list (string * string)) :=
  match nth_error d i with Some c => match nth_error ts (c_clause c) with Some t => Some (pairs_of t (vals i)) | None => None end | None => None end.
Lemma refutation_deriv props I ts d vals facts : refutation props I ts d vals facts -> deriv_ok props ts d (inst_of_vals ts d vals) (fun i => fact_atm (facts i)).
Proof.
  intros [H1 H2 H3 _]. constructor; [exact H1| |exact H3].
  intros i c E HP. destruct (H2 i c E HP) as (t & fs & T1 & T2 & T3). exists t, (pairs_of t (vals i)), (map fact_atm fs). split; [exact T1|].
  split; [unfold inst_of_vals; rewrite E, T1; reflexivity|]. split; [eapply sclause_inst; exact T2|]. intros HI. destruct (T3 HI) as (L & INC). rewrite map_length. split; [exact L|].
  rewrite <- (map_map facts fact_atm). intros x Hx. apply in_map_iff in Hx as (y & <- & Hy). apply in_map, INC, Hy.
Qed.
Theorem build_sorted props asserts ts fuel I d vals facts :
  Forall (fun a => plain_top a = true /\ lets a <= fuel) asserts -> mapO (elim_lets fuel) asserts = Some ts -> refutation props I ts d vals facts ->
  exists ss, build fuel asserts d (inst_of_vals ts d vals) = Some ss /\ is_proof props asserts ss.
Proof.
  intros HA HT HR. pose proof (refutation_deriv _ _ _ _ _ _ HR) as HD. destruct HR as [_ R2 _ (c & Hd & Ec & Hc & Hf)].
  apply (build_ok props asserts ts fuel d (inst_of_vals ts d vals) (fun i => fact_atm (facts i))).
  - apply mapO_Forall2 in HT. clear -HA HT. induction HT as [|a t l ts E _ IH]; [constructor|]. inversion HA; subst. destruct H1 as (P1 & P2). constructor; [|auto].
    split; [exact E|]. destruct (elim_lets_ok a fuel P1 P2) as (t' & E' & _ & S). rewrite E in E'. injection E' as <-. exact S.
  - intros ->. cbn in HT. injection HT as <-. destruct (R2 _ _ Ec Hc) as (t & fs & T1 & _). destruct (c_clause c); discriminate T1.
  - exact HD.
  - exact Hd.
  - intros c' E. rewrite Ec in E. injection E as <-. exact Hc.
  - cbn. rewrite Hf. reflexivity.
Qed.
