(** * Simplification, term by term. *)
From Verif Require Import Names AletheModel AletheSpec AletheSound AletheNum AletheSimp.
Open Scope string_scope.
Open Scope list_scope.
Open Scope nat_scope.

Section Simp.
Variable props : list string.
Variable asserts : list atm.
Notation inv := (inv props asserts).
Notation simp_ok := (simp_ok props asserts).
Notation direct_ok := (direct_ok props asserts).

Lemma simp_T s k : simp_ok (T s k) (T s k).
Proof. split; [reflexivity|]. split; [reflexivity|]. intros name st e cs HI _. exists None, st, e, cs. split; [reflexivity|]. split; [exact HI|]. split; [apply grows_refl|auto]. Qed.

Lemma simplify_A f l name : simplify (A f l) name =
  (rs <- simp_all l ;; if some_res rs then (let s := A f (new_args l rs) in _ <- process (A f l) name s rs ;; k <- last_step ;; ret (Some (s, k))) else ret None).
Proof. reflexivity. Qed.
Lemma simplify_O o l name : o <> OIte -> simplify (O o l) name =
  (rs <- simp_all l ;;
   if some_res rs then
     (let l' := new_args l rs in
      n <- process (O o l) name (O o l') rs ;; k1 <- last_step ;;
      r <- simplify_direct o l' ;; k2 <- last_step ;;
      _ <- record [Eql (Name n) (Raw r)] RTrans [k1; k2] ;; k <- last_step ;; ret (Some (r, k)))
   else r <- simplify_direct o l ;; k <- last_step ;; ret (Some (r, k))).
Proof. destruct o; intros N; try reflexivity. congruence. Qed.

Lemma last_pos s e cs c : inv s e cs -> nth_error cs (p_cur s - 1) = Some c -> S (p_cur s - 1) = p_cur s.
Proof. intros (_ & L & _) E. assert (p_cur s - 1 < length cs) by (apply nth_error_Some; congruence). lia. Qed.

Lemma simp_app f l l' : Forall2 simp_ok l l' -> simp_ok (A f l) (A f l').
Proof.
  intros F. split; [reflexivity|]. split; [reflexivity|]. intros name s e cs HI HN.
  destruct (simp_all_ok _ _ _ _ F s e cs HI) as (rs & s1 & e1 & cs1 & ps & E1 & I1 & G1 & N1 & P1 & F1 & S1).
  unfold simp_at. rewrite simplify_A. unfold bnd at 1. rewrite E1. destruct (some_res rs) eqn:ES.
  - destruct (process_ok props asserts (A f l) (A f l') name rs ps s1 e1 cs1 I1) as (n & s2 & e2 & cs2 & E2 & I2 & G2 & _ & R2 & C2).
    { intros n En. apply G1. auto. }
    { exact P1. }
    { cbn. right. eauto. }
    exists (Some (A f l', p_cur s2 - 1)), s2, e2, cs2. unfold bnd, last_step, ret. rewrite N1, E2. split; [reflexivity|]. split; [exact I2|]. split; [eapply grows_trans; eassumption|]. repeat split; auto. eapply last_pos; eassumption.
  - destruct (S1 eq_refl) as (-> & -> & -> & ->). exists None, s, e, cs. split; [reflexivity|]. split; [exact I1|]. split; [apply grows_refl|auto].
Qed.

Lemma simp_op o l l' x : o <> OIte -> Forall2 simp_ok l l' -> direct_ok o l' x -> simp_ok (O o l) x.
Proof.
  intros HO F (Hx & HD). split; [reflexivity|]. split; [exact Hx|]. intros name s e cs HI HN.
  destruct (simp_all_ok _ _ _ _ F s e cs HI) as (rs & s1 & e1 & cs1 & ps & E1 & I1 & G1 & N1 & P1 & F1 & S1).
  unfold simp_at. rewrite simplify_O by assumption. unfold bnd at 1. rewrite E1. destruct (some_res rs) eqn:ES.
  - destruct (process_ok props asserts (O o l) (O o l') name rs ps s1 e1 cs1 I1) as (n & s2 & e2 & cs2 & E2 & I2 & G2 & N2 & R2 & C2).
    { intros n En. apply G1. auto. }
    { exact P1. }
    { cbn. left. eauto. }
    destruct (HD s2 e2 cs2 I2) as (s3 & cs3 & E3 & I3 & G3 & C3 & R3).
    destruct (record_plain props asserts s3 e2 cs3 [Eql (Name n) (Raw x)] RTrans [p_cur s2 - 1; p_cur s3 - 1] [] [[EEq (O o l) (O o l')]; [EEq (O o l') x]] [EEq (O o l) x] I3) as (s4 & E4 & I4 & C4 & _ & _ & G4).
    { reflexivity. }
    { cbn. rewrite N2. reflexivity. }
    { cbn [mapO]. rewrite (grows_nth _ _ _ _ _ _ G3 R2), R3. reflexivity. }
    { cbn. exists (O o l), x. split; [reflexivity|]. constructor; try reflexivity. constructor; [reflexivity|exact Hx]. }
    exists (Some (x, p_cur s4 - 1)), s4, e2, (cs3 ++ [[EEq (O o l) x]]). unfold bnd, last_step, ret, record. rewrite N1, E2, E3, E4. split; [reflexivity|]. split; [exact I4|].
    split; [eapply grows_trans; [eapply grows_trans; [eapply grows_trans|]|]; eassumption|].
    repeat split; auto; [|lia]. replace (p_cur s4 - 1) with (p_cur s3) by lia. apply nth_last. apply I3.
  - destruct (S1 eq_refl) as (-> & -> & -> & ->). destruct (HD s e cs I1) as (s3 & cs3 & E3 & I3 & G3 & C3 & R3).
    exists (Some (x, p_cur s3 - 1)), s3, e, cs3. unfold bnd, last_step, ret. rewrite E3. split; [reflexivity|]. split; [exact I3|].
    split; [exact G3|]. repeat split; auto. lia.
Qed.

Lemma simp_ite c a b v x : simp_ok c (tbool v) -> simp_ok (if v then a else b) x -> simp_ok (O OIte [c; a; b]) x.
Proof.
  intros (Hc & Hv & HC) (Hbr & Hx & HB). split; [reflexivity|]. split; [exact Hx|]. intros name s e cs HI HN.
  destruct (HC None s e cs HI) as (res & s1 & e1 & cs1 & E1 & I1 & G1 & R1); [discriminate|].
  set (t := O OIte [c; a; b]) in *. set (ite' := O OIte [tbool v; a; b]). set (branch := if v then a else b) in *.
  assert (Ec : match res with Some (y, _) => y | None => c end = tbool v) by (destruct res as [[y k]|]; [destruct R1 as (-> & _); reflexivity|destruct R1 as (<- & _); reflexivity]).
  (* the condition *)
  assert (exists s2 cs2 ps pcs, (match res with
                | Some (_, k) => _ <- record [Eql (Raw t) (Raw ite')] RCong [k] ;; k' <- last_step ;; ret [k']
                | None => ret []
                end) s1 = Some (ps, s2) /\ inv s2 e1 cs2 /\ grows e1 cs1 e1 cs2 /\ mapO (nth_error cs2) ps = Some pcs /\
                match res with Some _ => pcs = [[EEq t ite']] | None => pcs = [] /\ ite' = t end) as (s2 & cs2 & ps & pcs & E2 & I2 & G2 & P2 & R2).
  { destruct res as [[y k]|].
    - destruct R1 as (-> & R1 & _).
      destruct (record_plain props asserts s1 e1 cs1 [Eql (Raw t) (Raw ite')] RCong [k] [] [[EEq c (tbool v)]] [EEq t ite'] I1) as (s2 & E2 & I2 & C2 & _ & _ & G2); [reflexivity|reflexivity|cbn; rewrite R1; reflexivity| |].
      { cbn. left. exists OIte, [c; a; b], [tbool v; a; b]. split; [reflexivity|]. constructor; [right; repeat split; auto; left; reflexivity|]. constructor; [left; reflexivity|]. constructor; [left; reflexivity|constructor]. }
      exists s2, (cs1 ++ [[EEq t ite']]), [p_cur s2 - 1], [[EEq t ite']]. unfold bnd, record, last_step, ret. rewrite E2. split; [reflexivity|]. split; [exact I2|]. split; [exact G2|]. split; [|reflexivity].
      cbn [mapO]. replace (p_cur s2 - 1) with (p_cur s1) by lia. rewrite nth_last by (apply I1). reflexivity.
    - exists s1, cs1, [], []. split; [reflexivity|]. split; [exact I1|]. split; [apply grows_refl|]. split; [reflexivity|]. split; [reflexivity|]. unfold ite', t. destruct R1 as (-> & _). reflexivity. }
  (* the branch *)
  assert (S3 : sem_eq props ite' branch).
  { intros I r _. unfold ite', branch. destruct v; reflexivity. }
  destruct (eq_step props asserts s2 e1 cs2 RIteSimplify OIte [tbool v; a; b] branch I2 eq_refl Hbr S3) as (s3 & E3 & I3 & C3 & G3). fold ite' in E3, I3, G3.
  destruct (HB None s3 e1 _ I3) as (br & s4 & e4 & cs4 & E4 & I4 & G4 & R4); [discriminate|].
  set (simplified := match br with Some (y, _) => y | None => branch end).
  assert (Es : simplified = x) by (unfold simplified; destruct br as [[y k]|]; [destruct R4 as (-> & _); reflexivity|destruct R4 as (<- & _); reflexivity]).
  set (ps' := ps ++ [p_cur s3 - 1] ++ match br with Some (_, k) => [k] | None => [] end).
  assert (K1 : nth_error cs4 (p_cur s3 - 1) = Some [EEq ite' branch]).
  { eapply grows_nth; [exact G4|]. replace (p_cur s3 - 1) with (p_cur s2) by lia. apply nth_last. apply I2. }
  assert (Hpcs' : mapO (nth_error cs4) ps = Some pcs).
  { eapply grows_mapO; [|exact P2]. eapply grows_trans; eassumption. }
  assert (MA : forall (f : nat -> option (list elit)) (l1 l2 : list nat) r1 r2, mapO f l1 = Some r1 -> mapO f l2 = Some r2 -> mapO f (l1 ++ l2) = Some (r1 ++ r2)).
  { intros f l1 l2 r1 r2 M1 M2. revert r1 M1. induction l1 as [|y l1 IH]; cbn; intros r1 M1; [injection M1 as <-; exact M2|]. destruct (f y); [|discriminate]. destruct (mapO f l1); [|discriminate]. injection M1 as <-. rewrite (IH _ eq_refl). reflexivity. }
  assert (BR : exists bcs, mapO (nth_error cs4) (match br with Some (_, k) => [k] | None => [] end) = Some bcs /\ match br with Some _ => bcs = [[EEq branch x]] | None => bcs = [] /\ branch = x end).
  { destruct br as [[y k]|]; [destruct R4 as (-> & R4 & _); exists [[EEq branch x]]; cbn; rewrite R4; auto|exists []; split; [reflexivity|]; split; [reflexivity|]; symmetry; apply R4]. }
  destruct BR as (bcs & B1 & B2).
  assert (PS : mapO (nth_error cs4) ps' = Some (pcs ++ [[EEq ite' branch]] ++ bcs)).
  { unfold ps'. apply MA; [exact Hpcs'|]. apply MA; [cbn; rewrite K1; reflexivity|exact B1]. }
  assert (CH : eq_chain (pcs ++ [[EEq ite' branch]] ++ bcs) t x).
  { assert (CH1 : eq_chain ([EEq ite' branch] :: bcs) ite' x).
    { destruct br as [?|]; [subst bcs; constructor; auto; constructor; auto|destruct B2 as (-> & <-); constructor; auto]. }
    destruct res as [?|]; [subst pcs; cbn; constructor; auto|destruct R2 as (-> & <-); exact CH1]. }
  assert (EM : forall m, simplify t m s = (_ <- match res, br with None, None => ret tt | _, _ => record [Eql (Raw t) (Raw simplified)] RTrans ps' end ;; k <- last_step ;; ret (Some (simplified, k))) s4).
  { intros m. unfold t at 1. cbn [simplify]. fold t. unfold bnd at 1. rewrite E1. cbv zeta. rewrite Ec. fold ite'.
    unfold bnd at 1. rewrite E2. unfold bnd at 1.
    replace (match tbool v with T s0 KBool => if String.eqb s0 "true" then Some true else if String.eqb s0 "false" then Some false else None | _ => None end) with (Some v) by (destruct v; reflexivity).
    cbn [lift]. fold branch. unfold bnd at 1. rewrite E3. unfold bnd at 1. cbn [last_step]. unfold bnd at 1.
    replace ((if v then simplify a None else simplify b None) s3) with (simplify branch None s3) by (unfold branch; destruct v; reflexivity).
    rewrite E4. fold simplified. fold ps'. reflexivity. }
  unfold simp_at. rewrite EM. rewrite Es.
  assert (GA : grows e cs e4 cs4).
  { eapply grows_trans; [exact G1|]. eapply grows_trans; [exact G2|]. eapply grows_trans; eassumption. }
  assert (FIN : match res, br with None, None => True | _, _ => False end \/ (match res, br with None, None => ret tt | _, _ => record [Eql (Raw t) (Raw x)] RTrans ps' end) = record [Eql (Raw t) (Raw x)] RTrans ps').
  { destruct res, br; auto. }
  destruct FIN as [FIN| ->].
  - destruct res as [?|]; [destruct FIN|]. destruct br as [?|]; [destruct FIN|]. destruct R2 as (-> & R2). destruct B2 as (_ & B2).
    destruct R4 as (_ & -> & -> & ->). rewrite <- B2. exists (Some (branch, p_cur s3 - 1)), s3, e1, (cs2 ++ [[EEq ite' branch]]). unfold bnd, last_step, ret. split; [reflexivity|]. split; [exact I3|].
    split; [exact GA|]. split; [reflexivity|]. split; [rewrite K1, R2; reflexivity|lia].
  - destruct (trans_ok props asserts s4 e4 cs4 t x ps' _ I4 PS CH) as (s5 & E5 & I5 & C5 & G5).
    exists (Some (x, p_cur s5 - 1)), s5, e4, (cs4 ++ [[EEq t x]]). unfold bnd, last_step, ret. rewrite E5. split; [reflexivity|]. split; [exact I5|]. split; [eapply grows_trans; eassumption|].
    repeat split; [|lia]. replace (p_cur s5 - 1) with (p_cur s4) by lia. apply nth_last. apply I4.
Qed.

(** A term with a value is simplified to its constant. *)
Theorem ev_simp : forall t v, ev t = Some v -> simp_ok t (canon v).
Proof.
  induction t using atm_ind'; intros v E; try discriminate E.
  - assert (canon v = T s k) as ->; [|apply simp_T].
    destruct k; cbn [ev] in E; try discriminate E.
    + destruct (read_number s) as [q|] eqn:ER; [|discriminate E]. destruct (String.eqb_spec s (number_str q KReal)); [|discriminate E]. injection E as <-. cbn. unfold tnum. congruence.
    + destruct (read_number s) as [q|] eqn:ER; [|discriminate E]. destruct (String.eqb_spec s (number_str q KInt)); [|discriminate E]. injection E as <-. cbn. unfold tnum. congruence.
    + destruct (String.eqb_spec s "true"); [injection E as <-; subst; reflexivity|]. destruct (String.eqb_spec s "false"); [injection E as <-; subst; reflexivity|discriminate E].
  - rewrite Forall_forall in H. apply ev_op_cases in E as [(-> & c & a & b & -> & C)|(HO & vs & Ev & Eo)].
    + assert (exists w, ev c = Some (GB w) /\ ev (if w then a else b) = Some v) as (w & Ec & Eb) by (destruct C as [(Ec & Ea)|(Ec & Eb)]; [exists true|exists false]; auto).
      apply (simp_ite c a b w); [apply (H c (or_introl eq_refl) (GB w) Ec)|]. apply H; [destruct w; cbn; auto|exact Eb].
    + apply (simp_op o l (map canon vs)); [exact HO| |apply eval_direct; exact Eo].
      clear Eo. induction Ev as [|x y l vs Hx _ IH]; cbn; constructor; [apply H; [left; reflexivity|exact Hx]|apply IH; intros; apply H; [right; assumption|assumption]].
Qed.
End Simp.
