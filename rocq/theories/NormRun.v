(** * Normalization of a whole system. *)
From Verif Require Import Syntax Solver KTo1Model Graph GraphOps GraphOpsProofs GraphSem ChcSystem Names SimpleTransModel MergeModel MergeProofs FormulaProofs3 LinearModel LinearProofs NormModel NormProofs.
Open Scope list_scope.
Open Scope nat_scope.

(** ** Well-formed input *)
Definition clause_vars (c : clause) : list var := vars (cfla c) ++ concat (map (fun a => concat (map vars (aargs a))) (chead c :: cbody c)).
Record clause_ok (sig : sym -> list sort) (c : clause) : Prop := {
  co_typed : forall a, In a (chead c :: cbody c) -> map typed (aargs a) = map Some (sig (asym a));
  co_head : asym (chead c) <> entry;
  co_body : forall a, In a (cbody c) -> asym a <> entry /\ asym a <> exit;
  co_names : forall v, In v (clause_vars c) -> ~ reserved v
}.
Lemma atom_user sig c a t v : clause_ok sig c -> In a (chead c :: cbody c) -> In t (aargs a) -> In v (vars t) -> ~ reserved v.
Proof.
  intros H Ha Ht Hv. apply (co_names _ _ H). unfold clause_vars. apply in_app_iff. right. apply in_concat. exists (concat (map vars (aargs a))). split.
  - apply in_map_iff. exists a. auto.
  - apply in_concat. exists (vars t). split; [apply in_map, Ht|exact Hv].
Qed.

(** ** States *)
Section Run.
Variable sig : sym -> list sort.
Hypothesis Sentry : sig entry = [].
Hypothesis Sexit : sig exit = [].

Record ninv (st : nst) : Prop := {
  ni_entry : rlookup (nreps st) entry = Some [];
  ni_exit : rlookup (nreps st) exit = Some [];
  ni_x : forall p x v, rlookup (nreps st) p = Some x -> In v x -> exists n s, n < ncount st /\ v = xvar n s;
  ni_nodup : forall p x, rlookup (nreps st) p = Some x -> NoDup x;
  ni_disj : forall p q x y v, rlookup (nreps st) p = Some x -> rlookup (nreps st) q = Some y -> In v x -> In v y -> p = q;
  ni_sort : forall p x, rlookup (nreps st) p = Some x -> map vsort x = sig p
}.
Definition ext (st st' : nst) : Prop := (forall p x, rlookup (nreps st) p = Some x -> rlookup (nreps st') p = Some x) /\ ncount st <= ncount st'.
Lemma ext_refl st : ext st st. Proof. split; auto. Qed.
Lemma ext_trans a b c : ext a b -> ext b c -> ext a c.
Proof. intros [A1 A2] [B1 B2]. split; [auto|lia]. Qed.
Lemma ext_rep st st' p : ext st st' -> rlookup (nreps st) p <> None -> rep st' p = rep st p.
Proof. intros [E _] H. unfold rep. destruct (rlookup (nreps st) p) as [x|] eqn:X; [|congruence]. rewrite (E _ _ X). reflexivity. Qed.

Lemma xvars_in n ss v : In v (xvars n ss) -> exists k s, n <= k < n + length ss /\ v = xvar k s.
Proof.
  revert n. induction ss as [|s ss IH]; intros n H; [destruct H|]. cbn in H. destruct H as [<-|H].
  - exists n, s. cbn. split; [lia|reflexivity].
  - destruct (IH _ H) as [k [s' [H1 H2]]]. exists k, s'. cbn. split; [lia|exact H2].
Qed.
Lemma xvars_nodup ss : forall n, NoDup (xvars n ss).
Proof.
  induction ss as [|s ss IH]; intros n; cbn; constructor; [|apply IH]. intros H. apply xvars_in in H as [k [s' [H1 H2]]]. apply xvar_inj in H2. lia.
Qed.
Lemma xvars_sort ss : forall n, map vsort (xvars n ss) = ss.
Proof. induction ss as [|s ss IH]; intros n; cbn; [reflexivity|]. rewrite IH. reflexivity. Qed.

Definition typed_atom (a : atom) : Prop := map typed (aargs a) = map Some (sig (asym a)).
Lemma typed_sorts a : typed_atom a -> map sort_of_term (aargs a) = sig (asym a).
Proof.
  unfold typed_atom. revert a. intros [p l]. cbn. generalize (sig p). intros ss. revert ss. induction l as [|t l IH]; intros [|s ss] H; cbn in *; try discriminate; [reflexivity|].
  injection H as H1 H2. unfold sort_of_term. rewrite H1. f_equal. apply IH, H2.
Qed.
Lemma typed_length a : typed_atom a -> length (aargs a) = length (sig (asym a)).
Proof. intros H. apply (f_equal (@length _)) in H. rewrite !map_length in H. exact H. Qed.

Lemma ensure_ok st a : ninv st -> typed_atom a -> ninv (ensure st a) /\ ext st (ensure st a) /\ rlookup (nreps (ensure st a)) (asym a) <> None.
Proof.
  intros I T. unfold ensure. destruct (rlookup (nreps st) (asym a)) as [x|] eqn:E; [split; [exact I|split; [apply ext_refl|congruence]]|].
  set (x := xvars (ncount st) (map sort_of_term (aargs a))).
  assert (L : forall p, rlookup ((asym a, x) :: nreps st) p = if Nat.eqb p (asym a) then Some x else rlookup (nreps st) p) by reflexivity.
  assert (Hx : forall v, In v x -> exists n s, ncount st <= n < ncount st + length (aargs a) /\ v = xvar n s).
  { intros v Hv. apply xvars_in in Hv as [k [s [H1 H2]]]. rewrite map_length in H1. eauto. }
  assert (Ho : forall p y v, rlookup (nreps st) p = Some y -> In v y -> ~ In v x).
  { intros p y v H1 H2 H3. destruct (ni_x st I p y v H1 H2) as [n [s [K1 ->]]]. destruct (Hx _ H3) as [k [s' [K2 K3]]]. apply xvar_inj in K3. lia. }
  split; [|split].
  - constructor; cbn [nreps ncount].
    + rewrite L. destruct (Nat.eqb_spec entry (asym a)) as [X|X]; [rewrite <- X, (ni_entry st I) in E; discriminate|apply (ni_entry st I)].
    + rewrite L. destruct (Nat.eqb_spec exit (asym a)) as [X|X]; [rewrite <- X, (ni_exit st I) in E; discriminate|apply (ni_exit st I)].
    + intros p y v. rewrite L. destruct (Nat.eqb_spec p (asym a)) as [X|X]; intros H Hv.
      * injection H as <-. destruct (Hx v Hv) as [n [s [K1 K2]]]. exists n, s. split; [lia|exact K2].
      * destruct (ni_x st I p y v H Hv) as [n [s [K1 K2]]]. exists n, s. split; [lia|exact K2].
    + intros p y. rewrite L. destruct (Nat.eqb_spec p (asym a)) as [X|X]; intros H; [injection H as <-; apply xvars_nodup|apply (ni_nodup st I p y H)].
    + intros p q y z v. rewrite !L. destruct (Nat.eqb_spec p (asym a)) as [X|X], (Nat.eqb_spec q (asym a)) as [Y|Y]; intros H1 H2 H3 H4; [congruence| | |].
      * injection H1 as <-. exfalso. eapply Ho; eassumption.
      * injection H2 as <-. exfalso. eapply Ho; eassumption.
      * eapply (ni_disj st I); eassumption.
    + intros p y. rewrite L. destruct (Nat.eqb_spec p (asym a)) as [->|X]; intros H; [injection H as <-; unfold x; rewrite xvars_sort; apply typed_sorts, T|apply (ni_sort st I p y H)].
  - split; cbn [nreps ncount]; [|lia]. intros p y H. rewrite L. destruct (Nat.eqb_spec p (asym a)) as [->|X]; [congruence|exact H].
  - cbn [nreps]. rewrite L, Nat.eqb_refl. discriminate.
Qed.

(** The equalities in terms of the final representation. *)
Fixpoint body_eqs (pv : sym -> list var) (seen : list sym) (l : list atom) : list neq :=
  match l with
  | [] => []
  | a :: l' => combine (map (src (count_occ Nat.eq_dec seen (asym a))) (pv (asym a))) (aargs a) ++ body_eqs pv (asym a :: seen) l'
  end.
Lemma norm_atoms_ok l : forall st seen st' es, norm_atoms st seen l = (st', es) -> ninv st -> (forall a, In a l -> typed_atom a) ->
  ninv st' /\ ext st st' /\ (forall a, In a l -> rlookup (nreps st') (asym a) <> None) /\ forall stF, ext st' stF -> es = body_eqs (rep stF) seen l.
Proof.
  induction l as [|a l IH]; intros st seen st' es E I T.
  - cbn in E. injection E as <- <-. split; [exact I|]. split; [apply ext_refl|]. split; [intros a []|reflexivity].
  - cbn [norm_atoms] in E. destruct (norm_atoms (ensure st a) (asym a :: seen) l) as [st2 es2] eqn:E2. injection E as <- <-.
    destruct (ensure_ok st a I (T a (or_introl eq_refl))) as [I1 [X1 N1]].
    destruct (IH _ _ _ _ E2 I1 (fun b Hb => T b (or_intror Hb))) as [I2 [X2 [N2 B2]]]. split; [exact I2|]. split; [eapply ext_trans; eassumption|].
    split.
    + intros b [<-|Hb]; [|apply N2, Hb]. destruct (rlookup (nreps (ensure st a)) (asym a)) as [x|] eqn:Ex; [|congruence]. destruct X2 as [X2 _]. rewrite (X2 _ _ Ex). discriminate.
    + intros stF XF. cbn [body_eqs]. rewrite (B2 stF XF) at 1. f_equal. rewrite (ext_rep (ensure st a) stF); [reflexivity| |exact N1]. eapply ext_trans; eassumption.
Qed.

Section Eqs.
Variable pv : sym -> list var.
Hypothesis PR : rep_wf pv.
Hypothesis PX : forall p v, In v (pv p) -> exists n s, v = xvar n s.
Definition known (a : atom) : Prop := map vsort (pv (asym a)) = sig (asym a).

Lemma known_len a : typed_atom a -> known a -> length (pv (asym a)) = length (aargs a).
Proof. intros T K. rewrite (typed_length a T), <- K, map_length. reflexivity. Qed.
Lemma combine_typed f a n t : sort_preserving f -> typed_atom a -> known a -> In (n, t) (combine (map f (pv (asym a))) (aargs a)) -> typed t = Some (vsort n) /\ In t (aargs a) /\ exists b, In b (pv (asym a)) /\ n = f b.
Proof.
  intros Hf T K H. split; [|split; [eapply in_combine_r, H|apply in_combine_l, in_map_iff in H as [b [<- Hb]]; eauto]].
  unfold typed_atom in T. unfold known in K. rewrite <- K in T. clear K. revert T H. generalize (pv (asym a)), (aargs a). intros l. induction l as [|b l IH]; intros [|x k] T H; try (destruct H; fail).
  cbn in T, H. injection T as T1 T2. destruct H as [E|H]; [injection E as <- <-; rewrite Hf; exact T1|]. apply (IH k T2 H).
Qed.
Lemma fst_combine_eq {A B} (l : list A) (k : list B) : length l = length k -> map fst (combine l k) = l.
Proof. revert k. induction l as [|x l IH]; intros [|y k] H; cbn in *; try discriminate; [reflexivity|]. f_equal. apply IH. lia. Qed.
Lemma body_eqs_fst l : forall seen, (forall a, In a l -> typed_atom a /\ known a) ->
  map fst (body_eqs pv seen l) = concat (map (fun pi => map (src (snd pi)) (pv (fst pi))) (inst_from seen (map asym l))).
Proof.
  induction l as [|a l IH]; intros seen H; [reflexivity|]. cbn [body_eqs map inst_from concat fst snd]. rewrite map_app, IH by (intros b Hb; apply H; right; exact Hb). f_equal.
  apply fst_combine_eq. rewrite map_length. destruct (H a (or_introl eq_refl)) as [T K]. apply known_len; assumption.
Qed.
Lemma body_eqs_in l : forall seen n t, (forall a, In a l -> typed_atom a /\ known a) -> In (n, t) (body_eqs pv seen l) ->
  typed t = Some (vsort n) /\ (exists a, In a l /\ In t (aargs a)) /\ reserved n.
Proof.
  induction l as [|a l IH]; intros seen n t H Hin; [destruct Hin|]. cbn in Hin. apply in_app_iff in Hin as [Hin|Hin].
  - destruct (H a (or_introl eq_refl)) as [T K]. destruct (combine_typed _ a n t (src_sort _) T K Hin) as [A [B [b [C ->]]]]. split; [exact A|]. split; [exists a; cbn; auto|].
    destruct (PX _ _ C) as [k [s ->]]. exists k, s. right. eauto.
  - destruct (IH _ n t (fun b Hb => H b (or_intror Hb)) Hin) as [A [[b [B1 B2]] C]]. split; [exact A|]. split; [exists b; cbn; auto|exact C].
Qed.
Definition all_eqs (c : clause) : list neq := combine (map tgt (pv (asym (chead c)))) (aargs (chead c)) ++ body_eqs pv [] (cbody c).
Definition insts (c : clause) : list (sym * nat) := instances (map asym (cbody c)).
Lemma all_eqs_fst c : (forall a, In a (chead c :: cbody c) -> typed_atom a /\ known a) ->
  map fst (all_eqs c) = map tgt (pv (asym (chead c))) ++ concat (map (fun pi => map (src (snd pi)) (pv (fst pi))) (insts c)).
Proof.
  intros H. unfold all_eqs. rewrite map_app, body_eqs_fst by (intros a Ha; apply H; right; exact Ha). f_equal. apply fst_combine_eq. rewrite map_length.
  destruct (H _ (or_introl eq_refl)) as [T K]. apply known_len; assumption.
Qed.
Lemma src_vars_disj (l : list (sym * nat)) : NoDup l -> NoDup (concat (map (fun pi => map (src (snd pi)) (pv (fst pi))) l)).
Proof.
  intros N. induction N as [|[p i] l Hn N IH]; [constructor|]. cbn [map concat fst snd]. apply NoDup_app_intro; [|exact IH|].
  - apply NoDup_map_inj_in; [|apply (rep_nodup pv PR)]. intros a b Ha Hb E. unfold src in E. injection E as E1 E2.
    apply (rep_base pv PR) in Ha, Hb. destruct a, b; cbn in *; congruence.
  - intros v H1 H2. apply in_map_iff in H1 as [b [<- Hb]]. apply in_concat in H2 as [y [H2 H3]]. apply in_map_iff in H2 as [[q j] [<- H2]]. cbn in H3. apply in_map_iff in H3 as [b' [E Hb']].
    unfold src in E. injection E as E1 E2 E3. subst j.
    assert (b = b') by (apply (rep_base pv PR) in Hb, Hb'; destruct b, b'; cbn in *; congruence). subst b'.
    rewrite (rep_disj pv PR p q b Hb Hb') in Hn. contradiction.
Qed.
Lemma all_eqs_nodup c : (forall a, In a (chead c :: cbody c) -> typed_atom a /\ known a) -> NoDup (map fst (all_eqs c)).
Proof.
  intros H. rewrite (all_eqs_fst c H). apply NoDup_app_intro.
  - apply NoDup_map_inj_in; [|apply (rep_nodup pv PR)]. intros a b Ha Hb E. unfold tgt in E. injection E as E1 E2.
    apply (rep_base pv PR) in Ha, Hb. destruct a, b; cbn in *; congruence.
  - apply src_vars_disj, instances_nodup.
  - intros v H1 H2. apply in_map_iff in H1 as [b [<- Hb]]. apply in_concat in H2 as [y [H2 H3]]. apply in_map_iff in H2 as [[q j] [<- H2]]. cbn in H3. apply in_map_iff in H3 as [b' [E _]]. discriminate E.
Qed.
Lemma all_eqs_in c n t : (forall a, In a (chead c :: cbody c) -> typed_atom a /\ known a) -> In (n, t) (all_eqs c) ->
  typed t = Some (vsort n) /\ (exists a, In a (chead c :: cbody c) /\ In t (aargs a)) /\ reserved n.
Proof.
  intros H Hin. unfold all_eqs in Hin. apply in_app_iff in Hin as [Hin|Hin].
  - destruct (H _ (or_introl eq_refl)) as [T K]. destruct (combine_typed _ _ n t tgt_sort T K Hin) as [A [B [b [C ->]]]]. split; [exact A|]. split; [exists (chead c); cbn; auto|].
    destruct (PX _ _ C) as [k [s ->]]. exists k, s. left. reflexivity.
  - destruct (body_eqs_in _ _ _ _ (fun b Hb => H b (or_intror Hb)) Hin) as [A [[b [B1 B2]] C]]. split; [exact A|]. split; [exists b; cbn; auto|exact C].
Qed.

(** Equal values of all equalities mean equal arguments. *)
Definition match_vals (c : clause) (r r' : valuation) : Prop :=
  args r' (map tgt (pv (asym (chead c)))) = avals r (chead c) /\
  Forall2 (fun pi a => fst pi = asym a /\ args r' (map (src (snd pi)) (pv (fst pi))) = avals r a) (insts c) (cbody c).
Lemma combine_vals r r' ns ts : length ns = length ts -> (forall n t, In (n, t) (combine ns ts) -> eval r' (Var n) = eval r t) -> args r' ns = map (eval r) ts.
Proof.
  revert ts. induction ns as [|n ns IH]; intros [|t ts] L H; cbn in L; try discriminate; [reflexivity|]. unfold args. cbn [map]. f_equal.
  - apply H. left. reflexivity.
  - apply IH; [lia|]. intros m u Hin. apply H. right. exact Hin.
Qed.
Lemma all_eqs_vals c r r' : (forall a, In a (chead c :: cbody c) -> typed_atom a /\ known a) ->
  (forall n t, In (n, t) (all_eqs c) -> eval r' (Var n) = eval r t) -> match_vals c r r'.
Proof.
  intros H V. split.
  - apply combine_vals; [rewrite map_length; destruct (H _ (or_introl eq_refl)); apply known_len; assumption|]. intros n t Hin. apply V. unfold all_eqs. apply in_app_iff. left. exact Hin.
  - assert (V' : forall n t, In (n, t) (body_eqs pv [] (cbody c)) -> eval r' (Var n) = eval r t) by (intros n t Hin; apply V; unfold all_eqs; apply in_app_iff; right; exact Hin).
    assert (H' : forall a, In a (cbody c) -> typed_atom a /\ known a) by (intros a Ha; apply H; right; exact Ha). unfold insts, instances. clear H V. revert V' H'. generalize (@nil sym) as seen. induction (cbody c) as [|a l IH]; intros seen V H; [constructor|].
    cbn [map inst_from]. constructor.
    + split; [reflexivity|]. cbn [fst snd]. apply combine_vals; [rewrite map_length; destruct (H _ (or_introl eq_refl)); apply known_len; assumption|]. intros n t Hin. apply V. cbn [body_eqs]. apply in_app_iff. left. exact Hin.
    + apply IH; [|intros b Hb; apply H; right; exact Hb]. intros n t Hin. apply V. cbn [body_eqs]. apply in_app_iff. right. exact Hin.
Qed.
End Eqs.

(** ** One clause *)
Definition from_of (c : clause) : list sym := match cbody c with [] => [entry] | l => map asym l end.
Record edge_of (pv : sym -> list var) (lo hi : nat) (c : clause) (e : hedge) (q : list neq) : Prop := {
  eo_to : eto e = asym (chead c);
  eo_from : efrom e = from_of c;
  eo_forth : forall r, holds r (cfla c) -> exists r', holds r' (efla e) /\ match_vals pv c r r' /\ forall n t, In (n, t) q -> eval r' (Var n) = eval r t;
  eo_back : forall r', holds r' (efla e) -> exists r, holds r (cfla c) /\ match_vals pv c r r' /\ forall n t, In (n, t) q -> eval r' (Var n) = eval r t;
  eo_vars : forall v, In v (vars (efla e)) -> In v (map tgt (pv (asym (chead c))) ++ concat (map (fun pi => map (src (snd pi)) (pv (fst pi))) (insts c))) \/
     exists k s, lo <= k < hi /\ v = nauxv k s;
  eo_q : forall v, In v (vars (efla e)) -> In v (map fst q)
}.
Definition pv_ok (st : nst) : Prop := rep_wf (rep st) /\ (forall p v, In v (rep st p) -> exists n s, v = xvar n s).
Lemma ninv_pv st : ninv st -> pv_ok st.
Proof.
  intros I. assert (G : forall p v, In v (rep st p) -> exists x, rlookup (nreps st) p = Some x /\ In v x).
  { intros p v H. unfold rep in H. destruct (rlookup (nreps st) p) as [x|]; [eauto|destruct H]. }
  split; [constructor|].
  - unfold rep. rewrite (ni_entry st I). reflexivity.
  - unfold rep. rewrite (ni_exit st I). reflexivity.
  - intros p v H. destruct (G p v H) as [x [H1 H2]]. destruct (ni_x st I p x v H1 H2) as [n [s [_ ->]]]. reflexivity.
  - intros p. unfold rep. destruct (rlookup (nreps st) p) as [x|] eqn:E; [apply (ni_nodup st I p x E)|constructor].
  - intros p q v Hp Hq. destruct (G p v Hp) as [x [H1 H2]]. destruct (G q v Hq) as [y [H3 H4]]. eapply (ni_disj st I); eassumption.
  - intros p v H. destruct (G p v H) as [x [H1 H2]]. destruct (ni_x st I p x v H1 H2) as [n [s [_ ->]]]. eauto.
Qed.

Lemma norm_clause_ok st k c st' e q : norm_clause st k c = (st', e, q) -> ninv st -> clause_ok sig c ->
  ninv st' /\ ext st st' /\ eid e = k /\ forall stF, ninv stF -> ext st' stF -> edge_of (rep stF) (ncount st) (ncount st') c e q.
Proof.
  intros E I C. unfold norm_clause, norm_head in E.
  destruct (ensure_ok st (chead c) I (co_typed _ _ C _ (or_introl eq_refl))) as [I1 [X1 N1]].
  destruct (norm_atoms (ensure st (chead c)) [] (cbody c)) as [st2 e2] eqn:E2.
  destruct (norm_atoms_ok _ _ _ _ _ E2 I1 (fun a Ha => co_typed _ _ C a (or_intror Ha))) as [I2 [X2 [N2 B2]]].
  injection E as <- <- <-.
  set (e1 := combine (map tgt (rep (ensure st (chead c)) (asym (chead c)))) (aargs (chead c))) in *.
  set (ls := local_vars _ _) in *.
  assert (X3 : ext st2 (mkNst (nreps st2) (ncount st2 + length ls))) by (split; cbn; [auto|lia]).
  split; [|split; [eapply ext_trans; [exact X1|]; eapply ext_trans; eassumption|split; [reflexivity|]]].
  - constructor; cbn [nreps ncount]; try apply I2. intros p x v H1 H2. destruct (ni_x st2 I2 p x v H1 H2) as [n [s [H3 H4]]]. exists n, s. split; [lia|exact H4].
  - intros stF IF XF. destruct (ninv_pv stF IF) as [PR PX].
    assert (XF2 : ext st2 stF) by (eapply ext_trans; eassumption).
    assert (Kn : forall a, In a (chead c :: cbody c) -> typed_atom a /\ known (rep stF) a).
    { intros a Ha. split; [apply (co_typed _ _ C a Ha)|]. unfold known, rep.
      assert (Y : rlookup (nreps st2) (asym a) <> None).
      { destruct Ha as [<-|Ha]; [|apply N2, Ha]. destruct (rlookup (nreps (ensure st (chead c))) (asym (chead c))) as [x|] eqn:Ex; [|congruence]. destruct X2 as [X2 _]. rewrite (X2 _ _ Ex). discriminate. }
      destruct (rlookup (nreps st2) (asym a)) as [x|] eqn:Ex; [|congruence]. destruct XF2 as [XF2 _]. rewrite (XF2 _ _ Ex). apply (ni_sort stF IF). apply XF2, Ex. }
    assert (Ee : e1 ++ e2 = all_eqs (rep stF) c).
    { unfold all_eqs. rewrite (B2 stF XF2). f_equal. unfold e1. rewrite (ext_rep (ensure st (chead c)) stF); [reflexivity| |exact N1]. eapply ext_trans; eassumption. }
    assert (Ef : map fst e1 ++ map fst e2 = map fst (all_eqs (rep stF) c)) by (rewrite <- Ee, map_app; reflexivity).
    assert (Els : ls = local_vars (map fst (all_eqs (rep stF) c)) (norm_fla (cfla c) (all_eqs (rep stF) c))) by (unfold ls, neq; rewrite Ef; f_equal; unfold neq in Ee; rewrite Ee; reflexivity).
    rewrite Els in *. unfold neq in Ee |- *. rewrite Ee. clear Els.
    set (eqs := all_eqs (rep stF) c) in *.
    assert (Nd : NoDup (map fst eqs)) by (apply all_eqs_nodup; assumption).
    assert (Res : forall n arg, In (n, arg) eqs -> reserved n) by (intros n arg H; apply (all_eqs_in (rep stF) PX c n arg Kn) in H; tauto).
    assert (Ty : forall n arg, In (n, arg) eqs -> typed arg = Some (vsort n)) by (intros n arg H; apply (all_eqs_in (rep stF) PX c n arg Kn) in H; tauto).
    assert (Ua : forall n arg v, In (n, arg) eqs -> In v (vars arg) -> ~ reserved v).
    { intros n arg v H Hv. apply (all_eqs_in (rep stF) PX c n arg Kn) in H as [_ [[a [Ha Ht]] _]]. eapply atom_user; eassumption. }
    assert (Uf : forall v, In v (vars (cfla c)) -> ~ reserved v).
    { intros v Hv. apply (co_names _ _ C). unfold clause_vars. apply in_app_iff. left. exact Hv. }
    assert (Q : forall am, (forall r r' : valuation, (forall n arg, In (n, arg) eqs -> eval r' (Var n) = eval r arg) -> (forall v a, In (v, a) am -> eval r' (Var a) = eval r (Var v)) ->
        forall n t, In (n, t) (eqs ++ map (fun x => (snd x, Var (fst x))) am) -> eval r' (Var n) = eval r t)).
    { intros am r r' H1 H2 n t H. apply in_app_iff in H as [H|H]; [apply H1, H|]. apply in_map_iff in H as [[v a] [E H]]. injection E as <- <-. cbn [fst snd]. apply H2, H. }
    constructor; cbn [eto efrom efla eid].
    + reflexivity.
    + reflexivity.
    + intros r H. destruct (label_forth (cfla c) eqs (ncount st2) Nd Res Ty Ua Uf r H) as [r' [L1 [L2 L3]]]. exists r'. split; [exact L1|]. split; [apply all_eqs_vals; [exact Kn|exact L2]|].
      apply Q; assumption.
    + intros r' H. destruct (label_back (cfla c) eqs (ncount st2) Res Ty Ua Uf r' H) as [r [L1 [L2 L3]]]. exists r. split; [exact L1|]. split; [apply all_eqs_vals; [exact Kn|exact L2]|].
      apply Q; assumption.
    + intros v Hv. destruct (label_vars (cfla c) eqs (ncount st2) Res Ua Uf v Hv) as [L|[k0 [s [L1 L2]]]].
      * left. unfold eqs in L. rewrite (all_eqs_fst (rep stF) c Kn) in L. exact L.
      * right. exists k0, s. cbn [ncount]. split; [|exact L2]. destruct X1 as [_ X1], X2 as [_ X2]. lia.
    + intros v Hv. rewrite map_app, in_app_iff. destruct (label_vars (cfla c) eqs (ncount st2) Res Ua Uf v Hv) as [L|_]; [left; exact L|].
      destruct (in_dec var_dec v (map fst eqs)) as [I0|I0]; [left; exact I0|right]. rewrite map_map. cbn [fst snd].
      rewrite vars_rename in Hv. apply in_map_iff in Hv as [u [Eu Hu]]. apply in_map_iff.
      assert (Hm : In u (map fst (aux_map (ncount st2) (local_vars (map fst eqs) (norm_fla (cfla c) eqs))))).
      { rewrite aux_map_fst. unfold local_vars. rewrite filter_In, nodup_In. split; [exact Hu|]. destruct (inb_spec u (map fst eqs)) as [J|J]; [|reflexivity]. exfalso.
        apply in_map_iff in J as [[n arg] [J1 J2]]. cbn in J1. subst n. apply I0. rewrite <- Eu. rewrite vlookup_out; [apply in_map_iff; exists (u, arg); auto|].
        rewrite aux_map_fst. unfold local_vars. rewrite filter_In. intros [_ K]. assert (X : inb u (map fst eqs) = true) by (rewrite inb_true; apply in_map_iff; exists (u, arg); auto). rewrite X in K. discriminate. }
      apply vlookup_in in Hm. eexists. split; [|exact Hm]. cbn. exact Eu.
Qed.

(** ** The whole system *)
Inductive built (pv : sym -> list var) : nat -> nat -> nat -> list clause -> list hedge -> list (list neq) -> Prop :=
| built_nil k lo hi : lo <= hi -> built pv k lo hi [] [] []
| built_cons k lo mid hi c cs e es q qs : lo <= mid -> eid e = k -> edge_of pv lo mid c e q -> built pv (S k) mid hi cs es qs -> built pv k lo hi (c :: cs) (e :: es) (q :: qs).
Lemma norm_all_ok cs : forall st k st' es qs, norm_all st k cs = (st', es, qs) -> ninv st -> (forall c, In c cs -> clause_ok sig c) ->
  ninv st' /\ ext st st' /\ forall stF, ninv stF -> ext st' stF -> built (rep stF) k (ncount st) (ncount st') cs es qs.
Proof.
  induction cs as [|c cs IH]; intros st k st' es qs E I C.
  - cbn in E. injection E as <- <- <-. split; [exact I|]. split; [apply ext_refl|]. intros. constructor. lia.
  - cbn [norm_all] in E. destruct (norm_clause st k c) as [[st1 e] q] eqn:E1. destruct (norm_all st1 (S k) cs) as [[st2 es2] qs2] eqn:E2. injection E as <- <- <-.
    destruct (norm_clause_ok _ _ _ _ _ _ E1 I (C c (or_introl eq_refl))) as [I1 [X1 [Id Q]]].
    destruct (IH _ _ _ _ _ E2 I1 (fun d Hd => C d (or_intror Hd))) as [I2 [X2 Q2]].
    split; [exact I2|]. split; [eapply ext_trans; eassumption|]. intros stF IF XF. econstructor; [apply X1|exact Id| |apply Q2; assumption]. apply Q; [exact IF|]. eapply ext_trans; eassumption.
Qed.
Lemma ninv0 : ninv nst0.
Proof.
  constructor; cbn [nst0 nreps ncount rlookup]; try reflexivity; intros *;
    repeat match goal with |- context [Nat.eqb ?a ?b] => destruct (Nat.eqb_spec a b) end; intros; try discriminate; subst; try congruence;
    repeat match goal with H : Some _ = Some _ |- _ => injection H as <- | H : In _ [] |- _ => destruct H end; try constructor; rewrite ?Sentry, ?Sexit; reflexivity.
Qed.
End Run.
