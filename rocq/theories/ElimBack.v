(** * Node elimination: derivations. *)
From Verif Require Import Syntax Solver TransSys Graph GraphOps GraphOpsProofs ValidatorModel ValidatorProofs FormulaModel GraphSem SimpleTransModel UnreachProofs UnreachProofs2 SimpleTransProofs SimpleTransProofs2 ListLemmas MergeModel MergeProofs ChainProofs ChainStep ChainBack ExpandProofs ElimModel PairProofs PairLabel ElimProofs ElimValid.
Open Scope nat_scope.

Lemma fill_eqs r vs (f : fact) : fits vs (snd f) -> (forall p, In p (fill vs f) -> holds r (mkEq (Var (fst p)) (snd p))) -> args r vs = snd f.
Proof.
  destruct f as [p xs]. unfold fill, fits. cbn [snd]. intros F. induction F as [|v x vs xs Hs F IH]; intros H; [reflexivity|].
  cbn [map combine] in H. unfold args. cbn [map]. f_equal; [|apply IH; intros q Hq; apply H; right; exact Hq].
  specialize (H _ (or_introl eq_refl)). cbn [fst snd] in H. apply holds_eq in H. exact H.
Qed.
Lemma fits_args (r : valuation) l : fits l (args r l).
Proof. unfold fits, args. induction l as [|v l IH]; constructor; [apply coerce_sort|exact IH]. Qed.
Lemma premise_fill_spec g d l : forall prems mp, premise_fill g d l prems = Some mp ->
  Forall2 (fun pi k => exists s, nth_error d k = Some s /\ fst (st_fact s) = fst pi /\ forall x, In x (fill (src_vars g pi) (st_fact s)) -> In x mp) l prems.
Proof.
  induction l as [|pi l IH]; intros [|k prems] mp H; cbn [premise_fill] in H; try discriminate; [constructor|].
  destruct (nth_error d k) as [s|] eqn:Ek; [|discriminate]. destruct (Nat.eqb_spec (fst (st_fact s)) (fst pi)) as [Ep|]; [|discriminate].
  destruct (premise_fill g d l prems) as [m|] eqn:Em; [|discriminate]. injection H as <-. constructor.
  - exists s. split; [exact Ek|]. split; [exact Ep|]. intros x Hx. apply in_app_iff. auto.
  - eapply Forall2_imp; [|apply (IH prems m Em)]. intros a b [t [H1 [H2 H3]]]. exists t. split; [exact H1|]. split; [exact H2|]. intros x Hx. apply in_app_iff. auto.
Qed.
Lemma insert_at_app (a b : list nat) k : insert_at (length a) k (a ++ b) = a ++ k :: b.
Proof. induction a as [|x a IH]; [destruct b; reflexivity|]. cbn. rewrite IH. reflexivity. Qed.
Lemma index_of_app m l1 l2 : ~ In m l1 -> index_of m (l1 ++ m :: l2) = length l1.
Proof.
  induction l1 as [|a l1 IH]; intros H; cbn [app index_of length]; [rewrite Nat.eqb_refl; reflexivity|].
  destruct (Nat.eqb_spec a m) as [->|]; [exfalso; apply H; left; reflexivity|]. rewrite IH; [reflexivity|]. intros X. apply H. right. exact X.
Qed.
Lemma Forall2_snoc_split {A B} (P : A -> B -> Prop) l x y z : Forall2 P l (x ++ y :: z) -> exists a b c, l = a ++ b :: c /\ Forall2 P a x /\ P b y /\ Forall2 P c z.
Proof.
  intros H. apply Forall2_app_inv_r in H as [a [k [H1 [H2 ->]]]]. inversion H2 as [|b ? c ? Pb Pc]; subst. exists a, b, c. auto.
Qed.

Lemma Forall2_len {A B} (P : A -> B -> Prop) l l' : Forall2 P l l' -> length l = length l'.
Proof. intros H. induction H; cbn; congruence. Qed.
Lemma Forall2_in_l {A B} (P : A -> B -> Prop) l l' x : Forall2 P l l' -> In x l -> exists y, In y l' /\ P x y.
Proof.
  intros H. induction H as [|a b l l' Hab H IH]; intros Hx; [destruct Hx|]. destruct Hx as [->|Hx]; [exists b; split; [left; reflexivity|exact Hab]|].
  destruct (IH Hx) as [y [H1 H2]]. exists y. split; [right; exact H1|exact H2].
Qed.
Section Expand.
Variable check : check_fn.
Hypothesis Hck : forall l r, check l = SAT r -> Forall (holds r) l.
Variable g G : hgraph.
Hypothesis R : rep_wf (gpv g).
Hypothesis PV : gpv G = gpv g.
Variable e e1 e2 : hedge.
Variable s : sym.
Variable l1 l2 : list sym.
Hypothesis P : pair_ok G e1 e2 s l1 l2.
Hypothesis He : efrom e = new_from s l1 l2.
Hypothesis Ht : eto e = eto e2.
Hypothesis Hyper : length (efrom e2) <> 1.
Hypothesis Mx : eto e1 <> exit.
Hypothesis Eid : eid e <> no_id.
Hypothesis Uniq : forall x, In x (gedges G) -> eid x = eid e -> x = e.
Let m := eto e1.
Let h := vlookup (combine (src_vars g (m, 0)) (tgt_vars g m)).
Lemma l12 : l1 ++ l2 <> [].
Proof. intros X. apply app_eq_nil in X as [X1 X2]. apply Hyper. rewrite (po_from2 _ _ _ _ _ _ P), X1, X2. reflexivity. Qed.
Lemma inst_e : instances (efrom e) = if Nat.eqb s entry then before l1 ++ after l1 l2 else before l1 ++ (s, 0) :: after l1 l2.
Proof.
  rewrite He. change (new_from s l1 l2) with (PairProofs.nf s l1 l2). rewrite (inst_nf G e1 e2 s l1 l2 P). destruct (Nat.eqb s entry); [|reflexivity].
  pose proof l12. destruct (l1 ++ l2); [contradiction|reflexivity].
Qed.
Lemma h_sort : sort_preserving h.
Proof. apply vlookup_sort. intros a b H. unfold src_vars, tgt_vars in H. cbn [fst snd] in H. apply combine_map_in in H as [x [_ [-> ->]]]. reflexivity. Qed.
Lemma h_keys : map fst (combine (src_vars g (m, 0)) (tgt_vars g m)) = src_vars g (m, 0).
Proof. apply fst_combine_len. unfold src_vars, tgt_vars. rewrite !map_length. cbn [fst]. lia. Qed.
Lemma h_mid b : In b (gpv g m) -> h (src 0 b) = tgt b.
Proof.
  intros Hb. apply vlookup_combine.
  - unfold src_vars. cbn [fst snd]. apply NoDup_map_inj_in; [|apply (rep_nodup _ R)]. intros x y Hx Hy X. apply (src_inj_v g R 0 0 m m x y Hx Hy X).
  - unfold src_vars, tgt_vars. cbn [fst snd]. apply in_combine_map, Hb.
Qed.
Lemma h_out u : ~ In u (src_vars g (m, 0)) -> h u = u.
Proof. intros H. apply vlookup_out. rewrite h_keys. exact H. Qed.
Lemma h_tgtv b : h (tgt b) = tgt b.
Proof. apply h_out. intros X. apply in_src_vars in X as [c [_ X]]. exact (src_tgt_v _ _ _ (eq_sym X)). Qed.
Lemma h_srcv p i b : p <> m -> In b (gpv g p) -> h (src i b) = src i b.
Proof. intros N Hb. apply h_out. intros X. apply in_src_vars in X as [c [Hc X]]. cbn [fst snd] in *. destruct (src_inj_v g R i 0 p m b c Hb Hc X) as [_ [_ Y]]. contradiction. Qed.

Theorem expand_hyper_ok d i st d' : error_derivation G d -> nth_error d i = Some st -> st_clause st = eid e ->
  expand_hyper check g e e1 e2 d i = Some d' -> error_derivation G d'.
Proof.
  intros D Hi Hcl H. pose proof (ed_ref _ _ D) as RF.
  assert (Pos : 0 < i). { destruct i; [|lia]. exfalso. pose proof (ed_first _ _ D) as X. rewrite Hi in X. cbn in X. injection X as X. congruence. }
  unfold expand_hyper in H. rewrite Hi in H. fold m h in H.
  destruct (ref_steps _ _ RF i st Pos Hi) as [x [ps [Hx [Hid [HF HL]]]]].
  assert (x = e) by (apply Uniq; [exact Hx|congruence]). subst x.
  rewrite (follows_pv g G e ps _ PV) in HL. destruct HL as [r0 [_ [Eps Efs]]].
  destruct (premise_fill g d (instances (efrom e)) (st_premises st)) as [mp|] eqn:Emp; [|discriminate].
  apply premise_fill_spec in Emp.
  set (eqs := map (fun p => mkEq (Var (fst p)) (snd p)) (fill (tgt_vars g (eto e)) (st_fact st) ++ mp)) in *.
  destruct (check (rename h (mkAnd [efla e1; efla e2]) :: eqs)) as [r| |] eqn:Ck; try discriminate.
  apply Hck in Ck. pose proof (Forall_inv Ck) as HU. pose proof (Forall_inv_tail Ck) as HE. clear Ck.
  assert (Eqs : forall p, In p (fill (tgt_vars g (eto e)) (st_fact st) ++ mp) -> holds r (mkEq (Var (fst p)) (snd p))).
  { intros p Hp. rewrite Forall_forall in HE. apply HE. unfold eqs. apply in_map_iff. exists p. auto. }
  assert (Tgt : st_fact st = (eto e, args r (tgt_vars g (eto e)))).
  { rewrite (fill_eqs r (tgt_vars g (eto e)) (st_fact st)); [rewrite Efs; reflexivity|rewrite Efs; apply fits_args|]. intros p Hp. apply Eqs, in_app_iff. auto. }
  (* the facts of the premises, in the model *)
  assert (Prem : Forall2 (fun k f => k < i /\ option_map st_fact (nth_error d k) = Some f) (st_premises st) (map (pf g r) (instances (efrom e)))).
  { rewrite Eps in HF. revert HF Emp. generalize (st_premises st) as ks. generalize (instances (efrom e)) as l. induction l as [|pi l IH]; intros ks HF HM; inversion HM as [|? k ? ks' [sk [K1 [K2 K3]]] HM']; subst; cbn [map] in *; [constructor|].
    inversion HF as [|? ? ? ? [F1 F2] HF']; subst. constructor; [|apply IH; assumption]. split; [exact F1|]. rewrite K1 in *. cbn in F2 |- *. injection F2 as F2. f_equal.
    rewrite (surjective_pairing (st_fact sk)). unfold pf. rewrite K2. f_equal. symmetry. apply fill_eqs; [rewrite F2; apply fits_args|]. intros p Hp. apply Eqs, in_app_iff. right. apply K3, Hp. }
  apply (holds_rename h r _ h_sort) in HU. apply holds_and in HU. pose proof (Forall_inv HU) as U1. pose proof (Forall_inv (Forall_inv_tail HU)) as U2. clear HU.
  set (q := (fun u => r (h u)) : valuation) in *.
  pose proof (m1 G e1 e2 s l1 l2 P) as [M1 M2]. fold m in M1, M2. pose proof (s12 G e1 e2 s l1 l2 P) as [S1 S2]. pose proof (po_loop _ _ _ _ _ _ P) as Nsm. fold m in Nsm.
  assert (Qsrc : forall p j, p <> m -> pf g q (p, j) = pf g r (p, j)).
  { intros p j N. unfold pf. cbn [fst]. f_equal. unfold q, src_vars. cbn [fst snd]. rewrite <- (args_map r h _ h_sort), map_map. f_equal. apply map_ext_in. intros b Hb. apply (h_srcv p j b N Hb). }
  assert (Qt : forall p, args q (tgt_vars g p) = args r (tgt_vars g p)).
  { intros p. unfold q, tgt_vars. rewrite <- (args_map r h _ h_sort), map_map. f_equal. apply map_ext. intros b. apply h_tgtv. }
  assert (Qm : pf g q (m, 0) = (m, args r (tgt_vars g m))).
  { unfold pf. cbn [fst]. f_equal. unfold q, src_vars, tgt_vars. cbn [fst snd]. rewrite <- (args_map r h _ h_sort), map_map. f_equal. apply map_ext_in. intros b Hb. apply (h_mid b Hb). }
  set (mf := (m, args r (tgt_vars g m)) : fact) in *.
  assert (Fo1 : follows G e1 [pf g r (s, 0)] mf).
  { apply (follows_pv g G _ _ _ PV). apply (follows_single g e1 s _ _ (po_from1 _ _ _ _ _ _ P)). exists q. split; [exact U1|]. fold m. rewrite Qt. split; [|reflexivity]. symmetry. apply (Qsrc s 0 Nsm). }
  assert (Fo2 : follows G e2 (map (pf g r) (before l1) ++ mf :: map (pf g r) (after l1 l2)) (st_fact st)).
  { apply (follows_pv g G _ _ _ PV). exists q. split; [exact U2|]. rewrite (inst_e2 G e1 e2 s l1 l2 P). fold m. rewrite map_app. cbn [map]. split.
    - change (map (pf g r) (before l1) ++ mf :: map (pf g r) (after l1 l2) = map (pf g q) (before l1) ++ pf g q (m, 0) :: map (pf g q) (after l1 l2)). rewrite Qm. f_equal; [|f_equal].
      + apply map_ext_in. intros [p j] Hp. symmetry. apply Qsrc. intros ->. apply M1. eapply before_in; eauto.
      + apply map_ext_in. intros [p j] Hp. symmetry. apply Qsrc. intros ->. apply M2. eapply after_in; eauto.
    - rewrite Qt, <- Ht. exact Tgt. }
  assert (Pos2 : index_of m (efrom e2) = length l1) by (rewrite (po_from2 _ _ _ _ _ _ P); fold m; apply index_of_app, M1).
  rewrite Pos2 in H. rewrite (po_from1 _ _ _ _ _ _ P) in H. cbn [hd] in H. rewrite inst_e in Prem.
  assert (Main : forall k prems, k < i -> option_map st_fact (nth_error d k) = Some (pf g r (s, 0)) ->
     (exists ks1 ks2, prems = ks1 ++ i :: ks2 /\ Forall2 (fun k f => k < i /\ option_map st_fact (nth_error d k) = Some f) ks1 (map (pf g r) (before l1)) /\ Forall2 (fun k f => k < i /\ option_map st_fact (nth_error d k) = Some f) ks2 (map (pf g r) (after l1 l2))) ->
     error_derivation G (expand d i [mkStep [k] mf (eid e1)] (mkStep prems (st_fact st) (eid e2)))).
  { intros k prems Hk Fk [ks1 [ks2 [-> [B1 B2]]]]. set (a := mkStep [k] mf (eid e1)). set (b := mkStep (ks1 ++ i :: ks2) (st_fact st) (eid e2)).
    apply (expand_ok d i [a] b st Hi eq_refl G G eq_refl (fun x Hx => Hx) D Pos).
    - intros [|[|j]] y Hy; cbn in Hy; try discriminate. injection Hy as <-. split; [|cbn; exact Mx].
      exists e1, [pf g r (s, 0)]. split; [apply (po_in1 _ _ _ _ _ _ P)|]. split; [reflexivity|]. split; [|exact Fo1].
      cbn [st_premises a]. constructor; [|constructor]. split; [lia|]. rewrite (expand_before d i [a] b st Hi) by lia. exact Fk.
    - exists e2, (map (pf g r) (before l1) ++ mf :: map (pf g r) (after l1 l2)). split; [apply (po_in2 _ _ _ _ _ _ P)|]. split; [reflexivity|]. split; [|exact Fo2].
      cbn [length st_premises b].
      assert (Up : forall ks fs, Forall2 (fun k f => k < i /\ option_map st_fact (nth_error d k) = Some f) ks fs -> Forall2 (fun k f => k < i + 1 /\ option_map st_fact (nth_error (expand d i [a] b) k) = Some f) ks fs).
      { intros ks fs F. eapply Forall2_imp; [|exact F]. intros k' f' [X1 X2]. split; [lia|]. rewrite (expand_before d i [a] b st Hi) by lia. exact X2. }
      apply Forall2_app; [apply Up, B1|]. constructor; [|apply Up, B2]. split; [lia|].
      pose proof (expand_mid d i [a] b st Hi 0 (Nat.lt_0_succ _)) as X. rewrite Nat.add_0_r in X. rewrite X. reflexivity. }
  destruct (Nat.eqb_spec s entry) as [Es|Ns].
  - injection H as <-. rewrite map_app in Prem. apply Forall2_app_inv_r in Prem as [ks1 [ks2 [B1 [B2 Ek]]]].
    assert (L1 : length ks1 = length l1) by (rewrite (Forall2_len _ _ _ B1), map_length; unfold before; rewrite <- (map_length fst), instances_fst; reflexivity).
    apply (Main 0 (insert_at (length l1) i (st_premises st))).
    + exact Pos.
    + rewrite (ref_first _ _ RF). f_equal. unfold pf, src_vars. cbn [fst snd]. rewrite Es, (rep_entry _ R). reflexivity.
    + exists ks1, ks2. split; [|auto]. rewrite Ek, <- L1. apply insert_at_app.
  - rewrite map_app in Prem. cbn [map] in Prem. apply Forall2_snoc_split in Prem as [ks1 [k [ks2 [Ek [B1 [[Bk1 Bk2] B2]]]]]].
    assert (L1 : length ks1 = length l1) by (rewrite (Forall2_len _ _ _ B1), map_length; unfold before; rewrite <- (map_length fst), instances_fst; reflexivity).
    rewrite Ek in H. rewrite <- L1, nth_error_app2 in H by lia. rewrite Nat.sub_diag in H. cbn [nth_error] in H. injection H as <-.
    apply (Main k); [exact Bk1|exact Bk2|]. exists ks1, ks2. split; [|auto]. rewrite map_app. cbn [map]. rewrite Nat.eqb_refl.
    assert (Keep : forall ks l, (forall p j, In (p, j) l -> p <> s) -> Forall2 (fun k f => k < i /\ option_map st_fact (nth_error d k) = Some f) ks (map (pf g r) l) -> map (fun x => if Nat.eqb x k then i else x) ks = ks).
    { intros ks l Hl F. rewrite <- (map_id ks) at 2. apply map_ext_in. intros y Hy. destruct (Nat.eqb_spec y k) as [->|]; [|reflexivity]. exfalso.
      apply (Forall2_in_l _ _ _ k) in F; [|exact Hy]. destruct F as [f [Hf [_ Ff]]]. apply in_map_iff in Hf as [[p j] [<- Hp]]. rewrite Bk2 in Ff. injection Ff as Ff _. exact (Hl p j Hp (eq_sym Ff)). }
    rewrite (Keep ks1 (before l1)), (Keep ks2 (after l1 l2)); [reflexivity| |exact B2| |exact B1].
    + intros p j Hp ->. apply S2. eapply after_in; eauto.
    + intros p j Hp ->. apply S1. eapply before_in; eauto.
Qed.
End Expand.
