(** * Proofs about src/engine/Spacer.cc. *)
From Coq Require Import Permutation.
From Verif Require Import Syntax Solver Graph GraphOps GraphOpsProofs ValidatorModel GraphSem SimpleTransModel UnreachProofs ChainProofs NontermProofs EntailModel PropEntail PdkModel SpacerModel.
Open Scope nat_scope.
Open Scope list_scope.

(** An order of iteration: the same elements. *)
Definition ord_ok (ord : list term -> list term) : Prop := forall l t, In t (ord l) <-> In t l.
(** A queue: what is taken out was in it, nothing else is lost. *)
Definition pick_ok (pick : list pob -> option (pob * list pob)) : Prop :=
  forall q, match pick q with None => q = [] | Some (p, q') => Permutation q (p :: q') end.
(** The names of the activation variables are reserved. *)
Definition labels_no_act (g : hgraph) : Prop := forall e i, In e (gedges g) -> ~ In (act i) (vars (efla e)).

Lemma ainsert_in m v b t b' v' t' : In t' (ainsert m v b t b' v') <-> In t' (m b' v') \/ (b' = b /\ v' = v /\ t' = t).
Proof.
  unfold ainsert. destruct (Nat.eqb_spec b' b) as [->|Nb]; cbn [andb]; [|split; [auto|intros [H|[? _]]; [exact H|contradiction]]].
  destruct (Nat.eqb_spec v' v) as [->|Nv]; [|split; [auto|intros [H|[_ [? _]]]; [exact H|contradiction]]].
  destruct (ahas m v b t) eqn:E.
  - unfold ahas in E. apply existsb_exists in E as [x [Hx Ex]]. apply term_eqb_iff in Ex. subst x. split; [auto|]. intros [H|[_ [_ ->]]]; auto.
  - rewrite in_app_iff. cbn [In]. split; [intros [H|[->|[]]]; auto|]. intros [H|[_ [_ ->]]]; auto.
Qed.
Lemma batch_throws check fuel ps cs : forall en, batch_loop check fuel ps cs en = EThrow -> exists q, check q = UNKNOWN.
Proof.
  induction fuel as [|f IH]; intros en E; [discriminate|]. cbn [batch_loop] in E. destruct (negb _); [discriminate|].
  destruct (check (ps ++ [mkOr (queries cs); mkAnd (lits en)])) as [m| |] eqn:Ec; [eauto|discriminate|eauto].
Qed.
Lemma filter_full {A} (l : list A) (keep : list bool) : length keep = length l -> length (map fst (filter snd (combine l keep))) = length l ->
  map fst (filter snd (combine l keep)) = l.
Proof.
  revert keep. induction l as [|x l IH]; intros [|b keep] L E; try discriminate; [reflexivity|]. cbn [combine filter snd] in *. injection L as L.
  destruct b; cbn [map fst length] in *.
  - f_equal. apply IH; lia.
  - exfalso. assert (length (map fst (filter snd (combine l keep))) <= length l).
    { rewrite map_length. clear -L. revert keep L. induction l as [|y l IH]; intros [|k keep] L; try discriminate; [cbn; lia|]. injection L as L. cbn [combine filter snd].
      destruct k; cbn [length]; specialize (IH keep L); lia. }
    lia.
Qed.
Lemma base_tgt v : vtag v = TBase -> base (tgt v) = v.
Proof. destruct v as [b t s]. cbn. intros ->. reflexivity. Qed.
Lemma base_sort : sort_preserving base. Proof. intros v. reflexivity. Qed.

Section Proofs.
Variable c : ctors. Hypothesis Hct : ctors_ok c.
Variable check : check_fn. Hypothesis Hc : check_ok check.
Variable itp : itp_fn. Hypothesis Hi : itp_ok itp.
Variable mbp : mbp_fn. Hypothesis Hm : mbp_ok mbp.
Variable simp : term -> term. Hypothesis Hs : simp_ok simp.
Variable ord : list term -> list term. Hypothesis Ho : ord_ok ord.
Variable pick : list pob -> option (pob * list pob). Hypothesis Hp : pick_ok pick.
Variable logProof : bool.
Variable g : hgraph. Hypothesis W : wf_graph g. Hypothesis Na : labels_no_act g.

Definition unknown := exists q, check q = UNKNOWN.
Definition oracle_failed := unknown \/ (exists A B, itp A B = None) \/ (exists f k m, mbp f k m = None).

Lemma ord_in l t : In t l -> In t (ord l). Proof. apply (proj2 (Ho l t)). Qed.
Lemma ord_of l t : In t (ord l) -> In t l. Proof. apply (proj1 (Ho l t)). Qed.
Lemma inc_spec v e : In e (inc g v) <-> In e (gedges g) /\ eto e = v.
Proof.
  unfold inc. rewrite in_flat_map. split.
  - intros [i [Hi' He]]. apply (in_edges_spec g (wf_ids g W)) in Hi' as [e' [H1 [<- H3]]]. rewrite (hfind_in g (wf_ids g W) e' H1) in He. destruct He as [<-|[]]. auto.
  - intros [H1 H2]. exists (eid e). split; [apply (in_edges_spec g (wf_ids g W)); eauto|]. rewrite (hfind_in g (wf_ids g W) e H1). left. reflexivity.
Qed.

(** ** Meaning of the summaries *)
Lemma edge_sum_sem f e r : holds r (edge_sum c f e) <-> holds r (efla e) /\ forall p i, In (p, i) (instances (efrom e)) -> holds r (rename (src i) (f p)).
Proof.
  unfold edge_sum. rewrite (cand_sem c Hct). rewrite Forall_cons_iff, Forall_forall. split; intros [H1 H2]; (split; [exact H1|]).
  - intros p i Hpi. apply H2. apply in_map_iff. exists (p, i). auto.
  - intros t Ht. apply in_map_iff in Ht as [[p i] [<- Hpi]]. apply H2, Hpi.
Qed.
Lemma may_sem st b v i r : holds r (rename (src i) (may_sum c ord st b v)) <-> forall t, In t (s_over st b v) -> holds r (rename (src i) t).
Proof.
  rewrite holds_rename by apply src_sort. unfold may_sum. rewrite (cand_sem c Hct), Forall_forall. split; intros H t Ht.
  - apply holds_rename; [apply src_sort|]. apply H, ord_in, Ht.
  - apply ord_of in Ht. apply H in Ht. exact (proj1 (holds_rename (src i) _ _ (src_sort i)) Ht).
Qed.
Lemma must_sem st b v i r : holds r (rename (src i) (must_sum c ord st b v)) <-> exists t, In t (s_under st b v) /\ holds r (rename (src i) t).
Proof.
  rewrite holds_rename by apply src_sort. unfold must_sum. rewrite (cor_sem c Hct), Exists_exists. split; intros [t [Ht H]]; exists t.
  - split; [apply ord_of, Ht|]. apply holds_rename; [apply src_sort|exact H].
  - split; [apply ord_in, Ht|]. exact (proj1 (holds_rename (src i) _ _ (src_sort i)) H).
Qed.
Lemma sat_sat A B m : sat check A B = SAT m -> holds m A /\ holds m B.
Proof.
  unfold sat. destruct (term_eqb A tt_false); [discriminate|]. intros E. apply (check_sat _ Hc) in E.
  apply Forall_cons_iff in E as [E1 E]. apply Forall_inv in E. auto.
Qed.
Lemma sat_unsat A B r : sat check A B = UNSAT -> holds r A -> holds r B -> False.
Proof.
  unfold sat. destruct (term_eqb_spec A tt_false) as [->|N]; [intros _ H; discriminate H|]. intros E H1 H2.
  apply (check_unsat _ Hc) in E. apply (E r). auto.
Qed.
Lemma sat_unknown A B : sat check A B = UNKNOWN -> unknown.
Proof. unfold sat. destruct (term_eqb A tt_false); [discriminate|]. intros E. eexists. exact E. Qed.
Lemma mixed_sem st e b k r : holds r (edge_mixed c ord st e b k) <-> holds r (efla e) /\
  forall j p i, nth_error (instances (efrom e)) j = Some (p, i) ->
    holds r (rename (src i) ((if Nat.leb j k then may_sum c ord else must_sum c ord) st b p)).
Proof.
  unfold edge_mixed. rewrite (cand_sem c Hct). rewrite Forall_app, Forall_cons_iff, !Forall_forall. unfold mixed_parts.
  replace (length (efrom e)) with (length (instances (efrom e))) by (rewrite <- (instances_fst (efrom e)) at 2; rewrite map_length; reflexivity).
  split.
  - intros [H [Hl _]]. split; [exact Hl|]. intros j p i E. apply H. apply in_map_iff. exists (j, (p, i)). split; [reflexivity|].
    apply (nth_error_In _ j). apply nth_combine_seq. auto.
  - intros [Hl H]. split; [|split; [exact Hl|intros x []]]. intros t Ht. apply in_map_iff in Ht as [[j [p i]] [<- Ht]].
    apply In_nth_error in Ht as [n Ht]. apply (proj1 (nth_combine_seq _ _ _ _)) in Ht as [E Ht]. cbn [fst snd] in *. subst j. apply H, Ht.
Qed.

(** ** The invariant *)
Definition db_ok (db : list dentry) : Prop := nth_error db 0 = Some (mkDE tt_true entry no_id []) /\
  forall i d, 0 < i -> nth_error db i = Some d -> exists e, In e (gedges g) /\ eid e = de_edge d /\ eto e = de_node d /\
    Forall2 (fun k p => k < i /\ exists d', nth_error db k = Some d' /\ de_node d' = p) (de_prems d) (efrom e).

Record inv (K : nat) (st : sstate) : Prop := {
  i_uv : forall b v t, In t (s_under st b v) -> forall x, In x (vars t) -> In x (gpv g v);
  i_us : forall b v t r, In t (s_under st b v) -> holds r t -> derivable g v (args r (gpv g v));
  i_ue : forall b, b <= K -> In tt_true (s_under st b entry);
  i_ov : forall b v t, In t (s_over st b v) -> forall x, In x (vars t) -> In x (gpv g v);
  i_o0 : forall v, vertex g v -> v <> entry -> In tt_false (s_over st 0 v);
  i_oe : forall b t r, In t (s_over st b entry) -> holds r t;
  i_os : forall b e t r, In e (gedges g) -> In t (s_over st (S b) (eto e)) -> holds r (edge_may c ord st e b) -> holds r (rename tgt t);
  i_db : db_ok (s_db st);
  i_ud : logProof = true -> forall b v t r, In t (s_under st b v) -> holds r t -> id_for (s_db st) t v <> None
}.
Definition over_le (st st' : sstate) : Prop := forall b v t, In t (s_over st b v) -> In t (s_over st' b v).
Lemma over_le_refl st : over_le st st. Proof. intros b v t H. exact H. Qed.
Lemma over_le_trans a b d : over_le a b -> over_le b d -> over_le a d. Proof. intros H1 H2 k v t H. apply H2, H1, H. Qed.
Lemma edge_may_le st st' e b r : over_le st st' -> holds r (edge_may c ord st' e b) -> holds r (edge_may c ord st e b).
Proof.
  intros L H. apply edge_sum_sem in H as [H1 H2]. apply edge_sum_sem. split; [exact H1|]. intros p i Hpi. specialize (H2 p i Hpi).
  apply may_sem. intros t Ht. apply (proj1 (may_sem _ _ _ _ _) H2). apply L, Ht.
Qed.

(** A new must summary. *)
Lemma must_derivable K st e b r : inv K st -> In e (gedges g) -> holds r (edge_must c ord st e b) -> derivable g (eto e) (args r (tgt_vars g (eto e))).
Proof.
  intros V He H. apply edge_sum_sem in H as [H1 H2]. apply der_edge; [exact He| |exact H1]. intros p i Hpi.
  specialize (H2 p i Hpi). apply must_sem in H2 as [t [Ht H2]]. apply (proj1 (holds_rename (src i) _ _ (src_sort i))) in H2.
  pose proof (i_us K st V b p t _ Ht H2) as D. unfold src_vars. cbn [fst snd]. rewrite args_map by apply src_sort. exact D.
Qed.
Lemma id_for_app db d f v : id_for db f v <> None -> id_for (db ++ [d]) f v <> None.
Proof.
  induction db as [|x db IH]; intros H; [destruct H; reflexivity|]. cbn [id_for app] in *. destruct (_ && _); [discriminate|].
  destruct (id_for db f v); [|destruct H; reflexivity]. destruct (id_for (db ++ [d]) f v); [discriminate|destruct IH; [discriminate|reflexivity]].
Qed.
Lemma id_for_last db d : id_for (db ++ [d]) (de_fact d) (de_node d) <> None.
Proof.
  induction db as [|x db IH]; cbn [id_for app]; [rewrite Nat.eqb_refl, term_eqb_refl; discriminate|]. destruct (_ && _); [discriminate|].
  destruct (id_for (db ++ [d]) (de_fact d) (de_node d)); [discriminate|destruct IH; reflexivity].
Qed.
Lemma id_for_some db f v k : id_for db f v = Some k -> exists d, nth_error db k = Some d /\ de_node d = v /\ de_fact d = f.
Proof.
  revert k. induction db as [|x db IH]; intros k E; [discriminate|]. cbn [id_for] in E.
  destruct (Nat.eqb_spec (de_node x) v) as [Ev|_]; cbn [andb] in E.
  - destruct (term_eqb_spec (de_fact x) f) as [Ef|_].
    + injection E as <-. exists x. auto.
    + destruct (id_for db f v) as [k'|]; [|discriminate]. injection E as <-. cbn [nth_error]. apply IH. reflexivity.
  - destruct (id_for db f v) as [k'|]; [|discriminate]. injection E as <-. cbn [nth_error]. apply IH. reflexivity.
Qed.
Lemma nth_lt {A} (l : list A) k x : nth_error l k = Some x -> k < length l.
Proof. intros H. apply nth_error_Some. congruence. Qed.

Lemma find_prems_ok K st b m l : inv K st -> logProof = true ->
  (forall p i, In (p, i) l -> holds m (rename (src i) (must_sum c ord st b p))) ->
  exists ks, find_prems ord st b m l = Some ks /\
    Forall2 (fun k p => k < length (s_db st) /\ exists d', nth_error (s_db st) k = Some d' /\ de_node d' = p) ks (map fst l).
Proof.
  intros V Lp. induction l as [|[v i] l IH]; intros H; [exists []; split; [reflexivity|constructor]|]. cbn [find_prems].
  destruct (IH (fun p j Hpj => H p j (or_intror Hpj))) as [ks [E F]]. rewrite E.
  pose proof (H v i (or_introl eq_refl)) as Hv. apply must_sem in Hv as [t [Ht Hv]].
  destruct (find (fun t => holdsb m (rename (src i) t)) (ord (s_under st b v))) as [t'|] eqn:Ef.
  - apply find_some in Ef as [H1 H2]. apply ord_of in H1. assert (H2' : holds m (rename (src i) t')) by exact H2. apply (proj1 (holds_rename (src i) _ _ (src_sort i))) in H2'.
    pose proof (i_ud K st V Lp b v t' _ H1 H2') as Hid. destruct (id_for (s_db st) t' v) as [k|] eqn:Ek; [|destruct Hid; reflexivity].
    exists (k :: ks). split; [reflexivity|]. cbn [map fst]. constructor; [|exact F].
    apply id_for_some in Ek as [d [Hd [Hn _]]]. split; [eapply nth_lt; eauto|]. eauto.
  - exfalso. apply ord_in in Ht. apply (find_none _ _ Ef) in Ht. unfold holds in Hv. congruence.
Qed.

Lemma tgt_inv_base v x f : (forall y, In y (vars f) -> In y (tgt_vars g v)) -> In x (vars (rename base f)) -> In x (gpv g v).
Proof.
  intros H Hx. rewrite vars_rename in Hx. apply in_map_iff in Hx as [y [<- Hy]]. apply H in Hy. apply in_map_iff in Hy as [z [<- Hz]].
  rewrite base_tgt; [exact Hz|]. apply (rep_base _ (wf_rep g W) v z Hz).
Qed.
(** A formula over the target variables, moved to the base variables and back. *)
Lemma tgt_base_round v f : (forall y, In y (vars f) -> In y (tgt_vars g v)) -> rename tgt (rename base f) = f.
Proof.
  intros H. rewrite rename_rename. apply rename_id. intros y Hy. apply H in Hy. apply in_map_iff in Hy as [z [<- _]]. reflexivity.
Qed.
Lemma base_tgt_round v f : (forall y, In y (vars f) -> In y (gpv g v)) -> rename base (rename tgt f) = f.
Proof.
  intros H. rewrite rename_rename. apply rename_id. intros y Hy. apply base_tgt. apply (rep_base _ (wf_rep g W) v y), H, Hy.
Qed.

(** Adding to the under-approximation. *)
Lemma add_under K st v b f : inv K st -> (forall x, In x (vars f) -> In x (gpv g v)) ->
  (forall r, holds r f -> derivable g v (args r (gpv g v))) -> (logProof = true -> forall r, holds r f -> id_for (s_db st) f v <> None) ->
  inv K (mkS (ainsert (s_under st) v b f) (s_over st) (s_db st) (s_low st)).
Proof.
  intros V Hv Hd Hid. destruct V as [A1 A2 A3 A4 A5 A6 A7 A8 A9]. split; cbn [s_under s_over s_db s_low]; auto.
  - intros b' v' t Ht. apply ainsert_in in Ht as [Ht|[-> [-> ->]]]; eauto.
  - intros b' v' t r Ht Hr. apply ainsert_in in Ht as [Ht|[-> [-> ->]]]; eauto.
  - intros b' Hb. apply ainsert_in. left. auto.
  - intros Lp b' v' t r Ht Hr. apply ainsert_in in Ht as [Ht|[-> [-> ->]]]; eauto.
Qed.
(** Adding to the database. *)
Lemma add_db K st d : inv K st -> db_ok (s_db st ++ [d]) -> inv K (mkS (s_under st) (s_over st) (s_db st ++ [d]) (s_low st)).
Proof.
  intros V Hd. destruct V as [A1 A2 A3 A4 A5 A6 A7 A8 A9]. split; cbn [s_under s_over s_db s_low]; auto.
  intros Lp b v t r Ht Hr. apply id_for_app. eapply A9; eauto.
Qed.
Lemma db_ok_snoc db e f ks : db_ok db -> In e (gedges g) ->
  Forall2 (fun k p => k < length db /\ exists d', nth_error db k = Some d' /\ de_node d' = p) ks (efrom e) ->
  db_ok (db ++ [mkDE f (eto e) (eid e) ks]).
Proof.
  intros [D0 D] He F.
  assert (X : forall (ks : list nat) (ps : list sym) i, i <= length db ->
     Forall2 (fun k p => k < i /\ exists d', nth_error db k = Some d' /\ de_node d' = p) ks ps ->
     Forall2 (fun k p => k < i /\ exists d', nth_error (db ++ [mkDE f (eto e) (eid e) ks]) k = Some d' /\ de_node d' = p) ks ps).
  { intros ks0 ps i Hi0 H. generalize (mkDE f (eto e) (eid e) ks0). intros z. induction H as [|k p ks' ps' [H1 [d' [H2 H3]]] H IH]; constructor; auto.
    split; [exact H1|]. exists d'. split; [|exact H3]. rewrite nth_error_app1; [exact H2|lia]. }
  split.
  - rewrite nth_error_app1; [exact D0|]. eapply nth_lt; eauto.
  - intros i d Hi0 E. destruct (Nat.lt_ge_cases i (length db)) as [L|L].
    + rewrite nth_error_app1 in E by exact L. destruct (D i d Hi0 E) as [e' [H1 [H2 [H3 H4]]]]. exists e'. split; [exact H1|]. split; [exact H2|]. split; [exact H3|].
      clear -H4 L. induction H4 as [|k p ks' ps' [H1 [d' [H2 H3]]] H IH]; constructor; auto.
      split; [exact H1|]. exists d'. split; [|exact H3]. rewrite nth_error_app1; [exact H2|lia].
    + rewrite nth_error_app2 in E by exact L. destruct (i - length db) as [|n] eqn:En; [|destruct n; discriminate E]. injection E as <-.
      exists e. split; [exact He|]. split; [reflexivity|]. split; [reflexivity|]. cbn [de_prems].
      replace i with (length db) by lia. apply X; [lia|exact F].
Qed.

(** ** Must reachability *)
Lemma check_must_ok K st p : inv K st -> 0 < pob_b p ->
  match check_must c check mbp ord logProof g st (inc g (pob_v p)) p with
  | MThrow => oracle_failed
  | MNo => unknown \/ forall e r, In e (gedges g) -> eto e = pob_v p -> holds r (edge_must c ord st e (pred (pob_b p))) -> holds r (pob_c p) -> False
  | MYes st' => inv K st' /\ s_over st' = s_over st /\ s_low st' = s_low st /\ exists vs, derivable g (pob_v p) vs
  end.
Proof.
  intros V Hb. unfold check_must. destruct (pob_b p) as [|b] eqn:Eb; [lia|]. cbn [pred].
  set (sums := map (fun e => (e, edge_must c ord st e b)) (inc g (pob_v p))).
  destruct (sat check (cor c (map snd sums)) (pob_c p)) as [m| |] eqn:Es.
  - apply sat_sat in Es as [S1 S2]. apply (cor_sem c Hct) in S1. apply Exists_exists in S1 as [t [Ht S1]].
    apply in_map_iff in Ht as [x [<- Hx]].
    destruct (find (fun x => holdsb m (snd x)) sums) as [[e s]|] eqn:Ef; [|apply (find_none _ _ Ef) in Hx; unfold holds in S1; congruence].
    apply find_some in Ef as [E1 E2]. cbn [snd] in E2. change (holds m s) in E2. apply in_map_iff in E1 as [e' [E1 He]]. injection E1 as -> <-.
    apply inc_spec in He as [He Et].
    destruct (mbp (edge_must c ord st e b) (tgt_vars g (pob_v p)) m) as [f|] eqn:Em; [|right; right; eauto].
    destruct (Hm _ _ _ _ Em E2) as [M1 M2 M3].
    assert (Dm : forall r, holds r (rename base f) -> derivable g (pob_v p) (args r (gpv g (pob_v p)))).
    { intros r Hr. apply (proj1 (holds_rename base _ _ base_sort)) in Hr. destruct (M3 _ Hr) as [r' [Ag Hr']].
      pose proof (must_derivable K st e b r' V He Hr') as D. rewrite Et in D. erewrite <- (args_agree _ r') in D by exact Ag.
      unfold tgt_vars in D. rewrite args_map in D by apply tgt_sort.
      rewrite (args_agree _ r) in D; [exact D|]. intros v Hv. rewrite base_tgt; [reflexivity|]. apply (rep_base _ (wf_rep g W) _ v Hv). }
    assert (Vf : forall x, In x (vars (rename base f)) -> In x (gpv g (pob_v p))) by (intros y; apply tgt_inv_base, M1).
    assert (Dx : exists vs, derivable g (pob_v p) vs).
    { exists (args m (tgt_vars g (eto e))). rewrite <- Et. apply (must_derivable K st e b); auto. }
    destruct logProof eqn:Lp.
    + unfold log_fact.
      set (st0 := mkS (ainsert (s_under st) (pob_v p) (S b) (rename base f)) (s_over st) (s_db st) (s_low st)).
      pose proof (proj1 (edge_sum_sem _ _ _) E2) as [_ E3].
      destruct (find_prems_ok K st b m (instances (efrom e)) V Lp E3) as [ks [Ek Fk]].
      assert (Ek' : find_prems ord st0 b m (instances (efrom e)) = Some ks).
      { rewrite <- Ek. clear. induction (instances (efrom e)) as [|[v i] l IH]; [reflexivity|]. cbn [find_prems]. rewrite IH.
        replace (s_under st0 b v) with (s_under st b v); [reflexivity|]. unfold st0. cbn [s_under]. unfold ainsert.
        replace (Nat.eqb b (S b)) with false; [reflexivity|]. symmetry. apply Nat.eqb_neq. lia. }
      rewrite Ek'. cbn [option_map]. rewrite (instances_fst (efrom e)) in Fk.
      assert (V1 : inv K (mkS (s_under st) (s_over st) (s_db st ++ [mkDE (rename base f) (pob_v p) (eid e) ks]) (s_low st))).
      { apply add_db; [exact V|]. rewrite <- Et. apply db_ok_snoc; [apply (i_db K st V)|exact He|exact Fk]. }
      split; [|split; [reflexivity|split; [reflexivity|exact Dx]]].
      apply (add_under K _ (pob_v p) (S b) (rename base f) V1 Vf Dm). intros _ r _. cbn [s_db].
      apply (id_for_last (s_db st) (mkDE (rename base f) (pob_v p) (eid e) ks)).
    + split; [|split; [reflexivity|split; [reflexivity|exact Dx]]]. apply add_under; auto. rewrite Lp. discriminate.
  - right. intros e r He Et H1 H2. apply (sat_unsat _ _ r Es); [|exact H2]. apply (cor_sem c Hct). apply Exists_exists.
    exists (edge_must c ord st e b). split; [|exact H1]. unfold sums. rewrite map_map. cbn [snd]. apply (in_map (fun e => edge_must c ord st e b)). apply inc_spec. auto.
  - left. eapply sat_unknown; eauto.
Qed.

(** ** Predecessors *)
Definition pob_ok (K : nat) (p : pob) : Prop := vertex g (pob_v p) /\ pob_b p <= K /\ (pob_b p = 0 -> pob_v p = entry) /\
  (forall x, In x (vars (pob_c p)) -> In x (tgt_vars g (pob_v p))) /\ (pob_v p = exit -> p = mkPob exit K tt_true) /\ (pob_v p = entry -> unknown).

Definition no_must (st : sstate) (p : pob) (b : nat) : Prop :=
  forall e r, In e (gedges g) -> eto e = pob_v p -> holds r (edge_must c ord st e b) -> holds r (pob_c p) -> False.
Definition new_pob_ok (K : nat) (st : sstate) (p : pob) (e : hedge) (b : nat) (q : pob) : Prop := pob_ok K q.

Lemma over0 K st v i r b : inv K st -> vertex g v -> holds r (rename (src i) (may_sum c ord st b v)) -> b = 0 -> v = entry.
Proof.
  intros V Hv H ->. destruct (Nat.eq_dec v entry) as [E|N]; [exact E|]. exfalso. pose proof (proj1 (may_sem _ _ _ _ _) H) as X. specialize (X tt_false (i_o0 K st V v Hv N)).
  discriminate X.
Qed.
Lemma entry_must K st b i r : inv K st -> b <= K -> holds r (rename (src i) (must_sum c ord st b entry)).
Proof. intros V Hb. apply must_sem. exists tt_true. split; [apply (i_ue K st V b Hb)|reflexivity]. Qed.
Lemma entry_may K st b i r : inv K st -> holds r (rename (src i) (may_sum c ord st b entry)).
Proof. intros V. apply must_sem || apply may_sem. intros t Ht. apply holds_rename; [apply src_sort|]. apply (i_oe K st V b t _ Ht). Qed.

Lemma mk_pob_ok K st e b v i f t m : inv K st -> In e (gedges g) -> In (v, i) (instances (efrom e)) -> b < K ->
  mbp t (src_vars g (v, i)) m = Some f -> holds m t -> holds m (rename (src i) (may_sum c ord st b v)) -> (v = entry -> unknown) ->
  pob_ok K (mkPob v b (rename tgt f)).
Proof.
  intros V He Hv Hb Em Ht Hmay Hent. pose proof (in_instances _ _ _ Hv) as Hin. assert (Vv : vertex g v) by (right; right; exists e; auto).
  destruct (Hm _ _ _ _ Em Ht) as [M1 _ _]. unfold pob_ok. cbn [pob_v pob_b pob_c]. split; [exact Vv|]. split; [lia|].
  split; [apply (over0 K st v i m b V Vv Hmay)|]. split; [|split; [|exact Hent]].
  - intros x Hx. rewrite vars_rename in Hx. apply in_map_iff in Hx as [y [<- Hy]]. apply M1 in Hy. apply in_map_iff in Hy as [z [<- Hz]]. apply in_map_iff. exists z. auto.
  - intros ->. destruct (wf_exit g W e He Hin).
Qed.

Lemma refine_ok K st e p b : inv K st -> In e (gedges g) -> eto e = pob_v p -> b < K -> (unknown \/ no_must st p b) ->
  (exists r, holds r (edge_may c ord st e b) /\ holds r (pob_c p)) ->
  forall l k, (forall j, nth_error l j = nth_error (instances (efrom e)) (k + j)) ->
    (k = 0 \/ (forall r, holds r (edge_mixed c ord st e b (pred k)) -> holds r (pob_c p) -> False)) ->
    match refine_loop c check mbp ord g st e p b k l with
    | PYes q => pob_ok K q
    | PNo => False
    | PThrow => oracle_failed
    end.
Proof.
  intros V He Et Hb Nm [r0 [R1 R2]]. induction l as [|[v i] l IH]; intros k Hl Hk; cbn [refine_loop].
  - (* all sources over-approximated: the edge was feasible *)
    exfalso. destruct Hk as [->|Hk].
    + specialize (Hl 0). cbn in Hl. pose proof (wf_from g W e He) as N. destruct (efrom e) as [|v l]; [destruct (N eq_refl)|]. discriminate Hl.
    + apply (Hk r0); [|exact R2]. apply mixed_sem. apply edge_sum_sem in R1 as [R1 R3]. split; [exact R1|]. intros j q i Hj.
      assert (j < k).
      { destruct (Nat.lt_ge_cases j k) as [L|L]; [exact L|]. specialize (Hl (j - k)). replace (k + (j - k)) with j in Hl by lia. rewrite Hj in Hl. destruct (j - k); discriminate Hl. }
      replace (Nat.leb j (pred k)) with true by (symmetry; apply Nat.leb_le; lia). apply R3. eapply nth_error_In; eauto.
  - pose proof (Hl 0) as Hv. rewrite Nat.add_0_r in Hv. cbn [nth_error] in Hv. symmetry in Hv.
    destruct (sat check (edge_mixed c ord st e b k) (pob_c p)) as [m| |] eqn:Es.
    + apply sat_sat in Es as [S1 S2]. destruct (mbp _ _ m) as [f|] eqn:Em; [|right; right; eauto]. cbn [fst].
      pose proof (proj1 (mixed_sem _ _ _ _ _) S1) as [L1 L2]. pose proof (L2 k v i Hv) as Lk. rewrite Nat.leb_refl in Lk.
      eapply (mk_pob_ok K st e b v i f _ m); eauto; [eapply nth_error_In; eauto|apply (cand_sem c Hct); auto|].
      intros ->. destruct Nm as [U|Nm]; [exact U|]. exfalso. destruct Hk as [->|Hk].
      * apply (Nm e m He Et); [|exact S2]. apply edge_sum_sem. split; [exact L1|]. intros q j Hq. apply In_nth_error in Hq as [n Hn].
        specialize (L2 n q j Hn). destruct n as [|n]; [|exact L2]. rewrite Hv in Hn. injection Hn as <- <-. apply (entry_must K); [exact V|lia].
      * apply (Hk m); [|exact S2]. apply mixed_sem. split; [exact L1|]. intros n q j Hn. specialize (L2 n q j Hn).
        destruct (Nat.leb_spec n k) as [Le|Gt].
        -- destruct (Nat.eq_dec n k) as [->|Nk].
           ++ rewrite Hv in Hn. injection Hn as <- <-. destruct (Nat.leb k (pred k)); [apply (entry_may K); exact V|apply (entry_must K); [exact V|lia]].
           ++ replace (Nat.leb n (pred k)) with true by (symmetry; apply Nat.leb_le; lia). exact L2.
        -- replace (Nat.leb n (pred k)) with false by (symmetry; apply Nat.leb_gt; lia). exact L2.
    + apply IH.
      * intros j. specialize (Hl (S j)). cbn [nth_error] in Hl. rewrite Hl. f_equal. lia.
      * right. cbn [pred]. intros r. apply (sat_unsat _ _ r Es).
    + left. eapply sat_unknown; eauto.
Qed.

Lemma predecessor_ok K st e p : inv K st -> In e (gedges g) -> eto e = pob_v p -> 0 < pob_b p <= K -> (unknown \/ no_must st p (pred (pob_b p))) ->
  match predecessor c check mbp ord g st p e with
  | PYes q => pob_ok K q
  | PNo => forall r, holds r (edge_may c ord st e (pred (pob_b p))) -> holds r (pob_c p) -> False
  | PThrow => oracle_failed
  end.
Proof.
  intros V He Et Hb Nm. unfold predecessor. destruct (pob_b p) as [|b]; [lia|]. cbn [pred] in *.
  assert (Hyper : match (if term_eqb (edge_may c ord st e b) tt_false then PNo else
      match sat check (edge_may c ord st e b) (pob_c p) with SAT _ => refine_loop c check mbp ord g st e p b 0 (instances (efrom e)) | UNSAT => PNo | UNKNOWN => PThrow end) with
      | PYes q => pob_ok K q | PNo => forall r, holds r (edge_may c ord st e b) -> holds r (pob_c p) -> False | PThrow => oracle_failed end).
  { destruct (term_eqb_spec (edge_may c ord st e b) tt_false) as [Ef|_]; [intros r H; rewrite Ef in H; discriminate H|].
    destruct (sat check (edge_may c ord st e b) (pob_c p)) as [m| |] eqn:Es.
    - apply sat_sat in Es as [S1 S2]. pose proof (refine_ok K st e p b V He Et ltac:(lia) Nm (ex_intro _ m (conj S1 S2)) (instances (efrom e)) 0 (fun j => eq_refl) (or_introl eq_refl)) as X.
      destruct (refine_loop c check mbp ord g st e p b 0 (instances (efrom e))); [exact X|destruct X|exact X].
    - intros r. apply (sat_unsat _ _ r Es).
    - left. eapply sat_unknown; eauto. }
  destruct (efrom e) as [|v [|v' l]] eqn:Ef; [exact Hyper| |exact Hyper]. clear Hyper.
  destruct (sat check (edge_may c ord st e b) (pob_c p)) as [m| |] eqn:Es.
  - apply sat_sat in Es as [S1 S2]. destruct (mbp _ _ m) as [f|] eqn:Em; [|right; right; eauto].
    pose proof (proj1 (edge_sum_sem _ _ _) S1) as [L1 L2]. rewrite Ef in L2. cbn in L2. pose proof (L2 v 0 (or_introl eq_refl)) as Lv.
    eapply (mk_pob_ok K st e b v 0 f _ m); eauto; [rewrite Ef; left; reflexivity|lia|apply (cand_sem c Hct); auto|].
    intros ->. destruct Nm as [U|Nm]; [exact U|]. exfalso. apply (Nm e m He Et); [|exact S2]. apply edge_sum_sem. split; [exact L1|].
    intros q j Hq. rewrite Ef in Hq. destruct Hq as [Hq|[]]. injection Hq as <- <-. apply (entry_must K); [exact V|lia].
  - intros r. apply (sat_unsat _ _ r Es).
  - left. eapply sat_unknown; eauto.
Qed.
Lemma predecessors_ok K st p es : inv K st -> (forall e, In e es -> In e (gedges g) /\ eto e = pob_v p) -> 0 < pob_b p <= K -> (unknown \/ no_must st p (pred (pob_b p))) ->
  match predecessors c check mbp ord g st p es with
  | None => oracle_failed
  | Some qs => Forall (pob_ok K) qs /\ (qs = [] -> forall e r, In e es -> holds r (edge_may c ord st e (pred (pob_b p))) -> holds r (pob_c p) -> False)
  end.
Proof.
  intros V Hes Hb Nm. induction es as [|e es IH]; cbn [predecessors]; [split; [constructor|intros _ e r []]|].
  specialize (IH (fun e' He => Hes e' (or_intror He))). destruct (Hes e (or_introl eq_refl)) as [He Et].
  pose proof (predecessor_ok K st e p V He Et Hb Nm) as X. destruct (predecessor c check mbp ord g st p e) as [q| |].
  - destruct (predecessors c check mbp ord g st p es) as [qs|]; [|exact IH]. cbn [option_map]. split; [constructor; [exact X|apply IH]|discriminate].
  - destruct (predecessors c check mbp ord g st p es) as [qs|]; [|exact IH]. destruct IH as [I1 I2]. split; [exact I1|].
    intros E e' r [<-|He'] H1 H2; [eapply X; eauto|eapply (I2 E); eauto].
  - exact X.
Qed.

(** ** Blocking *)
Lemma add_over K st v b f : inv K st -> (forall x, In x (vars f) -> In x (gpv g v)) -> v <> entry ->
  (forall b' e r, b = S b' -> In e (gedges g) -> eto e = v -> holds r (edge_may c ord st e b') -> holds r (rename tgt f)) ->
  forall l, inv K (mkS (s_under st) (ainsert (s_over st) v b f) (s_db st) l).
Proof.
  intros V Hv Nv Hb l.
  assert (L : over_le st (mkS (s_under st) (ainsert (s_over st) v b f) (s_db st) l)) by (intros b' v' t Ht; apply ainsert_in; auto).
  destruct V as [A1 A2 A3 A4 A5 A6 A7 A8 A9]. split; cbn [s_under s_over s_db s_low]; auto.
  - intros b' v' t Ht. apply ainsert_in in Ht as [Ht|[-> [-> ->]]]; eauto.
  - intros v' Hv' N. apply ainsert_in. auto.
  - intros b' t r Ht. apply ainsert_in in Ht as [Ht|[_ [E _]]]; [eauto|congruence].
  - intros b' e t r He Ht Hr. apply (edge_may_le st _ e b' r L) in Hr. apply ainsert_in in Ht as [Ht|[<- [E ->]]]; [eauto|]. eapply Hb; eauto.
Qed.
Lemma block_ok K st p : inv K st -> pob_ok K p -> pob_v p <> entry ->
  (forall e r, In e (inc g (pob_v p)) -> holds r (edge_may c ord st e (pred (pob_b p))) -> holds r (pob_c p) -> False) ->
  match block c check itp ord st (inc g (pob_v p)) p with
  | None => oracle_failed
  | Some st' => inv K st' /\ over_le st st' /\ (pob_v p = exit -> forall r, ~ Forall (holds r) (s_over st' K exit))
  end.
Proof.
  intros V [P1 [P2 [P3 [P4 [P5 P6]]]]] Ne Hbl. unfold block. destruct (pob_b p) as [|b] eqn:Eb; [destruct (Ne (P3 eq_refl))|]. cbn [pred] in Hbl.
  set (A := cor c (map (fun e => edge_may c ord st e b) (inc g (pob_v p)))).
  assert (HA : forall r, holds r A -> holds r (pob_c p) -> False).
  { intros r HA H. apply (cor_sem c Hct) in HA. apply Exists_exists in HA as [t [Ht HA]]. apply in_map_iff in Ht as [e [<- He]]. eapply Hbl; eauto. }
  destruct (check [A; pob_c p]) as [m| |] eqn:Ec.
  - exfalso. apply (check_sat _ Hc) in Ec. apply Forall_cons_iff in Ec as [E1 E2]. apply Forall_inv in E2. eapply HA; eauto.
  - destruct (itp [A] [pob_c p]) as [J|] eqn:Ei; [|right; left; eauto]. destruct (Hi _ _ _ Ei) as [I1 I2 I3].
    assert (Jv : forall x, In x (vars J) -> In x (tgt_vars g (pob_v p))).
    { intros x Hx. apply P4. apply I3 in Hx as [_ Hx]. unfold lvars in Hx. cbn in Hx. rewrite app_nil_r in Hx. exact Hx. }
    split; [|split].
    + apply add_over; [exact V|intros x; apply tgt_inv_base, Jv|exact Ne|]. intros b' e r E He Et Hr. injection E as <-.
      rewrite (tgt_base_round (pob_v p) J Jv). apply I1. constructor; [|constructor]. apply (cor_sem c Hct). apply Exists_exists.
      exists (edge_may c ord st e b). split; [|exact Hr]. apply (in_map (fun e => edge_may c ord st e b)). apply inc_spec. auto.
    + intros b' v' t Ht. cbn [s_over]. apply ainsert_in. auto.
    + intros Ex r F. specialize (P5 Ex). rewrite Forall_forall in F. cbn [s_over] in F. assert (E5 : pob_v p = exit /\ pob_b p = K /\ pob_c p = tt_true) by (rewrite P5; auto).
      destruct E5 as [_ [E5 E6]].
      assert (HJ : holds r (rename base J)) by (apply F; apply ainsert_in; right; split; [lia|]; split; [congruence|reflexivity]).
      apply (proj1 (holds_rename base _ _ base_sort)) in HJ. apply (I2 _ HJ). rewrite E6. constructor; [reflexivity|constructor].
  - left. eexists. exact Ec.
Qed.

(** ** Bounded safety *)
Lemma exit_args v vs : derivable g v vs -> v = exit -> vs = [].
Proof. intros D E. destruct D as [|e r He Hd Hl]; [reflexivity|]. rewrite E. unfold tgt_vars. rewrite (rep_exit _ (wf_rep g W)). reflexivity. Qed.
Definition exit_blocked (st : sstate) (b : nat) : Prop := forall r, ~ Forall (holds r) (s_over st b exit).
Lemma blocked_le st st' b : over_le st st' -> exit_blocked st b -> exit_blocked st' b.
Proof. intros L H r F. apply (H r). rewrite Forall_forall in *. intros t Ht. apply F, L, Ht. Qed.

Lemma bound_loop_ok K fuel : 0 < K -> forall st q, inv K st -> (forall p, In p q -> pob_ok K p) -> (In (mkPob exit K tt_true) q \/ exit_blocked st K) ->
  match bound_loop c check itp mbp ord pick logProof g fuel st q with
  | BSafe st' => inv K st' /\ over_le st st' /\ exit_blocked st' K
  | BUnsafe st' => inv K st' /\ (unknown \/ derivable g exit [])
  | BThrow => oracle_failed
  | BFuel => True
  end.
Proof.
  intros Kpos. induction fuel as [|f IH]; intros st q V Q X; cbn [bound_loop]; [exact Logic.I|]. pose proof (Hp q) as P.
  destruct (pick q) as [[p q']|].
  2:{ subst q. split; [exact V|]. split; [apply over_le_refl|]. destruct X as [[]|X]. exact X. }
  assert (Pin : forall x, In x q <-> x = p \/ In x q').
  { intros x. split; intros H; [apply (Permutation_in _ P) in H; destruct H; auto|]. apply (Permutation_in _ (Permutation_sym P)). destruct H as [->|H]; [left; reflexivity|right; exact H]. }
  pose proof (Q p (proj2 (Pin p) (or_introl eq_refl))) as Pp. pose proof Pp as [P1 [P2 [P3 [P4 [P5 P6]]]]].
  destruct (Nat.eqb_spec (pob_v p) entry) as [Ee|Ne]; [split; [exact V|left; auto]|].
  assert (Hb : 0 < pob_b p) by (destruct (pob_b p); [destruct (Ne (P3 eq_refl))|lia]).
  pose proof (check_must_ok K st p V Hb) as M. destruct (check_must c check mbp ord logProof g st (inc g (pob_v p)) p) as [st'| |].
  - destruct M as [V' [Eo [_ [vs D]]]]. destruct (Nat.eqb_spec (pob_v p) exit) as [Ex|Nx].
    + split; [exact V'|]. right. rewrite Ex in D. rewrite (exit_args _ _ D eq_refl) in D. exact D.
    + assert (L : over_le st st') by (intros b v t; rewrite Eo; auto).
      pose proof (IH st' q' V' (fun x Hx => Q x (proj2 (Pin x) (or_intror Hx)))) as R.
      assert (X' : In (mkPob exit K tt_true) q' \/ exit_blocked st' K).
      { destruct X as [X|X]; [|right; apply (blocked_le st st' K L X)]. destruct (proj1 (Pin _) X) as [Y|Y]; [|left; exact Y]. exfalso. apply Nx. rewrite <- Y. reflexivity. }
      specialize (R X'). destruct (bound_loop c check itp mbp ord pick logProof g f st' q'); auto. destruct R as [R1 [R2 R3]]. split; [exact R1|]. split; [eapply over_le_trans; eauto|exact R3].
  - assert (Nm : unknown \/ no_must st p (pred (pob_b p))) by exact M.
    pose proof (predecessors_ok K st p (inc g (pob_v p)) V (fun e He => proj1 (inc_spec (pob_v p) e) He) (conj Hb P2) Nm) as R.
    destruct (predecessors c check mbp ord g st p (inc g (pob_v p))) as [[|n nps]|]; [| |exact R].
    + destruct R as [_ R]. pose proof (block_ok K st p V Pp Ne (R eq_refl)) as B. destruct (block c check itp ord st (inc g (pob_v p)) p) as [st'|]; [|exact B].
      destruct B as [V' [L B]]. pose proof (IH st' q' V' (fun x Hx => Q x (proj2 (Pin x) (or_intror Hx)))) as T.
      assert (X' : In (mkPob exit K tt_true) q' \/ exit_blocked st' K).
      { destruct X as [X|X]; [|right; apply (blocked_le st st' K L X)]. destruct (proj1 (Pin _) X) as [Y|Y]; [|left; exact Y]. right. intros r. apply B. rewrite <- Y. reflexivity. }
      specialize (T X'). destruct (bound_loop c check itp mbp ord pick logProof g f st' q'); auto. destruct T as [R1 [R2 R3]]. split; [exact R1|]. split; [eapply over_le_trans; eauto|exact R3].
    + destruct R as [R _]. apply IH; [exact V| |destruct X as [X|X]; [left; apply in_app_iff; auto|right; exact X]].
      intros x Hx. apply in_app_iff in Hx as [Hx|Hx]; [apply Q, Hx|]. rewrite Forall_forall in R. apply R, Hx.
  - exact M.
Qed.

(** ** Pushing *)
Lemma over_grow K st o l : inv K st -> (forall b v t, In t (s_over st b v) -> In t (o b v)) ->
  (forall b v t, In t (o b v) -> In t (s_over st b v) \/ ((forall x, In x (vars t) -> In x (gpv g v)) /\ (v = entry -> forall r, holds r t) /\
     forall b' e r, b = S b' -> In e (gedges g) -> eto e = v -> holds r (edge_may c ord st e b') -> holds r (rename tgt t))) ->
  inv K (mkS (s_under st) o (s_db st) l).
Proof.
  intros V L N.
  assert (L' : over_le st (mkS (s_under st) o (s_db st) l)) by exact L.
  destruct V as [A1 A2 A3 A4 A5 A6 A7 A8 A9]. split; cbn [s_under s_over s_db s_low]; auto.
  - intros b' v' t Ht. destruct (N _ _ _ Ht) as [Ht'|[H _]]; eauto.
  - intros b' t r Ht. destruct (N _ _ _ Ht) as [Ht'|[_ [H _]]]; eauto.
  - intros b' e t r He Ht Hr. apply (edge_may_le st _ e b' r L') in Hr. destruct (N _ _ _ Ht) as [Ht'|[_ [_ H]]]; [eauto|]. eapply H; eauto.
Qed.
Lemma fold_insert pushed v l : forall o b' v' t, In t (fold_left (fun o t => ainsert o v (S l) (rename base t)) pushed o b' v') <->
  In t (o b' v') \/ (b' = S l /\ v' = v /\ exists u, In u pushed /\ t = rename base u).
Proof.
  induction pushed as [|u us IH]; intros o b' v' t; cbn [fold_left].
  - split; [auto|]. intros [H|[_ [_ [u [[] _]]]]]. exact H.
  - rewrite IH, ainsert_in. split.
    + intros [[H|[E1 [E2 E3]]]|[E1 [E2 [w [Hw E3]]]]]; [auto| |]; right; split; auto; split; auto; eexists; (split; [|exact E3]); [left; reflexivity|right; exact Hw].
    + intros [H|[E1 [E2 [w [[<-|Hw] E3]]]]]; auto. right. split; auto. split; auto. eauto.
Qed.
Lemma act_base i : vtag (act i) = TBase. Proof. reflexivity. Qed.
Lemma no_act_body st v l K : inv K st -> no_act [cor c (map (fun e => edge_may c ord st e l) (inc g v))].
Proof.
  intros V t i [<-|[]] Hx. apply (cor_vars c Hct) in Hx as [t [Ht Hx]]. apply in_map_iff in Ht as [e [<- He]]. apply inc_spec in He as [He _].
  unfold edge_may, edge_sum in Hx. apply (cand_vars c Hct) in Hx as [t [[<-|Ht] Hx]]; [exact (Na e i He Hx)|].
  apply in_map_iff in Ht as [[p j] [<- _]]. rewrite vars_rename in Hx. apply in_map_iff in Hx as [y [E _]]. discriminate E.
Qed.
Lemma no_act_tgt l : no_act (map (rename tgt) l).
Proof. intros t i Ht Hx. apply in_map_iff in Ht as [u [<- _]]. rewrite vars_rename in Hx. apply in_map_iff in Hx as [y [E _]]. discriminate E. Qed.

Lemma try_push_ok K st v l : inv K st -> v <> entry ->
  match try_push c check ord g st v l with
  | None => unknown
  | Some (st', b) => inv K st' /\ over_le st st' /\ (forall v', s_over st' l v' = s_over st l v') /\
      (b = true -> forall t, In t (s_over st l v) -> In t (s_over st' (S l) v))
  end.
Proof.
  intros V Nv. unfold try_push. set (body := cor c (map (fun e => edge_may c ord st e l) (inc g v))).
  set (fs := filter (fun t => negb (ahas (s_over st) v (S l) t)) (ord (s_over st l v))).
  assert (Hfs : forall t, In t (s_over st l v) -> In t (s_over st (S l) v) \/ In t fs).
  { intros t Ht. destruct (ahas (s_over st) v (S l) t) eqn:E.
    - left. unfold ahas in E. apply existsb_exists in E as [x [Hx Ex]]. apply term_eqb_iff in Ex. subst x. exact Hx.
    - right. apply filter_In. rewrite E. split; [apply ord_in, Ht|reflexivity]. }
  assert (Hfv : forall t, In t fs -> forall x, In x (vars t) -> In x (gpv g v)).
  { intros t Ht. apply filter_In in Ht as [Ht _]. apply ord_of in Ht. apply (i_ov K st V l v t Ht). }
  destruct (map (rename tgt) fs) as [|c0 cs] eqn:Ecs.
  { split; [exact V|]. split; [apply over_le_refl|]. split; [reflexivity|]. intros _ t Ht. destruct (Hfs t Ht) as [H|H]; [exact H|].
    apply (in_map (rename tgt)) in H. rewrite Ecs in H. destruct H. }
  rewrite <- Ecs. clear c0 cs Ecs. set (cands := map (rename tgt) fs).
  destruct (C46_batch check [body] cands Hc (no_act_body st v l K V) (no_act_tgt fs)) as [B1 [B2 _]].
  destruct (implied_by check (S (length cands)) [body] cands) as [pushed| |] eqn:Ei.
  2:{ apply (batch_throws _ _ _ _ _ Ei). }
  2:{ destruct (B2 eq_refl). }
  specialize (B1 _ _ Ei).
  assert (Pu : forall u, In u pushed -> exists t, In t fs /\ u = rename tgt t /\ rename base u = t).
  { intros u Hu. apply B1 in Hu as [Hu _]. apply in_map_iff in Hu as [t [<- Ht]]. exists t. split; [exact Ht|]. split; [reflexivity|]. apply (base_tgt_round v), Hfv, Ht. }
  split; [|split; [|split]].
  - apply over_grow; [exact V|intros b' v' t Ht; apply fold_insert; auto|]. intros b' v' t Ht. apply fold_insert in Ht as [Ht|[-> [-> [u [Hu ->]]]]]; [auto|].
    right. destruct (Pu u Hu) as [t [Ht [Eu Et]]]. rewrite Et. split; [apply Hfv, Ht|]. split; [congruence|].
    intros b e r E He Ev Hr. injection E as <-. rewrite <- Eu. apply B1 in Hu as [_ Hu]. apply Hu. constructor; [|constructor]. apply (cor_sem c Hct). apply Exists_exists.
    exists (edge_may c ord st e l). split; [|exact Hr]. apply (in_map (fun e => edge_may c ord st e l)). apply inc_spec. auto.
  - intros b' v' t Ht. cbn [s_over]. apply fold_insert. auto.
  - intros v'. cbn [s_over]. clear. generalize (s_over st). induction pushed as [|u us IH]; intros o; [reflexivity|]. cbn [fold_left]. rewrite IH. unfold ainsert.
    replace (Nat.eqb l (S l)) with false; [reflexivity|]. symmetry. apply Nat.eqb_neq. lia.
  - intros Eb t Ht. apply Nat.eqb_eq in Eb. cbn [s_over]. apply fold_insert. destruct (Hfs t Ht) as [H|H]; [auto|]. right. split; [reflexivity|]. split; [reflexivity|].
    exists (rename tgt t). split; [|symmetry; apply (base_tgt_round v), Hfv, H].
    destruct (C46_batch_order check _ _ _ _ Ei) as [keep [Lk Ek]]. rewrite Ek in Eb. pose proof (filter_full _ _ Lk Eb) as Full. rewrite Full in Ek. rewrite Ek. apply in_map, H.
Qed.

Lemma push_level_ok K l vs : forall st ind, inv K st ->
  match push_level c check ord g st l vs ind with
  | None => unknown
  | Some (st', b) => inv K st' /\ over_le st st' /\ (forall v', s_over st' l v' = s_over st l v') /\
      (b = true -> ind = true /\ forall v t, In v vs -> v <> entry -> In t (s_over st l v) -> In t (s_over st' (S l) v))
  end.
Proof.
  induction vs as [|v vs IH]; intros st ind V; cbn [push_level].
  - split; [exact V|]. split; [apply over_le_refl|]. split; [reflexivity|]. intros ->. split; [reflexivity|]. intros v t [].
  - destruct (Nat.eqb_spec v entry) as [->|Nv].
    + specialize (IH st ind V). destruct (push_level c check ord g st l vs ind) as [[st' b]|]; [|exact IH]. destruct IH as [I1 [I2 [I3 I4]]].
      split; [exact I1|]. split; [exact I2|]. split; [exact I3|]. intros Eb. destruct (I4 Eb) as [J1 J2]. split; [exact J1|]. intros u t [<-|Hu] Nu; [congruence|auto].
    + pose proof (try_push_ok K st v l V Nv) as T. destruct (try_push c check ord g st v l) as [[st1 b1]|]; [|exact T]. destruct T as [T1 [T2 [T3 T4]]].
      specialize (IH st1 (ind && b1) T1). destruct (push_level c check ord g st1 l vs (ind && b1)) as [[st' b]|]; [|exact IH]. destruct IH as [I1 [I2 [I3 I4]]].
      split; [exact I1|]. split; [eapply over_le_trans; eauto|]. split; [intros v'; rewrite I3; apply T3|]. intros Eb. destruct (I4 Eb) as [J1 J2].
      apply andb_true_iff in J1 as [J1 ->]. split; [exact J1|]. intros u t [<-|Hu] Nu Ht; [apply I2, (T4 eq_refl), Ht|]. apply (J2 u t Hu Nu). rewrite T3. exact Ht.
Qed.
Definition closed_level (st : sstate) (l : nat) : Prop := forall v t, vertex g v -> v <> entry -> In t (s_over st l v) -> In t (s_over st (S l) v).
Lemma ind_levels_ok K levels : forall st, inv K st ->
  match ind_levels c check ord g st levels with
  | IThrow => unknown
  | INo st' => inv K st' /\ over_le st st'
  | IYes st' l => inv K st' /\ over_le st st' /\ In l levels /\ closed_level st' l
  end.
Proof.
  induction levels as [|l ls IH]; intros st V; cbn [ind_levels]; [split; [exact V|apply over_le_refl]|].
  pose proof (push_level_ok K l (hnodes g) st true V) as P. destruct (push_level c check ord g st l (hnodes g) true) as [[st' [|]]|]; [| |exact P]; destruct P as [P1 [P2 [P3 P4]]].
  - split; [exact P1|]. split; [exact P2|]. split; [left; reflexivity|]. intros v t Hv Nv Ht. apply (proj2 (P4 eq_refl) v t); [apply (hnodes_spec g (wf_ids g W)), Hv|exact Nv|]. rewrite <- P3. exact Ht.
  - specialize (IH st' P1). destruct (ind_levels c check ord g st' ls) as [st2 l2|st2|]; [| |exact IH].
    + destruct IH as [I1 [I2 [I3 I4]]]. split; [exact I1|]. split; [eapply over_le_trans; eauto|]. split; [right; exact I3|exact I4].
    + destruct IH as [I1 I2]. split; [exact I1|eapply over_le_trans; eauto].
Qed.

(** ** The solution *)
Lemma definitions_solution K st l : inv K st -> closed_level st l -> exit_blocked st l -> solution g (definitions c simp ord g st l).
Proof.
  intros V Cl Bl.
  assert (Sm : forall i v r, holds r (rename (src i) (simp (may_sum c ord st l v))) <-> forall t, In t (s_over st l v) -> holds r (rename (src i) t)).
  { intros i v r. rewrite <- may_sem. rewrite !holds_rename by apply src_sort. apply (Hs (may_sum c ord st l v)). }
  assert (Dom : forall v, vertex g v -> definitions c simp ord g st l v <> None).
  { intros v Hv. unfold definitions. destruct (Nat.eqb v entry); [discriminate|]. destruct (Nat.eqb v exit); [discriminate|].
    replace (smem v (hnodes g)) with true; [discriminate|]. symmetry. apply smem_in. apply (hnodes_spec g (wf_ids g W)), Hv. }
  assert (Step : forall e r, In e (gedges g) -> holds r (efla e) ->
     (forall p i d, In (p, i) (instances (efrom e)) -> definitions c simp ord g st l p = Some d -> holds r (rename (src i) d)) ->
     forall t, In t (s_over st l (eto e)) -> holds r (rename tgt t)).
  { intros e r He Hl Hsrc t Ht. assert (Vt : vertex g (eto e)) by (right; right; exists e; auto).
    apply (i_os K st V l e t r He); [apply Cl; [exact Vt|apply (wf_entry g W e He)|exact Ht]|].
    apply edge_sum_sem. split; [exact Hl|]. intros p i Hpi. pose proof (in_instances _ _ _ Hpi) as Hin. assert (Vp : vertex g p) by (right; right; exists e; auto).
    unfold sym in *. destruct (Nat.eq_dec p entry) as [->|Np]; [apply (entry_may K); exact V|].
    destruct (Nat.eq_dec p exit) as [->|Nx]; [destruct (wf_exit g W e He Hin)|].
    specialize (Hsrc p i (simp (may_sum c ord st l p)) Hpi). apply may_sem. apply Sm. apply Hsrc. unfold definitions.
    replace (Nat.eqb p entry) with false by (symmetry; apply Nat.eqb_neq, Np). replace (Nat.eqb p exit) with false by (symmetry; apply Nat.eqb_neq, Nx).
    replace (smem p (hnodes g)) with true; [reflexivity|]. symmetry. apply smem_in. apply (hnodes_spec g (wf_ids g W)), Vp. }
  split.
  - intros p d Hd x Hx. unfold definitions in Hd. destruct (Nat.eqb p entry); [injection Hd as <-; destruct Hx|]. destruct (Nat.eqb p exit); [injection Hd as <-; destruct Hx|].
    destruct (smem p (hnodes g)); [|discriminate]. injection Hd as <-. apply (proj2 (Hs _)) in Hx. unfold may_sum in Hx. apply (cand_vars c Hct) in Hx as [t [Ht Hx]].
    apply ord_of in Ht. apply (i_ov K st V l p t Ht x Hx).
  - exists tt_true. split; [reflexivity|]. intros r. reflexivity.
  - exists tt_false. split; [reflexivity|]. intros r H. discriminate H.
  - intros e He. assert (Vt : vertex g (eto e)) by (right; right; exists e; auto). split; [intros p Hin; apply Dom; right; right; exists e; auto|].
    destruct (Nat.eq_dec (eto e) exit) as [Ex|Nx].
    + exists tt_false. split; [rewrite Ex; reflexivity|]. intros r Hl Hsrc. exfalso. apply (Bl (fun v => r (tgt v))). apply Forall_forall. intros t Ht.
      rewrite <- Ex in Ht. apply (proj1 (holds_rename tgt _ _ tgt_sort)). eapply Step; eauto.
    + exists (simp (may_sum c ord st l (eto e))). split.
      * unfold definitions. replace (Nat.eqb (eto e) entry) with false by (symmetry; apply Nat.eqb_neq, (wf_entry g W e He)).
        replace (Nat.eqb (eto e) exit) with false by (symmetry; apply Nat.eqb_neq, Nx).
        replace (smem (eto e) (hnodes g)) with true; [reflexivity|]. symmetry. apply smem_in. apply (hnodes_spec g (wf_ids g W)), Vt.
      * intros r Hl Hsrc. apply holds_rename; [apply tgt_sort|]. apply (Hs _). unfold may_sum. apply (cand_sem c Hct). apply Forall_forall. intros t Ht. apply ord_of in Ht.
        apply (proj1 (holds_rename tgt _ _ tgt_sort)). eapply Step; eauto.
Qed.
End Proofs.
