(** * Spacer: when the reconstruction of the derivation cannot fail. *)
From Coq Require Import Permutation.
From Verif Require Import Syntax Solver Graph GraphOps GraphOpsProofs ValidatorModel ValidatorProofs GraphSem SimpleTransModel SimpleTransProofs UnreachProofs ChainProofs NontermProofs EntailModel PdkModel SymExProofs SpacerModel SpacerProofs SpacerRun.
Open Scope nat_scope.
Open Scope list_scope.

(** A projection that keeps exactly the values the model gives to the kept variables (and is [true] when there are
    none). *)
Definition point_mbp (mbp : mbp_fn) : Prop := forall f keep m h, mbp f keep m = Some h -> holds m f ->
  (forall r, holds r h -> forall v, In v keep -> In v (vars f) -> coerce (vsort v) (r v) = coerce (vsort v) (m v)) /\ (keep = [] -> h = tt_true).

Section Total.
Variable c : ctors. Hypothesis Hct : ctors_ok c.
Variable check : check_fn. Hypothesis Hc : check_ok check.
Variable itp : itp_fn. Hypothesis Hi : itp_ok itp.
Variable mbp : mbp_fn. Hypothesis Hm : mbp_ok mbp. Hypothesis Hpt : point_mbp mbp.
Variable simp : term -> term. Hypothesis Hs : simp_ok simp.
Variable ord : list term -> list term. Hypothesis Ho : ord_ok ord.
Variable pick : list pob -> option (pob * list pob). Hypothesis Hp : pick_ok pick.
Variable logProof : bool. Hypothesis Lp : logProof = true.
Variable g : hgraph. Hypothesis W : wf_graph g. Hypothesis Na : labels_no_act g.

Definition prem_at (db : list dentry) (m : valuation) (k : nat) (pi : sym * nat) : Prop :=
  exists d', nth_error db k = Some d' /\ de_node d' = fst pi /\ holds m (rename (src (snd pi)) (de_fact d')).
Definition explains (db : list dentry) (d : dentry) : Prop := exists e, In e (gedges g) /\ eid e = de_edge d /\ eto e = de_node d /\
  forall r, holds r (de_fact d) -> exists m, holds m (efla e) /\ Forall2 (prem_at db m) (de_prems d) (instances (efrom e)) /\
    forall v, In v (gpv g (de_node d)) -> m (tgt v) = r v.
Definition full (db : list dentry) : Prop :=
  (forall d, In d db -> forall x, In x (vars (de_fact d)) -> In x (gpv g (de_node d))) /\
  forall i d, 0 < i -> nth_error db i = Some d -> explains db d.

Lemma prem_at_app db z m k pi : prem_at db m k pi -> prem_at (db ++ [z]) m k pi.
Proof. intros [d' [H1 H2]]. exists d'. split; [|exact H2]. rewrite nth_error_app1; [exact H1|]. apply nth_error_Some. congruence. Qed.
Lemma explains_app db z d : explains db d -> explains (db ++ [z]) d.
Proof.
  intros [e [H1 [H2 [H3 H4]]]]. exists e. split; [exact H1|]. split; [exact H2|]. split; [exact H3|]. intros r Hr. destruct (H4 r Hr) as [m [M1 [M2 M3]]].
  exists m. split; [exact M1|]. split; [|exact M3]. clear -M2. induction M2; constructor; auto. apply prem_at_app; assumption.
Qed.
Lemma full_snoc db d : full db -> (forall x, In x (vars (de_fact d)) -> In x (gpv g (de_node d))) -> explains db d -> full (db ++ [d]).
Proof.
  intros [F1 F2] Hv Hx. split.
  - intros d' Hd. apply in_app_iff in Hd as [Hd|[<-|[]]]; [apply F1, Hd|exact Hv].
  - intros i d' Hi0 E. apply explains_app. destruct (Nat.lt_ge_cases i (length db)) as [L|L].
    + rewrite nth_error_app1 in E by exact L. eapply F2; eauto.
    + rewrite nth_error_app2 in E by exact L. destruct (i - length db) as [|n]; [|destruct n; discriminate E]. injection E as <-. exact Hx.
Qed.

(** The premises that are recorded hold in the model. *)
Lemma find_prems_at st b m l ks : find_prems ord st b m l = Some ks -> Forall2 (prem_at (s_db st) m) ks l.
Proof.
  revert ks. induction l as [|[v i] l IH]; intros ks E; cbn [find_prems] in E; [injection E as <-; constructor|].
  destruct (find _ _) as [t|] eqn:Ef; [|discriminate]. destruct (id_for _ _ _) as [k|] eqn:Ek; [|discriminate]. destruct (find_prems _ _ _ _ _) as [ks'|]; [|discriminate].
  injection E as <-. constructor; [|apply IH; reflexivity]. apply find_some in Ef as [_ Hf]. apply id_for_some in Ek as [d [H1 [H2 H3]]].
  exists d. split; [exact H1|]. split; [exact H2|]. rewrite H3. exact Hf.
Qed.

Lemma check_must_full K st p : inv c ord logProof g K st -> full (s_db st) ->
  match check_must c check mbp ord logProof g st (inc g (pob_v p)) p with
  | MYes st' => full (s_db st') /\ (pob_v p = exit -> id_for (s_db st') tt_true exit <> None)
  | _ => True
  end.
Proof.
  intros V F. unfold check_must. destruct (pob_b p) as [|b] eqn:Eb; [exact Logic.I|].
  set (sums := map (fun e => (e, edge_must c ord st e b)) (inc g (pob_v p))).
  destruct (sat check (cor c (map snd sums)) (pob_c p)) as [m| |] eqn:Es; try exact Logic.I.
  apply (sat_sat check Hc) in Es as [S1 S2]. apply (cor_sem c Hct) in S1. apply Exists_exists in S1 as [t [Ht S1]]. apply in_map_iff in Ht as [x [<- Hx]].
  destruct (find (fun x => holdsb m (snd x)) sums) as [[e s]|] eqn:Ef; [|apply (find_none _ _ Ef) in Hx; unfold holds in S1; congruence].
  apply find_some in Ef as [E1 E2]. cbn [snd] in E2. change (holds m s) in E2. apply in_map_iff in E1 as [e' [E1 He]]. injection E1 as -> <-.
  apply (inc_spec g W) in He as [He Et].
  destruct (mbp (edge_must c ord st e b) (tgt_vars g (pob_v p)) m) as [f|] eqn:Em; [|exact Logic.I].
  destruct (Hm _ _ _ _ Em E2) as [M1 M2 M3]. destruct (Hpt _ _ _ _ Em E2) as [P1 P2].
  rewrite Lp. unfold log_fact.
  destruct (find_prems _ _ _ _ _) as [ks|] eqn:Ek; [|exact Logic.I]. cbn [option_map s_db].
  apply find_prems_at in Ek. cbn [s_db] in Ek.
  split.
  - apply full_snoc; [exact F|cbn [de_fact de_node]; intros y; apply (tgt_inv_base g W), M1|].
    exists e. split; [exact He|]. split; [reflexivity|]. split; [exact Et|]. cbn [de_fact de_node de_prems]. intros r Hr.
    apply (proj1 (holds_rename base _ _ base_sort)) in Hr.
    set (m' := fun v => if inb v (tgt_vars g (pob_v p)) then r (base v) else m v).
    exists m'. split; [|split].
    + assert (X : holds m' (edge_must c ord st e b)).
      { apply (proj2 (holds_agree_ev m' m (edge_must c ord st e b) (fun v Hv => ltac:(
          cbn [eval]; unfold m'; destruct (inb v (tgt_vars g (pob_v p))) eqn:Ein; [apply inb_true in Ein; apply (P1 _ Hr v Ein Hv)|reflexivity])))). exact E2. }
      apply (edge_sum_sem c Hct) in X as [X _]. exact X.
    + clear -Ek F W. induction Ek as [|k pi ks l [d' [D1 [D2 D3]]] Ek IH]; constructor; [|exact IH]. exists d'. split; [exact D1|]. split; [exact D2|].
      assert (A : forall v, In v (vars (rename (src (snd pi)) (de_fact d'))) -> eval m' (Var v) = eval m (Var v)).
      { intros v Hv. rewrite vars_rename in Hv. apply in_map_iff in Hv as [y [<- Hy]]. cbn [eval]. unfold m'.
        destruct (inb (src (snd pi) y) (tgt_vars g (pob_v p))) eqn:Ein; [|reflexivity]. apply inb_true in Ein. apply in_map_iff in Ein as [z [Ez _]]. discriminate Ez. }
      apply (proj2 (holds_agree_ev m' m _ A)). exact D3.
    + intros v Hv. unfold m'. assert (Y : In (tgt v) (tgt_vars g (pob_v p))) by (apply in_map, Hv). apply inb_true in Y. rewrite Y.
      rewrite base_tgt; [reflexivity|]. apply (rep_base _ (wf_rep g W) _ v Hv).
  - intros Ex. assert (Z : f = tt_true) by (apply P2; rewrite Ex; unfold tgt_vars; rewrite (rep_exit _ (wf_rep g W)); reflexivity). rewrite Z, Ex.
    exact (id_for_last (s_db st) (mkDE tt_true exit (eid e) ks)).
Qed.

Lemma bound_loop_full K fuel : 0 < K -> forall st q, inv c ord logProof g K st -> full (s_db st) -> (forall p, In p q -> pob_ok check g K p) ->
  match bound_loop c check itp mbp ord pick logProof g fuel st q with
  | BSafe st' => full (s_db st')
  | BUnsafe st' => full (s_db st') /\ (unknown check \/ id_for (s_db st') tt_true exit <> None)
  | _ => True
  end.
Proof.
  intros Kpos. induction fuel as [|f IH]; intros st q V F Q; cbn [bound_loop]; [exact Logic.I|]. pose proof (Hp q) as P.
  destruct (pick q) as [[p q']|]; [|exact F].
  assert (Pin : forall x, x = p \/ In x q' -> In x q).
  { intros x H. apply (Permutation_in _ (Permutation_sym P)). destruct H as [->|H]; [left; reflexivity|right; exact H]. }
  pose proof (Q p (Pin p (or_introl eq_refl))) as Pp. pose proof Pp as [P1 [P2 [P3 [P4 [P5 P6]]]]].
  destruct (Nat.eqb_spec (pob_v p) entry) as [Ee|Ne]; [split; [exact F|left; auto]|].
  assert (Hb : 0 < pob_b p) by (destruct (pob_b p); [destruct (Ne (P3 eq_refl))|lia]).
  pose proof (check_must_ok c Hct check Hc itp mbp Hm ord Ho logProof g W K st p V Hb) as M. pose proof (check_must_full K st p V F) as M'.
  destruct (check_must c check mbp ord logProof g st (inc g (pob_v p)) p) as [st'| |]; [| |exact Logic.I].
  - destruct M as [V' _]. destruct M' as [F' Fx]. destruct (Nat.eqb_spec (pob_v p) exit) as [Ex|Nx]; [split; [exact F'|right; apply Fx, Ex]|].
    apply IH; auto.
  - pose proof (predecessors_ok c Hct check Hc itp mbp Hm ord Ho logProof g W K st p (inc g (pob_v p)) V (fun e He => proj1 (inc_spec g W (pob_v p) e) He) (conj Hb P2) M) as R.
    destruct (predecessors c check mbp ord g st p (inc g (pob_v p))) as [[|n nps]|]; [| |exact Logic.I].
    + destruct R as [_ R]. pose proof (block_ok c Hct check Hc itp Hi mbp ord Ho logProof g W K st p V Pp Ne (R eq_refl)) as B.
      destruct (block c check itp ord st (inc g (pob_v p)) p) as [st'|] eqn:Ebl; [|exact Logic.I].
      assert (Ed : s_db st' = s_db st).
      { unfold block in Ebl. destruct (pob_b p); [discriminate|]. destruct (check _); try discriminate. destruct (itp _ _); [|discriminate]. injection Ebl as <-. reflexivity. }
      destruct B as [V' _]. apply IH; auto. rewrite Ed. exact F.
    + destruct R as [R _]. apply IH; [exact V|exact F|]. intros x Hx. apply in_app_iff in Hx as [Hx|Hx]; [apply Q, Hx|]. rewrite Forall_forall in R. apply R, Hx.
Qed.

(** Reconstruction: every instance on the stack satisfies the recorded fact. *)
Section RecT.
Variable db : list dentry. Hypothesis Hdb : db_ok g db. Hypothesis Hfull : full db.
Variable root : nat.
Variable dr : dentry. Hypothesis Hroot : nth_error db root = Some dr. Hypothesis Hexit : de_node dr = exit. Hypothesis Htrue : de_fact dr = tt_true.

Definition inst_sat (de : dentry) (inst : fact) : Prop := forall r, args r (gpv g (de_node de)) = snd inst -> holds r (de_fact de).
Definition prem_sat (k : nat) (p : fact) : Prop := exists d', nth_error db k = Some d' /\ de_node d' = fst p /\ inst_ok g p /\ inst_sat d' p.
Definition frame_sat (fr : frame) : Prop := exists de, nth_error db (f_id fr) = Some de /\
  (f_id fr = root \/ de_node de = fst (f_inst fr) /\ inst_ok g (f_inst fr) /\ inst_sat de (f_inst fr)) /\
  (f_prems fr = [] \/ Forall2 prem_sat (de_prems de) (f_prems fr)).

Lemma constraints_of m ks l : Forall2 (prem_at db m) ks l -> exists cs, premise_constraints db ks l = Some cs /\ Forall (holds m) cs.
Proof.
  induction 1 as [|k pi ks l [d' [D1 [D2 D3]]] F [cs [E H]]]; cbn [premise_constraints]; [eauto|]. rewrite D1, E. eexists. split; [reflexivity|]. constructor; assumption.
Qed.
Lemma preds_of m ks l : Forall2 (prem_at db m) ks l -> premise_preds db ks l = Some l.
Proof.
  induction 1 as [|k [p i] ks l [d' [D1 [D2 D3]]] F IH]; cbn [premise_preds]; [reflexivity|]. rewrite D1, IH. cbn [fst snd] in *. rewrite D2. reflexivity.
Qed.
Lemma sat_insts m0 m ks l cs : Forall2 (prem_at db m0) ks l -> premise_constraints db ks l = Some cs -> Forall (holds m) cs ->
  Forall2 prem_sat ks (map (fun pi => (fst pi, args m (src_vars g pi))) l).
Proof.
  intros F. revert cs. induction F as [|k [p i] ks l [d' [D1 [D2 D3]]] F IH]; intros cs E H; cbn [premise_constraints map] in *; [constructor|].
  rewrite D1 in E. destruct (premise_constraints db ks l) as [cs'|]; [|discriminate]. injection E as <-. apply Forall_cons_iff in H as [H1 H2]. cbn [fst snd] in *.
  constructor; [|apply (IH cs'); auto]. exists d'. split; [exact D1|]. split; [exact D2|]. split.
  - unfold inst_ok, tgt_vars, src_vars. cbn [fst snd]. apply (fits_map tgt _ _ tgt_sort). apply (fits_map (src i) _ _ (src_sort i)). apply fits_args.
  - intros r Hr. cbn [snd] in Hr. unfold src_vars in Hr. cbn [fst snd] in Hr. rewrite args_map in Hr by apply src_sort. rewrite D2 in Hr.
    apply (proj1 (holds_rename (src i) _ _ (src_sort i))) in H1. revert H1. apply holds_agree_ev. intros v Hv. apply (args_eq_ev _ _ _ (eq_sym Hr)) || apply (args_eq_ev _ _ _ Hr).
    rewrite <- D2. apply (proj1 Hfull d'); [eapply nth_error_In; eauto|exact Hv].
Qed.

Lemma prem_instances_total id de inst : 0 < id -> nth_error db id = Some de ->
  (de_node de = exit /\ de_fact de = tt_true \/ de_node de = fst inst /\ inst_ok g inst /\ inst_sat de inst) ->
  match prem_instances check g db de inst with Some ps => Forall2 prem_sat (de_prems de) ps | None => unknown check end.
Proof.
  intros Hid Hde Hin. destruct (proj2 Hfull id de Hid Hde) as [e [He [Ee [Et Ex]]]].
  unfold prem_instances. rewrite <- Ee, (hfind_in g (wf_ids g W) e He).
  assert (X : exists m, holds m (if Nat.eqb (eto e) exit then efla e else subst (fill (tgt_vars g (eto e)) inst) (efla e)) /\ Forall2 (prem_at db m) (de_prems de) (instances (efrom e))).
  { rewrite Et. destruct (Nat.eqb_spec (de_node de) exit) as [Hx|Nx].
    - destruct Hin as [[_ Ht]|[H1 [H2 H3]]].
      + destruct (Ex (fun _ => VBool true)) as [m [M1 [M2 _]]]; [rewrite Ht; reflexivity|]. exists m. auto.
      + destruct (Ex (fun _ => VBool true)) as [m [M1 [M2 _]]]; [|exists m; auto]. apply H3. unfold inst_ok, tgt_vars in H2.
        rewrite <- H1, Hx, (rep_exit _ (wf_rep g W)) in H2. rewrite Hx, (rep_exit _ (wf_rep g W)). inversion H2. reflexivity.
    - destruct Hin as [[H _]|[H1 [H2 H3]]]; [contradiction|]. unfold inst_ok in H2. rewrite <- H1 in H2.
      assert (Nd : NoDup (gpv g (de_node de))) by apply (rep_nodup _ (wf_rep g W)).
      assert (H2' : fits (gpv g (de_node de)) (snd inst)) by (apply (fits_map tgt _ _ tgt_sort), H2).
      set (r := upd (fun _ => VBool true) (fill (gpv g (de_node de)) inst)).
      assert (Hr : args r (gpv g (de_node de)) = snd inst) by (apply args_fill; assumption).
      destruct (Ex r (H3 r Hr)) as [m [M1 [M2 M3]]].
      assert (Ws : well_sorted (fill (tgt_vars g (de_node de)) inst)).
      { intros v u Hl r0. apply lookup_in in Hl. destruct (fill_well_sorted _ _ H2 v u Hl) as [x [-> Hx]]. exact Hx. }
      exists m. split; [|exact M2]. apply holds_subst; [exact Ws|].
      assert (Ndt : NoDup (tgt_vars g (de_node de))).
      { unfold tgt_vars. pose proof (fun v => rep_base _ (wf_rep g W) (de_node de) v) as Bs. clear -Nd Bs.
        induction Nd as [|x l Hx N IH]; cbn [map]; constructor; [|apply IH; intros v Hv; apply Bs; right; exact Hv].
        intros Hi. apply in_map_iff in Hi as [y [Ey Hy]]. apply Hx. replace x with y; [exact Hy|].
        pose proof (Bs y (or_intror Hy)) as By. pose proof (Bs x (or_introl eq_refl)) as Bx. destruct x as [a ta sa], y as [b tb sb]. cbn in *. subst. injection Ey as -> ->. reflexivity. }
      revert M1. apply holds_agree_ev. intros v Hv. destruct (in_dec var_dec v (tgt_vars g (de_node de))) as [Hin|Nin].
      + assert (A1 : args (upd m (fill (tgt_vars g (de_node de)) inst)) (tgt_vars g (de_node de)) = snd inst) by (apply args_fill; assumption).
        assert (A2 : args m (tgt_vars g (de_node de)) = snd inst).
        { unfold tgt_vars. rewrite args_map by apply tgt_sort. rewrite <- Hr. apply args_agree. intros w Hw. apply M3, Hw. }
        apply (args_eq_ev _ _ _ (eq_trans A1 (eq_sym A2)) v Hin) || (symmetry; apply (args_eq_ev _ _ _ (eq_trans A1 (eq_sym A2)) v Hin)).
      + cbn [eval]. unfold upd. destruct (lookup v (fill (tgt_vars g (de_node de)) inst)) as [u|] eqn:El; [|reflexivity].
        exfalso. apply Nin. apply lookup_in in El. apply (in_map fst) in El. rewrite fill_keys in El by exact H2. exact El. }
  destruct X as [m [X1 X2]]. destruct (constraints_of m _ _ X2) as [cs [Ec Hcs]]. rewrite Ec, (preds_of m _ _ X2).
  destruct (check _) as [m'| |] eqn:Eq.
  - apply (check_sat _ Hc) in Eq. apply Forall_app in Eq as [Eq _]. apply (sat_insts m m' _ _ cs); assumption.
  - exfalso. apply (check_unsat _ Hc _ Eq m). apply Forall_app. split; [exact Hcs|]. constructor; [exact X1|constructor].
  - exists (cs ++ [if Nat.eqb (eto e) exit then efla e else subst (fill (tgt_vars g (eto e)) inst) (efla e)]). exact Eq.
Qed.

Lemma rec_loop_total fuel : forall fs ds d, Forall frame_sat fs -> rec_loop check g fuel db root fs ds d = SpNoProof -> unknown check.
Proof.
  induction fuel as [|n IH]; intros fs ds d H E; cbn [rec_loop] in E; [discriminate|]. destruct fs as [|fr rest]; [discriminate|].
  apply Forall_cons_iff in H as [[de [H1 [H2 H3]]] Hr]. destruct (negb (Nat.eqb (f_id fr) root) && known ds (f_inst fr)); [eapply IH; eauto|].
  rewrite H1 in E.
  assert (Key : forall ps, Forall2 prem_sat (de_prems de) ps ->
     match filter (fun kp : nat * fact => negb (known ds (snd kp))) (combine (de_prems de) ps) with
     | [] => rec_loop check g n db root rest (ds ++ [(if Nat.eqb (de_node de) exit then (exit, []) else f_inst fr, length d)])
                (d ++ [mkStep (flat_map (fun p => match step_of ds p with Some i => [i] | None => [] end) ps) (if Nat.eqb (de_node de) exit then (exit, []) else f_inst fr) (de_edge de)])
     | missing => rec_loop check g n db root (rev (map (fun kp => mkF (fst kp) (snd kp) []) missing) ++ mkF (f_id fr) (f_inst fr) ps :: rest) ds d
     end = SpNoProof -> unknown check).
  { intros ps Fp E'. destruct (filter _ _) as [|kp ms] eqn:Em; [eapply IH; [exact Hr|exact E']|]. eapply IH; [|exact E']. apply Forall_app. split.
    - apply Forall_rev. apply Forall_forall. intros x Hx. apply in_map_iff in Hx as [[k p] [<- Hk]]. rewrite <- Em in Hk. apply filter_In in Hk as [Hk _].
      assert (Y : prem_sat k p). { clear -Fp Hk. induction Fp as [|a b la lb Hab F IHF]; [destruct Hk|]. destruct Hk as [E|Hk]; [injection E as <- <-; exact Hab|apply IHF, Hk]. }
      destruct Y as [d' [Y1 [Y2 [Y3 Y4]]]]. exists d'. cbn [f_id f_inst f_prems fst snd]. split; [exact Y1|]. split; [right; auto|left; reflexivity].
    - constructor; [|exact Hr]. exists de. cbn [f_id f_inst f_prems]. auto. }
  assert (Inst : f_id fr <> 0 -> match prem_instances check g db de (f_inst fr) with Some ps => Forall2 prem_sat (de_prems de) ps | None => unknown check end).
  { intros Nz. apply (prem_instances_total (f_id fr)); [lia|exact H1|]. destruct H2 as [E0|H2]; [left|right; exact H2]. rewrite E0, Hroot in H1. injection H1 as <-. auto. }
  destruct (Nat.eq_dec (f_id fr) 0) as [Z|Nz].
  - rewrite Z, (proj1 Hdb) in H1. injection H1 as <-. cbn [de_prems] in *. destruct (f_prems fr) as [|p ps]; [apply (Key []); [constructor|exact E]|].
    destruct H3 as [H3|H3]; [discriminate|]. inversion H3.
  - specialize (Inst Nz). destruct (de_prems de) as [|k0 ks0] eqn:Ep.
    + destruct (f_prems fr) as [|p ps]; [apply (Key []); [constructor|exact E]|]. destruct H3 as [H3|H3]; [discriminate|]. inversion H3.
    + destruct (f_prems fr) as [|p ps].
      * destruct (prem_instances check g db de (f_inst fr)) as [ps|]; [|exact Inst]. apply (Key ps Inst E).
      * destruct H3 as [H3|H3]; [discriminate|]. apply (Key _ H3 E).
Qed.
End RecT.

Lemma reconstruct_total fuel st : db_ok g (s_db st) -> full (s_db st) -> id_for (s_db st) tt_true exit <> None ->
  reconstruct check logProof g fuel st = SpNoProof -> unknown check.
Proof.
  intros D F N E. unfold reconstruct in E. rewrite Lp in E. destruct (id_for (s_db st) tt_true exit) as [root|] eqn:Er; [|destruct N; reflexivity].
  apply id_for_some in Er as [dr [E1 [E2 E3]]]. eapply (rec_loop_total (s_db st) D F root dr E1 E2 E3); [|exact E]. constructor; [|constructor].
  exists dr. cbn [f_id f_inst f_prems]. auto.
Qed.

Lemma run_total fuel inner : forall st k, inv c ord logProof g k st -> full (s_db st) -> (forall b, b <= k -> exit_blocked st b) ->
  run c check itp mbp simp ord pick logProof g fuel inner st (S k) = SpNoProof -> unknown check.
Proof.
  induction fuel as [|f IH]; intros st k V F Bk E; cbn [run] in E; [discriminate|]. unfold bound_safety in E.
  pose proof (add_entry_ok c Hct ord Ho logProof g W k st V) as V1. set (st1 := add_entry st (S k)) in *.
  assert (V2 : inv c ord logProof g (S k) (mkS (s_under st1) (s_over st1) (s_db st1) (S k))) by (destruct V1; split; assumption).
  assert (Le : over_le st (mkS (s_under st1) (s_over st1) (s_db st1) (S k))) by (intros b v t H; cbn [s_over]; unfold st1, add_entry; cbn [s_over]; apply ainsert_in; left; exact H).
  pose proof (bound_loop_ok c Hct check Hc itp Hi mbp Hm ord Ho pick Hp logProof g W (S k) inner ltac:(lia) _ [mkPob exit (S k) tt_true] V2) as X.
  pose proof (bound_loop_full (S k) inner ltac:(lia) _ [mkPob exit (S k) tt_true] V2 F) as X'.
  assert (Y : forall p, In p [mkPob exit (S k) tt_true] -> pob_ok check g (S k) p).
  { intros p [<-|[]]. split; [right; left; reflexivity|]. split; [cbn; lia|]. split; [cbn; lia|]. split; [intros x []|]. split; [reflexivity|]. cbn. discriminate. }
  specialize (X Y (or_introl (or_introl eq_refl))). specialize (X' Y).
  destruct (bound_loop _ _ _ _ _ _ _ _ _ _ _) as [st'|st'| |]; try discriminate.
  - destruct X as [V' [Le' Ex]]. unfold is_inductive in E.
    pose proof (ind_levels_ok c Hct check Hc ord Ho logProof g W Na (S k) (seq (s_low st') (S (S k) - s_low st')) st' V') as Z.
    assert (Bk' : forall b, b <= S k -> exit_blocked st' b).
    { intros b Hb. destruct (Nat.eq_dec b (S k)) as [->|N]; [exact Ex|]. eapply blocked_le; [|apply Bk; lia]. eapply over_le_trans; eauto. }
    assert (Db : forall levels s s', match ind_levels c check ord g s levels with IYes a _ | INo a => s' = a | IThrow => False end -> s_db s' = s_db s).
    { assert (T : forall s v l s' b, try_push c check ord g s v l = Some (s', b) -> s_db s' = s_db s).
      { intros s v l s' b Et. unfold try_push in Et. destruct (map _ _); [injection Et as <- _; reflexivity|]. destruct (implied_by _ _ _ _); try discriminate. injection Et as <- _. reflexivity. }
      assert (P : forall vs s l i s' b, push_level c check ord g s l vs i = Some (s', b) -> s_db s' = s_db s).
      { induction vs as [|v vs IHv]; intros s l i s' b Ep; cbn [push_level] in Ep; [injection Ep as <- _; reflexivity|]. destruct (Nat.eqb v entry); [eapply IHv; eauto|].
        destruct (try_push c check ord g s v l) as [[s1 b1]|] eqn:Et; [|discriminate]. rewrite (IHv _ _ _ _ _ Ep). eapply T; eauto. }
      induction levels as [|l ls IHl]; intros s s' H; cbn [ind_levels] in H; [subst; reflexivity|].
      destruct (push_level c check ord g s l (hnodes g) true) as [[s1 [|]]|] eqn:Ep; [|rewrite (IHl _ _ H)|destruct H].
      - subst s'. eapply P; eauto.
      - eapply P; eauto. }
    specialize (Db (seq (s_low st') (S (S k) - s_low st')) st').
    destruct (ind_levels _ _ _ _ _ _) as [st'' l|st''|]; try discriminate.
    destruct Z as [V'' Le'']. eapply IH; [exact V''| | |exact E].
    + rewrite (Db st'' eq_refl). exact X'.
    + intros b Hb. eapply blocked_le; [exact Le''|]. apply Bk', Hb.
  - destruct X' as [F' [U|N]]; [exact U|]. eapply (reconstruct_total inner st' (i_db _ _ _ _ _ _ (proj1 X)) F' N E).
Qed.
Theorem spacer_total fuel inner : spacer c check itp mbp simp ord pick logProof g fuel inner = SpNoProof -> unknown check.
Proof.
  intros E. unfold spacer in E. eapply run_total; [apply (init_inv c ord logProof g W)| | |exact E].
  - split; [intros d [<-|[]] x []|]. intros i d Hpos E0. destruct i as [|i]; [lia|]. destruct i; discriminate E0.
  - intros b Hb r H. assert (b = 0) by lia. subst b. rewrite Forall_forall in H.
    assert (X : In tt_false (s_over (init_state g) 0 exit)) by (apply (i_o0 _ _ _ _ _ _ (init_inv c ord logProof g W)); [right; left; reflexivity|discriminate]).
    apply H in X. discriminate X.
Qed.
End Total.
