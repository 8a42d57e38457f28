(** * Edge inlining: solutions. *)
From Verif Require Import Syntax Solver TransSys Graph GraphOps GraphOpsProofs ValidatorModel ValidatorProofs FormulaModel FormulaProofs FormulaProofs2 GraphSem Names SimpleTransModel UnreachProofs UnreachProofs2 SimpleTransProofs SimpleTransProofs2 ListLemmas MergeModel MergeProofs ChainProofs ChainStep ChainBack ExpandProofs PairProofs PairLabel ElimModel ElimProofs InlineModel InlineProofs.
Open Scope list_scope.
Open Scope nat_scope.

(** ** The interpolant *)
Lemma ei_inj i s j s' : ei i s = ei j s' -> i = j.
Proof. unfold ei. intros E. injection E as E _. apply (to_string_inj (Z.of_nat i) (Z.of_nat j)) in E. lia. Qed.

Section Itp.
Variable g : hgraph.
Hypothesis R : rep_wf (gpv g).
Variable v : sym.
Let n := length (gpv g v).
Lemma ei_len : length (ei_vars g v) = n.
Proof. unfold ei_vars. rewrite map_length, combine_length, seq_length. unfold n. lia. Qed.
Lemma ei_nth i : nth_error (ei_vars g v) i = option_map (fun b => ei i (vsort b)) (nth_error (gpv g v) i).
Proof.
  unfold ei_vars. rewrite nth_error_map. destruct (nth_error (gpv g v) i) as [b|] eqn:E.
  - rewrite (nth_error_combine_intro (seq 0 (length (gpv g v))) (gpv g v) i i b); [reflexivity| |exact E].
    apply nth_error_seq. apply nth_error_Some. congruence.
  - replace (nth_error (combine (seq 0 (length (gpv g v))) (gpv g v)) i) with (@None (nat * var)); [reflexivity|].
    symmetry. apply nth_error_None. rewrite combine_length, seq_length. apply nth_error_None in E. lia.
Qed.
Lemma ei_nodup : NoDup (ei_vars g v).
Proof.
  apply NoDup_nth_error. intros i j Hi E. rewrite ei_len in Hi. rewrite !ei_nth in E.
  destruct (nth_error (gpv g v) i) as [b|] eqn:Ei; [|apply nth_error_None in Ei; unfold n in Hi; lia].
  destruct (nth_error (gpv g v) j) as [c|] eqn:Ej; [|discriminate]. cbn in E. injection E as E. unfold sym in *.
  apply (to_string_inj (Z.of_nat i) (Z.of_nat j)) in E. lia.
Qed.
(** The variable that stands for an argument. *)
Lemma ei_of b : In b (gpv g v) -> exists i, nth_error (gpv g v) i = Some b /\ nth_error (ei_vars g v) i = Some (ei i (vsort b)).
Proof. intros H. apply In_nth_error in H as [i Hi]. exists i. split; [exact Hi|]. rewrite ei_nth, Hi. reflexivity. Qed.
Lemma ei_inv x : In x (ei_vars g v) -> exists i b, nth_error (gpv g v) i = Some b /\ x = ei i (vsort b).
Proof.
  intros H. apply In_nth_error in H as [i Hi]. rewrite ei_nth in Hi. destruct (nth_error (gpv g v) i) as [b|] eqn:E; [|discriminate]. injection Hi as <-. eauto.
Qed.
Lemma ei_base x : In x (ei_vars g v) -> vtag x = TBase.
Proof. intros H. apply ei_inv in H as [i [b [_ ->]]]. reflexivity. Qed.

Section Side.
(** A version of the arguments. *)
Variable f : var -> var.
Hypothesis Sf : sort_preserving f.
Hypothesis Nf : NoDup (map f (gpv g v)).
Let to := vlookup (combine (map f (gpv g v)) (ei_vars g v)).
Let fro := vlookup (combine (ei_vars g v) (map f (gpv g v))).
Lemma pair_in i b : nth_error (gpv g v) i = Some b -> In (f b, ei i (vsort b)) (combine (map f (gpv g v)) (ei_vars g v)) /\ In (ei i (vsort b), f b) (combine (ei_vars g v) (map f (gpv g v))).
Proof.
  intros H. assert (A : nth_error (map f (gpv g v)) i = Some (f b)) by (rewrite nth_error_map, H; reflexivity).
  assert (B : nth_error (ei_vars g v) i = Some (ei i (vsort b))) by (rewrite ei_nth, H; reflexivity).
  split; apply (nth_error_In _ i); apply nth_error_combine_intro; assumption.
Qed.
Lemma to_in i b : nth_error (gpv g v) i = Some b -> to (f b) = ei i (vsort b).
Proof. intros H. apply vlookup_combine; [exact Nf|apply pair_in, H]. Qed.
Lemma to_out u : ~ In u (map f (gpv g v)) -> to u = u.
Proof. intros H. apply vlookup_out. rewrite fst_combine_len; [exact H|]. rewrite map_length, ei_len. reflexivity. Qed.
Lemma fro_in i b : nth_error (gpv g v) i = Some b -> fro (ei i (vsort b)) = f b.
Proof. intros H. apply vlookup_combine; [exact ei_nodup|apply pair_in, H]. Qed.
Lemma fro_out u : vtag u <> TBase -> fro u = u.
Proof. intros H. apply vlookup_out. rewrite fst_combine_len; [|rewrite map_length, ei_len; reflexivity]. intros X. apply H, ei_base, X. Qed.
Lemma to_sort : sort_preserving to.
Proof.
  apply vlookup_sort. intros a b H. apply In_nth_error in H as [i H]. apply nth_error_combine in H as [H1 H2].
  rewrite nth_error_map in H1. rewrite ei_nth in H2. destruct (nth_error (gpv g v) i) as [c|]; [|discriminate]. injection H1 as <-. injection H2 as <-. cbn. symmetry. apply Sf.
Qed.
Lemma fro_sort : sort_preserving fro.
Proof.
  apply vlookup_sort. intros a b H. apply In_nth_error in H as [i H]. apply nth_error_combine in H as [H1 H2].
  rewrite nth_error_map in H2. rewrite ei_nth in H1. destruct (nth_error (gpv g v) i) as [c|]; [|discriminate]. injection H1 as <-. injection H2 as <-. cbn. apply Sf.
Qed.
Lemma side_holds r t : (forall u, In u (vars t) -> vtag u <> TBase) -> (holds (fun u => r (fro u)) (rename to t) <-> holds r t).
Proof.
  intros H. rewrite (holds_rename to _ _ to_sort). unfold holds, holdsb. rewrite (eval_ext (fun u => r (fro (to u))) r); [tauto|]. intros u Hu.
  f_equal. f_equal. destruct (in_dec var_dec u (map f (gpv g v))) as [X|X].
  - apply in_map_iff in X as [b [<- Hb]]. destruct (ei_of b Hb) as [i [Hi _]]. rewrite (to_in i b Hi), (fro_in i b Hi). reflexivity.
  - rewrite (to_out u X). apply fro_out, H, Hu.
Qed.
Let back := vlookup (combine (ei_vars g v) (gpv g v)).
Lemma back_in i b : nth_error (gpv g v) i = Some b -> back (ei i (vsort b)) = b.
Proof.
  intros H. apply vlookup_combine; [exact ei_nodup|]. apply (nth_error_In _ i). apply nth_error_combine_intro; [rewrite ei_nth, H; reflexivity|exact H].
Qed.
Lemma back_rename J : (forall u, In u (vars J) -> In u (ei_vars g v)) -> forall r, holds r (rename f (rename back J)) <-> holds (fun u => r (fro u)) J.
Proof.
  intros H r. rewrite rename_rename.
  assert (E : forall l : term, (forall u, In u (vars l) -> In u (ei_vars g v)) -> rename (fun u => f (back u)) l = rename fro l).
  { induction l as [u|c|h ts IH] using term_ind'; intros Hl; cbn [rename]; [|reflexivity|].
    - destruct (ei_inv u (Hl u (or_introl eq_refl))) as [i [b [Hi ->]]]. rewrite (back_in i b Hi), (fro_in i b Hi). reflexivity.
    - f_equal. apply map_ext_in. intros t Ht. rewrite Forall_forall in IH. apply IH; [exact Ht|]. intros u Hu. apply Hl. apply in_vars_app. eauto. }
  rewrite (E J H). apply holds_rename, fro_sort.
Qed.
End Side.

Variable check : check_fn.
Variable itp : itp_fn.
Hypothesis Hitp : itp_ok itp.
Lemma nodup_src : NoDup (src_vars g (v, 0)).
Proof. unfold src_vars. cbn [fst snd]. apply NoDup_map_inj_in; [|apply (rep_nodup _ R)]. intros a b Ha Hb X. apply (src_inj_v g R 0 0 v v a b Ha Hb X). Qed.
Lemma nodup_tgt : NoDup (tgt_vars g v).
Proof. unfold tgt_vars. apply NoDup_map_inj_in; [|apply (rep_nodup _ R)]. intros a b Ha Hb X. apply (tgt_inj_v g R v v a b Ha Hb X). Qed.
Theorem interpolant_for_ok A B J : interpolant_for check itp g v A B = Some J ->
  (forall u, In u (vars A) -> vtag u <> TBase) -> (forall u, In u (vars B) -> vtag u <> TBase) ->
  (forall u, In u (vars A) -> In u (vars B) -> ~ In u (tgt_vars g v) -> ~ In u (src_vars g (v, 0)) -> False) ->
  (forall u, In u (vars J) -> In u (gpv g v)) /\
  (forall r, holds r A -> holds r (rename tgt J)) /\ (forall r, holds r (rename (src 0) J) -> ~ holds r B).
Proof.
  intros H BA BB C. unfold interpolant_for in H. set (A1 := rename _ A) in *. set (B1 := rename _ B) in *.
  destruct (check [A1; B1]); try discriminate. destruct (itp [A1] [B1]) as [J0|] eqn:E; [|discriminate]. injection H as <-.
  apply Hitp in E. destruct E as [EA EB EV].
  assert (V : forall u, In u (vars J0) -> In u (ei_vars g v)).
  { intros u Hu. destruct (in_dec var_dec u (ei_vars g v)) as [I|N]; [exact I|]. exfalso. destruct (EV u Hu) as [HA HB].
    unfold lvars in HA, HB. cbn [map concat] in HA, HB. rewrite app_nil_r in HA, HB. unfold A1 in HA. unfold B1 in HB. rewrite vars_rename in HA, HB.
    apply in_map_iff in HA as [a [Ea Ha]]. apply in_map_iff in HB as [b [Eb Hb]]. unfold tgt_vars in Ea. unfold src_vars in Eb. cbn [fst snd] in Eb.
    assert (Xa : ~ In a (tgt_vars g v)). { intros X. apply in_map_iff in X as [c [<- Hc]]. destruct (ei_of c Hc) as [i [Hi Hn]]. rewrite (to_in tgt nodup_tgt i c Hi) in Ea. apply N. rewrite <- Ea. apply (nth_error_In _ i Hn). }
    assert (Xb : ~ In b (src_vars g (v, 0))). { intros X. apply in_map_iff in X as [c [<- Hc]]. destruct (ei_of c Hc) as [i [Hi Hn]]. cbn [snd] in Eb. rewrite (to_in (src 0) nodup_src i c Hi) in Eb. apply N. rewrite <- Eb. apply (nth_error_In _ i Hn). }
    rewrite (to_out tgt a Xa) in Ea. rewrite (to_out (src 0) b Xb) in Eb. subst a b. exact (C u Ha Hb Xa Xb). }
  split; [|split].
  - intros u Hu. rewrite vars_rename in Hu. apply in_map_iff in Hu as [x [<- Hx]]. destruct (ei_inv x (V x Hx)) as [i [b [Hi ->]]]. rewrite (back_in i b Hi). apply (nth_error_In _ i Hi).
  - intros r Hr. apply (back_rename tgt tgt_sort J0 V r). apply EA. constructor; [|constructor]. apply (side_holds tgt tgt_sort nodup_tgt r A BA), Hr.
  - intros r Hr Hb. apply (back_rename (src 0) (src_sort 0) J0 V r) in Hr. apply (EB _ Hr). constructor; [|constructor].
    apply (side_holds (src 0) (src_sort 0) nodup_src r B BB), Hb.
Qed.
End Itp.

(** ** Strengthening one definition *)
Lemma solution_ext g w w' : (forall p, w' p = w p) -> solution g w -> solution g w'.
Proof.
  intros E [A B C D]. split.
  - intros p d H. rewrite E in H. eauto.
  - rewrite E. exact B.
  - rewrite E. exact C.
  - intros e He. destruct (D e He) as [D1 [dt [D2 D3]]]. split; [intros p Hp; rewrite E; auto|]. exists dt. rewrite E. split; [exact D2|].
    intros r Hr Hp. apply D3; [exact Hr|]. intros p i d Hi Hd. apply (Hp p i d Hi). rewrite E. exact Hd.
Qed.
Lemma wset_same w p d : wset w p d p = Some d.
Proof. unfold wset. rewrite Nat.eqb_refl. reflexivity. Qed.
Lemma wset_other w p d q : q <> p -> wset w p d q = w q.
Proof. intros H. unfold wset. destruct (Nat.eqb_spec q p); [contradiction|reflexivity]. Qed.

(** [e] is the edge that is missing in the graph [g'] that [w] solves. *)
Lemma strengthen g g' e s w d X dt : gpv g' = gpv g -> (forall x, In x (gedges g) -> x <> e -> In x (gedges g')) ->
  (forall x, In x (gedges g) -> eid x = eid e -> x = e) ->
  solution g' w -> efrom e = [s] -> s <> entry -> s <> exit -> w s = Some d -> w (eto e) = Some dt ->
  (forall u, In u (vars X) -> In u (gpv g s)) -> (forall r, holds r X -> holds r d) ->
  (forall x r, In x (ins g s) -> holds r (efla x) -> (forall p i d, In (p, i) (instances (efrom x)) -> w p = Some d -> holds r (rename (src i) d)) -> holds r (rename tgt d) -> holds r (rename tgt X)) ->
  (forall r, holds r (efla e) -> holds r (rename (src 0) X) -> holds r (rename tgt dt)) ->
  solution g (wset w s X).
Proof.
  intros PV Sub Uniq [SV S0 S1 SE] Fe N1 N2 Ws Wt HV Himp Hin Hout.
  assert (Low : forall r x, (forall p i d0, In (p, i) (instances (efrom x)) -> wset w s X p = Some d0 -> holds r (rename (src i) d0)) ->
    forall p i d0, In (p, i) (instances (efrom x)) -> w p = Some d0 -> holds r (rename (src i) d0)).
  { intros r x H p i d0 Hp Hd. destruct (Nat.eq_dec p s) as [->|Np]; [|apply (H p i d0 Hp); rewrite wset_other; assumption].
    rewrite Ws in Hd. injection Hd as <-. specialize (H s i X Hp (wset_same w s X)). apply (holds_rename (src i) r _ (src_sort i)). apply Himp. apply (holds_rename (src i) r _ (src_sort i)), H. }
  split.
  - intros p d0 H u Hu. destruct (Nat.eq_dec p s) as [->|Np]; [rewrite wset_same in H; injection H as <-; auto|]. rewrite wset_other in H by exact Np. rewrite <- PV. exact (SV p d0 H u Hu).
  - rewrite wset_other; auto.
  - rewrite wset_other; auto.
  - intros x Hx.
    assert (Def : forall p, w p <> None -> wset w s X p <> None) by (intros p Hp; destruct (Nat.eq_dec p s) as [->|Np]; [rewrite wset_same; discriminate|rewrite wset_other; assumption]).
    destruct (Nat.eq_dec (eid x) (eid e)) as [Ei|Ni].
    + apply (Uniq x Hx) in Ei. subst x.
      assert (L : forall r, holds r (efla e) -> (forall p i d0, In (p, i) (instances (efrom e)) -> wset w s X p = Some d0 -> holds r (rename (src i) d0)) -> holds r (rename tgt dt)).
      { intros r Hr Hp. apply (Hout r Hr). apply (Hp s 0 X); [rewrite Fe; left; reflexivity|apply wset_same]. }
      split; [intros p Hp; rewrite Fe in Hp; destruct Hp as [<-|[]]; rewrite wset_same; discriminate|].
      destruct (Nat.eq_dec (eto e) s) as [Es|Ns].
      { exists X. rewrite Es. split; [apply wset_same|]. intros r Hr Hp. assert (d = dt) as <- by (rewrite Es in Wt; congruence).
        apply (Hin e r); [apply ins_in; auto|exact Hr|exact (Low r e Hp)|exact (L r Hr Hp)]. }
      { exists dt. rewrite wset_other by exact Ns. split; [exact Wt|exact L]. }
    + assert (x <> e) by congruence. destruct (SE x (Sub x Hx H)) as [D1 [d1 [D2 D3]]]. split; [auto|].
      destruct (Nat.eq_dec (eto x) s) as [Es|Ns].
      { exists X. rewrite Es in *. split; [apply wset_same|]. intros r Hr Hp. assert (d = d1) as <- by congruence. apply (Hin x r); [apply ins_in; auto|exact Hr|exact (Low r x Hp)|apply D3; [exact Hr|exact (Low r x Hp)]]. }
      { exists d1. rewrite wset_other by exact Ns. split; [exact D2|]. intros r Hr Hp. apply D3; [exact Hr|exact (Low r x Hp)]. }
Qed.
