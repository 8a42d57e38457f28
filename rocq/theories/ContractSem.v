(** * Meaning of the contracted graph: facts, definitions, paths. *)
From Coq Require Import Permutation.
From Verif Require Import Syntax Solver TransSys Graph GraphOps GraphOpsProofs GraphSem Names ListLemmas SimpleTransModel MergeModel MergeProofs LinearModel LinearProofs LinearPath ExpandProofs ContractModel ContractProofs ContractLabels NontermProofs.
Open Scope list_scope.
Open Scope nat_scope.

(** No predicate argument is named like the translator's auxiliary variables. *)
Definition et_free (g : lgraph) : Prop := forall p v k s, In v (lpv g p) -> vbase v <> vbase (etaux k s).

(** ** Definitions, at the level of facts *)
Definition ltrue (g : lgraph) (w : defs_t) (f : fact) : Prop :=
  exists d, w (fst f) = Some d /\ forall r, args r (lpv g (fst f)) = snd f -> holds r d.
Definition hyp (g : lgraph) : hgraph := mkGraph [] (lpv g) 0 0.
Lemma ltrue_args g w p r f : (forall q d, w q = Some d -> forall v, In v (vars d) -> In v (lpv g q)) -> sort_preserving f ->
  (ltrue g w (p, args r (map f (lpv g p))) <-> exists d, w p = Some d /\ holds r (rename f d)).
Proof. intros H. exact (wtrue_args (hyp g) w p r f H). Qed.
Theorem lsol_facts g w : lsolution g w <->
  (forall p d, w p = Some d -> forall v, In v (vars d) -> In v (lpv g p)) /\
  (exists d, w entry = Some d /\ forall r, holds r d) /\ (exists d, w exit = Some d /\ forall r, ~ holds r d) /\
  forall e, In e (ledges g) -> w (lfrom e) <> None /\ w (lto e) <> None /\ forall f f', lfollows g e f f' -> ltrue g w f -> ltrue g w f'.
Proof.
  split.
  - intros [V E0 E1 HE]. split; [exact V|]. split; [exact E0|]. split; [exact E1|]. intros e He.
    destruct (HE e He) as [ds [dt [Es [Et Ht]]]]. split; [congruence|]. split; [congruence|]. intros f f' [r [Hl [-> ->]]] T.
    apply (ltrue_args g w _ r cur V cur_sort) in T as [d [Ed T]]. apply (ltrue_args g w _ r nxt V nxt_sort). exists dt. split; [exact Et|].
    apply Ht; [exact Hl|]. rewrite Es in Ed. injection Ed as <-. exact T.
  - intros [V [E0 [E1 HE]]]. split; [exact V|exact E0|exact E1|]. intros e He. destruct (HE e He) as [N1 [N2 H]].
    destruct (w (lfrom e)) as [ds|] eqn:Es; [|congruence]. destruct (w (lto e)) as [dt|] eqn:Et; [|congruence]. exists ds, dt.
    split; [reflexivity|]. split; [reflexivity|]. intros r Hl Hs.
    assert (T : ltrue g w (lto e, args r (nxt_vars g (lto e)))).
    { apply (H (lfrom e, args r (cur_vars g (lfrom e)))); [exists r; auto|]. apply (ltrue_args g w _ r cur V cur_sort). eauto. }
    apply (ltrue_args g w _ r nxt V nxt_sort) in T as [d [Ed T]]. rewrite Et in Ed. injection Ed as <-. exact T.
Qed.

Section Sem.
Variable g : lgraph.
Hypothesis W : lwf g.
Variable V : list sym.
Hypothesis NV : NoDup V.
Hypothesis NF : names_free g V.
Hypothesis ET : et_free g.
Hypothesis Vent : ~ In entry V.
Hypothesis Vexit : ~ In exit V.
Variable ord : list var -> list var.
Hypothesis Hord : forall l, Permutation (ord l) l.
Variables (nv : sym) (nid : nat).
Hypothesis Fnv : ~ lvertex g nv.
Hypothesis Fnid : forall e, In e (ledges g) -> lid e <> nid.
Notation nvv := (nv_vars g V ord).
Notation at_loc := (at_loc V).
Notation g' := (contract g V nv nid ord).

Lemma nv_ne p : lvertex g p -> p <> nv. Proof. intros H ->. contradiction. Qed.
Lemma from_vertex e : In e (ledges g) -> lvertex g (lfrom e). Proof. intros H. right. right. eauto. Qed.
Lemma to_vertex e : In e (ledges g) -> lvertex g (lto e). Proof. intros H. right. right. eauto. Qed.
Lemma nv_entry : nv <> entry. Proof. intros E. apply Fnv. rewrite E. left. reflexivity. Qed.
Lemma nv_exit : nv <> exit. Proof. intros E. apply Fnv. rewrite E. right. left. reflexivity. Qed.
Lemma internal_spec e : internal V e = true <-> In (lfrom e) V /\ In (lto e) V.
Proof. unfold internal. rewrite andb_true_iff, !mem_in. tauto. Qed.

(** ** The edges of the contracted graph *)
Inductive cedge (e' : ledge) : Prop :=
| ce_loop : e' = loop_edge g V nv nid -> cedge e'
| ce_out e : In e (ledges g) -> In (lfrom e) V -> ~ In (lto e) V -> e' = out_edge g nv e -> cedge e'
| ce_in e : In e (ledges g) -> ~ In (lfrom e) V -> In (lto e) V -> e' = in_edge g V nv e -> cedge e'
| ce_same : In e' (ledges g) -> ~ In (lfrom e') V -> ~ In (lto e') V -> cedge e'.
Lemma cross_spec e : In e (ledges g) -> internal V e = false -> cedge (cross_edge g V nv e).
Proof.
  intros He Hi. unfold cross_edge. destruct (mem V (lfrom e)) eqn:M1.
  - pose proof M1 as M1'. apply mem_in in M1. eapply ce_out; [exact He|exact M1| |reflexivity]. intros X. apply mem_in in X. unfold internal in Hi. rewrite M1', X in Hi. discriminate.
  - assert (N1 : ~ In (lfrom e) V) by (intros X; apply mem_in in X; congruence). destruct (mem V (lto e)) eqn:M2.
    + apply mem_in in M2. eapply ce_in; eauto.
    + apply ce_same; auto. intros X; apply mem_in in X; congruence.
Qed.
Lemma contract_edge e' : In e' (ledges g') -> cedge e'.
Proof.
  cbn [ledges contract]. intros H. apply in_app_iff in H as [H|[<-|[]]]; [|apply ce_loop; reflexivity].
  apply in_map_iff in H as [e [<- H]]. apply filter_In in H as [He Hi]. apply cross_spec; [exact He|]. apply negb_true_iff, Hi.
Qed.
Lemma loop_in : In (loop_edge g V nv nid) (ledges g').
Proof. cbn [ledges contract]. apply in_app_iff. right. left. reflexivity. Qed.
Lemma cross_in e : In e (ledges g) -> internal V e = false -> In (cross_edge g V nv e) (ledges g').
Proof. intros He Hi. cbn [ledges contract]. apply in_app_iff. left. apply in_map, filter_In. rewrite Hi. auto. Qed.
Lemma out_in e : In e (ledges g) -> In (lfrom e) V -> ~ In (lto e) V -> In (out_edge g nv e) (ledges g').
Proof.
  intros He H1 H2. assert (X := cross_in e He). unfold cross_edge in X. rewrite (proj2 (mem_in V _) H1) in X. apply X. unfold internal. destruct (mem V (lto e)) eqn:E; [apply mem_in in E; contradiction|apply andb_false_r].
Qed.
Lemma in_in e : In e (ledges g) -> ~ In (lfrom e) V -> In (lto e) V -> In (in_edge g V nv e) (ledges g').
Proof.
  intros He H1 H2. assert (X := cross_in e He). unfold cross_edge in X. destruct (mem V (lfrom e)) eqn:E; [apply mem_in in E; contradiction|]. rewrite (proj2 (mem_in V _) H2) in X.
  apply X. unfold internal. rewrite E. reflexivity.
Qed.
Lemma same_in e : In e (ledges g) -> ~ In (lfrom e) V -> ~ In (lto e) V -> In e (ledges g').
Proof.
  intros He H1 H2. assert (X := cross_in e He). unfold cross_edge in X. destruct (mem V (lfrom e)) eqn:E; [apply mem_in in E; contradiction|]. destruct (mem V (lto e)) eqn:E2; [apply mem_in in E2; contradiction|].
  apply X. unfold internal. rewrite E. reflexivity.
Qed.

(** ** The loop *)
Lemma loop_parts_in e es : In e es -> internal V e = true -> forall ctr, exists k, In (translate_edge g V k e) (loop_parts g V ctr es).
Proof.
  induction es as [|x es IH]; intros H Hi ctr; [destruct H|]. destruct H as [->|H]; cbn [loop_parts].
  - rewrite Hi. exists ctr. left. reflexivity.
  - destruct (IH H Hi (ctr + length (laux_vars g x))) as [k Hk]. destruct (IH H Hi ctr) as [k' Hk']. destruct (internal V x); [exists k; right; exact Hk|exists k'; exact Hk'].
Qed.
Lemma loop_parts_inv t es : forall ctr, In t (loop_parts g V ctr es) -> exists e k, In e es /\ internal V e = true /\ t = translate_edge g V k e.
Proof.
  induction es as [|x es IH]; intros ctr; cbn [loop_parts]; [intros []|]. destruct (internal V x) eqn:Hi.
  - intros [<-|H]; [exists x, ctr; repeat split; auto; left; reflexivity|]. destruct (IH _ H) as [e [k [H1 [H2 H3]]]]. exists e, k. repeat split; auto. right; exact H1.
  - intros H. destruct (IH _ H) as [e [k [H1 [H2 H3]]]]. exists e, k. repeat split; auto. right; exact H1.
Qed.
Definition nfact (s : valuation) : fact := (nv, args s nvv).
Theorem loop_follows s s' : lfollows g' (loop_edge g V nv nid) (nfact s) (nfact s') <->
  exists e, In e (ledges g) /\ In (lfrom e) V /\ In (lto e) V /\ at_loc s (lfrom e) /\ at_loc s' (lto e) /\
    lfollows g e (lfrom e, args s (args_of g (lfrom e))) (lto e, args s' (args_of g (lto e))).
Proof.
  unfold lfollows at 1, loop_edge, nfact. cbn [lfrom lto lfla]. rewrite (nv_cur g V ord nv nid), (nv_nxt g V ord nv nid). split.
  - intros [R [H [E1 E2]]]. injection E1 as E1. injection E2 as E2. apply holds_or, Exists_exists in H as [t [Ht H]].
    apply loop_parts_inv in Ht as [e [k [He [Hi ->]]]]. apply internal_spec in Hi as [I1 I2]. exists e. split; [exact He|]. split; [exact I1|]. split; [exact I2|].
    apply (inner_label g W V ord Hord k e I1 I2 s s'). eauto.
  - intros [e [He [I1 [I2 H]]]]. destruct (loop_parts_in e (ledges g) He (proj2 (internal_spec e) (conj I1 I2)) 0) as [k Hk].
    destruct (proj2 (inner_label g W V ord Hord k e I1 I2 s s') H) as [R [H' [E1 E2]]]. clear H. rename H' into H. exists R. split; [apply holds_or, Exists_exists; eauto|]. split; congruence.
Qed.

(** ** States at a location *)
Lemma at_exists p (r : valuation) : In p V -> exists s, at_loc s p /\ args s (args_of g p) = args r (lpv g p).
Proof.
  intros Hp. exists (fun v => if existsb (fun q => var_eqb v (locv q)) V then VBool (var_eqb v (locv p)) else r (vlookup (combine (args_of g p) (lpv g p)) v)). split.
  - intros q Hq. assert (X : existsb (fun x => var_eqb (locv q) (locv x)) V = true) by (apply existsb_exists; exists q; split; [exact Hq|apply var_eqb_refl]).
    unfold holds, holdsb. cbn [eval vsort locv]. fold (locv q). rewrite X. destruct (var_eqb_spec (locv q) (locv p)) as [E|N].
    + cbn. split; [intros _; apply locv_inj; congruence|reflexivity].
    + cbn. split; [discriminate|intros ->; contradiction].
  - etransitivity; [|apply (f_equal (args r)), (vl_map (args_of g p) (lpv g p) [] (args_of_nodup g p) (args_of_length g p))]. rewrite app_nil_r.
    rewrite (args_map r). 2:{ apply vlookup_sort. intros a b H. apply (combine_sorts _ _ (args_of_sorts g p) a b H). }
    apply args_agree. intros v Hv. assert (X : existsb (fun x => var_eqb v (locv x)) V = false).
    { apply not_true_is_false. intros X. apply existsb_exists in X as [q [_ E]]. destruct (var_eqb_spec v (locv q)) as [->|]; [|discriminate]. apply in_args_of in Hv as [i [b [_ E']]]. apply (loc_arg q p i (vsort b)). congruence. }
    rewrite X. reflexivity.
Qed.
Lemma fits_cur p (r : valuation) : exists r', args r (cur_vars g p) = args r' (lpv g p).
Proof. exists (fun v => r (cur v)). unfold cur_vars. apply args_map, cur_sort. Qed.
Lemma fits_nxt p (r : valuation) : exists r', args r (nxt_vars g p) = args r' (lpv g p).
Proof. exists (fun v => r (nxt v)). unfold nxt_vars. apply args_map, nxt_sort. Qed.
Lemma at_unique s p q : In p V -> at_loc s p -> at_loc s q -> p = q.
Proof. intros Hp H1 H2. apply (proj1 (H2 p Hp)), (H1 p Hp). reflexivity. Qed.
Lemma from_args e f f' : lfollows g e f f' -> exists r, snd f = args r (lpv g (lfrom e)).
Proof. intros [r [_ [-> _]]]. apply fits_cur. Qed.
Lemma to_args e f f' : lfollows g e f f' -> exists r, snd f' = args r (lpv g (lto e)).
Proof. intros [r [_ [_ ->]]]. apply fits_nxt. Qed.
Lemma to_nv e' f f' : lfollows g' e' f f' -> lto e' = nv -> exists s, f' = nfact s.
Proof. intros [r [_ [_ ->]]] ->. exists (fun v => r (nxt v)). unfold nfact. rewrite (nv_nxt g V ord nv nid). f_equal. apply args_map, nxt_sort. Qed.
Lemma from_nv e' f f' : lfollows g' e' f f' -> lfrom e' = nv -> exists s, f = nfact s.
Proof. intros [r [_ [-> _]]] ->. exists (fun v => r (cur v)). unfold nfact. rewrite (nv_cur g V ord nv nid). f_equal. apply args_map, cur_sort. Qed.
Lemma nfact_eq s s' : nfact s = nfact s' -> forall v, In v nvv -> eval s (Var v) = eval s' (Var v).
Proof. intros E. injection E as E. apply args_eq_ev, E. Qed.
Lemma at_loc_ext s s' p : nfact s = nfact s' -> at_loc s p -> at_loc s' p.
Proof. intros E H q Hq. rewrite <- (H q Hq). symmetry. apply holds_read, (nfact_eq s s' E), (loc_nvv g V ord Hord q Hq). Qed.
Lemma args_ext s s' p : In p V -> nfact s = nfact s' -> args s (args_of g p) = args s' (args_of g p).
Proof. intros Hp E. apply args_agree_ev. intros v Hv. apply (nfact_eq s s' E), (args_incl g V ord Hord p Hp v Hv). Qed.

Lemma same_follows e f f' : In e (ledges g) -> (lfollows g' e f f' <-> lfollows g e f f').
Proof.
  intros He. unfold lfollows. rewrite (old_cur g V ord nv nid _ (nv_ne _ (from_vertex e He))), (old_nxt g V ord nv nid _ (nv_ne _ (to_vertex e He))). tauto.
Qed.
Lemma out_follows e s f' : In e (ledges g) -> In (lfrom e) V ->
  (lfollows g' (out_edge g nv e) (nfact s) f' <-> holds s (Var (locv (lfrom e))) /\ lfollows g e (lfrom e, args s (args_of g (lfrom e))) f').
Proof. intros He Hp. exact (out_label g W V NF ord Hord nv nid e He Hp (nv_ne _ (to_vertex e He)) s f'). Qed.
Lemma in_follows e s f0 : In e (ledges g) -> In (lto e) V ->
  (lfollows g' (in_edge g V nv e) f0 (nfact s) <-> at_loc s (lto e) /\ lfollows g e f0 (lto e, args s (args_of g (lto e)))).
Proof. intros He Hq. exact (in_label g W V NF ord Hord nv nid e He (nv_ne _ (from_vertex e He)) Hq s f0). Qed.

(** ** Derivable facts *)
(** [expands f f']: the fact [f] of the original graph is represented by the fact [f'] of the new graph. *)
Definition expands (f f' : fact) : Prop :=
  (~ In (fst f) V /\ f' = f) \/ (In (fst f) V /\ exists s, at_loc s (fst f) /\ snd f = args s (args_of g (fst f)) /\ f' = nfact s).
Lemma derivable_up f : lderivable g f -> forall f', expands f f' -> lderivable g' f'.
Proof.
  intros H. induction H as [|e f0 f1 He H0 IH F]; intros f' X.
  - destruct X as [[_ ->]|[X _]]; [constructor|contradiction].
  - assert (Ef0 : fst f0 = lfrom e) by (destruct F as [r [_ [-> _]]]; reflexivity). assert (Ef1 : fst f1 = lto e) by (destruct F as [r [_ [_ ->]]]; reflexivity).
    destruct f0 as [p a], f1 as [q b]. cbn [fst snd] in *. subst p q.
    destruct (in_dec Nat.eq_dec (lfrom e) V) as [Vp|Vp].
    + destruct (from_args e _ _ F) as [r Er]. cbn [snd] in Er. destruct (at_exists (lfrom e) r Vp) as [s [As Es]].
      assert (D : lderivable g' (nfact s)) by (apply IH; right; cbn [fst snd]; split; [exact Vp|]; exists s; repeat split; try apply As; auto; congruence).
      assert (Ea : a = args s (args_of g (lfrom e))) by congruence. clear Er. subst a.
      destruct X as [[Vq ->]|[Vq [s' [As' [E' ->]]]]]; cbn [fst snd] in *.
      * apply (lder_edge g' (out_edge g nv e) (nfact s)); [apply out_in; assumption|exact D|]. apply (out_follows e s _ He Vp). split; [apply (As _ Vp); reflexivity|exact F].
      * subst b. apply (lder_edge g' (loop_edge g V nv nid) (nfact s)); [apply loop_in|exact D|]. apply loop_follows. exists e. repeat split; auto; try apply As; try apply As'; auto.
    + assert (D : lderivable g' (lfrom e, a)) by (apply IH; left; auto).
      destruct X as [[Vq ->]|[Vq [s' [As' [E' ->]]]]]; cbn [fst snd] in *.
      * apply (lder_edge g' e (lfrom e, a)); [apply same_in; assumption|exact D|]. apply same_follows; assumption.
      * subst b. apply (lder_edge g' (in_edge g V nv e) (lfrom e, a)); [apply in_in; assumption|exact D|]. apply (in_follows e s' _ He Vq). split; assumption.
Qed.
Lemma derivable_down f' : lderivable g' f' ->
  (fst f' <> nv -> lderivable g f') /\ (forall s, f' = nfact s -> exists p, In p V /\ at_loc s p /\ lderivable g (p, args s (args_of g p))).
Proof.
  intros H. induction H as [|e' f0 f1 He H0 [IH1 IH2] F].
  - split; [constructor|]. intros s E. injection E as E. destruct nv_entry. congruence.
  - assert (Ef0 : fst f0 = lfrom e') by (destruct F as [r [_ [-> _]]]; reflexivity). assert (Ef1 : fst f1 = lto e') by (destruct F as [r [_ [_ ->]]]; reflexivity).
    destruct (contract_edge e' He) as [E|e Ie Vp Vq E|e Ie Vp Vq E|Ie Vp Vq].
    + subst e'. cbn [loop_edge lfrom lto] in Ef0, Ef1. split; [intros N; contradiction|]. intros s' ->. destruct (from_nv _ _ _ F eq_refl) as [s ->].
      apply loop_follows in F as [e [Ie [Vp [Vq [As [As' F]]]]]]. destruct (IH2 s eq_refl) as [p [Hp [Ap D]]]. assert (p = lfrom e) by (apply (at_unique s); assumption). subst p.
      exists (lto e). split; [exact Vq|]. split; [exact As'|]. apply (lder_edge g e _ _ Ie D F).
    + subst e'. cbn [out_edge lfrom lto] in Ef0, Ef1. destruct (from_nv _ _ _ F eq_refl) as [s ->]. apply (out_follows e s _ Ie Vp) in F as [Hl F]. destruct (IH2 s eq_refl) as [p [Hp [Ap D]]].
      assert (lfrom e = p) by (apply (Ap _ Vp), Hl). subst p. split; [intros _; apply (lder_edge g e _ _ Ie D F)|]. intros s' ->. cbn in Ef1. destruct (nv_ne _ (to_vertex e Ie)). auto.
    + subst e'. cbn [in_edge lfrom lto] in Ef0, Ef1. split; [intros N; contradiction|]. intros s' ->. apply (in_follows e s' _ Ie Vq) in F as [As F]. exists (lto e). split; [exact Vq|]. split; [exact As|].
      apply (lder_edge g e f0 _ Ie); [|exact F]. apply IH1. rewrite Ef0. apply nv_ne, from_vertex, Ie.
    + split; [|intros s ->; destruct (nv_ne _ (to_vertex e' Ie)); symmetry; exact Ef1]. intros _. apply (lder_edge g e' f0 _ Ie); [apply IH1; rewrite Ef0; apply nv_ne, from_vertex, Ie|]. apply same_follows; assumption.
Qed.
Theorem contract_derivable p a : lvertex g p -> ~ In p V -> (lderivable g' (p, a) <-> lderivable g (p, a)).
Proof.
  intros Hv Hp. split.
  - intros H. apply derivable_down in H as [H _]. apply H. apply nv_ne, Hv.
  - intros H. apply (derivable_up _ H). left. auto.
Qed.
Theorem contract_derivable_new s : lderivable g' (nfact s) <-> exists p, In p V /\ at_loc s p /\ lderivable g (p, args s (args_of g p)).
Proof.
  split.
  - intros H. apply derivable_down in H as [_ H]. apply H. reflexivity.
  - intros [p [Hp [As D]]]. apply (derivable_up _ D). right. cbn [fst snd]. split; [exact Hp|]. exists s. auto.
Qed.

(** ** Definitions *)
(** What the definition of a contracted vertex has to say. *)
Definition def_from (d : term) (p : sym) (dp : term) : Prop :=
  (forall v, In v (vars dp) -> In v (lpv g p)) /\
  forall r, holds r dp <-> forall s, at_loc s p -> args s (args_of g p) = args r (lpv g p) -> holds s d.
Theorem contract_solution w' w d : lsolution g' w' -> w' nv = Some d ->
  (forall p, In p V -> exists dp, w p = Some dp /\ def_from d p dp) -> (forall p, ~ In p V -> p <> nv -> w p = w' p) -> w nv = None -> lsolution g w.
Proof.
  intros S' Ed HV HO HN. apply lsol_facts in S' as [Vr [E0 [E1 HE]]]. apply lsol_facts.
  assert (PV : forall p, p <> nv -> lpv g' p = lpv g p) by (intros p N; cbn [lpv contract]; unfold contract_pv; apply Nat.eqb_neq in N; rewrite N; reflexivity).
  assert (TO : forall p a, p <> nv -> ~ In p V -> (ltrue g w (p, a) <-> ltrue g' w' (p, a))).
  { intros p a N Np. unfold ltrue. cbn [fst snd]. rewrite (HO p Np N), (PV p N). tauto. }
  assert (Dnv : lpv g' nv = nvv) by (cbn [lpv contract]; unfold contract_pv; rewrite Nat.eqb_refl; reflexivity).
  assert (TN : forall s, ltrue g' w' (nfact s) <-> holds s d).
  { intros s. unfold ltrue, nfact. cbn [fst snd]. rewrite Dnv. split; [intros [d0 [E H]]; rewrite Ed in E; injection E as <-; apply H; reflexivity|].
    intros H. exists d. split; [exact Ed|]. intros r Er. refine (proj1 (holds_ext_ev s r d _) H). intros v Hv. symmetry. apply (args_eq_ev _ _ _ Er). rewrite <- Dnv. apply (Vr nv d Ed v Hv). }
  assert (TV : forall p r, In p V -> (ltrue g w (p, args r (lpv g p)) <-> forall s, at_loc s p -> args s (args_of g p) = args r (lpv g p) -> holds s d)).
  { intros p r Hp. destruct (HV p Hp) as [dp [Ep [Hdv Hd]]]. unfold ltrue. cbn [fst snd]. split.
    - intros [d0 [E H]]. rewrite Ep in E. injection E as <-. apply Hd. apply H. reflexivity.
    - intros H. exists dp. split; [exact Ep|]. intros r' Er. apply Hd. rewrite Er. exact H. }
  split; [|split; [|split]].
  - intros p dp Ep v Hv. destruct (in_dec Nat.eq_dec p V) as [Hp|Hp].
    + destruct (HV p Hp) as [dp' [Ep' [Hdv _]]]. rewrite Ep in Ep'. injection Ep' as <-. apply Hdv, Hv.
    + assert (p <> nv) by (intros ->; congruence). rewrite (HO p Hp H) in Ep. rewrite <- (PV p H). apply (Vr p dp Ep v Hv).
  - destruct E0 as [d0 [E0 H0]]. exists d0. split; [|exact H0]. rewrite (HO entry Vent); [exact E0|]. intros X. apply nv_entry. auto.
  - destruct E1 as [d0 [E1 H0]]. exists d0. split; [|exact H0]. rewrite (HO exit Vexit); [exact E1|]. intros X. apply nv_exit. auto.
  - intros e He. pose proof (nv_ne _ (from_vertex e He)) as Np. pose proof (nv_ne _ (to_vertex e He)) as Nq.
    assert (DD : forall p, In p V -> w p <> None) by (intros p Hp; destruct (HV p Hp) as [dp [Ep _]]; congruence).
    destruct (in_dec Nat.eq_dec (lfrom e) V) as [Vp|Vp], (in_dec Nat.eq_dec (lto e) V) as [Vq|Vq].
    + split; [apply DD, Vp|]. split; [apply DD, Vq|]. intros f f' F T. destruct (HE _ loop_in) as [_ [_ H]].
      destruct (from_args e f f' F) as [r Er], (to_args e f f' F) as [r' Er'].
      assert (Ef : f = (lfrom e, args r (lpv g (lfrom e)))) by (rewrite <- Er; destruct F as [x [_ [-> _]]]; reflexivity). assert (Ef' : f' = (lto e, args r' (lpv g (lto e)))) by (rewrite <- Er'; destruct F as [x [_ [_ ->]]]; reflexivity).
      rewrite Ef in T. rewrite Ef'. apply (TV _ _ Vq). intros s' As' Es'. destruct (at_exists (lfrom e) r Vp) as [s [As Es]].
      apply TN. apply (H (nfact s)); [|apply TN; apply (proj1 (TV _ _ Vp) T); assumption]. apply loop_follows. exists e. repeat split; auto; try apply As; try apply As'; auto. rewrite Es, Es', <- Ef, <- Ef'. exact F.
    + split; [apply DD, Vp|]. destruct (HE _ (out_in e He Vp Vq)) as [_ [D2 H]]. cbn [out_edge lto] in D2. split; [rewrite (HO _ Vq Nq); exact D2|]. intros f f' F T.
      destruct (from_args e f f' F) as [r Er]. assert (Ef : f = (lfrom e, args r (lpv g (lfrom e)))) by (rewrite <- Er; destruct F as [x [_ [-> _]]]; reflexivity).
      assert (Ef' : fst f' = lto e) by (destruct F as [x [_ [_ ->]]]; reflexivity). rewrite Ef in T. destruct (at_exists (lfrom e) r Vp) as [s [As Es]].
      destruct f' as [q b]. cbn [fst] in Ef'. subst q. apply (TO _ _ Nq Vq). apply (H (nfact s)); [|apply TN; apply (proj1 (TV _ _ Vp) T); assumption].
      apply (out_follows e s _ He Vp). split; [apply (As _ Vp); reflexivity|]. rewrite Es, <- Ef. exact F.
    + destruct (HE _ (in_in e He Vp Vq)) as [D1 [_ H]]. cbn [in_edge lfrom] in D1. split; [rewrite (HO _ Vp Np); exact D1|]. split; [apply DD, Vq|]. intros f f' F T.
      destruct (to_args e f f' F) as [r' Er']. assert (Ef' : f' = (lto e, args r' (lpv g (lto e)))) by (rewrite <- Er'; destruct F as [x [_ [_ ->]]]; reflexivity).
      assert (Ef : fst f = lfrom e) by (destruct F as [x [_ [-> _]]]; reflexivity). destruct f as [p a]. cbn [fst] in Ef. subst p.
      rewrite Ef'. apply (TV _ _ Vq). intros s As Es. apply TN. apply (H (lfrom e, a)); [|apply (TO _ _ Np Vp), T]. apply (in_follows e s _ He Vq). split; [exact As|]. rewrite Es, <- Ef'. exact F.
    + destruct (HE _ (same_in e He Vp Vq)) as [D1 [D2 H]]. split; [rewrite (HO _ Vp Np); exact D1|]. split; [rewrite (HO _ Vq Nq); exact D2|]. intros f f' F T.
      assert (Ef : fst f = lfrom e) by (destruct F as [x [_ [-> _]]]; reflexivity). assert (Ef' : fst f' = lto e) by (destruct F as [x [_ [_ ->]]]; reflexivity). destruct f as [p a], f' as [q b]. cbn [fst] in Ef, Ef'. subst p q.
      apply (TO _ _ Nq Vq). apply (H (lfrom e, a)); [apply same_follows; assumption|apply (TO _ _ Np Vp), T].
Qed.
End Sem.
