(** * The labels of the contracted graph, compared with the clauses of the original graph. *)
From Coq Require Import Permutation.
From Verif Require Import Syntax Solver TransSys Graph GraphOps GraphOpsProofs GraphSem Names ListLemmas SimpleTransModel MergeModel MergeProofs LinearModel LinearProofs LinearPath ExpandProofs ContractModel ContractProofs.
Open Scope list_scope.
Open Scope nat_scope.

Section Labels.
Variable g : lgraph.
Hypothesis W : lwf g.
Variable V : list sym.
Hypothesis NV : NoDup V.
Hypothesis NF : names_free g V.
Variable ord : list var -> list var.
Hypothesis Hord : forall l, Permutation (ord l) l.
Notation nvv := (nv_vars g V ord).
Notation at_loc := (at_loc V).
Notation glue := (glue g V ord).

Lemma holds_ext_ev r r' t : (forall v, In v (vars t) -> eval r (Var v) = eval r' (Var v)) -> (holds r t <-> holds r' t).
Proof. intros H. unfold holds, holdsb. rewrite (eval_ext r r' t H). tauto. Qed.
Lemma sub_args_cur s R l : incl l nvv -> args s nvv = args R (map cur nvv) -> args s l = args R (map cur l).
Proof. intros I E. symmetry. apply args_ren_ext. intros v Hv. apply (read_cur g V ord s R v E). apply I, Hv. Qed.
Lemma sub_args_nxt s R l : incl l nvv -> args s nvv = args R (map nxt nvv) -> args s l = args R (map nxt l).
Proof. intros I E. symmetry. apply args_ren_ext. intros v Hv. apply (read_nxt g V ord s R v E). apply I, Hv. Qed.
Lemma args_incl p : In p V -> incl (args_of g p) nvv.
Proof. intros Hp v Hv. apply (arg_nvv g V ord Hord p v Hp Hv). Qed.

(** A variable of the graph is not one of the new variables. *)
Lemma lab_clean e v b : In e (ledges g) -> In v (vars (lfla e)) -> In b nvv -> vbase v <> vbase b.
Proof.
  intros He Hv Hb. destruct (nvv_name g V ord Hord b Hb) as [p [Hp [E|[i [s E]]]]]; rewrite E; apply (NF v); eauto.
Qed.
Lemma pv_clean p v b : In v (lpv g p) -> In b nvv -> vbase v <> vbase b.
Proof.
  intros Hv Hb. destruct (nvv_name g V ord Hord b Hb) as [q [Hq [E|[i [s E]]]]]; rewrite E; apply (NF v); eauto.
Qed.
Lemma cur_clean p v b : In v (cur_vars g p) -> In b nvv -> vbase v <> vbase b.
Proof. intros Hv. apply in_map_iff in Hv as [x [<- Hx]]. apply (pv_clean p x b Hx). Qed.
Lemma nxt_clean p v b : In v (nxt_vars g p) -> In b nvv -> vbase v <> vbase b.
Proof. intros Hv. apply in_map_iff in Hv as [x [<- Hx]]. apply (pv_clean p x b Hx). Qed.
Lemma et_clean k s b : In b nvv -> vbase (etaux k s) <> vbase b.
Proof.
  intros Hb. destruct (nvv_name g V ord Hord b Hb) as [q [Hq [E|[i [x E]]]]]; rewrite E; [apply et_loc|apply et_arg].
Qed.

(** ** Labels inside the set *)
Section Inner.
Variable ctr : nat.
Variable e : ledge.
Hypothesis He : In e (ledges g).
Hypothesis Hp : In (lfrom e) V.
Hypothesis Hq : In (lto e) V.
Notation p := (lfrom e).
Notation q := (lto e).
Notation f := (vlookup (et_map g ctr e)).
Notation D := (vars (lfla e) ++ cur_vars g p ++ nxt_vars g q).

Lemma f_aux v : In v (laux_vars g e) -> In (f v) (et_aux g ctr e).
Proof.
  intros H. unfold et_map. destruct (vl_in (laux_vars g e) (et_aux g ctr e) (combine (cur_vars g p) (map cur (args_of g p)) ++ combine (nxt_vars g q) (map nxt (args_of g q))) v
    (laux_nodup g e) (et_aux_len g ctr e) H) as [i [u [_ [H2 H3]]]]. rewrite H3. apply (nth_error_In _ _ H2).
Qed.
Lemma not_aux_cur v : In v (cur_vars g p) -> ~ In v (laux_vars g e).
Proof. intros H X. apply laux_spec in X. tauto. Qed.
Lemma not_aux_nxt v : In v (nxt_vars g q) -> ~ In v (laux_vars g e).
Proof. intros H X. apply laux_spec in X. tauto. Qed.
Lemma not_cur_nxt p' q' v : In v (nxt_vars g q') -> ~ In v (cur_vars g p').
Proof. intros H X. pose proof (in_nxt_vars g q' v H) as A. pose proof (in_cur_vars g p' v X) as B. congruence. Qed.
Lemma f_skip1 v : ~ In v (laux_vars g e) -> f v = vlookup (combine (cur_vars g p) (map cur (args_of g p)) ++ combine (nxt_vars g q) (map nxt (args_of g q))) v.
Proof. intros H. unfold et_map. apply vl_skip; [apply et_aux_len|exact H]. Qed.
Lemma f_skip2 v : ~ In v (laux_vars g e) -> ~ In v (cur_vars g p) -> f v = vlookup (combine (nxt_vars g q) (map nxt (args_of g q)) ++ []) v.
Proof. intros H H'. rewrite (f_skip1 v H), app_nil_r. apply vl_skip; [apply cur_args_len|exact H']. Qed.
Lemma f_cur v : In v (cur_vars g p) -> In (f v) (map cur (args_of g p)).
Proof.
  intros H. rewrite (f_skip1 v (not_aux_cur v H)).
  destruct (vl_in (cur_vars g p) (map cur (args_of g p)) (combine (nxt_vars g q) (map nxt (args_of g q))) v (cur_nodup g p W) (cur_args_len g p) H) as [i [u [_ [H2 H3]]]].
  rewrite H3. apply (nth_error_In _ _ H2).
Qed.
Lemma f_nxt v : In v (nxt_vars g q) -> In (f v) (map nxt (args_of g q)).
Proof.
  intros H. rewrite (f_skip2 v (not_aux_nxt v H) (not_cur_nxt _ _ v H)).
  destruct (vl_in (nxt_vars g q) (map nxt (args_of g q)) [] v (nxt_nodup g q W) (nxt_args_len g q) H) as [i [u [_ [H2 H3]]]].
  rewrite H3. apply (nth_error_In _ _ H2).
Qed.
Lemma f_map_cur : map f (cur_vars g p) = map cur (args_of g p).
Proof.
  rewrite <- (vl_map (cur_vars g p) (map cur (args_of g p)) (combine (nxt_vars g q) (map nxt (args_of g q))) (cur_nodup g p W) (cur_args_len g p)).
  apply map_ext_in. intros v H. apply f_skip1, not_aux_cur, H.
Qed.
Lemma f_map_nxt : map f (nxt_vars g q) = map nxt (args_of g q).
Proof.
  rewrite <- (vl_map (nxt_vars g q) (map nxt (args_of g q)) [] (nxt_nodup g q W) (nxt_args_len g q)).
  apply map_ext_in. intros v H. apply f_skip2; [apply not_aux_nxt, H|apply (not_cur_nxt _ _ v H)].
Qed.
Lemma in_D v : In v D -> In v (laux_vars g e) \/ In v (cur_vars g p) \/ In v (nxt_vars g q).
Proof.
  intros H. apply in_app_iff in H as [H|H]; [|apply in_app_iff in H; tauto].
  destruct (in_dec var_dec v (cur_vars g p)); [tauto|]. destruct (in_dec var_dec v (nxt_vars g q)); [tauto|]. left. apply laux_spec. tauto.
Qed.
Lemma f_sort : sort_preserving f.
Proof.
  apply vlookup_sort. intros a b H. unfold et_map in H. apply in_app_iff in H as [H|H]; [|apply in_app_iff in H as [H|H]].
  - apply (combine_sorts _ _ (et_aux_sorts g ctr e) a b H).
  - apply (combine_sorts _ _ (cur_args_sorts g p) a b H).
  - apply (combine_sorts _ _ (nxt_args_sorts g q) a b H).
Qed.
Lemma et_not_arg v : In v (et_aux g ctr e) -> forall p' u, In u (args_of g p') -> vbase v <> vbase u.
Proof.
  intros H p' u Hu. apply et_aux_in in H as [k [s [-> _]]]. apply in_args_of in Hu as [i [b [_ ->]]]. apply et_arg.
Qed.
Lemma f_inj a b : In a D -> In b D -> f a = f b -> a = b.
Proof.
  intros Ha Hb E.
  assert (X : forall a b, In a (laux_vars g e) -> In b (cur_vars g p) \/ In b (nxt_vars g q) -> f a <> f b).
  { intros u v Hu [Hv|Hv] F; apply f_aux in Hu.
    - apply f_cur in Hv. rewrite F in Hu. apply in_map_iff in Hv as [x [Ex Hx]]. apply (et_not_arg _ Hu _ _ Hx). rewrite <- Ex. reflexivity.
    - apply f_nxt in Hv. rewrite F in Hu. apply in_map_iff in Hv as [x [Ex Hx]]. apply (et_not_arg _ Hu _ _ Hx). rewrite <- Ex. reflexivity. }
  assert (Y : forall a b, In a (cur_vars g p) -> In b (nxt_vars g q) -> f a <> f b).
  { intros u v Hu Hv F. apply f_cur in Hu. apply f_nxt in Hv. rewrite F in Hu. apply in_map_iff in Hu as [x [Ex _]]. apply in_map_iff in Hv as [y [Ey _]].
    rewrite <- Ey in Ex. unfold cur, nxt in Ex. discriminate Ex. }
  apply in_D in Ha, Hb. destruct Ha as [Ha|[Ha|Ha]], Hb as [Hb|[Hb|Hb]]; try (exfalso; first [eapply X; [| |exact E]; tauto | eapply X; [| |symmetry; exact E]; tauto
    | eapply Y; [| |exact E]; tauto | eapply Y; [| |symmetry; exact E]; tauto]).
  - unfold et_map in E. apply (vl_inj _ _ _ a b (laux_nodup g e) (et_aux_nodup g ctr e) (et_aux_len g ctr e) Ha Hb E).
  - rewrite !f_skip1 in E by (apply not_aux_cur; assumption). apply (vl_inj _ _ _ a b (cur_nodup g p W) (cur_args_nodup g p) (cur_args_len g p) Ha Hb E).
  - rewrite !f_skip2 in E; try (apply not_aux_nxt; assumption); try (apply (not_cur_nxt p q); assumption).
    apply (vl_inj _ _ _ a b (nxt_nodup g q W) (nxt_args_nodup g q) (nxt_args_len g q) Ha Hb E).
Qed.
(** What the renamed label mentions. *)
Lemma f_image v : In v (vars (rename f (lfla e))) -> In v (et_aux g ctr e) \/ In v (map cur (args_of g p)) \/ In v (map nxt (args_of g q)).
Proof.
  rewrite vars_rename. intros H. apply in_map_iff in H as [u [<- Hu]]. assert (X : In u D) by (apply in_app_iff; left; exact Hu).
  apply in_D in X as [X|[X|X]]; [left; apply f_aux, X|right; left; apply f_cur, X|right; right; apply f_nxt, X].
Qed.

(** The translated clause goes from the states at its source to the states at its target. *)
Theorem inner_label s s' :
  (exists R, holds R (translate_edge g V ctr e) /\ args s nvv = args R (map cur nvv) /\ args s' nvv = args R (map nxt nvv)) <->
  at_loc s p /\ at_loc s' q /\ lfollows g e (p, args s (args_of g p)) (q, args s' (args_of g q)).
Proof.
  assert (RL : lfollows g e (p, args s (args_of g p)) (q, args s' (args_of g q)) <->
    exists r, holds r (rename f (lfla e)) /\ args s (args_of g p) = args r (map cur (args_of g p)) /\ args s' (args_of g q) = args r (map nxt (args_of g q))).
  { pose proof (ren_label f D (lfla e) (cur_vars g p) (nxt_vars g q) (args s (args_of g p)) (args s' (args_of g q)) f_sort f_inj) as L.
    rewrite f_map_cur, f_map_nxt in L. rewrite <- L; [| | |]; try (intros v Hv; rewrite !in_app_iff; tauto).
    unfold lfollows. split; intros [r [H1 [H2 H3]]]; exists r; (split; [exact H1|]).
    - split; congruence.
    - split; congruence. }
  rewrite RL. unfold translate_edge. split.
  - intros [R [H [E1 E2]]]. rewrite holds_and in H. inversion H as [|? ? L1 H']; subst. inversion H' as [|? ? L2 H'']; subst. inversion H'' as [|? ? L3 H''']; subst. inversion H''' as [|? ? L4 _]; subst.
    apply holds_and in L4. apply updated_holds in L4 as [L5 L6]. split; [|split].
    + apply (at_loc_cur g V ord Hord s R _ E1 Hp). auto.
    + apply (at_loc_nxt g V ord Hord s' R _ E2 Hq). auto.
    + exists R. split; [exact L2|]. split; [apply sub_args_cur; [apply args_incl, Hp|exact E1]|apply sub_args_nxt; [apply args_incl, Hq|exact E2]].
  - intros [A1 [A2 [r [H [E1 E2]]]]]. exists (glue s s' r). pose proof (glue_args_cur g V ord Hord s s' r) as G1. pose proof (glue_args_nxt g V ord Hord s s' r) as G2.
    split; [|split; congruence]. symmetry in G1, G2. apply (at_loc_cur g V ord Hord s _ _ G1 Hp) in A1 as [B1 B2]. apply (at_loc_nxt g V ord Hord s' _ _ G2 Hq) in A2 as [C1 C2].
    apply holds_and. repeat constructor; [exact B1| |exact C1|].
    + refine (proj1 (holds_ext_ev r _ _ _) H). intros v Hv. apply f_image in Hv as [Hv|[Hv|Hv]].
      * apply et_aux_in in Hv as [k [x [-> _]]]. cbn [eval]. rewrite glue_other; [reflexivity|]. intros b Hb. apply et_clean, Hb.
      * apply in_map_iff in Hv as [b [<- Hb]]. rewrite (args_map r cur _ cur_sort) in E1. rewrite (read_cur g V ord s _ b G1 (args_incl _ Hp _ Hb)). symmetry. apply (args_eq_ev _ _ _ E1 b Hb).
      * apply in_map_iff in Hv as [b [<- Hb]]. rewrite (args_map r nxt _ nxt_sort) in E2. rewrite (read_nxt g V ord s' _ b G2 (args_incl _ Hq _ Hb)). symmetry. apply (args_eq_ev _ _ _ E2 b Hb).
    + apply holds_and, updated_holds. auto.
Qed.
End Inner.

(** ** Clauses leaving the set *)
Section Out.
Variable nv : sym.
Variable nid : nat.
Variable e : ledge.
Hypothesis He : In e (ledges g).
Hypothesis Hp : In (lfrom e) V.
Hypothesis Hq : lto e <> nv.
Notation p := (lfrom e).
Notation q := (lto e).
Notation g' := (contract g V nv nid ord).
Notation f := (vlookup (combine (cur_vars g p) (map cur (args_of g p)))).
Notation D := (vars (lfla e) ++ cur_vars g p ++ nxt_vars g q).
Lemma fo_app v : f v = vlookup (combine (cur_vars g p) (map cur (args_of g p)) ++ []) v.
Proof. rewrite app_nil_r. reflexivity. Qed.
Lemma fo_cur v : In v (cur_vars g p) -> In (f v) (map cur (args_of g p)).
Proof.
  intros H. rewrite fo_app. destruct (vl_in (cur_vars g p) (map cur (args_of g p)) [] v (cur_nodup g p W) (cur_args_len g p) H) as [i [u [_ [H2 H3]]]].
  rewrite H3. apply (nth_error_In _ _ H2).
Qed.
Lemma fo_out v : ~ In v (cur_vars g p) -> f v = v.
Proof. intros H. rewrite fo_app, vl_skip; [reflexivity|apply cur_args_len|exact H]. Qed.
Lemma fo_map_cur : map f (cur_vars g p) = map cur (args_of g p).
Proof.
  etransitivity; [|apply (vl_map (cur_vars g p) (map cur (args_of g p)) [] (cur_nodup g p W) (cur_args_len g p))]. apply map_ext. apply fo_app.
Qed.
Lemma fo_map_nxt : map f (nxt_vars g q) = nxt_vars g q.
Proof. rewrite <- (map_id (nxt_vars g q)) at 2. apply map_ext_in. intros v H. apply fo_out, (not_cur_nxt _ _ v H). Qed.
Lemma fo_sort : sort_preserving f.
Proof. apply vlookup_sort. intros a b H. apply (combine_sorts _ _ (cur_args_sorts g p) a b H). Qed.
Lemma D_clean v b : In v D -> In b nvv -> vbase v <> vbase b.
Proof.
  intros H. apply in_app_iff in H as [H|H]; [apply (lab_clean e v b He H)|]. apply in_app_iff in H as [H|H]; [apply (cur_clean p v b H)|apply (nxt_clean q v b H)].
Qed.
Lemma fo_inj a b : In a D -> In b D -> f a = f b -> a = b.
Proof.
  assert (X : forall a b, In a (cur_vars g p) -> In b D -> ~ In b (cur_vars g p) -> f a <> f b).
  { intros u v Hu Dv Hv F. rewrite (fo_out v Hv) in F. apply fo_cur in Hu. rewrite F in Hu. apply in_map_iff in Hu as [x [Ex Hx]].
    apply (D_clean v x Dv (args_incl _ Hp _ Hx)). rewrite <- Ex. reflexivity. }
  intros Ha Hb E. destruct (in_dec var_dec a (cur_vars g p)) as [A|A], (in_dec var_dec b (cur_vars g p)) as [B|B].
  - rewrite !fo_app in E. apply (vl_inj _ _ _ a b (cur_nodup g p W) (cur_args_nodup g p) (cur_args_len g p) A B E).
  - destruct (X a b A Hb B E).
  - symmetry in E. destruct (X b a B Ha A E).
  - rewrite (fo_out a A), (fo_out b B) in E. exact E.
Qed.
Lemma nv_cur : cur_vars g' nv = map cur nvv.
Proof. unfold cur_vars. cbn [lpv contract]. unfold contract_pv. rewrite Nat.eqb_refl. reflexivity. Qed.
Lemma nv_nxt : nxt_vars g' nv = map nxt nvv.
Proof. unfold nxt_vars. cbn [lpv contract]. unfold contract_pv. rewrite Nat.eqb_refl. reflexivity. Qed.
Lemma old_cur x : x <> nv -> cur_vars g' x = cur_vars g x.
Proof. intros N. unfold cur_vars. cbn [lpv contract]. unfold contract_pv. apply Nat.eqb_neq in N. rewrite N. reflexivity. Qed.
Lemma old_nxt x : x <> nv -> nxt_vars g' x = nxt_vars g x.
Proof. intros N. unfold nxt_vars. cbn [lpv contract]. unfold contract_pv. apply Nat.eqb_neq in N. rewrite N. reflexivity. Qed.
Lemma loc_not_cur p' u : In p' V -> ~ In (cur (locv p')) (cur_vars g u).
Proof. intros H X. apply (cur_clean u _ (locv p') X (loc_nvv g V ord Hord p' H)). reflexivity. Qed.
Lemma loc_not_nxt p' u : In p' V -> ~ In (nxt (locv p')) (nxt_vars g u).
Proof. intros H X. apply (nxt_clean u _ (locv p') X (loc_nvv g V ord Hord p' H)). reflexivity. Qed.

Theorem out_label s f' :
  lfollows g' (out_edge g nv e) (nv, args s nvv) f' <-> holds s (Var (locv p)) /\ lfollows g e (p, args s (args_of g p)) f'.
Proof.
  assert (RL : lfollows g e (p, args s (args_of g p)) f' <->
    fst f' = q /\ exists r, holds r (rename f (lfla e)) /\ args s (args_of g p) = args r (map cur (args_of g p)) /\ snd f' = args r (nxt_vars g q)).
  { pose proof (ren_label f D (lfla e) (cur_vars g p) (nxt_vars g q) (args s (args_of g p)) (snd f') fo_sort fo_inj) as L.
    rewrite fo_map_cur, fo_map_nxt in L. rewrite <- L; [| | |]; try (intros v Hv; rewrite !in_app_iff; tauto).
    unfold lfollows. destruct f' as [y ys]. cbn [fst snd]. split.
    - intros [r [H1 [H2 H3]]]. split; [congruence|]. exists r. split; [exact H1|]. split; congruence.
    - intros [-> [r [H1 [H2 H3]]]]. exists r. split; [exact H1|]. split; congruence. }
  rewrite RL. unfold lfollows, out_edge. cbn [lfrom lto lfla]. rewrite nv_cur, (old_nxt q Hq).
  change (rename f (mkAnd [lfla e; Var (cur (locv p))])) with (mkAnd [rename f (lfla e); Var (f (cur (locv p)))]). rewrite (fo_out _ (loc_not_cur p p Hp)). split.
  - intros [R [H [E1 E2]]]. injection E1 as E1. apply holds_and in H. inversion H as [|? ? L1 H']; subst. inversion H' as [|? ? L2 _]; subst. split; [|split; [reflexivity|]].
    + apply (holds_read R s _ _ (read_cur g V ord s R _ E1 (loc_nvv g V ord Hord p Hp))), L2.
    + exists R. split; [exact L1|]. split; [apply sub_args_cur; [apply args_incl, Hp|exact E1]|reflexivity].
  - intros [A [Ef [r [H [E1 E2]]]]]. exists (glue s s r). pose proof (glue_args_cur g V ord Hord s s r) as G1. symmetry in G1. split; [|split].
    + apply holds_and. repeat constructor.
      * refine (proj1 (holds_ext_ev r _ _ _) H). intros v Hv. rewrite vars_rename in Hv. apply in_map_iff in Hv as [u [<- Hu]].
        destruct (in_dec var_dec u (cur_vars g p)) as [I|N].
        -- apply fo_cur in I. apply in_map_iff in I as [b [<- Hb]]. rewrite (args_map r cur _ cur_sort) in E1. rewrite (read_cur g V ord s _ b G1 (args_incl _ Hp _ Hb)). symmetry. apply (args_eq_ev _ _ _ E1 b Hb).
        -- rewrite (fo_out u N). cbn [eval]. rewrite glue_other; [reflexivity|]. intros b Hb. apply (lab_clean e u b He Hu Hb).
      * apply (holds_read _ s _ _ (read_cur g V ord s _ _ G1 (loc_nvv g V ord Hord p Hp))), A.
    + f_equal. exact G1.
    + rewrite (surjective_pairing f'), Ef, E2. f_equal. apply args_agree_ev. intros v Hv. cbn [eval]. rewrite glue_other; [reflexivity|]. intros b Hb. apply (nxt_clean q v b Hv Hb).
Qed.
End Out.

(** ** Clauses entering the set *)
Section Into.
Variable nv : sym.
Variable nid : nat.
Variable e : ledge.
Hypothesis He : In e (ledges g).
Hypothesis Hp : lfrom e <> nv.
Hypothesis Hq : In (lto e) V.
Notation p := (lfrom e).
Notation q := (lto e).
Notation g' := (contract g V nv nid ord).
Notation f := (vlookup (combine (nxt_vars g q) (map nxt (args_of g q)))).
Notation D := (vars (lfla e) ++ cur_vars g p ++ nxt_vars g q).
Lemma fi_app v : f v = vlookup (combine (nxt_vars g q) (map nxt (args_of g q)) ++ []) v.
Proof. rewrite app_nil_r. reflexivity. Qed.
Lemma fi_nxt v : In v (nxt_vars g q) -> In (f v) (map nxt (args_of g q)).
Proof.
  intros H. rewrite fi_app. destruct (vl_in (nxt_vars g q) (map nxt (args_of g q)) [] v (nxt_nodup g q W) (nxt_args_len g q) H) as [i [u [_ [H2 H3]]]].
  rewrite H3. apply (nth_error_In _ _ H2).
Qed.
Lemma fi_out v : ~ In v (nxt_vars g q) -> f v = v.
Proof. intros H. rewrite fi_app, vl_skip; [reflexivity|apply nxt_args_len|exact H]. Qed.
Lemma fi_map_nxt : map f (nxt_vars g q) = map nxt (args_of g q).
Proof.
  etransitivity; [|apply (vl_map (nxt_vars g q) (map nxt (args_of g q)) [] (nxt_nodup g q W) (nxt_args_len g q))]. apply map_ext. apply fi_app.
Qed.
Lemma fi_map_cur : map f (cur_vars g p) = cur_vars g p.
Proof. rewrite <- (map_id (cur_vars g p)) at 2. apply map_ext_in. intros v H. apply fi_out. intros X. apply (not_cur_nxt p q v X H). Qed.
Lemma fi_sort : sort_preserving f.
Proof. apply vlookup_sort. intros a b H. apply (combine_sorts _ _ (nxt_args_sorts g q) a b H). Qed.
Lemma fi_inj a b : In a D -> In b D -> f a = f b -> a = b.
Proof.
  assert (X : forall a b, In a (nxt_vars g q) -> In b D -> ~ In b (nxt_vars g q) -> f a <> f b).
  { intros u v Hu Dv Hv F. rewrite (fi_out v Hv) in F. apply fi_nxt in Hu. rewrite F in Hu. apply in_map_iff in Hu as [x [Ex Hx]].
    apply (D_clean e He v x Dv (args_incl _ Hq _ Hx)). rewrite <- Ex. reflexivity. }
  intros Ha Hb E. destruct (in_dec var_dec a (nxt_vars g q)) as [A|A], (in_dec var_dec b (nxt_vars g q)) as [B|B].
  - rewrite !fi_app in E. apply (vl_inj _ _ _ a b (nxt_nodup g q W) (nxt_args_nodup g q) (nxt_args_len g q) A B E).
  - destruct (X a b A Hb B E).
  - symmetry in E. destruct (X b a B Ha A E).
  - rewrite (fi_out a A), (fi_out b B) in E. exact E.
Qed.
Lemma in_locs_holds R : holds R (mkAnd (map (fun v => mkNot (Var (nxt (locv v)))) (filter (fun v => negb (Nat.eqb v q)) V))) <->
  forall v, In v V -> v <> q -> ~ holds R (Var (nxt (locv v))).
Proof.
  rewrite holds_and, Forall_forall. split.
  - intros H v Hv N. apply holds_not, H, in_map_iff. exists v. split; [reflexivity|]. apply filter_In. split; [exact Hv|]. apply Nat.eqb_neq in N. rewrite N. reflexivity.
  - intros H t Ht. apply in_map_iff in Ht as [v [<- Hv]]. apply filter_In in Hv as [Hv N]. apply holds_not. apply H; [exact Hv|]. intros ->. rewrite Nat.eqb_refl in N. discriminate.
Qed.

Theorem in_label s f0 :
  lfollows g' (in_edge g V nv e) f0 (nv, args s nvv) <-> at_loc s q /\ lfollows g e f0 (q, args s (args_of g q)).
Proof.
  assert (RL : lfollows g e f0 (q, args s (args_of g q)) <->
    fst f0 = p /\ exists r, holds r (rename f (lfla e)) /\ snd f0 = args r (cur_vars g p) /\ args s (args_of g q) = args r (map nxt (args_of g q))).
  { pose proof (ren_label f D (lfla e) (cur_vars g p) (nxt_vars g q) (snd f0) (args s (args_of g q)) fi_sort fi_inj) as L.
    rewrite fi_map_cur, fi_map_nxt in L. rewrite <- L; [| | |]; try (intros v Hv; rewrite !in_app_iff; tauto).
    unfold lfollows. destruct f0 as [y ys]. cbn [fst snd]. split.
    - intros [r [H1 [H2 H3]]]. split; [congruence|]. exists r. split; [exact H1|]. split; congruence.
    - intros [-> [r [H1 [H2 H3]]]]. exists r. split; [exact H1|]. split; congruence. }
  rewrite RL. unfold lfollows, in_edge. cbn [lfrom lto lfla]. rewrite nv_nxt, (old_cur nv nid p Hp). split.
  - intros [R [H [E1 E2]]]. injection E2 as E2. apply holds_and in H. inversion H as [|? ? L1 H']; subst. inversion H' as [|? ? L2 H'']; subst. inversion H'' as [|? ? L3 _]; subst.
    pose proof (proj1 (in_locs_holds R) L1) as L1'. split; [|split; [reflexivity|]].
    + apply (at_loc_nxt g V ord Hord s R _ E2 Hq). auto.
    + exists R. split; [exact L3|]. split; [reflexivity|apply sub_args_nxt; [apply args_incl, Hq|exact E2]].
  - intros [A [Ef [r [H [E1 E2]]]]]. exists (glue s s r). pose proof (glue_args_nxt g V ord Hord s s r) as G2. symmetry in G2.
    apply (at_loc_nxt g V ord Hord s _ _ G2 Hq) in A as [C1 C2]. split; [|split].
    + apply holds_and. repeat constructor; [apply (proj2 (in_locs_holds _)), C2|exact C1|].
      refine (proj1 (holds_ext_ev r _ _ _) H). intros v Hv. rewrite vars_rename in Hv. apply in_map_iff in Hv as [u [<- Hu]].
      destruct (in_dec var_dec u (nxt_vars g q)) as [I|N].
      * apply fi_nxt in I. apply in_map_iff in I as [b [<- Hb]]. rewrite (args_map r nxt _ nxt_sort) in E2. rewrite (read_nxt g V ord s _ b G2 (args_incl _ Hq _ Hb)). symmetry. apply (args_eq_ev _ _ _ E2 b Hb).
      * rewrite (fi_out u N). cbn [eval]. rewrite glue_other; [reflexivity|]. intros b Hb. apply (lab_clean e u b He Hu Hb).
    + rewrite (surjective_pairing f0), Ef, E1. f_equal. apply args_agree_ev. intros v Hv. cbn [eval]. rewrite glue_other; [reflexivity|]. intros b Hb. apply (cur_clean p v b Hv Hb).
    + f_equal. exact G2.
Qed.
End Into.
End Labels.
