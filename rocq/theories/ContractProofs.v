(** * Proofs about the contraction of vertices. *)
From Coq Require Import Permutation.
From Verif Require Import Syntax Solver TransSys Graph GraphOps GraphOpsProofs GraphSem Names ListLemmas SimpleTransModel MergeModel MergeProofs LinearModel LinearProofs LinearPath ExpandProofs ContractModel.
Open Scope list_scope.
Open Scope nat_scope.

(** ** Names *)
Definition no_us (s : string) : bool := all_chars (fun a => negb (Ascii.eqb a "_")) s.
Lemma all_chars_impl (f h : ascii -> bool) s : (forall a, f a = true -> h a = true) -> all_chars f s = true -> all_chars h s = true.
Proof. intros H. induction s as [|a s IH]; cbn; [auto|]. rewrite !andb_true_iff. intros [A B]. auto. Qed.
Lemma num_no_us n : no_us (num n) = true.
Proof.
  unfold no_us, num. apply (all_chars_impl num_char); [|apply to_string_chars]. intros a H. destruct (Ascii.eqb_spec a "_") as [->|]; [discriminate|reflexivity].
Qed.
Lemma split_us a : forall b c d, no_us a = true -> no_us c = true -> (a ++ String "_" b)%string = (c ++ String "_" d)%string -> a = c /\ b = d.
Proof.
  induction a as [|x a IH]; intros b c d Ha Hc E; destruct c as [|y c]; cbn in E.
  - injection E as ->. auto.
  - injection E as E _. subst y. discriminate.
  - injection E as E _. subst x. discriminate.
  - injection E as -> E. cbn in Ha, Hc. apply andb_true_iff in Ha as [_ Ha]. apply andb_true_iff in Hc as [_ Hc]. destruct (IH b c d Ha Hc E) as [-> ->]. auto.
Qed.
Lemma num_inj a b : num a = num b -> a = b.
Proof. intros E. apply to_string_inj in E. lia. Qed.
Lemma locv_inj p q : vbase (locv p) = vbase (locv q) -> p = q.
Proof. unfold locv. cbn [vbase]. intros E. injection E as E. apply num_inj, E. Qed.
Lemma argv_inj p i s q j s' : vbase (argv p i s) = vbase (argv q j s') -> p = q /\ i = j.
Proof.
  unfold argv. cbn [vbase]. intros E. injection E as E. change (num p ++ String "_" (num i) = num q ++ String "_" (num j))%string in E.
  apply split_us in E as [E1 E2]; [|apply num_no_us|apply num_no_us]. split; apply num_inj; assumption.
Qed.
Lemma loc_arg p q i s : vbase (locv p) <> vbase (argv q i s).
Proof. unfold locv, argv. cbn [vbase]. intros E. discriminate E. Qed.
Lemma et_loc k s p : vbase (etaux k s) <> vbase (locv p).
Proof. unfold locv, etaux. cbn [vbase]. intros E. discriminate E. Qed.
Lemma et_arg k s p i s' : vbase (etaux k s) <> vbase (argv p i s').
Proof. unfold argv, etaux. cbn [vbase]. intros E. discriminate E. Qed.
Lemma etaux_inj k s k' s' : etaux k s = etaux k' s' -> k = k' /\ s = s'.
Proof. unfold etaux. intros E. injection E as E1 E2. split; [apply num_inj, E1|exact E2]. Qed.

Section Fix.
Variable g : lgraph.
Lemma in_args_of p v : In v (args_of g p) <-> exists i b, nth_error (lpv g p) i = Some b /\ v = argv p i (vsort b).
Proof.
  unfold args_of. rewrite in_map_iff. split.
  - intros [[i b] [<- H]]. apply In_nth_error in H as [k H]. apply nth_error_combine in H as [H1 H2].
    assert (k < length (lpv g p)) by (apply nth_error_Some; congruence). rewrite nth_error_seq in H1 by assumption. injection H1 as <-. cbn [fst snd]. eauto.
  - intros [i [b [H ->]]]. exists (i, b). split; [reflexivity|]. apply nth_error_In with (n := i). apply nth_error_combine_intro; [|exact H].
    rewrite nth_error_seq; [reflexivity|]. apply nth_error_Some. congruence.
Qed.
Lemma args_of_length p : length (args_of g p) = length (lpv g p).
Proof. unfold args_of. rewrite map_length, combine_length, seq_length. lia. Qed.
Lemma args_of_nth p i b : nth_error (lpv g p) i = Some b -> nth_error (args_of g p) i = Some (argv p i (vsort b)).
Proof.
  intros H. unfold args_of. rewrite nth_error_map, (nth_error_combine_intro (seq 0 (length (lpv g p))) (lpv g p) i i b); [reflexivity| |exact H].
  rewrite nth_error_seq; [reflexivity|]. apply nth_error_Some. congruence.
Qed.
Lemma args_of_sorts p : map vsort (args_of g p) = map vsort (lpv g p).
Proof.
  apply nth_error_ext. intros i. rewrite !nth_error_map. destruct (nth_error (lpv g p) i) as [b|] eqn:E.
  - rewrite (args_of_nth p i b E). reflexivity.
  - apply nth_error_None in E. assert (X : nth_error (args_of g p) i = None) by (apply nth_error_None; rewrite args_of_length; exact E). rewrite X. reflexivity.
Qed.
Lemma args_of_nodup p : NoDup (args_of g p).
Proof.
  apply NoDup_nth_error. intros i j Hi E. destruct (nth_error (args_of g p) i) as [v|] eqn:Ei; [|apply nth_error_None in Ei; lia].
  symmetry in E. assert (G : forall k u, nth_error (args_of g p) k = Some u -> exists b, u = argv p k (vsort b)).
  { intros k u Hu. destruct (nth_error (lpv g p) k) as [b|] eqn:Eb; [rewrite (args_of_nth p k b Eb) in Hu; injection Hu as <-; eauto|].
    apply nth_error_None in Eb. assert (k < length (args_of g p)) by (apply nth_error_Some; congruence). rewrite args_of_length in H. lia. }
  destruct (G i v Ei) as [b Hb]. destruct (G j v E) as [b' Hb']. assert (X : vbase (argv p i (vsort b)) = vbase (argv p j (vsort b'))) by congruence. apply argv_inj in X. apply X.
Qed.

(** ** Renamings given by two lists *)
Lemma combine_fst {A B} (ks : list A) : forall vs : list B, length ks = length vs -> map fst (combine ks vs) = ks.
Proof. induction ks as [|k ks IH]; intros [|v vs] L; try discriminate; cbn; [reflexivity|]. f_equal. apply IH. cbn in L. lia. Qed.
Lemma vl_nth ks vs m i k v : NoDup ks -> nth_error ks i = Some k -> nth_error vs i = Some v -> vlookup (combine ks vs ++ m) k = v.
Proof.
  intros N Hk Hv. rewrite vlookup_app. assert (H : In (k, v) (combine ks vs)) by (apply (nth_error_In _ i), nth_error_combine_intro; assumption).
  destruct (in_dec var_dec k (map fst (combine ks vs))) as [X|X]; [apply vlookup_combine; assumption|]. destruct X. apply in_map_iff. exists (k, v). auto.
Qed.
Lemma vl_skip ks vs m v : length ks = length vs -> ~ In v ks -> vlookup (combine ks vs ++ m) v = vlookup m v.
Proof. intros L N. rewrite vlookup_app, (combine_fst ks vs L). destruct (in_dec var_dec v ks); [contradiction|reflexivity]. Qed.
Lemma vl_map ks vs m : NoDup ks -> length ks = length vs -> map (vlookup (combine ks vs ++ m)) ks = vs.
Proof.
  intros N L. apply nth_error_ext. intros i. rewrite nth_error_map. destruct (nth_error ks i) as [k|] eqn:Ek.
  - destruct (nth_error vs i) as [v|] eqn:Ev; [cbn; f_equal; apply (vl_nth ks vs m i); assumption|].
    apply nth_error_None in Ev. assert (i < length ks) by (apply nth_error_Some; congruence). lia.
  - apply nth_error_None in Ek. symmetry. apply nth_error_None. lia.
Qed.
Lemma vl_in ks vs m v : NoDup ks -> length ks = length vs -> In v ks -> exists i u, nth_error ks i = Some v /\ nth_error vs i = Some u /\ vlookup (combine ks vs ++ m) v = u.
Proof.
  intros N L H. apply In_nth_error in H as [i Hi]. destruct (nth_error vs i) as [u|] eqn:Eu.
  - exists i, u. split; [exact Hi|]. split; [exact Eu|]. apply (vl_nth ks vs m i); assumption.
  - apply nth_error_None in Eu. assert (i < length ks) by (apply nth_error_Some; congruence). lia.
Qed.
Lemma vl_inj ks vs m a b : NoDup ks -> NoDup vs -> length ks = length vs -> In a ks -> In b ks ->
  vlookup (combine ks vs ++ m) a = vlookup (combine ks vs ++ m) b -> a = b.
Proof.
  intros N1 N2 L Ha Hb E. destruct (vl_in ks vs m a N1 L Ha) as [i [u [A1 [A2 A3]]]]. destruct (vl_in ks vs m b N1 L Hb) as [j [u' [B1 [B2 B3]]]].
  assert (i = j).
  { apply (proj1 (NoDup_nth_error vs) N2); [apply nth_error_Some; congruence|congruence]. }
  congruence.
Qed.
Lemma combine_sorts ks vs : map vsort ks = map vsort vs -> forall a b, In (a, b) (combine ks vs) -> vsort b = vsort a.
Proof.
  intros E a b H. apply In_nth_error in H as [i H]. apply nth_error_combine in H as [H1 H2].
  assert (X : nth_error (map vsort ks) i = nth_error (map vsort vs) i) by congruence. rewrite !nth_error_map, H1, H2 in X. cbn in X. congruence.
Qed.
Lemma cur_nodup p : lwf g -> NoDup (cur_vars g p).
Proof.
  intros W. unfold cur_vars. apply NoDup_map_inj_in; [|apply (rep_nodup _ (lwf_rep g W))]. intros a b Ha Hb E.
  pose proof (rep_base _ (lwf_rep g W) p a Ha) as Ta. pose proof (rep_base _ (lwf_rep g W) p b Hb) as Tb. destruct a, b. unfold cur in E. cbn in *. congruence.
Qed.
Lemma nxt_nodup p : lwf g -> NoDup (nxt_vars g p).
Proof.
  intros W. unfold nxt_vars. apply NoDup_map_inj_in; [|apply (rep_nodup _ (lwf_rep g W))]. intros a b Ha Hb E.
  pose proof (rep_base _ (lwf_rep g W) p a Ha) as Ta. pose proof (rep_base _ (lwf_rep g W) p b Hb) as Tb. destruct a, b. unfold nxt in E. cbn in *. congruence.
Qed.
Lemma args_of_base p v : In v (args_of g p) -> vtag v = TBase.
Proof. intros H. apply in_args_of in H as [i [b [_ ->]]]. reflexivity. Qed.
Lemma map_tag_nodup (f : var -> var) l : NoDup l -> (forall v, In v l -> vtag v = TBase) -> (forall a b, vtag a = TBase -> vtag b = TBase -> f a = f b -> a = b) -> NoDup (map f l).
Proof. intros N T I. apply NoDup_map_inj_in; [|exact N]. intros a b Ha Hb. apply I; auto. Qed.
Lemma cur_inj a b : vtag a = TBase -> vtag b = TBase -> cur a = cur b -> a = b.
Proof. destruct a, b. unfold cur. cbn. intros -> -> E. congruence. Qed.
Lemma nxt_inj a b : vtag a = TBase -> vtag b = TBase -> nxt a = nxt b -> a = b.
Proof. destruct a, b. unfold nxt. cbn. intros -> -> E. congruence. Qed.
Lemma cur_args_nodup p : NoDup (map cur (args_of g p)).
Proof. apply map_tag_nodup; [apply args_of_nodup|intros v; apply args_of_base|apply cur_inj]. Qed.
Lemma nxt_args_nodup p : NoDup (map nxt (args_of g p)).
Proof. apply map_tag_nodup; [apply args_of_nodup|intros v; apply args_of_base|apply nxt_inj]. Qed.
Lemma cur_args_len p : length (cur_vars g p) = length (map cur (args_of g p)).
Proof. unfold cur_vars. rewrite !map_length, args_of_length. reflexivity. Qed.
Lemma nxt_args_len p : length (nxt_vars g p) = length (map nxt (args_of g p)).
Proof. unfold nxt_vars. rewrite !map_length, args_of_length. reflexivity. Qed.
Lemma map_vsort_tag (f : var -> var) l : (forall v, vsort (f v) = vsort v) -> map vsort (map f l) = map vsort l.
Proof. intros H. rewrite map_map. apply map_ext. exact H. Qed.
Lemma cur_args_sorts p : map vsort (cur_vars g p) = map vsort (map cur (args_of g p)).
Proof. unfold cur_vars. rewrite !map_vsort_tag by reflexivity. symmetry. apply args_of_sorts. Qed.
Lemma nxt_args_sorts p : map vsort (nxt_vars g p) = map vsort (map nxt (args_of g p)).
Proof. unfold nxt_vars. rewrite !map_vsort_tag by reflexivity. symmetry. apply args_of_sorts. Qed.
Lemma in_cur_vars p v : In v (cur_vars g p) -> vtag v = TTime 0.
Proof. intros H. apply in_map_iff in H as [b [<- _]]. reflexivity. Qed.
Lemma in_nxt_vars p v : In v (nxt_vars g p) -> vtag v = TTime 1.
Proof. intros H. apply in_map_iff in H as [b [<- _]]. reflexivity. Qed.
Lemma laux_spec e v : In v (laux_vars g e) <-> In v (vars (lfla e)) /\ ~ In v (cur_vars g (lfrom e)) /\ ~ In v (nxt_vars g (lto e)).
Proof.
  unfold laux_vars. rewrite filter_In, nodup_In, andb_true_iff, !negb_true_iff, !inb_false. tauto.
Qed.
Lemma laux_nodup e : NoDup (laux_vars g e).
Proof. apply NoDup_filter, NoDup_nodup. Qed.
Lemma et_aux_len ctr e : length (laux_vars g e) = length (et_aux g ctr e).
Proof. unfold et_aux. rewrite map_length, combine_length, seq_length. lia. Qed.
Lemma et_aux_nth ctr e i a : nth_error (laux_vars g e) i = Some a -> nth_error (et_aux g ctr e) i = Some (etaux (ctr + i) (vsort a)).
Proof.
  intros H. unfold et_aux. rewrite nth_error_map, (nth_error_combine_intro (seq 0 (length (laux_vars g e))) (laux_vars g e) i i a); [reflexivity| |exact H].
  rewrite nth_error_seq; [reflexivity|]. apply nth_error_Some. congruence.
Qed.
Lemma et_aux_in ctr e v : In v (et_aux g ctr e) -> exists k s, v = etaux k s /\ ctr <= k < ctr + length (laux_vars g e).
Proof.
  intros H. apply In_nth_error in H as [i H]. destruct (nth_error (laux_vars g e) i) as [a|] eqn:E.
  - rewrite (et_aux_nth ctr e i a E) in H. injection H as <-. exists (ctr + i), (vsort a). split; [reflexivity|]. assert (i < length (laux_vars g e)) by (apply nth_error_Some; congruence). lia.
  - apply nth_error_None in E. rewrite (et_aux_len ctr) in E. assert (i < length (et_aux g ctr e)) by (apply nth_error_Some; congruence). lia.
Qed.
Lemma et_aux_nodup ctr e : NoDup (et_aux g ctr e).
Proof.
  apply NoDup_nth_error. intros i j Hi E. rewrite <- et_aux_len in Hi. destruct (nth_error (laux_vars g e) i) as [a|] eqn:Ea; [|apply nth_error_None in Ea; lia].
  rewrite (et_aux_nth ctr e i a Ea) in E. symmetry in E. destruct (nth_error (laux_vars g e) j) as [b|] eqn:Eb.
  - rewrite (et_aux_nth ctr e j b Eb) in E. injection E as E. assert (X : etaux (ctr + j) (vsort b) = etaux (ctr + j) (vsort b)) by reflexivity.
    assert (Y : num (ctr + j) = num (ctr + i)) by congruence. apply num_inj in Y. lia.
  - apply nth_error_None in Eb. assert (j < length (et_aux g ctr e)) by (apply nth_error_Some; congruence). rewrite <- et_aux_len in H. lia.
Qed.
Lemma et_aux_sorts ctr e : map vsort (laux_vars g e) = map vsort (et_aux g ctr e).
Proof.
  apply nth_error_ext. intros i. rewrite !nth_error_map. destruct (nth_error (laux_vars g e) i) as [a|] eqn:E.
  - rewrite (et_aux_nth ctr e i a E). reflexivity.
  - apply nth_error_None in E. rewrite (et_aux_len ctr) in E. apply nth_error_None in E. rewrite E. reflexivity.
Qed.
End Fix.

Definition names_free (g : lgraph) (V : list sym) : Prop := forall v,
  (exists e, In e (ledges g) /\ In v (vars (lfla e))) \/ (exists p, In v (lpv g p)) ->
  forall p, In p V -> vbase v <> vbase (locv p) /\ forall i s, vbase v <> vbase (argv p i s).
Definition unv (v : var) : var := mkVar (vbase v) TBase (vsort v).

Section Main.
Variable g : lgraph.
Hypothesis W : lwf g.
Variable V : list sym.
Hypothesis NV : NoDup V.
Hypothesis NF : names_free g V.
Variable ord : list var -> list var.
Hypothesis Hord : forall l, Permutation (ord l) l.

Notation nvv := (nv_vars g V ord).
Definition at_loc (s : valuation) (p : sym) : Prop := forall q, In q V -> (holds s (Var (locv q)) <-> q = p).

Lemma mem_in p : mem V p = true <-> In p V.
Proof.
  unfold mem. rewrite existsb_exists. split; [intros [q [H E]]; apply Nat.eqb_eq in E; subst; exact H|]. intros H. exists p. split; [exact H|apply Nat.eqb_refl].
Qed.
Lemma in_nvv v : In v nvv <-> (exists p, In p V /\ v = locv p) \/ (exists p, In p V /\ In v (args_of g p)).
Proof.
  unfold nv_vars. split.
  - intros H. apply (Permutation_in _ (Hord _)) in H. apply in_app_iff in H as [H|H].
    + apply in_map_iff in H as [p [<- Hp]]. eauto.
    + apply in_concat in H as [l [Hl Hv]]. apply in_map_iff in Hl as [p [<- Hp]]. eauto.
  - intros H. apply (Permutation_in _ (Permutation_sym (Hord _))). apply in_app_iff. destruct H as [[p [Hp ->]]|[p [Hp Hv]]].
    + left. apply in_map, Hp.
    + right. apply in_concat. exists (args_of g p). split; [apply in_map, Hp|exact Hv].
Qed.
Lemma loc_nvv p : In p V -> In (locv p) nvv.
Proof. intros H. apply in_nvv. eauto. Qed.
Lemma arg_nvv p v : In p V -> In v (args_of g p) -> In v nvv.
Proof. intros H Hv. apply in_nvv. eauto. Qed.
Lemma nvv_base v : In v nvv -> vtag v = TBase.
Proof. intros H. apply in_nvv in H as [[p [_ ->]]|[p [_ H]]]; [reflexivity|apply (args_of_base g p v H)]. Qed.
Lemma nvv_name v : In v nvv -> exists p, In p V /\ (vbase v = vbase (locv p) \/ exists i s, vbase v = vbase (argv p i s)).
Proof.
  intros H. apply in_nvv in H as [[p [Hp ->]]|[p [Hp H]]]; exists p; (split; [exact Hp|]); [auto|]. apply in_args_of in H as [i [b [_ ->]]]. right. eauto.
Qed.
Lemma nvv_nodup : NoDup nvv.
Proof.
  apply (Permutation_NoDup (Permutation_sym (Hord _))). induction V as [|p l IH]; [constructor|]. inversion NV as [|? ? Hn N']; subst.
  assert (NF' : names_free g l) by (intros v Hv q Hq; apply NF; [exact Hv|right; exact Hq]). specialize (IH N' NF'). cbn [map concat].
  apply (Permutation_NoDup (l := (locv p :: args_of g p) ++ (map locv l ++ concat (map (args_of g) l)))).
  { cbn [app]. constructor. rewrite !app_assoc. apply Permutation_app_tail, Permutation_app_comm. }
  assert (D : forall v, In v (map locv l ++ concat (map (args_of g) l)) -> (exists q, In q l /\ v = locv q) \/ (exists q, In q l /\ In v (args_of g q))).
  { intros v H. apply in_app_iff in H as [H|H]; [apply in_map_iff in H as [q [<- Hq]]; eauto|]. apply in_concat in H as [x [Hx Hv]]. apply in_map_iff in Hx as [q [<- Hq]]. eauto. }
  apply FormulaProofs3.NoDup_app_intro; [|exact IH|].
  - constructor; [|apply args_of_nodup]. intros H. apply in_args_of in H as [i [b [_ E]]]. apply (loc_arg p p i (vsort b)). congruence.
  - intros v [<-|H] X; apply D in X as [[q [Hq E]]|[q [Hq E]]].
    + assert (p = q) by (apply locv_inj; congruence). congruence.
    + apply in_args_of in E as [i [b [_ E]]]. apply (loc_arg p q i (vsort b)). congruence.
    + subst v. apply in_args_of in H as [i [b [_ E]]]. apply (loc_arg q p i (vsort b)). congruence.
    + apply in_args_of in H as [i [b [_ E1]]]. apply in_args_of in E as [j [b' [_ E2]]].
      assert (X : vbase (argv p i (vsort b)) = vbase (argv q j (vsort b'))) by congruence. apply argv_inj in X as [-> _]. contradiction.
Qed.
Lemma unv_cur b : vtag b = TBase -> unv (cur b) = b.
Proof. destruct b. unfold unv, cur. cbn. intros ->. reflexivity. Qed.
Lemma unv_nxt b : vtag b = TBase -> unv (nxt b) = b.
Proof. destruct b. unfold unv, nxt. cbn. intros ->. reflexivity. Qed.
Definition glue (s s' r : valuation) : valuation := fun v =>
  if inb (unv v) nvv then
    if tag_eqb (vtag v) (TTime 0) then s (unv v) else if tag_eqb (vtag v) (TTime 1) then s' (unv v) else r v
  else r v.
Lemma glue_cur s s' r b : In b nvv -> glue s s' r (cur b) = s b.
Proof. intros H. unfold glue. rewrite (unv_cur b (nvv_base b H)). rewrite (proj2 (inb_true b nvv) H). reflexivity. Qed.
Lemma glue_nxt s s' r b : In b nvv -> glue s s' r (nxt b) = s' b.
Proof. intros H. unfold glue. rewrite (unv_nxt b (nvv_base b H)). rewrite (proj2 (inb_true b nvv) H). reflexivity. Qed.
Lemma glue_other s s' r v : (forall b, In b nvv -> vbase v <> vbase b) -> glue s s' r v = r v.
Proof.
  intros H. unfold glue. destruct (inb (unv v) nvv) eqn:E; [|reflexivity]. apply inb_true in E. destruct (H _ E). reflexivity.
Qed.
Lemma glue_args_cur s s' r : args (glue s s' r) (map cur nvv) = args s nvv.
Proof. apply args_ren_ext. intros v Hv. cbn [eval vsort cur]. rewrite (glue_cur s s' r v Hv). reflexivity. Qed.
Lemma glue_args_nxt s s' r : args (glue s s' r) (map nxt nvv) = args s' nvv.
Proof. apply args_ren_ext. intros v Hv. cbn [eval vsort nxt]. rewrite (glue_nxt s s' r v Hv). reflexivity. Qed.
(** Reading a state of the new vertex. *)
Lemma read_cur s R b : args s nvv = args R (map cur nvv) -> In b nvv -> eval R (Var (cur b)) = eval s (Var b).
Proof. intros E H. rewrite (args_map R cur nvv cur_sort) in E. symmetry. apply (args_eq_ev _ _ _ E b H). Qed.
Lemma read_nxt s R b : args s nvv = args R (map nxt nvv) -> In b nvv -> eval R (Var (nxt b)) = eval s (Var b).
Proof. intros E H. rewrite (args_map R nxt nvv nxt_sort) in E. symmetry. apply (args_eq_ev _ _ _ E b H). Qed.
Lemma holds_read R s u v : eval R (Var u) = eval s (Var v) -> (holds R (Var u) <-> holds s (Var v)).
Proof. intros E. unfold holds, holdsb. rewrite E. tauto. Qed.

(** *** The labels *)
Lemma at_loc_cur s R p : args s nvv = args R (map cur nvv) -> In p V ->
  (at_loc s p <-> holds R (Var (cur (locv p))) /\ forall q, In q V -> q <> p -> ~ holds R (Var (cur (locv q)))).
Proof.
  intros E Hp. split.
  - intros H. split; [apply (holds_read R s _ _ (read_cur s R _ E (loc_nvv p Hp))), H; auto|]. intros q Hq N X. apply (holds_read R s _ _ (read_cur s R _ E (loc_nvv q Hq))) in X. apply (H q Hq) in X. contradiction.
  - intros [H1 H2] q Hq. rewrite <- (holds_read R s _ _ (read_cur s R _ E (loc_nvv q Hq))). split; [|intros ->; exact H1].
    intros X. destruct (Nat.eq_dec q p) as [->|N]; [reflexivity|]. destruct (H2 q Hq N X).
Qed.
Lemma at_loc_nxt s R p : args s nvv = args R (map nxt nvv) -> In p V ->
  (at_loc s p <-> holds R (Var (nxt (locv p))) /\ forall q, In q V -> q <> p -> ~ holds R (Var (nxt (locv q)))).
Proof.
  intros E Hp. split.
  - intros H. split; [apply (holds_read R s _ _ (read_nxt s R _ E (loc_nvv p Hp))), H; auto|]. intros q Hq N X. apply (holds_read R s _ _ (read_nxt s R _ E (loc_nvv q Hq))) in X. apply (H q Hq) in X. contradiction.
  - intros [H1 H2] q Hq. rewrite <- (holds_read R s _ _ (read_nxt s R _ E (loc_nvv q Hq))). split; [|intros ->; exact H1].
    intros X. destruct (Nat.eq_dec q p) as [->|N]; [reflexivity|]. destruct (H2 q Hq N X).
Qed.
Lemma updated_holds R p q : Forall (holds R) (updated_location V p q) <->
  (forall v, In v V -> v <> q -> ~ holds R (Var (nxt (locv v)))) /\ (forall v, In v V -> v <> p -> ~ holds R (Var (cur (locv v)))).
Proof.
  unfold updated_location. rewrite Forall_forall. split.
  - intros H. split; intros v Hv N; apply holds_not; apply H; apply in_concat; eexists; (split; [apply in_map_iff; exists v; split; [reflexivity|exact Hv]|]);
    apply in_app_iff; apply Nat.eqb_neq in N; rewrite N; cbn; auto.
  - intros [H1 H2] t Ht. apply in_concat in Ht as [l [Hl Ht]]. apply in_map_iff in Hl as [v [<- Hv]]. apply in_app_iff in Ht as [Ht|Ht].
    + destruct (Nat.eqb_spec v q) as [|N]; [destruct Ht|]. destruct Ht as [<-|[]]. apply holds_not. auto.
    + destruct (Nat.eqb_spec v p) as [|N]; [destruct Ht|]. destruct Ht as [<-|[]]. apply holds_not. auto.
Qed.
End Main.
