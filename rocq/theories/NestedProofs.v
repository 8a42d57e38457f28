(** * Proofs about the nested-loop transformation. *)
From Coq Require Import Permutation.
From Verif Require Import Syntax Solver TransSys Graph GraphOps GraphOpsProofs DfsProofs LoopProofs GraphSem Names ListLemmas SimpleTransModel MergeModel MergeProofs LinearModel LinearProofs LinearPath ExpandProofs ContractModel ContractProofs ContractLabels ContractSem ContractWf ContractDef NontermProofs NestedModel.
Open Scope list_scope.
Open Scope nat_scope.

Lemma vlookup_range m v : vlookup m v = v \/ In (vlookup m v) (map snd m).
Proof.
  destruct (in_dec var_dec v (map fst m)) as [H|H]; [right|left; apply vlookup_out, H]. apply vlookup_in in H. apply (in_map snd) in H. exact H.
Qed.
Lemma subst_lookup_ext s s' t : (forall v, In v (vars t) -> lookup v s = lookup v s') -> subst s t = subst s' t.
Proof.
  induction t as [v|c|f ts IH] using term_ind'; intros H; cbn [subst].
  - rewrite (H v); [reflexivity|left; reflexivity].
  - reflexivity.
  - f_equal. rewrite Forall_forall in IH. apply map_ext_in. intros u Hu. apply IH; [exact Hu|]. intros v Hv. apply H. cbn [vars]. apply in_concat. exists (vars u). split; [apply in_map, Hu|exact Hv].
Qed.
Lemma combine_range {A B} (ks : list A) : forall (vs : list B) x, In x (map snd (combine ks vs)) -> In x vs.
Proof. induction ks as [|k ks IH]; intros [|v vs] x; cbn; try tauto. intros [<-|H]; [left; reflexivity|right; apply IH, H]. Qed.

(** ** Names *)
(** Names of variables after the vertices [C] have been contracted. *)
Inductive own_name (C : list sym) (b : string) : Prop :=
| on_loc p : In p C -> b = vbase (locv p) -> own_name C b
| on_arg p i s : In p C -> b = vbase (argv p i s) -> own_name C b.
Definition et_name (b : string) : Prop := exists k s, b = vbase (etaux k s).
Section Names.
Variable U : string -> Prop.
Hypothesis Uloc : forall p, ~ U (vbase (locv p)).
Hypothesis Uarg : forall p i s, ~ U (vbase (argv p i s)).
Hypothesis Uet : forall k s, ~ U (vbase (etaux k s)).
Record named (C : list sym) (g : lgraph) : Prop := {
  nm_lab : forall e v, In e (ledges g) -> In v (vars (lfla e)) -> U (vbase v) \/ own_name C (vbase v) \/ et_name (vbase v);
  nm_pv : forall p v, In v (lpv g p) -> U (vbase v) \/ own_name C (vbase v)
}.
Lemma own_incl C C' b : incl C C' -> own_name C b -> own_name C' b.
Proof. intros H [p Hp E|p i s Hp E]; [eapply on_loc; eauto|eapply on_arg; eauto]. Qed.
Lemma own_loc C p : own_name C (vbase (locv p)) -> In p C.
Proof.
  intros [q Hq E|q i s Hq E]; [apply locv_inj in E; subst; exact Hq|]. destruct (loc_arg p q i s E).
Qed.
Lemma own_arg C p i s : own_name C (vbase (argv p i s)) -> In p C.
Proof.
  intros [q Hq E|q j s' Hq E]; [destruct (loc_arg q p i s (eq_sym E))|]. apply argv_inj in E as [-> _]. exact Hq.
Qed.
Lemma named_free C g V : named C g -> (forall p, In p V -> ~ In p C) -> names_free g V.
Proof.
  intros [N1 N2] D v Hv p Hp. assert (X : U (vbase v) \/ own_name C (vbase v) \/ et_name (vbase v)).
  { destruct Hv as [[e [He Hv]]|[q Hq]]; [apply (N1 e v He Hv)|]. destruct (N2 q v Hq); auto. }
  split; [|intros i s]; intros E; rewrite E in X.
  - destruct X as [X|[X|[k [s X]]]]; [apply (Uloc p X)|apply (D p Hp), (own_loc _ _ X)|apply (et_loc k s p), (eq_sym X)].
  - destruct X as [X|[X|[k [s' X]]]]; [apply (Uarg p i s X)|apply (D p Hp), (own_arg _ _ _ _ X)|apply (et_arg k s' p i s), (eq_sym X)].
Qed.
Lemma named_et C g : named C g -> et_free g.
Proof.
  intros [_ N2] p v k s Hv E. destruct (N2 p v Hv) as [X|[q _ X|q i s' _ X]]; rewrite E in X; [apply (Uet k s X)|apply (et_loc k s q X)|apply (et_arg k s q i s' X)].
Qed.

Section Step.
Variable g : lgraph.
Variable C : list sym.
Hypothesis N : named C g.
Variable V : list sym.
Variable ord : list var -> list var.
Hypothesis Hord : forall l, Permutation (ord l) l.
Variables (nv : sym) (nid : nat).
Notation g' := (contract g V nv nid ord).
Notation ok b := (U b \/ own_name (C ++ V) b \/ et_name b).
Lemma ok_lab e v : In e (ledges g) -> In v (vars (lfla e)) -> ok (vbase v).
Proof. intros He Hv. destruct (nm_lab _ _ N e v He Hv) as [X|[X|X]]; auto. right. left. apply (own_incl C); [apply incl_appl, incl_refl|exact X]. Qed.
Lemma ok_loc p f : (forall v, vbase (f v) = vbase v) -> In p V -> ok (vbase (f (locv p))).
Proof. intros E Hp. rewrite E. right. left. apply on_loc with p; [apply in_app_iff; auto|reflexivity]. Qed.
Lemma ok_args p f v : (forall v, vbase (f v) = vbase v) -> In p V -> In v (map f (args_of g p)) -> ok (vbase v).
Proof.
  intros E Hp Hv. apply in_map_iff in Hv as [b [<- Hb]]. rewrite E. apply in_args_of in Hb as [i [x [_ ->]]]. right. left. apply on_arg with p i (vsort x); [apply in_app_iff; auto|reflexivity].
Qed.
Lemma vars_app f ts v : In v (vars (App f ts)) -> exists t, In t ts /\ In v (vars t).
Proof. cbn [vars]. intros H. apply in_concat in H as [l [Hl H]]. apply in_map_iff in Hl as [t [<- Ht]]. eauto. Qed.
Lemma vars_not t v : In v (vars (mkNot t)) -> In v (vars t).
Proof. cbn. rewrite app_nil_r. auto. Qed.
Lemma vars_and ts v : In v (vars (mkAnd ts)) -> exists t, In t ts /\ In v (vars t).
Proof. apply vars_app. Qed.
Lemma vars_or ts v : In v (vars (mkOr ts)) -> exists t, In t ts /\ In v (vars t).
Proof. apply vars_app. Qed.
Lemma ok_inner ctr e v : In e (ledges g) -> In (lfrom e) V -> In (lto e) V -> In v (vars (translate_edge g V ctr e)) -> ok (vbase v).
Proof.
  intros He Hp Hq Hv. unfold translate_edge in Hv. apply vars_and in Hv as [t [[<-|[<-|[<-|[<-|[]]]]] Hv]].
  - destruct Hv as [<-|[]]. apply (ok_loc (lfrom e) cur); auto.
  - rewrite vars_rename in Hv. apply in_map_iff in Hv as [x [<- Hx]]. destruct (vlookup_range (et_map g ctr e) x) as [->|R]; [apply (ok_lab e x He Hx)|].
    revert R. generalize (vlookup (et_map g ctr e) x). intros y R. unfold et_map in R. rewrite !map_app, !in_app_iff in R. destruct R as [R|[R|R]]; apply combine_range in R.
    + apply et_aux_in in R as [k [s [-> _]]]. right. right. exists k, s. reflexivity.
    + apply (ok_args (lfrom e) cur _ (fun v => eq_refl) Hp R).
    + apply (ok_args (lto e) nxt _ (fun v => eq_refl) Hq R).
  - destruct Hv as [<-|[]]. apply (ok_loc (lto e) nxt); auto.
  - apply vars_and in Hv as [t [Ht Hv]]. unfold updated_location in Ht. apply in_concat in Ht as [l [Hl Ht]]. apply in_map_iff in Hl as [p [<- Hl]]. apply in_app_iff in Ht as [Ht|Ht].
    + destruct (Nat.eqb p (lto e)); [destruct Ht|]. destruct Ht as [<-|[]]. apply vars_not in Hv as [<-|[]]. apply (ok_loc p nxt); auto.
    + destruct (Nat.eqb p (lfrom e)); [destruct Ht|]. destruct Ht as [<-|[]]. apply vars_not in Hv as [<-|[]]. apply (ok_loc p cur); auto.
Qed.
Lemma ok_parts es : incl es (ledges g) -> forall ctr t v, In t (loop_parts g V ctr es) -> In v (vars t) -> ok (vbase v).
Proof.
  induction es as [|e es IH]; intros I ctr t v Ht Hv; [destruct Ht|]. cbn [loop_parts] in Ht. assert (I' : incl es (ledges g)) by (intros x Hx; apply I; right; exact Hx).
  destruct (internal V e) eqn:Ei; [|apply (IH I' _ _ _ Ht Hv)]. destruct Ht as [<-|Ht]; [|apply (IH I' _ _ _ Ht Hv)].
  unfold internal in Ei. apply andb_true_iff in Ei as [E1 E2]. apply mem_in in E1, E2. apply (ok_inner ctr e v); auto. apply I. left. reflexivity.
Qed.
Lemma contract_named : named (C ++ V) g'.
Proof.
  split.
  - intros e' v He' Hv. destruct (contract_edge g V ord nv nid e' He') as [->|e Ie Vp Vq ->|e Ie Vp Vq ->|Ie Vp Vq].
    + cbn [loop_edge lfla] in Hv. apply vars_or in Hv as [t [Ht Hv]]. apply (ok_parts (ledges g) (incl_refl _) _ _ _ Ht Hv).
    + cbn [out_edge lfla] in Hv. rewrite vars_rename in Hv. apply in_map_iff in Hv as [x [<- Hx]]. destruct (vlookup_range (combine (cur_vars g (lfrom e)) (map cur (args_of g (lfrom e)))) x) as [->|R].
      * apply vars_and in Hx as [t [[<-|[<-|[]]] Hx]]; [apply (ok_lab e x Ie Hx)|]. destruct Hx as [<-|[]]. apply (ok_loc (lfrom e) cur); auto.
      * apply combine_range in R. apply (ok_args (lfrom e) cur _ (fun v => eq_refl) Vp R).
    + cbn [in_edge lfla] in Hv. apply vars_and in Hv as [t [[<-|[<-|[<-|[]]]] Hv]].
      * apply vars_and in Hv as [t [Ht Hv]]. apply in_map_iff in Ht as [p [<- Hp]]. apply filter_In in Hp as [Hp _]. apply vars_not in Hv as [<-|[]]. apply (ok_loc p nxt); auto.
      * destruct Hv as [<-|[]]. apply (ok_loc (lto e) nxt); auto.
      * rewrite vars_rename in Hv. apply in_map_iff in Hv as [x [<- Hx]]. destruct (vlookup_range (combine (nxt_vars g (lto e)) (map nxt (args_of g (lto e)))) x) as [->|R]; [apply (ok_lab e x Ie Hx)|].
        apply combine_range in R. apply (ok_args (lto e) nxt _ (fun v => eq_refl) Vq R).
    + apply (ok_lab e' v Ie Hv).
  - intros p v Hv. cbn [lpv contract] in Hv. unfold contract_pv in Hv. destruct (Nat.eqb p nv).
    + apply (in_nvv g V ord Hord) in Hv as [[q [Hq ->]]|[q [Hq Hb]]].
      * right. apply on_loc with q; [apply in_app_iff; auto|reflexivity].
      * right. apply in_args_of in Hb as [i [x [_ ->]]]. apply on_arg with q i (vsort x); [apply in_app_iff; auto|reflexivity].
    + destruct (nm_pv _ _ N p v Hv) as [X|X]; [auto|]. right. apply (own_incl C); [apply incl_appl, incl_refl|exact X].
Qed.
End Step.

(** ** Stages of the transformation *)
Section Run.
Variables (nv nid : nat -> nat).
Hypothesis nv_inj : forall i j, nv i = nv j -> i = j.
Hypothesis nid_inj : forall i j, nid i = nid j -> i = j.
Variable ord : list var -> list var.
Hypothesis Hord : forall l, Permutation (ord l) l.
Record stage (k : nat) (C : list sym) (g : lgraph) : Prop := {
  sg_wf : lwf g;
  sg_named : named C g;
  sg_gone : forall p, In p C -> ~ lvertex g p;
  sg_nv : forall j, k <= j -> ~ lvertex g (nv j) /\ ~ In (nv j) C;
  sg_nid : forall j e, k <= j -> In e (ledges g) -> lid e <> nid j
}.
Record loop_set (g : lgraph) (V : list sym) : Prop := {
  ls_nodup : NoDup V;
  ls_len : 2 <= length V;
  ls_vertex : forall p, In p V -> lvertex g p;
  ls_entry : ~ In entry V;
  ls_exit : ~ In exit V
}.
Lemma loop_vertices g l : lwf g -> detect_loop g = Some l -> 1 < length l -> loop_set g (map (lsource g) l).
Proof.
  intros W E L. destruct (detect_loop_ok g (lwf_ids g W)) as [l' [E' [H _]]]. rewrite E in E'. injection E' as <-.
  destruct H as [[C1 C2 C3 C4 C5] _]; [intros ->; cbn in L; lia|].
  assert (So : forall p, In p (map (lsource g) l) -> exists e, In e (ledges g) /\ lfrom e = p).
  { intros p Hp. apply in_map_iff in Hp as [i [<- Hi]]. destruct (C1 i Hi) as [e [He <-]]. exists e. split; [exact He|]. unfold lsource. rewrite (lfind_in g e (lwf_ids g W) He). reflexivity. }
  assert (Ta : forall p, In p (map (lsource g) l) -> exists e, In e (ledges g) /\ lto e = p).
  { assert (T : forall i, In i l -> exists e, In e (ledges g) /\ lto e = ltarget g i).
    { intros i Hi. destruct (C1 i Hi) as [e [He <-]]. exists e. split; [exact He|]. unfold ltarget. rewrite (lfind_in g e (lwf_ids g W) He). reflexivity. }
    intros p Hp. apply in_map_iff in Hp as [i [<- Hi]]. apply in_split in Hi as [l1 [l2 El]]. destruct l1 as [|j l1 _] using rev_ind.
    - subst l. cbn [app] in *. specialize (C4 0). cbn [hd] in C4. rewrite <- C4. apply T.
      destruct (exists_last (l := i :: l2)) as [l' [x Ex]]; [discriminate|]. rewrite Ex, last_last. apply in_app_iff. right. left. reflexivity.
    - rewrite <- (C3 l1 j i l2); [|rewrite El, <- app_assoc; reflexivity]. apply T. rewrite El, <- app_assoc. apply in_app_iff. right. left. reflexivity. }
  split.
  - exact C5.
  - rewrite map_length. exact C2.
  - intros p Hp. destruct (So p Hp) as [e [He <-]]. apply from_vertex, He.
  - intros X. destruct (Ta _ X) as [e [He Et]]. apply (lwf_entry g W e He Et).
  - intros X. destruct (So _ X) as [e [He Et]]. apply (lwf_exit g W e He Et).
Qed.
Lemma stage_free k C g V : stage k C g -> loop_set g V -> names_free g V /\ et_free g.
Proof.
  intros S L. split; [apply (named_free C); [apply (sg_named _ _ _ S)|]|apply (named_et C), (sg_named _ _ _ S)]. intros p Hp Hc. apply (sg_gone _ _ _ S p Hc), (ls_vertex _ _ L p Hp).
Qed.
Lemma stage_step k C g V : stage k C g -> loop_set g V -> stage (S k) (C ++ V) (contract g V (nv k) (nid k) ord).
Proof.
  intros S L. destruct (stage_free k C g V S L) as [NF ET]. destruct S as [W N G Fn Fi], L as [L1 L2 L3 L4 L5]. split.
  - apply contract_wf; auto. apply Fn; lia.
  - apply contract_named; auto.
  - intros p Hp X. apply (vertex_down g V L4 L5 ord (nv k) (nid k)) in X as [->|[X1 X2]].
    + apply in_app_iff in Hp as [Hp|Hp]; [apply (proj2 (Fn k (le_n k)) Hp)|apply (proj1 (Fn k (le_n k)) (L3 _ Hp))].
    + apply in_app_iff in Hp as [Hp|Hp]; [apply (G p Hp X1)|contradiction].
  - intros j Hj. split.
    + intros X. apply (vertex_down g V L4 L5 ord (nv k) (nid k)) in X as [X|[X _]]; [apply nv_inj in X; lia|]. apply (proj1 (Fn j ltac:(lia)) X).
    + intros X. apply in_app_iff in X as [X|X]; [apply (proj2 (Fn j ltac:(lia)) X)|]. apply (proj1 (Fn j ltac:(lia)) (L3 _ X)).
  - intros j e Hj He. destruct (contract_edge g V ord (nv k) (nid k) e He) as [->|e0 Ie Vp Vq ->|e0 Ie Vp Vq ->|Ie Vp Vq]; cbn [loop_edge out_edge in_edge lid].
    + intros X. apply nid_inj in X. lia.
    + apply Fi; [lia|exact Ie].
    + apply Fi; [lia|exact Ie].
    + apply Fi; [lia|exact Ie].
Qed.
Lemma fewer g V k C : stage k C g -> loop_set g V -> length (lvertices (contract g V (nv k) (nid k) ord)) < length (lvertices g).
Proof.
  intros S L. destruct L as [L1 L2 L3 L4 L5].
  assert (I : incl (lvertices (contract g V (nv k) (nid k) ord)) (nv k :: filter (fun p => negb (mem V p)) (lvertices g))).
  { intros p Hp. apply lvertices_spec in Hp. apply (vertex_down g V L4 L5 ord (nv k) (nid k)) in Hp as [->|[X1 X2]]; [left; reflexivity|]. right. apply filter_In. split; [apply lvertices_spec, X1|].
    apply negb_true_iff. destruct (mem V p) eqn:M; [apply mem_in in M; contradiction|reflexivity]. }
  assert (N : NoDup (lvertices (contract g V (nv k) (nid k) ord))) by apply NoDup_nodup.
  pose proof (NoDup_incl_length N I) as H. cbn [length] in H.
  assert (J : incl (V ++ filter (fun p => negb (mem V p)) (lvertices g)) (lvertices g)).
  { intros p Hp. apply in_app_iff in Hp as [Hp|Hp]; [apply lvertices_spec, L3, Hp|apply filter_In in Hp; apply Hp]. }
  assert (M : NoDup (V ++ filter (fun p => negb (mem V p)) (lvertices g))).
  { clear H I J N S L2 L3 L4 L5. induction V as [|v V' IH]; [apply NoDup_filter, NoDup_nodup|]. inversion L1 as [|? ? H1 H2]; subst.
    assert (K : forall x, In x (filter (fun p => negb (mem (v :: V') p)) (lvertices g)) <-> In x (lvertices g) /\ ~ In x (v :: V')).
    { intros x. rewrite filter_In, negb_true_iff. rewrite <- (mem_in (v :: V') x). destruct (mem (v :: V') x); split; intros [A B]; split; auto; congruence. }
    assert (N2 : NoDup (filter (fun p => negb (mem (v :: V') p)) (lvertices g))) by apply NoDup_filter, NoDup_nodup.
    clear IH. revert N2 K. generalize (filter (fun p => negb (mem (v :: V') p)) (lvertices g)). intros l N2 K.
    assert (D : forall x, In x (v :: V') -> ~ In x l) by (intros x Hx X; apply K in X; tauto). clear K H1 H2.
    revert L1 D. generalize (v :: V'). intros l1 N1 D. induction l1 as [|y l1 IH]; [exact N2|]. inversion N1 as [|? ? H1 H2]; subst. cbn. constructor.
    - rewrite in_app_iff. intros [X|X]; [contradiction|]. apply (D y); [left; reflexivity|exact X].
    - apply IH; [exact H2|]. intros x Hx. apply D. right. exact Hx. }
  pose proof (NoDup_incl_length M J) as Q. rewrite app_length in Q. lia.
Qed.

(** What a run of the transformation looks like. *)
Inductive nested : nat -> lgraph -> lgraph -> list cdata -> Prop :=
| ne_stop k g l : detect_loop g = Some l -> length l <= 1 -> nested k g g []
| ne_step k g l h cs : detect_loop g = Some l -> 1 < length l -> nested (S k) (contract g (map (lsource g) l) (nv k) (nid k) ord) h cs ->
    nested k g h (mkCData (nv k) (map (lsource g) l) :: cs).
Lemma transform_nested fuel : forall k g h cs, nl_transform nv nid ord fuel k g = Some (h, cs) -> nested k g h cs.
Proof.
  induction fuel as [|f IH]; intros k g h cs; cbn [nl_transform]; [discriminate|]. destruct (detect_loop g) as [l|] eqn:E; [|discriminate].
  destruct (Nat.leb_spec (length l) 1) as [L|L].
  - intros X. injection X as <- <-. eapply ne_stop; eauto.
  - destruct (nl_transform nv nid ord f (S k) _) as [[h' cs']|] eqn:R; [|discriminate]. intros X. injection X as <- <-. eapply ne_step; eauto.
Qed.
Lemma transform_ends fuel : forall k C g, stage k C g -> length (lvertices g) < fuel -> exists h cs, nl_transform nv nid ord fuel k g = Some (h, cs).
Proof.
  induction fuel as [|f IH]; intros k C g S L; [lia|]. cbn [nl_transform]. destruct (detect_loop_ok g (lwf_ids g (sg_wf _ _ _ S))) as [l [E _]]. rewrite E.
  destruct (Nat.leb_spec (length l) 1) as [Ll|Ll]; [eauto|]. pose proof (loop_vertices g l (sg_wf _ _ _ S) E Ll) as Ls. pose proof (fewer g _ k C S Ls) as Fw.
  destruct (IH (Datatypes.S k) _ _ (stage_step k C g _ S Ls)) as [h [cs R]]; [lia|]. rewrite R. eauto.
Qed.
Lemma nested_facts k g h cs : nested k g h cs -> forall C, stage k C g ->
  (exists k' C', stage k' C' h) /\ (lderivable h (exit, []) <-> lderivable g (exit, [])) /\ (exists l, detect_loop h = Some l /\ length l <= 1).
Proof.
  induction 1 as [k g l E L|k g l h cs E L _ IH]; intros C S.
  - split; [eauto|]. split; [tauto|eauto].
  - pose proof (loop_vertices g l (sg_wf _ _ _ S) E L) as Ls. destruct (IH _ (stage_step k C g _ S Ls)) as [H1 [H2 H3]]. split; [exact H1|]. split; [|exact H3].
    rewrite H2. destruct (stage_free k C g _ S Ls) as [NF ET]. destruct Ls as [L1 L2 L3 L4 L5]. apply contract_derivable; auto; [apply (sg_wf _ _ _ S)|apply (sg_nv _ _ _ S k); lia|right; left; reflexivity].
Qed.
End Run.
End Names.
