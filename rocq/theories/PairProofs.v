(** * Merging two edges: proofs. *)
From Verif Require Import Syntax Solver TransSys Graph GraphOps GraphOpsProofs ValidatorModel ValidatorProofs FormulaModel GraphSem SimpleTransModel UnreachProofs UnreachProofs2 SimpleTransProofs SimpleTransProofs2 ListLemmas MergeModel MergeProofs ChainProofs ChainStep.
Open Scope nat_scope.

(** ** Instances *)
Lemma inst_from_ext s s' l : (forall p, In p l -> count_occ Nat.eq_dec s p = count_occ Nat.eq_dec s' p) -> inst_from s l = inst_from s' l.
Proof.
  revert s s'. induction l as [|q l IH]; intros s s' H; [reflexivity|]. cbn [inst_from]. rewrite (H q) by (left; reflexivity). f_equal.
  apply IH. intros p Hp. cbn [count_occ]. rewrite (H p) by (right; exact Hp). reflexivity.
Qed.
Lemma inst_from_app s a b : inst_from s (a ++ b) = inst_from s a ++ inst_from (rev a ++ s) b.
Proof.
  revert s. induction a as [|q a IH]; intros s; [reflexivity|]. cbn [app inst_from rev]. rewrite IH. rewrite <- app_assoc. reflexivity.
Qed.
(** The instances of the other sources do not depend on a source that occurs once. *)
Definition before (l1 : list sym) : list (sym * nat) := instances l1.
Definition after (l1 l2 : list sym) : list (sym * nat) := inst_from (rev l1) l2.
Lemma instances_split l1 m l2 : ~ In m l1 -> ~ In m l2 -> instances (l1 ++ m :: l2) = before l1 ++ (m, 0) :: after l1 l2.
Proof.
  intros H1 H2. unfold instances, before, after. rewrite inst_from_app. cbn [inst_from]. rewrite app_nil_r. f_equal. f_equal.
  - f_equal. apply count_occ_not_In. rewrite <- in_rev. exact H1.
  - apply inst_from_ext. intros p Hp. cbn [count_occ]. destruct (Nat.eq_dec m p) as [->|]; [contradiction|reflexivity].
Qed.
Lemma instances_app2 l1 l2 : instances (l1 ++ l2) = before l1 ++ after l1 l2.
Proof. unfold instances, before, after. rewrite inst_from_app, app_nil_r. reflexivity. Qed.
Lemma before_in l1 p i : In (p, i) (before l1) -> In p l1.
Proof. apply in_instances. Qed.
Lemma after_in l1 l2 p i : In (p, i) (after l1 l2) -> In p l2.
Proof. apply in_instances_from. Qed.

(** ** Renaming of auxiliary variables *)
Lemma gaux_map_keys ctr l : map fst (gaux_map ctr l) = l.
Proof. unfold gaux_map. apply fst_combine_len. rewrite map_length, combine_length, seq_length. lia. Qed.
Lemma gaux_map_val ctr l v : In v l -> exists i, i < length l /\ nth_error l i = Some v /\ vlookup (gaux_map ctr l) v = gaux (ctr + i) (vsort v).
Proof.
  intros H. rewrite <- (gaux_map_keys ctr l) in H. apply vlookup_in in H. apply In_nth_error in H as [i Hi].
  unfold gaux_map in Hi at 1. apply nth_error_combine in Hi as [H1 H2]. exists i.
  assert (L : i < length l) by (apply nth_error_Some; congruence). split; [exact L|]. split; [exact H1|].
  rewrite nth_error_map in H2. rewrite (nth_error_combine_intro (seq 0 (length l)) l i i v) in H2; [|apply nth_error_seq, L|exact H1].
  cbn in H2. injection H2 as <-. reflexivity.
Qed.

Section RenameAux.
Variable g : hgraph.
Hypothesis R : rep_wf (gpv g).
Variable e : hedge.
Let aux := aux_vars g e.
Let f := vlookup (gaux_map (gctr g) aux).
Let e' := mkEdge (eid e) (efrom e) (eto e) (rename f (efla e)).
Lemma aux_in v : In v aux <-> In v (vars (efla e)) /\ ~ In v (own_vars g e).
Proof.
  unfold aux, aux_vars. rewrite filter_In, nodup_In. rewrite negb_true_iff. split; intros [H1 H2]; (split; [exact H1|]).
  - intros X. apply inb_true in X. congruence.
  - destruct (inb v (own_vars g e)) eqn:E; [|reflexivity]. exfalso. apply H2, inb_true, E.
Qed.
Lemma f_aux v : In v aux -> exists i, i < length aux /\ nth_error aux i = Some v /\ f v = gaux (gctr g + i) (vsort v).
Proof. apply gaux_map_val. Qed.
Lemma f_own v : ~ In v aux -> f v = v.
Proof. intros H. apply vlookup_out. rewrite gaux_map_keys. exact H. Qed.
Lemma f_own_id v : In v (own_vars g e) -> f v = v.
Proof. intros H. apply f_own. intros X. apply aux_in in X. tauto. Qed.
Lemma f_sort : sort_preserving f.
Proof.
  intros v. destruct (in_dec var_dec v aux) as [H|H]; [|rewrite f_own; auto]. destruct (f_aux v H) as [i [_ [_ ->]]]. reflexivity.
Qed.
Lemma own_not_gaux v : In v (own_vars g e) -> forall k s, v <> gaux k s.
Proof.
  intros H k s E. apply own_has_version in H as [p [_ [b [Hb [[i X]|X]]]]]; rewrite E in X; unfold gaux, src, tgt in X; discriminate X.
Qed.
Lemma f_inj v w : In v (vars (efla e) ++ own_vars g e) -> In w (vars (efla e) ++ own_vars g e) -> f v = f w -> v = w.
Proof.
  assert (C : forall v, In v (vars (efla e) ++ own_vars g e) -> In v aux \/ (In v (own_vars g e) /\ ~ In v aux)).
  { intros x Hx. destruct (in_dec var_dec x aux) as [H|H]; [auto|]. right. split; [|exact H]. destruct (in_dec var_dec x (own_vars g e)) as [O|O]; [exact O|].
    exfalso. apply H, aux_in. split; [|exact O]. apply in_app_or in Hx. tauto. }
  intros Hv Hw E. destruct (C v Hv) as [A|[A N]], (C w Hw) as [B|[B M]].
  - destruct (f_aux v A) as [i [_ [Ni Ei]]], (f_aux w B) as [j [_ [Nj Ej]]]. rewrite Ei, Ej in E. apply gaux_inj in E as [E _].
    assert (i = j) by lia. subst j. congruence.
  - destruct (f_aux v A) as [i [_ [_ Ei]]]. rewrite (f_own w M), Ei in E. exfalso. apply (own_not_gaux w B (gctr g + i) (vsort v)). symmetry. exact E.
  - destruct (f_aux w B) as [i [_ [_ Ei]]]. rewrite (f_own v N), Ei in E. exfalso. apply (own_not_gaux v A (gctr g + i) (vsort w)). exact E.
  - rewrite (f_own v N), (f_own w M) in E. exact E.
Qed.
Lemma prem_own r r1 : (forall v, In v (own_vars g e) -> eval r (Var v) = eval r1 (Var v)) ->
  map (fun pi => (fst pi, args r (src_vars g pi))) (instances (efrom e)) = map (fun pi => (fst pi, args r1 (src_vars g pi))) (instances (efrom e)) /\
  args r (tgt_vars g (eto e)) = args r1 (tgt_vars g (eto e)).
Proof.
  intros H. split.
  - apply map_ext_in. intros pi Hpi. f_equal. apply args_agree_ev. intros v Hv. apply H. apply in_app_iff. left. apply in_concat.
    exists (src_vars g pi). split; [apply in_map, Hpi|exact Hv].
  - apply args_agree_ev. intros v Hv. apply H. apply in_app_iff. right. exact Hv.
Qed.
Lemma rename_follows ps x : follows g e' ps x <-> follows g e ps x.
Proof.
  unfold follows, e'. cbn [efla efrom eto]. split.
  - intros [r [Hr [-> ->]]]. exists (fun v => r (f v)). split; [apply (holds_rename f r _ f_sort), Hr|].
    destruct (prem_own r (fun v => r (f v))) as [-> ->]; [|auto].
    intros v Hv. rewrite (eval_var_ren f r v f_sort). rewrite (f_own_id v Hv). reflexivity.
  - intros [r [Hr [-> ->]]]. 
    destruct (glue (map (fun v => (f v, eval r (Var v))) (vars (efla e) ++ own_vars g e))) as [r' Hr'].
    + intros w x y H H'. apply in_map_iff in H as [v [E Hv]]. apply in_map_iff in H' as [v' [E' Hv']].
      injection E as E1 E2. injection E' as E1' E2'. assert (v = v') by (apply f_inj; auto; congruence). subst v'. congruence.
    + intros w x H. apply in_map_iff in H as [v [E Hv]]. injection E as <- <-. rewrite f_sort. apply eval_var_sort.
    + assert (K : forall v, In v (vars (efla e) ++ own_vars g e) -> eval r' (Var (f v)) = eval r (Var v)).
      { intros v Hv. apply Hr'. apply in_map_iff. exists v. auto. }
      exists r'. split; [apply (holds_ren_ext f r' r _ f_sort); [intros v Hv; apply K, in_app_iff; auto|exact Hr]|].
      destruct (prem_own r' r) as [-> ->]; [|auto]. intros v Hv. rewrite <- K by (apply in_app_iff; auto). rewrite (f_own_id v Hv). reflexivity.
Qed.
Lemma rename_vars v : In v (vars (efla e')) -> In v (own_vars g e) \/ exists k s, gctr g <= k /\ k < gctr g + length aux /\ v = gaux k s.
Proof.
  unfold e'. cbn [efla]. rewrite vars_rename, in_map_iff. intros [u [<- Hu]]. destruct (in_dec var_dec u aux) as [H|H].
  - right. destruct (f_aux u H) as [i [Hi [_ ->]]]. exists (gctr g + i), (vsort u). split; [lia|]. split; [lia|reflexivity].
  - left. rewrite (f_own u H). destruct (in_dec var_dec u (own_vars g e)) as [O|O]; [exact O|]. exfalso. apply H, aux_in. auto.
Qed.
End RenameAux.

(** Adding a new edge with renamed auxiliary variables. *)
Lemma removelast_snoc {A} (l : list A) x : removelast (l ++ [x]) = l.
Proof. rewrite removelast_app by discriminate. cbn. apply app_nil_r. Qed.
Definition added (g : hgraph) (from : list sym) (to : sym) (fla : term) : hgraph * hedge := rename_auxiliaries (new_edge g from to fla).
Section Added.
Variable g : hgraph.
Hypothesis W : wf_graph g.
Variable from : list sym.
Variable to : sym.
Variable fla : term.
Hypothesis F0 : from <> [].
Hypothesis F1 : ~ In exit from.
Hypothesis T1 : to <> entry.
Hypothesis V1 : forall p, In p from -> vertex g p.
Hypothesis V2 : vertex g to.
Let g1 := fst (added g from to fla).
Let e := snd (added g from to fla).
Let e0 := mkEdge (gfree g) from to fla.
Let n := length (aux_vars g e0).
Lemma added_eq : g1 = mkGraph (gedges g ++ [e]) (gpv g) (S (gfree g)) (gctr g + n) /\ eid e = gfree g /\ efrom e = from /\ eto e = to.
Proof.
  unfold g1, e, added, new_edge, rename_auxiliaries. cbn [fst snd gedges gpv gfree gctr efrom eto eid]. rewrite removelast_snoc.
  split; [|auto]. reflexivity.
Qed.
Lemma added_follows ps x : follows g e ps x <-> follows g e0 ps x.
Proof.
  unfold e, added, new_edge, rename_auxiliaries. cbn [fst snd gctr].
  exact (rename_follows g e0 ps x).
Qed.
Lemma added_vars v : In v (vars (efla e)) -> In v (own_vars g e) \/ exists k s, gctr g <= k /\ k < gctr g + n /\ v = gaux k s.
Proof.
  unfold e, added, new_edge, rename_auxiliaries. cbn [fst snd gctr]. intros H.
  exact (rename_vars g e0 v H).
Qed.
Lemma added_vertex p : vertex g1 p <-> vertex g p.
Proof.
  destruct added_eq as [Eg [_ [Ef Et]]]. rewrite Eg. unfold vertex. cbn [gedges]. rewrite vertex_in_snoc. rewrite Ef, Et.
  split; [|auto]. intros [H|[H|H]]; [exact H|apply V1, H|subst p; exact V2].
Qed.
Lemma nodup_snoc {A} (l : list A) x : NoDup l -> ~ In x l -> NoDup (l ++ [x]).
Proof.
  intros N H. induction l as [|y l IH]; cbn [app]; [constructor; [intros []|constructor]|]. inversion N as [|? ? Hy N']; subst.
  constructor; [|apply IH; [exact N'|intros X; apply H; right; exact X]]. rewrite in_app_iff. intros [X|[<-|[]]]; [contradiction|]. apply H. left. reflexivity.
Qed.
Hypothesis Free : no_id < gfree g.
Lemma added_wf : wf_graph g1.
Proof.
  destruct added_eq as [Eg [Ei [Ef Et]]]. pose proof added_vertex as AV. rewrite Eg in *.
  assert (O : forall x, own_vars (mkGraph (gedges g ++ [e]) (gpv g) (S (gfree g)) (gctr g + n)) x = own_vars g x) by (intros x; apply own_vars_pv; reflexivity).
  assert (OV : forall x v, In v (own_vars g x) -> (forall k s, v <> gaux k s) /\ (forall k s, v <> auxg k s)).
  { intros x v H. apply own_has_version in H as [p [_ [b [Hb [[i X]|X]]]]]; rewrite X; split; intros k s E; unfold gaux, auxg, src, tgt in E; discriminate E. }
  assert (NewOld : forall x v, In x (gedges g) -> In v (vars (efla x)) -> In v (vars (efla e)) -> In v (own_vars g e)).
  { intros x v Hx Hv He. destruct (added_vars v He) as [H|[k [s [K1 [K2 ->]]]]]; [exact H|]. exfalso. exact (proj1 (wf_fresh g W x _ Hx Hv) k s K1 eq_refl). }
  assert (OwnV : forall v, In v (own_vars g e) -> exists p, vertex g p /\ version_of g p v).
  { intros v H. apply own_has_version in H as [p [Hp V]]. exists p. split; [|exact V]. rewrite Ef, Et in Hp. destruct Hp as [Hp| ->]; [apply V1, Hp|exact V2]. }
  assert (Priv : forall x v, In x (gedges g) -> In v (vars (efla x)) -> In v (vars (efla e)) -> In v (own_vars g x) /\ In v (own_vars g e)).
  { intros x v Hx Hv He. pose proof (NewOld x v Hx Hv He) as H. split; [|exact H]. destruct (in_dec var_dec v (own_vars g x)) as [Y|N]; [exact Y|].
    exfalso. destruct (OwnV v H) as [p [Hp V]]. exact (wf_label g W x v Hx Hv N p Hp V). }
  split; cbn [gpv gedges gfree gctr].
  - apply (wf_rep g W).
  - intros x Hx. apply in_app_or in Hx as [Hx|[<-|[]]]; [apply (wf_from g W x Hx)|rewrite Ef; exact F0].
  - rewrite map_app. cbn [map]. apply nodup_snoc; [apply (wf_ids g W)|]. rewrite Ei. intros X. apply in_map_iff in X as [x [E Hx]]. pose proof (wf_idlt g W x Hx). lia.
  - intros x Hx. apply in_app_or in Hx as [Hx|[<-|[]]]; [pose proof (wf_idlt g W x Hx); lia|]. rewrite Ei. split; [exact Free|lia].
  - intros x v Hx Hv Ho p Hp. rewrite O in Ho. apply AV in Hp. apply in_app_or in Hx as [Hx|[<-|[]]].
    + exact (wf_label g W x v Hx Hv Ho p Hp).
    + destruct (added_vars v Hv) as [H|[k [s [K1 [K2 ->]]]]]; [contradiction|]. intros [b [_ [[i X]|X]]]; unfold gaux, src, tgt in X; discriminate X.
  - intros x y v Hx Hy N Hvx Hvy. rewrite !O. apply in_app_or in Hx as [Hx|[<-|[]]]; apply in_app_or in Hy as [Hy|Hy].
    + apply (wf_priv g W); auto.
    + destruct Hy as [<-|[]]. apply Priv; auto.
    + apply and_comm. apply Priv; auto.
    + destruct Hy as [<-|[]]. congruence.
  - intros x v Hx Hv. apply in_app_or in Hx as [Hx|[<-|[]]].
    + destruct (wf_fresh g W x v Hx Hv) as [H1 H2]. split; [|exact H2]. intros k s Hk. apply H1. lia.
    + destruct (added_vars v Hv) as [H|[k [s [K1 [K2 ->]]]]]; [destruct (OV _ _ H) as [X Y]; split; [intros k s _; apply X|exact Y]|].
      split; [intros k' s' Hk E; apply gaux_inj in E; lia|apply gaux_auxg].
  - intros x Hx. apply in_app_or in Hx as [Hx|[<-|[]]]; [apply (wf_entry g W x Hx)|rewrite Et; exact T1].
  - intros x Hx. apply in_app_or in Hx as [Hx|[<-|[]]]; [apply (wf_exit g W x Hx)|rewrite Ef; exact F1].
Qed.
End Added.

(** Renaming the other variables of an edge. *)
Lemma follows_rename_inj g i from to fla (h : var -> var) : sort_preserving h ->
  (forall v, In v (own_vars g (mkEdge i from to fla)) -> h v = v) ->
  (forall v w, In v (vars fla ++ own_vars g (mkEdge i from to fla)) -> In w (vars fla ++ own_vars g (mkEdge i from to fla)) -> h v = h w -> v = w) ->
  forall ps x, follows g (mkEdge i from to (rename h fla)) ps x <-> follows g (mkEdge i from to fla) ps x.
Proof.
  intros Hs Ho Hi ps x. set (e := mkEdge i from to fla) in *. unfold follows. cbn [efla efrom eto]. split.
  - intros [r [Hr [-> ->]]]. exists (fun v => r (h v)). split; [apply (holds_rename h r _ Hs), Hr|].
    destruct (prem_own g e r (fun v => r (h v))) as [E1 E2]; [|cbn [efrom eto e] in E1, E2; rewrite E1, E2; auto].
    intros v Hv. rewrite (eval_var_ren h r v Hs). rewrite (Ho v Hv). reflexivity.
  - intros [r [Hr [-> ->]]].
    destruct (glue (map (fun v => (h v, eval r (Var v))) (vars fla ++ own_vars g e))) as [r' Hr'].
    + intros w x y H H'. apply in_map_iff in H as [v [E Hv]]. apply in_map_iff in H' as [v' [E' Hv']].
      injection E as E1 E2. injection E' as E1' E2'. assert (v = v') by (apply Hi; auto; congruence). subst v'. congruence.
    + intros w x H. apply in_map_iff in H as [v [E Hv]]. injection E as <- <-. rewrite Hs. apply eval_var_sort.
    + assert (K : forall v, In v (vars fla ++ own_vars g e) -> eval r' (Var (h v)) = eval r (Var v)).
      { intros v Hv. apply Hr'. apply in_map_iff. exists v. auto. }
      exists r'. split; [apply (holds_ren_ext h r' r _ Hs); [intros v Hv; apply K, in_app_iff; auto|exact Hr]|].
      destruct (prem_own g e r' r) as [E1 E2]; [|cbn [efrom eto e] in E1, E2; rewrite E1, E2; auto].
      intros v Hv. rewrite <- K by (apply in_app_iff; auto). rewrite (Ho v Hv). reflexivity.
Qed.

Lemma app_inj_len {A} (a b c d : list A) : a ++ b = c ++ d -> length a = length c -> a = c /\ b = d.
Proof.
  revert c. induction a as [|x a IH]; intros [|y c] E L; cbn in *; try discriminate; [auto|]. injection E as -> E. destruct (IH c E) as [-> ->]; [lia|auto].
Qed.
(** ** Two edges *)
Definition new_from (s : sym) (l1 l2 : list sym) : list sym :=
  if Nat.eqb s entry then match l1 ++ l2 with [] => [entry] | l => l end else l1 ++ s :: l2.
Record pair_ok (g : hgraph) (e1 e2 : hedge) (s : sym) (l1 l2 : list sym) : Prop := {
  po_in1 : In e1 (gedges g);
  po_in2 : In e2 (gedges g);
  po_from1 : efrom e1 = [s];
  po_from2 : efrom e2 = l1 ++ eto e1 :: l2;
  po_once : ~ In (eto e1) (l1 ++ l2);
  po_other : ~ In s (l1 ++ l2);
  po_loop : s <> eto e1
}.
(** An inference with [e1] followed by one with [e2]. *)
Definition composed (g : hgraph) (e1 e2 : hedge) (s : sym) (l1 l2 : list sym) (ps : list fact) (f : fact) : Prop :=
  exists sf mf ps1 ps2, follows g e1 [sf] mf /\ follows g e2 (ps1 ++ mf :: ps2) f /\ map fst ps1 = l1 /\ map fst ps2 = l2 /\
    ps = if Nat.eqb s entry then match l1 ++ l2 with [] => [sf] | _ => ps1 ++ ps2 end else ps1 ++ sf :: ps2.

Section Pair.
Variable elim : elim_fn.
Hypothesis Helim : elim_ok elim.
Variable fresh : nat.
Variable g : hgraph.
Hypothesis W : wf_graph g.
Variable e1 e2 : hedge.
Variable s : sym.
Variable l1 l2 : list sym.
Hypothesis P : pair_ok g e1 e2 s l1 l2.
Let R := wf_rep g W.
Let m := eto e1.
Lemma m1 : ~ In m l1 /\ ~ In m l2.
Proof. pose proof (po_once _ _ _ _ _ _ P). rewrite in_app_iff in *. fold m in H. tauto. Qed.
Lemma s12 : ~ In s l1 /\ ~ In s l2.
Proof. pose proof (po_other _ _ _ _ _ _ P). rewrite in_app_iff in *. tauto. Qed.
Lemma inst_e2 : instances (efrom e2) = before l1 ++ (m, 0) :: after l1 l2.
Proof. rewrite (po_from2 _ _ _ _ _ _ P). apply instances_split; apply m1. Qed.
Lemma before_fst : map fst (before l1) = l1.
Proof. apply instances_fst_from. Qed.
Lemma after_fst : map fst (after l1 l2) = l2.
Proof. apply instances_fst_from. Qed.
Definition pf (r : valuation) (pi : sym * nat) : fact := (fst pi, args r (src_vars g pi)).
Lemma pf_fst r l : map fst (map (pf r) l) = map fst l.
Proof. rewrite map_map. reflexivity. Qed.
(** Inferences with the two sets of premises. *)
Lemma follows_e2 ps1 mf ps2 f : length ps1 = length l1 ->
  (follows g e2 (ps1 ++ mf :: ps2) f <-> exists r, holds r (efla e2) /\ ps1 = map (pf r) (before l1) /\ mf = pf r (m, 0) /\ ps2 = map (pf r) (after l1 l2) /\ f = (eto e2, args r (tgt_vars g (eto e2)))).
Proof.
  intros L. unfold follows. rewrite inst_e2. fold (pf). split.
  - intros [r [H1 [H2 H3]]]. exists r. rewrite map_app in H2. cbn [map] in H2. apply app_inj_len in H2 as [E1 E2].
    + injection E2 as E2 E3. auto.
    + rewrite map_length. unfold before. rewrite <- (map_length fst (instances l1)), instances_fst. exact L.
  - intros [r [H1 [-> [-> [-> ->]]]]]. exists r. rewrite map_app. auto.
Qed.
Definition nf := new_from s l1 l2.
Lemma inst_nf : instances nf = if Nat.eqb s entry then match l1 ++ l2 with [] => [(s, 0)] | _ => before l1 ++ after l1 l2 end else before l1 ++ (s, 0) :: after l1 l2.
Proof.
  unfold nf, new_from. destruct (Nat.eqb_spec s entry) as [E|N].
  - destruct (l1 ++ l2) eqn:X; [rewrite E; reflexivity|]. rewrite <- X. apply instances_app2.
  - apply instances_split; apply s12.
Qed.
Lemma replace_source_eq : replace_source m s (efrom e2) = nf.
Proof.
  unfold replace_source, nf, new_from. rewrite (po_from2 _ _ _ _ _ _ P). fold m. rewrite map_app. cbn [map]. rewrite Nat.eqb_refl.
  assert (Q : forall l, ~ In m l -> @map sym sym (fun v : nat => if Nat.eqb v m then s else v) l = l).
  { intros l H. rewrite <- (map_id l) at 2. apply map_ext_in. intros a Ha. destruct (Nat.eqb_spec a m); [congruence|reflexivity]. }
  rewrite (Q l1), (Q l2) by apply m1. destruct (Nat.eqb_spec s entry) as [E|N]; [|reflexivity].
  rewrite filter_app. cbn [filter]. rewrite E, Nat.eqb_refl. cbn [negb].
  assert (Q2 : forall l, ~ In s l -> @filter sym (fun v : nat => negb (Nat.eqb v entry)) l = l).
  { intros l H. induction l as [|a l IH]; [reflexivity|]. cbn [filter]. destruct (Nat.eqb_spec a entry) as [Ea|]; [exfalso; apply H; left; congruence|]. cbn [negb]. f_equal. apply IH. intros X. apply H. right. exact X. }
  rewrite (Q2 l1), (Q2 l2) by apply s12. destruct (l1 ++ l2); reflexivity.
Qed.
Definition joined : term := mkAnd [rename (vlookup (to_source_map g m)) (efla e1); efla e2].
Let h := tosrc g [m].
Lemma joined_holds r : holds r joined <-> holds (fun v => r (h v)) (efla e1) /\ holds r (efla e2).
Proof.
  unfold joined. rewrite <- (tosrc_single g m). fold h. rewrite holds_and. split.
  - intros H. inversion H as [|? ? H1 H2]; subst. inversion H2 as [|? ? H3 _]; subst. split; [apply (holds_rename h r _ (tosrc_sort g _)), H1|exact H3].
  - intros [H1 H2]. constructor; [apply (holds_rename h r _ (tosrc_sort g _)), H1|]. constructor; [exact H2|constructor].
Qed.
Lemma h_src i b : h (src i b) = src i b.
Proof. apply tosrc_src. Qed.
Lemma h_tgt b : In b (gpv g m) -> h (tgt b) = src 0 b.
Proof. intros Hb. apply (tosrc_in g R [m] m b); [left; reflexivity|exact Hb]. Qed.
Lemma h_aux v : In v (vars (efla e1)) -> ~ In v (own_vars g e1) -> h v = v.
Proof.
  intros Hv Ho. apply tosrc_out. intros m' [<-|[]] X. apply in_map_iff in X as [b [<- Hb]].
  apply (wf_label g W e1 _ (po_in1 _ _ _ _ _ _ P) Hv Ho m); [apply vertex_tgt, (po_in1 _ _ _ _ _ _ P)|]. exists b. auto.
Qed.
Lemma vs : vertex g s.
Proof. apply (vertex_src g e1); [apply (po_in1 _ _ _ _ _ _ P)|]. rewrite (po_from1 _ _ _ _ _ _ P). left. reflexivity. Qed.
Lemma vm : vertex g m.
Proof. apply vertex_tgt, (po_in1 _ _ _ _ _ _ P). Qed.
Lemma vl p : In p (l1 ++ l2) -> vertex g p.
Proof. intros H. apply (vertex_src g e2); [apply (po_in2 _ _ _ _ _ _ P)|]. rewrite (po_from2 _ _ _ _ _ _ P). rewrite in_app_iff in *. cbn [In]. tauto. Qed.
Lemma ids_differ : eid e1 <> eid e2.
Proof.
  intros E. apply (wf_edge_eq g e1 e2 W (po_in1 _ _ _ _ _ _ P) (po_in2 _ _ _ _ _ _ P)) in E.
  pose proof (po_from1 _ _ _ _ _ _ P) as F1. pose proof (po_from2 _ _ _ _ _ _ P) as F2. rewrite <- E, F1 in F2.
  pose proof (po_loop _ _ _ _ _ _ P) as N. destruct l1 as [|a [|b l]]; cbn in F2; [|destruct l1; discriminate|discriminate]. injection F2 as F2 _. contradiction.
Qed.
Lemma own_e2 v : In v (own_vars g e2) -> (exists p i b, In p (m :: l1 ++ l2) /\ In b (gpv g p) /\ v = src i b /\ (p = m -> i = 0)) \/ (exists b, In b (gpv g (eto e2)) /\ v = tgt b).
Proof.
  unfold own_vars. rewrite inst_e2, in_app_iff. intros [H|H].
  - left. apply in_concat in H as [l [Hl H]]. apply in_map_iff in Hl as [[p i] [<- Hp]]. apply in_src_vars in H as [b [Hb ->]]. cbn [fst snd] in *.
    exists p, i, b. apply in_app_iff in Hp as [Hp|[Hp|Hp]].
    + apply before_in in Hp. repeat split; auto; [right; apply in_app_iff; auto|]. intros ->. destruct (proj1 m1 Hp).
    + injection Hp as <- <-. repeat split; auto. left. reflexivity.
    + apply after_in in Hp. repeat split; auto; [right; apply in_app_iff; auto|]. intros ->. destruct (proj2 m1 Hp).
  - right. apply in_map_iff in H as [b [<- Hb]]. eauto.
Qed.
Lemma own_e2_version v : In v (own_vars g e2) -> exists p, vertex g p /\ version_of g p v.
Proof.
  intros H. apply own_has_version in H as [p [[Hp| ->] V]]; exists p || exists (eto e2); (split; [|exact V]).
  - apply (vertex_src g e2 p (po_in2 _ _ _ _ _ _ P) Hp).
  - apply vertex_tgt, (po_in2 _ _ _ _ _ _ P).
Qed.
Lemma own_e1 v : In v (own_vars g e1) <-> In v (src_vars g (s, 0)) \/ In v (tgt_vars g m).
Proof. apply own_single, (po_from1 _ _ _ _ _ _ P). Qed.

Definition zone1 := own_vars g e1 ++ vars (efla e1).
Definition zone2 := own_vars g e2 ++ vars (efla e2).
(** The two inferences put together. *)
Lemma pair_glue r1 r2 : holds r1 (efla e1) -> holds r2 (efla e2) -> args r1 (tgt_vars g m) = args r2 (src_vars g (m, 0)) ->
  exists r : valuation, (forall v, In v zone1 -> eval r (Var (h v)) = eval r1 (Var v)) /\ (forall v, In v zone2 -> eval r (Var v) = eval r2 (Var v)).
Proof.
  intros H1 H2 Em.
  assert (EM : forall b, In b (gpv g m) -> eval r1 (Var (tgt b)) = eval r2 (Var (src 0 b))).
  { intros b Hb. unfold src_vars, tgt_vars in Em. cbn [fst snd] in Em. rewrite (args_map r1 tgt), (args_map r2 (src 0)) in Em by (apply src_sort || apply tgt_sort).
    pose proof (args_eq_ev _ _ _ Em b Hb) as X. rewrite (eval_var_ren tgt r1 b tgt_sort), (eval_var_ren (src 0) r2 b (src_sort 0)) in X. exact X. }
  assert (Cross : forall v u, In v zone1 -> In u zone2 -> h v = u -> eval r1 (Var v) = eval r2 (Var u)).
  { intros v u Hv Hu E. unfold zone1 in Hv. unfold zone2 in Hu.
    assert (AuxV : In v (vars (efla e1)) -> ~ In v (own_vars g e1) -> False).
    { intros Hv1 No. rewrite (h_aux v Hv1 No) in E. subst u.
      destruct (in_dec var_dec v (own_vars g e2)) as [O2|N2].
      - destruct (own_e2_version v O2) as [p [Hp V]]. exact (wf_label g W e1 v (po_in1 _ _ _ _ _ _ P) Hv1 No p Hp V).
      - apply in_app_iff in Hu as [Hu|Hu]; [contradiction|]. destruct (wf_priv g W e1 e2 v (po_in1 _ _ _ _ _ _ P) (po_in2 _ _ _ _ _ _ P) ids_differ Hv1 Hu). contradiction. }
    destruct (in_dec var_dec v (own_vars g e1)) as [O1|N1]; [|exfalso; apply in_app_iff in Hv as [Hv|Hv]; [contradiction|auto]].
    assert (Hb : exists p b, (p = s /\ v = src 0 b \/ p = m /\ v = tgt b) /\ In b (gpv g p) /\ vertex g p /\ u = src 0 b).
    { apply own_e1 in O1 as [O|O].
      - apply in_src_vars in O as [b [Hb ->]]. cbn [fst snd] in *. exists s, b. rewrite h_src in E. split; [auto|]. split; [exact Hb|]. split; [exact vs|auto].
      - apply in_map_iff in O as [b [<- Hb]]. exists m, b. rewrite (h_tgt b Hb) in E. split; [auto|]. split; [exact Hb|]. split; [exact vm|auto]. }
    destruct Hb as [p [b [Hpv [Hb [Vp ->]]]]].
    destruct (in_dec var_dec (src 0 b) (own_vars g e2)) as [O2|N2].
    2:{ exfalso. apply in_app_iff in Hu as [Hu|Hu]; [contradiction|]. apply (wf_label g W e2 _ (po_in2 _ _ _ _ _ _ P) Hu N2 p Vp). exists b. split; [exact Hb|]. left. exists 0. reflexivity. }
    apply own_e2 in O2 as [[q [i [b' [Hq [Hb' [X _]]]]]]|[b' [_ X]]]; [|exfalso; exact (src_tgt_v _ _ _ X)].
    destruct (src_inj_v g R 0 i p q b b' Hb Hb' X) as [_ [_ ->]].
    destruct Hpv as [[-> ->]|[-> ->]]; [|apply EM, Hb].
    exfalso. destruct Hq as [Hq|Hq]; [apply (po_loop _ _ _ _ _ _ P); symmetry; exact Hq|exact (po_other _ _ _ _ _ _ P Hq)]. }
  assert (Inj : forall v u, In v zone1 -> In u zone1 -> h v = h u -> v = u).
  { assert (C : forall v, In v zone1 -> (exists b, In b (gpv g s) /\ v = src 0 b /\ h v = src 0 b) \/ (exists b, In b (gpv g m) /\ v = tgt b /\ h v = src 0 b) \/ (h v = v /\ In v (vars (efla e1)) /\ ~ In v (own_vars g e1))).
    { intros v Hv. destruct (in_dec var_dec v (own_vars g e1)) as [O|N].
      - apply own_e1 in O as [O|O]; [left|right; left].
        + apply in_src_vars in O as [b [Hb ->]]. exists b. cbn [fst snd] in *. rewrite h_src. auto.
        + apply in_map_iff in O as [b [<- Hb]]. exists b. rewrite (h_tgt b Hb). auto.
      - right. right. apply in_app_iff in Hv as [Hv|Hv]; [contradiction|]. split; [apply h_aux; assumption|auto]. }
    assert (NA : forall v p b, In v (vars (efla e1)) -> ~ In v (own_vars g e1) -> vertex g p -> In b (gpv g p) -> src 0 b = v -> False).
    { intros v p b Hv No Vp Hb E. apply (wf_label g W e1 v (po_in1 _ _ _ _ _ _ P) Hv No p Vp). exists b. split; [exact Hb|]. left. exists 0. auto. }
    intros v u Hv Hu E.
    destruct (C v Hv) as [[b [Hb [-> Eb]]]|[[b [Hb [-> Eb]]]|[Eb [V1 V2]]]]; destruct (C u Hu) as [[c [Hc [-> Ec]]]|[[c [Hc [-> Ec]]]|[Ec [U1 U2]]]]; rewrite Eb, Ec in E.
    - congruence.
    - destruct (src_inj_v g R 0 0 s m b c Hb Hc E) as [_ [_ X]]. destruct (po_loop _ _ _ _ _ _ P X).
    - destruct (NA u s b U1 U2 vs Hb E).
    - destruct (src_inj_v g R 0 0 m s b c Hb Hc E) as [_ [_ X]]. destruct (po_loop _ _ _ _ _ _ P (eq_sym X)).
    - destruct (src_inj_v g R 0 0 m m b c Hb Hc E) as [_ [-> _]]. reflexivity.
    - destruct (NA u m b U1 U2 vm Hb E).
    - destruct (NA v s c V1 V2 vs Hc (eq_sym E)).
    - destruct (NA v m c V1 V2 vm Hc (eq_sym E)).
    - congruence. }
  destruct (glue (map (fun v => (h v, eval r1 (Var v))) zone1 ++ map (fun v => (v, eval r2 (Var v))) zone2)) as [r Hr].
  - intros w x y Hx Hy. apply in_app_iff in Hx as [Hx|Hx]; apply in_app_iff in Hy as [Hy|Hy]; apply in_map_iff in Hx as [v [E Hv]]; apply in_map_iff in Hy as [u [E' Hu]]; injection E as <- <-; injection E' as E1 <-.
    + rewrite (Inj u v Hu Hv E1). reflexivity.
    + apply Cross; auto.
    + symmetry. apply Cross; auto.
    + congruence.
  - intros w x H. apply in_app_iff in H as [H|H]; apply in_map_iff in H as [v [E _]]; injection E as <- <-; [etransitivity; [exact (eval_var_sort r1 v)|symmetry; apply tosrc_sort]|exact (eval_var_sort r2 v)].
  - exists r. split; intros v Hv; apply Hr, in_app_iff; [left|right]; apply in_map_iff; exists v; auto.
Qed.
End Pair.
