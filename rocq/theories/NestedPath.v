(** * Error paths through the nested-loop transformation. *)
From Coq Require Import Permutation.
From Verif Require Import Syntax Solver TransSys Graph GraphOps GraphOpsProofs DfsProofs LoopProofs GraphSem Names ListLemmas SimpleTransModel MergeModel MergeProofs LinearModel LinearProofs LinearPath LinearTS ExpandProofs ContractModel ContractProofs ContractLabels ContractSem ContractWf ContractDef NontermProofs NestedModel NestedProofs NestedInv SingleLoopProofs SingleLoopPath NestedPathModel.
Open Scope list_scope.
Open Scope nat_scope.

Section Steps.
Variable U : string -> Prop.
Hypothesis Uloc : forall p, ~ U (vbase (locv p)).
Hypothesis Uarg : forall p i s, ~ U (vbase (argv p i s)).
Hypothesis Uet : forall k s, ~ U (vbase (etaux k s)).
Variables (nv nid : nat -> nat).
Hypothesis nv_inj : forall i j, nv i = nv j -> i = j.
Hypothesis nid_inj : forall i j, nid i = nid j -> i = j.
Variable ord : list var -> list var.
Hypothesis Hord : forall l, Permutation (ord l) l.
Notation stage := (stage U nv nid).
Notation nested := (nested nv nid ord).
Variable r : valuation.

(** The state [i] steps from the start, read off the model. *)
Definition sts (i : Z) : valuation := fun b => r (shiftv i (cur b)).
Lemma sts_args i l : args (sts i) l = args r (map (shiftv i) (map cur l)).
Proof. symmetry. rewrite (args_map r (shiftv i) _ (shiftv_sort _)). rewrite (args_map _ cur _ cur_sort). reflexivity. Qed.
Lemma sts_loc i q : holds (sts i) (Var (locv q)) <-> holds r (Var (shiftv i (cur (locv q)))).
Proof. unfold holds, holdsb. cbn [eval]. rewrite (shiftv_sort i (cur (locv q))). reflexivity. Qed.
(** The arguments of a vertex in the states of the transformed graph. *)
Definition rep (g : lgraph) (cs : list cdata) (p : sym) : list var := if contracted_in cs p then args_of g p else lpv g p.
(** What a vertex of the transformed graph stands for. *)
Definition resolved (cs : list cdata) (i : Z) (t p : sym) : Prop :=
  (exists c, In c cs /\ cd_vertex c = t /\ In p (cd_set c) /\ at_loc (cd_set c) (sts i) p) \/
  ((forall c, In c cs -> cd_vertex c <> t) /\ p = t).

(** Edges that do not enter a contracted loop keep their identifier and target. *)
Lemma plain_target k g h cs : nested k g h cs -> forall e', In e' (ledges h) -> (forall c, In c cs -> cd_vertex c <> lto e') ->
  exists e, In e (ledges g) /\ lid e = lid e' /\ lto e = lto e'.
Proof.
  induction 1 as [k g l E L|k g l h cs E L Hn IH]; intros e' He' N; [eauto|].
  destruct (IH e' He') as [e1 [H1 [H2 H3]]]; [intros c Hc; apply N; right; exact Hc|].
  assert (Nv : nv k <> lto e') by (apply (N (mkCData (nv k) (map (lsource g) l))); left; reflexivity).
  destruct (contract_edge g _ ord (nv k) (nid k) e1 H1) as [->|e Ie Vp Vq ->|e Ie Vp Vq ->|Ie Vp Vq]; cbn [loop_edge out_edge in_edge lto lid] in *; try congruence; eauto.
Qed.

Lemma one_step k g h cs : nested k g h cs -> forall C, stage k C g -> NoDup (map cd_vertex cs) ->
  (forall c c', In c cs -> In c' cs -> ~ In (cd_vertex c') (cd_set c)) ->
  forall e' i p, In e' (ledges h) -> holds r (shift i (lfla e')) -> resolved cs i (lfrom e') p ->
  exists e, In e (ledges g) /\ lfrom e = p /\ resolved cs (i + 1) (lto e') (lto e) /\
    lfollows g e (p, args (sts i) (rep g cs p)) (lto e, args (sts (i + 1)) (rep g cs (lto e))).
Proof.
  induction 1 as [k g l E L|k g l h cs E L Hn IH]; intros C S ND Fl e' i p He' Hh Rp.
  - destruct Rp as [[c [[] _]]|[_ ->]]. exists e'. split; [exact He'|]. split; [reflexivity|]. split; [right; split; [intros c []|reflexivity]|].
    pose proof (label_follows g e' r i Hh) as X. unfold rep. cbn [contracted_in existsb]. rewrite !sts_args. exact X.
  - pose proof (loop_vertices g l (sg_wf _ _ _ _ _ _ S) E L) as Ls. set (V := map (lsource g) l) in *. set (c0 := mkCData (nv k) V) in *.
    pose proof (stage_step U Uloc Uarg Uet nv nid nv_inj nid_inj ord Hord k C g V S Ls) as S1.
    destruct (stage_free U Uloc Uarg Uet nv nid k C g V S Ls) as [NF ET].
    assert (Fn : ~ lvertex g (nv k)) by (apply (sg_nv _ _ _ _ _ _ S k); lia).
    pose proof (sg_wf _ _ _ _ _ _ S) as W. inversion ND as [|? ? ND1 ND2]; subst.
    assert (Nc : forall c, In c cs -> cd_vertex c <> nv k) by (intros c Hc X; apply ND1; cbn [cd_vertex c0]; rewrite <- X; apply in_map, Hc).
    assert (Ns : forall c, In c (c0 :: cs) -> ~ In (nv k) (cd_set c)) by (intros c Hc; apply (Fl c c0 Hc (or_introl eq_refl))).
    set (p1 := if Nat.eqb (lfrom e') (nv k) then nv k else p).
    assert (R1 : resolved cs i (lfrom e') p1).
    { unfold p1. destruct (Nat.eqb_spec (lfrom e') (nv k)) as [Ef|Nf].
      - right. rewrite Ef. split; [exact Nc|reflexivity].
      - destruct Rp as [[c [[<-|Hc] [Ec X]]]|[A B]]; [cbn in Ec; congruence|left; exists c; auto|right; split; [intros c Hc; apply A; right; exact Hc|exact B]]. }
    destruct (IH _ S1 ND2 (fun c c' Hc Hc' => Fl c c' (or_intror Hc) (or_intror Hc')) e' i p1 He' Hh R1) as [e1 [I1 [F1 [T1 X]]]].
    (* the target *)
    assert (Tn : lto e1 = nv k -> lto e' = nv k).
    { intros Et. destruct T1 as [[c [Hc [_ [Hp _]]]]|[_ Eq]]; [|congruence]. exfalso. rewrite Et in Hp. apply (Ns c (or_intror Hc) Hp). }
    assert (Tr : lto e1 <> nv k -> resolved (c0 :: cs) (i + 1) (lto e') (lto e1)).
    { intros Et. destruct T1 as [[c [Hc Y]]|[A Eq]]; [left; exists c; split; [right; exact Hc|exact Y]|].
      right. split; [|exact Eq]. intros c [<-|Hc]; [cbn; congruence|apply A, Hc]. }
    (* the source *)
    assert (Fs : lfrom e1 = nv k -> at_loc V (sts i) p /\ In p V).
    { intros Ef. rewrite F1 in Ef. unfold p1 in Ef. destruct (Nat.eqb_spec (lfrom e') (nv k)) as [Eq|Nf].
      - destruct Rp as [[c [[<-|Hc] [Ec [Y Z]]]]|[A B]]; [auto|exfalso; apply (Nc c Hc); congruence|exfalso; apply (A c0 (or_introl eq_refl)); cbn; congruence].
      - exfalso. destruct Rp as [[c [Hc [_ [Y _]]]]|[_ B]]; [|congruence]. subst p. apply (Ns c Hc Y). }
    assert (Fp : lfrom e1 <> nv k -> p = lfrom e1).
    { intros Nf. rewrite F1 in *. unfold p1 in *. destruct (Nat.eqb (lfrom e') (nv k)); [congruence|reflexivity]. }
    (* facts *)
    assert (Rn : forall s, (nv k, args s (rep (contract g V (nv k) (nid k) ord) cs (nv k))) = nfact g V ord (nv k) s).
    { intros s. unfold rep. destruct (contracted_in cs (nv k)) eqn:Ec.
      - exfalso. apply existsb_exists in Ec as [c [Hc M]]. apply mem_in in M. apply (Ns c (or_intror Hc) M).
      - rewrite (pv_nv g V ord (nv k) (nid k)). reflexivity. }
    assert (Ro : forall q s, q <> nv k -> ~ In q V -> args s (rep (contract g V (nv k) (nid k) ord) cs q) = args s (rep g (c0 :: cs) q)).
    { intros q s Nq Vq. unfold rep. assert (Ec : contracted_in (c0 :: cs) q = contracted_in cs q).
      { unfold contracted_in. cbn [existsb cd_set c0]. destruct (mem V q) eqn:M; [apply mem_in in M; contradiction|reflexivity]. }
      rewrite Ec, (args_of_ext _ g q (pv_old g V ord (nv k) (nid k) q Nq)), (pv_old g V ord (nv k) (nid k) q Nq). reflexivity. }
    assert (Rv : forall q, In q V -> rep g (c0 :: cs) q = args_of g q).
    { intros q Hq. unfold rep, contracted_in. cbn [existsb cd_set c0]. rewrite (proj2 (mem_in V q) Hq). reflexivity. }
    destruct (contract_edge g V ord (nv k) (nid k) e1 I1) as [->|e Ie Vp Vq ->|e Ie Vp Vq ->|Ie Vp Vq].
    + cbn [loop_edge lfrom lto] in *. rewrite <- F1, !Rn in X. apply (loop_follows g W V ord Hord (nv k) (nid k)) in X as [e [Ie [Vp [Vq [A1 [A2 Fo]]]]]].
      destruct (Fs eq_refl) as [Ap Hp]. assert (p = lfrom e) by (apply (at_unique V (sts i)); assumption). subst p. exists e. split; [exact Ie|]. split; [reflexivity|]. split.
      * left. exists c0. split; [left; reflexivity|]. cbn [cd_vertex cd_set c0]. split; [symmetry; apply Tn; reflexivity|auto].
      * rewrite (Rv _ Vp), (Rv _ Vq). exact Fo.
    + cbn [out_edge lfrom lto] in *. rewrite <- F1, Rn in X. apply (out_follows g W V NF ord Hord (nv k) (nid k) Fn e (sts i) _ Ie Vp) in X as [X1 X2].
      destruct (Fs eq_refl) as [Ap Hp]. assert (lfrom e = p) by (apply (Ap _ Vp), X1). subst p. exists e. split; [exact Ie|]. split; [reflexivity|]. split.
      * apply Tr. intros Y. apply Fn. rewrite <- Y. apply to_vertex, Ie.
      * rewrite (Rv _ Vp), <- (Ro (lto e)); [exact X2| |exact Vq]. intros Y. apply Fn. rewrite <- Y. apply to_vertex, Ie.
    + cbn [in_edge lfrom lto] in *. rewrite Rn in X. apply (in_follows g W V NF ord Hord (nv k) (nid k) Fn e (sts (i + 1)) _ Ie Vq) in X as [X1 X2].
      assert (Nf : lfrom e <> nv k) by (intros Y; apply Fn; rewrite <- Y; apply from_vertex, Ie). exists e. split; [exact Ie|]. rewrite (Fp Nf). split; [reflexivity|]. split.
      * left. exists c0. split; [left; reflexivity|]. cbn [cd_vertex cd_set c0]. split; [symmetry; apply Tn; reflexivity|auto].
      * rewrite (Rv _ Vq), <- (Ro (lfrom e)) by assumption. rewrite F1. exact X2.
    + assert (Nf : lfrom e1 <> nv k) by (intros Y; apply Fn; rewrite <- Y; apply from_vertex, Ie).
      assert (Nt : lto e1 <> nv k) by (intros Y; apply Fn; rewrite <- Y; apply to_vertex, Ie).
      apply (same_follows g V ord (nv k) (nid k) Fn e1 _ _ Ie) in X. exists e1. split; [exact Ie|]. rewrite (Fp Nf). split; [reflexivity|]. split; [apply Tr, Nt|].
      rewrite <- (Ro (lfrom e1)), <- (Ro (lto e1)) by assumption. rewrite F1. exact X.
Qed.

Lemma find_unique {A} (P : A -> bool) l x : In x l -> P x = true -> (forall y, In y l -> P y = true -> y = x) -> find P l = Some x.
Proof.
  induction l as [|y l IH]; intros Hx Px Un; [destruct Hx|]. cbn [find]. destruct (P y) eqn:Py; [f_equal; apply Un; [left; reflexivity|exact Py]|].
  apply IH; [|exact Px|intros z Hz; apply Un; right; exact Hz]. destruct Hx as [->|Hx]; [congruence|exact Hx].
Qed.
Lemma find_cd cs c : NoDup (map cd_vertex cs) -> In c cs -> find (fun c' => Nat.eqb (cd_vertex c') (cd_vertex c)) cs = Some c.
Proof.
  intros N Hc. apply find_unique; [exact Hc|apply Nat.eqb_refl|]. intros y Hy Ey. apply Nat.eqb_eq in Ey. revert N Hc Hy. clear -Ey. induction cs as [|z l IH]; cbn; intros N Hc Hy; [destruct Hc|].
  inversion N as [|? ? N1 N2]; subst. destruct Hc as [->|Hc], Hy as [->|Hy]; [reflexivity| | |apply IH; assumption]; exfalso; apply N1; [rewrite <- Ey|rewrite Ey]; apply in_map; assumption.
Qed.
Lemma location_ok g c k p : (forall q, In q (cd_set c) -> lvertex g q) -> In p (cd_set c) -> at_loc (cd_set c) (sts (Z.of_nat k)) p -> np_location g r k c = Some p.
Proof.
  intros Fl Hp Ap. unfold np_location. apply find_unique.
  - apply lvertices_spec, Fl, Hp.
  - apply andb_true_iff. split; [apply mem_in, Hp|]. apply sts_loc. apply (Ap p Hp). reflexivity.
  - intros q _ E. apply andb_true_iff in E as [M H]. apply mem_in in M. apply (Ap q M). apply sts_loc, H.
Qed.
Section Walk.
Variables (k : nat) (g h : lgraph) (cs : list cdata) (C : list sym).
Hypothesis Hn : nested k g h cs.
Hypothesis S0 : stage k C g.
Hypothesis ND : NoDup (map cd_vertex cs).
Hypothesis Nc : forall c c', In c cs -> In c' cs -> ~ In (cd_vertex c') (cd_set c).
Hypothesis Fl : forall c q, In c cs -> In q (cd_set c) -> lvertex g q.
Lemma np_walk es : forall i t t' p, connected t es t' -> (forall e, In e es -> In e (ledges h)) -> Forall (holds r) (path_labels (Z.of_nat i) es) ->
  resolved cs (Z.of_nat i) t p ->
  exists fs p', lruns g fs (p, args (sts (Z.of_nat i)) (rep g cs p)) (p', args (sts (Z.of_nat (i + length es))) (rep g cs p')) /\
    resolved cs (Z.of_nat (i + length es)) t' p' /\ np_vertices g cs r i es = inl (map lto fs) /\ length fs = length es.
Proof.
  induction es as [|e es IH]; intros i t t' p Cn Inc Q Rp.
  - cbn in Cn. subst t'. exists [], p. cbn [length]. rewrite Nat.add_0_r. split; [constructor|]. auto.
  - cbn [connected] in Cn. destruct Cn as [<- Cn]. cbn [path_labels] in Q. inversion Q as [|? ? Q1 Q2]; subst.
    pose proof (Inc e (or_introl eq_refl)) as He. replace (Z.of_nat i + 1)%Z with (Z.of_nat (i + 1)) in Q2 by lia.
    destruct (one_step k g h cs Hn C S0 ND Nc e (Z.of_nat i) p He Q1 Rp) as [e1 [I1 [F1 [T1 X]]]]. replace (Z.of_nat i + 1)%Z with (Z.of_nat (i + 1)) in T1, X by lia.
    destruct (IH (i + 1) (lto e) t' (lto e1) Cn (fun x Hx => Inc x (or_intror Hx)) Q2 T1) as [fs [p' [R [Rp' [E L]]]]].
    exists (e1 :: fs), p'. cbn [length]. replace (i + S (length es)) with (i + 1 + length es) by lia. split; [econstructor; eassumption|]. split; [exact Rp'|]. split; [|congruence].
    cbn [np_vertices]. destruct T1 as [[c [Hc [Ec [Hp Ap]]]]|[A B]].
    + rewrite <- Ec, (find_cd cs c ND Hc), (location_ok g c (i + 1) (lto e1)), E by (try assumption; intros q; apply Fl, Hc). reflexivity.
    + destruct (find (fun c => Nat.eqb (cd_vertex c) (lto e)) cs) as [c|] eqn:Fc; [apply find_some in Fc as [H1 H2]; apply Nat.eqb_eq in H2; exfalso; apply (A c H1 H2)|].
      destruct (plain_target k g h cs Hn e He A) as [e0 [J1 [J2 J3]]]. rewrite <- J2, (lfind_in g e0 (lwf_ids g (sg_wf _ _ _ _ _ _ S0)) J1), E. cbn [map]. congruence.
Qed.
End Walk.
End Steps.

Lemma edges_ok g : lwf g -> forall es p q, connected p es q -> (forall e, In e es -> In e (ledges g)) ->
  np_edges g p (map lto es) = inl (map lid es) \/ (np_edges g p (map lto es) = inr (NpDone NoPath) /\ ~ no_parallel g).
Proof.
  intros W. induction es as [|e es IH]; intros p q Cn Inc; [left; reflexivity|]. cbn [connected] in Cn. destruct Cn as [Ef Cn]. cbn [map np_edges].
  pose proof (Inc e (or_introl eq_refl)) as He.
  assert (M : In (lid e) (filter (fun i => Nat.eqb (ltarget g i) (lto e)) (out_ids g p))).
  { apply filter_In. split; [apply out_ids_spec; eauto|]. rewrite (ltarget_in g e (lwf_ids g W) He). apply Nat.eqb_refl. }
  destruct (filter _ (out_ids g p)) as [|i [|j l]] eqn:Ff; [destruct M| |].
  - destruct M as [->|[]]. destruct (IH (lto e) q Cn (fun x Hx => Inc x (or_intror Hx))) as [->|[-> N]]; auto.
  - right. split; [reflexivity|]. intros Np. rewrite (pick_edge g _ p e (lwf_ids g W) He Ef) in Ff; [discriminate Ff| |].
    + rewrite (ltarget_in g e (lwf_ids g W) He). apply Nat.eqb_refl.
    + intros e' He' Ef' T. rewrite (ltarget_in g e' (lwf_ids g W) He') in T. apply Nat.eqb_eq in T. apply Np; auto; congruence.
Qed.
