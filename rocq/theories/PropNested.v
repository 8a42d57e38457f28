(** * C37: the nested-loop transformation. *)
From Coq Require Import Permutation.
From Verif Require Import Syntax Solver TransSys TSLemmas KindModel PropKind ExTac Graph GraphOps GraphOpsProofs DfsProofs GraphSem GraphEx Names ListLemmas SimpleTransModel MergeModel MergeProofs LinearModel LinearProofs LinearPath LinearTS PropGraph ExpandProofs PropChain PropTermination PropLinear ContractModel ContractProofs ContractLabels ContractSem ContractWf ContractDef LMerge NontermProofs SingleLoopProofs SingleLoopPath PropSingleLoop NestedModel NestedProofs NestedInv.
Open Scope list_scope.
Open Scope nat_scope.

(** The names the transformation makes up are new. *)
Record fresh_stream (g : lgraph) (nv nid : nat -> nat) : Prop := {
  fs_nv : forall i j, nv i = nv j -> i = j;
  fs_nid : forall i j, nid i = nid j -> i = j;
  fs_vertex : forall j, ~ lvertex g (nv j);
  fs_id : forall j e, In e (ledges g) -> lid e <> nid j
}.
(** No cycle of the graph has more than one vertex: what [detectLoop] reports is at most a self-loop. *)
Definition no_long_loop (g : lgraph) : Prop := exists l, detect_loop g = Some l /\ length l <= 1.
(** A witness for the graph mentions vertices of the graph only. *)
Definition defs_within (g : lgraph) (w : defs_t) : Prop := forall p, w p <> None -> lvertex g p.
(** No vertex that replaced a loop has been contracted again. *)
Definition flat (g : lgraph) (cs : list cdata) : Prop := forall c p, In c cs -> In p (cd_set c) -> lvertex g p.

Definition unreserved (s : string) : Prop := reserved s = false.
Lemma un_loc p : ~ unreserved (vbase (locv p)). Proof. unfold unreserved. rewrite loc_reserved. discriminate. Qed.
Lemma un_arg p i s : ~ unreserved (vbase (argv p i s)). Proof. unfold unreserved. rewrite arg_reserved. discriminate. Qed.
Lemma un_et k s : ~ unreserved (vbase (etaux k s)). Proof. unfold unreserved. rewrite aux_reserved. discriminate. Qed.
Lemma stage_start g nv nid : lwf g -> user_names g -> fresh_stream g nv nid -> stage unreserved nv nid 0 [] g.
Proof.
  intros W [U1 U2] [F1 F2 F3 F4]. split.
  - exact W.
  - split; [intros e v He Hv; left; apply (U1 e v He Hv)|intros p v Hv; left; apply (U2 p v Hv)].
  - intros p [].
  - intros j _. split; [apply F3|intros []].
  - intros j e _ He. apply (F4 j e He).
Qed.
Lemma contracted_spec cs p : contracted_in cs p = true <-> In p (concat (map cd_set cs)).
Proof.
  unfold contracted_in. rewrite existsb_exists, in_concat. split.
  - intros [c [Hc M]]. apply mem_in in M. exists (cd_set c). split; [apply in_map, Hc|exact M].
  - intros [y [Hy Hp]]. apply in_map_iff in Hy as [c [<- Hc]]. exists c. split; [exact Hc|]. apply mem_in, Hp.
Qed.

(** The transformation ends; the result is a well-formed graph in which every cycle is a self-loop and which derives [false] iff the
    input does; a solution of the result is translated back to a solution of the input, provided no loop vertex was contracted again. *)
Theorem C37_nested :
  forall g nv nid ord fuel,
    lwf g -> user_names g -> fresh_stream g nv nid -> (forall l, Permutation (ord l) l) -> length (lvertices g) < fuel ->
    exists h cs, nl_transform nv nid ord fuel 0 g = Some (h, cs) /\ lwf h /\ no_long_loop h /\
      (lderivable h (exit, []) <-> lderivable g (exit, [])) /\
      (forall qe simp w0, qe_ok qe -> simp_ok simp -> flat g cs -> lsolution h w0 -> defs_within h w0 ->
         match nl_invariant qe simp g cs w0 with
         | NlDefs w => lsolution g w
         | NlStuck => exists f keep, qe f keep = None
         | NlThrow => False
         end).
Proof.
  intros g nv nid ord fuel W U F Ho Lf. pose proof (stage_start g nv nid W U F) as S0.
  destruct (transform_ends unreserved un_loc un_arg un_et nv nid (fs_nv _ _ _ F) (fs_nid _ _ _ F) ord Ho fuel 0 [] g S0 Lf) as [h [cs E]].
  exists h, cs. split; [exact E|]. pose proof (transform_nested nv nid ord fuel 0 g h cs E) as N.
  destruct (nested_facts unreserved un_loc un_arg un_et nv nid (fs_nv _ _ _ F) (fs_nid _ _ _ F) ord Ho 0 g h cs N [] S0) as [[k' [C' Sh]] [D L]].
  split; [apply (sg_wf _ _ _ _ _ _ Sh)|]. split; [exact L|]. split; [exact D|]. intros qe simp w0 Hq Hs Fl Sol Wi.
  destruct (nested_sets unreserved un_loc un_arg un_et nv nid (fs_nv _ _ _ F) (fs_nid _ _ _ F) ord Ho 0 g h cs N [] S0) as [N1 [N2 [N3 [N4 [k2 S2]]]]].
  assert (Nc : forall c c', In c cs -> In c' cs -> ~ In (cd_vertex c') (cd_set c)).
  { intros c c' Hc Hc' X. destruct (N4 c' Hc') as [j [_ Ej]]. rewrite Ej in X. apply (fs_vertex _ _ _ F j), (Fl c _ Hc X). }
  assert (Ncc : forall c, In c cs -> ~ In (cd_vertex c) (concat (map cd_set cs))).
  { intros c Hc X. apply in_concat in X as [y [Hy X]]. apply in_map_iff in Hy as [c' [<- Hc']]. apply (Nc c' c Hc' Hc X). }
  assert (In1 : forall c p, In c cs -> In p (cd_set c) -> In p (concat (map cd_set cs))).
  { intros c p Hc Hp. apply in_concat. exists (cd_set c). split; [apply in_map, Hc|exact Hp]. }
  assert (Hgone : forall p, In p (concat (map cd_set cs)) -> w0 p = None).
  { intros p Hp. destruct (w0 p) as [d|] eqn:Ew; [|reflexivity]. exfalso. apply (sg_gone _ _ _ _ _ _ S2 p Hp). apply Wi. rewrite Ew. discriminate. }
  pose proof (nl_loops_spec qe simp g cs w0 cs w0 N3 N1) as Sp. unfold nl_invariant.
  assert (P1 : forall c p, In c cs -> In p (cd_set c) -> in_set g c p /\ w0 p = None /\ forall c', In c' cs -> cd_vertex c' <> p).
  { intros c p Hc Hp. pose proof (In1 c p Hc Hp) as Hi. destruct (N2 p Hi) as [_ [A B]]. split; [|split].
    - split; [apply (Fl c p Hc Hp)|]. auto.
    - apply Hgone, Hi.
    - intros c' Hc' Ec. subst p. apply (Nc c c' Hc Hc' Hp). }
  assert (P2 : forall c, In c cs -> w0 (cd_vertex c) <> None).
  { intros c Hc. destruct (loops_survive unreserved un_loc un_arg un_et nv nid (fs_nv _ _ _ F) (fs_nid _ _ _ F) ord Ho 0 g h cs N [] S0 c Hc (Ncc c Hc)) as [e [He Ef]].
    destruct (lsol_edge _ _ Sol e He) as [d [d' [E1 _]]]. rewrite <- Ef, E1. discriminate. }
  specialize (Sp P1 P2). destruct (nl_loops qe simp g cs w0 cs w0) as [w| |]; [|exact Sp|exact Sp].
  destruct Sp as [A [B D']].
  apply (nested_solution unreserved un_loc un_arg un_et nv nid (fs_nv _ _ _ F) (fs_nid _ _ _ F) ord Ho qe Hq simp Hs g (fs_vertex _ _ _ F) cs w0 w 0 g h cs N [] S0); auto.
  - intros c Hc. assert (forall p, In p (cd_set c) -> contracted_in cs p = true) as X by (intros p Hp; apply contracted_spec, (In1 c p Hc Hp)).
    split; [|intros p Hp; split; [apply (Fl c p Hc Hp)|apply X, Hp]].
    assert (exists p, In p (cd_set c)) as [p Hp].
    { clear - N Hc. revert Hc. induction N as [|k g l h cs E L _ IH]; intros Hc; [destruct Hc|]. destruct Hc as [<-|Hc]; [|apply IH, Hc]. cbn [cd_set].
      destruct l as [|x l]; [cbn in L; lia|]. exists (lsource g x). left. reflexivity. }
    destruct (cd_set c) as [|q qs] eqn:Eq; [destruct Hp|]. cbn [hd]. apply X. left. reflexivity.
  - intros p Hp. apply in_map_iff in Hp as [c [<- Hc]]. apply B, Hc.
Qed.
Print Assumptions C37_nested.

(** ** Examples *)
Module ExNl.
Import ExSl.
Definition nv (k : nat) := 10 + k.
Lemma nv_fresh (h : lgraph) : forallb (fun e => Nat.ltb (lfrom e) 10 && Nat.ltb (lto e) 10 && Nat.ltb (lid e) 10) (ledges h) = true -> fresh_stream h nv nv.
Proof.
  intros H. rewrite forallb_forall in H.
  assert (X : forall e, In e (ledges h) -> lfrom e < 10 /\ lto e < 10 /\ lid e < 10).
  { intros e He. specialize (H e He). rewrite !andb_true_iff, !Nat.ltb_lt in H. tauto. }
  split; [intros i j E; unfold nv in E; lia|intros i j E; unfold nv in E; lia| |].
  - intros j [E|[E|[e [He E]]]]; [discriminate E|discriminate E|]. specialize (X e He). unfold nv, sym in *. lia.
  - intros j e He E. specialize (X e He). unfold nv in E. lia.
Qed.
Definition hb' := match nl_transform nv nv ord 6 0 gb with Some (h, _) => h | None => gb end.
Definition cb' := match nl_transform nv nv ord 6 0 gb with Some (_, c) => c | None => [] end.
Definition nla := Var (locv A). Definition nlb := Var (locv B).
Definition nxa := Var (argv A 0 SBool). Definition nxb := Var (argv B 0 SBool).
Definition ninv := mkAnd [mkOr [mkNot nla; nxa]; mkOr [mkNot nlb; nxb]].
Definition wb : defs_t := fun p => match p with 0 => Some tt_true | 1 => Some tt_false | _ => if Nat.eqb p 10 then Some ninv else None end.
Lemma wb_sol : lsolution hb' wb.
Proof.
  split.
  - intros p d. destruct p as [|[|p]]; cbn [wb].
    + intros E. injection E as <-. intros v [].
    + intros E. injection E as <-. intros v [].
    + destruct (Nat.eqb_spec (Datatypes.S (Datatypes.S p)) 10) as [Ep|]; [|discriminate]. rewrite Ep. intros E. injection E as <-. intros v Hv. apply inb_true.
      cbn in Hv. repeat (destruct Hv as [<-|Hv]; [vm_compute; reflexivity|]). destruct Hv.
  - exists tt_true. split; [reflexivity|]. intros r. reflexivity.
  - exists tt_false. split; [reflexivity|]. intros r H. discriminate H.
  - let F := eval vm_compute in (ledges hb') in change (ledges hb') with F. intros e [<-|[<-|[<-|[]]]]; cbn [lfrom lto lfla];
    eexists; eexists; (split; [reflexivity|]); (split; [reflexivity|]); intros r H H0;
    match goal with |- holds r ?f => let F := eval vm_compute in f in change (holds r F) end;
    match type of H0 with holds r ?f => let F := eval vm_compute in f in change (holds r F) in H0 end; ev.
Qed.
Lemma wb_in : defs_within hb' wb.
Proof.
  intros p. destruct p as [|[|p]]; cbn [wb]; [intros _; left; reflexivity|intros _; right; left; reflexivity|]. destruct (Nat.eqb_spec (Datatypes.S (Datatypes.S p)) 10) as [Ep|]; [|congruence]. intros _. rewrite Ep.
  apply lvertices_spec. vm_compute. auto.
Qed.
Definition eA := mkNot (subst (nl_sub gb cb' A) ninv).
Definition eB := mkNot (subst (nl_sub gb cb' B) ninv).
Definition qn := table_qe [(eA, [argv A 0 SBool], mkNot nxa); (eB, [argv B 0 SBool], mkNot nxb)].
Lemma qn_ok : qe_ok qn.
Proof.
  apply table_qe_ok. apply Forall_cons; [|apply Forall_cons; [|constructor]]; cbn [fst snd].
  - let F := eval vm_compute in eA in change eA with F. let F := eval vm_compute in nxa in change nxa with F. split.
    + intros v Hv. cbn in Hv. destruct Hv as [<-|[]]. left. reflexivity.
    + intros r. split.
      * intros H. exists r. split; [intros v _; reflexivity|]. ev.
      * intros [r' [Ag H]]. apply (holds_agree r' r); [intros v Hv; symmetry; apply Ag; exact Hv|]. ev.
  - let F := eval vm_compute in eB in change eB with F. let F := eval vm_compute in nxb in change nxb with F. split.
    + intros v Hv. cbn in Hv. destruct Hv as [<-|[]]. left. reflexivity.
    + intros r. split.
      * intros H. exists r. split; [intros v _; reflexivity|]. ev.
      * intros [r' [Ag H]]. apply (holds_agree r' r); [intros v Hv; symmetry; apply Ag; exact Hv|]. ev.
Qed.
Example C37_nonvacuous :
  lwf gb /\ user_names gb /\ fresh_stream gb nv nv /\ nl_transform nv nv ord 6 0 gb = Some (hb', cb') /\ length cb' = 1 /\ flat gb cb' /\
  qe_ok qn /\ simp_ok idt /\ lsolution hb' wb /\ defs_within hb' wb /\
  exists w, nl_invariant qn idt gb cb' wb = NlDefs w /\ w A = Some (mkNot (mkNot (Var bx))) /\ w B = Some (mkNot (mkNot (Var by_))) /\ w 10 = None.
Proof.
  split; [apply gb_wf|]. split; [apply (sl_names _ gb_input)|]. split; [apply nv_fresh; vm_compute; reflexivity|]. split; [vm_compute; reflexivity|]. split; [vm_compute; reflexivity|].
  split; [intros c p Hc; vm_compute in Hc; destruct Hc as [<-|[]]; cbn; intros [<-|[<-|[]]]; apply lvertices_spec; vm_compute; auto|].
  split; [apply qn_ok|]. split; [apply idt_ok|]. split; [apply wb_sol|]. split; [apply wb_in|]. eexists. split; [vm_compute; reflexivity|]. repeat split; vm_compute; reflexivity.
Qed.

(** Two cycles that share a vertex: A <-> B <-> C. *)
Definition C : sym := 4.
Definition z := mkVar "z" TBase SBool.
Definition hc := mkGraph
  [mkEdge 1 [entry] A (t bx); mkEdge 2 [A] B (mkEq (t by_) (s bx)); mkEdge 3 [B] A (mkEq (t bx) (s by_)); mkEdge 4 [B] C (mkEq (t z) (s by_)); mkEdge 5 [C] B (mkEq (t by_) (s z));
   mkEdge 6 [C] exit (mkNot (s z))] (pv_of [(A, [bx]); (B, [by_]); (C, [z])]) 7 0.
Definition gc := to_normal hc.
Definition hc' := match nl_transform nv nv ord 6 0 gc with Some (h, _) => h | None => gc end.
Definition cc' := match nl_transform nv nv ord 6 0 gc with Some (_, c) => c | None => [] end.
Lemma gc_wf : lwf gc.
Proof.
  apply normal_wf; [apply graph_check_ok; vm_compute; reflexivity|reflexivity|].
  intros e v He Hv Nv. exfalso. apply Nv. destruct He as [<-|[<-|[<-|[<-|[<-|[<-|[]]]]]]]; cbn in Hv; repeat (destruct Hv as [<-|Hv]; [apply inb_true; vm_compute; reflexivity|]); destruct Hv.
Qed.
Lemma gc_names : user_names gc.
Proof. apply names_check; [|vm_compute; reflexivity]. intros p v Hv. apply pv_of_in in Hv. cbn in Hv. destruct Hv as [<-|[<-|[<-|[]]]]; reflexivity. Qed.
(** In the vertex for {10, C}: when at 10, the arguments of 10 satisfy its invariant; when at C, z holds. *)
Definition a10 i := Var (argv 10 i SBool).
Definition cinv := mkAnd [mkOr [mkNot (Var (locv 10)); mkAnd [mkOr [mkNot (a10 0); a10 2]; mkOr [mkNot (a10 1); a10 3]]]; mkOr [mkNot (Var (locv C)); Var (argv C 0 SBool)]].
Definition wc : defs_t := fun p => match p with 0 => Some tt_true | 1 => Some tt_false | _ => if Nat.eqb p 11 then Some cinv else None end.
Lemma wc_sol : lsolution hc' wc.
Proof.
  split.
  - intros p d. destruct p as [|[|p]]; cbn [wc].
    + intros E. injection E as <-. intros v [].
    + intros E. injection E as <-. intros v [].
    + destruct (Nat.eqb_spec (Datatypes.S (Datatypes.S p)) 11) as [Ep|]; [|discriminate]. rewrite Ep. intros E. injection E as <-. intros v Hv. apply inb_true.
      cbn in Hv. repeat (destruct Hv as [<-|Hv]; [vm_compute; reflexivity|]). destruct Hv.
  - exists tt_true. split; [reflexivity|]. intros r. reflexivity.
  - exists tt_false. split; [reflexivity|]. intros r H. discriminate H.
  - let F := eval vm_compute in (ledges hc') in change (ledges hc') with F. intros e [<-|[<-|[<-|[]]]]; cbn [lfrom lto lfla];
    eexists; eexists; (split; [reflexivity|]); (split; [reflexivity|]); intros r H H0;
    match goal with |- holds r ?f => let F := eval vm_compute in f in change (holds r F) end;
    match type of H0 with holds r ?f => let F := eval vm_compute in f in change (holds r F) in H0 end. 
    + ev.
    + ev.
    + ev.
Qed.
Lemma wc_in : defs_within hc' wc.
Proof.
  intros p. destruct p as [|[|p]]; cbn [wc]; [intros _; left; reflexivity|intros _; right; left; reflexivity|]. destruct (Nat.eqb_spec (Datatypes.S (Datatypes.S p)) 11) as [Ep|]; [|congruence]. intros _. rewrite Ep.
  apply lvertices_spec. vm_compute. auto.
Qed.
End ExNl.

(** Without the last condition no witness is ever translated: if the cycles overlap, the vertex of the first contraction is part of the
    second one, and looking up its definition throws. *)
Theorem C37_chained_refuted :
  exists g nv nid ord h cs w0,
    lwf g /\ user_names g /\ fresh_stream g nv nid /\ (forall l, Permutation (ord l) l) /\
    nl_transform nv nid ord (S (length (lvertices g))) 0 g = Some (h, cs) /\ lsolution h w0 /\ defs_within h w0 /\
    forall qe simp w, lsolution h w -> defs_within h w -> nl_invariant qe simp g cs w = NlThrow.
Proof.
  exists ExNl.gc, ExNl.nv, ExNl.nv, ExSl.ord, ExNl.hc', ExNl.cc', ExNl.wc. split; [apply ExNl.gc_wf|]. split; [apply ExNl.gc_names|]. split; [apply ExNl.nv_fresh; vm_compute; reflexivity|].
  split; [intros l; apply Permutation_refl|]. split; [vm_compute; reflexivity|]. split; [apply ExNl.wc_sol|]. split; [apply ExNl.wc_in|].
  intros qe simp w _ Wi. assert (E : w 10 = None).
  { destruct (w 10) eqn:E; [|reflexivity]. exfalso. assert (X : lvertex ExNl.hc' 10) by (apply Wi; rewrite E; discriminate). apply lvertices_spec in X. vm_compute in X.
    repeat (destruct X as [X|X]; [discriminate X|]). destruct X. }
  let F := eval vm_compute in ExNl.cc' in change ExNl.cc' with F. unfold nl_invariant. cbn [nl_loops cd_vertex]. rewrite E. reflexivity.
Qed.
