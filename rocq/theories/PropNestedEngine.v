(** * C77: the TPA engine with --simplify-nested. *)
From Coq Require Import Permutation.
From Verif Require Import Syntax Solver TransSys TSLemmas KTo1Model FormulaModel NontermProofs Graph GraphOps GraphOpsProofs DfsProofs GraphSem GraphEx Names ListLemmas SimpleTransModel MergeModel MergeProofs LinearModel LinearProofs LinearPath LinearTS PropGraph BoolOracle ContractModel ContractProofs ContractLabels ContractSem ContractWf ContractDef BmcGraphProofs SingleLoopPath PropSingleLoop NestedModel NestedProofs NestedInv PropNested NestedPathModel NestedPath PropNestedPath.
From Verif Require Import TpaModel TpaQuery TpaFix TpaTop DagModel DagSys DagProofs DagTop PropTpa PropDag TpaEngineModel TpaEngineProofs PropTpaEngine NestedEngineModel NestedEngineProofs.
Open Scope list_scope.
Open Scope nat_scope.

(** What an answer must mean: UNSAFE is right, and carries a refutation unless two clauses share body and head; SAFE is right and carries a solution
    of all clauses, unless the solver gave up on a query of the Houdini procedure. *)
Definition nested_answer_ok (check : check_fn) (qe : qe_fn) (g : lgraph) (r : nans) : Prop :=
  match r with
  | NAnswer (EAnswer (GASafe (Some w))) => (lderivable g (exit, []) -> houdini_gave_up check) /\ (lsolution g w \/ houdini_gave_up check)
  | NAnswer (EAnswer (GASafe None)) => False
  | NAnswer (EAnswer (GAUnsafe d)) => lderivable g (exit, []) /\ match d with Some d => lrefutation g d | None => ~ no_parallel g end
  | NAnswer EUnknown => False
  | NStuck => (exists f keep, qe f keep = None) \/ houdini_gave_up check
  | NEnd => False
  end.

Section General.
Variables (check : check_fn) (qe : qe_fn) (simp : term -> term) (g h : lgraph) (nv nid : nat -> nat) (ord : list var -> list var) (fuel : nat) (cs : list cdata).
Hypothesis Hc : check_ok check.
Hypothesis Hq : qe_ok qe.
Hypothesis Hs : simp_ok simp.
Hypothesis W : lwf g.
Hypothesis U : user_names g.
Hypothesis F : fresh_stream g nv nid.
Hypothesis Ho : forall l, Permutation (ord l) l.
Hypothesis E : nl_transform nv nid ord fuel 0 g = Some (h, cs).
Hypothesis Fl : flat g cs.
Lemma result_facts : lwf h /\ no_long_loop h /\ (lderivable h (exit, []) <-> lderivable g (exit, [])) /\ (bool_labels g -> bool_labels h) /\ (one_loop g -> one_loop h).
Proof.
  pose proof (stage_start g nv nid W U F) as S0. pose proof (transform_nested nv nid ord fuel 0 g h cs E) as N.
  destruct (nested_facts unreserved un_loc un_arg un_et nv nid (fs_nv _ _ _ F) (fs_nid _ _ _ F) ord Ho 0 g h cs N [] S0) as [[k' [C' Sh]] [D L]].
  split; [apply (sg_wf _ _ _ _ _ _ Sh)|]. split; [exact L|]. split; [exact D|]. split; [apply (nested_bool nv nid ord 0 g h cs N)|].
  apply (nested_one_loop unreserved un_loc un_arg un_et nv nid (fs_nv _ _ _ F) (fs_nid _ _ _ F) ord Ho 0 g h cs N [] S0).
Qed.
(** The invariant, for any fuel of the transformation. *)
Lemma nested_invariant w0 : lsolution h w0 -> defs_within h w0 ->
  match nl_invariant qe simp g cs w0 with NlDefs w => lsolution g w | NlStuck => exists f keep, qe f keep = None | NlThrow => False end.
Proof.
  intros Sol Wi. destruct (C37_nested g nv nid ord (Datatypes.S (length (lvertices g))) W U F Ho) as [h' [cs' [E' [_ [_ [_ K]]]]]]; [lia|].
  assert (X : h' = h /\ cs' = cs).
  { assert (M : forall n m k x, nl_transform nv nid ord n k x = Some (h', cs') -> nl_transform nv nid ord m k x = Some (h, cs) -> h' = h /\ cs' = cs).
    { clear. intros n. revert h' cs' h cs. induction n as [|n IH]; intros h' cs' h cs m k x A B; [discriminate A|]. destruct m as [|m]; [discriminate B|]. cbn [nl_transform] in A, B.
      destruct (detect_loop x) as [l|]; [|discriminate]. destruct (Nat.leb (length l) 1).
      - injection A as <- <-. injection B as <- <-. auto.
      - destruct (nl_transform nv nid ord n _ _) as [[h1 c1]|] eqn:A1; [|discriminate]. destruct (nl_transform nv nid ord m _ _) as [[h2 c2]|] eqn:B1; [|discriminate].
        injection A as <- <-. injection B as <- <-. destruct (IH _ _ _ _ _ _ _ A1 B1) as [-> ->]. auto. }
    eapply M; eassumption. }
  destruct X as [-> ->]. apply (K qe simp w0 Hq Hs Fl Sol Wi).
Qed.
Lemma translate_ok a r :
  match a with
  | GASafe w => (lderivable h (exit, []) -> houdini_gave_up check) /\ match w with Some w => (lsolution h w \/ houdini_gave_up check) /\ defs_within h w | None => True end
  | GAUnsafe d => lderivable h (exit, []) /\ match d with Some d => exists es, lruns h es (entry, []) (exit, []) /\ map st_clause d = no_id :: map lid es | None => True end
  end -> nested_translate qe simp check g h cs a = Ret r -> nested_answer_ok check qe g r.
Proof.
  destruct result_facts as [_ [_ [D _]]]. destruct a as [[w|]|[d|]]; cbn [nested_translate]; intros H T; try discriminate.
  - destruct H as [H1 [H2 H3]]. rewrite D in H1. destruct H2 as [H2|H2].
    + pose proof (nested_invariant w H2 H3) as X. destruct (nl_invariant qe simp g cs w); [injection T as <-; split; [exact H1|left; exact X]|discriminate|injection T as <-; left; exact X].
    + destruct (nl_invariant qe simp g cs w); [injection T as <-; split; [exact H1|right; exact H2]|discriminate|injection T as <-; right; exact H2].
  - destruct H as [H1 [es [R Ed]]]. rewrite D in H1. pose proof (C76_nested_path check g nv nid ord fuel h cs es d Hc W U F Ho E Fl R Ed) as X.
    destruct (np_derivation check g cs h d) as [[| |d']|]; [injection T as <-; split; assumption|discriminate|injection T as <-; split; [assumption|apply X]|destruct X].
Qed.
End General.

(** The branch, for both versions of the engine with a witness requested. *)
Theorem C77_nested_split :
  forall check itp itp2 mbp elim lsimp isimp tsimp simp pitp qe nv nid ord k fuel nfuel g r,
    check_ok check -> itp_ok itp -> itp_ok itp2 -> mbp_ok mbp -> mbp_ok elim -> simp_ok lsimp -> simp_ok isimp -> simp_ok tsimp -> simp_ok simp ->
    pitp_ok pitp -> qe_ok qe -> (forall l, Permutation (ord l) l) ->
    lwf g -> bool_labels g -> one_loop g -> user_names g -> fresh_stream g nv nid ->
    (forall h cs, nl_transform nv nid ord nfuel 0 g = Some (h, cs) -> flat g cs) ->
    nested_branch qe simp nv nid ord check
      (fun x => dag_solve check itp mbp lsimp split_object split_new (split_ask check itp itp2 elim isimp k) tsimp x pitp qe true fuel) nfuel g = Ret r ->
    nested_answer_ok check qe g r.
Proof.
  intros check itp itp2 mbp elim lsimp isimp tsimp simp pitp qe nv nid ord k fuel nfuel g r Hc H1 H2 Hm He Hl Hs Ht Hsi Hp Hq Ho W Hb O U F Fl E.
  unfold nested_branch in E. destruct (nl_transform nv nid ord nfuel 0 g) as [[h cs]|] eqn:En; [|discriminate]. specialize (Fl h cs eq_refl). apply obind_ret in E as [a [Ea E]].
  destruct (result_facts g h nv nid ord nfuel cs W U F Ho En) as [Wh [Lh [_ [Bh Oh]]]]. specialize (Bh Hb). specialize (Oh O).
  pose proof (split_object_ok check itp itp2 elim isimp k Hc H1 H2 He Hs) as Ob.
  pose proof (dag_solve_ok check Hc itp H1 mbp Hm lsimp Hl _ _ _ _ _ Ob tsimp Ht pitp Hp qe Hq h Wh Bh Oh true fuel a (fun _ => long_acyclic h Wh Lh) Ea) as A.
  assert (Gu : some_gave_up check tsimp h -> houdini_gave_up check) by (intros G; destruct (gave_up_unknown _ _ _ G) as [v [ts [ts' [f [c [_ [_ X]]]]]]]; exists ts', f, c; exact X).
  apply (translate_ok check qe simp g h nv nid ord nfuel cs Hc Hq Hsi W U F Ho En Fl a r); [|exact E]. destruct a as [w|d]; destruct A as [A1 A2].
  - split; [tauto|]. destruct w as [w|]; [|exact I]. split; [tauto|]. apply (dag_safe_within check itp mbp lsimp _ _ _ tsimp pitp qe h true fuel w Ea).
  - split; [exact A1|]. destruct d as [d|]; [|exact I]. apply (dag_unsafe_run check Hc itp H1 mbp Hm lsimp Hl _ _ _ _ _ Ob tsimp Ht pitp qe h Wh Bh true fuel d (fun _ => long_acyclic h Wh Lh) Ea).
Qed.
Print Assumptions C77_nested_split.
Theorem C77_nested_basic :
  forall check itp mbp elim lsimp isimp tsimp simp pitp qe nv nid ord k fuel nfuel g r,
    check_ok check -> itp_ok itp -> mbp_ok mbp -> mbp_ok elim -> simp_ok lsimp -> simp_ok isimp -> simp_ok tsimp -> simp_ok simp ->
    pitp_ok pitp -> qe_ok qe -> (forall l, Permutation (ord l) l) ->
    lwf g -> bool_labels g -> one_loop g -> user_names g -> fresh_stream g nv nid ->
    (forall h cs, nl_transform nv nid ord nfuel 0 g = Some (h, cs) -> flat g cs) ->
    nested_branch qe simp nv nid ord check
      (fun x => dag_solve check itp mbp lsimp basic_object basic_new (basic_ask check itp elim isimp k) tsimp x pitp qe true fuel) nfuel g = Ret r ->
    nested_answer_ok check qe g r.
Proof.
  intros check itp mbp elim lsimp isimp tsimp simp pitp qe nv nid ord k fuel nfuel g r Hc H1 Hm He Hl Hs Ht Hsi Hp Hq Ho W Hb O U F Fl E.
  unfold nested_branch in E. destruct (nl_transform nv nid ord nfuel 0 g) as [[h cs]|] eqn:En; [|discriminate]. specialize (Fl h cs eq_refl). apply obind_ret in E as [a [Ea E]].
  destruct (result_facts g h nv nid ord nfuel cs W U F Ho En) as [Wh [Lh [_ [Bh Oh]]]]. specialize (Bh Hb). specialize (Oh O).
  pose proof (basic_object_ok check itp elim isimp k Hc H1 He Hs) as Ob.
  pose proof (dag_solve_ok check Hc itp H1 mbp Hm lsimp Hl _ _ _ _ _ Ob tsimp Ht pitp Hp qe Hq h Wh Bh Oh true fuel a ltac:(discriminate) Ea) as A.
  assert (Gu : some_gave_up check tsimp h -> houdini_gave_up check) by (intros G; destruct (gave_up_unknown _ _ _ G) as [v [ts [ts' [f [c [_ [_ X]]]]]]]; exists ts', f, c; exact X).
  apply (translate_ok check qe simp g h nv nid ord nfuel cs Hc Hq Hsi W U F Ho En Fl a r); [|exact E]. destruct a as [w|d]; destruct A as [A1 A2].
  - split; [tauto|]. destruct w as [w|]; [|exact I]. split; [tauto|]. apply (dag_safe_within check itp mbp lsimp _ _ _ tsimp pitp qe h true fuel w Ea).
  - split; [exact A1|]. destruct d as [d|]; [|exact I]. apply (dag_unsafe_run check Hc itp H1 mbp Hm lsimp Hl _ _ _ _ _ Ob tsimp Ht pitp qe h Wh Bh true fuel d ltac:(discriminate) Ea).
Qed.
Print Assumptions C77_nested_basic.

(** The whole engine with the option: the two early cases and transition systems are those of C59, everything else is the branch above. *)
Theorem C77_engine_split :
  forall check itp itp2 mbp melim elim lsimp isimp tsimp simp pitp qe nv nid nv0 nid0 ctr ord arrays force fuel k nfuel g r,
    check_ok check -> itp_ok itp -> itp_ok itp2 -> mbp_ok mbp -> mbp_ok melim -> elim_ok elim -> elim_bool elim -> simp_ok lsimp -> simp_ok isimp -> simp_ok tsimp -> simp_ok simp ->
    pitp_ok pitp -> qe_ok qe -> qe_bool qe -> (forall l, Permutation (ord l) l) ->
    lwf g -> bool_labels g -> one_loop g -> (is_transition_system g = true -> all_reachable g) -> user_names g -> fresh_stream g nv nid ->
    (forall h cs, nl_transform nv nid ord nfuel 0 g = Some (h, cs) -> flat g cs) ->
    tpa_engine_nested qe simp nv nid ord check
      (fun x => dag_solve check itp mbp lsimp split_object split_new (split_ask check itp itp2 melim isimp k) tsimp x pitp qe true fuel) arrays
      (tpa_engine elim qe simp nv0 nid0 ctr ord check
        (tpa_split check itp itp2 melim isimp tsimp fuel) (tpa_invariant check pitp qe tsimp)
        (fun x => dag_solve check itp mbp lsimp split_object split_new (split_ask check itp itp2 melim isimp k) tsimp x pitp qe true fuel) arrays force) nfuel g = Ret r ->
    (exists a, r = NAnswer a /\ engine_answer_ok check g a) \/ nested_answer_ok check qe g r.
Proof.
  intros check itp itp2 mbp melim elim lsimp isimp tsimp simp pitp qe nv nid nv0 nid0 ctr ord arrays force fuel k nfuel g r Hc H1 H2 Hm Hme He Heb Hl Hs Ht Hsi Hp Hq Hqb Ho W Hb O Hr U F Fl E.
  unfold tpa_engine_nested in E. destruct (is_trivial_graph g || arrays || is_transition_system g) eqn:C.
  - left. apply obind_ret in E as [a [Ea E]]. injection E as <-. exists a. split; [reflexivity|].
    destruct (is_trivial_graph g) eqn:Et; cbn [orb] in C.
    { assert (Gi : engine_input force nv0 nid0 g) by (split; try assumption; intros X; congruence). revert Ea; apply C59_engine_split; assumption. }
    destruct arrays; cbn [orb] in C.
    { unfold tpa_engine in Ea. rewrite Et in Ea. injection Ea as <-. exact I. }
    assert (Gi : engine_input force nv0 nid0 g) by (split; try assumption; intros X Y; congruence). revert Ea; apply C59_engine_split; assumption.
  - right. revert E. apply C77_nested_split; assumption.
Qed.
Print Assumptions C77_engine_split.

(** Without a request for a witness there is no answer: the network manager returns one without witness, and the translation of the
    missing witness throws std::bad_variant_access. *)
Theorem C77_no_witness :
  forall check itp mbp lsimp St start ask tsimp simp pitp qe nv nid ord fuel nfuel g r,
    nested_branch qe simp nv nid ord check (fun x => dag_solve check itp mbp lsimp St start ask tsimp x pitp qe false fuel) nfuel g <> Ret r.
Proof.
  intros check itp mbp lsimp St start ask tsimp simp pitp qe nv nid ord fuel nfuel g r E. unfold nested_branch in E.
  destruct (nl_transform nv nid ord nfuel 0 g) as [[h cs]|]; [|discriminate]. apply obind_ret in E as [a [Ea E]].
  destruct (dag_no_witness check itp mbp lsimp St start ask tsimp pitp qe h fuel a Ea) as [->| ->]; discriminate.
Qed.
Print Assumptions C77_no_witness.

(** The option also takes graphs whose transformation is not a DAG of loops (the assertion is off in release builds): a vertex without
    self-loop ends in std::bad_optional_access. *)
Theorem C77_loopless :
  forall check itp mbp lsimp St start ask tsimp simp pitp qe nv nid ord fuel nfuel g h cs v wit,
    nl_transform nv nid ord nfuel 0 g = Some (h, cs) -> lwf h -> lvertex h v -> v <> entry -> v <> exit -> (forall e, In e (ledges h) -> ~ (lfrom e = v /\ lto e = v)) ->
    forall r, nested_branch qe simp nv nid ord check (fun x => dag_solve check itp mbp lsimp St start ask tsimp x pitp qe wit fuel) nfuel g <> Ret r.
Proof.
  intros check itp mbp lsimp St start ask tsimp simp pitp qe nv nid ord fuel nfuel g h cs v wit En Wh Hv Ne Nx Nl r E.
  unfold nested_branch in E. rewrite En in E. apply obind_ret in E as [a [Ea _]]. unfold dag_solve in Ea.
  destruct (reverse_post_order h) as [o|] eqn:Eo; [|discriminate]. apply obind_ret in Ea as [nw [Ei _]].
  assert (V : vertex_ts h v = None).
  { unfold vertex_ts. destruct (self_loop_of h v) as [e|] eqn:Es; [|reflexivity]. exfalso. destruct (self_loop_spec h Wh v e Es) as [X1 [X2 X3]]. apply (Nl e X1); tauto. }
  assert (Io : forall vs nw, In v vs -> init_network St start tsimp h vs <> Ret nw).
  { induction vs as [|u vs IH]; intros n Hu X; [destruct Hu|]. cbn [init_network] in X. apply obind_ret in X as [m [X1 X2]]. destruct Hu as [->|Hu].
    - unfold init_node in X1. destruct (Nat.eqb_spec v entry); [contradiction|]. destruct (Nat.eqb_spec v exit); [contradiction|]. cbn [orb] in X1. rewrite V in X1. discriminate.
    - apply obind_ret in X2 as [n' [X2 _]]. apply (IH n' Hu X2). }
  eapply Io; [|exact Ei]. apply lvertices_spec, Hv.
Qed.
Print Assumptions C77_loopless.

(** ** Examples *)
Module ExNlEngine.
Import ExSl ExNl ExDag ExEngine.
Notation id_ := (fun t : term => t).
Definition run_nested wit x := nested_branch bqe id_ nv nv ord bcheck
  (fun y => dag_solve bcheck bitp bmbp id_ split_object split_new (split_ask bcheck bitp bitp bmbp id_ 20) id_ y (fun _ => None) bqe wit 40) 6 x.
Definition show_n (x : out nans) : option (list (nat * list value) + bool) :=
  match x with Ret (NAnswer a) => show (Ret a) | _ => None end.
Lemma c_flat x h cs : In x [c1; c2] -> nl_transform nv nv ord 6 0 x = Some (h, cs) -> flat x cs.
Proof.
  intros Hx E. destruct Hx as [<-|[<-|[]]]; vm_compute in E; injection E as <- <-; intros c p [<-|[]]; cbn; intros [<-|[<-|[]]]; apply lvertices_spec; vm_compute; auto.
Qed.
Lemma c_stream x : In x [c1; c2] -> fresh_stream x nv nv.
Proof. intros [<-|[<-|[]]]; apply nv_fresh; vm_compute; reflexivity. Qed.
(** The hypotheses of [C77_nested_split] are met, and both answers occur; without a witness the engine ends with an exception. *)
Example C77_nonvacuous :
  check_ok bcheck /\ itp_ok bitp /\ mbp_ok bmbp /\ simp_ok idt /\ pitp_ok (fun _ => None) /\ qe_ok bqe /\ (forall l, Permutation (ord l) l) /\
  (forall x, In x [c1; c2] -> lwf x /\ bool_labels x /\ one_loop x /\ user_names x /\ fresh_stream x nv nv /\
    (is_trivial_graph x || is_transition_system x) = false /\ exists h cs, nl_transform nv nv ord 6 0 x = Some (h, cs) /\ flat x cs /\ length cs = 1) /\
  map (fun x => show_n (run_nested true x)) [c1; c2] = [Some (inl [(entry, []); (C, []); (A, [VBool false]); (exit, [])]); Some (inr true)] /\
  run_nested false c1 = Exc.
Proof.
  destruct hypotheses as [H1 [H2 [H3 [_ [H5 [H6 _]]]]]].
  split; [exact H1|]. split; [exact H2|]. split; [exact H3|]. split; [apply idt_ok|]. split; [exact H5|]. split; [exact H6|]. split; [intros l; apply Permutation_refl|].
  split; [|split; vm_compute; reflexivity]. intros x Hx.
  assert (I : engine_input false 4 6 x) by (apply x_input; destruct Hx as [<-|[<-|[]]]; cbn; auto 10). destruct I as [W B O _ _].
  split; [exact W|]. split; [exact B|]. split; [exact O|]. split; [apply (sl_names _ (proj1 (c_input x Hx)))|]. split; [apply c_stream, Hx|].
  split; [destruct Hx as [<-|[<-|[]]]; vm_compute; reflexivity|].
  assert (X : exists h cs, nl_transform nv nv ord 6 0 x = Some (h, cs) /\ length cs = 1) by (destruct Hx as [<-|[<-|[]]]; eexists; eexists; (split; [vm_compute; reflexivity|reflexivity])).
  destruct X as [h [cs [E L]]]. exists h, cs. split; [exact E|]. split; [|exact L]. apply (c_flat x h cs Hx E).
Qed.
(** A graph as in [C77_loopless]: the vertex D of ExNlPath.gu is on no cycle. *)
Example C77_loopless_nonvacuous :
  exists g h cs v, lwf g /\ user_names g /\ fresh_stream g nv nv /\ nl_transform nv nv ord 7 0 g = Some (h, cs) /\ flat g cs /\ lwf h /\ lvertex h v /\ v <> entry /\ v <> exit /\
    forall e, In e (ledges h) -> ~ (lfrom e = v /\ lto e = v).
Proof.
  exists (to_normal ExNlPath.hu), ExNlPath.hu', ExNlPath.cu', ExNlPath.D. split; [apply ExNlPath.gu_wf|]. split; [apply ExNlPath.gu_names|]. split; [apply ExNlPath.gu_fresh|].
  split; [vm_compute; reflexivity|]. split; [apply ExNlPath.gu_flat|]. split; [apply ExNlPath.hu_lwf|]. split; [apply lvertices_spec; vm_compute; auto|].
  split; [discriminate|]. split; [discriminate|].
  assert (B : forallb (fun e => negb (Nat.eqb (lfrom e) ExNlPath.D && Nat.eqb (lto e) ExNlPath.D)) (ledges ExNlPath.hu') = true) by (vm_compute; reflexivity).
  intros e He [X Y]. rewrite forallb_forall in B. specialize (B e He). rewrite X, Y, Nat.eqb_refl in B. discriminate B.
Qed.
End ExNlEngine.
