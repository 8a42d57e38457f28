(** * The nested-loop branch of the TPA engine. *)
From Coq Require Import Permutation.
From Verif Require Import Syntax Solver TransSys TSLemmas KTo1Model FormulaModel NontermProofs Graph GraphOps GraphOpsProofs DfsProofs GraphSem Names ListLemmas SimpleTransModel MergeModel MergeProofs LinearModel LinearProofs LinearPath LinearTS PropGraph ContractModel ContractProofs ContractLabels ContractSem ContractWf ContractDef BmcGraphProofs SingleLoopPath PropSingleLoop NestedModel NestedProofs NestedInv PropNested NestedPathModel NestedPath PropNestedPath.
From Verif Require Import TpaModel TpaQuery TpaFix TpaTop DagModel DagSys DagProofs DagTop PropTpa PropDag TpaEngineModel TpaEngineProofs NestedEngineModel.
Open Scope list_scope.
Open Scope nat_scope.

(** A derivation made from a path is one of a run along the path. *)
Lemma from_error_run g check es d : lwf g -> check_ok check -> connected entry es exit -> (forall e, In e es -> In e (ledges g)) ->
  from_error_path check g (map lid es) = PathDerivation d -> lruns g es (entry, []) (exit, []) /\ map st_clause d = no_id :: map lid es.
Proof.
  intros W Hc Cn Ie E. pose proof (from_error_path_ok g W check es Hc Ie Cn) as F. rewrite E in F. split; [|apply F].
  unfold from_error_path in E. rewrite (path_edges_total g W es Ie) in E. destruct (map lid es); [discriminate|]. destruct (check (path_labels 0 es)) as [r| |] eqn:Q; try discriminate.
  apply (labels_runs_exit g W r); [exact Cn|exact Ie|apply (check_sat _ Hc _ _ Q)].
Qed.

Section Run.
Variable check : check_fn.
Hypothesis Hc : check_ok check.
Variable itp : itp_fn.
Hypothesis Hi : itp_ok itp.
Variable mbp : mbp_fn.
Hypothesis Hm : mbp_ok mbp.
Variable lsimp : term -> term.
Hypothesis Hls : simp_ok lsimp.
Variable St : Type.
Variable start : tsys -> St.
Variable ask : tsys -> St -> term -> term -> out (tres * St).
Variable ok : tsys -> St -> Prop.
Variable exact : bool.
Hypothesis Ho : object_ok check start ask ok exact.
Variable tsimp : term -> term.
Hypothesis Hts : simp_ok tsimp.
Variable pitp : pitp_fn.
Variable qe : qe_fn.
Variable g : lgraph.
Hypothesis W : lwf g.
Hypothesis Hb : forall e, In e (ledges g) -> is_bool (lfla e) = true.
Notation solve := (dag_solve check itp mbp lsimp St start ask tsimp g pitp qe).
Lemma dag_unsafe_run wit fuel d : (exact = true -> acyclic g) -> solve wit fuel = Ret (GAUnsafe (Some d)) ->
  exists es, lruns g es (entry, []) (exit, []) /\ map st_clause d = no_id :: map lid es.
Proof.
  intros Ac E. unfold dag_solve in E. destruct (reverse_post_order g) as [o|] eqn:Eo; [|discriminate].
  apply obind_ret in E as [nw0 [E0 E]]. apply obind_ret in E as [q [E1 E]].
  pose proof (init_ok check St start ask ok exact Ho tsimp Hts g W Hb o nw0 E0) as N0.
  pose proof (dag_loop_ok check Hc itp Hi mbp Hm lsimp Hls St start ask ok exact Ho tsimp Hts g W Hb o fuel Ac nw0 _ q N0 (or_introl (sk_entry _ _ _ _ _)) E1) as P.
  destruct q as [nw|path nw]; cbn [dag_post] in P.
  - destruct wit; [|discriminate]. apply obind_ret in E as [w [Ew E]]. discriminate.
  - destruct P as [i [t [rest [-> Hst]]]]. destruct (unsafe_ok St exact g W nw i t rest Hst) as [D [es [E2 [Cn [Ie _]]]]]. destruct wit; [|discriminate].
    rewrite E2 in E. cbn [obind] in E. destruct (from_error_path check g (map lid es)) as [| |d'] eqn:F; try discriminate. injection E as <-.
    exists es. apply (from_error_run g check es d' W Hc Cn Ie F).
Qed.
Lemma dag_defs_within nw vs : forall w0 w, dag_defs check itp lsimp St ask g pitp qe nw vs w0 = Ret w -> (forall p, In p vs -> lvertex g p) -> defs_within g w0 -> defs_within g w.
Proof.
  induction vs as [|v vs IH]; intros w0 w E Hv H0; cbn [dag_defs] in E; [injection E as <-; exact H0|].
  destruct (Nat.eqb v entry || Nat.eqb v exit); [apply (IH w0 w E); [intros p Hp; apply Hv; right; exact Hp|exact H0]|].
  apply obind_ret in E as [[r sys] [_ E]]. destruct r as [t k|t e]; [discriminate|]. destruct sys as [[ts st]|]; [|discriminate]. apply obind_ret in E as [inv [_ E]]. destruct inv as [inv|]; [|discriminate].
  apply (IH _ w E); [intros p Hp; apply Hv; right; exact Hp|]. intros p. unfold wset. destruct (Nat.eqb_spec p v) as [->|]; [intros _; apply Hv; left; reflexivity|apply H0].
Qed.
Lemma trivial_within : defs_within g trivial_defs.
Proof.
  intros p. unfold trivial_defs. destruct (Nat.eqb_spec p entry) as [->|]; [intros _; left; reflexivity|]. destruct (Nat.eqb_spec p exit) as [->|]; [intros _; right; left; reflexivity|congruence].
Qed.
Lemma dag_safe_within wit fuel w : solve wit fuel = Ret (GASafe (Some w)) -> defs_within g w.
Proof.
  intros E. unfold dag_solve in E. destruct (reverse_post_order g) as [o|]; [|discriminate]. apply obind_ret in E as [nw0 [_ E]]. apply obind_ret in E as [q [_ E]].
  destruct q as [nw|path nw].
  - destruct wit; [|discriminate]. apply obind_ret in E as [w' [Ew E]]. injection E as <-. apply (dag_defs_within _ _ _ _ Ew); [intros p; apply lvertices_spec|apply trivial_within].
  - destruct wit; [|discriminate]. apply obind_ret in E as [ids [_ E]]. destruct (from_error_path check g ids); discriminate.
Qed.
(** A witness is there if it is asked for. *)
Lemma dag_no_witness fuel r : solve false fuel = Ret r -> r = GASafe None \/ r = GAUnsafe None.
Proof.
  intros E. unfold dag_solve in E. destruct (reverse_post_order g) as [o|]; [|discriminate]. apply obind_ret in E as [nw0 [_ E]]. apply obind_ret in E as [q [_ E]].
  destruct q; injection E as <-; auto.
Qed.
End Run.

(** ** The transformed graph *)
Lemma long_acyclic g : lwf g -> no_long_loop g -> acyclic g.
Proof.
  intros W [l [E L]]. destruct (C42_detect_loop g (lwf_ids g W)) as [l' [El [H1 H2]]]. rewrite El in E. injection E as ->.
  assert (l = []) by (destruct l as [|i l]; [reflexivity|]; destruct H1 as [[H1 _] _]; [discriminate|]; lia). subst l.
  intros a b Ha Hne Hab Hba. destruct (Nat.le_gt_cases (length (lvertices g)) 3) as [L3|L3]; [|eapply H2; eauto].
  destruct (C42_detect_loop_small g (lwf_ids g W) L3) as [_ K]; [|exact (K a b Hne Hab Hba)].
  intros e He. split; [apply (lwf_entry g W e He)|apply (lwf_exit g W e He)].
Qed.
Lemma nested_bool nv nid ord k g h cs : nested nv nid ord k g h cs -> bool_g g -> bool_g h.
Proof. induction 1 as [k g l E L|k g l h cs E L _ IH]; intros B; [exact B|]. apply IH, contract_bool, B. Qed.
Lemma contract_one_loop g V nv nid ord : ~ lvertex g nv -> one_loop g -> one_loop (contract g V nv nid ord).
Proof.
  intros F O e l He Hl El Ef Et.
  assert (X : forall e', In e' (ledges (contract g V nv nid ord)) -> lfrom e' = lto e' -> e' = loop_edge g V nv nid \/ (In e' (ledges g) /\ lfrom e' <> nv)).
  { intros e' He' Q. assert (Fr : forall x, In x (ledges g) -> lfrom x <> nv) by (intros x Hx Y; apply F; rewrite <- Y; right; right; eauto). assert (Tr : forall x, In x (ledges g) -> lto x <> nv) by (intros x Hx Y; apply F; rewrite <- Y; right; right; eauto).
    destruct (contract_edge g V ord nv nid e' He') as [->|x Ix Vp Vq ->|x Ix Vp Vq ->|Ix Vp Vq]; cbn [out_edge in_edge lfrom lto] in Q; [left; reflexivity|symmetry in Q; destruct (Tr x Ix Q)|destruct (Fr x Ix Q)|right; split; [exact Ix|apply Fr, Ix]]. }
  assert (Ql : lfrom l = lto l) by congruence. destruct (X e He El) as [->|[Ie Ne]], (X l Hl Ql) as [->|[Il Nl]]; [reflexivity| | |apply O; assumption].
  - cbn [loop_edge lfrom] in Ef. congruence.
  - cbn [loop_edge lfrom] in Ef. congruence.
Qed.
Lemma nested_one_loop U (U1 : forall p, ~ U (vbase (locv p))) (U2 : forall p i s, ~ U (vbase (argv p i s))) (U3 : forall k s, ~ U (vbase (etaux k s))) nv nid (N1 : forall i j, nv i = nv j -> i = j) (N2 : forall i j, nid i = nid j -> i = j) ord (Ho : forall l, Permutation (ord l) l) k g h cs :
  nested nv nid ord k g h cs -> forall C, stage U nv nid k C g -> one_loop g -> one_loop h.
Proof.
  induction 1 as [k g l E L|k g l h cs E L Hn IH]; intros C S O; [exact O|].
  pose proof (loop_vertices g l (sg_wf _ _ _ _ _ _ S) E L) as Ls.
  apply (IH _ (stage_step U U1 U2 U3 nv nid N1 N2 ord Ho k C g _ S Ls)). apply contract_one_loop; [|exact O]. apply (sg_nv _ _ _ _ _ _ S k). lia.
Qed.
