(** * Chain summarization: solutions are always translated when every vertex is reachable. *)
From Verif Require Import Syntax Solver TransSys Graph GraphOps GraphOpsProofs ValidatorModel FormulaModel GraphSem SimpleTransModel UnreachProofs UnreachProofs2 SimpleTransProofs SimpleTransProofs2 ListLemmas MergeModel MergeProofs ChainProofs ChainStep ChainBack.
Open Scope nat_scope.

(** Reachable from [true] along edges (of a hyperedge: from one of the sources). *)
Inductive connected (g : hgraph) : sym -> Prop :=
| conn_entry : connected g entry
| conn_edge e p : In e (gedges g) -> In p (efrom e) -> connected g p -> connected g (eto e).

Section Step.
Variable elim : elim_fn.
Hypothesis Helim : elim_ok elim.
Variable g : hgraph.
Hypothesis W : wf_graph g.
Variable c : list hedge.
Let g' := fst (contract_chain elim g c).
Let se := snd (contract_chain elim g c).
Lemma no_circle : full_circle g c -> (forall v, vertex g v -> connected g v) -> False.
Proof.
  intros FC Cn. assert (X : forall v, connected g v -> ~ In v (mids c)).
  { intros v Hv. induction Hv as [|e p He Hp _ IH]; [apply (circle_entry g W c FC)|]. intros X.
    destruct (fc_pred g c FC e He X) as [q [Fq Hq]]. rewrite Fq in Hp. destruct Hp as [<-|[]]. exact (IH Hq). }
  pose proof (fc_source g c FC) as S. destruct (mids_in _ _ S) as [e [He E]]. apply (X (chain_source c)); [|exact S].
  apply Cn. rewrite <- E. apply vertex_tgt, (fc_edges g c FC e He).
Qed.
Hypothesis CT : contractible g c.
Let C := ct_ok g c CT.
Lemma contract_connected v : connected g v -> (~ In v (mids c) -> connected g' v) /\ (In v (mids c) -> connected g' (chain_source c)).
Proof.
  intros H. induction H as [|e p He Hp _ [IH1 IH2]].
  - split; [constructor|]. intros X. exfalso. exact (mid_entry g W c CT X).
  - destruct (in_chain_dec g W c CT e He) as [X|X].
    + destruct (linked_ends _ c e (co_linked g c C) X) as [[q [Q1 Q2]] Q3]. rewrite Q1 in Hp. destruct Hp as [<-|[]].
      assert (S : connected g' (chain_source c)).
      { destruct Q2 as [Q2|Q2]; [|apply IH2, Q2]. rewrite Q2. apply IH1. rewrite <- Q2. exact (F_mid g c CT). }
      split; [|intros _; exact S]. intros N. destruct Q3 as [Q3|Q3]; [contradiction|]. rewrite Q3.
      change (chain_target c) with (eto se). apply (conn_edge g' se (chain_source c)); [apply (se_in elim g c CT)|left; reflexivity|exact S].
    + pose proof (kept elim g c CT e He X) as K. split.
      * intros _. apply (conn_edge g' e p K Hp). apply IH1. intros Y. exact (X (ct_out g c CT e p He Hp Y)).
      * intros Y. exfalso. exact (X (ct_in g c CT e He Y)).
Qed.

Lemma to_src_follows (r : valuation) e p : efrom e = [p] -> holds r (to_src g e) ->
  follows g e [(p, args r (src_vars g (p, 0)))] (eto e, args r (src_vars g (eto e, 0))).
Proof.
  intros E H. unfold to_src in H. pose proof (tosrc_sort g [eto e]) as TS. apply (holds_rename _ r _ TS) in H.
  apply (follows_single g e p _ _ E). exists (fun v => r (tosrc g [eto e] v)). split; [exact H|]. split; f_equal.
  - unfold src_vars, args. cbn [fst snd]. rewrite !map_map. apply map_ext_in. intros b Hb.
    pose proof (eval_var_ren (tosrc g [eto e]) r (src 0 b) TS) as X. etransitivity; [|symmetry; exact X]. rewrite tosrc_src. reflexivity.
  - unfold src_vars, tgt_vars, args. cbn [fst snd]. rewrite !map_map. apply map_ext_in. intros b Hb.
    pose proof (eval_var_ren (tosrc g [eto e]) r (tgt b) TS) as X. etransitivity; [|symmetry; exact X].
    rewrite (tosrc_in g (wf_rep g W) [eto e] (eto e) b); [reflexivity|left; reflexivity|exact Hb].
Qed.
Lemma src_runs (r : valuation) c0 : forall s, linked s c0 -> (forall e, In e c0 -> holds r (to_src g e)) ->
  runs g c0 (s, args r (src_vars g (s, 0))) (map (fun e => (eto e, args r (src_vars g (eto e, 0)))) c0).
Proof.
  induction c0 as [|e c0 IH]; intros s L H; [exact I|]. destruct L as [E L]. cbn [map runs]. split.
  - apply to_src_follows; [exact E|]. apply H. left. reflexivity.
  - apply IH; [exact L|]. intros x Hx. apply H. right. exact Hx.
Qed.
Lemma last_map {A B} (f : A -> B) l d d' : l <> [] -> last (map f l) d' = f (last l d).
Proof. induction l as [|a [|b l] IH]; [congruence|reflexivity|]. intros _. change (last (map f (b :: l)) d' = f (last (b :: l) d)). apply IH. discriminate. Qed.

Lemma parts_in ds dt t : t = rename (src 0) ds \/ In t (map (to_src g) c) \/ t = mkNot (rename (src 0) dt) -> In t (concat (chain_parts g c ds dt)).
Proof.
  unfold chain_parts. assert (E : map (fun e => rename (vlookup (to_source_map g (eto e))) (efla e)) c = map (to_src g) c) by (apply map_ext; intros; apply to_src_eq).
  rewrite E. pose proof (co_len g c C) as Len. assert (Ll : length (map (to_src g) c) = length c) by apply map_length.
  destruct (map (to_src g) c) as [|l1 [|l2 lr]]; cbn [length] in Ll; try lia. clear.
  assert (X : forall t0, In t0 (l2 :: lr) -> In t0 (concat (map (fun x => [x]) (removelast (l2 :: lr)))) \/ t0 = last (l2 :: lr) l1).
  { intros t0 H. rewrite (app_removelast_last l1 (l := l2 :: lr)) in H by discriminate. apply in_app_iff in H as [H|[H|[]]]; [left|right; congruence].
    apply in_concat. exists [t0]. split; [apply in_map_iff; eauto|left; reflexivity]. }
  intros H. cbn [concat app]. rewrite concat_app. cbn [concat app In].
  destruct H as [H|[[H|H]|H]]; [auto|auto| |].
  - apply X in H. right. right. apply in_app_iff. destruct H as [H|H]; [left; exact H|right; left; congruence].
  - right. right. apply in_app_iff. right. right. left. congruence.
Qed.
Lemma parts_unsat w ds dt : solution g' w -> w (chain_source c) = Some ds -> w (chain_target c) = Some dt -> unsat (concat (chain_parts g c ds dt)).
Proof.
  intros Sw Es Et r H. rewrite Forall_forall in H.
  assert (PV : gpv g' = gpv g) by apply pv_contract.
  apply solution_facts in Sw as [V [_ [_ HE]]]. assert (V' : wvars g w) by (intros p d Hd v Hv; rewrite <- PV; eapply V; eauto).
  destruct (HE se (se_in elim g c CT)) as [_ [_ HF]].
  set (F := chain_source c) in *. set (T := chain_target c) in *.
  pose proof (src_runs r c F (co_linked g c C)) as HR. 
  assert (HR' : runs g c (F, args r (src_vars g (F, 0))) (map (fun e => (eto e, args r (src_vars g (eto e, 0)))) c)).
  { apply HR. intros e He. apply H, parts_in. right. left. apply in_map, He. }
  assert (Fo : follows g se [(F, args r (src_vars g (F, 0)))] (T, args r (src_vars g (T, 0)))).
  { apply (se_follows elim Helim g W c CT). eexists. split; [exact HR'|]. rewrite (last_map _ c se) by apply (ne g c CT). unfold T. rewrite (target_last c se (ne g c CT)). reflexivity. }
  rewrite <- (follows_pv g g' se _ _ PV) in Fo. specialize (HF _ _ Fo).
  assert (Tr : wtrue g w (T, args r (src_vars g (T, 0)))).
  { assert (X : forall f, wtrue g' w f <-> wtrue g w f) by (intros f; unfold wtrue; rewrite PV; tauto). apply X, HF. constructor; [|constructor]. apply X.
    apply (wtrue_src g w F 0 r V'). exists ds. split; [exact Es|]. apply H, parts_in. auto. }
  apply (wtrue_src g w T 0 r V') in Tr as [dt' [Et' Ht]]. rewrite Et in Et'. injection Et' as <-.
  assert (Hn : holds r (mkNot (rename (src 0) dt))) by (apply H, parts_in; auto). apply holds_not in Hn. contradiction.
Qed.
Lemma add_defs_total l : forall w, NoDup (map fst l) -> (forall p, In p (map fst l) -> w p = None) -> add_defs l w <> None.
Proof.
  induction l as [|[p d] l IH]; intros w N H; [discriminate|]. cbn [add_defs]. rewrite H by (left; reflexivity). cbn [map fst] in N. inversion N as [|? ? Hn N']; subst.
  apply IH; [exact N'|]. intros q Hq. unfold wset. destruct (Nat.eqb_spec q p) as [->|]; [contradiction|]. apply H. right. exact Hq.
Qed.
Lemma combine_fst_prefix {A B} (la : list A) (lb : list B) : exists rest, la = map fst (combine la lb) ++ rest.
Proof. revert lb. induction la as [|a la IH]; intros [|b lb]; cbn; [exists []; reflexivity|exists []; reflexivity|eexists; reflexivity|]. destruct (IH lb) as [r E]. exists r. f_equal. exact E. Qed.
Theorem step_valid_total check pitp w : check_ok check -> decisive check -> (forall As, unsat (concat As) -> pitp As <> None) ->
  solution g' w -> only g' w -> back_chain_valid check pitp g (c, se) w <> None.
Proof.
  intros Hc Hd Hp Sw Ow. unfold back_chain_valid. cbn [fst snd]. change (hd entry (efrom se)) with (chain_source c). change (eto se) with (chain_target c).
  pose proof (proj1 (solution_facts g' w) Sw) as [V [_ [_ HE]]]. destruct (HE se (se_in elim g c CT)) as [N1 [N2 _]].
  destruct (w (chain_source c)) as [ds|] eqn:Es; [|exfalso; apply (N1 (chain_source c)); [left; reflexivity|exact Es]].
  destruct (w (chain_target c)) as [dt|] eqn:Et; [|exfalso; apply N2; exact Et].
  pose proof (parts_unsat w ds dt Sw Es Et) as U. destruct (check (concat (chain_parts g c ds dt))) as [m| |] eqn:Ek.
  - exfalso. exact (U m (check_sat check Hc _ _ Ek)).
  - destruct (pitp (chain_parts g c ds dt)) as [js|] eqn:Ep; [|exfalso; exact (Hp _ U Ep)].
    destruct (combine_fst_prefix (mids c) (map (rename untag) js)) as [rest Er].
    pose proof (co_nodup g c C) as ND. inversion ND as [|? ? _ ND']; subst. apply add_defs_total.
    + rewrite Er in ND'. clear - ND'. induction (map fst (combine (mids c) (map (rename untag) js))) as [|a l IH]; [constructor|]. cbn [app] in ND'. inversion ND' as [|? ? Hn N]; subst.
      constructor; [|auto]. intros X. apply Hn. apply in_app_iff. auto.
    + intros p Hp'. assert (M : In p (mids c)) by (rewrite Er; apply in_app_iff; auto). destruct (w p) eqn:Ew; [|reflexivity]. exfalso.
      assert (Vx : vertex g' p) by (apply Ow; congruence). apply (contract_vertex elim g W c CT) in Vx as [_ X]. exact (X M).
  - exfalso. exact (Hd _ Ek).
Qed.
End Step.

Section Loop.
Variable elim : elim_fn.
Hypothesis Helim : elim_ok elim.
Variable check : check_fn.
Hypothesis Hck : check_ok check.
Hypothesis Hdec : decisive check.
Variable pitp : pitp_fn.
Hypothesis Hpitp : pitp_ok pitp.
Hypothesis Hptot : forall As, unsat (concat As) -> pitp As <> None.
Variable vertices : hgraph -> list sym.
Theorem loop_valid_total fuel : forall g g' cs, wf_graph g -> (forall v, vertex g v -> connected g v) -> summarize_loop elim vertices fuel g = Some (g', cs) ->
  forall w, solution g' w -> only g' w -> back_all (rev (map (back_chain_valid check pitp g) cs)) w <> None.
Proof.
  induction fuel as [|fuel IH]; intros g g' cs W Cn H w Sw Ow; [discriminate|]. cbn [summarize_loop] in H.
  destruct (find (is_trivial g) (vertices g)) as [v|] eqn:Ev; [|injection H as <- <-; discriminate].
  apply find_some in Ev as [_ Tv]. destruct (trivial_chain g v) as [ids|] eqn:Ec; [|discriminate].
  destruct (trivial_chain_ok g W v ids Tv Ec) as [c [-> [Em CF]]]. rewrite Em in H.
  destruct CF as [CT|FC]; [|exfalso; exact (no_circle g W c FC Cn)].
  destruct (contract_chain elim g c) as [g1 se] eqn:EC. destruct (summarize_loop elim vertices fuel g1) as [[g2 cs2]|] eqn:EL; [|discriminate].
  cbn in H. injection H as <- <-.
  assert (Eg1 : g1 = fst (contract_chain elim g c)) by (rewrite EC; reflexivity).
  assert (Ese : se = snd (contract_chain elim g c)) by (rewrite EC; reflexivity).
  assert (W1 : wf_graph g1) by (rewrite Eg1; apply contract_wf; assumption).
  assert (PV1 : gpv g1 = gpv g) by (rewrite Eg1; apply pv_contract).
  assert (Cn1 : forall p, vertex g1 p -> connected g1 p).
  { intros p Hp. rewrite Eg1 in *. apply (contract_vertex elim g W c CT) in Hp as [Hp Np]. apply (contract_connected elim g W c CT p (Cn p Hp)); exact Np. }
  cbn [map rev]. unfold backV. rewrite back_all_snoc. rewrite (back_all_ext _ (rev (map (back_chain_valid check pitp g1) cs2))).
  2:{ apply Forall2_rev'. clear - PV1. induction cs2 as [|ce cs2 IH]; cbn [map]; constructor; [|exact IH]. intros a. symmetry. apply back_chain_valid_pv, PV1. }
  pose proof (IH g1 g2 cs2 W1 Cn1 EL w Sw Ow) as X. destruct (back_all (rev (map (back_chain_valid check pitp g1) cs2)) w) as [w1|] eqn:E1; [|congruence].
  destruct (li_valid _ _ _ _ _ _ (loop_ok elim Helim check pitp Hpitp vertices fuel g1 g2 cs2 W1 EL) w w1 Sw Ow E1) as [Sw1 Ow1].
  rewrite Ese. rewrite Eg1 in Sw1, Ow1. apply (step_valid_total elim Helim g W c CT check pitp w1 Hck Hdec Hptot Sw1 Ow1).
Qed.
End Loop.
