(** * Well-formedness of the contracted graph, and the definitions of the contracted vertices. *)
From Coq Require Import Permutation.
From Verif Require Import Syntax Solver TransSys Graph GraphOps GraphOpsProofs GraphSem Names ListLemmas SimpleTransModel MergeModel MergeProofs LinearModel LinearProofs LinearPath ExpandProofs ContractModel ContractProofs ContractLabels ContractSem NontermProofs.
Open Scope list_scope.
Open Scope nat_scope.

Section Wf.
Variable g : lgraph.
Hypothesis W : lwf g.
Variable V : list sym.
Hypothesis NV : NoDup V.
Hypothesis NF : names_free g V.
Hypothesis ET : et_free g.
Hypothesis Vent : ~ In entry V.
Hypothesis Vexit : ~ In exit V.
Variable ord : list var -> list var.
Hypothesis Hord : forall l, Permutation (ord l) l.
Variables (nv : sym) (nid : nat).
Hypothesis Fnv : ~ lvertex g nv.
Hypothesis Fnid : forall e, In e (ledges g) -> lid e <> nid.
Notation nvv := (nv_vars g V ord).
Notation g' := (contract g V nv nid ord).

Lemma pv_nv : lpv g' nv = nvv.
Proof. cbn [lpv contract]. unfold contract_pv. rewrite Nat.eqb_refl. reflexivity. Qed.
Lemma pv_old p : p <> nv -> lpv g' p = lpv g p.
Proof. intros N. cbn [lpv contract]. unfold contract_pv. apply Nat.eqb_neq in N. rewrite N. reflexivity. Qed.
Lemma cross_id e : lid (cross_edge g V nv e) = lid e.
Proof. unfold cross_edge. destruct (mem V (lfrom e)); [reflexivity|]. destruct (mem V (lto e)); reflexivity. Qed.
Lemma vertex_down p : lvertex g' p -> p = nv \/ (lvertex g p /\ ~ In p V) .
Proof.
  intros [->|[->|[e' [He' H]]]]; [right; split; [left; reflexivity|exact Vent]|right; split; [right; left; reflexivity|exact Vexit]|].
  destruct (contract_edge g V ord nv nid e' He') as [->|e Ie Vp Vq ->|e Ie Vp Vq ->|Ie Vp Vq]; cbn [loop_edge out_edge in_edge lfrom lto] in H.
  - left. tauto.
  - destruct H as [->| ->]; [left; reflexivity|right; split; [apply to_vertex, Ie|exact Vq]].
  - destruct H as [->| ->]; [right; split; [apply from_vertex, Ie|exact Vp]|left; reflexivity].
  - destruct H as [->| ->]; right; (split; [first [apply from_vertex, Ie|apply to_vertex, Ie]|assumption]).
Qed.
Lemma clean_not_cur v : (forall b, In b nvv -> vbase v <> vbase b) -> (forall p, lvertex g p -> ~ In v (cur_vars g p)) -> forall p, lvertex g' p -> ~ In v (cur_vars g' p).
Proof.
  intros H1 H2 p Hp. apply vertex_down in Hp as [->|[Hp _]].
  - rewrite (nv_cur g V ord nv nid). intros X. apply in_map_iff in X as [b [<- Hb]]. apply (H1 b Hb). reflexivity.
  - rewrite (old_cur g V ord nv nid); [apply H2, Hp|]. intros ->. contradiction.
Qed.
Lemma contract_names p q v : In v (contract_pv g V nv ord p) -> In v (contract_pv g V nv ord q) -> p = q.
Proof.
  unfold contract_pv. destruct (Nat.eqb_spec p nv) as [->|Np], (Nat.eqb_spec q nv) as [->|Nq]; intros H1 H2; [reflexivity| | |].
  - destruct (pv_clean g V NF ord Hord q v v H2 H1). reflexivity.
  - destruct (pv_clean g V NF ord Hord p v v H1 H2). reflexivity.
  - apply (rep_disj _ (lwf_rep g W) p q v H1 H2).
Qed.
Theorem contract_wf : lwf g'.
Proof.
  split.
  - cbn [lpv contract]. split.
    + unfold contract_pv. destruct (Nat.eqb_spec entry nv) as [E|N]; [destruct (nv_entry g nv Fnv); auto|apply (rep_entry _ (lwf_rep g W))].
    + unfold contract_pv. destruct (Nat.eqb_spec exit nv) as [E|N]; [destruct (nv_exit g nv Fnv); auto|apply (rep_exit _ (lwf_rep g W))].
    + intros p v. unfold contract_pv. destruct (Nat.eqb p nv); [apply (nvv_base g V ord Hord)|apply (rep_base _ (lwf_rep g W))].
    + intros p. unfold contract_pv. destruct (Nat.eqb p nv); [apply (nvv_nodup g V NV NF ord Hord)|apply (rep_nodup _ (lwf_rep g W))].
    + apply contract_names.
  - cbn [ledges contract]. rewrite map_app, map_map. rewrite (map_ext _ lid cross_id). cbn [map loop_edge lid].
    apply FormulaProofs3.NoDup_app_intro; [|repeat constructor; intros []|].
    + pose proof (lwf_ids g W) as N. revert N. clear. induction (ledges g) as [|e es IH]; cbn; intros N; [constructor|]. inversion N as [|? ? X N']; subst.
      destruct (negb (internal V e)); [|apply IH, N']. cbn. constructor; [|apply IH, N']. intros Y. apply X. apply in_map_iff in Y as [z [Ez Hz]]. apply filter_In in Hz as [Hz _]. apply in_map_iff. eauto.
    + intros x Hx [<-|[]]. apply in_map_iff in Hx as [e [E He]]. apply filter_In in He as [He _]. apply (Fnid e He E).
  - intros e' v He' Hv. destruct (contract_edge g V ord nv nid e' He') as [->|e Ie Vp Vq ->|e Ie Vp Vq ->|Ie Vp Vq]; cbn [loop_edge out_edge in_edge lfrom lto lfla] in *.
    + cbn [vars mkOr] in Hv. rewrite (nv_cur g V ord nv nid), (nv_nxt g V ord nv nid).
      assert (X : exists t, In t (loop_parts g V 0 (ledges g)) /\ In v (vars t)).
      { apply in_lvars, Hv. }
      destruct X as [t [Ht Hvt]]. apply loop_parts_inv in Ht as [e [k [Ie [Hi ->]]]]. apply internal_spec in Hi as [Vp Vq]. unfold translate_edge in Hvt.
      apply in_lvars in Hvt as [t [Ht Hvt]]. destruct Ht as [<-|[<-|[<-|[<-|[]]]]].
      * cbn in Hvt. destruct Hvt as [<-|[]]. left. apply in_map, (loc_nvv g V ord Hord), Vp.
      * apply (f_image g W k e v) in Hvt as [Hvt|[Hvt|Hvt]].
        -- right; right. apply et_aux_in in Hvt as [j [s [-> _]]]. split; [reflexivity|]. apply clean_not_cur; [intros b; apply (et_clean g V ord Hord)|].
           intros p _ X. apply in_map_iff in X as [b [E Hb]]. apply (ET p b j s Hb). rewrite <- E. reflexivity.
        -- left. apply in_map_iff in Hvt as [b [<- Hb]]. apply in_map, (args_incl g V ord Hord _ Vp _ Hb).
        -- right; left. apply in_map_iff in Hvt as [b [<- Hb]]. apply in_map, (args_incl g V ord Hord _ Vq _ Hb).
      * cbn in Hvt. destruct Hvt as [<-|[]]. right; left. apply in_map, (loc_nvv g V ord Hord), Vq.
      * apply in_lvars in Hvt as [t [Ht Hvt]]. apply in_concat in Ht as [l [Hl Ht]]. apply in_map_iff in Hl as [u [<- Hu]]. apply in_app_iff in Ht as [Ht|Ht].
        -- destruct (Nat.eqb u (lto e)); [destruct Ht|]. destruct Ht as [<-|[]]. cbn in Hvt. destruct Hvt as [<-|[]]. right; left. apply in_map, (loc_nvv g V ord Hord), Hu.
        -- destruct (Nat.eqb u (lfrom e)); [destruct Ht|]. destruct Ht as [<-|[]]. cbn in Hvt. destruct Hvt as [<-|[]]. left. apply in_map, (loc_nvv g V ord Hord), Hu.
    + rewrite (nv_cur g V ord nv nid), (old_nxt g V ord nv nid) by (intros E; apply Fnv; rewrite <- E; apply to_vertex, Ie).
      rewrite vars_rename in Hv. apply in_map_iff in Hv as [u [<- Hu]]. apply in_lvars in Hu as [t [Ht Hu]]. destruct Ht as [<-|[<-|[]]].
      * destruct (in_dec var_dec u (cur_vars g (lfrom e))) as [I|N].
        -- left. apply (fo_cur g W e) in I. apply in_map_iff in I as [b [<- Hb]]. apply in_map, (args_incl g V ord Hord _ Vp _ Hb).
        -- rewrite (fo_out g e u N). destruct (lwf_label g W e u Ie Hu) as [X|[X|[T X]]]; [contradiction|right; left; exact X|]. right; right. split; [exact T|].
           apply clean_not_cur; [|exact X]. intros b Hb. apply (lab_clean g V NF ord Hord e u b Ie Hu Hb).
      * cbn in Hu. destruct Hu as [<-|[]]. left. rewrite (fo_out g e); [|apply (loc_not_cur g V NF ord Hord _ _ Vp)]. apply in_map, (loc_nvv g V ord Hord), Vp.
    + rewrite (nv_nxt g V ord nv nid), (old_cur g V ord nv nid) by (intros E; apply Fnv; rewrite <- E; apply from_vertex, Ie).
      apply in_lvars in Hv as [t [Ht Hv]]. destruct Ht as [<-|[<-|[<-|[]]]].
      * apply in_lvars in Hv as [t [Ht Hv]]. apply in_map_iff in Ht as [u [<- Hu]]. apply filter_In in Hu as [Hu _]. cbn in Hv. destruct Hv as [<-|[]]. right; left. apply in_map, (loc_nvv g V ord Hord), Hu.
      * cbn in Hv. destruct Hv as [<-|[]]. right; left. apply in_map, (loc_nvv g V ord Hord), Vq.
      * rewrite vars_rename in Hv. apply in_map_iff in Hv as [u [<- Hu]]. destruct (in_dec var_dec u (nxt_vars g (lto e))) as [I|N].
        -- right; left. apply (fi_nxt g W e) in I. apply in_map_iff in I as [b [<- Hb]]. apply in_map, (args_incl g V ord Hord _ Vq _ Hb).
        -- rewrite (fi_out g e u N). destruct (lwf_label g W e u Ie Hu) as [X|[X|[T X]]]; [left; exact X|contradiction|]. right; right. split; [exact T|].
           apply clean_not_cur; [|exact X]. intros b Hb. apply (lab_clean g V NF ord Hord e u b Ie Hu Hb).
    + rewrite (old_cur g V ord nv nid) by (intros E; apply Fnv; rewrite <- E; apply from_vertex, Ie). rewrite (old_nxt g V ord nv nid) by (intros E; apply Fnv; rewrite <- E; apply to_vertex, Ie).
      destruct (lwf_label g W e' v Ie Hv) as [X|[X|[T X]]]; [auto|auto|]. right; right. split; [exact T|]. apply clean_not_cur; [|exact X]. intros b Hb. apply (lab_clean g V NF ord Hord e' v b Ie Hv Hb).
  - intros e' He'. destruct (contract_edge g V ord nv nid e' He') as [->|e Ie Vp Vq ->|e Ie Vp Vq ->|Ie Vp Vq]; cbn [loop_edge out_edge in_edge lto].
    + apply (nv_entry g nv Fnv).
    + apply (lwf_entry g W e Ie).
    + apply (nv_entry g nv Fnv).
    + apply (lwf_entry g W e' Ie).
  - intros e' He'. destruct (contract_edge g V ord nv nid e' He') as [->|e Ie Vp Vq ->|e Ie Vp Vq ->|Ie Vp Vq]; cbn [loop_edge out_edge in_edge lfrom].
    + apply (nv_exit g nv Fnv).
    + apply (nv_exit g nv Fnv).
    + apply (lwf_exit g W e Ie).
    + apply (lwf_exit g W e' Ie).
Qed.
End Wf.
