(** * Hypergraphs: well-formedness, inference at the level of facts, correctness of transformations. *)
From Verif Require Import Syntax Solver Graph GraphOps GraphOpsProofs Names.
Open Scope nat_scope.

(** ** Well-formed graphs *)
(** Ids: the model shifts the ids of the code by one; id 0 stands for [static_cast<id_t>(-1)], the clause id
    of the first step of every derivation (src/Witnesses.cc). *)
Definition no_id : nat := 0.

(** Fresh variables: [renameAuxiliaries] (src/graph/ChcGraph.cc:308-314), [createAuxiliaryVariable]
    (src/graph/ChcGraph.h:318-322); both are version-zero variables. *)
Definition gaux (k : nat) (s : sort) : var := mkVar ("gaux#" ++ to_string (Z.of_nat k)) (TTime 0) s.
Definition auxg (k : nat) (s : sort) : var := mkVar ("aux#g#" ++ to_string (Z.of_nat k)) (TTime 0) s.
Lemma gaux_inj k s k' s' : gaux k s = gaux k' s' -> k = k' /\ s = s'.
Proof.
  unfold gaux. intros E. injection E as E1 E2. split; [|exact E2].
  apply (to_string_inj (Z.of_nat k) (Z.of_nat k')) in E1. lia.
Qed.
Lemma auxg_inj k s k' s' : auxg k s = auxg k' s' -> k = k' /\ s = s'.
Proof.
  unfold auxg. intros E. injection E as E1 E2. split; [|exact E2].
  apply (to_string_inj (Z.of_nat k) (Z.of_nat k')) in E1. lia.
Qed.
Lemma gaux_auxg k s k' s' : gaux k s <> auxg k' s'.
Proof. unfold gaux, auxg. intros E. discriminate E. Qed.

(** The variables of the sources and of the target of an edge; all others are auxiliary
    (src/graph/ChcGraph.cc:279-302). *)
Definition own_vars (g : hgraph) (e : hedge) : list var :=
  concat (map (src_vars g) (instances (efrom e))) ++ tgt_vars g (eto e).

(** A version of an argument of predicate [p]. *)
Definition version_of (g : hgraph) (p : sym) (v : var) : Prop :=
  exists b, In b (gpv g p) /\ ((exists i, v = src i b) \/ v = tgt b).

Record wf_graph (g : hgraph) : Prop := {
  wf_rep : rep_wf (gpv g);
  wf_from : forall e, In e (gedges g) -> efrom e <> [];
  wf_ids : NoDup (map eid (gedges g));
  wf_idlt : forall e, In e (gedges g) -> no_id < eid e /\ eid e < gfree g;
  (** auxiliary variables are not versions of arguments of any vertex *)
  wf_label : forall e v, In e (gedges g) -> In v (vars (efla e)) -> ~ In v (own_vars g e) ->
     forall p, vertex g p -> ~ version_of g p v;
  (** every edge has its own auxiliary variables *)
  wf_priv : forall e1 e2 v, In e1 (gedges g) -> In e2 (gedges g) -> eid e1 <> eid e2 ->
     In v (vars (efla e1)) -> In v (vars (efla e2)) -> In v (own_vars g e1) /\ In v (own_vars g e2);
  wf_fresh : forall e v, In e (gedges g) -> In v (vars (efla e)) ->
     (forall k s, gctr g <= k -> v <> gaux k s) /\ (forall k s, v <> auxg k s);
  (** no clause derives [true] and none uses [false] *)
  wf_entry : forall e, In e (gedges g) -> eto e <> entry;
  wf_exit : forall e, In e (gedges g) -> ~ In exit (efrom e)
}.

Lemma wf_edge_eq g e1 e2 : wf_graph g -> In e1 (gedges g) -> In e2 (gedges g) -> eid e1 = eid e2 -> e1 = e2.
Proof.
  intros W H1 H2 E. pose proof (wf_ids g W) as N. clear W. induction (gedges g) as [|e es IH]; [destruct H1|].
  cbn [map] in N. inversion N as [|? ? Hn N']; subst.
  destruct H1 as [->|H1], H2 as [->|H2]; auto.
  - exfalso. apply Hn. rewrite E. apply in_map, H2.
  - exfalso. apply Hn. rewrite <- E. apply in_map, H1.
Qed.

(** ** Facts *)
Definition prem_facts (g : hgraph) (r : valuation) (e : hedge) : list fact :=
  map (fun pi => (fst pi, args r (src_vars g pi))) (instances (efrom e)).
Lemma follows_prems g e ps f : follows g e ps f -> map fst ps = efrom e /\ fst f = eto e.
Proof.
  intros [r [_ [-> ->]]]. split; [|reflexivity]. rewrite map_map. cbn. rewrite <- (instances_fst (efrom e)) at 2. reflexivity.
Qed.

Definition dfact (g : hgraph) (f : fact) : Prop := derivable g (fst f) (snd f).
Lemma dfact_follows g e ps f : In e (gedges g) -> follows g e ps f -> Forall (dfact g) ps -> dfact g f.
Proof.
  intros He [r [Hl [-> ->]]] H. unfold dfact. cbn [fst snd]. apply der_edge; auto.
  intros p i Hpi. rewrite Forall_forall in H. apply (H (p, args r (src_vars g (p, i)))).
  apply in_map_iff. exists (p, i). auto.
Qed.
Lemma dfact_entry g : dfact g (entry, []).
Proof. constructor. Qed.
(** Induction on facts. *)
Lemma dfact_ind g (P : fact -> Prop) : P (entry, []) ->
  (forall e ps f, In e (gedges g) -> follows g e ps f -> Forall (dfact g) ps -> Forall P ps -> P f) ->
  forall f, dfact g f -> P f.
Proof.
  intros H0 HS [p vs] D. unfold dfact in D. cbn [fst snd] in D. induction D as [|e r He Hd IH Hl]; [exact H0|].
  apply (HS e (prem_facts g r e)); [exact He|exists r; auto| |].
  - apply Forall_forall. intros x Hx. apply in_map_iff in Hx as [[q i] [<- Hx]]. apply Hd, Hx.
  - apply Forall_forall. intros x Hx. apply in_map_iff in Hx as [[q i] [<- Hx]]. apply IH, Hx.
Qed.
(** Transfer between graphs with the same inferences. *)
Lemma derivable_sim g g' :
  (forall e ps f, In e (gedges g) -> follows g e ps f -> Forall (dfact g') ps -> dfact g' f) ->
  forall f, dfact g f -> dfact g' f.
Proof. intros H f D. apply (dfact_ind g (dfact g')) in D; auto. - constructor. - intros. eapply H; eauto. Qed.

(** ** Solutions at the level of facts *)
Definition wtrue (g : hgraph) (w : defs_t) (f : fact) : Prop :=
  exists d, w (fst f) = Some d /\ forall r, args r (gpv g (fst f)) = snd f -> holds r d.
Definition wvars (g : hgraph) (w : defs_t) : Prop := forall p d, w p = Some d -> forall v, In v (vars d) -> In v (gpv g p).

Lemma wtrue_args g w p r f : wvars g w -> sort_preserving f ->
  (wtrue g w (p, args r (map f (gpv g p))) <-> exists d, w p = Some d /\ holds r (rename f d)).
Proof.
  intros V Hf. unfold wtrue. cbn [fst snd]. split; intros [d [E H]]; exists d; (split; [exact E|]).
  - refine (proj1 (as_interp_args g w p d r f Hf E (V _ _ E)) _). intros r' d' Ha Hd. rewrite E in Hd. injection Hd as <-. auto.
  - intros r' Ha. pose proof (proj2 (as_interp_args g w p d r f Hf E (V _ _ E)) H) as H'. apply (H' r' d Ha E).
Qed.
Lemma wtrue_src g w p i r : wvars g w -> (wtrue g w (p, args r (src_vars g (p, i))) <-> exists d, w p = Some d /\ holds r (rename (src i) d)).
Proof. intros V. apply wtrue_args; [exact V|apply src_sort]. Qed.
Lemma wtrue_tgt g w p r : wvars g w -> (wtrue g w (p, args r (tgt_vars g p)) <-> exists d, w p = Some d /\ holds r (rename tgt d)).
Proof. intros V. apply wtrue_args; [exact V|apply tgt_sort]. Qed.

Lemma solution_facts g w : solution g w <->
  wvars g w /\ (exists d, w entry = Some d /\ forall r, holds r d) /\ (exists d, w exit = Some d /\ forall r, ~ holds r d) /\
  forall e, In e (gedges g) -> (forall p, In p (efrom e) -> w p <> None) /\ w (eto e) <> None /\
    forall ps f, follows g e ps f -> Forall (wtrue g w) ps -> wtrue g w f.
Proof.
  split.
  - intros [V E0 E1 HE]. split; [exact V|]. split; [exact E0|]. split; [exact E1|]. intros e He.
    destruct (HE e He) as [Hd [dt [Et Ht]]]. split; [exact Hd|]. split; [congruence|].
    intros ps f [r [Hl [-> ->]]] Hp. apply wtrue_tgt; [exact V|]. exists dt. split; [exact Et|]. apply Ht; [exact Hl|].
    intros p i d Hpi Hw. rewrite Forall_forall in Hp. specialize (Hp (p, args r (src_vars g (p, i)))).
    destruct (proj1 (wtrue_src g w p i r V)) as [d' [E' H']].
    + apply Hp. apply in_map_iff. exists (p, i). auto.
    + congruence.
  - intros [V [E0 [E1 HE]]]. split; [exact V|exact E0|exact E1|]. intros e He. destruct (HE e He) as [Hd [Ht HF]].
    split; [exact Hd|]. destruct (w (eto e)) as [dt|] eqn:Et; [|congruence]. exists dt. split; [reflexivity|].
    intros r Hl Hs. destruct (proj1 (wtrue_tgt g w (eto e) r V)) as [d' [E' H']]; [|congruence].
    apply (HF (prem_facts g r e)); [exists r; auto|]. apply Forall_forall. intros x Hx.
    apply in_map_iff in Hx as [[p i] [<- Hx]]. cbn [fst]. apply wtrue_src; [exact V|].
    destruct (w p) as [d|] eqn:Ep; [|destruct (Hd p); [eapply in_instances; eauto|exact Ep]].
    exists d. split; [reflexivity|]. eapply Hs; eauto.
Qed.

(** ** Correct transformations *)
(** Definitions for vertices of the graph only. *)
Definition only (g : hgraph) (w : defs_t) : Prop := forall p, w p <> None -> vertex g p.
(** Derivations of [false]: the first step has no clause, [false] is derived by the last step only. *)
Record error_derivation (g : hgraph) (d : derivation) : Prop := {
  ed_ref : refutation g d;
  ed_first : option_map st_clause (nth_error d 0) = Some no_id;
  ed_last : forall i s, nth_error d i = Some s -> fst (st_fact s) = exit -> S i = length d
}.

(** Back translations of the two kinds of witness; [None]: an exception (or an empty witness). *)
Definition backV := defs_t -> option defs_t.
Definition backI := derivation -> option derivation.

Record correct (g g' : hgraph) (bv : backV) (bi : backI) : Prop := {
  cor_verdict : derivable g exit [] <-> derivable g' exit [];
  cor_valid : forall w w', solution g' w -> only g' w -> bv w = Some w' -> solution g w' /\ only g w';
  cor_invalid : forall d d', error_derivation g' d -> bi d = Some d' -> error_derivation g d'
}.

(** Error derivations move along sub-graphs. *)
Lemma error_derivation_sub g g' d : gpv g' = gpv g -> (forall e, In e (gedges g') -> In e (gedges g)) ->
  error_derivation g' d -> error_derivation g d.
Proof.
  intros Hp He [[H0 H1 H2] H3 H4]. split; [split|..]; auto.
  intros i s Hi Hs. destruct (H2 i s Hi Hs) as [e [ps [Hin [Hc [Hf [r Hr]]]]]]. exists e, ps. split; [auto|]. split; [exact Hc|].
  split; [exact Hf|]. exists r. unfold src_vars, tgt_vars in *. rewrite Hp in Hr. exact Hr.
Qed.
Lemma derivable_sub g g' : gpv g' = gpv g -> (forall e, In e (gedges g') -> In e (gedges g)) ->
  forall f, dfact g' f -> dfact g f.
Proof.
  intros Hp He f D. apply (dfact_ind g' (dfact g)) in D; auto; [constructor|].
  intros e ps f' Hin [r Hr] _ H. apply (dfact_follows g e ps); auto. exists r.
  unfold src_vars, tgt_vars in *. rewrite Hp in Hr. exact Hr.
Qed.

(** Removing edges keeps a graph well-formed. *)
Lemma NoDup_map_filter {A B} (f : A -> B) (P : A -> bool) l : NoDup (map f l) -> NoDup (map f (filter P l)).
Proof.
  induction l as [|x l IH]; [auto|]. cbn [map filter]. intros N. inversion N as [|? ? Hn N']; subst.
  destruct (P x); [|auto]. cbn [map]. constructor; [|auto]. intros H. apply Hn.
  apply in_map_iff in H as [y [E H]]. apply filter_In in H as [H _]. rewrite <- E. apply in_map, H.
Qed.
Definition filter_edges (P : hedge -> bool) (g : hgraph) : hgraph :=
  mkGraph (filter P (gedges g)) (gpv g) (gfree g) (gctr g).
Lemma vertex_filter P g p : vertex (filter_edges P g) p -> vertex g p.
Proof.
  unfold vertex, vertex_in. intros [H|[H|[e [He H]]]]; auto. apply filter_In in He as [He _]. eauto.
Qed.
Lemma own_vars_pv g g' e : gpv g' = gpv g -> own_vars g' e = own_vars g e.
Proof. intros H. unfold own_vars, src_vars, tgt_vars. rewrite H. reflexivity. Qed.
Lemma wf_filter P g : wf_graph g -> wf_graph (filter_edges P g).
Proof.
  intros W. assert (S : forall e, In e (gedges (filter_edges P g)) -> In e (gedges g)).
  { intros e He. apply filter_In in He. tauto. }
  assert (O : forall e, own_vars (filter_edges P g) e = own_vars g e) by (intros e; apply own_vars_pv; reflexivity).
  split.
  - apply (wf_rep g W).
  - intros e He. apply (wf_from g W), S, He.
  - apply NoDup_map_filter, (wf_ids g W).
  - intros e He. apply (wf_idlt g W), S, He.
  - intros e v He Hv Ho p Hp. rewrite O in Ho. apply (wf_label g W e v (S e He) Hv Ho p). apply (vertex_filter P g p Hp).
  - intros e1 e2 v H1 H2. rewrite !O. apply (wf_priv g W); auto.
  - intros e v He. apply (wf_fresh g W); auto.
  - intros e He. apply (wf_entry g W), S, He.
  - intros e He. apply (wf_exit g W), S, He.
Qed.
