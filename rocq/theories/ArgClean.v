(** * Predicate abstraction: the cleaning of the auxiliary variables. *)
From Verif Require Import Syntax Solver Graph GraphOps GraphOpsProofs ValidatorModel Names GraphSem SimpleTransModel UnreachProofs ReverseProofs SimpleTransProofs SimplifierProofs EntailModel PdkModel SpacerModel ArgModel.
Open Scope list_scope.
Open Scope nat_scope.

(** [true] is a source of facts only. *)
Definition entry_alone (g : hgraph) : Prop := forall e, In e (gedges g) -> In entry (efrom e) -> efrom e = [entry].
(** The names of the local variables are reserved. *)
Definition paux_name (v : var) : Prop := exists k, vbase v = ("paux#" ++ to_string (Z.of_nat k))%string.
Definition paux_free (g : hgraph) : Prop := forall p v, In v (gpv g p) -> ~ paux_name v.

(** What the engine needs of the graph. *)
Record arg_wf (h : hgraph) : Prop := {
  aw_rep : rep_wf (gpv h);
  aw_ids : NoDup (map eid (gedges h));
  aw_from : forall e, In e (gedges h) -> efrom e <> [];
  aw_entry : forall e, In e (gedges h) -> eto e <> entry;
  aw_exit : forall e, In e (gedges h) -> ~ In exit (efrom e);
  aw_alone : entry_alone h;
  aw_paux : paux_free h;
  aw_vars : forall e v, In e (gedges h) -> In v (vars (efla e)) -> In v (own_vars h e) \/ (vtag v = TBase /\ paux_name v)
}.

Lemma paux_inj k s k' s' : paux k s = paux k' s' -> k = k'.
Proof. unfold paux. intros E. injection E as E1. apply (to_string_inj (Z.of_nat k) (Z.of_nat k')) in E1. lia. Qed.
Lemma index_of_some v l i : index_of v l = Some i -> nth_error l i = Some v.
Proof.
  revert i. induction l as [|x l IH]; intros i; cbn [index_of]; [discriminate|]. destruct (var_eqb_spec v x) as [->|N].
  - intros E. injection E as <-. reflexivity.
  - destruct (index_of v l) as [j|] eqn:E; [|discriminate]. intros H. injection H as <-. cbn. apply IH. reflexivity.
Qed.
Lemma index_of_in v l : In v l -> exists i, index_of v l = Some i.
Proof.
  induction l as [|x l IH]; intros H; [destruct H|]. cbn [index_of]. destruct (var_eqb_spec v x) as [->|N]; [eauto|].
  destruct H as [->|H]; [contradiction|]. destruct (IH H) as [i ->]. cbn. eauto.
Qed.
Lemma paux_ren_sort k l : sort_preserving (paux_ren k l).
Proof. intros v. unfold paux_ren. destruct (index_of v l); reflexivity. Qed.

Section Clean.
Variable elim : elim_fn.
Hypothesis He : elim_ok elim.
Variable g : hgraph.

Definition mid_label (e : hedge) : term := elim (fun v => inb v (own_vars g e)) (efla e).
Definition clean_edge (k : nat) (e : hedge) : hedge :=
  mkEdge (eid e) (efrom e) (eto e) (rename (paux_ren k (locals g e (mid_label e))) (mid_label e)).
Lemma clean_edges_in es : forall k e', In e' (clean_edges elim g k es) -> exists j e, In e es /\ e' = clean_edge j e.
Proof.
  induction es as [|e es IH]; intros k e' H; [destruct H|]. cbn [clean_edges] in H. destruct H as [<-|H].
  - exists k, e. split; [left; reflexivity|reflexivity].
  - apply IH in H as [j [e0 [H ->]]]. exists j, e0. split; [right; exact H|reflexivity].
Qed.
Lemma in_clean_edges es : forall k e, In e es -> exists j, In (clean_edge j e) (clean_edges elim g k es).
Proof.
  induction es as [|e0 es IH]; intros k e H; [destruct H|]. cbn [clean_edges]. destruct H as [->|H]; [exists k; left; reflexivity|].
  destruct (IH (k + length (locals g e0 (mid_label e0))) e H) as [j Hj]. exists j. right. exact Hj.
Qed.
Lemma clean_eids es : forall k, map eid (clean_edges elim g k es) = map eid es.
Proof. induction es as [|e es IH]; intros k; cbn [clean_edges map eid]; [reflexivity|]. f_equal. apply IH. Qed.

Lemma locals_spec e t v : In v (locals g e t) <-> In v (vars t) /\ ~ In v (own_vars g e).
Proof.
  unfold locals. rewrite nodup_In, filter_In. rewrite negb_true_iff. split; intros [A B]; (split; [exact A|]).
  - intros H. apply inb_true in H. congruence.
  - destruct (inb v (own_vars g e)) eqn:E; [|reflexivity]. exfalso. apply B. apply inb_true, E.
Qed.
Lemma own_fixed k e t v : In v (own_vars g e) -> paux_ren k (locals g e t) v = v.
Proof.
  intros H. unfold paux_ren. destruct (index_of v _) as [i|] eqn:E; [|reflexivity]. apply index_of_some, nth_error_In, locals_spec in E as [_ E]. contradiction.
Qed.
Lemma ren_local k e t v : In v (vars t) -> ~ In v (own_vars g e) -> exists i, index_of v (locals g e t) = Some i /\ paux_ren k (locals g e t) v = paux (k + i) (vsort v).
Proof.
  intros H N. destruct (index_of_in v (locals g e t)) as [i E]; [apply locals_spec; auto|]. exists i. split; [exact E|]. unfold paux_ren. rewrite E. reflexivity.
Qed.
Lemma ren_inj k e t a b : In a (vars t ++ own_vars g e) -> In b (vars t ++ own_vars g e) ->
  paux_ren k (locals g e t) a = paux_ren k (locals g e t) b -> a = b.
Proof.
  intros Ha Hb. rewrite in_app_iff in Ha, Hb.
  destruct (inb a (own_vars g e)) eqn:Oa; [apply (proj1 (inb_true _ _)) in Oa|].
  all: destruct (inb b (own_vars g e)) eqn:Ob; [apply (proj1 (inb_true _ _)) in Ob|].
  - rewrite !own_fixed by assumption. auto.
  - assert (N : ~ In b (own_vars g e)) by (intros X; apply inb_true in X; congruence). destruct Hb as [Hb|Hb]; [|contradiction].
    destruct (ren_local k e t b Hb N) as [i [_ ->]]. rewrite own_fixed by exact Oa. intros ->. apply own_tag in Oa as [[j X]|X]; discriminate X.
  - assert (N : ~ In a (own_vars g e)) by (intros X; apply inb_true in X; congruence). destruct Ha as [Ha|Ha]; [|contradiction].
    destruct (ren_local k e t a Ha N) as [i [_ ->]]. rewrite own_fixed by exact Ob. intros <-. apply own_tag in Ob as [[j X]|X]; discriminate X.
  - assert (Na : ~ In a (own_vars g e)) by (intros X; apply inb_true in X; congruence). assert (Nb : ~ In b (own_vars g e)) by (intros X; apply inb_true in X; congruence).
    destruct Ha as [Ha|Ha]; [|contradiction]. destruct Hb as [Hb|Hb]; [|contradiction].
    destruct (ren_local k e t a Ha Na) as [i [Ei ->]]. destruct (ren_local k e t b Hb Nb) as [j [Ej ->]]. intros E. apply paux_inj in E. assert (i = j) by lia. subst j.
    apply index_of_some in Ei, Ej. congruence.
Qed.

Let h := clean elim g.
Theorem clean_follows k e ps f : follows g e ps f <-> follows h (clean_edge k e) ps f.
Proof.
  set (L := vars (mid_label e) ++ own_vars g e). set (s := paux_ren k (locals g e (mid_label e))).
  split.
  - intros [r [Hl [-> ->]]]. destruct (proj1 (proj2 (He (fun v => inb v (own_vars g e)) (efla e)) r)) as [r2 [A2 H2]]; [exists r; auto|].
    destruct (unrename s L r2 (ren_inj k e (mid_label e))) as [r3 A3]. exists r3. cbn [clean_edge efla efrom eto]. split.
    + apply holds_rename; [apply paux_ren_sort|]. apply (holds_agree r2); [|exact H2]. intros v Hv. symmetry. apply A3. apply in_app_iff. auto.
    + destruct (args_own g e r r3) as [E1 E2]; [|split; [exact E1|f_equal; exact E2]].
      intros v Hv. assert (X := A3 v). unfold s in X. rewrite (own_fixed k e _ v Hv) in X. rewrite X by (apply in_app_iff; auto). rewrite A2 by (apply inb_true, Hv). reflexivity.
  - intros [r3 [Hl [-> ->]]]. cbn [clean_edge efla efrom eto] in *. apply (proj1 (holds_rename _ r3 _ (paux_ren_sort _ _))) in Hl.
    destruct (proj2 (proj2 (He (fun v => inb v (own_vars g e)) (efla e)) (fun v => r3 (s v)))) as [r1 [A1 H1]]; [eexists; split; [reflexivity|exact Hl]|].
    exists r1. split; [exact H1|]. destruct (args_own g e r1 r3) as [E1 E2]; [|split; [symmetry; exact E1|f_equal; symmetry; exact E2]].
    intros v Hv. rewrite A1 by (apply inb_true, Hv). unfold s. rewrite (own_fixed k e _ v Hv). reflexivity.
Qed.
Lemma clean_in e' : In e' (gedges h) -> exists k e, In e (gedges g) /\ e' = clean_edge k e.
Proof. apply clean_edges_in. Qed.
Theorem clean_derivable f : dfact g f <-> dfact h f.
Proof.
  split.
  - apply (dfact_ind g (dfact h)); [constructor|]. intros e ps f0 Hin F _ IH. destruct (in_clean_edges (gedges g) 0 e Hin) as [k Hk].
    apply (dfact_follows h (clean_edge k e) ps); [exact Hk| |exact IH]. apply clean_follows, F.
  - apply (dfact_ind h (dfact g)); [constructor|]. intros e' ps f0 Hin F _ IH. apply clean_in in Hin as [k [e [Hin ->]]].
    apply (dfact_follows g e ps); auto. apply (clean_follows k e ps f0), F.
Qed.
Theorem clean_solution w : solution h w -> solution g w.
Proof.
  rewrite !solution_facts. intros [V [E0 [E1 H]]]. split; [exact V|split; [exact E0|split; [exact E1|]]].
  intros e Hin. destruct (in_clean_edges (gedges g) 0 e Hin) as [k Hk]. destruct (H _ Hk) as [A [B C]]. split; [exact A|]. split; [exact B|].
  intros ps f F. apply C. apply clean_follows, F.
Qed.
Theorem clean_refutation d : refutation h d -> refutation g d.
Proof.
  intros [R0 R1 R2]. split; auto. intros i s Hi Hs. destruct (R2 i s Hi Hs) as [e' [ps [Hin [Hid [HF HL]]]]].
  apply clean_in in Hin as [k [e [Hin ->]]]. exists e, ps. split; [exact Hin|]. split; [exact Hid|]. split; [exact HF|]. apply (clean_follows k e ps _), HL.
Qed.
Theorem clean_wf : wf_graph g -> entry_alone g -> paux_free g -> arg_wf h.
Proof.
  intros W Al Pf. split.
  - apply (wf_rep g W).
  - unfold h, clean. cbn [gedges]. rewrite clean_eids. apply (wf_ids g W).
  - intros e' H. apply clean_in in H as [k [e [H ->]]]. apply (wf_from g W e H).
  - intros e' H. apply clean_in in H as [k [e [H ->]]]. apply (wf_entry g W e H).
  - intros e' H. apply clean_in in H as [k [e [H ->]]]. apply (wf_exit g W e H).
  - intros e' H. apply clean_in in H as [k [e [H ->]]]. apply (Al e H).
  - exact Pf.
  - intros e' v H. apply clean_in in H as [k [e [H ->]]]. cbn [clean_edge efla]. intros Hv. rewrite vars_rename in Hv. apply in_map_iff in Hv as [u [<- Hu]].
    destruct (inb u (own_vars g e)) eqn:Ou.
    + apply (proj1 (inb_true _ _)) in Ou. left. rewrite own_fixed by exact Ou. exact Ou.
    + right. destruct (ren_local k e (mid_label e) u Hu) as [i [_ ->]]; [intros X; apply inb_true in X; congruence|]. split; [reflexivity|]. eexists. reflexivity.
Qed.
End Clean.
