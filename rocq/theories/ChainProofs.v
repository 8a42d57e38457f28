(** * SimpleChainSummarizer: the shape of the chains it finds. *)
From Verif Require Import Syntax Solver TransSys Graph GraphOps GraphOpsProofs ValidatorModel ValidatorProofs FormulaModel GraphSem SimpleTransModel UnreachProofs UnreachProofs2 MergeModel MergeProofs.
Open Scope nat_scope.

(** One incoming and one outgoing edge, both with one source. *)
Record trivial (g : hgraph) (v : sym) (i o : hedge) : Prop := {
  tv_i : In i (gedges g); tv_o : In o (gedges g);
  tv_to : eto i = v; tv_from : efrom o = [v];
  tv_in : forall e, In e (gedges g) -> eto e = v -> e = i;
  tv_out : forall e, In e (gedges g) -> In v (efrom e) -> e = o;
  tv_src : exists p, efrom i = [p] /\ p <> eto o /\ p <> v
}.
Section Triv.
Variable g : hgraph.
Hypothesis W : wf_graph g.
Let Nid := wf_ids g W.
Lemma hfind_some i e : hfind g i = Some e -> In e (gedges g) /\ eid e = i.
Proof. unfold hfind. intros H. apply find_some in H as [H1 H2]. apply Nat.eqb_eq in H2. auto. Qed.
Lemma hsources_in e : In e (gedges g) -> hsources g (eid e) = efrom e.
Proof. intros H. unfold hsources. rewrite (hfind_in g Nid e H). reflexivity. Qed.
Lemma htarget_in e : In e (gedges g) -> htarget g (eid e) = eto e.
Proof. intros H. unfold htarget. rewrite (hfind_in g Nid e H). reflexivity. Qed.
Lemma eid_in e e' : In e (gedges g) -> In e' (gedges g) -> eid e = eid e' -> e = e'.
Proof. apply wf_edge_eq, W. Qed.
Lemma len1 {A} (l : list A) d : length l = 1 -> l = [hd d l].
Proof. destruct l as [|x [|y l]]; cbn; intros; try lia. reflexivity. Qed.
Lemma in_edges_eq v : in_edges g v = map eid (filter (fun e => Nat.eqb (eto e) v) (gedges g)).
Proof. destruct (adjacency_ok g Nid) as [A _]. exact (A v). Qed.
Lemma out_edges_eq v : out_edges g v = map eid (filter (fun e => smem v (efrom e)) (gedges g)).
Proof. destruct (adjacency_ok g Nid) as [_ [A _]]. exact (A v). Qed.
Lemma nodup_one {A} (l : list A) x : NoDup l -> In x l -> (forall y, In y l -> y = x) -> l = [x].
Proof.
  destruct l as [|a [|b l]]; intros N I0 U; [destruct I0|rewrite (U a); [reflexivity|left; reflexivity]|].
  exfalso. inversion N as [|? ? N1 N2]; subst. apply N1. left. rewrite (U a), (U b); auto; simpl; auto.
Qed.
Lemma trivial_edges v i o : trivial g v i o -> in_edges g v = [eid i] /\ out_edges g v = [eid o].
Proof.
  intros [Hi Ho Ti Fo Ui Uo _]. split; apply nodup_one.
  - rewrite in_edges_eq. apply NoDup_map_filter, Nid.
  - apply (in_edges_spec g Nid). eauto.
  - intros y Hy. apply (in_edges_spec g Nid) in Hy as [e [He [<- Te]]]. rewrite (Ui e He Te). reflexivity.
  - rewrite out_edges_eq. apply NoDup_map_filter, Nid.
  - apply (out_edges_spec g Nid). exists o. rewrite Fo. simpl; auto.
  - intros y Hy. apply (out_edges_spec g Nid) in Hy as [e [He [<- Te]]]. rewrite (Uo e He Te). reflexivity.
Qed.
Lemma is_trivial_spec v : is_trivial g v = true <-> exists i o, trivial g v i o.
Proof.
  unfold is_trivial. split.
  - destruct (in_edges g v) as [|i [|]] eqn:Ei; try discriminate. destruct (out_edges g v) as [|o [|]] eqn:Eo; try discriminate.
    intros H. apply andb_true_iff in H as [H H4]. apply andb_true_iff in H as [H H3]. apply andb_true_iff in H as [H1 H2].
    apply Nat.eqb_eq in H2, H3. apply negb_true_iff, Nat.eqb_neq in H1. apply negb_true_iff, Nat.eqb_neq in H4.
    destruct (proj1 (in_edges_spec g Nid v i)) as [ei [Hi [<- Ti]]]; [rewrite Ei; left; reflexivity|].
    destruct (proj1 (out_edges_spec g Nid v o)) as [eo [Ho [<- To]]]; [rewrite Eo; left; reflexivity|].
    rewrite (hsources_in ei Hi) in *. rewrite (hsources_in eo Ho) in *. rewrite (htarget_in eo Ho) in *.
    exists ei, eo.
    assert (Fo : efrom eo = [v]) by (rewrite (len1 _ entry H3) in To |- *; destruct To as [->|[]]; reflexivity).
    assert (Uo : forall e, In e (gedges g) -> In v (efrom e) -> e = eo).
    { intros e He Hv. apply (eid_in e eo He Ho). pose proof (proj2 (out_edges_spec g Nid v (eid e)) (ex_intro _ e (conj He (conj eq_refl Hv)))) as X.
      rewrite Eo in X. destruct X as [X|[]]. auto. }
    split; auto.
    + intros e He Hv. apply (eid_in e ei He Hi). pose proof (proj2 (in_edges_spec g Nid v (eid e)) (ex_intro _ e (conj He (conj eq_refl Hv)))) as X.
      rewrite Ei in X. destruct X as [X|[]]. auto.
    + exists (hd entry (efrom ei)). split; [apply len1, H2|]. split; [exact H4|]. intros E.
      apply H1. f_equal. apply Uo; [exact Hi|]. rewrite (len1 _ entry H2), E. left. reflexivity.
  - intros [i [o T]]. destruct (trivial_edges v i o T) as [Ei Eo]. destruct T as [Hi Ho Ti Fo Ui Uo [p [Fi [N1 N2]]]]. rewrite Ei, Eo.
    rewrite (hsources_in i Hi), (hsources_in o Ho), (htarget_in o Ho), Fi, Fo. cbn [length hd]. rewrite !Nat.eqb_refl.
    apply andb_true_iff. split; [|apply negb_true_iff, Nat.eqb_neq, N1]. rewrite !andb_true_r. apply negb_true_iff, Nat.eqb_neq.
    intros E. apply (eid_in i o Hi Ho) in E. subst o. rewrite Fi in Fo. injection Fo as ->. congruence.
Qed.
End Triv.

Lemma linked_source s c : linked s c -> c <> [] -> chain_source c = s.
Proof. destruct c as [|e c]; [congruence|]. intros [E _] _. unfold chain_source. rewrite E. reflexivity. Qed.
Lemma mids_cons e c : c <> [] -> mids (e :: c) = eto e :: mids c.
Proof. destruct c; [congruence|]. reflexivity. Qed.
Lemma target_cons e c : c <> [] -> chain_target (e :: c) = chain_target c.
Proof. destruct c; [congruence|]. intros _. apply chain_target_cons. Qed.
Lemma mids_in m c : In m (mids c) -> exists e, In e c /\ eto e = m.
Proof.
  unfold mids. intros H. apply in_map_iff in H as [e [<- H]]. exists e. split; [|reflexivity].
  induction c as [|x [|y c] IH]; [destruct H|destruct H|]. change (removelast (x :: y :: c)) with (x :: removelast (y :: c)) in H.
  destruct H as [->|H]; [left; reflexivity|right; auto].
Qed.
(** The edge of a chain into a vertex it passes has a source on the chain. *)
Lemma linked_pred s c m : linked s c -> In m (mids c) -> exists e p, In e c /\ eto e = m /\ efrom e = [p] /\ In p (s :: mids c).
Proof.
  revert s. induction c as [|e c IH]; intros s L H; [destruct H|]. destruct c as [|e' c]; [destruct H|].
  destruct L as [E L]. rewrite mids_cons in * by discriminate. destruct H as [<-|H].
  - exists e, s. simpl; auto.
  - destruct (IH (eto e) L H) as [x [p [H1 [H2 [H3 H4]]]]]. exists x, p. split; [right; exact H1|]. split; [exact H2|]. split; [exact H3|].
    right. destruct H4 as [<-|H4]; [left; reflexivity|right; exact H4].
Qed.
(** Each edge of a chain starts at the source or in the middle, and ends in the middle or at the target. *)
Lemma linked_ends s c e : linked s c -> In e c -> (exists p, efrom e = [p] /\ In p (s :: mids c)) /\ (In (eto e) (mids c) \/ eto e = chain_target c).
Proof.
  revert s. induction c as [|x c IH]; intros s L H; [destruct H|]. destruct L as [E L]. destruct c as [|y c].
  - destruct H as [<-|[]]. split; [exists s; simpl; auto|right; reflexivity].
  - rewrite mids_cons, target_cons by discriminate. destruct H as [<-|H].
    + split; [exists s; simpl; auto|left; left; reflexivity].
    + destruct (IH (eto x) L H) as [[p [P1 P2]] P3]. split.
      * exists p. split; [exact P1|]. right. destruct P2 as [<-|P2]; [left; reflexivity|right; exact P2].
      * destruct P3 as [P3|P3]; [left; right; exact P3|right; exact P3].
Qed.
Lemma linked_succ s c m : linked s c -> In m (mids c) -> exists e, In e c /\ efrom e = [m].
Proof.
  revert s. induction c as [|e c IH]; intros s L H; [destruct H|]. destruct c as [|e' c]; [destruct H|].
  destruct L as [E L]. rewrite mids_cons in H by discriminate. destruct H as [<-|H].
  - exists e'. split; [right; left; reflexivity|]. exact (proj1 L).
  - destruct (IH (eto e) L H) as [x [H1 H2]]. exists x. split; [right; exact H1|exact H2].
Qed.

Section Find.
Variable g : hgraph.
Hypothesis W : wf_graph g.
Let Nid := wf_ids g W.

Lemma chain_forward_ok v0 : forall fuel cur ids lst, is_trivial g cur = true -> chain_forward g fuel v0 cur = Some (ids, lst) ->
  exists c, ids = map eid c /\ c <> [] /\ (forall e, In e c -> In e (gedges g)) /\ linked cur c /\ chain_target c = lst /\
    (forall m, In m (mids c) -> is_trivial g m = true /\ m <> v0) /\ (is_trivial g lst = false \/ lst = v0).
Proof.
  induction fuel as [|f IH]; intros cur ids lst T H; [discriminate|]. cbn [chain_forward] in H.
  destruct (proj1 (is_trivial_spec g W cur) T) as [i [o Tr]]. destruct (trivial_edges g W cur i o Tr) as [Ei Eo].
  rewrite Eo in H. rewrite (htarget_in g W o (tv_o _ _ _ _ Tr)) in H.
  destruct (is_trivial g (eto o) && negb (Nat.eqb (eto o) v0)) eqn:B.
  - apply andb_true_iff in B as [B1 B2]. apply negb_true_iff, Nat.eqb_neq in B2.
    destruct (chain_forward g f v0 (eto o)) as [[ids' lst']|] eqn:E; [|discriminate]. cbn [option_map fst snd] in H. injection H as <- <-.
    destruct (IH _ _ _ B1 E) as [c [-> [NE [Hc [L [Tg [Hm Hl]]]]]]]. exists (o :: c). cbn [map]. split; [reflexivity|]. split; [discriminate|].
    split; [intros e [<-|He]; [exact (tv_o _ _ _ _ Tr)|auto]|]. split; [split; [exact (tv_from _ _ _ _ Tr)|exact L]|].
    rewrite target_cons, mids_cons by exact NE. split; [exact Tg|]. split; [|exact Hl]. intros m [<-|Hm']; auto.
  - injection H as <- <-. exists [o]. cbn [map]. split; [reflexivity|]. split; [discriminate|].
    split; [intros e [<-|[]]; exact (tv_o _ _ _ _ Tr)|]. split; [split; [exact (tv_from _ _ _ _ Tr)|exact I]|]. split; [reflexivity|].
    split; [intros m []|]. apply andb_false_iff in B as [B|B]; [left; exact B|]. right. apply negb_false_iff, Nat.eqb_eq in B. exact B.
Qed.

Lemma chain_backward_ok lst : forall fuel cur acc ids cA, chain_backward g fuel lst cur acc = Some ids ->
  acc = map eid cA -> cA <> [] -> (forall e, In e cA -> In e (gedges g)) -> linked cur cA -> (forall m, In m (mids cA) -> is_trivial g m = true) ->
  exists pre F, ids = map eid (pre ++ cA) /\ (forall e, In e pre -> In e (gedges g)) /\ linked F (pre ++ cA) /\
    (forall m, In m (mids (pre ++ cA)) -> is_trivial g m = true) /\ ((pre = [] /\ F = cur) \/ (F <> lst /\ In cur (mids (pre ++ cA)))) /\
    (is_trivial g F = false \/ (is_trivial g F = true /\ exists i, In i (gedges g) /\ eto i = F /\ efrom i = [lst])).
Proof.
  induction fuel as [|f IH]; intros cur acc ids cA H Ea NE Hc L Hm; [discriminate|]. cbn [chain_backward] in H.
  destruct (is_trivial g cur) eqn:T.
  - destruct (proj1 (is_trivial_spec g W cur) T) as [i [o Tr]]. destruct (trivial_edges g W cur i o Tr) as [Ei Eo].
    rewrite Ei in H. rewrite (hsources_in g W i (tv_i _ _ _ _ Tr)) in H. destruct (tv_src _ _ _ _ Tr) as [p [Fp [Np _]]]. rewrite Fp in H. cbn [hd] in H.
    destruct (Nat.eqb_spec p lst) as [E|N].
    + injection H as <-. exists [], cur. cbn [app]. rewrite Ea. split; [reflexivity|]. split; [intros e []|]. split; [exact L|]. split; [exact Hm|].
      split; [auto|]. right. split; [exact T|]. exists i. subst lst. split; [exact (tv_i _ _ _ _ Tr)|]. split; [exact (tv_to _ _ _ _ Tr)|exact Fp].
    + destruct (IH p (eid i :: acc) ids (i :: cA) H) as [pre [F [E1 [E2 [E3 [E4 [E5 E6]]]]]]].
      * rewrite Ea. reflexivity.
      * discriminate.
      * intros e [<-|He]; [exact (tv_i _ _ _ _ Tr)|auto].
      * split; [exact Fp|]. rewrite (tv_to _ _ _ _ Tr). exact L.
      * rewrite mids_cons by exact NE. rewrite (tv_to _ _ _ _ Tr). intros m [<-|Hm']; auto.
      * exists (pre ++ [i]), F. rewrite <- app_assoc. cbn [app]. split; [exact E1|].
        split; [intros e He; apply in_app_iff in He as [He|[<-|[]]]; [auto|exact (tv_i _ _ _ _ Tr)]|]. split; [exact E3|]. split; [exact E4|].
        split; [|exact E6]. right. split; [destruct E5 as [[_ ->]|[E5 _]]; [exact N|exact E5]|].
        assert (X : forall l, In cur (mids (l ++ i :: cA))).
        { induction l as [|x l IHl]; cbn [app]; [rewrite mids_cons by exact NE; left; exact (tv_to _ _ _ _ Tr)|].
          rewrite mids_cons; [right; exact IHl|]. destruct l; discriminate. }
        apply X.
  - injection H as <-. exists [], cur. cbn [app]. rewrite Ea. split; [reflexivity|]. split; [intros e []|]. split; [exact L|]. split; [exact Hm|].
    split; [auto|]. left. exact T.
Qed.

(** The edges of a chain the summarizer contracts. *)
Record contractible (c : list hedge) : Prop := {
  ct_ok : chain_ok g c;
  ct_ends : chain_source c <> chain_target c;
  ct_in : forall e, In e (gedges g) -> In (eto e) (mids c) -> In e c;
  ct_out : forall e p, In e (gedges g) -> In p (efrom e) -> In p (mids c) -> In e c;
  ct_target : is_trivial g (chain_target c) = false;
  ct_source : is_trivial g (chain_source c) = false \/ exists i, In i (gedges g) /\ eto i = chain_source c /\ efrom i = [chain_target c];
  ct_triv : forall m, In m (mids c) -> is_trivial g m = true
}.
(** A cycle without connection to the rest of the graph. *)
Record full_circle (c : list hedge) : Prop := {
  fc_edges : forall e, In e c -> In e (gedges g);
  fc_linked : linked (chain_source c) c;
  fc_source : In (chain_source c) (mids c);
  fc_target : In (chain_target c) (mids c);
  fc_triv : forall m, In m (mids c) -> is_trivial g m = true;
  fc_pred : forall e, In e (gedges g) -> In (eto e) (mids c) -> exists p, efrom e = [p] /\ In p (mids c);
  fc_succ : forall e p, In e (gedges g) -> In p (efrom e) -> In p (mids c) -> In (eto e) (mids c)
}.
Lemma triv_in v e e' : is_trivial g v = true -> In e (gedges g) -> In e' (gedges g) -> eto e = v -> eto e' = v -> e = e'.
Proof.
  intros T He He' E E'. destruct (proj1 (is_trivial_spec g W v) T) as [i [o Tr]].
  rewrite (tv_in _ _ _ _ Tr e He E), (tv_in _ _ _ _ Tr e' He' E'). reflexivity.
Qed.
Lemma triv_out v e e' : is_trivial g v = true -> In e (gedges g) -> In e' (gedges g) -> In v (efrom e) -> In v (efrom e') -> e = e'.
Proof.
  intros T He He' E E'. destruct (proj1 (is_trivial_spec g W v) T) as [i [o Tr]].
  rewrite (tv_out _ _ _ _ Tr e He E), (tv_out _ _ _ _ Tr e' He' E'). reflexivity.
Qed.
Lemma mids_nodup c : forall s, linked s c -> (forall e, In e c -> In e (gedges g)) -> (forall m, In m (mids c) -> is_trivial g m = true) ->
  ~ In s (mids c) -> NoDup (s :: mids c).
Proof.
  induction c as [|e c IH]; intros s L Hc Hm Ns; [constructor; [exact Ns|constructor]|].
  constructor; [exact Ns|]. destruct c as [|e' c]; [constructor|]. rewrite mids_cons in * by discriminate. destruct L as [E L].
  apply (IH (eto e) L).
  - intros x Hx. apply Hc. right. exact Hx.
  - intros m Hm'. apply Hm. right. exact Hm'.
  - intros X. destruct (linked_pred (eto e) (e' :: c) (eto e) L X) as [x [p [H1 [H2 [H3 H4]]]]].
    assert (x = e). { apply (triv_in (eto e)); auto; [apply Hm; left; reflexivity|apply Hc; right; exact H1|apply Hc; left; reflexivity]. }
    subst x. rewrite E in H3. injection H3 as <-. apply Ns. exact H4.
Qed.

Theorem trivial_chain_ok v ids : is_trivial g v = true -> trivial_chain g v = Some ids ->
  exists c, ids = map eid c /\ map_opt (hfind g) ids = Some c /\ (contractible c \/ full_circle c).
Proof.
  intros T H. unfold trivial_chain in H. destruct (chain_forward g _ v v) as [[l lst]|] eqn:EF; [|discriminate].
  destruct (chain_forward_ok v _ _ _ _ T EF) as [cf [-> [NE [Hcf [Lf [Tg [Hmf Hlst]]]]]]].
  destruct (chain_backward_ok lst _ _ _ _ cf H eq_refl NE Hcf Lf (fun m Hm => proj1 (Hmf m Hm))) as [pre [F [-> [Hpre [L [Hm [HF HS]]]]]]].
  set (c := pre ++ cf) in *. exists c. split; [reflexivity|].
  assert (Hc : forall e, In e c -> In e (gedges g)) by (intros e He; apply in_app_iff in He as [He|He]; auto).
  assert (NEc : c <> []) by (unfold c; destruct pre; [exact NE|discriminate]).
  assert (Tc : chain_target c = lst).
  { rewrite <- Tg. unfold c. clear - NE. induction pre as [|x pre IH]; [reflexivity|]. cbn [app]. rewrite target_cons; [exact IH|]. destruct pre; [exact NE|discriminate]. }
  assert (Fc : chain_source c = F) by (apply linked_source; assumption).
  split.
  { clear - Hc W. induction c as [|e c' IH]; [reflexivity|]. cbn [map map_opt]. rewrite (hfind_in g (wf_ids g W) e) by (apply Hc; left; reflexivity).
    rewrite IH by (intros; apply Hc; right; assumption). reflexivity. }
  assert (CT : forall e, In e (gedges g) -> In (eto e) (mids c) -> In e c).
  { intros e He Hin. destruct (mids_in _ _ Hin) as [x [Hx Ex]]. rewrite (triv_in (eto e) e x); auto. }
  assert (CO : forall e p, In e (gedges g) -> In p (efrom e) -> In p (mids c) -> In e c).
  { intros e p He Hp Hin. destruct (linked_succ F c p L Hin) as [x [Hx Ex]]. rewrite (triv_out p e x); auto. rewrite Ex. left. reflexivity. }
  destruct (Nat.eq_dec lst v) as [Elv|Nlv].
  - (* full circle *) right.
    assert (Kv : In v (mids c)).
    { destruct HF as [[-> ->]|[_ HF]]; [|exact HF]. exfalso. destruct HS as [HS|[_ [i [Hi [Ti Fi]]]]]; [congruence|].
      rewrite Elv in Fi. destruct (proj1 (is_trivial_spec g W v) T) as [i0 [o0 Tr]]. destruct (tv_src _ _ _ _ Tr) as [p [Fp [_ Np]]].
      rewrite (tv_in _ _ _ _ Tr i Hi Ti) in Fi. rewrite Fi in Fp. injection Fp as <-. congruence. }
    assert (Kpred : forall e, In e (gedges g) -> In (eto e) (mids c) -> exists p, efrom e = [p] /\ (p = F \/ In p (mids c))).
    { intros e He Hin. pose proof (CT e He Hin) as X. destruct (linked_ends F c e L X) as [[p [P1 P2]] _]. exists p. split; [exact P1|].
      destruct P2 as [<-|P2]; auto. }
    (* every vertex of the chain lies on the forward part *)
    assert (Kf : forall m, In m (v :: mids cf) -> In m (mids c)).
    { intros m [<-|Hm']; [exact Kv|]. unfold c. clear - Hm' NE. induction pre as [|x pre IH]; [exact Hm'|]. cbn [app]. rewrite mids_cons; [right; exact IH|].
      destruct pre; [exact NE|discriminate]. }
    assert (Kback : forall e, In e (gedges g) -> In (eto e) (v :: mids cf) -> exists p, efrom e = [p] /\ In p (v :: mids cf)).
    { intros e He [Ev|Hin].
      - assert (X : exists x, In x cf /\ eto x = lst).
        { rewrite <- Tg. clear - NE. induction cf as [|x [|y cf] IH]; [congruence|exists x; simpl; auto|]. destruct IH as [z [Z1 Z2]]; [discriminate|].
          exists z. split; [right; exact Z1|]. rewrite target_cons by discriminate. exact Z2. }
        destruct X as [x [Hx Ex]]. destruct (linked_ends v cf x Lf Hx) as [[p [P1 P2]] _]. exists p. split; [|exact P2].
        rewrite (triv_in v e x); auto. congruence.
      - destruct (linked_pred v cf _ Lf Hin) as [x [p [H1 [H2 [H3 H4]]]]]. exists p. split; [|exact H4].
        rewrite (triv_in (eto e) e x); auto. apply Hmf, Hin. }
    assert (Kc : forall m, In m (F :: mids c) -> In m (v :: mids cf)).
    { assert (Y : forall pre0 s, (forall e, In e pre0 -> In e (gedges g)) -> linked s (pre0 ++ cf) -> In s (v :: mids cf) /\ forall m, In m (mids (pre0 ++ cf)) -> In m (v :: mids cf)).
      { induction pre0 as [|x pre0 IH]; intros s Hp Ls.
        - cbn [app] in *. split; [|intros m Hm'; right; exact Hm']. left. destruct cf as [|y cf]; [congruence|]. destruct Lf as [Lf1 _], Ls as [Ls1 _].
          rewrite Lf1 in Ls1. injection Ls1. auto.
        - cbn [app] in *. destruct Ls as [Ls1 Ls2]. destruct (IH (eto x)) as [I1 I2]; [intros; apply Hp; right; assumption|exact Ls2|].
          split.
          + destruct (Kback x) as [p [P1 P2]]; [apply Hp; left; reflexivity|exact I1|]. rewrite Ls1 in P1. injection P1 as <-. exact P2.
          + intros m. rewrite mids_cons; [|destruct pre0; [exact NE|discriminate]]. intros [<-|Hm']; auto. }
      destruct (Y pre F Hpre L) as [Y1 Y2]. intros m [<-|Hm']; auto. }
    split.
    + exact Hc.
    + rewrite Fc. exact L.
    + rewrite Fc. apply Kf, Kc. left. reflexivity.
    + rewrite Tc, Elv. exact Kv.
    + exact Hm.
    + intros e He Hin. destruct (Kback e He) as [p [P1 P2]]; [apply Kc; right; exact Hin|]. exists p. split; [exact P1|apply Kf, P2].
    + intros e p He Hp Hin. pose proof (CO e p He Hp Hin) as X. destruct (linked_ends F c e L X) as [_ [X2|X2]]; [exact X2|].
      rewrite X2, Tc, Elv. exact Kv.
  - left. assert (Tl : is_trivial g lst = false) by (destruct Hlst; [assumption|congruence]).
    assert (Nl : ~ In lst (mids c)) by (intros X; rewrite (Hm lst X) in Tl; discriminate).
    assert (NF : F <> lst) by (destruct HF as [[_ ->]|[HF _]]; [congruence|exact HF]).
    assert (FN : ~ In F (mids c)).
    { intros X. destruct HS as [HS|[_ [i [Hi [Ti Fi]]]]]; [rewrite (Hm F X) in HS; discriminate|].
      destruct (linked_pred F c F L X) as [x [p [H1 [H2 [H3 H4]]]]]. assert (x = i) by (apply (triv_in F); auto). subst x.
      rewrite Fi in H3. injection H3 as <-. destruct H4 as [H4|H4]; [congruence|contradiction]. }
    split.
    + split.
      * destruct HF as [[Ep EF0]|[_ HF]].
        -- destruct HS as [HS|[_ [i [Hi [Ti Fi]]]]]; [rewrite EF0, T in HS; discriminate|].
           (* one edge only is impossible: the source would be the target of the next edge *)
           unfold c. rewrite Ep. cbn [app]. destruct cf as [|x [|y cf]]; [congruence| |cbn; lia].
           exfalso. destruct (proj1 (is_trivial_spec g W v) T) as [i0 [o0 Tr]]. destruct (tv_src _ _ _ _ Tr) as [p [Fp [Np _]]].
           destruct Lf as [Lf1 _]. assert (x = o0) by (apply (tv_out _ _ _ _ Tr); [apply Hcf; left; reflexivity|rewrite Lf1; left; reflexivity]). subst x.
           assert (i = i0) by (apply (tv_in _ _ _ _ Tr); [exact Hi|congruence]). subst i. rewrite Fi in Fp. injection Fp as <-. apply Np. exact (eq_sym Tg).
        -- destruct (mids_in _ _ HF) as [x [Hx _]]. destruct c as [|y [|z c']]; [congruence|destruct HF|cbn; lia].
      * exact Hc.
      * rewrite Fc. exact L.
      * rewrite Fc. apply mids_nodup; auto.
      * rewrite Tc. exact Nl.
    + rewrite Fc, Tc. exact NF.
    + exact CT.
    + exact CO.
    + rewrite Tc. exact Tl.
    + rewrite Fc, Tc. destruct HS as [HS|[_ HS]]; auto.
    + exact Hm.
Qed.
End Find.
