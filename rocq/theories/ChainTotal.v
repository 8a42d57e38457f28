(** * Chain summarization terminates. *)
From Verif Require Import Syntax Solver TransSys Graph GraphOps GraphOpsProofs ValidatorModel FormulaModel GraphSem SimpleTransModel UnreachProofs UnreachProofs2 SimpleTransProofs ListLemmas MergeModel MergeProofs ChainProofs ChainStep ChainBack.
Open Scope nat_scope.

Section Paths.
Variable g : hgraph.
Hypothesis W : wf_graph g.
Lemma nodes_vertex p : vertex g p -> In p (hnodes g).
Proof. intros H. apply (hnodes_spec g (wf_ids g W)). exact H. Qed.
Lemma bound (l : list sym) : NoDup l -> (forall x, In x l -> vertex g x) -> length l <= length (hnodes g).
Proof. intros N H. apply NoDup_incl_length; [exact N|]. intros x Hx. apply nodes_vertex, H, Hx. Qed.

(** The vertices seen on the way forward, latest first. *)
Fixpoint seen_fwd (v0 : sym) (p : list sym) : Prop :=
  match p with
  | [] => False
  | x :: p' => match p' with
      | [] => x = v0
      | y :: _ => (exists e, In e (gedges g) /\ efrom e = [y] /\ eto e = x) /\ is_trivial g x = true /\ x <> v0 /\ seen_fwd v0 p'
      end
  end.
Lemma seen_pred v0 p : seen_fwd v0 p -> forall x, In x p -> x <> v0 -> exists y, In y (tl p) /\ exists e, In e (gedges g) /\ efrom e = [y] /\ eto e = x.
Proof.
  induction p as [|a [|b p] IH]; intros S x Hx N; [destruct Hx| |].
  - cbn in S. destruct Hx as [<-|[]]. congruence.
  - cbn [seen_fwd] in S. destruct S as [Se [_ [_ S]]]. destruct Hx as [<-|Hx]; [exists b; cbn; auto|].
    destruct (IH S x Hx N) as [y [Hy E]]. exists y. split; [right; exact Hy|exact E].
Qed.
Lemma forward_total v0 : forall fuel cur p, is_trivial g v0 = true -> seen_fwd v0 (cur :: p) -> NoDup (cur :: p) -> (forall x, In x (cur :: p) -> vertex g x) ->
  S (length (hnodes g)) <= fuel + length (cur :: p) -> chain_forward g fuel v0 cur <> None.
Proof.
  induction fuel as [|f IH]; intros cur p T S N V B.
  - pose proof (bound (cur :: p) N V). lia.
  - cbn [chain_forward].
    assert (Tc : is_trivial g cur = true).
    { destruct p as [|y p]; [cbn in S; subst cur; exact T|]. cbn [seen_fwd] in S. tauto. }
    destruct (proj1 (is_trivial_spec g W cur) Tc) as [i [o Tr]]. destruct (trivial_edges g W cur i o Tr) as [Ei Eo]. rewrite Eo.
    rewrite (htarget_in g W o (tv_o _ _ _ _ Tr)). destruct (is_trivial g (eto o)) eqn:Tn; [|cbn; discriminate].
    destruct (Nat.eqb_spec (eto o) v0) as [En|Nn]; [cbn; discriminate|]. cbn [andb negb].
    assert (Nx : ~ In (eto o) (cur :: p)).
    { intros X. destruct (seen_pred v0 _ S (eto o) X Nn) as [y [Hy [e [He [Fe Te]]]]]. cbn [tl] in Hy.
      assert (e = o) by (apply (triv_in g W (eto o)); auto; apply (tv_o _ _ _ _ Tr)). subst e. rewrite (tv_from _ _ _ _ Tr) in Fe. injection Fe as <-.
      inversion N; contradiction. }
    assert (X : chain_forward g f v0 (eto o) <> None).
    { apply (IH (eto o) (cur :: p)); auto.
      - cbn [seen_fwd]. split; [exists o; split; [apply (tv_o _ _ _ _ Tr)|split; [apply (tv_from _ _ _ _ Tr)|reflexivity]]|]. split; [exact Tn|]. split; [exact Nn|exact S].
      - constructor; assumption.
      - intros x [<-|Hx]; [apply vertex_tgt, (tv_o _ _ _ _ Tr)|apply V, Hx].
      - cbn [length] in *. lia. }
    destruct (chain_forward g f v0 (eto o)); [cbn; discriminate|congruence].
Qed.
Lemma forward_closed (S : list sym) v0 : (forall e p, In e (gedges g) -> In p (efrom e) -> In p S -> In (eto e) S) ->
  forall fuel cur l lst, In cur S -> chain_forward g fuel v0 cur = Some (l, lst) -> In lst S.
Proof.
  intros Cl. induction fuel as [|f IH]; intros cur l lst Hc H; [discriminate|]. cbn [chain_forward] in H.
  destruct (out_edges g cur) as [|o os] eqn:Eo; [discriminate|].
  destruct (proj1 (out_edges_spec g (wf_ids g W) cur o)) as [e [He [Ee Fe]]]; [rewrite Eo; left; reflexivity|].
  rewrite <- Ee, (htarget_in g W e He) in H. pose proof (Cl e cur He Fe Hc) as Hn.
  destruct (is_trivial g (eto e) && negb (Nat.eqb (eto e) v0)).
  - destruct (chain_forward g f v0 (eto e)) as [[l1 lst1]|] eqn:E1; [|discriminate]. cbn in H. injection H as <- <-. eapply IH; eauto.
  - injection H as <- <-. exact Hn.
Qed.

(** The vertices seen on the way back, latest first. *)
Fixpoint seen_bwd (q : list sym) : Prop :=
  match q with
  | x :: q' => match q' with
      | [] => is_trivial g x = true
      | y :: _ => (exists e, In e (gedges g) /\ efrom e = [x] /\ eto e = y) /\ is_trivial g y = true /\ seen_bwd q'
      end
  | [] => True
  end.
Lemma seen_succ q : seen_bwd q -> forall x v, In x q -> last q v <> x -> exists y, In y (tl q) /\ exists e, In e (gedges g) /\ efrom e = [x] /\ eto e = y.
Proof.
  induction q as [|a [|b q] IH]; intros S x v Hx N; [destruct Hx| |].
  - destruct Hx as [<-|[]]. cbn in N. congruence.
  - cbn [seen_bwd] in S. destruct S as [Se [_ S]]. destruct Hx as [<-|Hx]; [exists b; cbn; auto|].
    destruct (IH S x v Hx) as [y [Hy E]]; [exact N|]. exists y. split; [right; exact Hy|exact E].
Qed.
Lemma seen_triv q : seen_bwd q -> forall x, In x (tl q) -> is_trivial g x = true.
Proof.
  induction q as [|a [|b q] IH]; intros S x Hx; [destruct Hx|destruct Hx|]. cbn [seen_bwd] in S. destruct S as [_ [Tb S]].
  destruct Hx as [<-|Hx]; [exact Tb|]. apply (IH S). exact Hx.
Qed.
Lemma backward_total v fuel0 lst ids : is_trivial g v = true -> chain_forward g fuel0 v v = Some (ids, lst) ->
  forall fuel cur q acc, seen_bwd (cur :: q) -> last (cur :: q) v = v -> NoDup (cur :: q) -> (forall x, In x (cur :: q) -> vertex g x) ->
  S (length (hnodes g)) <= fuel + length (cur :: q) -> chain_backward g fuel lst cur acc <> None.
Proof.
  intros T EF. destruct (chain_forward_ok g W v _ _ _ _ T EF) as [cf [_ [_ [_ [_ [_ [_ Hlst]]]]]]].
  induction fuel as [|f IH]; intros cur q acc S Lv N V B.
  - pose proof (bound (cur :: q) N V). lia.
  - cbn [chain_backward]. destruct (is_trivial g cur) eqn:Tc; [|discriminate].
    destruct (proj1 (is_trivial_spec g W cur) Tc) as [i [o Tr]]. destruct (trivial_edges g W cur i o Tr) as [Ei Eo]. rewrite Ei.
    rewrite (hsources_in g W i (tv_i _ _ _ _ Tr)). destruct (tv_src _ _ _ _ Tr) as [pr [Fi [_ Npr]]]. rewrite Fi. cbn [hd].
    destruct (Nat.eqb_spec pr lst) as [E|Nl]; [discriminate|].
    assert (Hi : In i (gedges g)) by apply (tv_i _ _ _ _ Tr). assert (Ti : eto i = cur) by apply (tv_to _ _ _ _ Tr).
    assert (Tall : forall x, In x (cur :: q) -> is_trivial g x = true).
    { intros x [<-|Hx]; [exact Tc|]. apply (seen_triv (cur :: q) S x Hx). }
    assert (Nx : ~ In pr (cur :: q)).
    { intros X. destruct (Nat.eq_dec v pr) as [Ev|Nv].
      - (* the walk closed a cycle: the forward part ended in [v] *)
        assert (Cl : forall e p, In e (gedges g) -> In p (efrom e) -> In p (cur :: q) -> In (eto e) (cur :: q)).
        { intros e p He Hp Hin. destruct (Nat.eq_dec v p) as [Evp|Nvp].
          - assert (e = i). { apply (triv_out g W p); auto. rewrite Fi. left. congruence. } subst e. rewrite Ti. left. reflexivity.
          - destruct (seen_succ (cur :: q) S p v Hin) as [y [Hy [e' [He' [Fe' Te']]]]]; [rewrite Lv; exact Nvp|].
            assert (e = e') by (apply (triv_out g W p); auto; rewrite Fe'; left; reflexivity). subst e'. rewrite Te'. right. exact Hy. }
        assert (Hv : In v (cur :: q)) by (rewrite <- Lv at 1; apply last_in_ne; discriminate).
        pose proof (forward_closed (cur :: q) v Cl _ _ _ _ Hv EF) as Hl. destruct Hlst as [Hl2|Hl2]; [rewrite (Tall lst Hl) in Hl2; discriminate|congruence].
      - destruct (seen_succ (cur :: q) S pr v X) as [y [Hy [e [He [Fe Te]]]]]; [rewrite Lv; exact Nv|].
        assert (e = i) by (apply (triv_out g W pr); auto; [rewrite Fe|rewrite Fi]; left; reflexivity). subst e. rewrite Ti in Te. subst y. cbn [tl] in Hy. inversion N; contradiction. }
    apply (IH pr (cur :: q)).
    + cbn [seen_bwd]. split; [exists i; auto|]. split; [exact Tc|exact S].
    + exact Lv.
    + constructor; assumption.
    + intros x [<-|Hx]; [apply (vertex_src g i); [exact Hi|rewrite Fi; left; reflexivity]|apply V, Hx].
    + cbn [length] in *. lia.
Qed.
Theorem trivial_chain_total v : is_trivial g v = true -> vertex g v -> trivial_chain g v <> None.
Proof.
  intros T V. unfold trivial_chain. destruct (chain_forward g _ v v) as [[l lst]|] eqn:EF.
  - apply (backward_total v _ lst l T EF _ v []); cbn [length seen_bwd last]; auto; try lia.
    + constructor; [intros []|constructor].
    + intros x [<-|[]]. exact V.
  - exfalso. refine (forward_total v (S (S (length (hnodes g)))) v [] T _ _ _ _ EF); cbn [length seen_fwd]; auto; try lia.
    + constructor; [intros []|constructor].
    + intros x [<-|[]]. exact V.
Qed.
End Paths.

Section LoopTotal.
Variable elim : elim_fn.
Hypothesis Helim : elim_ok elim.
Variable vertices : hgraph -> list sym.
Hypothesis Hv : forall g v, In v (vertices g) -> vertex g v.
Lemma contract_smaller g c : wf_graph g -> contractible g c \/ full_circle g c ->
  wf_graph (fst (contract_chain elim g c)) /\ length (gedges (fst (contract_chain elim g c))) < length (gedges g).
Proof.
  intros W CF. set (g1 := fst (contract_chain elim g c)). set (se := snd (contract_chain elim g c)).
  assert (W1 : wf_graph g1) by (destruct CF as [CT|FC]; [apply contract_wf; assumption|apply circle_wf; assumption]).
  split; [exact W1|].
  assert (Sub : forall e, In e (gedges g1) -> (e = se \/ In e (gedges g)) /\ ~ In (eto e) (mids c) /\ forall p, In p (efrom e) -> ~ In p (mids c)).
  { intros e He. destruct CF as [CT|FC].
    - apply (contract_edges elim g c) in He. destruct He as [[He|He] X]; auto.
    - apply (circle_edges elim g c FC) in He. tauto. }
  assert (In_c : forall e, In e c -> In e (gedges g)) by (destruct CF as [CT|FC]; [apply (co_in g c (ct_ok g c CT))|apply (fc_edges g c FC)]).
  assert (L : linked (chain_source c) c) by (destruct CF as [CT|FC]; [apply (co_linked g c (ct_ok g c CT))|apply (fc_linked g c FC)]).
  assert (Tr : forall m, In m (mids c) -> is_trivial g m = true) by (destruct CF as [CT|FC]; [apply (ct_triv g c CT)|apply (fc_triv g c FC)]).
  assert (Len : 2 <= length c).
  { destruct CF as [CT|FC]; [apply (co_len g c (ct_ok g c CT))|]. apply mids_len. intros X. pose proof (fc_source g c FC) as Y. rewrite X in Y. destruct Y. }
  destruct c as [|x [|y c0]]; [cbn in Len; lia|cbn in Len; lia|]. clear Len.
  assert (M : In (eto x) (mids (x :: y :: c0))) by (rewrite mids_cons by discriminate; left; reflexivity).
  destruct L as [_ [Fy _]].
  assert (Nxy : x <> y).
  { intros <-. destruct (proj1 (is_trivial_spec g W (eto x)) (Tr _ M)) as [i [o T]]. destruct (tv_src _ _ _ _ T) as [p [Fp [_ Np]]].
    assert (x = i) by (apply (tv_in _ _ _ _ T); [apply In_c; left; reflexivity|reflexivity]). subst i. rewrite Fy in Fp. injection Fp as <-. congruence. }
  assert (Kx : ~ In x (gedges g1)) by (intros X; apply Sub in X as [_ [X _]]; exact (X M)).
  assert (Ky : ~ In y (gedges g1)) by (intros X; apply Sub in X as [_ [_ X]]; apply (X (eto x)); [rewrite Fy; left; reflexivity|exact M]).
  assert (B : length (x :: y :: gedges g1) <= length (se :: gedges g)).
  { apply NoDup_incl_length.
    - constructor; [intros [E|E]; [congruence|contradiction]|]. constructor; [exact Ky|]. apply (NoDup_map_inv eid), (wf_ids g1 W1).
    - intros e [<-|[<-|He]]; [right; apply In_c; left; reflexivity|right; apply In_c; right; left; reflexivity|].
      apply Sub in He as [[->|He] _]; [left; reflexivity|right; exact He]. }
  cbn [length] in B. lia.
Qed.
Theorem summarize_loop_total fuel : forall g, wf_graph g -> length (gedges g) < fuel -> summarize_loop elim vertices fuel g <> None.
Proof.
  induction fuel as [|f IH]; intros g W B; [lia|]. cbn [summarize_loop].
  destruct (find (is_trivial g) (vertices g)) as [v|] eqn:Ev; [|discriminate]. apply find_some in Ev as [Vv Tv].
  destruct (trivial_chain g v) as [ids|] eqn:Ec; [|exfalso; apply (trivial_chain_total g W v Tv (Hv g v Vv)); exact Ec].
  destruct (trivial_chain_ok g W v ids Tv Ec) as [c [-> [Em CF]]]. rewrite Em.
  destruct (contract_smaller g c W CF) as [W1 B1]. destruct (contract_chain elim g c) as [g1 se] eqn:EC. cbn [fst] in *.
  specialize (IH g1 W1 ltac:(lia)). destruct (summarize_loop elim vertices f g1) as [[g2 cs]|]; [cbn; discriminate|congruence].
Qed.
End LoopTotal.
