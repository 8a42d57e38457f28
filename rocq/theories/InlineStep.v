(** * Edge inlining: the transformation. *)
From Verif Require Import Syntax Solver TransSys Graph GraphOps GraphOpsProofs ValidatorModel ValidatorProofs FormulaModel FormulaProofs FormulaProofs2 GraphSem Names SimpleTransModel UnreachProofs UnreachProofs2 SimpleTransProofs SimpleTransProofs2 ListLemmas MergeModel MergeProofs ChainProofs ChainStep ChainBack ExpandProofs PairProofs PairLabel ElimModel ElimProofs InlineModel InlineProofs InlineValid.
Open Scope list_scope.
Open Scope nat_scope.

(** A removed edge that is a loop has no auxiliary variables. *)
Definition private_edge (g : hgraph) (e : hedge) : Prop :=
  In (eto e) (efrom e) -> forall u, In u (vars (efla e)) -> In u (own_vars g e).
Definition removed_of (x : entry_t) : hedge := match x with Deleted e _ => e | Replaced _ e _ _ => e end.

Section StepValid.
Variable g : hgraph.
Hypothesis W : wf_graph g.
Hypothesis U : unbased g.
Variable e : hedge.
Hypothesis He : In e (gedges g).
Variable s : sym.
Hypothesis Fe : efrom e = [s].
Hypothesis Ns : s <> entry.
Hypothesis P : private_edge g e.
Let R := wf_rep g W.
Lemma s_exit : s <> exit.
Proof. intros ->. apply (wf_exit g W e He). rewrite Fe. left. reflexivity. Qed.
Lemma s_vertex : vertex g s.
Proof. apply (vertex_src g e s He). rewrite Fe. left. reflexivity. Qed.

(** Variables of the two sides of the interpolation problem. *)
Definition side_a (u : var) : Prop := (exists p i b, vertex g p /\ In b (gpv g p) /\ u = src i b) \/ exists x, In x (ins g s) /\ In u (vars (efla x)).
Definition side_b (u : var) : Prop := (exists b, In b (gpv g (eto e)) /\ u = tgt b) \/ In u (vars (efla e)).
Lemma side_common u : side_a u -> side_b u -> ~ In u (tgt_vars g s) -> ~ In u (src_vars g (s, 0)) -> False.
Proof.
  intros A B N1 N2.
  assert (A' : (exists p i b, vertex g p /\ In b (gpv g p) /\ u = src i b) \/ exists x, In x (ins g s) /\ In u (vars (efla x)) /\ ~ In u (own_vars g x)).
  { destruct A as [A|[x [Hx Hu]]]; [left; exact A|]. destruct (in_dec var_dec u (own_vars g x)) as [O|O]; [|right; eauto].
    left. apply ins_in in Hx as [Hx Tx]. unfold own_vars in O. apply in_app_iff in O as [O|O]; [|rewrite Tx in O; contradiction].
    apply in_concat in O as [k [Hk O]]. apply in_map_iff in Hk as [[p i] [<- Hp]]. apply in_src_vars in O as [b [Hb ->]]. cbn [fst snd] in *.
    exists p, i, b. split; [apply (vertex_src g x p Hx), (in_instances _ _ _ Hp)|auto]. }
  assert (B' : (exists b, In b (gpv g (eto e)) /\ u = tgt b) \/ (In u (vars (efla e)) /\ ~ In u (own_vars g e))).
  { destruct B as [B|B]; [left; exact B|]. destruct (in_dec var_dec u (own_vars g e)) as [O|O]; [|right; auto].
    apply (own_single g e s u Fe) in O as [O|O]; [contradiction|]. left. apply in_map_iff in O as [b [<- Hb]]. eauto. }
  destruct A' as [[p [i [b [Vp [Hb ->]]]]]|[x [Hx [Hu No]]]], B' as [[c [Hc E]]|[Hu2 No2]].
  - exact (src_tgt_v _ _ _ E).
  - apply (wf_label g W e _ He Hu2 No2 p Vp). exists b. eauto.
  - apply ins_in in Hx as [Hx _]. apply (wf_label g W x _ Hx Hu No (eto e) (vertex_tgt g e He)). exists c. auto.
  - apply ins_in in Hx as [Hx Tx]. destruct (Nat.eq_dec (eid x) (eid e)) as [E|N].
    + apply (wf_edge_eq g x e W Hx He) in E. subst x. apply No2, P; [rewrite Fe, Tx; left; reflexivity|exact Hu2].
    + destruct (wf_priv g W x e u Hx He N Hu Hu2). contradiction.
Qed.
Lemma side_a_base u : side_a u -> vtag u <> TBase.
Proof. intros [[p [i [b [_ [_ ->]]]]]|[x [Hx Hu]]]; [discriminate|]. apply ins_in in Hx as [Hx _]. exact (U x u Hx Hu). Qed.
Lemma side_b_base u : side_b u -> vtag u <> TBase.
Proof. intros [[b [_ ->]]|Hu]; [discriminate|]. exact (U e u He Hu). Qed.

Variable check : check_fn.
Variable itp : itp_fn.
Hypothesis Hitp : itp_ok itp.
Lemma uniq_e x : In x (gedges g) -> eid x = eid e -> x = e.
Proof. intros Hx E. exact (wf_edge_eq g x e W Hx He E). Qed.

(** *** Replacement *)
Section Repl.
Variable p : hedge.
Hypothesis Hp : In p (gedges g).
Hypothesis Tp : eto p = s.
Variable q : sym.
Hypothesis Fp : efrom p = [q].
Hypothesis Nq : q <> eto p.
Variable g' : hgraph.
Hypothesis PV : gpv g' = gpv g.
Hypothesis Sub : forall x, In x (gedges g) -> x <> e -> In x (gedges g').
Hypothesis Ver : forall v, vertex g' v -> vertex g v.
Lemma repl_valid w w' : solution g' w -> only g' w -> back_replaced check itp g e p (ins g s) w = Some w' -> solution g w' /\ only g w'.
Proof.
  intros Sw Ow H. unfold back_replaced in H. rewrite Fp, Fe, Tp in H. destruct (w q) as [ds|] eqn:Eq; [|discriminate]. destruct (w s) as [dm|] eqn:Es; [|discriminate]. destruct (w (eto e)) as [dt|] eqn:Et; [|discriminate].
  destruct (Nat.eqb_spec q s) as [X|_]; [discriminate|]. set (A := mkOr _) in H. set (B := mkAnd _) in H.
  destruct (interpolant_for check itp g s A B) as [J|] eqn:EJ; [|discriminate]. injection H as <-.
  assert (SV : wvars g w) by (intros a d Ed u Hu; rewrite <- PV; exact (sol_vars _ _ Sw a d Ed u Hu)).
  assert (Vq : vertex g q) by (apply (vertex_src g p q Hp); rewrite Fp; left; reflexivity).
  assert (SA : forall u, In u (vars A) -> side_a u).
  { intros u Hu. unfold A in Hu. apply in_vars_app in Hu as [t [Ht Hu]]. apply in_map_iff in Ht as [x [<- Hx]]. destruct (Nat.eqb_spec (eid x) (eid p)) as [E|N].
    - apply ins_in in Hx as [Hx _]. apply (wf_edge_eq g x p W Hx Hp) in E. subst x. apply in_vars_app in Hu as [t [Ht Hu]]. destruct Ht as [<-|[<-|[]]].
      + rewrite vars_rename in Hu. apply in_map_iff in Hu as [b [<- Hb]]. left. exists q, 0, b. split; [exact Vq|]. split; [exact (SV q ds Eq b Hb)|reflexivity].
      + right. exists p. split; [apply ins_in; auto|exact Hu].
    - right. eauto. }
  assert (SB : forall u, In u (vars B) -> side_b u).
  { intros u Hu. unfold B in Hu. apply in_vars_app in Hu as [t [Ht Hu]]. destruct Ht as [<-|[<-|[]]]; [right; exact Hu|]. apply in_vars_app in Hu as [t [[<-|[]] Hu]].
    rewrite vars_rename in Hu. apply in_map_iff in Hu as [b [<- Hb]]. left. exists b. split; [exact (SV _ dt Et b Hb)|reflexivity]. }
  destruct (interpolant_for_ok g R s check itp Hitp A B J EJ) as [JV [JA JB]].
  { intros u Hu. apply side_a_base, SA, Hu. } { intros u Hu. apply side_b_base, SB, Hu. } { intros u Ha Hb. apply side_common; [apply SA, Ha|apply SB, Hb]. }
  split.
  - refine (strengthen g g' e s w dm (mkAnd [dm; J]) dt PV Sub uniq_e Sw Fe Ns s_exit Es Et _ _ _ _).
    + intros u Hu. apply in_vars_app in Hu as [t [Ht Hu]]. destruct Ht as [<-|[<-|[]]]; [exact (SV s dm Es u Hu)|exact (JV u Hu)].
    + intros r Hr. apply holds_and in Hr. exact (Forall_inv Hr).
    + intros x r Hx Hr Hpr Hd. cbn [rename mkAnd map]. apply (holds_and r [rename tgt dm; rename tgt J]). constructor; [exact Hd|]. constructor; [|constructor]. apply JA. apply holds_or. apply Exists_exists.
      eexists. split; [apply in_map, Hx|]. cbv beta. destruct (Nat.eqb_spec (eid x) (eid p)) as [E|N]; [|exact Hr].
      apply ins_in in Hx as [Hx _]. apply (wf_edge_eq g x p W Hx Hp) in E. subst x. apply holds_and. constructor; [|constructor; [exact Hr|constructor]]. apply (Hpr q 0 ds); [rewrite Fp; left; reflexivity|exact Eq].
    + intros r Hr HX. cbn [rename mkAnd map] in HX. apply (holds_and r [rename (src 0) dm; rename (src 0) J]) in HX. pose proof (Forall_inv (Forall_inv_tail HX)) as HJ. destruct (holds_dec r (rename tgt dt)) as [Y|N]; [exact Y|]. exfalso. apply (JB r HJ). unfold B. apply holds_and.
      constructor; [exact Hr|]. constructor; [apply holds_not, N|constructor].
  - intros a Ha. destruct (Nat.eq_dec a s) as [->|Na]; [apply s_vertex|]. rewrite wset_other in Ha by exact Na. apply Ver, Ow, Ha.
Qed.
End Repl.

(** *** Deletion *)
(** Defining as [true] a vertex that no edge mentions. *)
Lemma winsert_solution h w v : v <> exit -> v <> entry -> solution h w -> solution h (winsert tt_true w v).
Proof.
  intros N1 N2 Sw. unfold winsert. destruct (w v) as [d|] eqn:E; [exact Sw|]. destruct Sw as [SV S0 S1 SE]. split.
  - intros p d H u Hu. destruct (Nat.eq_dec p v) as [->|Np]; [rewrite wset_same in H; injection H as <-; destruct Hu|rewrite wset_other in H by exact Np; exact (SV p d H u Hu)].
  - rewrite wset_other; auto.
  - rewrite wset_other; auto.
  - intros x Hx. destruct (SE x Hx) as [D1 [dt [D2 D3]]]. assert (forall p, In p (efrom x) -> p <> v) as Nv by (intros p Hp ->; exact (D1 v Hp E)).
    split; [intros p Hp; rewrite wset_other by auto; auto|]. exists dt. rewrite wset_other by congruence. split; [exact D2|]. intros r Hr Hpr. apply D3; [exact Hr|].
    intros p i d Hi Hd. apply (Hpr p i d Hi). rewrite wset_other; [exact Hd|]. apply Nv, (in_instances _ _ _ Hi).
Qed.
Lemma winsert_defined w v : winsert tt_true w v v <> None.
Proof. unfold winsert. destruct (w v) eqn:E; [congruence|]. rewrite wset_same. discriminate. Qed.
Lemma winsert_other w v p : p <> v -> winsert tt_true w v p = w p.
Proof. intros N. unfold winsert. destruct (w v); [reflexivity|]. apply wset_other, N. Qed.
Lemma winsert_keep w v p d : w p = Some d -> winsert tt_true w v p = Some d.
Proof. intros H. unfold winsert. destruct (w v) eqn:E; [exact H|]. rewrite wset_other; [exact H|]. congruence. Qed.
Lemma winsert_wset w a b X p : (a = b -> w a <> None) -> winsert tt_true (wset w a X) b p = wset (winsert tt_true w b) a X p.
Proof.
  intros H. destruct (Nat.eq_dec b a) as [->|Nb].
  - unfold winsert. rewrite wset_same. destruct (w a) eqn:E; [reflexivity|]. destruct (H eq_refl eq_refl).
  - unfold winsert. rewrite (wset_other w a X b Nb). destruct (w b) eqn:E; [reflexivity|]. unfold wset. destruct (Nat.eqb_spec p b), (Nat.eqb_spec p a); congruence.
Qed.
Lemma del_valid w w' : let g' := delete_edge (eid e) g in solution g' w -> only g' w -> back_deleted check itp g e (ins g s) w = Some w' -> solution g w' /\ only g w'.
Proof.
  intros g' Sw Ow H. unfold back_deleted in H. rewrite Fe in H.
  assert (Sub : forall x, In x (gedges g) -> x <> e -> In x (gedges g')) by (intros x Hx Nx; apply delete_edges; split; [exact Hx|intros E; exact (Nx (uniq_e x Hx E))]).
  assert (Te : eto e <> entry) by apply (wf_entry g W e He).
  set (w1 := winsert tt_true w s) in *. set (w0 := winsert tt_true w1 (eto e)).
  assert (S1 : solution g' w1) by (apply winsert_solution; [apply s_exit|exact Ns|exact Sw]).
  assert (S0 : solution g' w0).
  { unfold w0. destruct (Nat.eq_dec (eto e) exit) as [Ex|Nx]; [|apply winsert_solution; assumption]. unfold winsert. destruct (w1 (eto e)) eqn:E1; [exact S1|].
    exfalso. destruct (sol_exit _ _ S1) as [d [Ed _]]. congruence. }
  assert (O1 : only g w1).
  { intros a Ha. unfold w1 in Ha. destruct (Nat.eq_dec a s) as [->|Na]; [apply s_vertex|]. rewrite winsert_other in Ha by exact Na. apply Ow in Ha. apply (vertex_filter _ g a Ha). }
  assert (Ofin : forall w2, only g w2 -> only g (winsert tt_true w2 (eto e))).
  { intros w2 O2 a Ha. destruct (Nat.eq_dec a (eto e)) as [->|Na]; [apply (vertex_tgt g e He)|]. rewrite winsert_other in Ha by exact Na. apply O2, Ha. }
  assert (Oset : forall X, only g (wset w1 s X)). { intros X a Ha. destruct (Nat.eq_dec a s) as [->|Na]; [apply s_vertex|]. rewrite wset_other in Ha by exact Na. apply O1, Ha. }
  pose proof (winsert_defined w s) as Ds. fold w1 in Ds. destruct (w1 s) as [d|] eqn:Es; [|congruence].
  assert (E0 : w0 s = Some d) by (unfold w0; apply winsert_keep, Es).
  pose proof (winsert_defined w1 (eto e)) as Dt. fold w0 in Dt. destruct (w0 (eto e)) as [dt|] eqn:Et; [clear Dt|congruence].
  assert (Fin : forall X, (forall u, In u (vars X) -> In u (gpv g s)) -> (forall r, holds r X -> holds r d) ->
    (forall x r, In x (ins g s) -> holds r (efla x) -> holds r (rename tgt d) -> holds r (rename tgt X)) -> (forall r, holds r (efla e) -> holds r (rename (src 0) X) -> False) ->
    solution g (winsert tt_true (wset w1 s X) (eto e))).
  { intros X H1 H2 H3 H4. apply (solution_ext g (wset w0 s X)); [intros a; apply winsert_wset; intros _; congruence|].
    apply (strengthen g g' e s w0 d X dt eq_refl Sub uniq_e S0 Fe Ns s_exit E0 Et H1 H2); [intros; eapply H3; eauto|]. intros r Hr HX. destruct (H4 r Hr HX). }
  destruct (ins g s) as [|x0 xs] eqn:Ei.
  - injection H as <-. split; [|apply Ofin, Oset]. apply Fin.
    + intros u [].
    + intros r Hr. destruct (holds_false r Hr).
    + intros x r [].
    + intros r _ Hr. destruct (holds_false r Hr).
  - destruct (term_eqb d tt_false) eqn:Ed.
    + injection H as <-. split; [|apply Ofin, O1]. apply term_eqb_iff in Ed. subst d.
      apply (solution_ext g (winsert tt_true (wset w1 s tt_false) (eto e))).
      * intros a. assert (Q : forall b, wset w1 s tt_false b = w1 b) by (intros b; destruct (Nat.eq_dec b s) as [->|Nb]; [rewrite wset_same; congruence|apply wset_other, Nb]).
        unfold winsert. rewrite Q. destruct (w1 (eto e)) eqn:X; [symmetry; apply Q|]. unfold wset at 1 2. destruct (Nat.eqb a (eto e)); [reflexivity|symmetry; apply Q].
      * apply Fin; auto; [intros u []|]. intros r _ Hr. exact (holds_false r Hr).
    + set (A := mkOr _) in H. destruct (interpolant_for check itp g s A (efla e)) as [J|] eqn:EJ; [|discriminate]. injection H as <-.
      assert (SA : forall u, In u (vars A) -> side_a u).
      { intros u Hu. unfold A in Hu. apply in_vars_app in Hu as [t [Ht Hu]]. apply in_map_iff in Ht as [x [<- Hx]]. right. exists x. rewrite Ei. auto. }
      destruct (interpolant_for_ok g R s check itp Hitp A (efla e) J EJ) as [JV [JA JB]].
      { intros u Hu. apply side_a_base, SA, Hu. } { intros u Hu. apply (U e u He Hu). } { intros u Ha Hb. apply side_common; [apply SA, Ha|right; exact Hb]. }
      split; [|apply Ofin, Oset]. apply Fin.
      * intros u Hu. apply in_vars_app in Hu as [t [Ht Hu]]. destruct Ht as [<-|[<-|[]]]; [exact (sol_vars _ _ S1 s d Es u Hu)|exact (JV u Hu)].
      * intros r Hr. apply holds_and in Hr. exact (Forall_inv Hr).
      * intros x r Hx Hr Hd. cbn [rename mkAnd map]. apply (holds_and r [rename tgt d; rename tgt J]). constructor; [exact Hd|]. constructor; [|constructor]. apply JA. apply holds_or, Exists_exists. exists (efla x). split; [apply in_map, Hx|exact Hr].
      * intros r Hr HX. cbn [rename mkAnd map] in HX. apply (holds_and r [rename (src 0) d; rename (src 0) J]) in HX. exact (JB r (Forall_inv (Forall_inv_tail HX)) Hr).
Qed.
End StepValid.

(** ** Independence of the edges of the graph *)
Lemma interpolant_for_pv check itp g h v A B : gpv h = gpv g -> interpolant_for check itp h v A B = interpolant_for check itp g v A B.
Proof. intros E. unfold interpolant_for, ei_vars, tgt_vars, src_vars. rewrite E. reflexivity. Qed.
Lemma back_entry_valid_pv check itp g h x w : gpv h = gpv g -> back_entry_valid check itp h x w = back_entry_valid check itp g x w.
Proof.
  intros E. destruct x as [e l|a e p l]; cbn [back_entry_valid].
  - unfold back_deleted. destruct (efrom e) as [|s [|]]; try reflexivity. destruct l; [reflexivity|]. destruct (winsert tt_true w s s) as [d|]; [|reflexivity].
    destruct (term_eqb d tt_false); [reflexivity|]. rewrite (interpolant_for_pv check itp g h _ _ _ E). reflexivity.
  - unfold back_replaced. destruct (efrom p) as [|s [|]]; try reflexivity. destruct (efrom e) as [|s' [|]]; try reflexivity. destruct (w s) as [ds|]; [|reflexivity]. destruct (w (eto p)) as [dm|]; [|reflexivity]. destruct (w (eto e)); [|reflexivity].
    destruct (Nat.eqb s (eto p)); [reflexivity|]. rewrite (interpolant_for_pv check itp g h _ _ _ E). reflexivity.
Qed.
Lemma replace_summarizing_pv check g h c d i : gpv h = gpv g -> replace_summarizing check h c d i = replace_summarizing check g c d i.
Proof.
  intros E. unfold replace_summarizing, path_constraint, sent_label, convert_var, model_facts, vars_at, src_vars, tgt_vars. rewrite E. reflexivity.
Qed.
Lemma back_chain_invalid_pv check g h fuel ce d : gpv h = gpv g -> back_chain_invalid check h fuel ce d = back_chain_invalid check g fuel ce d.
Proof.
  intros E. revert d. induction fuel as [|f IH]; intros d; [reflexivity|]. cbn [back_chain_invalid]. destruct (find_step _ d) as [i|]; [|reflexivity].
  rewrite (replace_summarizing_pv check g h _ _ _ E). destruct (replace_summarizing check g (fst ce) d i); [apply IH|reflexivity].
Qed.
Lemma back_entry_invalid_pv check g h x d : gpv h = gpv g -> back_entry_invalid check h x d = back_entry_invalid check g x d.
Proof. intros E. destruct x; [reflexivity|]. cbn [back_entry_invalid]. apply back_chain_invalid_pv, E. Qed.

(** ** One edge *)
Section Whole.
Variable elim : elim_fn.
Hypothesis Helim : elim_ok elim.
Variable fresh : nat.
Variable check : check_fn.
Hypothesis Hck : check_ok check.
Variable itp : itp_fn.
Hypothesis Hitp : itp_ok itp.

(** [bv]: the back translation of solutions if the entries are private. *)
Record inlined (g g' : hgraph) (l : list entry_t) : Prop := {
  in_wf : wf_graph g';
  in_unbased : unbased g';
  in_pv : gpv g' = gpv g;
  in_vertex : forall v, vertex g' v -> vertex g v;
  in_verdict : derivable g exit [] <-> derivable g' exit [];
  in_invalid : forall d d', error_derivation g' d -> back_all (rev (map (back_entry_invalid check g) l)) d = Some d' -> error_derivation g d';
  in_valid : Forall (fun x => private_edge g (removed_of x)) l ->
    forall w w', solution g' w -> only g' w -> back_all (rev (map (back_entry_valid check itp g) l)) w = Some w' -> solution g w' /\ only g w'
}.
Lemma own_not_base g e u : In u (own_vars g e) -> vtag u <> TBase.
Proof. intros H. apply own_has_version in H as [p [_ [b [_ [[i ->]| ->]]]]]; discriminate. Qed.
Lemma added_unbased g e p q : wf_graph g -> pair_ok g p e q [] [] -> forall u, In u (vars (efla (snd (merge_pair elim fresh g p e)))) -> vtag u <> TBase.
Proof.
  intros W P u Hu. destruct (merge_pair_added elim Helim fresh g W p e q [] [] P) as [fla [Em _]]. rewrite Em in Hu.
  apply added_vars in Hu as [O|[k [s [_ [_ ->]]]]]; [exact (own_not_base _ _ _ O)|discriminate].
Qed.
Lemma inline_one_ok g e g' x : wf_graph g -> unbased g -> In e (gedges g) -> inline_one elim fresh g e = Some (g', x) ->
  inlined g g' [x] /\ (forall y, In y (gedges g) -> y <> e -> In y (gedges g')) /\ removed_of x = e.
Proof.
  intros W U He H. unfold inline_one in H. destruct (efrom e) as [|s [|]] eqn:Fe; try discriminate. destruct (Nat.eqb_spec s entry) as [|Ns]; [discriminate|].
  rewrite (incoming_eq g s W) in H. destruct (feasible g (ins g s) e) as [|p [|]] eqn:Ef; try discriminate.
  - injection H as <- <-. split; [|split; [|reflexivity]].
    + split.
      * apply wf_filter, W.
      * intros y v Hy. apply delete_edges in Hy as [Hy _]. apply (U y v Hy).
      * reflexivity.
      * intros v Hv. apply (vertex_filter _ g v Hv).
      * apply (del_verdict g W e He s Fe Ns Ef (exit, [])).
      * intros d d' D E. cbn in E. injection E as <-. revert D. apply error_derivation_sub; [reflexivity|]. intros y Hy. apply delete_edges in Hy. tauto.
      * intros Pr w w' Sw Ow E. unfold back_all in E. cbn [map rev app fold_left back_entry_valid] in E. pose proof (Forall_inv Pr) as P1. cbn [removed_of] in P1.
        exact (del_valid g W U e He s Fe Ns P1 check itp Hitp w w' Sw Ow E).
    + intros y Hy Ny. apply delete_edges. split; [exact Hy|]. intros E. apply Ny, (wf_edge_eq g y e W Hy He E).
  - destruct (efrom p) as [|q [|]] eqn:Fp; try discriminate. destruct (Nat.eqb_spec q (eto p)) as [|Nq]; [discriminate|].
    unfold inline_edge in H. pose proof (p_pair g e He s Fe p Ef q Fp Nq) as PP. pose proof (p_in g e s p Ef) as [Hp Tp].
    pose proof (rep_facts elim Helim fresh g W e He s Fe p Ef q Fp Nq) as RF. cbv zeta in RF.
    pose proof (rep_wf' elim Helim fresh g W e He s Fe p Ef q Fp Nq) as [W' PV].
    pose proof (rep_edges elim Helim fresh g W e He s Fe Ns p Ef q Fp Nq) as RE.
    pose proof (rep_verdict elim Helim fresh g W e He s Fe Ns p Ef q Fp Nq (exit, [])) as RV.
    pose proof (rep_invalid elim Helim fresh g W e He s Fe Ns p Ef q Fp Nq check Hck) as RI.
    pose proof (added_unbased g e p q W PP) as AU.
    destruct (merge_pair elim fresh g p e) as [g1 a] eqn:Em. cbn [fst snd] in *. injection H as <- <-.
    destruct RF as [_ [_ [_ [_ [Fa [Ta [RVt _]]]]]]].
    assert (Sub : forall y, In y (gedges g) -> y <> e -> In y (gedges (delete_edge (eid e) g1))) by (intros y Hy Ny; apply RE; auto).
    assert (Ver : forall v, vertex (delete_edge (eid e) g1) v -> vertex g v) by (intros v Hv; apply RVt, (vertex_filter _ g1 v Hv)).
    split; [|split; [exact Sub|reflexivity]]. split.
    + exact W'.
    + intros y v Hy Hv. apply RE in Hy as [[Hy _]| ->]; [exact (U y v Hy Hv)|exact (AU v Hv)].
    + exact PV.
    + exact Ver.
    + exact RV.
    + intros d d' D E. unfold back_all in E. cbn [map rev app fold_left back_entry_invalid] in E. exact (RI _ d d' D E).
    + intros Pr w w' Sw Ow E. unfold back_all in E. cbn [map rev app fold_left back_entry_valid] in E. pose proof (Forall_inv Pr) as P1. cbn [removed_of] in P1.
      exact (repl_valid g W U e He s Fe Ns P1 check itp Hitp p Hp Tp q Fp _ PV Sub Ver w w' Sw Ow E).
Qed.
Lemma back_all_app {A} (l1 l2 : list (A -> option A)) a : back_all (l1 ++ l2) a = match back_all l1 a with Some b => back_all l2 b | None => None end.
Proof.
  unfold back_all. rewrite fold_left_app. destruct (fold_left _ l1 (Some a)); [reflexivity|apply back_all_none].
Qed.
Lemma back_all_map_ext {A B} (f f' : B -> A -> option A) l : (forall x a, f x a = f' x a) -> forall a, back_all (rev (map f l)) a = back_all (rev (map f' l)) a.
Proof.
  intros E. apply back_all_ext. apply Forall2_rev'. induction l as [|x l IH]; constructor; auto.
Qed.
Lemma private_pv g h x : gpv h = gpv g -> private_edge g x -> private_edge h x.
Proof. intros E P L u Hu. rewrite (own_vars_pv g h x E). exact (P L u Hu). Qed.
Lemma inlined_trans g1 g2 g3 l1 l2 : inlined g1 g2 l1 -> inlined g2 g3 l2 -> inlined g1 g3 (l1 ++ l2).
Proof.
  intros [A1 A2 A3 A4 A5 A6 A7] [B1 B2 B3 B4 B5 B6 B7]. split; auto.
  - congruence.
  - rewrite A5. exact B5.
  - intros d d' D E. rewrite map_app, rev_app_distr in E. unfold backI, backV in E. rewrite back_all_app in E.
    match type of E with match ?t with _ => _ end = _ => destruct t as [d1|] eqn:E1; [|discriminate] end.
    apply (A6 d1 d'); [|exact E]. apply (B6 d d1 D). rewrite <- E1. apply back_all_map_ext. intros x a. apply back_entry_invalid_pv, A3.
  - intros Pr w w' Sw Ow E. rewrite map_app, rev_app_distr in E. unfold backI, backV in E. rewrite back_all_app in E.
    match type of E with match ?t with _ => _ end = _ => destruct t as [w1|] eqn:E1; [|discriminate] end. apply Forall_app in Pr as [P1 P2].
    assert (Q : solution g2 w1 /\ only g2 w1).
    { apply (B7) with (w := w); auto; [eapply Forall_impl; [|exact P2]; intros x; apply private_pv, A3|]. rewrite <- E1. apply back_all_map_ext. intros x a. apply back_entry_valid_pv, A3. }
    apply (A7 P1 w1 w'); tauto.
Qed.
Lemma inlined_nil g : wf_graph g -> unbased g -> inlined g g [].
Proof. intros W U. split; auto; [tauto| |]; intros; match goal with H : back_all _ _ = Some _ |- _ => cbn in H; injection H as <- end; auto. Qed.
Lemma inline_pass_ok : forall es g g' l, wf_graph g -> unbased g -> (forall e, In e es -> In e (gedges g)) -> NoDup (map eid es) ->
  inline_pass elim fresh g es = (g', l) -> inlined g g' l.
Proof.
  induction es as [|e es IH]; intros g g' l W U Hes N H; cbn [inline_pass] in H; [injection H as <- <-; apply inlined_nil; assumption|].
  cbn [map] in N. inversion N as [|? ? Ne N']; subst. destruct (inline_one elim fresh g e) as [[g1 x]|] eqn:E1.
  - destruct (inline_pass elim fresh g1 es) as [g2 l2] eqn:E2. injection H as <- <-.
    destruct (inline_one_ok g e g1 x W U (Hes e (or_introl eq_refl)) E1) as [I1 [Sub _]].
    apply (inlined_trans g g1 g2 [x] l2 I1). apply (IH g1 g2 l2 (in_wf _ _ _ I1) (in_unbased _ _ _ I1)); [|exact N'|exact E2].
    intros y Hy. apply Sub; [apply Hes; right; exact Hy|]. intros ->. apply Ne, in_map, Hy.
  - apply (IH g g' l W U); auto. intros y Hy. apply Hes. right. exact Hy.
Qed.
Theorem inline_loop_ok : forall fuel g g' l, wf_graph g -> unbased g -> inline_loop elim fresh fuel g = Some (g', l) -> inlined g g' l.
Proof.
  induction fuel as [|fuel IH]; intros g g' l W U H; [discriminate|]. cbn [inline_loop] in H.
  destruct (inline_pass elim fresh g (gedges g)) as [g1 l1] eqn:E1. pose proof (inline_pass_ok _ g g1 l1 W U (fun e He => He) (wf_ids g W) E1) as I1.
  destruct l1 as [|x l1]; [injection H as <- <-; exact I1|]. destruct (inline_loop elim fresh fuel g1) as [[g2 l2]|] eqn:E2; [|discriminate]. injection H as <- <-.
  apply (inlined_trans g g1 g2 (x :: l1) l2 I1). apply (IH g1 g2 l2 (in_wf _ _ _ I1) (in_unbased _ _ _ I1) E2).
Qed.
(** At the end no edge can be inlined or removed. *)
Lemma inline_pass_fixed : forall es g g', inline_pass elim fresh g es = (g', []) -> g' = g /\ forall e, In e es -> inline_one elim fresh g e = None.
Proof.
  induction es as [|e es IH]; intros g g' H; cbn [inline_pass] in H; [injection H as <-; split; [reflexivity|intros ? []]|].
  destruct (inline_one elim fresh g e) as [[g1 x]|] eqn:E1; [destruct (inline_pass elim fresh g1 es); discriminate|].
  destruct (IH g g' H) as [-> Q]. split; [reflexivity|]. intros y [<-|Hy]; auto.
Qed.
Theorem inline_loop_final : forall fuel g g' l, inline_loop elim fresh fuel g = Some (g', l) -> forall e, In e (gedges g') -> inline_one elim fresh g' e = None.
Proof.
  induction fuel as [|fuel IH]; intros g g' l H; [discriminate|]. cbn [inline_loop] in H.
  destruct (inline_pass elim fresh g (gedges g)) as [g1 l1] eqn:E1. destruct l1 as [|x l1].
  - injection H as <- <-. destruct (inline_pass_fixed _ _ _ E1) as [-> Q]. exact Q.
  - destruct (inline_loop elim fresh fuel g1) as [[g2 l2]|] eqn:E2; [|discriminate]. injection H as <- <-. exact (IH g1 g2 l2 E2).
Qed.
End Whole.
