(** * Translating solutions back through the nested-loop transformation. *)
From Coq Require Import Permutation.
From Verif Require Import Syntax Solver TransSys Graph GraphOps GraphOpsProofs DfsProofs LoopProofs GraphSem Names ListLemmas SimpleTransModel MergeModel MergeProofs LinearModel LinearProofs LinearPath ExpandProofs ContractModel ContractProofs ContractLabels ContractSem ContractWf ContractDef NontermProofs NestedModel NestedProofs.
Open Scope list_scope.
Open Scope nat_scope.

Lemma lsolution_ext g w w' : (forall p, w p = w' p) -> lsolution g w -> lsolution g w'.
Proof.
  intros E [H1 H2 H3 H4]. split.
  - intros p d. rewrite <- E. apply H1.
  - rewrite <- E. exact H2.
  - rewrite <- E. exact H3.
  - intros e He. rewrite <- !E. apply H4, He.
Qed.
Lemma args_of_ext g g' p : lpv g p = lpv g' p -> args_of g p = args_of g' p.
Proof. intros E. unfold args_of. rewrite E. reflexivity. Qed.
Lemma vertex_def_ext g g' qe simp tag sub sub' inv p : lpv g p = lpv g' p -> subst sub inv = subst sub' inv ->
  vertex_def g qe simp tag sub inv p = vertex_def g' qe simp tag sub' inv p.
Proof. intros E S. unfold vertex_def. rewrite (args_of_ext g g' p E), E, S. reflexivity. Qed.
Lemma vertex_def_stuck g qe simp tag sub inv p : vertex_def g qe simp tag sub inv p = None -> exists f keep, qe f keep = None.
Proof. unfold vertex_def. destruct (existsb _ _); [|discriminate]. destruct (qe _ _) eqn:Q; [discriminate|eauto]. Qed.

(** ** The loops of the model *)
Section Loops.
Variable qe : qe_fn.
Variable simp : term -> term.
Variable g : lgraph.
Variable all : list cdata.
Variable w0 : defs_t.
Definition in_set (c : cdata) (p : sym) : Prop := lvertex g p /\ p <> entry /\ p <> exit /\ In p (cd_set c).
Lemma nl_vertices_spec c inv ps : forall w, NoDup ps -> (forall p, In p ps -> lvertex g p) -> (forall p, In p ps -> in_set c p -> w p = None) ->
  match nl_vertices qe simp g all c inv ps w with
  | NlDefs w' => (forall p, In p ps -> in_set c p -> exists d, vertex_def g qe simp (fun v => v) (nl_sub g all p) inv p = Some d /\ w' p = Some d) /\
                 (forall p, ~ (In p ps /\ in_set c p) -> w' p = w p)
  | NlThrow => False
  | NlStuck => exists f keep, qe f keep = None
  end.
Proof.
  induction ps as [|p ps IH]; intros w N Vx Z; cbn [nl_vertices]; [split; [intros p []|intros p _; reflexivity]|]. inversion N as [|? ? N1 N2]; subst.
  assert (Vx' : forall q, In q ps -> lvertex g q) by (intros q Hq; apply Vx; right; exact Hq).
  destruct (Nat.eqb p entry || Nat.eqb p exit || negb (mem (cd_set c) p))%bool eqn:B.
  - assert (NI : ~ in_set c p).
    { intros [_ [H1 [H2 H3]]]. apply (mem_in (cd_set c)) in H3. apply Nat.eqb_neq in H1, H2. rewrite H1, H2, H3 in B. discriminate B. }
    specialize (IH w N2 Vx' (fun q Hq => Z q (or_intror Hq))). destruct (nl_vertices qe simp g all c inv ps w) as [w'| |]; auto. destruct IH as [I1 I2]. split.
    + intros q [<-|Hq] Hi; [contradiction|]. apply I1; assumption.
    + intros q Hn. apply I2. intros [Hq Hi]. apply Hn. split; [right; exact Hq|exact Hi].
  - assert (I : in_set c p).
    { rewrite !orb_false_iff in B. destruct B as [[B1 B2] B3]. apply Nat.eqb_neq in B1, B2. apply negb_false_iff, mem_in in B3. split; [apply Vx; left; reflexivity|]. auto. }
    destruct (vertex_def g qe simp (fun v => v) (nl_sub g all p) inv p) as [d|] eqn:E; [|apply vertex_def_stuck in E; exact E].
    assert (Zp : w p = None) by (apply Z; [left; reflexivity|exact I]).
    assert (Ew : winsert d w p = wset w p d) by (unfold winsert; rewrite Zp; reflexivity). rewrite Ew.
    specialize (IH (wset w p d) N2 Vx'). destruct (nl_vertices qe simp g all c inv ps (wset w p d)) as [w'| |].
    + destruct IH as [I1 I2].
      { intros q Hq Hi. unfold wset. destruct (Nat.eqb_spec q p) as [->|_]; [contradiction|]. apply Z; [right; exact Hq|exact Hi]. }
      split.
      * intros q [<-|Hq] Hi; [|apply I1; assumption]. exists d. split; [exact E|]. rewrite I2; [unfold wset; rewrite Nat.eqb_refl; reflexivity|]. intros [X _]. contradiction.
      * intros q Hn. rewrite I2; [|intros [Hq Hi]; apply Hn; split; [right; exact Hq|exact Hi]]. unfold wset. destruct (Nat.eqb_spec q p) as [->|_]; [|reflexivity].
        destruct Hn. split; [left; reflexivity|exact I].
    + apply IH. intros q Hq Hi. unfold wset. destruct (Nat.eqb_spec q p) as [->|_]; [contradiction|]. apply Z; [right; exact Hq|exact Hi].
    + apply IH. intros q Hq Hi. unfold wset. destruct (Nat.eqb_spec q p) as [->|_]; [contradiction|]. apply Z; [right; exact Hq|exact Hi].
Qed.
Lemma nl_loops_spec cs : forall w, NoDup (map cd_vertex cs) -> NoDup (concat (map cd_set cs)) ->
  (forall c p, In c cs -> In p (cd_set c) -> in_set c p /\ w p = None /\ forall c', In c' cs -> cd_vertex c' <> p) ->
  (forall c, In c cs -> w0 (cd_vertex c) <> None) ->
  match nl_loops qe simp g all w0 cs w with
  | NlDefs w' =>
      (forall c p, In c cs -> In p (cd_set c) -> exists inv d, w0 (cd_vertex c) = Some inv /\ vertex_def g qe simp (fun v => v) (nl_sub g all p) inv p = Some d /\ w' p = Some d) /\
      (forall c, In c cs -> w' (cd_vertex c) = None) /\
      (forall p, ~ In p (concat (map cd_set cs)) -> ~ In p (map cd_vertex cs) -> w' p = w p)
  | NlThrow => False
  | NlStuck => exists f keep, qe f keep = None
  end.
Proof.
  induction cs as [|c cs IH]; intros w N1 N2 H D; cbn [nl_loops].
  - split; [intros c p []|]. split; [intros c []|]. intros p _ _. reflexivity.
  - destruct (w0 (cd_vertex c)) as [inv|] eqn:E0; [|apply (D c (or_introl eq_refl)), E0].
    cbn [map concat] in N1, N2. inversion N1 as [|? ? Nv N1']; subst.
    assert (Dj : forall p, In p (cd_set c) -> ~ In p (concat (map cd_set cs))).
    { intros p Hp X. clear -N2 Hp X. induction (cd_set c) as [|q l IHl]; [destruct Hp|]. cbn in N2. inversion N2 as [|? ? A B]; subst. destruct Hp as [->|Hp]; [apply A, in_app_iff; auto|apply IHl; assumption]. }
    assert (N2' : NoDup (concat (map cd_set cs))) by (clear -N2; induction (cd_set c); [exact N2|]; inversion N2; auto).
    pose proof (nl_vertices_spec c inv (lvertices g) (werase w (cd_vertex c)) (NoDup_nodup _ _) (fun p => proj1 (lvertices_spec g p))) as S.
    assert (Z : forall p, In p (lvertices g) -> in_set c p -> werase w (cd_vertex c) p = None).
    { intros p _ [_ [_ [_ Hp]]]. unfold werase. destruct (Nat.eqb p (cd_vertex c)); [reflexivity|]. apply (H c p (or_introl eq_refl) Hp). }
    specialize (S Z). destruct (nl_vertices qe simp g all c inv (lvertices g) (werase w (cd_vertex c))) as [w1| |]; [|destruct S|exact S]. destruct S as [S1 S2].
    assert (K : forall p, ~ In p (cd_set c) -> p <> cd_vertex c -> w1 p = w p).
    { intros p A B. rewrite S2; [|intros [_ [_ [_ [_ X]]]]; contradiction]. unfold werase. apply Nat.eqb_neq in B. rewrite B. reflexivity. }
    specialize (IH w1 N1' N2'). destruct (nl_loops qe simp g all w0 cs w1) as [w'| |].
    + destruct IH as [I1 [I2 I3]].
      { intros c' p Hc' Hp. destruct (H c' p (or_intror Hc') Hp) as [A1 [A2 A3]]. split; [exact A1|]. split; [|intros c'' Hc''; apply A3; right; exact Hc''].
        rewrite K; [exact A2| |intros X; apply (A3 c (or_introl eq_refl)); auto]. intros X. apply (Dj p X). apply in_concat. exists (cd_set c'). split; [apply in_map, Hc'|exact Hp]. }
      { intros c' Hc'. apply D. right. exact Hc'. }
      assert (C1 : forall p, In p (cd_set c) -> ~ In p (map cd_vertex cs)).
      { intros p Hp X. apply in_map_iff in X as [c' [E X]]. apply (proj2 (proj2 (H c p (or_introl eq_refl) Hp)) c' (or_intror X) E). }
      assert (C2 : ~ In (cd_vertex c) (concat (map cd_set cs))).
      { intros X. apply in_concat in X as [l [Hl X]]. apply in_map_iff in Hl as [c' [<- Hc']]. apply (proj2 (proj2 (H c' _ (or_intror Hc') X)) c (or_introl eq_refl) eq_refl). }
      split; [|split].
      * intros c' p [<-|Hc'] Hp; [|apply I1; assumption]. exists inv. destruct (H c p (or_introl eq_refl) Hp) as [A1 _]. destruct (S1 p) as [d [E1 E2]]; [apply lvertices_spec, A1|exact A1|].
        exists d. split; [exact E0|]. split; [exact E1|]. rewrite I3; [exact E2|apply Dj, Hp|apply C1, Hp].
      * intros c' [<-|Hc']; [|apply I2, Hc']. rewrite I3; [|exact C2|exact Nv]. rewrite S2; [unfold werase; rewrite Nat.eqb_refl; reflexivity|].
        intros [_ [_ [_ [_ X]]]]. apply (proj2 (proj2 (H c _ (or_introl eq_refl) X)) c (or_introl eq_refl) eq_refl).
      * intros p Hp Hq. cbn [map concat] in Hp, Hq. rewrite in_app_iff in Hp. rewrite I3; [|tauto|cbn in Hq; tauto]. apply K; [tauto|]. cbn in Hq. intros ->. tauto.
    + apply IH.
      { intros c' p Hc' Hp. destruct (H c' p (or_intror Hc') Hp) as [A1 [A2 A3]]. split; [exact A1|]. split; [|intros c'' Hc''; apply A3; right; exact Hc''].
        rewrite K; [exact A2| |intros X; apply (A3 c (or_introl eq_refl)); auto]. intros X. apply (Dj p X). apply in_concat. exists (cd_set c'). split; [apply in_map, Hc'|exact Hp]. }
      { intros c' Hc'. apply D. right. exact Hc'. }
    + apply IH.
      { intros c' p Hc' Hp. destruct (H c' p (or_intror Hc') Hp) as [A1 [A2 A3]]. split; [exact A1|]. split; [|intros c'' Hc''; apply A3; right; exact Hc''].
        rewrite K; [exact A2| |intros X; apply (A3 c (or_introl eq_refl)); auto]. intros X. apply (Dj p X). apply in_concat. exists (cd_set c'). split; [apply in_map, Hc'|exact Hp]. }
      { intros c' Hc'. apply D. right. exact Hc'. }
Qed.
End Loops.

(** ** Solutions *)
Section Inv.
Variable U : string -> Prop.
Hypothesis Uloc : forall p, ~ U (vbase (locv p)).
Hypothesis Uarg : forall p i s, ~ U (vbase (argv p i s)).
Hypothesis Uet : forall k s, ~ U (vbase (etaux k s)).
Variables (nv nid : nat -> nat).
Hypothesis nv_inj : forall i j, nv i = nv j -> i = j.
Hypothesis nid_inj : forall i j, nid i = nid j -> i = j.
Variable ord : list var -> list var.
Hypothesis Hord : forall l, Permutation (ord l) l.
Notation stage := (stage U nv nid).
Notation nested := (nested nv nid ord).
Lemma nested_sets k g h cs : nested k g h cs -> forall C, stage k C g ->
  NoDup (concat (map cd_set cs)) /\ (forall p, In p (concat (map cd_set cs)) -> ~ In p C /\ p <> entry /\ p <> exit) /\
  NoDup (map cd_vertex cs) /\ (forall c, In c cs -> exists j, k <= j /\ cd_vertex c = nv j) /\ (exists k', stage k' (C ++ concat (map cd_set cs)) h).
Proof.
  induction 1 as [k g l E L|k g l h cs E L _ IH]; intros C S.
  - split; [constructor|]. split; [intros p []|]. split; [constructor|]. split; [intros c []|]. cbn. rewrite app_nil_r. eauto.
  - pose proof (loop_vertices g l (sg_wf _ _ _ _ _ _ S) E L) as Ls. destruct (IH _ (stage_step U Uloc Uarg Uet nv nid nv_inj nid_inj ord Hord k C g _ S Ls)) as [H1 [H2 [H3 [H4 [k' H5]]]]].
    cbn [map concat cd_set cd_vertex]. split.
    { assert (X : forall p, In p (map (lsource g) l) -> ~ In p (concat (map cd_set cs))) by (intros p Hp X; apply H2 in X; apply (proj1 X), in_app_iff; auto).
      pose proof (ls_nodup _ _ Ls) as N. revert N X. generalize (map (lsource g) l). intros V N X. induction V as [|v V IHV]; [exact H1|]. inversion N as [|? ? A B]; subst. cbn. constructor.
      - rewrite in_app_iff. intros [Y|Y]; [contradiction|]. apply (X v); [left; reflexivity|exact Y].
      - apply IHV; [exact B|]. intros p Hp. apply X. right. exact Hp. }
    split.
    { intros p Hp. apply in_app_iff in Hp as [Hp|Hp].
      - split; [intros X; apply (sg_gone _ _ _ _ _ _ S p X), (ls_vertex _ _ Ls p Hp)|]. split; intros ->; [apply (ls_entry _ _ Ls Hp)|apply (ls_exit _ _ Ls Hp)].
      - destruct (H2 p Hp) as [A B]. split; [intros X; apply A, in_app_iff; auto|exact B]. }
    split.
    { constructor; [|exact H3]. intros X. apply in_map_iff in X as [c [Ec Hc]]. destruct (H4 c Hc) as [j [Hj Ej]]. rewrite Ec in Ej. apply nv_inj in Ej. lia. }
    split; [intros c [<-|Hc]; [exists k; split; [lia|reflexivity]|destruct (H4 c Hc) as [j [Hj Ej]]; exists j; split; [lia|exact Ej]]|].
    exists k'. rewrite app_assoc. exact H5.
Qed.
Lemma keep_edge g V n i e : In e (ledges g) -> ~ In (lfrom e) V -> ~ In (lto e) V -> In e (ledges (contract g V n i ord)).
Proof.
  intros He N1 N2. cbn [ledges contract]. apply in_app_iff. left. apply in_map_iff. exists e.
  assert (M1 : mem V (lfrom e) = false) by (destruct (mem V (lfrom e)) eqn:M; [apply mem_in in M; contradiction|reflexivity]).
  assert (M2 : mem V (lto e) = false) by (destruct (mem V (lto e)) eqn:M; [apply mem_in in M; contradiction|reflexivity]).
  split; [unfold cross_edge; rewrite M1, M2; reflexivity|]. apply filter_In. split; [exact He|]. unfold internal. rewrite M1. reflexivity.
Qed.
Lemma edge_survives k g h cs : nested k g h cs -> forall e, In e (ledges g) -> ~ In (lfrom e) (concat (map cd_set cs)) -> ~ In (lto e) (concat (map cd_set cs)) -> In e (ledges h).
Proof.
  induction 1 as [k g l E L|k g l h cs E L _ IH]; intros e He N1 N2; [exact He|]. cbn [map concat cd_set] in N1, N2. rewrite in_app_iff in N1, N2. apply IH; [apply keep_edge|tauto|tauto]; tauto.
Qed.
Lemma loops_survive k g h cs : nested k g h cs -> forall C, stage k C g ->
  forall c, In c cs -> ~ In (cd_vertex c) (concat (map cd_set cs)) -> exists e, In e (ledges h) /\ lfrom e = cd_vertex c.
Proof.
  induction 1 as [k g l E L|k g l h cs E L Hn IH]; intros C S c Hc N; [destruct Hc|]. pose proof (loop_vertices g l (sg_wf _ _ _ _ _ _ S) E L) as Ls.
  cbn [map concat cd_set] in N. rewrite in_app_iff in N. destruct Hc as [<-|Hc].
  - cbn [cd_vertex] in *. exists (loop_edge g (map (lsource g) l) (nv k) (nid k)). split; [|reflexivity]. apply (edge_survives _ _ _ _ Hn); [apply loop_in| |]; cbn [loop_edge lfrom lto]; tauto.
  - apply (IH _ (stage_step U Uloc Uarg Uet nv nid nv_inj nid_inj ord Hord k C g _ S Ls) c Hc). tauto.
Qed.

Variable qe : qe_fn.
Hypothesis Hqe : qe_ok qe.
Variable simp : term -> term.
Hypothesis Hsimp : simp_ok simp.
Variable g0 : lgraph.
Hypothesis nv0 : forall j, ~ lvertex g0 (nv j).
Variable all : list cdata.
Variables (w0 w : defs_t).
Lemma sub_agree V p d v : (forall q, In q V -> lvertex g0 q /\ q <> entry /\ contracted_in all q = true) -> (forall u, In u (vars d) -> In u (nv_vars g0 V ord)) -> In v (vars d) ->
  lookup v (nl_sub g0 all p) = lookup v (loc_subst V (fun u => u) p).
Proof.
  intros HV Dv Hv. apply Dv in Hv. apply (in_nvv g0 V ord Hord) in Hv as [[q [Hq ->]]|[q [Hq Hb]]].
  - transitivity (Some (if Nat.eqb q p then tt_true else tt_false)).
    + destruct (lookup (locv q) (nl_sub g0 all p)) as [u|] eqn:E.
      * apply lookup_in, in_map_iff in E as [q' [E _]]. injection E as E <-. assert (q' = q) by (apply locv_inj; unfold locv; cbn [vbase]; congruence). subst. reflexivity.
      * apply lookup_none in E. destruct E. unfold nl_sub. rewrite map_map. cbn [fst]. apply in_map_iff. exists q. split; [reflexivity|]. destruct (HV q Hq) as [A [B D]]. apply filter_In. split; [apply lvertices_spec, A|].
        apply Nat.eqb_neq in B. rewrite B, D. reflexivity.
    + destruct (lookup (locv q) (loc_subst V (fun u => u) p)) as [u|] eqn:E.
      * apply lookup_in, in_map_iff in E as [q' [E _]]. injection E as E <-. assert (q' = q) by (apply locv_inj; unfold locv; cbn [vbase]; congruence). subst. reflexivity.
      * apply lookup_none in E. destruct E. unfold loc_subst. rewrite map_map. cbn [fst]. apply in_map_iff. eauto.
  - apply in_args_of in Hb as [i [x [_ ->]]]. transitivity (@None term); [|symmetry]; apply lookup_none; intros X; unfold nl_sub, loc_subst in X; rewrite map_map in X; cbn [fst] in X;
      apply in_map_iff in X as [q' [E _]]; apply (loc_arg q' q i (vsort x)); congruence.
Qed.
Lemma nested_solution k g h cs : nested k g h cs -> forall C, stage k C g ->
  (forall p, lvertex g0 p -> lpv g p = lpv g0 p) ->
  (forall c, In c cs -> contracted_in all (hd 0 (cd_set c)) = true /\ forall p, In p (cd_set c) -> lvertex g0 p /\ contracted_in all p = true) ->
  lsolution h w0 ->
  (forall c p, In c cs -> In p (cd_set c) -> exists inv d, w0 (cd_vertex c) = Some inv /\ vertex_def g0 qe simp (fun v => v) (nl_sub g0 all p) inv p = Some d /\ w p = Some d) ->
  forall wk, (forall p, In p (concat (map cd_set cs)) -> wk p = w p) -> (forall p, In p (map cd_vertex cs) -> wk p = None) ->
    (forall p, ~ In p (concat (map cd_set cs)) -> ~ In p (map cd_vertex cs) -> wk p = w0 p) -> lsolution g wk.
Proof.
  induction 1 as [k g l E L|k g l h cs E L Hn IH]; intros C S Pv Fl Sol Def wk K1 K2 K3.
  - apply (lsolution_ext g w0); [|exact Sol]. intros p. symmetry. apply K3; intros [].
  - pose proof (loop_vertices g l (sg_wf _ _ _ _ _ _ S) E L) as Ls. set (V := map (lsource g) l) in *. pose proof (stage_step U Uloc Uarg Uet nv nid nv_inj nid_inj ord Hord k C g _ S Ls) as S'.
    destruct (nested_sets _ _ _ _ Hn _ S') as [N1 [N2 [N3 [N4 _]]]]. destruct (stage_free U Uloc Uarg Uet nv nid k C g V S Ls) as [NF ET].
    assert (Fn : ~ lvertex g (nv k)) by (apply (sg_nv _ _ _ _ _ _ S k); lia).
    assert (A1 : ~ In (nv k) (concat (map cd_set cs))).
    { intros X. apply in_concat in X as [y [Hy X]]. apply in_map_iff in Hy as [c [<- Hc]]. apply (nv0 k). apply (Fl c (or_intror Hc)), X. }
    assert (A2 : ~ In (nv k) (map cd_vertex cs)).
    { intros X. apply in_map_iff in X as [c [Ec Hc]]. destruct (N4 c Hc) as [j [Hj Ej]]. rewrite Ec in Ej. apply nv_inj in Ej. lia. }
    set (w' := fun p => if in_dec Nat.eq_dec p (concat (map cd_set cs)) then w p else if in_dec Nat.eq_dec p (map cd_vertex cs) then None else w0 p).
    assert (Sol' : lsolution (contract g V (nv k) (nid k) ord) w').
    { apply (IH _ S'); auto.
      - intros p Hp. rewrite (pv_old g V ord (nv k) (nid k)); [apply Pv, Hp|]. intros ->. apply (nv0 k Hp).
      - intros c Hc. apply Fl. right. exact Hc.
      - intros c p Hc Hp. apply Def; [right; exact Hc|exact Hp].
      - intros p Hp. unfold w'. destruct (in_dec Nat.eq_dec p (concat (map cd_set cs))); [reflexivity|contradiction].
      - intros p Hp. unfold w'. destruct (in_dec Nat.eq_dec p (concat (map cd_set cs))) as [X|_]; [|destruct (in_dec Nat.eq_dec p (map cd_vertex cs)); [reflexivity|contradiction]].
        exfalso. apply in_map_iff in Hp as [c [<- Hc]]. destruct (N4 c Hc) as [j [_ Ej]]. rewrite Ej in X. apply in_concat in X as [y [Hy X]]. apply in_map_iff in Hy as [c' [<- Hc']]. apply (nv0 j). apply (Fl c' (or_intror Hc')), X.
      - intros p H1 H2. unfold w'. destruct (in_dec Nat.eq_dec p (concat (map cd_set cs))); [contradiction|]. destruct (in_dec Nat.eq_dec p (map cd_vertex cs)); [contradiction|reflexivity]. }
    assert (Wn : w' (nv k) = w0 (nv k)).
    { unfold w'. destruct (in_dec Nat.eq_dec (nv k) (concat (map cd_set cs))); [contradiction|]. destruct (in_dec Nat.eq_dec (nv k) (map cd_vertex cs)); [contradiction|reflexivity]. }
    assert (Lv : 2 <= length V) by apply (ls_len _ _ Ls). destruct V as [|v0 V0] eqn:EV; [cbn in Lv; lia|]. rewrite <- EV in *. clear Lv.
    assert (Hv0 : In v0 V) by (rewrite EV; left; reflexivity).
    destruct (Def (mkCData (nv k) V) v0 (or_introl eq_refl) Hv0) as [d [d0 [Ed _]]]. cbn [cd_vertex] in Ed.
    assert (Dv : forall v, In v (vars d) -> In v (nv_vars g V ord)).
    { intros v Hv. rewrite <- (pv_nv g V ord (nv k) (nid k)). apply (lsol_vars _ _ Sol' (nv k) d); [rewrite Wn; exact Ed|exact Hv]. }
    assert (Ev : nv_vars g V ord = nv_vars g0 V ord).
    { unfold nv_vars. f_equal. f_equal. f_equal. apply map_ext_in. intros p Hp. apply args_of_ext, Pv. apply (Fl (mkCData (nv k) V) (or_introl eq_refl)), Hp. }
    apply (contract_solution g (sg_wf _ _ _ _ _ _ S) V NF (ls_entry _ _ Ls) (ls_exit _ _ Ls) ord Hord (nv k) (nid k) Fn w' wk d Sol').
    + rewrite Wn. exact Ed.
    + intros p Hp. destruct (Def (mkCData (nv k) V) p (or_introl eq_refl) Hp) as [d' [dp [E1 [E2 E3]]]]. cbn [cd_vertex] in E1. rewrite Ed in E1. apply Some_eq in E1. subst d'.
      exists dp. split; [rewrite (K1 p); [exact E3|]; cbn [map concat cd_set]; apply in_app_iff; auto|].
      apply (vertex_def_ok g V ord Hord qe Hqe simp Hsimp (fun v => v) (fun v => eq_refl)) with (p := p); auto.
      { intros b Tb. destruct b as [bn bt bs]. cbn in Tb. subst bt. reflexivity. }
      rewrite (rename_id (fun v => v) d (fun v _ => eq_refl)). rewrite <- E2. apply vertex_def_ext; [apply Pv; apply (Fl (mkCData (nv k) V) (or_introl eq_refl)), Hp|].
      apply subst_lookup_ext. intros v Hv. symmetry. apply (sub_agree V p d v); [|rewrite <- Ev; exact Dv|exact Hv]. intros q Hq. destruct (proj2 (Fl (mkCData (nv k) V) (or_introl eq_refl)) q Hq) as [B1 B2]. split; [exact B1|]. split; [|exact B2].
      intros ->. apply (ls_entry _ _ Ls Hq).
    + intros p Hp Np. unfold w'. destruct (in_dec Nat.eq_dec p (concat (map cd_set cs))) as [X|X].
      * apply K1. cbn [map concat cd_set]. apply in_app_iff. auto.
      * destruct (in_dec Nat.eq_dec p (map cd_vertex cs)) as [Y|Y]; [apply K2; right; exact Y|]. apply K3; cbn [map concat cd_set cd_vertex]; [rewrite in_app_iff; tauto|]. intros [Z|Z]; [congruence|contradiction].
    + apply K2. left. reflexivity.
Qed.
End Inv.
