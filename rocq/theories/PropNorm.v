(** * C29: normalization and graph construction. *)
From Verif Require Import Syntax Solver KTo1Model Graph GraphOps GraphOpsProofs GraphSem ChcSystem Names SimpleTransModel MergeModel MergeProofs FormulaProofs3 LinearModel LinearProofs NormModel NormProofs NormRun.
Open Scope list_scope.
Open Scope nat_scope.

(** Facts that an instance of a clause uses and derives; a clause without body predicates uses the artificial start [true]. *)
Definition instance_prems (c : clause) (r : valuation) : list fact :=
  match cbody c with [] => [(entry, [])] | l => map (fun a => (asym a, avals r a)) l end.
Definition clause_infers (c : clause) (prems : list fact) (f : fact) : Prop :=
  exists r, holds r (cfla c) /\ prems = instance_prems c r /\ f = (asym (chead c), avals r (chead c)).

Lemma built_len pv k lo hi cs es qs : built pv k lo hi cs es qs -> length es = length cs.
Proof. intros H. induction H; cbn; congruence. Qed.
Lemma built_le pv k lo hi cs es qs : built pv k lo hi cs es qs -> lo <= hi.
Proof. intros H. induction H; lia. Qed.
Lemma built_nth pv k lo hi cs es qs : built pv k lo hi cs es qs -> forall j c, nth_error cs j = Some c ->
  exists e q lo' hi', nth_error es j = Some e /\ nth_error qs j = Some q /\ eid e = k + j /\ lo <= lo' /\ hi' <= hi /\ edge_of pv lo' hi' c e q.
Proof.
  intros H. induction H as [|k lo mid hi c cs e es q qs Hl Hid He Hb IH]; intros j d Hj; [destruct j; discriminate|].
  pose proof (built_le _ _ _ _ _ _ _ Hb). destruct j as [|j]; cbn in Hj.
  - injection Hj as <-. exists e, q, lo, mid. cbn. rewrite Nat.add_0_r. repeat split; auto; apply He.
  - destruct (IH j d Hj) as [e' [q' [lo' [hi' [H1 [H2 [H3 [H4 [H5 H6]]]]]]]]]. exists e', q', lo', hi'. cbn. split; [exact H1|]. split; [exact H2|]. split; [lia|]. split; [lia|]. split; [exact H5|exact H6].
Qed.
Lemma built_edge pv k lo hi cs es qs : built pv k lo hi cs es qs -> forall e, In e es -> exists c q lo' hi', In c cs /\ k <= eid e < k + length cs /\ lo <= lo' /\ hi' <= hi /\ edge_of pv lo' hi' c e q.
Proof.
  intros H. induction H as [|k lo mid hi c cs e es q qs Hl Hid He Hb IH]; intros e' Hin; [destruct Hin|]. pose proof (built_le _ _ _ _ _ _ _ Hb). destruct Hin as [<-|Hin].
  - exists c, q, lo, mid. cbn. split; [auto|]. split; [lia|]. split; [lia|]. split; [lia|exact He].
  - destruct (IH e' Hin) as [c' [q' [lo' [hi' [H1 [H2 [H3 [H4 H5]]]]]]]]. exists c', q', lo', hi'. cbn. split; [auto|]. split; [lia|]. split; [lia|]. split; [lia|exact H5].
Qed.
Lemma built_ids pv k lo hi cs es qs : built pv k lo hi cs es qs -> NoDup (map eid es).
Proof.
  intros H. induction H as [|k lo mid hi c cs e es q qs Hl Hid He Hb IH]; cbn; constructor; [|exact IH]. intros I. apply in_map_iff in I as [e' [E Hin]].
  apply (built_edge _ _ _ _ _ _ _ Hb) in Hin as [_ [_ [_ [_ [_ [X _]]]]]]. lia.
Qed.
Lemma built_priv pv k lo hi cs es qs : built pv k lo hi cs es qs -> forall e1 e2 n s, In e1 es -> In e2 es -> In (nauxv n s) (vars (efla e1)) -> In (nauxv n s) (vars (efla e2)) ->
  (forall c p i b, In c cs -> In b (pv p) -> nauxv n s <> tgt b /\ nauxv n s <> src i b) -> eid e1 = eid e2.
Proof.
  intros H. induction H as [|k lo mid hi c cs e es q qs Hl Hid He Hb IH]; intros e1 e2 n s H1 H2 V1 V2 N; [destruct H1|].
  assert (A : forall lo' hi' c' q' e', edge_of pv lo' hi' c' e' q' -> In (nauxv n s) (vars (efla e')) -> lo' <= n < hi').
  { intros lo' hi' c' q' e' X V. destruct (eo_vars _ _ _ _ _ _ X _ V) as [Y|[j [s' [Y1 Y2]]]]; [|apply nauxv_inj in Y2; lia]. exfalso.
    apply in_app_iff in Y as [Y|Y].
    - apply in_map_iff in Y as [b [Y _]]. discriminate Y.
    - apply in_concat in Y as [l [Y Z]]. apply in_map_iff in Y as [pi [<- _]]. apply in_map_iff in Z as [b [Z _]]. discriminate Z. }
  destruct H1 as [<-|H1], H2 as [<-|H2].
  - reflexivity.
  - exfalso. apply (A _ _ _ _ _ He) in V1. destruct (built_edge _ _ _ _ _ _ _ Hb e2 H2) as [c' [q' [lo' [hi' [_ [_ [K1 [K2 K3]]]]]]]]. apply (A _ _ _ _ _ K3) in V2. lia.
  - exfalso. apply (A _ _ _ _ _ He) in V2. destruct (built_edge _ _ _ _ _ _ _ Hb e1 H1) as [c' [q' [lo' [hi' [_ [_ [K1 [K2 K3]]]]]]]]. apply (A _ _ _ _ _ K3) in V1. lia.
  - eapply IH; eauto. intros c' p i b Hc. apply (N c' p i b). right. exact Hc.
Qed.
Lemma match_len pv c r r' : match_vals pv c r r' ->
  map (fun pi => (fst pi, args r' (map (src (snd pi)) (pv (fst pi))))) (insts c) = map (fun a => (asym a, avals r a)) (cbody c).
Proof. intros [_ H]. induction H as [|pi a l k [E1 E2] H IH]; [reflexivity|]. cbn [map]. rewrite E1 at 1. rewrite E2, IH. reflexivity. Qed.

Section Graph.
Variable sig : sym -> list sort.
Variable cs : list clause.
Hypothesis Sentry : sig entry = [].
Hypothesis Sexit : sig exit = [].
Hypothesis C : forall c, In c cs -> clause_ok sig c.
Let g := build_graph cs.

Lemma bg_built : exists hi, built (gpv g) 1 0 hi cs (gedges g) (normalizing_equalities cs) /\ rep_wf (gpv g) /\ (forall p v, In v (gpv g p) -> exists n s, v = xvar n s) /\ gfree g = S (length (gedges g)).
Proof.
  unfold g, build_graph, normalizing_equalities. destruct (norm_all nst0 1 cs) as [[st es] qs] eqn:E.
  destruct (norm_all_ok sig cs _ _ _ _ _ E (ninv0 sig Sentry Sexit) C) as [I [_ B]]. exists (ncount st). cbn [gpv gedges gfree]. split; [apply (B st I (ext_refl st))|].
  destruct (ninv_pv sig st I) as [P1 P2]. auto.
Qed.

Lemma own_of e c q lo hi : edge_of (gpv g) lo hi c e q -> clause_ok sig c -> forall v, In v (own_vars g e) <-> In v (map tgt (gpv g (asym (chead c))) ++ concat (map (fun pi => map (src (snd pi)) (gpv g (fst pi))) (insts c))).
Proof.
  intros E K v. unfold own_vars. rewrite (eo_to _ _ _ _ _ _ E), (eo_from _ _ _ _ _ _ E). rewrite !in_app_iff. unfold from_of, insts, tgt_vars, src_vars. destruct bg_built as [_ [_ [PR _]]].
  destruct (cbody c) as [|a l]; [|tauto]. cbn. rewrite (rep_entry _ PR). cbn. tauto.
Qed.
Lemma bg_edge e : In e (gedges g) -> exists c q lo hi, In c cs /\ 1 <= eid e < 1 + length cs /\ edge_of (gpv g) lo hi c e q.
Proof. intros H. destruct bg_built as [hi [B _]]. destruct (built_edge _ _ _ _ _ _ _ B e H) as [c [q [lo' [hi' [H1 [H2 [_ [_ H3]]]]]]]]. exists c, q, lo', hi'. auto. Qed.
Lemma label_cases e v : In e (gedges g) -> In v (vars (efla e)) -> In v (own_vars g e) \/ exists n s, v = nauxv n s.
Proof.
  intros He Hv. destruct (bg_edge e He) as [c [q [lo [hi [Hc [_ E]]]]]]. destruct (eo_vars _ _ _ _ _ _ E v Hv) as [H|[n [s [_ H]]]]; [left; apply (own_of e c q lo hi E (C c Hc)), H|right; eauto].
Qed.
Lemma own_tag e v : In v (own_vars g e) -> (exists i, vtag v = TSrc i) \/ vtag v = TTgt.
Proof.
  unfold own_vars. rewrite in_app_iff. intros [H|H].
  - apply in_concat in H as [l [H1 H2]]. apply in_map_iff in H1 as [[p i] [<- _]]. apply in_map_iff in H2 as [b [<- _]]. left. exists i. reflexivity.
  - apply in_map_iff in H as [b [<- _]]. right. reflexivity.
Qed.
Lemma bg_wf : wf_graph g.
Proof.
  destruct bg_built as [hi [B [PR [PX PF]]]]. constructor.
  - exact PR.
  - intros e He. destruct (bg_edge e He) as [c [q [lo [h [_ [_ E]]]]]]. rewrite (eo_from _ _ _ _ _ _ E). unfold from_of. destruct (cbody c); discriminate.
  - exact (built_ids _ _ _ _ _ _ _ B).
  - intros e He. destruct (bg_edge e He) as [c [q [lo [h [_ [K _]]]]]]. rewrite PF, (built_len _ _ _ _ _ _ _ B). unfold no_id. lia.
  - intros e v He Hv No p _ [b [_ [[i ->]| ->]]]; destruct (label_cases e _ He Hv) as [X|[n [s X]]]; try contradiction; discriminate X.
  - intros e1 e2 v H1 H2 N V1 V2. destruct (label_cases e1 v H1 V1) as [O1|[n [s ->]]].
    + split; [exact O1|]. destruct (label_cases e2 v H2 V2) as [O2|[n [s ->]]]; [exact O2|]. apply own_tag in O1 as [[i O1]|O1]; discriminate O1.
    + exfalso. apply N. apply (built_priv _ _ _ _ _ _ _ B e1 e2 n s H1 H2 V1 V2). intros c p i b _ _. split; discriminate.
  - intros e v He Hv. split; intros k; [intros s Hk E|intros s E]; subst v; destruct (label_cases e _ He Hv) as [X|[n [s' X]]].
    + apply own_tag in X as [[i X]|X]; discriminate X.
    + discriminate X.
    + apply own_tag in X as [[i X]|X]; discriminate X.
    + unfold nauxv, auxg in X. injection X as X _. pose proof (to_string_chars (Z.of_nat n)) as T. rewrite <- X in T. discriminate T.
  - intros e He. destruct (bg_edge e He) as [c [q [lo [h [Hc [_ E]]]]]]. rewrite (eo_to _ _ _ _ _ _ E). apply (co_head _ _ (C c Hc)).
  - intros e He. destruct (bg_edge e He) as [c [q [lo [h [Hc [_ E]]]]]]. rewrite (eo_from _ _ _ _ _ _ E). unfold from_of. pose proof (co_body _ _ (C c Hc)) as K. destruct (cbody c) as [|a l]; [intros [X|[]]; discriminate X|].
    intros I. apply in_map_iff in I as [x [X1 X2]]. destruct (K x X2). congruence.
Qed.
Lemma bg_aux : aux_versioned g.
Proof.
  intros e v He Hv No. destruct (label_cases e v He Hv) as [X|[n [s ->]]]; [contradiction|]. split; [reflexivity|]. intros p _ I. apply in_map_iff in I as [b [E Hb]].
  destruct bg_built as [_ [_ [_ [PX _]]]]. destruct (PX p b Hb) as [k [s' ->]]. discriminate E.
Qed.

(** One edge infers what its clause infers. *)
Lemma edge_infers c e q lo hi : edge_of (gpv g) lo hi c e q -> forall prems f, follows g e prems f <-> clause_infers c prems f.
Proof.
  intros E prems f. destruct bg_built as [_ [_ [PR _]]].
  assert (Fr : forall r r', match_vals (gpv g) c r r' -> map (fun pi => (fst pi, args r' (src_vars g pi))) (instances (efrom e)) = instance_prems c r).
  { intros r r' M. rewrite (eo_from _ _ _ _ _ _ E). pose proof (match_len _ _ _ _ M) as L. unfold instance_prems, from_of, insts in *. destruct (cbody c) as [|a l].
    - cbn. unfold src_vars. cbn. rewrite (rep_entry _ PR). reflexivity.
    - exact L. }
  split.
  - intros [r' [H [-> ->]]]. destruct (eo_back _ _ _ _ _ _ E r' H) as [r [K1 [K2 _]]]. exists r. split; [exact K1|]. split; [apply Fr, K2|]. rewrite (eo_to _ _ _ _ _ _ E). f_equal. apply K2.
  - intros [r [H [-> ->]]]. destruct (eo_forth _ _ _ _ _ _ E r H) as [r' [K1 [K2 _]]]. exists r'. split; [exact K1|]. split; [symmetry; apply Fr, K2|]. rewrite (eo_to _ _ _ _ _ _ E). f_equal. symmetry. apply K2.
Qed.
Lemma prems_derivable c r : (forall a, In a (cbody c) -> derivable g (asym a) (avals r a)) -> forall p vs, In (p, vs) (instance_prems c r) -> derivable g p vs.
Proof.
  unfold instance_prems. intros H p vs Hin. destruct (cbody c) as [|a l]; [destruct Hin as [E|[]]; injection E as <- <-; constructor|].
  apply in_map_iff in Hin as [b [E Hb]]. injection E as <- <-. apply H, Hb.
Qed.
Lemma bg_derivable p vs : derivable g p vs <-> (p = entry /\ vs = []) \/ cderivable cs p vs.
Proof.
  split.
  - intros D. induction D as [|e r He Hs IH Hl]; [auto|]. right. destruct (bg_edge e He) as [c [q [lo [hi [Hc [_ E]]]]]].
    destruct (proj1 (edge_infers c e q lo hi E (map (fun pi => (fst pi, args r (src_vars g pi))) (instances (efrom e))) (eto e, args r (tgt_vars g (eto e))))) as [r0 [K1 [K2 K3]]].
    { exists r. auto. }
    injection K3 as -> ->. apply cder; [exact Hc| |exact K1]. intros a Ha.
    assert (X : In (asym a, avals r0 a) (instance_prems c r0)).
    { unfold instance_prems. destruct (cbody c) as [|b l]; [destruct Ha|]. apply in_map_iff. exists a. auto. }
    rewrite <- K2 in X. apply in_map_iff in X as [[p i] [X1 X2]]. injection X1 as X3 X4. specialize (IH p i X2). cbn [fst snd] in *. rewrite X4, X3 in IH. destruct IH as [[IH _]|IH]; [|exact IH].
    exfalso. apply (proj1 (co_body _ _ (C c Hc) a Ha) IH).
  - intros [[-> ->]|D]; [constructor|]. induction D as [c r Hc _ IH Hl]. destruct bg_built as [hi [B _]]. apply In_nth_error in Hc as [j Hj].
    destruct (built_nth _ _ _ _ _ _ _ B j c Hj) as [e [q [lo' [hi' [H1 [_ [_ [_ [_ E]]]]]]]]]. apply nth_error_In in H1.
    destruct (proj2 (edge_infers c e q lo' hi' E (instance_prems c r) (asym (chead c), avals r (chead c)))) as [r' [K1 [K2 K3]]]; [exists r; auto|].
    injection K3 as K3 K4. rewrite K3, K4. apply der_edge; [exact H1| |exact K1]. intros p i Hpi. apply (prems_derivable c r IH). rewrite K2. apply in_map_iff. exists (p, i). auto.
Qed.
End Graph.

(** C29.  For a system of clauses whose atoms are well-typed, with heads that are declared predicates or [false], body
    predicates that are declared predicates, and variables that do not have a reserved name ([x#n] with the mark of a source
    or a target), the hypergraph is well-formed (which the theorems about transformations and engines assume), derives
    exactly the facts that the clauses derive, and therefore is satisfiable iff the clauses are.  Every solution of
    the graph, read as an interpretation of the predicates, satisfies the clauses. *)
Theorem C29_normalization :
  forall sig cs, sig entry = [] -> sig exit = [] -> (forall c, In c cs -> clause_ok sig c) ->
    let g := build_graph cs in
    wf_graph g /\ aux_versioned g /\
    (forall p vs, derivable g p vs <-> (p = entry /\ vs = []) \/ cderivable cs p vs) /\
    (csat cs <-> chc_sat g) /\
    (forall w, solution g w -> cmodel cs (as_interp g w) /\ ~ as_interp g w exit []).
Proof.
  intros sig cs Se Sx C g. pose proof (bg_wf sig cs Se Sx C) as W. pose proof (bg_derivable sig cs Se Sx C) as D. fold g in W, D.
  split; [exact W|]. split; [apply (bg_aux sig cs Se Sx C)|]. split; [exact D|]. split.
  - rewrite csat_iff, chc_sat_iff, D. split; intros N X; apply N; [destruct X as [[X _]|X]; [discriminate X|exact X]|auto].
  - intros w S. destruct (solution_model g w S) as [[_ M] N]. rewrite (rep_exit _ (wf_rep _ W)) in N. split; [|exact N].
    intros c r Hc Hb Hf. destruct (bg_built sig cs Se Sx C) as [hi [B _]]. fold g in B. apply In_nth_error in Hc as [j Hj].
    destruct (built_nth _ _ _ _ _ _ _ B j c Hj) as [e [q [lo' [hi' [H1 [_ [_ [_ [_ E]]]]]]]]]. apply nth_error_In in H1.
    destruct (proj2 (edge_infers sig cs Se Sx C c e q lo' hi' E (instance_prems c r) (asym (chead c), avals r (chead c)))) as [r' [K1 [K2 K3]]]; [exists r; auto|].
    fold g in K2, K3. injection K3 as K3 K4. rewrite K3, K4. apply M; [exact H1| |exact K1]. intros p i Hpi.
    assert (X : In (p, args r' (src_vars g (p, i))) (instance_prems c r)) by (rewrite K2; apply in_map_iff; exists (p, i); auto).
    unfold instance_prems in X. destruct (cbody c) as [|a l]; [|apply in_map_iff in X as [b [X Hb']]; injection X as <- <-; apply Hb, Hb'].
    destruct X as [X|[]]. injection X as <- <-. destruct S as [_ [d [Ed Td]] _ _]. intros r0 d0 _ E0. rewrite Ed in E0. injection E0 as <-. apply Td.
Qed.
Print Assumptions C29_normalization.

(** The [k]-th clause becomes the edge with id [k] (counted from one), which infers exactly what the clause infers; and the
    normalizing equalities of the clause, which are used to print proofs, determine the instance: they cover all variables
    of the label, every assignment satisfying the label comes from an instance of the clause with the same values of both
    sides, and the other way around. *)
Theorem C29_clauses :
  forall sig cs, sig entry = [] -> sig exit = [] -> (forall c, In c cs -> clause_ok sig c) ->
    let g := build_graph cs in
    length (gedges g) = length cs /\
    forall k c, nth_error cs k = Some c -> exists e q,
      nth_error (gedges g) k = Some e /\ nth_error (normalizing_equalities cs) k = Some q /\ eid e = S k /\
      (forall prems f, follows g e prems f <-> clause_infers c prems f) /\
      (forall v, In v (vars (efla e)) -> In v (map fst q)) /\
      (forall r, holds r (cfla c) -> exists r', holds r' (efla e) /\ forall v t, In (v, t) q -> eval r' (Var v) = eval r t) /\
      (forall r', holds r' (efla e) -> exists r, holds r (cfla c) /\ forall v t, In (v, t) q -> eval r' (Var v) = eval r t).
Proof.
  intros sig cs Se Sx C g. destruct (bg_built sig cs Se Sx C) as [hi [B _]]. fold g in B. split; [exact (built_len _ _ _ _ _ _ _ B)|].
  intros k c Hk. destruct (built_nth _ _ _ _ _ _ _ B k c Hk) as [e [q [lo' [hi' [H1 [H2 [H3 [_ [_ E]]]]]]]]]. exists e, q.
  split; [exact H1|]. split; [exact H2|]. split; [lia|]. split; [exact (edge_infers sig cs Se Sx C c e q lo' hi' E)|]. split; [exact (eo_q _ _ _ _ _ _ E)|]. split.
  - intros r H. destruct (eo_forth _ _ _ _ _ _ E r H) as [r' [K1 [_ K3]]]. eauto.
  - intros r H. destruct (eo_back _ _ _ _ _ _ E r H) as [r' [K1 [_ K3]]]. eauto.
Qed.
Print Assumptions C29_clauses.

(** ** Examples *)
Module Ex.
Definition vx := mkVar "x" TBase SInt. Definition vy := mkVar "y" TBase SInt. Definition vz := mkVar "z" TBase SInt.
Definition P : sym := 2. Definition sig : sym -> list sort := fun p => if Nat.eqb p P then [SInt; SInt] else [].
(** P(0, y) :- y > 0;  P(x + 1, x) :- P(x, y), P(y, x), z < x;  false :- P(x, x). *)
Definition c1 := mkClause (mkAtom P [mkInt 0; Var vy]) (mkLt (mkInt 0) (Var vy)) [].
Definition c2 := mkClause (mkAtom P [mkPlus [Var vx; mkInt 1]; Var vx]) (mkLt (Var vz) (Var vx)) [mkAtom P [Var vx; Var vy]; mkAtom P [Var vy; Var vx]].
Definition c3 := mkClause (mkAtom exit []) tt_true [mkAtom P [Var vx; Var vx]].
Definition sys := [c1; c2; c3].
Lemma names v : In v [vx; vy; vz] -> ~ reserved v.
Proof. intros [<-|[<-|[<-|[]]]] [n [s [E|[i E]]]]; discriminate E. Qed.
Lemma sys_ok c : In c sys -> clause_ok sig c.
Proof.
  intros H. assert (V : forall v, In v (clause_vars c) -> In v [vx; vy; vz]).
  { destruct H as [<-|[<-|[<-|[]]]]; cbn; intros v Hv; tauto. }
  destruct H as [<-|[<-|[<-|[]]]]; constructor; try (intros v Hv; apply names, V, Hv); try discriminate.
  all: intros a Ha; cbn in Ha; repeat (destruct Ha as [<-|Ha]; [try reflexivity; split; discriminate|]); destruct Ha.
Qed.
Example built_edges : map (fun e => (eid e, efrom e, eto e)) (gedges (build_graph sys)) = [(1, [entry], P); (2, [P; P], P); (3, [P], exit)].
Proof. reflexivity. Qed.
Example hypotheses : wf_graph (build_graph sys) /\ (csat sys <-> chc_sat (build_graph sys)).
Proof. destruct (C29_normalization sig sys eq_refl eq_refl sys_ok) as [A [_ [_ [B _]]]]. auto. Qed.

(** A variable named like a source argument: P(0, 0);  false :- P(x, x), v = 1  where v is called [x#0__s##0]. *)
Definition vbad := src 0 (xvar 0 SInt).
Definition d1 := mkClause (mkAtom P [mkInt 0; mkInt 0]) tt_true [].
Definition d2 := mkClause (mkAtom exit []) (mkEq (Var vbad) (mkInt 1)) [mkAtom P [Var vx; Var vx]].
End Ex.
(** Without the condition on names the statement is false: the system derives [false], the graph does not. *)
Theorem C29_names_refuted :
  exists sig cs, sig entry = [] /\ sig exit = [] /\
    (forall c, In c cs -> (forall a, In a (chead c :: cbody c) -> map typed (aargs a) = map Some (sig (asym a))) /\ asym (chead c) <> entry /\
       (forall a, In a (cbody c) -> asym a <> entry /\ asym a <> exit)) /\
    ~ csat cs /\ chc_sat (build_graph cs).
Proof.
  exists Ex.sig, [Ex.d1; Ex.d2]. split; [reflexivity|]. split; [reflexivity|]. split; [|split].
  - intros c [<-|[<-|[]]]; (split; [|split]); try discriminate; intros a Ha; cbn in Ha; repeat (destruct Ha as [<-|Ha]; [try reflexivity; split; discriminate|]); destruct Ha.
  - rewrite csat_iff. intros N. apply N.
    set (r := fun v => if var_eqb v Ex.vbad then VInt 1 else VInt 0).
    change (cderivable [Ex.d1; Ex.d2] (asym (chead Ex.d2)) (avals r (chead Ex.d2))). apply cder; [cbn; auto| |vm_compute; reflexivity].
    intros a [<-|[]]. change (cderivable [Ex.d1; Ex.d2] (asym (chead Ex.d1)) (avals r (chead Ex.d1))). apply cder; [cbn; auto|intros a []|reflexivity].
  - exists (fun p vs => p = entry \/ (p = Ex.P /\ vs = [VInt 0; VInt 0])). split; [split; [auto|]|intros [X|[X _]]; discriminate X].
    intros e r He Hs Hl. cbn in He. destruct He as [<-|[<-|[]]].
    + right. split; [reflexivity|]. unfold holds, holdsb in Hl. cbn in Hl. unfold args, tgt_vars. cbn.
      set (a := coerce SInt (r (tgt (xvar 0 SInt)))) in *. set (b := coerce SInt (r (tgt (xvar 1 SInt)))) in *.
      change (value_eqb a (VInt 0) && (value_eqb b (VInt 0) && true) && true = true) in Hl.
      destruct (value_eqb_spec a (VInt 0)) as [Ea|]; [|discriminate]. destruct (value_eqb_spec b (VInt 0)) as [Eb|]; [|discriminate].
      change ([a; b] = [VInt 0; VInt 0]). congruence.
    + exfalso. specialize (Hs Ex.P 0 (or_introl eq_refl)). destruct Hs as [X|[_ X]]; [discriminate X|]. unfold args, src_vars in X. cbn in X.
      set (a := coerce SInt (r (src 0 (xvar 0 SInt)))) in *. set (b := coerce SInt (r (src 0 (xvar 1 SInt)))) in *.
      change ([a; b] = [VInt 0; VInt 0]) in X. injection X as X1 X2. unfold holds, holdsb in Hl. cbn in Hl.
      change (value_eqb a (VInt 1) && (value_eqb b a && true && true) = true) in Hl. rewrite X1 in Hl. discriminate Hl.
Qed.
Print Assumptions C29_names_refuted.
