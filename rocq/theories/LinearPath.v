(** * Error paths of linear graphs become derivations. *)
From Verif Require Import Syntax Solver TransSys Graph GraphOps GraphOpsProofs GraphSem SimpleTransModel MergeModel MergeProofs LinearModel LinearProofs.
Open Scope list_scope.
Open Scope nat_scope.

(** Runs along a list of edges. *)
Inductive lruns (g : lgraph) : list ledge -> fact -> fact -> Prop :=
| lruns_nil f : lruns g [] f f
| lruns_cons e es f f' f'' : In e (ledges g) -> lfollows g e f f' -> lruns g es f' f'' -> lruns g (e :: es) f f''.

Lemma shiftv_sort k : sort_preserving (shiftv k).
Proof. intros v. unfold shiftv. destruct (vtag v); reflexivity. Qed.
Lemma shiftv_cur k b : shiftv k (cur b) = mkVar (vbase b) (TTime k) (vsort b).
Proof. unfold shiftv, cur. cbn [vtag vbase vsort]. rewrite Z.add_0_l. reflexivity. Qed.
Lemma shiftv_nxt k b : shiftv k (nxt b) = shiftv (k + 1) (cur b).
Proof. unfold shiftv, nxt, cur. cbn [vtag vbase vsort]. rewrite (Z.add_comm 1 k). reflexivity. Qed.
Lemma args_at (r : valuation) (i : Z) (l : list var) : args (TransSys.at_time i r) l = args r (map (shiftv i) l).
Proof. symmetry. apply (args_map r (shiftv i) l (shiftv_sort i)). Qed.
Lemma at_facts g (r : valuation) (i : Z) p : args (TransSys.at_time i r) (nxt_vars g p) = args r (map (shiftv (i + 1)) (cur_vars g p)).
Proof.
  rewrite args_at. unfold nxt_vars, cur_vars. rewrite !map_map. f_equal. apply map_ext. intros b. apply shiftv_nxt.
Qed.

Lemma label_follows g e r i : holds r (shift i (lfla e)) ->
  lfollows g e (lfrom e, args r (map (shiftv i) (cur_vars g (lfrom e)))) (lto e, args r (map (shiftv (i + 1)) (cur_vars g (lto e)))).
Proof.
  intros H. apply holds_shift_at in H. exists (TransSys.at_time i r). split; [exact H|]. rewrite args_at, at_facts. auto.
Qed.

(** Connected lists of edges. *)
Fixpoint connected (p : sym) (es : list ledge) (q : sym) : Prop :=
  match es with [] => p = q | e :: es' => lfrom e = p /\ connected (lto e) es' q end.
Lemma lruns_connected g es f f' : lruns g es f f' -> connected (fst f) es (fst f') /\ forall e, In e es -> In e (ledges g).
Proof.
  intros H. induction H as [|e es f f' f'' He F _ [IH1 IH2]]; [split; [reflexivity|intros e []]|].
  destruct F as [r [_ [-> ->]]]. split; [split; [reflexivity|exact IH1]|]. intros x [<-|Hx]; auto.
Qed.

Section Path.
Variable g : lgraph.
Hypothesis W : lwf g.

(** *** Feasible paths have satisfiable formulas *)
Definition fact_ok (f : fact) : Prop := exists r0, snd f = args r0 (cur_vars g (fst f)).
Lemma follows_fact_ok e f f' : lfollows g e f f' -> fact_ok f /\ fact_ok f'.
Proof.
  intros [r [_ [-> ->]]]. split; [exists r; reflexivity|]. exists (TransSys.at_time 1 r). cbn [fst snd].
  rewrite args_at. unfold nxt_vars, cur_vars. rewrite map_map. f_equal.
Qed.
Lemma entry_ok : fact_ok (entry, []).
Proof. exists (fun _ => VInt 0). cbn. unfold cur_vars. rewrite (rep_entry _ (lwf_rep g W)). reflexivity. Qed.

(** Versions below i belong to the past. *)
Definition past (i : Z) (v : var) : bool := match vtag v with TTime j => Z.leb j i | _ => true end.
Lemma label_times i es v : (forall e, In e es -> In e (ledges g)) -> In v (lvars (path_labels i es)) -> exists j, vtag v = TTime j /\ (i <= j)%Z.
Proof.
  revert i. induction es as [|e es IH]; intros i He Hv; [destruct Hv|]. cbn [path_labels lvars map concat] in Hv. apply in_app_or in Hv as [Hv|Hv].
  - assert (Hs : exists u, In u (vars (lfla e)) /\ v = shiftv i u).
    { unfold shift in Hv. destruct (Z.eqb_spec i 0) as [->|N].
      - exists v. split; [exact Hv|]. unfold shiftv. destruct v as [b [| |t|] s]; cbn; try reflexivity. f_equal. f_equal. lia.
      - rewrite vars_rename in Hv. apply in_map_iff in Hv as [u [<- Hu]]. eauto. }
    destruct Hs as [u [Hu ->]]. destruct (lwf_label g W e u (He e (or_introl eq_refl)) Hu) as [C|[C|[C _]]].
    + apply in_map_iff in C as [b [<- _]]. exists i. rewrite shiftv_cur. cbn. split; [reflexivity|lia].
    + apply in_map_iff in C as [b [<- _]]. exists (i + 1)%Z. rewrite shiftv_nxt, shiftv_cur. cbn. split; [reflexivity|lia].
    + exists i. unfold shiftv. rewrite C. cbn. split; [f_equal; lia|lia].
  - destruct (IH (i + 1)%Z) as [j [T L]]; [intros x Hx; apply He; right; exact Hx|exact Hv|]. exists j. split; [exact T|lia].
Qed.
Lemma shift_eval i (r r1 : valuation) t : (forall v, In v (vars t) -> eval r (Var (shiftv i v)) = eval r1 (Var v)) -> holds r1 t -> holds r (shift i t).
Proof.
  intros H H1. apply holds_shift_at. unfold holds, holdsb in *. rewrite (eval_ext (TransSys.at_time i r) r1 t); [exact H1|].
  intros v Hv. specialize (H v Hv). unfold TransSys.at_time. cbn in H |- *. rewrite (shiftv_sort i) in H. exact H.
Qed.
Theorem runs_labels es f f' : lruns g es f f' -> fact_ok f -> forall i,
  exists r, Forall (holds r) (path_labels i es) /\ snd f = args r (map (shiftv i) (cur_vars g (fst f))).
Proof.
  intros H. induction H as [f|e es f f' f'' He F R IH]; intros Ok i.
  - destruct Ok as [r0 E]. exists (fun v => r0 (shiftv (- i) v)). split; [constructor|]. rewrite E. symmetry.
    unfold args. rewrite map_map. apply map_ext_in. intros v Hv. apply in_map_iff in Hv as [b [<- _]]. cbn [eval].
    rewrite (shiftv_sort i). f_equal. f_equal. rewrite shiftv_cur. unfold shiftv, cur. cbn. f_equal. f_equal. lia.
  - destruct (follows_fact_ok e f f' F) as [_ Ok']. destruct (IH Ok' (i + 1)%Z) as [r' [L' E']].
    pose proof F as F0. destruct F as [r [Hl [Ef Ef']]].
    exists (fun v => if past i v then r (shiftv (- i) v) else r' v).
    set (rr := (fun v => if past i v then r (shiftv (- i) v) else r' v) : valuation).
    assert (P0 : forall v, vtag v = TTime 0 -> rr (shiftv i v) = r v).
    { intros v T. unfold rr, past. destruct v as [b t s]. cbn in T. subst t. unfold shiftv. cbn. rewrite (proj2 (Z.leb_le i i)) by lia. cbn. f_equal. f_equal. f_equal. lia. }
    assert (P1 : forall v j, vtag v = TTime j -> (i < j)%Z -> rr v = r' v).
    { intros v j T L. unfold rr, past. rewrite T. rewrite (proj2 (Z.leb_gt j i)) by lia. reflexivity. }
    assert (Er : snd f = args rr (map (shiftv i) (cur_vars g (fst f)))).
    { rewrite Ef. cbn [fst snd]. symmetry. apply args_ren_ext. intros v Hv. apply in_map_iff in Hv as [b [<- _]]. cbn [eval]. rewrite (shiftv_sort i), P0 by reflexivity. reflexivity. }
    split; [|exact Er]. cbn [path_labels]. constructor.
    + apply (shift_eval i rr r); [|exact Hl]. intros v Hv. destruct (lwf_label g W e v He Hv) as [C|[C|[C _]]].
      * apply in_map_iff in C as [b [<- _]]. cbn [eval]. rewrite (shiftv_sort i), P0 by reflexivity. reflexivity.
      * apply in_map_iff in C as [b [<- Hb]]. rewrite shiftv_nxt. rewrite Ef' in E'. cbn [fst snd] in E'.
        assert (X : args rr (map (shiftv (i + 1)) (cur_vars g (lto e))) = args r (nxt_vars g (lto e))).
        { rewrite E'. apply args_agree. intros u Hu. apply in_map_iff in Hu as [u' [<- Hu']]. apply in_map_iff in Hu' as [b' [<- _]].
          apply (P1 _ (i + 1)%Z); [rewrite shiftv_cur; reflexivity|lia]. }
        unfold args, nxt_vars, cur_vars in X. rewrite !map_map in X.
        clear - X Hb. induction (lpv g (lto e)) as [|y l IHl]; [destruct Hb|]. cbn [map] in X. injection X as X1 X2.
        destruct Hb as [->|Hb]; [exact X1|auto].
      * cbn [eval]. rewrite (shiftv_sort i), P0 by exact C. reflexivity.
    + rewrite Forall_forall in L' |- *. intros t Ht. refine (proj1 (holds_agree r' rr t _) (L' t Ht)). intros v Hv. symmetry.
      destruct (label_times (i + 1) es v) as [j [T L]].
      * intros x Hx. apply (proj2 (lruns_connected g es f' f'' R) x Hx).
      * unfold lvars. apply in_concat. exists (vars t). split; [apply in_map, Ht|exact Hv].
      * apply (P1 v j T). lia.
Qed.

(** *** The derivation *)
Lemma path_vertices_cons e e' es : path_vertices (e :: e' :: es) = lfrom e :: path_vertices (e' :: es).
Proof.
  unfold path_vertices. cbn [map app]. f_equal. cbn [rev]. rewrite <- app_assoc. destruct (rev es) as [|x l]; reflexivity.
Qed.
Lemma path_vertices_tl es : forall p q, es <> [] -> connected p es q -> tl (path_vertices es) = map lto es.
Proof.
  induction es as [|e es IH]; intros p q N C; [congruence|]. destruct es as [|e' es]; [reflexivity|].
  rewrite path_vertices_cons. cbn [tl]. destruct C as [_ C]. change (map lto (e :: e' :: es)) with (lto e :: map lto (e' :: es)). rewrite <- (IH (lto e) q) by (discriminate || exact C).
  destruct C as [C _]. cbn [map]. unfold path_vertices. cbn [map app tl]. rewrite C. reflexivity.
Qed.
Lemma nth_labels es : forall i j, nth_error (path_labels i es) j = option_map (fun e => shift (i + Z.of_nat j) (lfla e)) (nth_error es j).
Proof.
  induction es as [|e es IH]; intros i j; [destruct j; reflexivity|]. destruct j as [|j]; cbn [path_labels nth_error option_map].
  - rewrite Z.add_0_r. reflexivity.
  - rewrite IH. destruct (nth_error es j); cbn [option_map]; [|reflexivity]. do 2 f_equal. lia.
Qed.
Lemma nth_steps r es : forall k j, nth_error (path_steps g r k es (map lto es)) j =
  option_map (fun e => mkStep [k + j - 1] (path_fact g r (k + j) (lto e)) (lid e)) (nth_error es j).
Proof.
  induction es as [|e es IH]; intros k j; [destruct j; reflexivity|]. destruct j as [|j]; cbn [path_steps map nth_error option_map].
  - rewrite Nat.add_0_r. reflexivity.
  - rewrite IH. destruct (nth_error es j); cbn [option_map]; [|reflexivity]. replace (S k + j) with (k + S j) by lia. reflexivity.
Qed.
Lemma steps_length r es : forall k, length (path_steps g r k es (map lto es)) = length es.
Proof. induction es as [|e es IH]; intros k; [reflexivity|]. cbn. rewrite IH. reflexivity. Qed.
Lemma connected_nth es : forall p q, connected p es q -> forall j e, nth_error es j = Some e ->
  (j = 0 -> lfrom e = p) /\ (forall j' e', j = S j' -> nth_error es j' = Some e' -> lfrom e = lto e').
Proof.
  induction es as [|x es IH]; intros p q C j e E; [destruct j; discriminate|]. destruct C as [C1 C2]. destruct j as [|j]; cbn in E.
  - injection E as <-. split; [auto|]. intros j' e' X. discriminate.
  - destruct (IH (lto x) q C2 j e E) as [H1 H2]. split; [discriminate|]. intros j' e' X E'. injection X as ->.
    destruct j' as [|j']; cbn in E'; [injection E' as <-; apply H1; reflexivity|]. apply (H2 j' e' eq_refl E').
Qed.
Lemma connected_last es : forall p q, connected p es q -> forall n, length es = S n -> exists e, nth_error es n = Some e /\ lto e = q.
Proof.
  induction es as [|x es IH]; intros p q C n L; [discriminate|]. destruct C as [_ C]. destruct es as [|y es].
  - cbn in L. injection L as <-. exists x. auto.
  - destruct n as [|n]; [discriminate|]. cbn [length] in L. injection L as L. destruct (IH _ _ C n) as [e [E1 E2]]; [cbn; congruence|]. exists e. auto.
Qed.
Theorem path_derivation_ok es r : connected entry es exit -> (forall e, In e es -> In e (ledges g)) ->
  Forall (holds r) (path_labels 0 es) ->
  lrefutation g (mkStep [] (entry, []) no_id :: path_steps g r 1 es (tl (path_vertices es))).
Proof.
  intros C Hin HL. assert (N : es <> []) by (intros ->; discriminate C). rewrite (path_vertices_tl es entry exit N C).
  pose proof (lwf_rep g W) as R.
  split.
  - reflexivity.
  - exists (length es). cbn [length]. rewrite steps_length. split; [reflexivity|]. destruct (length es) as [|n] eqn:L; [destruct es; [congruence|discriminate]|].
    cbn [nth_error]. rewrite nth_steps. destruct (connected_last es _ _ C n L) as [e [E1 E2]]. rewrite E1. cbn [option_map st_fact]. rewrite E2.
    unfold path_fact, cur_vars. rewrite (rep_exit _ R). reflexivity.
  - intros i s Hi Hs. destruct i as [|i]; [lia|]. cbn [nth_error] in Hs. rewrite nth_steps in Hs.
    destruct (nth_error es i) as [e|] eqn:E; [|discriminate]. cbn [option_map] in Hs. injection Hs as <-.
    assert (HLe : holds r (shift (Z.of_nat i) (lfla e))).
    { rewrite Forall_forall in HL. apply HL. apply (nth_error_In _ i). rewrite nth_labels, E. reflexivity. }
    apply (label_follows g) in HLe. replace (Z.of_nat i + 1)%Z with (Z.of_nat (S i)) in HLe by lia.
    exists e, i, (lfrom e, args r (map (shiftv (Z.of_nat i)) (cur_vars g (lfrom e)))).
    split; [apply Hin, (nth_error_In _ i), E|]. split; [reflexivity|]. cbn [st_premises st_fact]. split; [f_equal; lia|]. split; [lia|].
    split; [|exact HLe]. destruct (connected_nth es _ _ C i e E) as [C0 C1]. destruct i as [|i].
    + cbn. rewrite C0 by reflexivity. unfold cur_vars. rewrite (rep_entry _ R). reflexivity.
    + cbn [nth_error]. rewrite nth_steps. destruct (nth_error es i) as [e'|] eqn:E'; [|apply nth_error_None in E'; pose proof (proj1 (nth_error_Some es (S i))); rewrite E in H; assert (S i < length es) by (apply H; discriminate); lia].
      cbn [option_map st_fact]. rewrite (C1 i e' eq_refl E'). reflexivity.
Qed.

Lemma path_edges_find ids es : path_edges g ids = Some es -> map lid es = ids /\ forall e, In e es -> In e (ledges g).
Proof.
  revert es. induction ids as [|i ids IH]; intros es E; cbn in E; [injection E as <-; split; [reflexivity|intros e []]|].
  destruct (lfind g i) as [e|] eqn:F; [|discriminate]. destruct (path_edges g ids) as [l|]; [|discriminate]. injection E as <-.
  destruct (IH l eq_refl) as [E1 E2]. apply find_some in F as [F1 F2]. apply Nat.eqb_eq in F2. split; [cbn; congruence|]. intros x [<-|Hx]; auto.
Qed.
Lemma path_edges_total es : (forall e, In e es -> In e (ledges g)) -> path_edges g (map lid es) = Some es.
Proof.
  induction es as [|e es IH]; intros H; [reflexivity|]. cbn. rewrite (lfind_in g e (lwf_ids g W) (H e (or_introl eq_refl))), IH; [reflexivity|].
  intros x Hx. apply H. right; exact Hx.
Qed.

(** The witness of a path is a refutation; it exists unless the solver gives up on the formula of the path, provided
    the path can be run. *)
Theorem from_error_path_ok check es : check_ok check -> (forall e, In e es -> In e (ledges g)) -> connected entry es exit ->
  match from_error_path check g (map lid es) with
  | PathDerivation d => lrefutation g d /\ map st_clause d = no_id :: map lid es
  | NoPath => False
  | PathThrows => ~ lruns g es (entry, []) (exit, []) \/ check (path_labels 0 es) = UNKNOWN
  end.
Proof.
  intros Hc Hin C. unfold from_error_path. rewrite (path_edges_total es Hin). destruct (map lid es) as [|i l] eqn:E; [destruct es; [discriminate C|discriminate]|].
  rewrite <- E. clear i l E. destruct (check (path_labels 0 es)) as [r| |] eqn:Ec; [|left|right; reflexivity].
  - split.
    + apply path_derivation_ok; [exact C|exact Hin|]. apply (check_sat _ Hc _ _ Ec).
    + rewrite (path_vertices_tl es entry exit) by (try exact C; intros ->; discriminate C). cbn [map]. f_equal.
      generalize 1. induction es as [|e es' IH]; intros k; [reflexivity|]. cbn. f_equal.
      assert (G : forall l k, map st_clause (path_steps g r k l (map lto l)) = map lid l) by (induction l as [|x l IHl]; intros k'; cbn; [|rewrite IHl]; reflexivity).
      apply G.
  - intros R. destruct (runs_labels es _ _ R entry_ok 0) as [r [HL _]]. apply (check_unsat _ Hc _ Ec r HL).
Qed.
End Path.
