(** * The definitions of the contracted vertices. *)
From Coq Require Import Permutation.
From Verif Require Import Syntax Solver TransSys Graph GraphOps GraphOpsProofs GraphSem Names ListLemmas SimpleTransModel MergeModel MergeProofs LinearModel LinearProofs LinearPath ExpandProofs ContractModel ContractProofs ContractLabels ContractSem NontermProofs.
Open Scope list_scope.
Open Scope nat_scope.

Section Def.
Variable g : lgraph.
Hypothesis W : lwf g.
Variable V : list sym.
Variable ord : list var -> list var.
Hypothesis Hord : forall l, Permutation (ord l) l.
Variable qe : qe_fn.
Hypothesis Hqe : qe_ok qe.
Variable simp : term -> term.
Hypothesis Hsimp : simp_ok simp.
Variable tag : var -> var.
Hypothesis Tsort : sort_preserving tag.
Hypothesis Tunv : forall b, vtag b = TBase -> unv (tag b) = b.
Variable d : term.
Notation nvv := (nv_vars g V ord).
Hypothesis Dv : forall v, In v (vars d) -> In v nvv.
Variable p : sym.
Hypothesis Hp : In p V.
Notation sub := (loc_subst V tag p).
Notation d0 := (simp (subst sub (rename tag d))).
Notation own := (map tag (args_of g p)).
Notation back := (vlookup (combine own (lpv g p))).

Lemma Some_eq {A} (x y : A) : Some x = Some y -> x = y.
Proof. congruence. Qed.
Lemma tag_inj a b : vtag a = TBase -> vtag b = TBase -> tag a = tag b -> a = b.
Proof. intros A B E. rewrite <- (Tunv a A), <- (Tunv b B), E. reflexivity. Qed.
Lemma own_nodup : NoDup own.
Proof. apply map_tag_nodup; [apply args_of_nodup|intros v; apply args_of_base|apply tag_inj]. Qed.
Lemma own_len : length own = length (lpv g p).
Proof. rewrite map_length. apply args_of_length. Qed.
Lemma own_sorts : map vsort own = map vsort (lpv g p).
Proof. rewrite map_vsort_tag by exact Tsort. apply args_of_sorts. Qed.
Lemma back_sort : sort_preserving back.
Proof. apply vlookup_sort. intros a b H. apply (combine_sorts _ _ own_sorts a b H). Qed.
Lemma back_map : map back own = lpv g p.
Proof. pose proof (vl_map own (lpv g p) [] own_nodup own_len) as H. rewrite app_nil_r in H. exact H. Qed.
Lemma back_in v : In v own -> In (back v) (lpv g p).
Proof. intros H. apply (in_map back) in H. rewrite back_map in H. exact H. Qed.
Lemma sub_sorted : well_sorted sub.
Proof.
  intros v u E. apply lookup_in in E. apply in_map_iff in E as [q [E _]]. injection E as <- <-. rewrite Tsort. intros r. destruct (Nat.eqb q p); reflexivity.
Qed.
Lemma sub_loc q : In q V -> lookup (tag (locv q)) sub = Some (if Nat.eqb q p then tt_true else tt_false).
Proof.
  intros Hq. destruct (lookup (tag (locv q)) sub) as [u|] eqn:E.
  - apply lookup_in, in_map_iff in E as [q' [E _]]. injection E as E <-. apply tag_inj in E; [|reflexivity|reflexivity]. assert (q' = q) by (apply locv_inj; congruence). subst. reflexivity.
  - apply lookup_none in E. destruct E. unfold loc_subst. rewrite map_map. cbn [fst]. apply in_map_iff. eauto.
Qed.
Lemma sub_arg b q : In b (args_of g q) -> lookup (tag b) sub = None.
Proof.
  intros Hb. apply lookup_none. intros X. unfold loc_subst in X. rewrite map_map in X. cbn [fst] in X. apply in_map_iff in X as [q' [E _]].
  pose proof (args_of_base g q b Hb) as T. apply tag_inj in E; [|reflexivity|exact T]. apply in_args_of in Hb as [i [x [_ ->]]]. apply (loc_arg q' q i (vsort x)). congruence.
Qed.
Lemma d0_holds r : holds r d0 <-> holds (fun b => upd r sub (tag b)) d.
Proof. rewrite (proj1 (Hsimp _)), (holds_subst sub r _ sub_sorted). apply holds_rename, Tsort. Qed.
Lemma d0_vars v : In v (vars d0) -> exists b q, v = tag b /\ In q V /\ In b (args_of g q).
Proof.
  intros H. apply (proj2 (Hsimp _)) in H. apply in_vars_subst in H as [w [Hw H]]. rewrite vars_rename in Hw. apply in_map_iff in Hw as [b [<- Hb]].
  apply Dv in Hb. apply (in_nvv g V ord Hord) in Hb as [[q [Hq ->]]|[q [Hq Hb]]].
  - rewrite (sub_loc q Hq) in H. destruct (Nat.eqb q p); destruct H.
  - rewrite (sub_arg b q Hb) in H. subst v. eauto.
Qed.
(** At location [p] the formula only depends on the argument variables. *)
Lemma d0_at s (r : valuation) : at_loc V s p -> (forall q b, In q V -> In b (args_of g q) -> eval r (Var (tag b)) = eval s (Var b)) -> (holds s d <-> holds r d0).
Proof.
  intros A H. rewrite d0_holds. apply holds_ext_ev. intros v Hv. apply Dv in Hv. apply (in_nvv g V ord Hord) in Hv as [[q [Hq ->]]|[q [Hq Hb]]].
  - cbn [eval]. unfold upd. rewrite (sub_loc q Hq). specialize (A q Hq). unfold holds, holdsb in A. cbn [eval] in A.
    cbn [vsort locv] in A |- *. fold (locv q) in A |- *. destruct (s (locv q)) as [[|]| |]; cbn in A |- *; destruct (Nat.eqb_spec q p) as [E|N]; cbn; try reflexivity;
    solve [apply A in E; discriminate E | destruct N; apply A; reflexivity].
  - cbn [eval]. unfold upd. rewrite (sub_arg v q Hb). specialize (H q v Hq Hb). cbn [eval] in H. rewrite Tsort in H. symmetry. exact H.
Qed.
Lemma own_read r s : args s (args_of g p) = args r (lpv g p) -> forall b, In b (args_of g p) -> eval (fun v => r (back v)) (Var (tag b)) = eval s (Var b).
Proof.
  intros E b Hb. assert (X : args (fun v => r (back v)) own = args r (lpv g p)) by (rewrite <- (args_map r back own back_sort), back_map; reflexivity).
  rewrite <- X, (args_map _ tag _ Tsort) in E. pose proof (args_eq_ev _ _ _ E b Hb) as H. cbn [eval] in H |- *. rewrite Tsort. symmetry. exact H.
Qed.
Theorem vertex_def_ok dp : vertex_def g qe simp tag sub (rename tag d) p = Some dp -> def_from g V d p dp.
Proof.
  unfold vertex_def. destruct (existsb (fun v => negb (inb v own)) (vars d0)) eqn:Al; intros E.
  - destruct (qe (mkNot d0) own) as [u|] eqn:Eq; [|discriminate]. assert (E' : dp = rename back (mkNot u)) by (apply Some_eq; symmetry; exact E). clear E. subst dp. destruct (Hqe _ _ _ Eq) as [Pv Ps]. split.
    + intros v Hv. cbv zeta in Hv. rewrite vars_rename in Hv. apply in_map_iff in Hv as [x [<- Hx]]. apply back_in, Pv. cbn in Hx. rewrite app_nil_r in Hx. exact Hx.
    + intros r. rewrite (holds_rename back r _ back_sort), holds_not, Ps. split.
      * intros N s A Ea. destruct (holds_dec (fun v => if in_dec var_dec v own then r (back v) else s (unv v)) d0) as [H|H].
        -- apply (d0_at s (fun v => if in_dec var_dec v own then r (back v) else s (unv v)) A); [|exact H]. intros q b Hq Hb.
           destruct (in_dec var_dec (tag b) own) as [I|I] eqn:Ei.
           ++ pose proof (own_read r s Ea b) as X. cbn [eval] in X |- *. rewrite Ei. apply X. destruct (proj1 (in_map_iff tag (args_of g p) (tag b)) I) as [b' [E' Hb']]. apply tag_inj in E'; [subst; exact Hb'|apply (args_of_base g p b' Hb')|apply (args_of_base g q b Hb)].
           ++ cbn [eval]. rewrite Ei, Tsort, (Tunv b (args_of_base g q b Hb)). reflexivity.
        -- exfalso. apply N. exists (fun v => if in_dec var_dec v own then r (back v) else s (unv v)). split; [|apply holds_not, H].
           intros v Hv. destruct (in_dec var_dec v own); [reflexivity|contradiction].
      * intros H [r' [Ag N]]. apply holds_not in N. apply N. clear N.
        set (s := fun b => if existsb (fun q => var_eqb b (locv q)) V then VBool (var_eqb b (locv p)) else r' (tag b)).
        assert (NL : forall q b, In b (args_of g q) -> s b = r' (tag b)).
        { intros q b Hb. unfold s. replace (existsb _ V) with false; [reflexivity|]. symmetry. apply not_true_is_false. intros X. apply existsb_exists in X as [q' [_ X]].
          destruct (var_eqb_spec b (locv q')) as [->|]; [|discriminate]. apply in_args_of in Hb as [i [x [_ E']]]. apply (loc_arg q' q i (vsort x)). congruence. }
        assert (A : at_loc V s p).
        { intros q Hq. unfold holds, holdsb. cbn [eval vsort locv]. fold (locv q). unfold s. replace (existsb _ V) with true by (symmetry; apply existsb_exists; exists q; split; [exact Hq|apply var_eqb_refl]).
          destruct (var_eqb_spec (locv q) (locv p)) as [E|N]; cbn; [split; [intros _; apply locv_inj; congruence|reflexivity]|split; [discriminate|intros ->; contradiction]]. }
        apply (d0_at s r' A).
        -- intros q b _ Hb. cbn [eval]. rewrite Tsort, (NL q b Hb). reflexivity.
        -- apply (H s A). transitivity (args r (map back own)); [|rewrite back_map; reflexivity]. rewrite (args_map r back own back_sort), (args_map _ tag _ Tsort). apply args_agree. intros b Hb. rewrite (NL p b Hb).
           symmetry. apply Ag. apply in_map, Hb.
  - assert (E' : dp = rename back d0) by (apply Some_eq; symmetry; exact E). clear E. subst dp. assert (Ow : forall v, In v (vars d0) -> In v own).
    { intros v Hv. destruct (inb v own) eqn:X; [apply inb_true, X|]. exfalso. assert (Y : existsb (fun v => negb (inb v own)) (vars d0) = true) by (apply existsb_exists; exists v; rewrite X; auto). congruence. }
    split.
    + intros v Hv. cbv zeta in Hv. rewrite vars_rename in Hv. apply in_map_iff in Hv as [x [<- Hx]]. apply back_in, Ow, Hx.
    + intros r. rewrite (holds_rename back r _ back_sort).
      assert (K : forall s, at_loc V s p -> args s (args_of g p) = args r (lpv g p) -> (holds s d <-> holds (fun v => r (back v)) d0)).
      { intros s A Ea. rewrite (d0_at s (fun v => s (unv v)) A).
        - apply holds_ext_ev. intros v Hv. apply Ow, in_map_iff in Hv as [b [<- Hb]]. rewrite (own_read r s Ea b Hb). cbn [eval]. rewrite Tsort, (Tunv b (args_of_base g p b Hb)). reflexivity.
        - intros q b _ Hb. cbn [eval]. rewrite Tsort, (Tunv b (args_of_base g q b Hb)). reflexivity. }
      split; [intros H s A Ea; apply (K s A Ea), H|]. intros H. destruct (at_exists g V p r Hp) as [s [A Ea]]. apply (K s A Ea), (H s A Ea).
Qed.
End Def.
