(** * CHC hypergraphs: syntax, semantics, witnesses.

    Models src/graph/ChcGraph.h and the witness types of src/Witnesses.h.  The semantic
    definitions ([derivable], [is_model], [solution], [valid_derivation]) are the
    specification the properties are stated with; they mention no function of the code. *)
From Verif Require Import Syntax Solver.
Open Scope nat_scope.

(** [SymRef] (predicate symbols); getEntry() is [true], getExit() is [false]
    (src/graph/ChcGraph.h:269-270). *)
Definition sym := nat.
Definition entry : sym := 0.
Definition exit : sym := 1.

(** [VersionManager::toSource], [toTarget] (src/TermUtils.h:355-374) on structured variables. *)
Definition src (i : nat) (v : var) : var := mkVar (vbase v) (TSrc i) (vsort v).
Definition tgt (v : var) : var := mkVar (vbase v) TTgt (vsort v).
Lemma src_sort i : sort_preserving (src i).
Proof. intros v. reflexivity. Qed.
Lemma tgt_sort : sort_preserving tgt.
Proof. intros v. reflexivity. Qed.

(** [DirectedHyperEdge] (src/graph/ChcGraph.h:47-52). *)
Record hedge := mkEdge { eid : nat; efrom : list sym; eto : sym; efla : term }.

(** [ChcDirectedHyperGraph] (src/graph/ChcGraph.h:224-258): the edges in the order of their ids
    (std::map), the canonical arguments of every predicate, the next free edge id.  The counters
    of fresh auxiliary variables (function-local statics: ChcGraph.h:318-322, ChcGraph.cc:308) are part
    of the state.  [gpv] is total here; the code's map is filled for every symbol that occurs. *)
Record hgraph := mkGraph { gedges : list hedge; gpv : sym -> list var; gfree : nat; gctr : nat }.

(** Instance numbers of the sources of an edge ([VertexInstances], src/graph/ChcGraph.cc:546-557,
    and [CountingProxy], src/TermUtils.h:460-471): the number of earlier equal sources. *)
Fixpoint inst_from (seen l : list sym) : list (sym * nat) :=
  match l with
  | [] => []
  | p :: l' => (p, count_occ Nat.eq_dec seen p) :: inst_from (p :: seen) l'
  end.
Definition instances (l : list sym) : list (sym * nat) := inst_from [] l.

(** Values of a list of variables. *)
Definition args (r : valuation) (l : list var) : list value := map (fun v => eval r (Var v)) l.
Definition src_vars (g : hgraph) (pi : sym * nat) : list var := map (src (snd pi)) (gpv g (fst pi)).
Definition tgt_vars (g : hgraph) (p : sym) : list var := map tgt (gpv g p).

(** ** Meaning *)
(** Facts derivable from the clauses (the least model). *)
Inductive derivable (g : hgraph) : sym -> list value -> Prop :=
| der_entry : derivable g entry []
| der_edge (e : hedge) (r : valuation) :
    In e (gedges g) ->
    (forall p i, In (p, i) (instances (efrom e)) -> derivable g p (args r (src_vars g (p, i)))) ->
    holds r (efla e) ->
    derivable g (eto e) (args r (tgt_vars g (eto e))).

Definition interpretation := sym -> list value -> Prop.
Definition is_model (g : hgraph) (M : interpretation) : Prop :=
  M entry [] /\
  forall e r, In e (gedges g) ->
    (forall p i, In (p, i) (instances (efrom e)) -> M p (args r (src_vars g (p, i)))) ->
    holds r (efla e) -> M (eto e) (args r (tgt_vars g (eto e))).
(** The clauses are satisfiable: some interpretation of the predicates satisfies all clauses,
    with [true] and [false] read as usual. *)
Definition chc_sat (g : hgraph) : Prop := exists M, is_model g M /\ ~ M exit [].

Lemma derivable_model g : is_model g (derivable g).
Proof. split; [constructor|]. intros. apply der_edge; auto. Qed.
Lemma derivable_least g M : is_model g M -> forall p vs, derivable g p vs -> M p vs.
Proof. intros [H0 H1] p vs D. induction D as [|e r He _ IH Hl]; [exact H0|]. apply H1; auto. Qed.
Theorem chc_sat_iff g : chc_sat g <-> ~ derivable g exit [].
Proof.
  split.
  - intros [M [HM HF]] D. apply HF. eapply derivable_least; eauto.
  - intros N. exists (derivable g). split; [apply derivable_model|exact N].
Qed.

(** ** Witnesses *)
(** [ValidityWitness::definitions_t] (src/Witnesses.h:87-104): formulas over the base variables. *)
Definition defs_t := sym -> option term.
Definition wset (w : defs_t) (p : sym) (d : term) : defs_t := fun q => if Nat.eqb q p then Some d else w q.

Definition def_holds (g : hgraph) (w : defs_t) (r : valuation) (pi : sym * nat) : Prop :=
  exists d, w (fst pi) = Some d /\ holds r (rename (src (snd pi)) d).

(** A witness is a solution: definitions over the arguments of their predicate, [true] is defined as
    valid, [false] as unsatisfiable, and every clause is valid under the definitions. *)
Record solution (g : hgraph) (w : defs_t) : Prop := {
  sol_vars : forall p d, w p = Some d -> forall v, In v (vars d) -> In v (gpv g p);
  sol_entry : exists d, w entry = Some d /\ forall r, holds r d;
  sol_exit : exists d, w exit = Some d /\ forall r, ~ holds r d;
  sol_edge : forall e, In e (gedges g) ->
      (forall p, In p (efrom e) -> w p <> None) /\
      exists dt, w (eto e) = Some dt /\
        forall r, holds r (efla e) ->
          (forall p i d, In (p, i) (instances (efrom e)) -> w p = Some d -> holds r (rename (src i) d)) ->
          holds r (rename tgt dt)
}.

(** [DerivationStep] (src/Witnesses.h:40-45). *)
Definition fact := (sym * list value)%type.
Record step := mkStep { st_premises : list nat; st_fact : fact; st_clause : nat }.
Definition derivation := list step.

(** One inference: some assignment satisfies the constraint of the clause and gives the premises and
    the conclusion their arguments. *)
Definition follows (g : hgraph) (e : hedge) (prems : list fact) (f : fact) : Prop :=
  exists r, holds r (efla e) /\
    prems = map (fun pi => (fst pi, args r (src_vars g pi))) (instances (efrom e)) /\
    f = (eto e, args r (tgt_vars g (eto e))).

Definition step_ok (g : hgraph) (d : derivation) (i : nat) (s : step) : Prop :=
  exists e prems, In e (gedges g) /\ eid e = st_clause s /\
    Forall2 (fun k f => k < i /\ option_map st_fact (nth_error d k) = Some f) (st_premises s) prems /\
    follows g e prems (st_fact s).

(** A derivation of [false]: it starts with [true], ends with [false], and every other step follows
    from earlier ones by a clause of the graph. *)
Record refutation (g : hgraph) (d : derivation) : Prop := {
  ref_first : option_map st_fact (nth_error d 0) = Some (entry, []);
  ref_last : exists n, length d = S n /\ option_map st_fact (nth_error d n) = Some (exit, []);
  ref_steps : forall i s, 0 < i -> nth_error d i = Some s -> step_ok g d i s
}.

(** ** Well-formed representations and graphs *)
(** Guaranteed by the Normalizer (see [Normalizer.v]) and kept by the transformations. *)
Record rep_wf (pv : sym -> list var) : Prop := {
  rep_entry : pv entry = [];
  rep_exit : pv exit = [];
  rep_base : forall p v, In v (pv p) -> vtag v = TBase;
  rep_nodup : forall p, NoDup (pv p);
  rep_disj : forall p q v, In v (pv p) -> In v (pv q) -> p = q
}.

(** ** Lemmas *)
Lemma args_agree r r' l : (forall v, In v l -> r v = r' v) -> args r l = args r' l.
Proof. intros H. apply map_ext_in. intros v Hv. simpl. rewrite H; auto. Qed.
Lemma args_agree_ev r r' l : (forall v, In v l -> eval r (Var v) = eval r' (Var v)) -> args r l = args r' l.
Proof. intros H. apply map_ext_in. exact H. Qed.
Lemma args_eq_ev r r' l : args r l = args r' l -> forall v, In v l -> eval r (Var v) = eval r' (Var v).
Proof.
  induction l as [|x l IH]; intros H v Hv; [destruct Hv|]. unfold args in H. cbn [map] in H. injection H as H1 H2.
  destruct Hv as [->|Hv]; [exact H1|]. apply IH; auto.
Qed.
Lemma args_map r f l : sort_preserving f -> args r (map f l) = args (fun v => r (f v)) l.
Proof. intros Hf. unfold args. rewrite map_map. apply map_ext. intros v. simpl. rewrite Hf. reflexivity. Qed.
Lemma args_length r l : length (args r l) = length l.
Proof. apply map_length. Qed.

(** A definition is evaluated through the arguments only. *)
Lemma def_args r r' d l : (forall v, In v (vars d) -> In v l) -> args r l = args r' l -> (holds r d <-> holds r' d).
Proof.
  intros Hv E. unfold holds, holdsb. rewrite (eval_ext r r' d); [tauto|].
  intros v Hin. apply (args_eq_ev r r' l E). apply Hv, Hin.
Qed.

(** The interpretation given by definitions. *)
Definition as_interp (g : hgraph) (w : defs_t) : interpretation :=
  fun p vs => forall r d, args r (gpv g p) = vs -> w p = Some d -> holds r d.

Lemma as_interp_args g w p d r f : sort_preserving f -> w p = Some d -> (forall v, In v (vars d) -> In v (gpv g p)) ->
  (as_interp g w p (args r (map f (gpv g p))) <-> holds r (rename f d)).
Proof.
  intros Hf Hw Hv. rewrite args_map by exact Hf. rewrite holds_rename by exact Hf. split.
  - intros H. apply (H (fun v => r (f v)) d); auto.
  - intros H r' d' E Hd. rewrite Hw in Hd. inversion Hd; subst d'. eapply def_args; [exact Hv|exact E|exact H].
Qed.

Theorem solution_model g w : solution g w -> is_model g (as_interp g w) /\ ~ as_interp g w exit (args (fun _ => VBool true) (gpv g exit)).
Proof.
  intros [V [d0 [E0 T0]] [d1 [E1 T1]] HE]. split; [split|].
  - intros r d _ E. rewrite E0 in E. inversion E; subst. apply T0.
  - intros e r He Hs Hl. destruct (HE e He) as [Hd [dt [Et Ht]]].
    unfold tgt_vars. refine (proj2 (as_interp_args g w (eto e) dt r tgt tgt_sort Et (V _ _ Et)) _).
    apply Ht; [exact Hl|]. intros p i d Hin Hw.
    refine (proj1 (as_interp_args g w p d r (src i) (src_sort i) Hw (V _ _ Hw)) _). exact (Hs p i Hin).
  - intros H. apply (T1 (fun _ => VBool true)). apply (H (fun _ => VBool true) d1); auto.
Qed.

(** A solution shows that [false] is not derivable. *)
Theorem solution_safe g w : gpv g exit = [] -> solution g w -> ~ derivable g exit [].
Proof.
  intros Hx S D. destruct (solution_model g w S) as [M N]. apply N. rewrite Hx. simpl.
  apply (derivable_least g _ M exit [] D).
Qed.

Lemma in_instances_from seen l p i : In (p, i) (inst_from seen l) -> In p l.
Proof.
  revert seen. induction l as [|q l IH]; intros seen H; [destruct H|].
  simpl in H. destruct H as [E|H]; [inversion E; simpl; auto|]. right. eapply IH, H.
Qed.
Lemma in_instances l p i : In (p, i) (instances l) -> In p l.
Proof. apply in_instances_from. Qed.
Lemma instances_fst_from seen l : map fst (inst_from seen l) = l.
Proof. revert seen. induction l; intros; simpl; [reflexivity|]. f_equal. apply IHl. Qed.
Lemma instances_fst l : map fst (instances l) = l.
Proof. apply instances_fst_from. Qed.
Lemma instances_in l p : In p l -> exists i, In (p, i) (instances l).
Proof.
  intros H. rewrite <- (instances_fst l) in H. apply in_map_iff in H as [[q i] [E H]]. simpl in E. subst. eauto.
Qed.

Lemma inst_from_ge seen l p i : In (p, i) (inst_from seen l) -> count_occ Nat.eq_dec seen p <= i.
Proof.
  revert seen. induction l as [|q l IH]; intros seen H; [destruct H|].
  simpl in H. destruct H as [E|H]; [inversion E; subst; lia|].
  apply IH in H. simpl in H. destruct (Nat.eq_dec q p); lia.
Qed.
Lemma inst_from_nodup seen l : NoDup (inst_from seen l).
Proof.
  revert seen. induction l as [|p l IH]; intros seen; simpl; constructor; [|apply IH].
  intros H. apply inst_from_ge in H. simpl in H. destruct (Nat.eq_dec p p); [lia|congruence].
Qed.
Lemma instances_nodup l : NoDup (instances l).
Proof. apply inst_from_nodup. Qed.

Lemma instances_single p : instances [p] = [(p, 0)].
Proof. reflexivity. Qed.

(** Sources that occur once have instance number 0. *)
Lemma inst_from_zero seen l p i : ~ In p seen -> count_occ Nat.eq_dec l p <= 1 -> In (p, i) (inst_from seen l) -> i = 0.
Proof.
  revert seen. induction l as [|q l IH]; intros seen Hs Hc H; [destruct H|].
  simpl in H. destruct H as [E|H].
  - inversion E; subst. apply count_occ_not_In. exact Hs.
  - simpl in Hc. destruct (Nat.eq_dec q p) as [->|N].
    + exfalso. apply in_instances_from in H. apply (count_occ_In Nat.eq_dec) in H. lia.
    + apply (IH (q :: seen)); auto. intros [X|X]; auto.
Qed.

(** A refutation derives [false]. *)
Lemma Forall2_nth {A B} (P : A -> B -> Prop) l l' : Forall2 P l l' -> forall b, In b l' -> exists a, In a l /\ P a b.
Proof.
  intros H. induction H; intros b Hb; [destruct Hb|]. destruct Hb as [->|Hb]; [exists x; simpl; auto|].
  destruct (IHForall2 b Hb) as [a [Ha Pa]]. exists a. simpl; auto.
Qed.

Lemma refutation_facts g d : refutation g d -> forall i s, nth_error d i = Some s ->
  derivable g (fst (st_fact s)) (snd (st_fact s)).
Proof.
  intros [H0 _ HS] i. induction i as [i IH] using lt_wf_ind. intros s Hs.
  destruct i as [|i].
  - rewrite Hs in H0. simpl in H0. injection H0 as E. rewrite E. simpl. constructor.
  - destruct (HS (S i) s) as [e [prems [He [_ [Hp [r [Hl [Ep Ef]]]]]]]]; [lia|exact Hs|].
    rewrite Ef. simpl. apply der_edge; auto. intros p j Hpj.
    assert (Hin : In (p, args r (src_vars g (p, j))) prems).
    { rewrite Ep. apply in_map_iff. exists (p, j). auto. }
    destruct (Forall2_nth _ _ _ Hp _ Hin) as [k [_ [Hk Ek]]].
    destruct (nth_error d k) as [sk|] eqn:Ed; simpl in Ek; [|discriminate]. inversion Ek as [Ef'].
    specialize (IH k Hk sk Ed). rewrite Ef' in IH. exact IH.
Qed.
Theorem refutation_derivable g d : refutation g d -> derivable g exit [].
Proof.
  intros H. destruct (ref_last g d H) as [n [Hn E]]. destruct (nth_error d n) as [s|] eqn:Es; [|discriminate].
  simpl in E. inversion E as [Ef]. pose proof (refutation_facts g d H n s Es) as D. rewrite Ef in D. exact D.
Qed.

(** ** Variables of the predicates *)
Lemma NoDup_map_inj_in {A B} (f : A -> B) l : (forall a b, In a l -> In b l -> f a = f b -> a = b) -> NoDup l -> NoDup (map f l).
Proof.
  intros Hf N. induction N as [|x l Hx N IH]; simpl; constructor.
  - intros H. apply in_map_iff in H as [y [E Hy]]. apply Hx. rewrite (Hf x y); simpl; auto.
  - apply IH. intros a b Ha Hb. apply Hf; simpl; auto.
Qed.
Section RepVars.
Variable g : hgraph.
Lemma in_src_vars pi v : In v (src_vars g pi) -> exists b, In b (gpv g (fst pi)) /\ v = src (snd pi) b.
Proof. unfold src_vars. intros H. apply in_map_iff in H as [b [E H]]. eauto. Qed.

Hypothesis Hrep : rep_wf (gpv g).

Lemma src_vars_disj pi pi' v : In v (src_vars g pi) -> In v (src_vars g pi') -> pi = pi'.
Proof.
  intros H H'. apply in_src_vars in H as [b [Hb E]]. apply in_src_vars in H' as [b' [Hb' E']].
  rewrite E in E'. unfold src in E'. injection E' as E1 E2 E3. destruct pi as [p i], pi' as [q j]. simpl in *. subst j.
  f_equal. eapply (rep_disj _ Hrep); [exact Hb|].
  replace b with b'; [exact Hb'|]. pose proof (rep_base _ Hrep _ _ Hb). pose proof (rep_base _ Hrep _ _ Hb').
  destruct b, b'; simpl in *; congruence.
Qed.
Lemma src_vars_nodup pi : NoDup (src_vars g pi).
Proof.
  unfold src_vars. apply NoDup_map_inj_in; [|apply (rep_nodup _ Hrep)].
  intros a b Ha Hb E. unfold src in E. injection E as E1 E2.
  pose proof (rep_base _ Hrep _ _ Ha). pose proof (rep_base _ Hrep _ _ Hb). destruct a, b; simpl in *; congruence.
Qed.
Lemma tgt_vars_nodup p : NoDup (tgt_vars g p).
Proof.
  unfold tgt_vars. apply NoDup_map_inj_in; [|apply (rep_nodup _ Hrep)].
  intros a b Ha Hb E. unfold tgt in E. injection E as E1 E2.
  pose proof (rep_base _ Hrep _ _ Ha). pose proof (rep_base _ Hrep _ _ Hb). destruct a, b; simpl in *; congruence.
Qed.
Lemma src_tgt_disj pi p v : In v (src_vars g pi) -> In v (tgt_vars g p) -> False.
Proof.
  intros H H'. apply in_src_vars in H as [b [Hb E]]. unfold tgt_vars in H'. apply in_map_iff in H' as [b' [E' _]].
  subst. unfold src, tgt in E'. inversion E'.
Qed.

End RepVars.
