(** * The SMT services golem uses, as oracles with specifications.

    Golem calls OpenSMT through [SMTSolver] (src/utils/SmtSolver.h:18-51):
    [assertProp], [check], [getModel], [getInterpolationContext], [push], [pop].
    OpenSMT itself is not part of /repo, so these services are parameters of the model.
    A solver state is represented by the list of formulas asserted so far.
    Every oracle may decline to answer ([UNKNOWN] / [None]), so the specifications
    are satisfiable, and theorems quantify over all oracles that meet them. *)
From Verif Require Import Syntax.

(** [SMTSolver::Answer] (src/utils/SmtSolver.h:20) with the model of a SAT answer. *)
Inductive answer := SAT (model : valuation) | UNSAT | UNKNOWN.

Definition check_fn := list term -> answer.

(** What an answer of the solver promises. *)
Record check_ok (c : check_fn) : Prop := {
  check_sat : forall fs m, c fs = SAT m -> Forall (holds m) fs;
  check_unsat : forall fs, c fs = UNSAT -> unsat fs
}.

(** A solver that answers every query. *)
Definition decisive (c : check_fn) : Prop := forall fs, c fs <> UNKNOWN.

Definition is_sat (a : answer) : bool := match a with SAT _ => true | _ => false end.
Definition is_unsat (a : answer) : bool := match a with UNSAT => true | _ => false end.

(** Binary interpolation ([InterpolationContext::getSingleInterpolant]): the first
    argument is the A-part (the partitions in the mask), the second the B-part. *)
Definition itp_fn := list term -> list term -> option term.

Definition lvars (l : list term) : list var := concat (map vars l).

Lemma in_lvars v l : In v (lvars l) <-> exists t, In t l /\ In v (vars t).
Proof.
  unfold lvars. rewrite in_concat. split.
  - intros [x [Hx Hv]]. apply in_map_iff in Hx as [t [<- Ht]]. eauto.
  - intros [t [Ht Hv]]. exists (vars t). split; [apply in_map, Ht|exact Hv].
Qed.

Record interpolant (A B : list term) (I : term) : Prop := {
  itp_A : forall r, Forall (holds r) A -> holds r I;
  itp_B : forall r, holds r I -> Forall (holds r) B -> False;
  itp_vars : forall v, In v (vars I) -> In v (lvars A) /\ In v (lvars B)
}.

Definition itp_ok (f : itp_fn) : Prop :=
  forall A B I, f A B = Some I -> interpolant A B I.

(** Sequence interpolation ([InterpolationContext::getPathInterpolants] with the masks
    {0}, {0,1}, ...): for partitions [A1; ...; An] it returns [I1; ...; I(n-1)]. *)
Definition pitp_fn := list (list term) -> option (list term).

(** [chain P As Is]: with [P] the current left context. *)
Inductive itp_chain : term -> list (list term) -> list term -> Prop :=
| chain_last I A :
    (forall r, holds r I -> Forall (holds r) A -> False) ->
    itp_chain I [A] []
| chain_cons I A As J Js :
    (forall r, holds r I -> Forall (holds r) A -> holds r J) ->
    itp_chain J As Js ->
    itp_chain I (A :: As) (J :: Js).

Definition chain_vars (As : list (list term)) (Is : list term) : Prop :=
  forall i I, nth_error Is i = Some I -> forall v, In v (vars I) ->
    In v (lvars (concat (firstn (S i) As))) /\ In v (lvars (concat (skipn (S i) As))).

Definition pitp_ok (f : pitp_fn) : Prop :=
  forall As Is, f As = Some Is -> itp_chain tt_true As Is /\ chain_vars As Is.

(** Quantifier elimination service: [qe f keep] keeps only the variables in [keep]
    ([QuantifierElimination::keepOnly], src/QuantifierElimination.cc; modelled in QE.v,
    here as an abstract service). *)
Definition qe_fn := term -> list var -> option term.

Definition agree_on (l : list var) (r r' : valuation) : Prop := forall v, In v l -> r v = r' v.

Record is_projection (f : term) (keep : list var) (g : term) : Prop := {
  proj_vars : forall v, In v (vars g) -> In v keep;
  proj_sem : forall r, holds r g <-> exists r', agree_on keep r r' /\ holds r' f
}.

Definition qe_ok (q : qe_fn) : Prop :=
  forall f keep g, q f keep = Some g -> is_projection f keep g.

(** Model-based projection service ([ModelBasedProjection::keepOnly]): an
    under-approximation of the projection that contains the given model. *)
Definition mbp_fn := term -> list var -> valuation -> option term.

Record is_mbp (f : term) (keep : list var) (m : valuation) (g : term) : Prop := {
  mbp_vars : forall v, In v (vars g) -> In v keep;
  mbp_model : holds m f -> holds m g;
  mbp_under : forall r, holds r g -> exists r', agree_on keep r r' /\ holds r' f
}.

Definition mbp_ok (p : mbp_fn) : Prop :=
  forall f keep m g, p f keep m = Some g -> holds m f -> is_mbp f keep m g.

(** Oracles answering from a finite table (used for non-vacuity examples and for the
    explicit oracles of refutations): UNKNOWN / None outside of the table. *)
Fixpoint terms_eqb (a b : list term) : bool :=
  match a, b with
  | [], [] => true
  | x :: a', y :: b' => term_eqb x y && terms_eqb a' b'
  | _, _ => false
  end.

Lemma terms_eqb_eq a b : terms_eqb a b = true -> a = b.
Proof.
  revert b; induction a as [|x a IH]; intros [|y b]; simpl; try congruence.
  intros H. apply andb_true_iff in H as [H1 H2].
  destruct (term_eqb_spec x y); [|discriminate]. f_equal; auto.
Qed.

Lemma terms_eqb_refl a : terms_eqb a a = true.
Proof. induction a as [|x a IH]; simpl; [reflexivity|]. rewrite term_eqb_refl. exact IH. Qed.

Definition table_check (tbl : list (list term * answer)) : check_fn :=
  fun q => match find (fun e => terms_eqb (fst e) q) tbl with Some e => snd e | None => UNKNOWN end.

Definition good_answer (e : list term * answer) : Prop :=
  match snd e with
  | SAT m => Forall (holds m) (fst e)
  | UNSAT => unsat (fst e)
  | UNKNOWN => True
  end.

Lemma table_check_ok tbl : Forall good_answer tbl -> check_ok (table_check tbl).
Proof.
  intros H. rewrite Forall_forall in H.
  assert (G : forall q a, table_check tbl q = a -> a <> UNKNOWN -> good_answer (q, a)).
  { intros q a. unfold table_check.
    destruct (find _ tbl) as [e|] eqn:E; [|congruence].
    apply find_some in E as [E1 E2]. apply terms_eqb_eq in E2.
    intros <- _. specialize (H e E1). destruct e as [q' a']; simpl in *; subst. exact H. }
  split; intros fs.
  - intros m Hm. apply (G _ _ Hm). discriminate.
  - intros Hm. apply (G _ _ Hm). discriminate.
Qed.

Definition table_itp (tbl : list (list term * list term * term)) : itp_fn :=
  fun A B => match find (fun e => terms_eqb (fst (fst e)) A && terms_eqb (snd (fst e)) B) tbl with
             | Some e => Some (snd e) | None => None end.

Lemma table_itp_ok tbl :
  Forall (fun e => interpolant (fst (fst e)) (snd (fst e)) (snd e)) tbl -> itp_ok (table_itp tbl).
Proof.
  intros H A B I. unfold table_itp. destruct (find _ tbl) as [e|] eqn:E; [|discriminate].
  apply find_some in E as [E1 E2]. apply andb_true_iff in E2 as [E2 E3].
  apply terms_eqb_eq in E2. apply terms_eqb_eq in E3.
  intros HI. inversion HI; subst. rewrite Forall_forall in H. exact (H e E1).
Qed.

Fixpoint termss_eqb (a b : list (list term)) : bool :=
  match a, b with
  | [], [] => true
  | x :: a', y :: b' => terms_eqb x y && termss_eqb a' b'
  | _, _ => false
  end.

Lemma termss_eqb_eq a b : termss_eqb a b = true -> a = b.
Proof.
  revert b; induction a as [|x a IH]; intros [|y b]; simpl; try congruence.
  intros H. apply andb_true_iff in H as [H1 H2]. apply terms_eqb_eq in H1. f_equal; auto.
Qed.

Definition table_pitp (tbl : list (list (list term) * list term)) : pitp_fn :=
  fun A => match find (fun e => termss_eqb (fst e) A) tbl with
           | Some e => Some (snd e) | None => None end.

Lemma table_pitp_ok tbl :
  Forall (fun e => itp_chain tt_true (fst e) (snd e) /\ chain_vars (fst e) (snd e)) tbl ->
  pitp_ok (table_pitp tbl).
Proof.
  intros H A I. unfold table_pitp. destruct (find _ tbl) as [e|] eqn:E; [|discriminate].
  apply find_some in E as [E1 E2]. apply termss_eqb_eq in E2.
  intros HI. inversion HI; subst. rewrite Forall_forall in H. exact (H e E1).
Qed.

(** Oracles that always decline meet every specification. *)
Lemma check_unknown_ok : check_ok (fun _ => UNKNOWN).
Proof. split; intros; discriminate. Qed.
Lemma itp_none_ok : itp_ok (fun _ _ => None).
Proof. intros A B I H; discriminate. Qed.
Lemma pitp_none_ok : pitp_ok (fun _ => None).
Proof. intros A I H; discriminate. Qed.
