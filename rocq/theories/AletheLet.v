(** * Elimination of lets keeps the meaning. *)
From Verif Require Import Names AletheModel AletheSpec AletheSound.
Open Scope string_scope.
Open Scope list_scope.
Open Scope nat_scope.

(** A symbol: neither the text of a constant nor a variable with a sign. *)
Definition simple (s : string) : bool :=
  (negb (String.eqb s "true") && negb (String.eqb s "false") && match read_number s with None => true | _ => false end && match minus_of s with None => true | _ => false end)%bool.
(** Variables are symbols, constants are not. *)
Definition term_ok (s : string) (k : tkind) : bool :=
  match k with KVar => simple s | KBool => (String.eqb s "true" || String.eqb s "false")%bool | KInt | KReal => match read_number s with Some _ => true | None => false end | _ => false end.
(** Terms without lets and quantifiers. *)
Fixpoint letfree (t : atm) : bool :=
  match t with T s k => term_ok s k | O _ l | A _ l => forallb letfree l | _ => false end.
(** Terms with lets outside predicate arguments and declarations. *)
Fixpoint plain (t : atm) : bool :=
  match t with
  | T s k => term_ok s k
  | O _ l => forallb plain l
  | A _ l => forallb letfree l
  | Let ns ds b => (Nat.eqb (length ns) (length ds) && forallb simple ns && forallb letfree ds && plain b)%bool
  | All _ _ => false
  end.
(** An assertion: quantified at the top or not at all. *)
Definition plain_top (t : atm) : bool := match t with All _ c => plain c | _ => plain t end.
Definition letfree_top (t : atm) : bool := match t with All _ c => letfree c | _ => letfree t end.
(** Number of lets. *)
Fixpoint lets (t : atm) : nat :=
  match t with
  | T _ _ => 0
  | O _ l | A _ l => list_sum (map lets l)
  | All _ c => lets c
  | Let _ ds b => S (list_sum (map lets ds) + lets b)
  end.

Lemma simple_const s k : term_ok s k = true -> k <> KVar -> simple s = false.
Proof.
  unfold simple. destruct k; cbn; try congruence.
  - destruct (read_number s); [|discriminate]. intros _ _. rewrite andb_false_r. reflexivity.
  - destruct (read_number s); [|discriminate]. intros _ _. rewrite andb_false_r. reflexivity.
  - intros H _. apply orb_prop in H as [->| ->]; cbn; [reflexivity|rewrite andb_false_r; reflexivity].
Qed.
Lemma simple_minus s : simple s = true -> minus_of s = None.
Proof. unfold simple. intros H. apply andb_prop in H as [_ H]. destruct (minus_of s); [discriminate|reflexivity]. Qed.
Lemma letfree_lets t : letfree t = true -> lets t = 0.
Proof.
  induction t using atm_ind'; cbn; try discriminate; [reflexivity|..]; intros E; rewrite forallb_forall in E; rewrite Forall_forall in H;
    induction l as [|x l IH]; cbn; try reflexivity; rewrite (H x (or_introl eq_refl)) by (apply E; left; reflexivity); apply IH; intros; first [apply H|apply E]; try (right; assumption); assumption.
Qed.
Lemma letfree_plain t : letfree t = true -> plain t = true.
Proof.
  induction t using atm_ind'; cbn; auto; try discriminate. intros E. rewrite forallb_forall in *. rewrite Forall_forall in H. intros x Hx. auto.
Qed.
Lemma plain_nolets t : plain t = true -> lets t = 0 -> letfree t = true.
Proof.
  induction t using atm_ind'; cbn; auto; try discriminate. intros E. rewrite forallb_forall in *. rewrite Forall_forall in H. intros Hs x Hx. apply H; auto.
  clear -Hs Hx. induction l as [|y l IHl]; [destruct Hx|]. change (lets y + list_sum (map lets l) = 0) in Hs. destruct Hx as [->|Hx]; [lia|]. apply IHl; [lia|assumption].
Qed.

Lemma lookup_combine (ns : list string) (ds : list atm) I r s : length ns = length ds ->
  slookup (combine ns (map (den I r) ds)) s = option_map (den I r) (slookup (combine ns ds) s).
Proof.
  revert ds. induction ns as [|n ns IH]; intros [|d ds] H; try discriminate H; cbn; [reflexivity|]. destruct (String.eqb n s); cbn; [reflexivity|]. apply IH. injection H as H. exact H.
Qed.
Lemma lookup_simple (ns : list string) (ds : list atm) s : forallb simple ns = true -> simple s = false -> slookup (combine ns ds) s = None.
Proof.
  intros H Hs. apply slookup_None. intros Hi. apply in_map_iff in Hi as ([n d] & E & Hi). cbn in E. subst n. apply in_combine_l in Hi. rewrite forallb_forall in H. rewrite (H _ Hi) in Hs. discriminate.
Qed.
Definition opgo := (fix go (b : bindings) (l : list atm) {struct l} : option (list atm * bindings) :=
    match l with
    | [] => Some ([], b)
    | x :: r => match operate b x with
                | Some (x', b1) => match go b1 r with Some (r', b2) => Some (x' :: r', b2) | None => None end
                | None => None
                end
    end).
(** Replacement of the declared names in a term without lets. *)
Lemma operate_flat ns ds : length ns = length ds -> forallb simple ns = true -> forallb letfree ds = true ->
  forall b, letfree b = true -> exists b', operate (ns, ds) b = Some (b', (ns, ds)) /\ letfree b' = true /\
    forall I r, den I r b' = den I (extend r (combine ns (map (den I r) ds))) b.
Proof.
  intros HL HN HD.
  assert (G : forall l, Forall (fun b => letfree b = true -> exists b', operate (ns, ds) b = Some (b', (ns, ds)) /\ letfree b' = true /\
    forall I r, den I r b' = den I (extend r (combine ns (map (den I r) ds))) b) l -> forallb letfree l = true ->
    exists l', opgo (ns, ds) l = Some (l', (ns, ds)) /\ forallb letfree l' = true /\
    forall I r, map (den I r) l' = map (den I (extend r (combine ns (map (den I r) ds)))) l).
  { induction 1 as [|x l Hx _ IH]; intros H; [exists []; auto|]. cbn in H. apply andb_prop in H as [H1 H2].
    change (opgo (ns, ds) (x :: l)) with (match operate (ns, ds) x with Some (x', b1) => match opgo b1 l with Some (r', b2) => Some (x' :: r', b2) | None => None end | None => None end).
    destruct (Hx H1) as (x' & -> & Fx & Ex). destruct (IH H2) as (l' & El & Fl & Dl). rewrite El.
    exists (x' :: l'). repeat split; cbn; [rewrite Fx, Fl; reflexivity|]. intros I r. rewrite Ex, Dl. reflexivity. }
  induction b using atm_ind'; intros F; try discriminate F.
  - cbn [operate]. unfold blookup. cbn [fst snd]. cbn in F.
    destruct (slookup (combine ns ds) s) as [u|] eqn:E.
    + assert (k = KVar) as ->.
      { destruct k; auto; rewrite lookup_simple in E; try discriminate; try assumption; eapply simple_const; eauto; discriminate. }
      exists u. repeat split.
      * apply slookup_In, in_combine_r in E. rewrite forallb_forall in HD. auto.
      * intros I r. cbn [den]. unfold var_val. rewrite (simple_minus s F). unfold extend. rewrite lookup_combine, E by assumption. reflexivity.
    + exists (T s k). repeat split; [exact F|]. intros I r. cbn [den]. destruct k; try reflexivity. unfold var_val. rewrite (simple_minus s F). unfold extend. rewrite lookup_combine, E by assumption. reflexivity.
  - destruct (G l H F) as (l' & E & Fl & Dl). exists (O o l'). change (operate (ns, ds) (O o l)) with (match opgo (ns, ds) l with Some (l', b') => Some (O o l', b') | None => None end). rewrite E. repeat split; [exact Fl|]. intros I r. cbn [den]. rewrite Dl. reflexivity.
  - destruct (G l H F) as (l' & E & Fl & Dl). exists (A f l'). change (operate (ns, ds) (A f l)) with (match opgo (ns, ds) l with Some (l', b') => Some (A f l', b') | None => None end). rewrite E. repeat split; [exact Fl|]. intros I r. cbn [den]. rewrite Dl. reflexivity.
Qed.

Definition expgo := fix go (l : list atm) : option (option (list atm)) :=
    match l with
    | [] => None
    | x :: r => match expand_let x with
                | Some (Some x') => Some (Some (x' :: r))
                | Some None => Some None
                | None => match go r with Some (Some r') => Some (Some (x :: r')) | Some None => Some None | None => None end
                end
    end.
Definition expanded (t : atm) (x : option (option atm)) : Prop :=
  match x with
  | None => lets t = 0
  | Some None => False
  | Some (Some t') => plain t' = true /\ lets t = S (lets t') /\ forall I r, den I r t' = den I r t
  end.
Lemma expand_ok t : plain t = true -> expanded t (expand_let t).
Proof.
  induction t using atm_ind'; intros P; try discriminate P.
  - reflexivity.
  - assert (G : forallb plain l = true -> match expgo l with None => list_sum (map lets l) = 0 | Some None => False | Some (Some l') => forallb plain l' = true /\ list_sum (map lets l) = S (list_sum (map lets l')) /\ forall I r, map (den I r) l' = map (den I r) l end).
    { clear P. induction H as [|x l Hx _ IH]; cbn; [reflexivity|]. intros P. apply andb_prop in P as [P1 P2]. specialize (Hx P1). specialize (IH P2).
      destruct (expand_let x) as [[x'|]|]; cbn in Hx; [|exact Hx|].
      - destruct Hx as (A1 & A2 & A3). cbn. rewrite A1, P2. repeat split; [unfold list_sum in *; lia|]. intros I r. rewrite A3. reflexivity.
      - fold expgo. destruct (expgo l) as [[l'|]|]; [|exact IH|unfold list_sum in *; lia]. destruct IH as (A1 & A2 & A3). cbn. rewrite A1, P1. repeat split; [unfold list_sum in *; lia|]. intros I r. rewrite A3. reflexivity. }
    specialize (G P). cbn [expand_let]. fold expgo. destruct (expgo l) as [[l'|]|]; [|exact G|exact G]. destruct G as (A1 & A2 & A3). cbn [expanded plain lets den]. repeat split; [exact A1|exact A2|]. intros I r. rewrite A3. reflexivity.
  - cbn [expand_let expanded]. cbn in P |- *. rewrite forallb_forall in P. clear H. induction l as [|x l IH]; cbn; [reflexivity|].
    rewrite letfree_lets by (apply P; left; reflexivity). apply IH. intros y Hy. apply P. right. exact Hy.
  - cbn in P. apply andb_prop in P as [P Pb]. apply andb_prop in P as [P Pd]. apply andb_prop in P as [Pl Pn]. apply Nat.eqb_eq in Pl.
    specialize (IHt Pb). cbn [expand_let]. destruct (expand_let t) as [[b'|]|]; [|exact IHt|]; cbn in IHt.
    + destruct IHt as (A1 & A2 & A3). cbn. rewrite Pn, Pd, A1, Pl, Nat.eqb_refl. repeat split; [lia|]. intros I r. apply A3.
    + destruct (operate_flat ns ds Pl Pn Pd t (plain_nolets _ Pb IHt)) as (b' & -> & F & D). cbn. repeat split; [apply letfree_plain; exact F| |exact D].
      rewrite IHt, (letfree_lets b' F). assert (list_sum (map lets ds) = 0) as ->; [|lia].
      rewrite forallb_forall in Pd. clear -Pd. induction ds as [|x l IH]; cbn; [reflexivity|]. rewrite letfree_lets by (apply Pd; left; reflexivity). apply IH. intros y Hy. apply Pd. right. exact Hy.
Qed.

Lemma elim_S fuel t : elim_lets fuel t = match expand_let t with None => Some t | Some None => None | Some (Some t') => match fuel with 0 => None | S n => elim_lets n t' end end.
Proof. destruct fuel; reflexivity. Qed.
(** The loop ends, and the assertion keeps its meaning. *)
Theorem elim_lets_ok t fuel : plain_top t = true -> lets t <= fuel ->
  exists t', elim_lets fuel t = Some t' /\ letfree_top t' = true /\ forall I r, tr I r t' <-> tr I r t.
Proof.
  assert (Q : forall vs c n, plain c = true -> lets c <= n -> exists c', elim_lets n c = Some c' /\ elim_lets n (All vs c) = Some (All vs c') /\ letfree c' = true /\ forall I r, den I r c' = den I r c).
  { intros vs c n. revert c. induction n as [|n IH]; intros c P L; rewrite !elim_S; cbn [expand_let]; pose proof (expand_ok c P) as E; destruct (expand_let c) as [[c1|]|]; cbn in E; try tauto.
    - lia.
    - exists c. repeat split; auto using plain_nolets.
    - destruct E as (A1 & A2 & A3). destruct (IH c1 A1) as (c' & B0 & B1 & B2 & B3); [lia|]. exists c'. repeat split; auto. intros I r. rewrite B3. apply A3.
    - exists c. repeat split; auto using plain_nolets. }
  intros P L. destruct t as [s k|o l|f l|vs c|ns ds b].
  4:{ destruct (Q vs c fuel P L) as (c' & _ & E & F & D). exists (All vs c'). repeat split; auto; cbn; intros H r' Hr Hs; [rewrite <- D|rewrite D]; auto. }
  all: (match goal with |- context [elim_lets _ ?t] => destruct (Q [] t fuel P L) as (c' & E & _ & F & D) end); exists c'; rewrite E; split; [reflexivity|];
    split; [destruct c'; auto; discriminate F|intros I r; rewrite !tr_den; [rewrite D; reflexivity|reflexivity|destruct c'; auto; discriminate F]].
Qed.
