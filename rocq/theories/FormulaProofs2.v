(** * Proofs about the formula utilities, part 2: top-level juncts and simplification of junctions. *)
From Coq Require Import QArith Qcanon.
From Verif Require Import Syntax Solver KTo1Model DarModel FormulaModel FormulaProofs.
Open Scope Z_scope.

(** ** Top-level juncts *)
Lemma purify_app_other f ts : (forall a, App f ts <> App FNot [a]) -> purify (App f ts) = (App f ts, true).
Proof.
  intros N. destruct f; try reflexivity. destruct ts as [|a [|b ts]]; try reflexivity. exfalso. apply (N a). reflexivity.
Qed.
Lemma not_dec t : (exists a, t = App FNot [a]) \/ (forall a, t <> App FNot [a]).
Proof.
  destruct t as [v|c|f ts]; try (right; congruence).
  destruct f; try (right; congruence). destruct ts as [|a [|b ts]]; try (right; congruence). left. eauto.
Qed.

Lemma holdsb_lit_flip r l : holdsb r (lit_term (flip l)) = negb (holdsb r (lit_term l)).
Proof. destruct l as [t []]; unfold holdsb; simpl; [reflexivity|]. rewrite negb_involutive. reflexivity. Qed.

Lemma purify_meaning t r : holdsb r (lit_term (purify t)) = holdsb r t.
Proof.
  induction t as [v|c|f ts IH] using term_ind'; try reflexivity.
  destruct (not_dec (App f ts)) as [[a E]|N].
  - inversion E; subst. simpl. destruct (purify a) as [p s] eqn:Ep.
    inversion IH as [|? ? Ha _]; subst. rewrite Ep in Ha.
    change (p, negb s) with (flip (p, s)). rewrite holdsb_lit_flip, Ha. reflexivity.
  - rewrite purify_app_other by exact N. reflexivity.
Qed.
Lemma purify_size t : (size (fst (purify t)) <= size t)%nat.
Proof.
  induction t as [v|c|f ts IH] using term_ind'; try (simpl; lia).
  destruct (not_dec (App f ts)) as [[a E]|N].
  - inversion E; subst. simpl. destruct (purify a) as [p s] eqn:Ep. inversion IH as [|? ? Ha _]; subst.
    rewrite Ep in Ha. simpl in *. lia.
  - rewrite purify_app_other by exact N. simpl; lia.
Qed.
Lemma size_pos t : (1 <= size t)%nat.
Proof. destruct t; simpl; lia. Qed.

(** [good j r t]: the junct does not decide the junction: it holds (conjunctions), it fails (disjunctions). *)
Definition good (j : junction) (r : valuation) (t : term) : bool :=
  match j with Conj => holdsb r t | Disj => negb (holdsb r t) end.
Definition goodl (j : junction) (r : valuation) (l : literal) : bool := good j r (lit_term l).

Lemma holdsb_and r l : holdsb r (mkAnd l) = forallb (holdsb r) l.
Proof. unfold holdsb at 1. simpl. induction l; simpl; [reflexivity|]. rewrite IHl. reflexivity. Qed.
Lemma holdsb_or r l : holdsb r (mkOr l) = existsb (holdsb r) l.
Proof. unfold holdsb at 1. simpl. induction l; simpl; [reflexivity|]. rewrite IHl. reflexivity. Qed.
Lemma forallb_negb {A} (f : A -> bool) l : forallb (fun x => negb (f x)) l = negb (existsb f l).
Proof. induction l; simpl; [reflexivity|]. rewrite IHl, negb_orb. reflexivity. Qed.
Lemma existsb_negb {A} (f : A -> bool) l : existsb (fun x => negb (f x)) l = negb (forallb f l).
Proof. induction l; simpl; [reflexivity|]. rewrite IHl, negb_andb. reflexivity. Qed.

Lemma good_junction j r l : good j r (mkJunction j l) = forallb (good j r) l.
Proof.
  destruct j; simpl.
  - unfold good. rewrite holdsb_and. reflexivity.
  - unfold good. rewrite holdsb_or, forallb_negb. reflexivity.
Qed.
Lemma is_junction_eq j f ts : is_junction j f = true -> App f ts = mkJunction j ts.
Proof. destruct j, f; try discriminate; reflexivity. Qed.

Definition children (j : junction) (l : literal) : option (list literal) :=
  match l with
  | (App f ts, true) => if is_junction j f then Some (map purify ts) else None
  | (App f ts, false) => if is_junction (other j) f then Some (map (fun t => flip (purify t)) ts) else None
  | _ => None
  end.

Lemma children_good j r l cs : children j l = Some cs -> goodl j r l = forallb (goodl j r) cs.
Proof.
  destruct l as [[v|c|f ts] []]; simpl; try discriminate.
  - destruct (is_junction j f) eqn:E; [|discriminate]. intros H; inversion H; subst.
    change (good j r (App f ts) = forallb (goodl j r) (map purify ts)). rewrite (is_junction_eq _ _ ts E), good_junction.
    clear. induction ts as [|t ts IH]; simpl; [reflexivity|]. rewrite IH. f_equal.
    unfold goodl. destruct j; unfold good; rewrite purify_meaning; reflexivity.
  - destruct (is_junction (other j) f) eqn:E; [|discriminate]. intros H; inversion H; subst.
    change (good j r (mkNot (App f ts)) = forallb (goodl j r) (map (fun t => flip (purify t)) ts)). rewrite (is_junction_eq _ _ ts E).
    assert (X : good j r (mkNot (mkJunction (other j) ts)) = forallb (fun t => good j r (mkNot t)) ts).
    { destruct j; simpl; unfold good.
      - transitivity (negb (holdsb r (mkOr ts))); [reflexivity|]. rewrite holdsb_or, <- forallb_negb. reflexivity.
      - transitivity (negb (negb (holdsb r (mkAnd ts)))); [reflexivity|]. rewrite negb_involutive, holdsb_and.
        clear. induction ts as [|t ts IH]; simpl; [reflexivity|]. rewrite IH. f_equal. unfold holdsb; simpl.
        rewrite negb_involutive. reflexivity. }
    rewrite X. clear. induction ts as [|t ts IH]; simpl; [reflexivity|]. rewrite IH. f_equal.
    unfold goodl. destruct j; unfold good; rewrite holdsb_lit_flip, purify_meaning; reflexivity.
Qed.

Lemma children_size j l cs c : children j l = Some cs -> In c cs -> (size (fst c) < size (fst l))%nat.
Proof.
  assert (S1 : forall ts t, In t ts -> (size t <= fold_right (fun t n => (size t + n)%nat) 0%nat ts)%nat).
  { induction ts as [|x ts IH]; simpl; [tauto|]. intros t [->|H]; [lia|]. apply IH in H. lia. }
  destruct l as [[v|c0|f ts] []]; simpl; try discriminate.
  - destruct (is_junction j f); [|discriminate]. intros H Hc; inversion H; subst.
    apply in_map_iff in Hc as [t [<- Ht]]. pose proof (purify_size t). apply S1 in Ht. lia.
  - destruct (is_junction (other j) f); [|discriminate]. intros H Hc; inversion H; subst.
    apply in_map_iff in Hc as [t [<- Ht]]. pose proof (purify_size t). apply S1 in Ht. simpl. lia.
Qed.

Lemma juncts_step fuel j l queue seen acc :
  juncts_loop (S fuel) j (l :: queue) seen acc =
  if existsb (lit_eqb l) seen then juncts_loop fuel j queue seen acc else
  match children j l with
  | Some cs => juncts_loop fuel j (rev cs ++ queue) (l :: seen) acc
  | None => juncts_loop fuel j queue (l :: seen) (acc ++ [lit_term l])
  end.
Proof.
  cbn [juncts_loop]. destruct (existsb (lit_eqb l) seen); [reflexivity|].
  destruct l as [[v|c|f ts] []]; simpl; try reflexivity.
  - destruct (is_junction j f); reflexivity.
  - destruct (is_junction (other j) f); reflexivity.
Qed.

Lemma lit_eqb_eq a b : lit_eqb a b = true <-> a = b.
Proof.
  unfold lit_eqb. rewrite andb_true_iff, term_eqb_iff, Bool.eqb_true_iff. destruct a, b; simpl. split.
  - intros [-> ->]. reflexivity.
  - intros H; inversion H; auto.
Qed.

Record jinv (j : junction) (root : literal) (queue seen : list literal) (acc : list term) : Prop := {
  ji_root : In root (queue ++ seen);
  ji_seen : forall s, In s seen -> In (lit_term s) acc \/
                 exists cs, children j s = Some cs /\ forall c, In c cs -> In c (queue ++ seen);
  ji_good : forall r, goodl j r root = true -> forallb (goodl j r) queue = true /\ forallb (good j r) acc = true
}.

Lemma jinv_seen_good j root seen acc r : jinv j root [] seen acc -> forallb (good j r) acc = true ->
  goodl j r root = true.
Proof.
  intros [A B _] H. rewrite forallb_forall in H.
  assert (X : forall n s, (size (fst s) < n)%nat -> In s seen -> goodl j r s = true).
  { induction n as [|n IH]; intros s Hs Hin; [lia|].
    destruct (B s Hin) as [Ha|[cs [Ec Hc]]]; [apply H, Ha|].
    rewrite (children_good j r s cs Ec). apply forallb_forall. intros c Hcs. apply IH; [|apply Hc, Hcs].
    pose proof (children_size j s cs c Ec Hcs). lia. }
  apply (X (S (size (fst root)))); [lia|exact A].
Qed.

Lemma juncts_loop_ok fuel j root : forall queue seen acc out,
  jinv j root queue seen acc -> juncts_loop fuel j queue seen acc = Some out ->
  forall r, goodl j r root = forallb (good j r) out.
Proof.
  induction fuel as [|fuel IH]; intros queue seen acc out HI E r; [discriminate|].
  destruct queue as [|l queue].
  - simpl in E. inversion E; subst. destruct (goodl j r root) eqn:Eg.
    + symmetry. apply (ji_good _ _ _ _ _ HI), Eg.
    + destruct (forallb (good j r) out) eqn:Eo; [|reflexivity]. rewrite (jinv_seen_good _ _ _ _ _ HI Eo) in Eg. discriminate.
  - rewrite juncts_step in E. destruct HI as [A B C].
    destruct (existsb (lit_eqb l) seen) eqn:Es.
    + apply existsb_exists in Es as [l' [Hl' El]]. apply lit_eqb_eq in El. subst l'.
      eapply IH; [|exact E]. constructor.
      * simpl in A. destruct A as [->|A]; [apply in_or_app; auto|exact A].
      * intros s Hs. destruct (B s Hs) as [Ha|[cs [Ec Hc]]]; [auto|]. right. exists cs. split; [exact Ec|].
        intros c Hcs. apply Hc in Hcs. simpl in Hcs. destruct Hcs as [->|Hcs]; [apply in_or_app; auto|exact Hcs].
      * intros r' Hr. apply C in Hr as [H1 H2]. simpl in H1. apply andb_true_iff in H1. tauto.
    + destruct (children j l) as [cs|] eqn:Ec.
      * eapply IH; [|exact E].
        assert (SUB : forall x, In x ((l :: queue) ++ seen) -> In x ((rev cs ++ queue) ++ l :: seen)).
        { intros x. rewrite !in_app_iff. simpl. tauto. }
        constructor.
        -- apply SUB, A.
        -- intros s [<-|Hs].
           ++ right. exists cs. split; [exact Ec|]. intros c Hc. rewrite !in_app_iff, <- in_rev. auto.
           ++ destruct (B s Hs) as [Ha|[cs' [Ec' Hc]]]; [auto|]. right. exists cs'. split; [exact Ec'|]. auto.
        -- intros r' Hr. apply C in Hr as [H1 H2]. split; [|exact H2]. simpl in H1. apply andb_true_iff in H1 as [H1 H3].
           rewrite forallb_app, H3, andb_true_r. rewrite (children_good j r' l cs Ec), forallb_forall in H1.
           apply forallb_forall. intros c Hc. apply H1. apply in_rev. exact Hc.
      * eapply IH; [|exact E].
        assert (SUB : forall x, In x ((l :: queue) ++ seen) -> In x (queue ++ l :: seen)).
        { intros x. rewrite !in_app_iff. simpl. tauto. }
        constructor.
        -- apply SUB, A.
        -- intros s [<-|Hs].
           ++ left. apply in_or_app. simpl; auto.
           ++ destruct (B s Hs) as [Ha|[cs' [Ec' Hc]]]; [left; apply in_or_app; auto|]. right. exists cs'. split; [exact Ec'|]. auto.
        -- intros r' Hr. apply C in Hr as [H1 H2]. simpl in H1. apply andb_true_iff in H1 as [H1 H3].
           split; [exact H3|]. rewrite forallb_app, H2. simpl. unfold goodl in H1. rewrite H1. reflexivity.
Qed.

Definition qsize (q : list literal) : nat := fold_right (fun l n => (size (fst l) + n)%nat) 0%nat q.
Lemma qsize_app a b : qsize (a ++ b) = (qsize a + qsize b)%nat.
Proof. induction a; simpl; [reflexivity|]. rewrite IHa. lia. Qed.
Lemma qsize_rev a : qsize (rev a) = qsize a.
Proof. induction a; simpl; [reflexivity|]. rewrite qsize_app, IHa. simpl. lia. Qed.
Lemma children_qsize j l cs : children j l = Some cs -> (qsize cs < size (fst l))%nat.
Proof.
  destruct l as [[v|c0|f ts] []]; simpl; try discriminate.
  - destruct (is_junction j f); [|discriminate]. intros H; inversion H; subst. clear.
    induction ts as [|t ts IH]; simpl; [lia|]. pose proof (purify_size t). lia.
  - destruct (is_junction (other j) f); [|discriminate]. intros H; inversion H; subst. clear.
    induction ts as [|t ts IH]; simpl; [lia|]. pose proof (purify_size t). lia.
Qed.
Lemma juncts_loop_total fuel j : forall queue seen acc, (qsize queue < fuel)%nat ->
  exists out, juncts_loop fuel j queue seen acc = Some out.
Proof.
  induction fuel as [|fuel IH]; intros queue seen acc H; [lia|].
  destruct queue as [|l queue]; [simpl; eauto|]. rewrite juncts_step. simpl in H.
  pose proof (size_pos (fst l)).
  destruct (existsb _ _); [apply IH; lia|]. destruct (children j l) as [cs|] eqn:Ec; [|apply IH; lia].
  apply IH. rewrite qsize_app, qsize_rev. pose proof (children_qsize j l cs Ec). lia.
Qed.

Lemma top_juncts_ok j t : exists out, top_juncts j t = Some out /\ equiv (mkJunction j out) t.
Proof.
  unfold top_juncts.
  destruct (juncts_loop_total (S (size t)) j [purify t] [] []) as [out E].
  { simpl. pose proof (purify_size t). lia. }
  exists out. split; [exact E|]. intros r.
  assert (X : goodl j r (purify t) = forallb (good j r) out).
  { eapply juncts_loop_ok; [|exact E]. constructor.
    - simpl; auto.
    - intros s [].
    - intros r' Hr. simpl. rewrite Hr. auto. }
  assert (Y : good j r (mkJunction j out) = good j r t).
  { rewrite good_junction, <- X. unfold goodl. destruct j; unfold good; rewrite purify_meaning; reflexivity. }
  unfold holds. destruct j; unfold good in Y; [rewrite Y; tauto|].
  destruct (holdsb r (mkJunction Disj out)), (holdsb r t); try discriminate; tauto.
Qed.

(** No junct is itself a junction of the same kind. *)
Lemma juncts_shape fuel j : forall queue seen acc out,
  (forall a, In a acc -> match a with App f _ => is_junction j f = false | _ => True end) ->
  juncts_loop fuel j queue seen acc = Some out ->
  forall a, In a out -> match a with App f _ => is_junction j f = false | _ => True end.
Proof.
  induction fuel as [|fuel IH]; intros queue seen acc out H E; [discriminate|].
  destruct queue as [|l queue]; [simpl in E; inversion E; subst; exact H|].
  rewrite juncts_step in E. destruct (existsb _ _); [eapply IH; eauto|].
  destruct (children j l) as [cs|] eqn:Ec; [eapply IH; eauto|].
  eapply IH; [|exact E]. intros a Ha. apply in_app_or in Ha as [Ha|[<-|[]]]; [apply H, Ha|].
  destruct l as [[v|c|f ts] []]; simpl in *; auto; try (destruct j; reflexivity).
  destruct (is_junction j f); [discriminate|reflexivity].
Qed.

(** ** Simplification of junctions *)
Lemma vleq_asq a b : vleq a b = true <-> (asq a <= asq b)%Qc.
Proof.
  assert (G : (if Qclt_le_dec (asq b) (asq a) then false else true) = true <-> (asq a <= asq b)%Qc).
  { destruct (Qclt_le_dec (asq b) (asq a)) as [H|H]; split; intros; auto; try discriminate.
    exfalso. exact (Qclt_not_le _ _ H H0). }
  destruct a as [x|x|x], b as [y|y|y]; try exact G. simpl.
  rewrite Z.leb_le. change ((x <= y)%Z <-> (Qred (inject_Z x) <= Qred (inject_Z y))%Q). rewrite !Qred_correct. rewrite <- Zle_Qle. tauto.
Qed.
Lemma vleq_trans a b c : vleq a b = true -> vleq b c = true -> vleq a c = true.
Proof. rewrite !vleq_asq. apply Qcle_trans. Qed.
Lemma vleq_total a b : vleq a b = false -> vleq b a = true.
Proof.
  intros H. destruct (Qclt_le_dec (asq a) (asq b)) as [L|L].
  - exfalso. apply Qclt_le_weak in L. apply vleq_asq in L. congruence.
  - apply vleq_asq. exact L.
Qed.

Definition bound_lit (e : (term * bool) * value) : literal := (mkLeq (Const (snd e)) (fst (fst e)), snd (fst e)).

Lemma bound_good j r k c : goodl j r (bound_lit (k, c)) =
  match j, snd k with
  | Conj, true | Disj, false => vleq c (eval r (fst k))
  | Conj, false | Disj, true => negb (vleq c (eval r (fst k)))
  end.
Proof. destruct k as [t []], j; unfold goodl, good, bound_lit, holdsb; simpl; try reflexivity. apply negb_involutive. Qed.

Lemma better_good j r k c c' :
  goodl j r (bound_lit (k, if better j (snd k) c c' then c else c')) =
  goodl j r (bound_lit (k, c)) && goodl j r (bound_lit (k, c')).
Proof.
  rewrite !bound_good. destruct k as [t s]. cbn [fst snd]. set (v := eval r t).
  assert (D : forall a b : value, vgt a b = true -> vleq b a = true) by
    (intros a b H; unfold vgt in H; apply negb_true_iff in H; apply vleq_total, H).
  assert (N : forall a b : value, vgt a b = false -> vleq a b = true) by
    (intros a b H; unfold vgt in H; apply negb_false_iff in H; exact H).
  destruct j, s; cbn [better].
  - destruct (vgt c c') eqn:E.
    + apply D in E. destruct (vleq c v) eqn:X; [rewrite (vleq_trans _ _ _ E X); reflexivity|reflexivity].
    + apply N in E. destruct (vleq c' v) eqn:X; [rewrite (vleq_trans _ _ _ E X); reflexivity|rewrite andb_false_r; reflexivity].
  - destruct (vgt c' c) eqn:E.
    + apply D in E. destruct (vleq c v) eqn:X; [reflexivity|]. destruct (vleq c' v) eqn:Y; [|reflexivity].
      rewrite (vleq_trans _ _ _ E Y) in X. discriminate.
    + apply N in E. destruct (vleq c' v) eqn:X; [rewrite andb_false_r; reflexivity|]. destruct (vleq c v) eqn:Y; [|reflexivity].
      rewrite (vleq_trans _ _ _ E Y) in X. discriminate.
  - destruct (vgt c' c) eqn:E.
    + apply D in E. destruct (vleq c v) eqn:X; [reflexivity|]. destruct (vleq c' v) eqn:Y; [|reflexivity].
      rewrite (vleq_trans _ _ _ E Y) in X. discriminate.
    + apply N in E. destruct (vleq c' v) eqn:X; [rewrite andb_false_r; reflexivity|]. destruct (vleq c v) eqn:Y; [|reflexivity].
      rewrite (vleq_trans _ _ _ E Y) in X. discriminate.
  - destruct (vgt c c') eqn:E.
    + apply D in E. destruct (vleq c v) eqn:X; [rewrite (vleq_trans _ _ _ E X); reflexivity|reflexivity].
    + apply N in E. destruct (vleq c' v) eqn:X; [rewrite (vleq_trans _ _ _ E X); reflexivity|rewrite andb_false_r; reflexivity].
Qed.

Lemma update_bound_good j r k c b :
  forallb (fun e => goodl j r (bound_lit e)) (update_bound j k c b) =
  goodl j r (bound_lit (k, c)) && forallb (fun e => goodl j r (bound_lit e)) b.
Proof.
  induction b as [|[k' c'] b IH]; cbn [update_bound forallb]; [reflexivity|].
  destruct (lit_eqb k k') eqn:E.
  - apply lit_eqb_eq in E. subst k'. cbn [forallb]. rewrite better_good, andb_assoc. reflexivity.
  - cbn [forallb]. rewrite IH. rewrite !andb_assoc. f_equal. apply andb_comm.
Qed.

Lemma leq_parts_some t c a : leq_parts t = Some (c, a) -> t = mkLeq (Const c) a.
Proof.
  destruct t as [|?|[] [|[| |] [|? [|]]]]; simpl; try discriminate. intros H; inversion H; reflexivity.
Qed.

Lemma collect_bounds_good j r ls : forall tmp b,
  forallb (goodl j r) (fst (collect_bounds j ls tmp b)) &&
  forallb (fun e => goodl j r (bound_lit e)) (snd (collect_bounds j ls tmp b)) =
  forallb (goodl j r) ls && (forallb (goodl j r) tmp && forallb (fun e => goodl j r (bound_lit e)) b).
Proof.
  induction ls as [|l ls IH]; intros tmp b; cbn [collect_bounds]; [reflexivity|].
  destruct (leq_parts (fst l)) as [[c t]|] eqn:E.
  - rewrite IH, update_bound_good. cbn [forallb]. apply leq_parts_some in E.
    assert (El : l = bound_lit ((t, snd l), c)) by (destruct l; simpl in *; subst; reflexivity).
    rewrite <- El. destruct (goodl j r l), (forallb (goodl j r) ls), (forallb (goodl j r) tmp); reflexivity.
  - rewrite IH, forallb_app. cbn [forallb]. 
    destruct (goodl j r l), (forallb (goodl j r) ls), (forallb (goodl j r) tmp); reflexivity.
Qed.

Lemma simplify_literals_good j r ls : forallb (goodl j r) (simplify_literals j ls) = forallb (goodl j r) ls.
Proof.
  unfold simplify_literals. pose proof (collect_bounds_good j r ls [] []) as H.
  destruct (collect_bounds j ls [] []) as [tmp b]. destruct (Nat.ltb _ _); [|reflexivity].
  rewrite forallb_app. simpl in H. rewrite andb_true_r in H. rewrite <- H. f_equal.
  clear. induction b; simpl; [reflexivity|]. rewrite IHb. reflexivity.
Qed.

Lemma polar_lit t : lit_term (polar t) = t.
Proof. destruct t as [|?|[] [|? [|]]]; reflexivity. Qed.

Lemma simplify_junction_ok j t : equiv (simplify_junction j t) t.
Proof.
  intros r. destruct t as [v|c|f ts]; try (simpl; tauto). unfold simplify_junction.
  destruct (is_junction j f) eqn:E; [|tauto]. rewrite (is_junction_eq j f ts E).
  assert (X : good j r (mkJunction j (map lit_term (simplify_literals j (map polar ts)))) = good j r (mkJunction j ts)).
  { rewrite !good_junction. transitivity (forallb (goodl j r) (simplify_literals j (map polar ts))).
    - generalize (simplify_literals j (map polar ts)). clear. intros l. induction l; simpl; [reflexivity|]. rewrite IHl. reflexivity.
    - rewrite simplify_literals_good. clear. induction ts as [|t ts IH]; simpl; [reflexivity|]. rewrite IH. f_equal.
      unfold goodl. rewrite polar_lit. reflexivity. }
  unfold holds. destruct j; unfold good in X; [rewrite X; tauto|].
  destruct (holdsb r _), (holdsb r (mkJunction Disj ts)); try discriminate; tauto.
Qed.

(** The result is never longer. *)
Lemma simplify_literals_len j ls : (length (simplify_literals j ls) <= length ls)%nat.
Proof.
  unfold simplify_literals. destruct (collect_bounds j ls [] []) as [tmp b].
  destruct (Nat.ltb (length b + length tmp) (length ls)) eqn:E; [|lia].
  apply Nat.ltb_lt in E. rewrite app_length, map_length. lia.
Qed.
