(** * Merging edges: the meaning of merged labels. *)
From Verif Require Import Syntax Solver TransSys Graph GraphOps GraphOpsProofs ValidatorModel ValidatorProofs FormulaModel GraphSem SimpleTransModel UnreachProofs UnreachProofs2 ReverseProofs SimpleTransProofs SimpleTransProofs2 SimplifierProofs MergeModel.
Open Scope nat_scope.

(** ** One valuation from consistent requirements *)
Lemma glue (l : list (var * value)) :
  (forall w x y, In (w, x) l -> In (w, y) l -> x = y) -> (forall w x, In (w, x) l -> sort_of x = vsort w) ->
  exists r : valuation, forall w x, In (w, x) l -> eval r (Var w) = x.
Proof.
  intros C S. exists (fun v => match find (fun p => var_eqb (fst p) v) l with Some p => snd p | None => VInt 0 end).
  intros w x H. simpl. destruct (find (fun p => var_eqb (fst p) w) l) as [[w' y]|] eqn:E.
  - apply find_some in E as [E1 E2]. cbn [fst snd] in *. destruct (var_eqb_spec w' w) as [->|]; [|discriminate].
    rewrite (C w x y H E1). apply coerce_id, (S w y E1).
  - exfalso. pose proof (find_none _ _ E (w, x) H) as X. cbn [fst] in X. rewrite var_eqb_refl in X. discriminate.
Qed.
Lemma eval_var_sort r v : sort_of (eval r (Var v)) = vsort v.
Proof. simpl. apply coerce_sort. Qed.
Lemma eval_var_ren (f : var -> var) (r : valuation) v : sort_preserving f -> eval (fun u => r (f u)) (Var v) = eval r (Var (f v)).
Proof. intros Hf. simpl. rewrite Hf. reflexivity. Qed.
Lemma holds_ren_ext (f : var -> var) (r r1 : valuation) t : sort_preserving f ->
  (forall v, In v (vars t) -> eval r (Var (f v)) = eval r1 (Var v)) -> (holds r (rename f t) <-> holds r1 t).
Proof.
  intros Hf H. rewrite (holds_rename f r t Hf). unfold holds, holdsb. rewrite (eval_ext (fun v => r (f v)) r1 t); [tauto|].
  intros v Hv. change (eval (fun u => r (f u)) (Var v) = eval r1 (Var v)). rewrite (eval_var_ren f r v Hf). apply H, Hv.
Qed.
Lemma args_ren_ext (f : var -> var) (r r1 : valuation) l : 
  (forall v, In v l -> eval r (Var (f v)) = eval r1 (Var v)) -> args r (map f l) = args r1 l.
Proof. intros H. unfold args. rewrite map_map. apply map_ext_in. exact H. Qed.

(** ** Versions of arguments *)
Section Ver.
Variable g : hgraph.
Hypothesis R : rep_wf (gpv g).
Lemma src_inj_v i j p q a b : In a (gpv g p) -> In b (gpv g q) -> src i a = src j b -> i = j /\ a = b /\ p = q.
Proof.
  intros Ha Hb E. unfold src in E. injection E as E1 E2 E3.
  pose proof (rep_base _ R _ _ Ha). pose proof (rep_base _ R _ _ Hb).
  assert (a = b) by (destruct a, b; simpl in *; congruence). subst b. split; [exact E2|]. split; [reflexivity|]. eapply (rep_disj _ R); eauto.
Qed.
Lemma tgt_inj_v p q a b : In a (gpv g p) -> In b (gpv g q) -> tgt a = tgt b -> a = b /\ p = q.
Proof.
  intros Ha Hb E. unfold tgt in E. injection E as E1 E3.
  pose proof (rep_base _ R _ _ Ha). pose proof (rep_base _ R _ _ Hb).
  assert (a = b) by (destruct a, b; simpl in *; congruence). subst b. split; [reflexivity|]. eapply (rep_disj _ R); eauto.
Qed.
Lemma src_tgt_v i a b : src i a <> tgt b.
Proof. unfold src, tgt. intros E. discriminate E. Qed.

Lemma to_source_map_fst p : map fst (to_source_map g p) = tgt_vars g p.
Proof. unfold to_source_map, tgt_vars, src_vars. apply fst_combine. Qed.
Lemma to_source_map_in p a b : In (a, b) (to_source_map g p) -> exists v, In v (gpv g p) /\ a = tgt v /\ b = src 0 v.
Proof.
  unfold to_source_map, tgt_vars, src_vars. cbn [fst snd]. induction (gpv g p) as [|v l IH]; [intros []|]. cbn [map combine].
  intros [E|H]; [injection E as <- <-; exists v; simpl; auto|]. destruct (IH H) as [u [Hu E]]. exists u. simpl; auto.
Qed.
Lemma vlookup_some s v : vlookup s v <> v -> In (v, vlookup s v) s.
Proof.
  induction s as [|[a b] s IH]; simpl; [congruence|]. destruct (var_eqb_spec v a) as [->|N]; [auto|]. intros H. right. auto.
Qed.
Lemma vlookup_in s v : In v (map fst s) -> In (v, vlookup s v) s.
Proof.
  induction s as [|[a b] s IH]; simpl; [tauto|]. intros H. destruct (var_eqb_spec v a) as [->|N]; [auto|].
  right. apply IH. destruct H; congruence.
Qed.
Lemma vlookup_out s v : ~ In v (map fst s) -> vlookup s v = v.
Proof.
  induction s as [|[a b] s IH]; simpl; [reflexivity|]. intros H. destruct (var_eqb_spec v a) as [->|N]; [tauto|]. apply IH. tauto.
Qed.

(** The renaming of a set of predicates. *)
Definition tosrc (ms : list sym) : var -> var := vlookup (concat (map (to_source_map g) ms)).
Lemma tosrc_keys ms v : In v (map fst (concat (map (to_source_map g) ms))) <-> exists m, In m ms /\ In v (tgt_vars g m).
Proof.
  rewrite in_map_iff. split.
  - intros [[a b] [<- H]]. apply in_concat in H as [l [Hl H]]. apply in_map_iff in Hl as [m [<- Hm]]. exists m. split; [exact Hm|].
    rewrite <- to_source_map_fst. apply in_map_iff. exists (a, b). auto.
  - intros [m [Hm Hv]]. rewrite <- to_source_map_fst in Hv. apply in_map_iff in Hv as [[a b] [<- H]]. exists (a, b). split; [reflexivity|].
    apply in_concat. exists (to_source_map g m). split; [apply in_map, Hm|exact H].
Qed.
Lemma tosrc_in ms m b : In m ms -> In b (gpv g m) -> tosrc ms (tgt b) = src 0 b.
Proof.
  intros Hm Hb. unfold tosrc.
  assert (K : In (tgt b) (map fst (concat (map (to_source_map g) ms)))) by (apply tosrc_keys; exists m; split; [exact Hm|apply in_map, Hb]).
  apply vlookup_in in K. apply in_concat in K as [l [Hl K]]. apply in_map_iff in Hl as [m' [<- Hm']].
  apply to_source_map_in in K as [v [Hv [E1 E2]]]. destruct (tgt_inj_v m m' b v Hb Hv E1) as [-> _]. exact E2.
Qed.
Lemma tosrc_out ms v : (forall m, In m ms -> ~ In v (tgt_vars g m)) -> tosrc ms v = v.
Proof. intros H. apply vlookup_out. rewrite tosrc_keys. intros [m [Hm Hv]]. exact (H m Hm Hv). Qed.
Lemma tosrc_src ms i b : tosrc ms (src i b) = src i b.
Proof. apply tosrc_out. intros m _ H. apply in_map_iff in H as [a [E _]]. symmetry in E. exact (src_tgt_v _ _ _ E). Qed.
Lemma tosrc_tgt_out ms p b : ~ In p ms -> In b (gpv g p) -> tosrc ms (tgt b) = tgt b.
Proof.
  intros N Hb. apply tosrc_out. intros m Hm H. apply in_map_iff in H as [a [E Ha]]. 
  destruct (tgt_inj_v m p a b Ha Hb E) as [_ ->]. contradiction.
Qed.
Lemma vlookup_sort s : (forall a b, In (a, b) s -> vsort b = vsort a) -> sort_preserving (vlookup s).
Proof.
  intros H v. destruct (in_dec var_dec v (map fst s)) as [I|N]; [|rewrite vlookup_out; auto].
  apply vlookup_in in I. apply (H _ _ I).
Qed.
Lemma tosrc_sort ms : sort_preserving (tosrc ms).
Proof.
  apply vlookup_sort. intros a b H. apply in_concat in H as [l [Hl H]]. apply in_map_iff in Hl as [m [<- _]].
  apply to_source_map_in in H as [v [_ [-> ->]]]. reflexivity.
Qed.
Lemma tosrc_single m : tosrc [m] = vlookup (to_source_map g m).
Proof. unfold tosrc. cbn [map concat]. rewrite app_nil_r. reflexivity. Qed.
End Ver.

(** ** Chains *)
Fixpoint linked (s : sym) (c : list hedge) : Prop :=
  match c with [] => True | e :: c' => efrom e = [s] /\ linked (eto e) c' end.
Record chain_ok (g : hgraph) (c : list hedge) : Prop := {
  co_len : 2 <= length c;
  co_in : forall e, In e c -> In e (gedges g);
  co_linked : linked (chain_source c) c;
  co_nodup : NoDup (chain_source c :: mids c);
  co_target : ~ In (chain_target c) (mids c)
}.
(** Facts along a chain. *)
Fixpoint runs (g : hgraph) (c : list hedge) (f : fact) (fs : list fact) : Prop :=
  match c, fs with
  | [], [] => True
  | e :: c', f' :: fs' => follows g e [f] f' /\ runs g c' f' fs'
  | _, _ => False
  end.
Lemma runs_length g c : forall f fs, runs g c f fs -> length fs = length c.
Proof. induction c as [|e c IH]; intros f [|f' fs]; simpl; try tauto. intros [_ H]. f_equal. eapply IH, H. Qed.

Lemma follows_single g e s f f' : efrom e = [s] ->
  (follows g e [f] f' <-> exists r, holds r (efla e) /\ f = (s, args r (src_vars g (s, 0))) /\ f' = (eto e, args r (tgt_vars g (eto e)))).
Proof.
  intros E. unfold follows. rewrite E, instances_single. cbn [map fst]. split; intros [r [H1 [H2 H3]]]; exists r; (split; [exact H1|split; [|exact H3]]).
  - injection H2 as H2. exact H2.
  - rewrite H2. reflexivity.
Qed.
(** Consecutive edges with their valuations. *)
Fixpoint vruns (g : hgraph) (l : list (hedge * valuation)) : Prop :=
  match l with
  | [] => True
  | (e, r) :: l' => holds r (efla e) /\
      match l' with [] => True | (e', r') :: _ => args r' (src_vars g (eto e, 0)) = args r (tgt_vars g (eto e)) end /\ vruns g l'
  end.
Lemma runs_vruns g c : forall s f fs, linked s c -> runs g c f fs ->
  exists l, map fst l = c /\ vruns g l /\ map (fun er => (eto (fst er), args (snd er) (tgt_vars g (eto (fst er))))) l = fs /\
    match l with [] => True | (_, r) :: _ => f = (s, args r (src_vars g (s, 0))) end.
Proof.
  induction c as [|e c IH]; intros s f [|f' fs] L H; cbn [runs] in H; try tauto.
  - exists []. simpl. auto.
  - destruct L as [E L]. destruct H as [H1 H2]. destruct (IH (eto e) f' fs L H2) as [l [M [V [F Hd]]]].
    apply (follows_single g e s f f' E) in H1 as [r [Hr [-> ->]]]. exists ((e, r) :: l). cbn [map fst snd]. rewrite M, F.
    split; [reflexivity|]. split; [|auto]. cbn [vruns]. split; [exact Hr|]. split; [|exact V].
    destruct l as [|[e' r'] l]; [exact I|]. injection Hd as Hd. symmetry. exact Hd.
Qed.
Lemma vruns_runs g l : forall s, linked s (map fst l) -> vruns g l ->
  match l with [] => True | (_, r) :: _ =>
  runs g (map fst l) (s, args r (src_vars g (s, 0))) (map (fun er => (eto (fst er), args (snd er) (tgt_vars g (eto (fst er))))) l) end.
Proof.
  induction l as [|[e r] l IH]; intros s L V; [exact I|]. cbn [map fst snd runs] in *. destruct L as [E L]. destruct V as [V1 [V2 V3]].
  split; [apply (follows_single g e s _ _ E); exists r; auto|]. specialize (IH (eto e) L V3). destruct l as [|[e' r'] l]; [exact I|].
  rewrite V2 in IH. exact IH.
Qed.

Lemma vruns_runs_hd g l s e r l0 : l = (e, r) :: l0 -> linked s (map fst l) -> vruns g l ->
  runs g (map fst l) (s, args r (src_vars g (s, 0))) (map (fun er => (eto (fst er), args (snd er) (tgt_vars g (eto (fst er))))) l).
Proof. intros -> L V. exact (vruns_runs g ((e, r) :: l0) s L V). Qed.

(** ** The summary of a chain *)
Lemma linked_from s c : linked s c -> forall e, In e c -> exists p, efrom e = [p].
Proof. revert s. induction c as [|x c IH]; intros s L e H; [destruct H|]. destruct L as [E L]. destruct H as [<-|H]; eauto. Qed.
Lemma linked_froms s c : linked s c -> c <> [] -> map efrom c = map (fun p => [p]) (s :: mids c).
Proof.
  revert s. induction c as [|e c IH]; intros s L N; [congruence|]. destruct L as [E L]. cbn [map]. rewrite E. f_equal.
  destruct c as [|e' c]; [reflexivity|]. rewrite (IH (eto e) L) by discriminate. reflexivity.
Qed.
Lemma NoDup_map_eq {A B} (f : A -> B) l a b : NoDup (map f l) -> In a l -> In b l -> f a = f b -> a = b.
Proof.
  induction l as [|x l IH]; intros N Ha Hb E; [destruct Ha|]. cbn [map] in N. inversion N as [|? ? Hn N']; subst.
  destruct Ha as [->|Ha], Hb as [->|Hb]; auto.
  - exfalso. apply Hn. rewrite E. apply in_map, Hb.
  - exfalso. apply Hn. rewrite <- E. apply in_map, Ha.
Qed.
Lemma last_default {A} (l : list A) d d' : l <> [] -> last l d = last l d'.
Proof. induction l as [|x [|y l] IH]; [congruence|reflexivity|]. intros _. change (last (y :: l) d = last (y :: l) d'). apply IH. discriminate. Qed.
Lemma chain_target_cons e e' c : chain_target (e :: e' :: c) = chain_target (e' :: c).
Proof. unfold chain_target. change (last (e :: e' :: c) e) with (last (e' :: c) e). rewrite (last_default (e' :: c) e e') by discriminate. reflexivity. Qed.

Lemma vruns_hold g l : vruns g l -> forall e r, In (e, r) l -> holds r (efla e).
Proof. induction l as [|[e0 r0] l IH]; intros V e r H; [destruct H|]. destruct V as [V1 [V2 V3]]. destruct H as [E|H]; [injection E as <- <-; exact V1|eauto]. Qed.
Lemma vruns_link g l : forall s, linked s (map fst l) -> vruns g l -> forall e r, In (e, r) l ->
  (e = last (map fst l) e /\ eto e = chain_target (map fst l) /\ r = last (map snd l) r) \/
  (In (eto e) (mids (map fst l)) /\ exists e' r', In (e', r') l /\ efrom e' = [eto e] /\ args r' (src_vars g (eto e, 0)) = args r (tgt_vars g (eto e))).
Proof.
  induction l as [|[e0 r0] l IH]; intros s L V e r H; [destruct H|]. cbn [map fst snd] in *. destruct L as [E L]. destruct V as [V1 [V2 V3]].
  destruct l as [|[e1 r1] l].
  - left. destruct H as [X|[]]. injection X as <- <-. cbn. auto.
  - destruct H as [X|H].
    + injection X as <- <-. right. split; [left; reflexivity|]. exists e1, r1. split; [simpl; auto|]. split; [exact (proj1 L)|exact V2].
    + destruct (IH (eto e0) L V3 e r H) as [[H1 [H2 H3]]|[H1 [e' [r' [H2 H3]]]]].
      * left. cbn [map fst snd] in *. rewrite chain_target_cons. auto.
      * right. split; [right; exact H1|]. exists e', r'. split; [right; exact H2|exact H3].
Qed.
Lemma holds_mkAnd_map {A} (r : valuation) (h : A -> term) l : holds r (mkAnd (map h l)) <-> forall x, In x l -> holds r (h x).
Proof.
  rewrite holds_and. rewrite Forall_forall. split.
  - intros H x Hx. apply H, in_map, Hx.
  - intros H t Ht. apply in_map_iff in Ht as [x [<- Hx]]. auto.
Qed.

Section ChainLabel.
Variable elim : elim_fn.
Hypothesis Helim : elim_ok elim.
Variable g : hgraph.
Hypothesis W : wf_graph g.
Variable c : list hedge.
Hypothesis C : chain_ok g c.
Let S0 := chain_source c.
Let T0 := chain_target c.
Let R := wf_rep g W.

Lemma chain_nonempty : c <> [].
Proof. intros E. pose proof (co_len g c C) as L. rewrite E in L. cbn in L. lia. Qed.

(** Requirements of the runs of the edges on one valuation. *)
Definition zone (e : hedge) : list var := own_vars g e ++ vars (efla e).
Definition demands (l : list (hedge * valuation)) : list (var * value) :=
  concat (map (fun er => map (fun v => (tosrc g (mids c) v, eval (snd er) (Var v))) (zone (fst er))) l).
Lemma demands_in l w x : In (w, x) (demands l) <-> exists e r v, In (e, r) l /\ In v (zone e) /\ w = tosrc g (mids c) v /\ x = eval r (Var v).
Proof.
  unfold demands. rewrite in_concat. split.
  - intros [k [Hk H]]. apply in_map_iff in Hk as [[e r] [<- He]]. cbn [fst snd] in H. apply in_map_iff in H as [v [E Hv]].
    injection E as <- <-. exists e, r, v. auto.
  - intros [e [r [v [He [Hv [-> ->]]]]]]. eexists. split; [apply in_map, He|]. cbn [fst snd]. apply in_map_iff. exists v. auto.
Qed.
Lemma own_single e p v : efrom e = [p] -> (In v (own_vars g e) <-> In v (src_vars g (p, 0)) \/ In v (tgt_vars g (eto e))).
Proof. intros E. unfold own_vars. rewrite E, instances_single. cbn [map concat]. rewrite app_nil_r, in_app_iff. tauto. Qed.

Inductive meaning (l : list (hedge * valuation)) : var -> value -> Prop :=
| me_aux e r v : In (e, r) l -> In v (vars (efla e)) -> ~ In v (own_vars g e) -> meaning l v (eval r (Var v))
| me_src e r p b : In (e, r) l -> efrom e = [p] -> In b (gpv g p) -> meaning l (src 0 b) (eval r (Var (src 0 b)))
| me_tgt r e b : In (e, r) l -> eto e = T0 -> e = last c e -> In b (gpv g T0) -> meaning l (tgt b) (eval r (Var (tgt b))).

Section WithRuns.
Variable l : list (hedge * valuation).
Hypothesis Hl : map fst l = c.
Hypothesis V : vruns g l.
Lemma l_in e r : In (e, r) l -> In e (gedges g).
Proof. intros H. apply (co_in g c C). rewrite <- Hl. apply (in_map fst l (e, r) H). Qed.
Lemma l_from e r : In (e, r) l -> exists p, efrom e = [p].
Proof. intros H. apply (linked_from _ _ (co_linked g c C)). rewrite <- Hl. apply (in_map fst l (e, r) H). Qed.
Lemma l_uniq e r e' r' : In (e, r) l -> In (e', r') l -> efrom e = efrom e' -> (e, r) = (e', r').
Proof.
  intros H H' E. apply (NoDup_map_eq (fun er => efrom (fst er)) l); auto.
  rewrite <- (map_map fst efrom), Hl, (linked_froms _ _ (co_linked g c C) chain_nonempty).
  apply NoDup_map_inj_in; [|apply (co_nodup g c C)]. intros a b _ _ X. injection X as X. exact X.
Qed.
Lemma demand_meaning w x : In (w, x) (demands l) -> meaning l w x.
Proof.
  rewrite demands_in. intros [e [r [v [He [Hv [-> ->]]]]]]. destruct (l_from e r He) as [p Ep].
  destruct (in_dec var_dec v (own_vars g e)) as [O|O].
  - apply (own_single e p v Ep) in O as [O|O].
    + apply in_src_vars in O as [b [Hb ->]]. cbn [fst snd] in *. rewrite tosrc_src. eapply me_src; eauto.
    + apply in_map_iff in O as [b [<- Hb]].
      assert (L' : linked (chain_source c) (map fst l)) by (rewrite Hl; apply (co_linked g c C)).
      destruct (vruns_link g l _ L' V e r He) as [[L1 [L2 L3]]|[L1 [e' [r' [L2 [L3 L4]]]]]]; rewrite Hl in *.
      * rewrite (tosrc_tgt_out g R (mids c) (eto e) b); [|rewrite L2; apply (co_target g c C)|exact Hb].
        eapply me_tgt; eauto. fold T0 in L2. rewrite <- L2. exact Hb.
      * rewrite (tosrc_in g R (mids c) (eto e) b L1 Hb).
        assert (X : eval r (Var (tgt b)) = eval r' (Var (src 0 b))).
        { unfold src_vars, tgt_vars in L4. cbn [fst snd] in L4. rewrite (args_map r' (src 0)), (args_map r tgt) in L4 by (apply src_sort || apply tgt_sort).
          pose proof (args_eq_ev _ _ _ L4 b Hb) as X. rewrite (eval_var_ren (src 0) r' b (src_sort 0)), (eval_var_ren tgt r b tgt_sort) in X. symmetry. exact X. }
        rewrite X. eapply me_src; eauto.
  - unfold zone in Hv. apply in_app_iff in Hv as [Hv|Hv]; [contradiction|].
    rewrite tosrc_out.
    + eapply me_aux; eauto.
    + intros m Hm Hx. unfold mids in Hm. apply in_map_iff in Hm as [em [<- Hm]].
      assert (Hem : In em (gedges g)).
      { apply (co_in g c C). clear - Hm. induction c as [|x c' IH]; [destruct Hm|]. destruct c' as [|y c']; [destruct Hm|].
        change (removelast (x :: y :: c')) with (x :: removelast (y :: c')) in Hm. destruct Hm as [->|Hm]; [left; reflexivity|right; auto]. }
      apply (wf_label g W e v (l_in e r He) Hv O (eto em)); [eapply vertex_tgt; eauto|].
      apply in_map_iff in Hx as [b [<- Hb]]. exists b. auto.
Qed.
Lemma own_version e p v : In e (gedges g) -> efrom e = [p] -> In v (own_vars g e) -> exists q, vertex g q /\ version_of g q v.
Proof.
  intros He E O. apply (own_single e p v E) in O as [O|O].
  - apply in_src_vars in O as [b [Hb ->]]. cbn [fst snd] in *. exists p. split; [eapply vertex_src; [exact He|rewrite E; left; reflexivity]|].
    exists b. eauto.
  - apply in_map_iff in O as [b [<- Hb]]. exists (eto e). split; [eapply vertex_tgt; eauto|]. exists b. eauto.
Qed.
Lemma meaning_version w x : meaning l w x -> 
  (exists e r, In (e, r) l /\ In w (vars (efla e)) /\ ~ In w (own_vars g e) /\ x = eval r (Var w)) \/
  (exists e r p b, In (e, r) l /\ efrom e = [p] /\ In b (gpv g p) /\ w = src 0 b /\ x = eval r (Var (src 0 b)) /\ exists q, vertex g q /\ version_of g q w) \/
  (exists e r b, In (e, r) l /\ e = last c e /\ In b (gpv g T0) /\ w = tgt b /\ x = eval r (Var (tgt b)) /\ exists q, vertex g q /\ version_of g q w).
Proof.
  intros M. destruct M as [e r v He Hv O|e r p b He E Hb|r e b He E El Hb].
  - left. exists e, r. auto.
  - right. left. exists e, r, p, b. repeat (split; auto). apply (own_version e p); [eapply l_in; eauto|exact E|].
    apply (own_single e p _ E). left. unfold src_vars. apply in_map. exact Hb.
  - right. right. exists e, r, b. repeat (split; auto). destruct (l_from e r He) as [p Ep].
    apply (own_version e p); [eapply l_in; eauto|exact Ep|].
    apply (own_single e p _ Ep). right. rewrite E. unfold tgt_vars. apply in_map. exact Hb.
Qed.
Lemma meaning_fun w x y : meaning l w x -> meaning l w y -> x = y.
Proof.
  intros M M'. apply meaning_version in M as [[e [r [He [Hv [O ->]]]]]|[[e [r [p [b [He [E [Hb [-> [-> [q [Hq Vq]]]]]]]]]]]|[e [r [b [He [El [Hb [-> [-> [q [Hq Vq]]]]]]]]]]]];
  apply meaning_version in M' as [[e' [r' [He' [Hv' [O' ->]]]]]|[[e' [r' [p' [b' [He' [E' [Hb' [Ew [-> [q' [Hq' Vq']]]]]]]]]]]|[e' [r' [b' [He' [El' [Hb' [Ew [-> [q' [Hq' Vq']]]]]]]]]]]].
  - destruct (Nat.eq_dec (eid e) (eid e')) as [Ei|Ni].
    + assert (e = e') by (apply (wf_edge_eq g); auto; eapply l_in; eauto). subst e'.
      pose proof (l_uniq e r e r' He He' eq_refl) as X. injection X as ->. reflexivity.
    + destruct (wf_priv g W e e' w (l_in _ _ He) (l_in _ _ He') Ni Hv Hv'). contradiction.
  - exfalso. exact (wf_label g W e w (l_in _ _ He) Hv O q' Hq' Vq').
  - exfalso. exact (wf_label g W e w (l_in _ _ He) Hv O q' Hq' Vq').
  - exfalso. exact (wf_label g W e' _ (l_in _ _ He') Hv' O' q Hq Vq).
  - destruct (src_inj_v g R 0 0 p p' b b' Hb Hb' Ew) as [_ [-> ->]]. rewrite <- E' in E.
    pose proof (l_uniq e r e' r' He He' E) as X. injection X as -> ->. reflexivity.
  - exfalso. exact (src_tgt_v _ _ _ Ew).
  - exfalso. exact (wf_label g W e' _ (l_in _ _ He') Hv' O' q Hq Vq).
  - exfalso. symmetry in Ew. exact (src_tgt_v _ _ _ Ew).
  - destruct (tgt_inj_v g R T0 T0 b b' Hb Hb' Ew) as [-> _].
    assert (e = e'). { rewrite El, El'. apply last_default, chain_nonempty. } subst e'.
    pose proof (l_uniq e r e r' He He' eq_refl) as X. injection X as ->. reflexivity.
Qed.
Lemma chain_glue : exists r : valuation, forall e ri v, In (e, ri) l -> In v (zone e) -> eval r (Var (tosrc g (mids c) v)) = eval ri (Var v).
Proof.
  destruct (glue (demands l)) as [r Hr].
  - intros w x y H H'. apply (meaning_fun w); apply demand_meaning; assumption.
  - intros w x H. apply demands_in in H as [e [ri [v [_ [_ [-> ->]]]]]]. rewrite eval_var_sort. symmetry. apply tosrc_sort.
  - exists r. intros e ri v He Hv. apply Hr. apply demands_in. exists e, ri, v. auto.
Qed.
End WithRuns.

Theorem chain_label_iff (f f' : fact) :
  (exists r, holds r (chain_label elim g c) /\ f = (S0, args r (src_vars g (S0, 0))) /\ f' = (T0, args r (tgt_vars g T0))) <->
  exists fs, runs g c f fs /\ last fs f = f'.
Proof.
  assert (Hren : forall t, rename (vlookup (concat (map (to_source_map g) (mids c)))) t = rename (tosrc g (mids c)) t) by reflexivity.
  assert (Hmap : forall r, holds r (rename (tosrc g (mids c)) (mkAnd (map efla c))) <-> forall e, In e c -> holds r (rename (tosrc g (mids c)) (efla e))).
  { intros r. rewrite holds_rename by apply tosrc_sort. rewrite holds_mkAnd_map. split; intros H e He; specialize (H e He); rewrite holds_rename in *; auto; apply tosrc_sort. }
  unfold chain_label. fold S0 T0. rewrite Hren. set (keep := fun v => inb v (src_vars g (S0, 0) ++ tgt_vars g T0)).
  destruct (Helim keep (rename (tosrc g (mids c)) (mkAnd (map efla c)))) as [_ HE]. split.
  - intros [r [Hr [-> ->]]]. destruct (proj2 (HE r)) as [r1 [A1 H1]]; [exists r; auto|].
    rewrite Hmap in H1. set (r2 := (fun v => r1 (tosrc g (mids c) v)) : valuation).
    set (l := map (fun e => (e, r2)) c).
    assert (Hl : map fst l = c) by (unfold l; rewrite map_map; apply map_id).
    assert (Vl : forall c', (forall e, In e c' -> In e c) -> (forall m, In m (mids c') -> In m (mids c)) -> vruns g (map (fun e => (e, r2)) c')).
    { induction c' as [|e c' IH]; [constructor|]. intros Hc Hm. cbn [map vruns]. split; [|split].
      - apply (holds_rename (tosrc g (mids c)) r1 (efla e) (tosrc_sort g _)). apply H1, Hc. left. reflexivity.
      - destruct c' as [|e' c']; [exact I|]. cbn [map].
        assert (Hin : In (eto e) (mids c)) by (apply Hm; left; reflexivity).
        unfold r2, src_vars, tgt_vars. cbn [fst snd].
        rewrite <- (args_map r1 (tosrc g (mids c)) (map (src 0) (gpv g (eto e))) (tosrc_sort g _)), <- (args_map r1 (tosrc g (mids c)) (map tgt (gpv g (eto e))) (tosrc_sort g _)). rewrite !map_map.
        f_equal. apply map_ext_in. intros b Hb. rewrite tosrc_src, (tosrc_in g R _ _ _ Hin Hb). reflexivity.
      - apply IH; [intros; apply Hc; right; assumption|]. intros m Hm'. apply Hm. destruct c' as [|e' c']; [destruct Hm'|]. right. exact Hm'. }
    specialize (Vl c (fun e H => H) (fun m H => H)). fold l in Vl.
    assert (L' : linked S0 (map fst l)) by (rewrite Hl; apply (co_linked g c C)).
    pose proof chain_nonempty as NE.
    assert (Hne : exists e0 l0, l = (e0, r2) :: l0) by (unfold l; destruct c as [|e0 c0]; [congruence|exists e0, (map (fun e => (e, r2)) c0); reflexivity]).
    destruct Hne as [e0 [l0 El]].
    pose proof (vruns_runs_hd g l S0 e0 r2 l0 El L' Vl) as HR. rewrite Hl in HR.
    eexists. split; [|].
    + replace (args r (src_vars g (S0, 0))) with (args r2 (src_vars g (S0, 0))); [exact HR|].
      unfold r2. rewrite <- (args_map r1 (tosrc g (mids c)) _ (tosrc_sort g _)). unfold src_vars. cbn [fst snd]. rewrite map_map.
      rewrite (map_ext _ (src 0)) by (intros; apply tosrc_src). apply args_agree. intros v Hv. apply A1. unfold keep. apply inb_true, in_app_iff. left. exact Hv.
    + unfold l. rewrite map_map. cbn [fst snd]. 
      assert (HL : forall c' d, c' <> [] -> last (map (fun x : hedge => (eto x, args r2 (tgt_vars g (eto x)))) c') d = (chain_target c', args r2 (tgt_vars g (chain_target c')))).
      { induction c' as [|e [|e' c'] IH]; intros d N; [congruence|reflexivity|]. rewrite chain_target_cons. rewrite <- (IH d) by discriminate. reflexivity. }
      rewrite HL by exact NE. fold T0. f_equal.
      unfold r2. rewrite <- (args_map r1 (tosrc g (mids c)) _ (tosrc_sort g _)). unfold tgt_vars. rewrite map_map.
      rewrite (map_ext_in _ tgt (gpv g T0)) by (intros; eapply (tosrc_tgt_out g R); [apply (co_target g c C)|eassumption]).
      apply args_agree. intros v Hv. apply A1. unfold keep. apply inb_true, in_app_iff. right. exact Hv.
  - intros [fs [HR HL]]. destruct (runs_vruns g c S0 f fs (co_linked g c C) HR) as [l [Hl [Vl [Fl Hd]]]].
    destruct (chain_glue l Hl Vl) as [r Hr].
    assert (Hh : holds r (rename (tosrc g (mids c)) (mkAnd (map efla c)))).
    { apply Hmap. intros e He. rewrite <- Hl in He. apply in_map_iff in He as [[e1 ri] [<- He]]. cbn [fst].
      apply (holds_ren_ext _ r ri); [apply tosrc_sort| |eapply vruns_hold; eauto].
      intros v Hv. apply (Hr e1 ri v He). apply in_app_iff. right. exact Hv. }
    destruct (proj1 (HE r)) as [r1 [A1 H1]]; [exists r; auto|]. exists r1. split; [exact H1|].
    assert (A2 : args r1 (src_vars g (S0, 0)) = args r (src_vars g (S0, 0)) /\ args r1 (tgt_vars g T0) = args r (tgt_vars g T0)).
    { split; apply args_agree; intros v Hv; apply A1; unfold keep; apply inb_true, in_app_iff; auto. }
    destruct A2 as [-> ->]. split.
    + destruct l as [|[e0 r0] l0]; [exfalso; apply chain_nonempty; rewrite <- Hl; reflexivity|]. rewrite Hd. f_equal.
      symmetry. apply args_agree_ev. intros v Hv.
      assert (He0 : efrom e0 = [S0]) by (pose proof (co_linked g c C) as L; unfold S0; rewrite <- Hl in *; exact (proj1 L)).
      rewrite <- (Hr e0 r0 v (or_introl eq_refl)).
      * apply in_src_vars in Hv as [b [_ ->]]. rewrite tosrc_src. reflexivity.
      * apply in_app_iff. left. apply (own_single e0 S0 v He0). left. exact Hv.
    + rewrite <- HL, <- Fl.
      assert (X : forall (l : list (hedge * valuation)) (d : fact), l <> [] -> exists e ri, In (e, ri) l /\ @last fact (@map _ fact (fun er => (eto (fst er), args (snd er) (tgt_vars g (eto (fst er))))) l) d = (eto e, args ri (tgt_vars g (eto e))) /\ eto e = chain_target (map fst l)).
      { clear. induction l as [|[e r] l IH]; intros d N; [congruence|]. destruct l as [|[e' r'] l].
        - exists e, r. cbn. auto.
        - destruct (IH d) as [e1 [r1 [H1 [H2 H3]]]]; [discriminate|]. exists e1, r1. split; [right; exact H1|]. split; [exact H2|].
          cbn [map fst] in *. rewrite chain_target_cons. exact H3. }
      destruct (X l f) as [e [ri [He [E1 E2]]]]; [intros ->; apply chain_nonempty; rewrite <- Hl; reflexivity|].
      etransitivity; [exact E1|]. rewrite Hl in E2. fold T0 in E2. rewrite E2. f_equal. symmetry. apply args_agree_ev. intros v Hv.
      rewrite <- (Hr e ri v He).
      * apply in_map_iff in Hv as [b [<- Hb]]. rewrite (tosrc_tgt_out g R _ T0 b); [reflexivity|apply (co_target g c C)|exact Hb].
      * apply in_app_iff. left. destruct (l_from l Hl e ri He) as [p Ep]. apply (own_single e p v Ep). right. rewrite E2. exact Hv.
Qed.
End ChainLabel.
