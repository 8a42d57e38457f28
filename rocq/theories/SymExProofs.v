(** * Forward symbolic execution: correctness. *)
From Verif Require Import Syntax Solver TransSys TSLemmas Graph GraphOps GraphOpsProofs DfsProofs GraphSem SimpleTransModel MergeModel MergeProofs LinearModel LinearProofs LinearPath LinearTS PropGraph NontermProofs SymExModel.
Open Scope list_scope.
Open Scope nat_scope.

Lemma lruns_app g es1 es2 f f' f'' : lruns g es1 f f' -> lruns g es2 f' f'' -> lruns g (es1 ++ es2) f f''.
Proof. intros H. induction H as [|e es f f1 f2 He Hf _ IH]; intros H2; [exact H2|]. cbn. econstructor; eauto. Qed.
Lemma connected_app p es1 q es2 r : connected p es1 q -> connected q es2 r -> connected p (es1 ++ es2) r.
Proof. revert p. induction es1 as [|e es1 IH]; intros p C1 C2; cbn in *; [subst; exact C2|]. destruct C1 as [C0 C1]. split; [exact C0|]. apply IH; assumption. Qed.

Lemma holds_agree_ev (r r' : valuation) t : (forall v, In v (vars t) -> eval r (Var v) = eval r' (Var v)) -> (holds r t <-> holds r' t).
Proof. intros H. unfold holds, holdsb. rewrite (eval_ext r r' t H). tauto. Qed.

Section SymEx.
Variable check : check_fn.
Hypothesis Hck : check_ok check.
Variable qe : qe_fn.
Hypothesis Hqe : qe_ok qe.
Variable simp : term -> term.
Hypothesis Hsimp : simp_ok simp.
Variable elim : elim_fn.
Hypothesis Helim : elim_ok elim.
Variable g : lgraph.
Hypothesis W : lwf g.

(** The current arguments of the node, or variables of the past. *)
Definition past_var (v : var) : Prop := exists k, vtag v = TTime k /\ (k < 0)%Z.
Definition fvars (p : sym) (F : term) : Prop := forall v, In v (vars F) -> In v (cur_vars g p) \/ past_var v.
Lemma cur_tag p v : In v (cur_vars g p) -> vtag v = TTime 0.
Proof. intros H. apply in_map_iff in H as [b [<- _]]. reflexivity. Qed.
Lemma nxt_tag p v : In v (nxt_vars g p) -> vtag v = TTime 1.
Proof. intros H. apply in_map_iff in H as [b [<- _]]. reflexivity. Qed.

Lemma raw_spec F e r : holds r (simp (mkAnd [F; lfla e])) <-> holds r F /\ holds r (lfla e).
Proof.
  rewrite (proj1 (Hsimp _) r), holds_and. split.
  - intros H. inversion H as [|? ? H1 H2]; subst. inversion H2; subst. auto.
  - intros [H1 H2]. repeat constructor; assumption.
Qed.
Lemma post_vars p F e : In e (ledges g) -> lfrom e = p -> fvars p F -> fvars (lto e) (post simp elim g F e).
Proof.
  intros He Ef HF v Hv. unfold post in Hv. rewrite vars_shift in Hv. apply in_map_iff in Hv as [u [<- Hu]].
  apply (proj1 (Helim _ _)) in Hu. apply (proj2 (Hsimp _)) in Hu.
  assert (Hu' : In u (vars F) \/ In u (vars (lfla e))).
  { unfold mkAnd in Hu. cbn in Hu. rewrite ?app_nil_r in Hu. apply in_app_iff in Hu. exact Hu. }
  assert (Past : forall k, vtag u = TTime k -> (k <= 0)%Z -> past_var (shiftv (-1) u)).
  { intros k Hk Hle. unfold shiftv. rewrite Hk. exists (k + -1)%Z. split; [reflexivity|lia]. }
  destruct Hu' as [X|X].
  - destruct (HF u X) as [Y|[k [Hk Hl]]]; [right; apply (Past 0%Z); [apply (cur_tag p u Y)|lia]|right; apply (Past k Hk); lia].
  - destruct (lwf_label g W e u He X) as [Y|[Y|[Y _]]].
    + right. apply (Past 0%Z); [apply (cur_tag _ u Y)|lia].
    + left. apply in_map_iff in Y as [b [<- Hb]]. apply in_map_iff. exists b. split; [reflexivity|exact Hb].
    + right. apply (Past 0%Z Y). lia.
Qed.
Lemma shift_nxt b : shiftv (-1) (nxt b) = cur b.
Proof. reflexivity. Qed.
Lemma post_back F e r : holds r (post simp elim g F e) ->
  exists r1, holds r1 F /\ holds r1 (lfla e) /\ args r1 (nxt_vars g (lto e)) = args r (cur_vars g (lto e)).
Proof.
  intros H. unfold post in H. apply holds_shift in H.
  set (r0 := (fun v => r (shiftv (-1) v)) : valuation) in *.
  destruct (proj2 (proj2 (Helim (fun v => inb v (nxt_vars g (lto e))) (simp (mkAnd [F; lfla e]))) r0)) as [r1 [A1 H1]]; [exists r0; split; [reflexivity|exact H]|].
  apply raw_spec in H1 as [H1 H2]. exists r1. split; [exact H1|]. split; [exact H2|].
  unfold args, nxt_vars, cur_vars. rewrite !map_map. apply map_ext_in. intros b Hb. cbn [eval].
  rewrite (A1 (nxt b)); [unfold r0; rewrite shift_nxt; reflexivity|]. apply inb_true. apply in_map, Hb.
Qed.
Lemma post_forth F e r1 : holds r1 F -> holds r1 (lfla e) ->
  exists r, holds r (post simp elim g F e) /\ args r (cur_vars g (lto e)) = args r1 (nxt_vars g (lto e)).
Proof.
  intros H1 H2. assert (Hr : holds r1 (simp (mkAnd [F; lfla e]))) by (apply raw_spec; auto).
  destruct (proj1 (proj2 (Helim (fun v => inb v (nxt_vars g (lto e))) (simp (mkAnd [F; lfla e]))) r1)) as [r2 [A2 H3]]; [exists r1; split; [reflexivity|exact Hr]|].
  exists (fun v => r2 (shiftv 1 v)). split.
  - unfold post. apply holds_shift. refine (proj1 (holds_agree r2 _ _ _) H3). intros v _. rewrite shiftv_shiftv. change (1 + -1)%Z with 0%Z. rewrite shiftv_0. reflexivity.
  - unfold args, nxt_vars, cur_vars. rewrite !map_map. apply map_ext_in. intros b Hb. cbn [eval]. change (shiftv 1 (cur b)) with (nxt b).
    rewrite (A2 (nxt b)); [reflexivity|]. apply inb_true. apply in_map, Hb.
Qed.
(** Joining a model of a state and a model of a label. *)
Lemma join p F e (r' r : valuation) : In e (ledges g) -> lfrom e = p -> fvars p F -> (forall v, In v (cur_vars g p) -> eval r' (Var v) = eval r (Var v)) ->
  holds r' F -> holds r (lfla e) -> exists r2, holds r2 F /\ holds r2 (lfla e) /\ args r2 (nxt_vars g (lto e)) = args r (nxt_vars g (lto e)).
Proof.
  intros He Ef HF A H1 H2. set (r2 := (fun v => match vtag v with TTime k => if Z.ltb k 0 then r' v else r v | _ => r v end) : valuation). exists r2.
  assert (E0 : forall v k, vtag v = TTime k -> (0 <= k)%Z -> r2 v = r v). { intros v k E Hk. unfold r2. rewrite E. destruct (Z.ltb_spec k 0); [lia|reflexivity]. }
  split; [|split].
  - refine (proj1 (holds_agree_ev r' r2 F _) H1). intros v Hv. destruct (HF v Hv) as [X|[k [Hk Hl]]].
    + rewrite (A v X). cbn [eval]. rewrite (E0 v 0%Z (cur_tag p v X)) by lia. reflexivity.
    + cbn [eval]. unfold r2. rewrite Hk. destruct (Z.ltb_spec k 0); [reflexivity|lia].
  - refine (proj1 (holds_agree r r2 (lfla e) _) H2). intros v Hv. symmetry. destruct (lwf_label g W e v He Hv) as [X|[X|[X _]]].
    + apply (E0 v 0%Z (cur_tag _ v X)). lia.
    + apply (E0 v 1%Z (nxt_tag _ v X)). lia.
    + apply (E0 v 0%Z X). lia.
  - apply args_agree. intros v Hv. apply (E0 v 1%Z (nxt_tag _ v Hv)). lia.
Qed.

Lemma back_path_more hist x : forall fuel id acc l, back_path hist fuel id acc = Some l -> back_path (hist ++ x) fuel id acc = Some l.
Proof.
  induction fuel as [|f IH]; intros id acc l H; [discriminate|]. cbn [back_path] in *. destruct (nth_error hist id) as [s|] eqn:E; [|discriminate].
  rewrite nth_error_app1 by (apply nth_error_Some; congruence). rewrite E. destruct (Nat.eqb (ss_node s) entry); [exact H|]. destruct (ss_pred s) as [[p e]|]; [|discriminate]. apply IH, H.
Qed.
(** What is known about the state number [i]. *)
Record st_ok (hist : list sstate) (i : nat) (s : sstate) : Prop := {
  so_node : ss_node s <> exit;
  so_fvars : fvars (ss_node s) (ss_fla s);
  so_path : exists es, connected entry es (ss_node s) /\ (forall e, In e es -> In e (ledges g)) /\
     (forall r, holds r (ss_fla s) -> lruns g es (entry, []) (ss_node s, args r (cur_vars g (ss_node s)))) /\
     forall fuel acc, i < fuel -> back_path hist fuel i acc = Some (map lid es ++ acc)
}.
Definition all_ok (hist : list sstate) : Prop := forall i s, nth_error hist i = Some s -> st_ok hist i s.
Lemma st_ok_more hist x i s : st_ok hist i s -> st_ok (hist ++ x) i s.
Proof. intros [H1 H2 [es [H3 [H4 [H5 H6]]]]]. split; [exact H1|exact H2|]. exists es. split; [exact H3|]. split; [exact H4|]. split; [exact H5|]. intros fuel acc Hf. apply back_path_more, H6, Hf. Qed.
(** The edge is taken care of. *)
Definition done (hist : list sstate) (F : term) (e : ledge) : Prop :=
  (lto e = exit -> unsat [F; lfla e]) /\
  (lto e <> exit -> exists s, In s hist /\ ss_node s = lto e /\ ss_fla s = post simp elim g F e).
Definition closed (hist : list sstate) (s : sstate) : Prop := forall e, In e (ledges g) -> lfrom e = ss_node s -> done hist (ss_fla s) e.
Lemma done_more hist x F e : done hist F e -> done (hist ++ x) F e.
Proof. intros [H1 H2]. split; [exact H1|]. intros N. destruct (H2 N) as [s [Hs H]]. exists s. split; [apply in_app_iff; left; exact Hs|exact H]. Qed.
Lemma known_spec hist p F : known hist p F = true -> exists s, In s hist /\ ss_node s = p /\ ss_fla s = F.
Proof.
  intros H. apply existsb_exists in H as [s [Hs H]]. apply andb_true_iff in H as [H1 H2]. apply Nat.eqb_eq in H1.
  destruct (term_eqb_spec (ss_fla s) F) as [E|]; [|discriminate]. exists s. auto.
Qed.
Lemma entry_fact r : args r (cur_vars g entry) = [].
Proof. unfold cur_vars. rewrite (rep_entry _ (lwf_rep g W)). reflexivity. Qed.
Lemma exit_fact r : args r (nxt_vars g exit) = [].
Proof. unfold nxt_vars. rewrite (rep_exit _ (lwf_rep g W)). reflexivity. Qed.

Definition final_ok (r : se_result) : Prop :=
  match r with SUnsafe d => lrefutation g d | SUnknown | SThrow => exists q, check q = UNKNOWN | _ => False end.
Lemma invalidity_ok hist id s e r : all_ok hist -> nth_error hist id = Some s -> In e (ledges g) -> lfrom e = ss_node s -> lto e = exit ->
  holds r (ss_fla s) -> holds r (lfla e) -> final_ok (invalidity_witness check g hist (lid e) id).
Proof.
  intros A Hs He Ef Et H1 H2. destruct (A id s Hs) as [_ _ [es [C [Hin [Rn Bp]]]]]. unfold invalidity_witness.
  assert (id < length hist) by (apply nth_error_Some; congruence). rewrite Bp by lia.
  replace (map lid es ++ [lid e]) with (map lid (es ++ [e])) by (rewrite map_app; reflexivity).
  assert (C' : connected entry (es ++ [e]) exit) by (apply (connected_app entry es (ss_node s)); [exact C|]; cbn; auto).
  assert (Hin' : forall x, In x (es ++ [e]) -> In x (ledges g)) by (intros x Hx; apply in_app_iff in Hx as [Hx|[<-|[]]]; auto).
  pose proof (from_error_path_ok g W check (es ++ [e]) Hck Hin' C') as X.
  destruct (from_error_path check g (map lid (es ++ [e]))) as [| |d]; [destruct X| |apply X].
  cbn [final_ok]. destruct X as [X|X]; [|eauto]. exfalso. apply X. apply (lruns_app g es [e] _ (ss_node s, args r (cur_vars g (ss_node s)))); [apply Rn, H1|].
  econstructor; [exact He| |constructor]. exists r. split; [exact H2|]. rewrite Ef, Et, exit_fact. split; reflexivity.
Qed.
Lemma expand_edges_ok id s ids : forall hist q, all_ok hist -> nth_error hist id = Some s ->
  (forall i, In i ids -> exists e, In e (ledges g) /\ lid e = i /\ lfrom e = ss_node s) ->
  match expand_edges check simp elim g id (ss_fla s) ids hist q with
  | inr r => final_ok r
  | inl (hist', q') => exists new, hist' = hist ++ new /\ q' = q ++ seq (length hist) (length new) /\ all_ok hist' /\
      forall e, In e (ledges g) -> In (lid e) ids -> done hist' (ss_fla s) e
  end.
Proof.
  induction ids as [|i ids IH]; intros hist q A Hs Hids; cbn [expand_edges].
  - exists []. cbn [length seq]. rewrite ?app_nil_r. split; [reflexivity|]. split; [reflexivity|]. split; [exact A|]. intros e _ [].
  - destruct (Hids i (or_introl eq_refl)) as [e [He [<- Ef]]]. rewrite (lfind_in g e (lwf_ids g W) He).
    assert (Hids' : forall i, In i ids -> exists e, In e (ledges g) /\ lid e = i /\ lfrom e = ss_node s) by (intros j Hj; apply Hids; right; exact Hj).
    assert (Uniq : forall e', In e' (ledges g) -> lid e' = lid e -> e' = e).
    { intros e' He' E. pose proof (lfind_in g e' (lwf_ids g W) He') as X. rewrite E, (lfind_in g e (lwf_ids g W) He) in X. congruence. }
    destruct (Nat.eqb_spec (lto e) exit) as [Et|Nt].
    + destruct (check [ss_fla s; lfla e]) as [r| |] eqn:Ck.
      * apply (check_sat _ Hck) in Ck. pose proof (Forall_inv Ck) as H1. pose proof (Forall_inv (Forall_inv_tail Ck)) as H2. eapply invalidity_ok; eauto.
      * specialize (IH hist q A Hs Hids'). destruct (expand_edges _ _ _ _ _ _ _ _ _) as [[hist' q']|r]; [|exact IH].
        destruct IH as [new [H1 [H2 [H3 H4]]]]. exists new. split; [exact H1|]. split; [exact H2|]. split; [exact H3|].
        intros e' He' [E|Hi]; [|apply H4; assumption]. rewrite (Uniq e' He' (eq_sym E)). split; [intros _; apply (check_unsat _ Hck _ Ck)|contradiction].
      * cbn. eauto.
    + destruct (known hist (lto e) (post simp elim g (ss_fla s) e)) eqn:Kn.
      * specialize (IH hist q A Hs Hids'). destruct (expand_edges _ _ _ _ _ _ _ _ _) as [[hist' q']|r]; [|exact IH].
        destruct IH as [new [H1 [H2 [H3 H4]]]]. exists new. split; [exact H1|]. split; [exact H2|]. split; [exact H3|].
        intros e' He' [E|Hi]; [|apply H4; assumption]. rewrite (Uniq e' He' (eq_sym E)). rewrite H1. apply done_more. split; [contradiction|]. intros _. apply known_spec, Kn.
      * set (s' := mkState (lto e) (post simp elim g (ss_fla s) e) (Some (id, lid e))).
        assert (Lt : id < length hist) by (apply nth_error_Some; congruence).
        assert (A' : all_ok (hist ++ [s'])).
        { intros j x Hx. destruct (Nat.lt_ge_cases j (length hist)) as [L|L].
          - rewrite nth_error_app1 in Hx by exact L. apply st_ok_more, A, Hx.
          - rewrite nth_error_app2 in Hx by exact L. destruct (j - length hist) as [|k] eqn:Ej; [|destruct k; discriminate]. cbn in Hx. injection Hx as <-.
            assert (j = length hist) by lia. subst j. destruct (A id s Hs) as [_ Hv [es [C [Hin [Rn Bp]]]]]. split; cbn [ss_node ss_fla s'].
            + exact Nt.
            + eapply post_vars; eauto.
            + exists (es ++ [e]). split; [apply (connected_app entry es (ss_node s)); [exact C|]; cbn; auto|].
              split; [intros x Hx; apply in_app_iff in Hx as [Hx|[<-|[]]]; auto|]. split.
              * intros r Hr. apply post_back in Hr as [r1 [R1 [R2 R3]]]. apply (lruns_app g es [e] _ (ss_node s, args r1 (cur_vars g (ss_node s)))); [apply Rn, R1|].
                econstructor; [exact He| |constructor]. exists r1. split; [exact R2|]. rewrite Ef, R3. split; reflexivity.
              * intros fuel acc Hf. destruct fuel as [|fuel]; [lia|]. cbn [back_path]. rewrite nth_error_app2 by lia. rewrite Nat.sub_diag. cbn [nth_error ss_node s' ss_pred].
                destruct (Nat.eqb_spec (lto e) entry) as [X|_]; [exfalso; exact (lwf_entry g W e He X)|]. rewrite (back_path_more hist [s'] fuel id (lid e :: acc) (map lid es ++ lid e :: acc)); [|apply Bp; lia].
                rewrite map_app, <- app_assoc. reflexivity. }
        assert (Hs' : nth_error (hist ++ [s']) id = Some s) by (rewrite nth_error_app1 by exact Lt; exact Hs).
        specialize (IH (hist ++ [s']) (q ++ [length hist]) A' Hs' Hids'). destruct (expand_edges _ _ _ _ _ _ _ _ _) as [[hist' q']|r]; [|exact IH].
        destruct IH as [new [H1 [H2 [H3 H4]]]]. exists (s' :: new). rewrite <- app_assoc in H1, H2. split; [exact H1|].
        split; [rewrite H2; cbn [length seq app]; rewrite app_length; cbn [length]; rewrite Nat.add_1_r; reflexivity|]. split; [exact H3|].
        intros e' He' [E|Hi]; [|apply H4; assumption]. rewrite (Uniq e' He' (eq_sym E)). split; [contradiction|]. intros _. exists s'. split; [rewrite H1, in_app_iff; right; left; reflexivity|]. split; reflexivity.
Qed.

(** ** The end of the exploration *)
Record explored (hist : list sstate) : Prop := {
  ex_first : exists s, In s hist /\ ss_node s = entry /\ forall r, holds r (ss_fla s);
  ex_ok : all_ok hist;
  ex_closed : forall s, In s hist -> closed hist s
}.
Theorem explore_ok fuel : forall hist q, (exists s, In s hist /\ ss_node s = entry /\ forall r, holds r (ss_fla s)) -> all_ok hist ->
  (forall i, In i q -> i < length hist) -> (forall i s, nth_error hist i = Some s -> In i q \/ closed hist s) ->
  match explore check qe simp elim g fuel hist q with
  | SOutOfFuel => True
  | SSafe w => exists hist' ts, explored hist' /\ eliminated qe g hist' = Some ts /\ w = validity_defs ts
  | SThrow => (exists q, check q = UNKNOWN) \/ (exists f k, qe f k = None)
  | r => final_ok r
  end.
Proof.
  induction fuel as [|fuel IH]; intros hist q H0 A Hq Cl; cbn [explore]; [exact Logic.I|]. destruct q as [|id q].
  - unfold validity_witness. destruct (eliminated qe g hist) as [ts|] eqn:E.
    + exists hist, ts. split; [|auto]. split; [exact H0|exact A|]. intros s Hs. apply In_nth_error in Hs as [i Hi]. destruct (Cl i s Hi) as [[]|X]. exact X.
    + right. clear - E. induction hist as [|s hist IH]; [discriminate|]. cbn [eliminated] in E. destruct (qe (ss_fla s) _) as [t|] eqn:Q; [|eauto].
      destruct (eliminated qe g hist); [discriminate|auto].
  - destruct (nth_error hist id) as [s|] eqn:Es; [|apply nth_error_None in Es; specialize (Hq id (or_introl eq_refl)); lia].
    pose proof (expand_edges_ok id s (out_ids g (ss_node s)) hist q A Es) as X.
    destruct (expand_edges check simp elim g id (ss_fla s) (out_ids g (ss_node s)) hist q) as [[hist' q']|r].
    + destruct X as [new [-> [-> [A' D]]]]; [intros i Hi; apply out_ids_spec in Hi; exact Hi|]. apply IH.
      * destruct H0 as [s0 [Hs0 H0]]. exists s0. split; [apply in_app_iff; left; exact Hs0|exact H0].
      * exact A'.
      * intros i Hi. rewrite app_length. apply in_app_iff in Hi as [Hi|Hi]; [specialize (Hq i (or_intror Hi)); lia|]. apply in_seq in Hi. lia.
      * intros i x Hx. destruct (Nat.lt_ge_cases i (length hist)) as [L|L].
        -- rewrite nth_error_app1 in Hx by exact L. destruct (Cl i x Hx) as [[<-|Hi]|Hc].
           ++ right. rewrite Es in Hx. injection Hx as <-. intros e He Ef. apply D; [exact He|]. apply out_ids_spec. eauto.
           ++ left. apply in_app_iff. left. exact Hi.
           ++ right. intros e He Ef. apply done_more. apply Hc; assumption.
        -- left. apply in_app_iff. right. apply in_seq. assert (Y : i < length (hist ++ new)) by (apply nth_error_Some; congruence). rewrite app_length in Y. lia.
    + assert (Y : final_ok r) by (apply X; intros i Hi; apply out_ids_spec in Hi; exact Hi). destruct r; cbn [final_ok] in *; auto; destruct Y.
Qed.

Section Safe.
Variable hist : list sstate.
Hypothesis Ex : explored hist.
(** Every derivable fact is an instance of a state; false is not derivable. *)
Lemma cover f : lderivable g f -> fst f <> exit /\ exists s r, In s hist /\ ss_node s = fst f /\ holds r (ss_fla s) /\ snd f = args r (cur_vars g (fst f)).
Proof.
  intros D. induction D as [|e f f' He _ [_ [s [r' [Hs [En [Hr Ea]]]]]] [r [Hl [E1 E2]]]].
  - cbn [fst snd]. split; [discriminate|]. destruct (ex_first _ Ex) as [s [Hs [En Hv]]]. exists s, (fun _ => VInt 0). rewrite entry_fact. auto.
  - rewrite E1 in En, Ea. cbn [fst snd] in En, Ea. pose proof (In_nth_error _ _ Hs) as [i Hi]. pose proof (so_fvars _ _ _ (ex_ok _ Ex i s Hi)) as Fv.
    destruct (join (ss_node s) (ss_fla s) e r' r He (eq_sym En) Fv) as [r2 [J1 [J2 J3]]]; [|exact Hr|exact Hl|].
    { rewrite En. intros v Hv. symmetry. exact (args_eq_ev _ _ _ Ea v Hv). }
    destruct (ex_closed _ Ex s Hs e He (eq_sym En)) as [Dx Dn]. rewrite E2. cbn [fst snd].
    assert (Nx : lto e <> exit). { intros X. apply (Dx X r2). repeat constructor; assumption. }
    split; [exact Nx|]. destruct (Dn Nx) as [s' [Hs' [En' Ef']]]. destruct (post_forth (ss_fla s) e r2 J1 J2) as [r3 [P1 P2]].
    exists s', r3. split; [exact Hs'|]. split; [exact En'|]. split; [rewrite Ef'; exact P1|]. rewrite P2, J3. reflexivity.
Qed.
Lemma safe : ~ lderivable g (exit, []).
Proof. intros D. apply cover in D as [X _]. apply X. reflexivity. Qed.

Variable ts : list (sym * term).
Hypothesis El : eliminated qe g hist = Some ts.
Lemma elim_in : forall s, In s hist -> exists t, In (ss_node s, t) ts /\ is_projection (ss_fla s) (cur_vars g (ss_node s)) t.
Proof.
  clear Ex. revert ts El. induction hist as [|x l IH]; intros ts El s Hs; [destruct Hs|]. cbn [eliminated] in El.
  destruct (qe (ss_fla x) (cur_vars g (ss_node x))) as [t|] eqn:Q; [|discriminate]. destruct (eliminated qe g l) as [ts'|]; [|discriminate]. injection El as <-.
  destruct Hs as [<-|Hs]; [exists t; split; [left; reflexivity|apply Hqe, Q]|]. destruct (IH ts' eq_refl s Hs) as [t' [H1 H2]]. exists t'. split; [right; exact H1|exact H2].
Qed.
Lemma elim_out : forall p t, In (p, t) ts -> exists s, In s hist /\ ss_node s = p /\ is_projection (ss_fla s) (cur_vars g p) t.
Proof.
  clear Ex. revert ts El. induction hist as [|x l IH]; intros ts El p t Ht; cbn [eliminated] in El; [injection El as <-; destruct Ht|].
  destruct (qe (ss_fla x) (cur_vars g (ss_node x))) as [t0|] eqn:Q; [|discriminate]. destruct (eliminated qe g l) as [ts'|]; [|discriminate]. injection El as <-.
  destruct Ht as [X|Ht]; [injection X as <- <-; exists x; split; [left; reflexivity|]; split; [reflexivity|apply Hqe, Q]|].
  destruct (IH ts' eq_refl p t Ht) as [s [H1 H2]]. exists s. split; [right; exact H1|exact H2].
Qed.
Lemma instances_in p t : In t (instances_of ts p) <-> In (p, t) ts.
Proof.
  unfold instances_of. rewrite in_map_iff. split.
  - intros [[q u] [<- H]]. apply filter_In in H as [H E]. apply Nat.eqb_eq in E. cbn in *. subst. exact H.
  - intros H. exists (p, t). split; [reflexivity|]. apply filter_In. split; [exact H|apply Nat.eqb_refl].
Qed.
Lemma inst_vars p v : In v (vars (mkOr (instances_of ts p))) -> In v (cur_vars g p).
Proof.
  intros H. unfold mkOr in H. apply in_vars_app in H as [t [Ht Hv]]. apply instances_in in Ht. destruct (elim_out p t Ht) as [s [_ [_ P]]]. apply (proj_vars _ _ _ P v Hv).
Qed.
Lemma untag_cur (l : list var) t : (forall b, In b l -> vtag b = TBase) -> (forall v, In v (vars t) -> In v (map cur l)) ->
  rename cur (rename untag t) = t /\ forall v, In v (vars (rename untag t)) -> In v l.
Proof.
  intros B H. assert (U : forall v, In v (vars t) -> In (untag v) l /\ cur (untag v) = v).
  { intros v Hv. apply H in Hv. apply in_map_iff in Hv as [b [<- Hb]]. specialize (B b Hb). destruct b as [n tg so]. cbn in B. subst tg. split; [exact Hb|reflexivity]. }
  split.
  - rewrite rename_rename. apply rename_id. intros v Hv. apply U, Hv.
  - rewrite vars_rename. intros v Hv. apply in_map_iff in Hv as [u [<- Hu]]. apply U, Hu.
Qed.
Definition has_def (p : sym) : Prop := exists s, In s hist /\ ss_node s = p.
Lemma def_some p : has_def p -> p <> entry -> p <> exit -> validity_defs ts p = Some (rename untag (mkOr (instances_of ts p))).
Proof.
  intros [s [Hs En]] N1 N2. unfold validity_defs, trivial_defs. destruct (Nat.eqb_spec p entry); [contradiction|]. destruct (Nat.eqb_spec p exit); [contradiction|].
  destruct (elim_in s Hs) as [t [Ht _]]. rewrite En in Ht. apply instances_in in Ht. destruct (instances_of ts p); [destruct Ht|reflexivity].
Qed.
(** The definition of a discovered predicate holds in current-state arguments iff some state does. *)
Lemma def_sem p d r : has_def p -> p <> exit -> validity_defs ts p = Some d -> holds r (rename cur d) ->
  exists s r', In s hist /\ ss_node s = p /\ holds r' (ss_fla s) /\ forall v, In v (cur_vars g p) -> eval r' (Var v) = eval r (Var v).
Proof.
  intros Hd Nx E H. destruct (Nat.eq_dec p entry) as [->|Ne].
  - destruct (ex_first _ Ex) as [s [Hs [En Hv]]]. exists s, r. auto.
  - rewrite (def_some p Hd Ne Nx) in E. assert (Ed : d = rename untag (mkOr (instances_of ts p))) by congruence. subst d. clear E.
    destruct (untag_cur (lpv g p) (mkOr (instances_of ts p)) (rep_base _ (lwf_rep g W) p) (inst_vars p)) as [E1 _]. rewrite E1 in H.
    apply holds_or in H. apply Exists_exists in H as [t [Ht H]]. apply instances_in in Ht. destruct (elim_out p t Ht) as [s [Hs [En P]]].
    apply (proj_sem _ _ _ P r) in H as [r' [Ag H]]. exists s, r'. split; [exact Hs|]. split; [exact En|]. split; [exact H|]. intros v Hv. cbn [eval]. rewrite (Ag v Hv). reflexivity.
Qed.
Lemma sem_def s r r' d : In s hist -> ss_node s <> exit -> holds r (ss_fla s) -> validity_defs ts (ss_node s) = Some d ->
  args r' (nxt_vars g (ss_node s)) = args r (cur_vars g (ss_node s)) -> holds r' (rename nxt d).
Proof.
  intros Hs Nx H E Ar. set (p := ss_node s) in *. destruct (Nat.eq_dec p entry) as [Ee|Ne].
  - unfold validity_defs, trivial_defs in E. rewrite Ee in E. cbn in E. injection E as <-. reflexivity.
  - rewrite (def_some p (ex_intro _ s (conj Hs eq_refl)) Ne Nx) in E. assert (Ed : d = rename untag (mkOr (instances_of ts p))) by congruence. subst d. clear E.
    destruct (untag_cur (lpv g p) (mkOr (instances_of ts p)) (rep_base _ (lwf_rep g W) p) (inst_vars p)) as [E1 E2].
    assert (Hc : holds r (rename cur (rename untag (mkOr (instances_of ts p))))).
    { rewrite E1. apply holds_or, Exists_exists. destruct (elim_in s Hs) as [t [Ht P]]. exists t. split; [apply instances_in, Ht|]. apply (proj_sem _ _ _ P r). exists r. split; [intros v _; reflexivity|exact H]. }
    rewrite holds_rename in Hc |- * by (intros v; reflexivity). refine (proj1 (holds_agree_ev _ _ _ _) Hc). intros b Hb. apply E2 in Hb. cbn [eval].
    assert (X : eval r' (Var (nxt b)) = eval r (Var (cur b))).
    { unfold args, nxt_vars, cur_vars in Ar. rewrite !map_map in Ar. exact (proj1 map_ext_in_iff Ar b Hb). }
    cbn [eval] in X. change (vsort (nxt b)) with (vsort b) in X. change (vsort (cur b)) with (vsort b) in X. symmetry. exact X.
Qed.
Lemma reached_def p q : path g p q -> p = entry \/ has_def p -> q <> exit -> q = entry \/ has_def q.
Proof.
  intros P. induction P as [v|e w He P IH]; intros H Nq; [exact H|]. apply IH; [|exact Nq]. destruct (Nat.eq_dec (lto e) exit) as [Ex0|Nx].
  - exfalso. rewrite Ex0 in P. inversion P as [v E1 E2|e' w' He' P' E1 E2]; [congruence|]. exact (lwf_exit g W e' He' E1).
  - right. assert (S : has_def (lfrom e)) by (destruct H as [->|H]; [destruct (ex_first _ Ex) as [s [Hs [En _]]]; exists s; auto|exact H]).
    destruct S as [s [Hs En]]. destruct (ex_closed _ Ex s Hs e He (eq_sym En)) as [_ Dn]. destruct (Dn Nx) as [s' [Hs' [En' _]]]. exists s'. auto.
Qed.
Theorem safe_solution : all_reachable g -> lsolution g (validity_defs ts).
Proof.
  intros Re. assert (Def : forall p, lvertex g p -> p <> exit -> has_def p).
  { intros p Vp Np. destruct (Re p Vp) as [X|X]; [contradiction|]. destruct (reached_def _ _ X (or_introl eq_refl) Np) as [->|Y]; [|exact Y].
    destruct (ex_first _ Ex) as [s [Hs [En _]]]. exists s. auto. }
  split.
  - intros p d E v Hv. unfold validity_defs in E. unfold trivial_defs in E. destruct (Nat.eqb p entry); [injection E as <-; destruct Hv|]. destruct (Nat.eqb p exit); [injection E as <-; destruct Hv|].
    assert (Ed : d = rename untag (mkOr (instances_of ts p))) by (destruct (instances_of ts p); [discriminate|injection E as <-; reflexivity]). subst d.
    apply (untag_cur (lpv g p) (mkOr (instances_of ts p)) (rep_base _ (lwf_rep g W) p) (inst_vars p)). exact Hv.
  - exists tt_true. split; [reflexivity|]. intros r. reflexivity.
  - exists tt_false. split; [reflexivity|]. intros r H. discriminate H.
  - intros e He.
    assert (Vf : lvertex g (lfrom e)) by (right; right; eauto). assert (Vt : lvertex g (lto e)) by (right; right; eauto).
    pose proof (Def _ Vf (lwf_exit g W e He)) as Df.
    assert (Eds : exists ds, validity_defs ts (lfrom e) = Some ds).
    { destruct (Nat.eq_dec (lfrom e) entry) as [->|N]; [exists tt_true; reflexivity|]. eexists. apply def_some; [exact Df|exact N|apply (lwf_exit g W e He)]. }
    destruct Eds as [ds Eds].
    assert (Core : forall r, holds r (lfla e) -> holds r (rename cur ds) -> lto e <> exit /\ exists s' r3, In s' hist /\ ss_node s' = lto e /\ holds r3 (ss_fla s') /\ args r3 (cur_vars g (lto e)) = args r (nxt_vars g (lto e))).
    { intros r H1 H2. destruct (def_sem _ ds r Df (lwf_exit g W e He) Eds H2) as [s [r' [Hs [En [Hr Ag]]]]].
      pose proof (In_nth_error _ _ Hs) as [i Hi]. pose proof (so_fvars _ _ _ (ex_ok _ Ex i s Hi)) as Fv.
      destruct (join (ss_node s) (ss_fla s) e r' r He (eq_sym En) Fv) as [r2 [J1 [J2 J3]]]; [rewrite En; exact Ag|exact Hr|exact H1|].
      destruct (ex_closed _ Ex s Hs e He (eq_sym En)) as [Dx Dn].
      assert (Nx : lto e <> exit). { intros X. apply (Dx X r2). repeat constructor; assumption. }
      split; [exact Nx|]. destruct (Dn Nx) as [s' [Hs' [En' Ef']]]. destruct (post_forth (ss_fla s) e r2 J1 J2) as [r3 [P1 P2]].
      exists s', r3. split; [exact Hs'|]. split; [exact En'|]. split; [rewrite Ef'; exact P1|]. rewrite P2, J3. reflexivity. }
    destruct (Nat.eq_dec (lto e) exit) as [Ex0|Nx].
    + exists ds, tt_false. split; [exact Eds|]. split; [rewrite Ex0; reflexivity|]. intros r H1 H2. destruct (Core r H1 H2) as [X _]. contradiction.
    + pose proof (Def _ Vt Nx) as Dt. exists ds, (rename untag (mkOr (instances_of ts (lto e)))). split; [exact Eds|].
      assert (Edt : validity_defs ts (lto e) = Some (rename untag (mkOr (instances_of ts (lto e))))) by (apply def_some; [exact Dt|apply (lwf_entry g W e He)|exact Nx]).
      split; [exact Edt|]. intros r H1 H2. destruct (Core r H1 H2) as [_ [s' [r3 [Hs' [En' [Hr3 Ar]]]]]]. rewrite <- En' in Edt, Ar, Nx |- *. 
      apply (sem_def s' r3 r _ Hs' Nx Hr3 Edt). symmetry. exact Ar.
Qed.
End Safe.
End SymEx.
