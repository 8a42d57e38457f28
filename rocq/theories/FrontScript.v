(** * Scripts: what reaches the solver. *)
From Verif Require Import Syntax Solver Graph ChcSystem FrontModel FrontSpec FrontProofs FrontClause.
From Coq Require Import Arith.
Local Open Scope string_scope.
Local Open Scope list_scope.
Local Open Scope nat_scope.

Definition wst : Type := (bool * list pid * list (list pid * ast))%type.

Definition wstep (interpreted : string -> bool) (w : wst) (c : cmd) : wst :=
  let '(set, ds, acc) := w in
  match c with
  | SetLogic n => if String.eqb n "HORN" then (true, ds, []) else (set, ds, acc)
  | Declare n k SBool => (set, if set && negb (interpreted n) then (n, k) :: ds else ds, acc)
  | Assert a => (set, ds, if set then acc ++ [(ds, a)] else acc)
  | _ => (set, ds, acc)
  end.

Lemma in_force_fold interpreted s : forall set ds acc,
  in_force interpreted s set ds acc = snd (fold_left (wstep interpreted) s (set, ds, acc)).
Proof.
  induction s as [|c s IH]; intros set ds acc; [reflexivity|]. cbn [in_force fold_left wstep].
  destruct c as [n|n k [| |]|a| | | |]; try apply IH. destruct (String.eqb n "HORN"); apply IH.
Qed.

Section S.
Variable l_op : string -> list pterm -> option pterm.
Variable l_not : pterm -> pterm.
Variables l_or l_and : list pterm -> pterm.
Variable reserved : string -> bool.
Variable interpreted : string -> bool.
Hypothesis L : logic_ok l_op l_not l_or l_and.

Notation interpret := (interpret l_op l_not l_or l_and reserved interpreted).
Notation interpret_all := (interpret_all l_op l_not l_or l_and reserved interpreted).

(** All clauses hold. *)
Definition clauses_true (M : preds) (cs : list pclause) : Prop := forall c r, In c cs -> clause_true M r c.
Definition asserted (M : preds) (l : list (list pid * ast)) : Prop := forall ds a, In (ds, a) l -> asserts ds M no_env a.

Definition fine (l : list (list pid * ast)) : Prop :=
  forall ds a, In (ds, a) l -> well_sorted_assert ds a /\ no_clash ds (quantified a).

Definition inv (w : wst) (st : istate) : Prop :=
  i_exit st = false ->
  let '(set, ds, acc) := w in
  i_decl st = ds /\
  match i_sys st with
  | None => set = false /\ acc = []
  | Some (_, cs) => set = true /\ forall M, clauses_true M cs <-> asserted M acc
  end.

Lemma top_asserts ds M a t : well_sorted_assert ds a -> no_clash ds (quantified a) ->
  fst (parse_top l_op reserved ds a no_records) = Ok t ->
  (asserts ds M no_env a <-> forall r, ptrue_in M r t = true).
Proof.
  intros W NC E.
  assert (V : vars_only no_records) by (intros n u H; discriminate).
  assert (TS := top_sound l_op reserved l_not l_or l_and L ds M a no_records t V NC).
  rewrite <- TS; [|eapply well_sorted_ext; [|exact W]; intros n; reflexivity|exact E].
  split.
  - intros H r. eapply (asserts_ext l_op reserved); [|exact H]. intros n. reflexivity.
  - intros H. eapply (asserts_ext l_op reserved); [|exact (H (fun v => default_value (vsort v)))]. intros n. reflexivity.
Qed.

Lemma clauses_true_app M cs c : clauses_true M (cs ++ [c]) <-> clauses_true M cs /\ forall r, clause_true M r c.
Proof.
  unfold clauses_true. split.
  - intros H. split; [intros d r Hd|intros r]; apply H, in_or_app; [left; exact Hd|right; left; reflexivity].
  - intros [H1 H2] d r Hd. apply in_app_or in Hd as [Hd|[<-|[]]]; [apply H1, Hd|apply H2].
Qed.
Lemma asserted_app M l ds a : asserted M (l ++ [(ds, a)]) <-> asserted M l /\ asserts ds M no_env a.
Proof.
  unfold asserted. split.
  - intros H. split; [intros d b Hd|]; apply H, in_or_app; [left; exact Hd|right; left; reflexivity].
  - intros [H1 H2] d b Hd. apply in_app_or in Hd as [Hd|[Hd|[]]]; [apply H1, Hd|]. injection Hd as <- <-. exact H2.
Qed.

Lemma step_inv k c w st : i_exit st = false -> fine (snd (wstep interpreted w c)) -> inv w st -> inv (wstep interpreted w c) (interpret k c st).
Proof.
  intros X F I. destruct w as [[set ds] acc]. specialize (I X). cbn [inv] in I. destruct I as [ID I].
  destruct c as [n|n ar s|a| | | |]; cbn [FrontModel.interpret wstep snd] in *.
  - destruct (String.eqb n "HORN"); intros _.
    + cbn. split; [exact ID|]. split; [reflexivity|]. intros M. split; intros _; [intros d a []|intros d r []].
    + cbn. split; [exact ID|exact I].
  - destruct (i_sys st) as [[known cs]|] eqn:ES.
    + destruct I as [-> I]. destruct s.
      * cbn [interpret_declare andb]. destruct (interpreted n) eqn:EI; cbn [negb]; intros _; cbn.
        -- split; [first [exact ID|reflexivity]|]. rewrite ES. auto.
        -- split; [rewrite ID; reflexivity|]. auto.
      * intros _. cbn. split; [first [exact ID|reflexivity]|]. rewrite ES. auto.
      * intros _. cbn. split; [first [exact ID|reflexivity]|]. rewrite ES. auto.
    + destruct I as [-> ->]. destruct s; intros _; cbn; (split; [first [exact ID|reflexivity]|]); rewrite ES; auto.
  - destruct (i_sys st) as [[known cs]|] eqn:ES.
    + destruct I as [-> I]. destruct (F ds a) as [W NC]; [apply in_or_app; right; left; reflexivity|].
      unfold interpret_assert. rewrite ID. destruct (fst (parse_top l_op reserved ds a no_records)) as [t| | |] eqn:EP.
      * destruct (is_true t) eqn:ET.
        -- intros _. cbn. split; [first [exact ID|reflexivity]|]. rewrite ES. split; [reflexivity|]. intros M. rewrite asserted_app, I.
           rewrite (top_asserts ds M a t W NC EP).
           assert (forall r, ptrue_in M r t = true); [|tauto].
           intros r. destruct t as [|[[|]| |]| |]; try discriminate. reflexivity.
        -- destruct (chclause l_not l_or l_and known t) as [c|] eqn:EC.
           ++ intros _. cbn. split; [first [exact ID|reflexivity]|]. split; [reflexivity|]. intros M. rewrite clauses_true_app, asserted_app, I.
              rewrite (top_asserts ds M a t W NC EP).
              split; intros [H1 H2]; (split; [exact H1|]); intros r; eapply (chclause_sound l_op l_not l_or l_and L known t c M r EC), H2.
           ++ intros Q. cbn in Q. rewrite orb_true_r in Q. discriminate.
      * intros Q. cbn in Q. discriminate.
      * intros Q. cbn in Q. rewrite orb_true_r in Q. discriminate.
      * intros Q. cbn in Q. discriminate.
    + destruct I as [-> ->]. intros _. cbn. split; [first [exact ID|reflexivity]|]. rewrite ES. auto.
  - destruct (i_sys st) as [[known cs]|] eqn:ES; intros _; cbn; (split; [first [exact ID|reflexivity]|]); try rewrite ES; exact I.
  - intros Q. cbn in Q. discriminate.
  - intros _. cbn. split; [exact ID|exact I].
  - intros _. cbn. split; [exact ID|exact I].
Qed.

(** A command other than (check-sat) hands nothing to the solver. *)
Lemma interpret_checks k c st : i_checks (interpret k c st) =
  i_checks st ++ match c, i_sys st with CheckSat, Some (_, cs) => [(k, cs)] | _, _ => [] end.
Proof.
  destruct c as [n|n ar s|a| | | |]; cbn [FrontModel.interpret]; try (cbn; rewrite app_nil_r; reflexivity).
  - destruct (String.eqb n "HORN"); cbn; rewrite app_nil_r; reflexivity.
  - destruct (i_sys st) as [[known cs]|]; [|cbn; rewrite app_nil_r; reflexivity].
    unfold interpret_declare. destruct s; [destruct (interpreted n)|..]; cbn; rewrite app_nil_r; reflexivity.
  - destruct (i_sys st) as [[known cs]|]; [|cbn; rewrite app_nil_r; reflexivity].
    unfold interpret_assert. destruct (fst _) as [t| | |]; try (cbn; rewrite app_nil_r; reflexivity).
    destruct (is_true t); [cbn; rewrite app_nil_r; reflexivity|]. destruct (chclause _ _ _ _ _); cbn; rewrite app_nil_r; reflexivity.
  - destruct (i_sys st) as [[known cs]|]; cbn; [reflexivity|rewrite app_nil_r; reflexivity].
Qed.

Lemma run_sound s : forall k w st,
  inv w st ->
  (forall j, fine (snd (fold_left (wstep interpreted) (firstn j s) w))) ->
  forall k' cs, In (k', cs) (i_checks (interpret_all k s st)) ->
  In (k', cs) (i_checks st) \/
  exists j, k' = k + j /\ nth_error s j = Some CheckSat /\
    forall M, clauses_true M cs <-> asserted M (snd (fold_left (wstep interpreted) (firstn j s) w)).
Proof.
  induction s as [|c s IH]; intros k w st I F k' cs H; [left; exact H|].
  cbn [FrontModel.interpret_all] in H. destruct (i_exit st) eqn:X; [left; exact H|].
  assert (F1 := F 1). cbn [firstn fold_left] in F1.
  assert (I' := step_inv k c w st X F1 I).
  apply (IH (S k) (wstep interpreted w c)) in H as [H|[j [-> [N H]]]]; [| |exact I'|].
  - rewrite interpret_checks in H. apply in_app_or in H as [H|H]; [left; exact H|]. right. exists 0.
    destruct c; try contradiction. destruct (i_sys st) as [[known cs']|] eqn:ES; [|contradiction].
    destruct H as [H|[]]. injection H as <- <-. split; [lia|]. split; [reflexivity|]. cbn [firstn fold_left].
    specialize (I X). destruct w as [[set ds] acc]. rewrite ES in I. cbn [snd]. apply I.
  - right. exists (S j). split; [lia|]. split; [exact N|]. exact H.
  - intros j. exact (F (S j)).
Qed.

Theorem script_sound script k cs :
  (forall j, fine (assertions interpreted (firstn j script))) ->
  In (k, cs) (i_checks (interpret_all 0 script istart)) ->
  nth_error script k = Some CheckSat /\
  forall M, clauses_true M cs <-> asserted M (assertions interpreted (firstn k script)).
Proof.
  intros F H.
  assert (I0 : inv (false, [], []) istart) by (intros _; cbn; auto).
  destruct (run_sound script 0 (false, [], []) istart I0) with (k' := k) (cs := cs) as [[]|[j [-> [N R]]]]; [|exact H|].
  - intros j ds a. specialize (F j ds a). unfold assertions in F. rewrite in_force_fold in F. exact F.
  - split; [exact N|]. intros M. unfold assertions. rewrite in_force_fold. apply R.
Qed.

End S.

(** ** Clauses for the solver *)
Fixpoint strip (t : pterm) : option term :=
  match t with
  | PVar v => Some (Var v)
  | PConst c => Some (Const c)
  | POp f l =>
      let fix go (l : list pterm) : option (list term) :=
        match l with
        | [] => Some []
        | x :: l' => match strip x, go l' with Some y, Some ys => Some (y :: ys) | _, _ => None end
        end in
      match go l with Some ts => Some (App f ts) | None => None end
  | PPred _ _ => None
  end.

Definition strip_atom (ids : list pid) (code : pid -> sym) (t : pterm) : option atom :=
  match t with
  | PPred p l =>
      if in_pids (p, length l) ids
      then match omap strip l with Some ts => Some (mkAtom (code (p, length l)) ts) | None => None end
      else None
  | _ => None
  end.

(** [PTRefToCHC::constructHead], [constructBody] (src/ChcInterpreter.h:130-156). *)
Definition strip_clause (ids : list pid) (code : pid -> sym) (c : pclause) : option clause :=
  match (match p_head c with Some h => strip_atom ids code h | None => Some (mkAtom exit []) end),
        strip (p_fla c), omap (strip_atom ids code) (p_body c) with
  | Some h, Some f, Some b => Some (mkClause h f b)
  | _, _, _ => None
  end.

Definition code_ok (ids : list pid) (code : pid -> sym) : Prop :=
  forall x, In x ids -> code x <> entry /\ code x <> exit /\ forall y, In y ids -> code x = code y -> x = y.

Lemma in_pids_spec x l : in_pids x l = true <-> In x l.
Proof.
  unfold in_pids. rewrite existsb_exists. split.
  - intros [y [H E]]. unfold pid_eqb in E. apply andb_true_iff in E as [E1 E2]. apply String.eqb_eq in E1. apply Nat.eqb_eq in E2.
    destruct x, y. cbn in *. congruence.
  - intros H. exists x. split; [exact H|]. unfold pid_eqb. rewrite String.eqb_refl, Nat.eqb_refl. reflexivity.
Qed.

Lemma strip_eval M r t : forall u, strip t = Some u -> eval r u = peval M r t.
Proof.
  induction t as [v|c|f l IH|p l IH] using pterm_ind'; intros u H; try discriminate.
  - injection H as <-. reflexivity.
  - injection H as <-. reflexivity.
  - cbn [strip] in H.
    match type of H with context [?g l] => is_fix g; set (go := g) in H end.
    assert (G : forall k, Forall (fun t => forall u, strip t = Some u -> eval r u = peval M r t) k -> forall us, go k = Some us ->
      map (eval r) us = map (peval M r) k).
    { induction 1 as [|x k Hx _ IHk]; intros us E; [injection E as <-; reflexivity|]. cbn in E. fold go in E.
      destruct (strip x) as [y|] eqn:Ex; [|discriminate]. destruct (go k) as [ys|]; [|discriminate]. injection E as <-.
      cbn [map]. rewrite (Hx y eq_refl), (IHk ys eq_refl). reflexivity. }
    destruct (go l) as [us|] eqn:E; [|discriminate]. injection H as <-. cbn [eval peval]. rewrite (G l IH us E). reflexivity.
Qed.

Lemma strip_list M r l us : omap strip l = Some us -> map (eval r) us = map (peval M r) l.
Proof.
  intros H. apply omap_some in H. revert us H. induction l as [|x l IH]; intros [|u us] H; try discriminate; [reflexivity|].
  cbn [map] in *. injection H as H1 H2. rewrite (strip_eval M r x u H1), (IH us H2). reflexivity.
Qed.

Lemma strip_atom_spec ids code t a : strip_atom ids code t = Some a ->
  exists p l, t = PPred p l /\ In (p, length l) ids /\ asym a = code (p, length l) /\
    forall M r, avals r a = map (peval M r) l.
Proof.
  destruct t as [| | |p l]; try discriminate. cbn [strip_atom]. destruct (in_pids (p, length l) ids) eqn:E; [|discriminate].
  destruct (omap strip l) as [us|] eqn:F; [|discriminate]. intros [= <-]. exists p, l. split; [reflexivity|].
  split; [apply in_pids_spec, E|]. split; [reflexivity|]. intros M r. unfold avals. cbn [aargs]. apply strip_list, F.
Qed.

(** The interpretation of the coded symbols. *)
Definition decode (ids : list pid) (code : pid -> sym) (M : preds) : interpretation :=
  fun s vs => exists p, In (p, length vs) ids /\ s = code (p, length vs) /\ M p vs = true.

Lemma decode_atom ids code M r t a : code_ok ids code -> strip_atom ids code t = Some a ->
  (decode ids code M (asym a) (avals r a) <-> ptrue_in M r t = true).
Proof.
  intros C H. apply strip_atom_spec in H as [p [l [-> [Hin [E V]]]]]. rewrite E, (V M r). unfold ptrue_in. cbn [peval asb].
  unfold decode. rewrite map_length. split.
  - intros [q [Q1 [Q2 Q3]]]. destruct (C _ Hin) as [_ [_ Inj]]. specialize (Inj _ Q1 Q2). injection Inj as <-. exact Q3.
  - intros H. exists p. auto.
Qed.

Lemma decode_clause ids code M c c' : code_ok ids code -> strip_clause ids code c = Some c' ->
  ((forall r, (forall a, In a (cbody c') -> decode ids code M (asym a) (avals r a)) -> holds r (cfla c') ->
     decode ids code M (asym (chead c')) (avals r (chead c'))) <-> forall r, clause_true M r c).
Proof.
  intros C H. unfold strip_clause in H.
  destruct (match p_head c with Some h => strip_atom ids code h | None => Some (mkAtom exit []) end) as [h|] eqn:EH; [|discriminate].
  destruct (strip (p_fla c)) as [f|] eqn:EF; [|discriminate]. destruct (omap (strip_atom ids code) (p_body c)) as [b|] eqn:EB; [|discriminate].
  injection H as <-. cbn [cbody cfla chead].
  assert (Q : forall r, ((forall a, In a b -> decode ids code M (asym a) (avals r a)) -> holds r f -> decode ids code M (asym h) (avals r h)) <-> clause_true M r c).
  { intros r. unfold clause_true.
    assert (Hf : holds r f <-> ptrue_in M r (p_fla c) = true) by (unfold holds, holdsb, ptrue_in; rewrite (strip_eval M r _ f EF); tauto).
    assert (Hb : (forall a, In a b -> decode ids code M (asym a) (avals r a)) <-> Forall (fun b => ptrue_in M r b = true) (p_body c)).
    { apply omap_some in EB. clear -EB C. revert b EB. induction (p_body c) as [|x l IH]; intros [|a b] EB; try discriminate.
      - split; [intros _; constructor|intros _ a []].
      - cbn [map] in EB. injection EB as E1 E2. rewrite Forall_cons_iff, <- (IH b E2), <- (decode_atom ids code M r x a C E1). split.
        + intros H. split; [apply H; left; reflexivity|intros a' Ha'; apply H; right; exact Ha'].
        + intros [H1 H2] a' [<-|Ha']; auto. }
    assert (Hh : decode ids code M (asym h) (avals r h) <-> match p_head c with Some h => ptrue_in M r h = true | None => False end).
    { destruct (p_head c) as [t|]; [apply decode_atom; assumption|]. injection EH as <-. cbn. split; [|contradiction].
      intros [p [P1 [P2 _]]]. destruct (C _ P1) as [_ [N _]]. congruence. }
    rewrite Hf, Hb, Hh. tauto. }
  split; intros H r; apply Q; apply H.
Qed.

Lemma decode_model ids code M cs cs' : code_ok ids code -> omap (strip_clause ids code) cs = Some cs' ->
  (cmodel cs' (decode ids code M) <-> forall c r, In c cs -> clause_true M r c).
Proof.
  intros C E. apply omap_some in E. revert cs' E. induction cs as [|c cs IH]; intros [|c' cs'] E; try discriminate.
  - split; intros _; [intros c r []|intros c r []].
  - cbn [map] in E. injection E as E1 E2. specialize (IH cs' E2). pose proof (decode_clause ids code M c c' C E1) as D. split.
    + intros H d r [<-|Hd].
      * apply D. intros r'. apply (H c' r'). left. reflexivity.
      * apply IH; [|exact Hd]. intros d' r' Hd'. apply H. right. exact Hd'.
    + intros H d r [<-|Hd].
      * apply D. intros r'. apply H. left. reflexivity.
      * apply IH; [|exact Hd]. intros d' r' Hd'. apply H. right. exact Hd'.
Qed.

Lemma decode_exit ids code M : code_ok ids code -> ~ decode ids code M exit [].
Proof. intros C [p [P1 [P2 _]]]. destruct (C _ P1) as [_ [N _]]. congruence. Qed.

(** A Boolean interpretation of the symbols, read on names. *)
Definition named (code : pid -> sym) (m : sym -> list value -> bool) : preds := fun p vs => m (code (p, length vs)) vs.

Lemma decode_named ids code m s vs : code_ok ids code ->
  (exists p, In (p, length vs) ids /\ s = code (p, length vs)) ->
  (decode ids code (named code m) s vs <-> m s vs = true).
Proof.
  intros C [p [H1 ->]]. unfold decode, named. split.
  - intros [q [Q1 [Q2 Q3]]]. rewrite Q2. exact Q3.
  - intros H. exists p. auto.
Qed.

Lemma named_model ids code m cs cs' : code_ok ids code -> omap (strip_clause ids code) cs = Some cs' ->
  cmodel cs' (fun s vs => m s vs = true) -> m exit [] = false ->
  forall c r, In c cs -> clause_true (named code m) r c.
Proof.
  intros C E HM HX. apply (decode_model ids code (named code m) cs cs' C E). intros c' r Hc' Hb Hf.
  assert (Dm : forall s vs, decode ids code (named code m) s vs -> m s vs = true).
  { intros s vs [p [_ [-> H]]]. exact H. }
  assert (Hm := HM c' r Hc' (fun a Ha => Dm _ _ (Hb a Ha)) Hf). cbn beta in Hm.
  apply omap_some in E.
  assert (Hs : In (Some c') (map (strip_clause ids code) cs)) by (rewrite E; apply in_map, Hc').
  apply in_map_iff in Hs as [c [Hs _]]. unfold strip_clause in Hs.
  destruct (match p_head c with Some h => strip_atom ids code h | None => Some (mkAtom exit []) end) as [h|] eqn:EH; [|discriminate].
  destruct (strip (p_fla c)) as [f|]; [|discriminate]. destruct (omap (strip_atom ids code) (p_body c)) as [b|]; [|discriminate].
  injection Hs as <-. cbn [chead] in *. destruct (p_head c) as [t|].
  - apply strip_atom_spec in EH as [p [l [_ [Hin [EA V]]]]]. apply (decode_named ids code m _ _ C); [|exact Hm].
    exists p. rewrite (V (named code m) r), map_length. auto.
  - injection EH as <-. cbn in Hm. congruence.
Qed.
