(** * C79: which front end and which logic the program chooses. *)
From Coq Require Import List String Ascii Bool Lia.
Import ListNotations.
From Verif Require Import MainModel.
Open Scope string_scope.
Open Scope list_scope.

(** ** Specification *)
(** A name occurs in the sort of an argument: as the sort itself, or as a child of an application. *)
Definition arg_mentions (n : string) (s : ssort) : Prop := s = SName n \/ exists l, s = SApp l /\ In (SName n) l.
(** A command mentions a sort: a declaration in its arguments, an assertion in its quantified variables. *)
Definition mentions (n : string) (c : mcmd) : Prop :=
  match c with
  | MDeclare args => exists s, In s args /\ arg_mentions n s
  | MAssert (Some vs) => In (SName n) vs
  | _ => False
  end.
Definition array_arg (c : mcmd) : Prop := exists args l, c = MDeclare args /\ In (SApp l) args /\ In (SName "Array") l.
Definition arith (c : mcmd) : Prop := mentions "Int" c \/ mentions "Real" c.
(** The commands that are taken into account: up to the first assertion that comes after an integer or a real. *)
Definition considered (cs pre : list mcmd) : Prop :=
  exists post, cs = pre ++ post /\
    (forall a v b, pre = a ++ MAssert v :: b -> Forall (fun c => ~ arith c) a) /\
    (post = [] \/ exists v post', post = MAssert v :: post' /\ Exists arith pre).
(** The logic for what occurs in them. *)
Definition logic_for (pre : list mcmd) (l : string) : Prop :=
  (Exists (mentions "Real") pre -> Exists (mentions "Int") pre -> l = "") /\
  (Exists (mentions "Real") pre -> ~ Exists (mentions "Int") pre -> Exists array_arg pre -> l = "QF_ALRA") /\
  (Exists (mentions "Real") pre -> ~ Exists (mentions "Int") pre -> ~ Exists array_arg pre -> l = "QF_LRA") /\
  (~ Exists (mentions "Real") pre -> Exists array_arg pre -> l = "QF_ALIA") /\
  (~ Exists (mentions "Real") pre -> ~ Exists array_arg pre -> l = "QF_LIA").

(** ** Proofs *)
Definition eqs (n : string) (s : ssort) : bool := match s with SName m => String.eqb m n | SApp _ => false end.
Definition arg_b (n : string) (s : ssort) : bool := match s with SName m => String.eqb m n | SApp l => existsb (eqs n) l end.
Lemma eqs_spec n s : eqs n s = true <-> s = SName n.
Proof. destruct s as [m|l]; cbn; [rewrite String.eqb_eq; split; congruence|split; discriminate]. Qed.
Lemma existsb_eqs n l : existsb (eqs n) l = true <-> In (SName n) l.
Proof. rewrite existsb_exists. split; [intros [s [H E]]; apply eqs_spec in E as ->; exact H|intros H; exists (SName n); split; [exact H|apply eqs_spec; reflexivity]]. Qed.
Lemma arg_spec n s : arg_b n s = true <-> arg_mentions n s.
Proof.
  unfold arg_mentions. destruct s as [m|l]; cbn [arg_b].
  - rewrite String.eqb_eq. split; [left; congruence|intros [E|[l [E _]]]; congruence].
  - rewrite existsb_eqs. split; [eauto|intros [E|[l' [E H]]]; congruence].
Qed.
Definition arr_b (s : ssort) : bool := match s with SName _ => false | SApp l => existsb (eqs "Array") l end.
Ltac fl := apply (f_equal3 mkD); cbn [d_reals d_ints d_arrays]; rewrite ?orb_assoc, ?orb_false_r; reflexivity.
Lemma check_children l d : fold_left check_child l d = mkD (d_reals d || existsb (eqs "Real") l) (d_ints d || existsb (eqs "Int") l) (d_arrays d || existsb (eqs "Array") l).
Proof.
  revert d. induction l as [|s l IH]; intros d; cbn [fold_left existsb]; [rewrite !orb_false_r; destruct d; reflexivity|].
  rewrite IH. destruct s as [m|k]; cbn [check_child check_sort eqs d_reals d_ints d_arrays orb]; [rewrite !orb_assoc|]; reflexivity.
Qed.
Lemma check_args l d : fold_left check_arg l d = mkD (d_reals d || existsb (arg_b "Real") l) (d_ints d || existsb (arg_b "Int") l) (d_arrays d || existsb arr_b l).
Proof.
  revert d. induction l as [|s l IH]; intros d; cbn [fold_left existsb]; [rewrite !orb_false_r; destruct d; reflexivity|].
  rewrite IH. destruct s as [m|k]; cbn [check_arg check_sort arg_b arr_b]; [|rewrite check_children]; cbn [d_reals d_ints d_arrays orb]; rewrite !orb_assoc; reflexivity.
Qed.
Lemma check_vars l d : fold_left check_sort l d = mkD (d_reals d || existsb (eqs "Real") l) (d_ints d || existsb (eqs "Int") l) (d_arrays d).
Proof.
  revert d. induction l as [|s l IH]; intros d; cbn [fold_left existsb]; [rewrite !orb_false_r; destruct d; reflexivity|].
  rewrite IH. destruct s as [m|k]; cbn [check_sort eqs d_reals d_ints d_arrays orb]; [rewrite !orb_assoc|]; reflexivity.
Qed.
Definition ment_b (n : string) (c : mcmd) : bool := match c with MDeclare l => existsb (arg_b n) l | MAssert (Some l) => existsb (eqs n) l | _ => false end.
Definition carr_b (c : mcmd) : bool := match c with MDeclare l => existsb arr_b l | _ => false end.
Lemma ment_spec n c : ment_b n c = true <-> mentions n c.
Proof.
  destruct c as [l|[l|]|]; cbn [ment_b mentions]; [|apply existsb_eqs|split; [discriminate|intros []]..].
  rewrite existsb_exists. split; intros [s [H E]]; exists s; (split; [exact H|]); apply arg_spec, E.
Qed.
Lemma carr_spec c : carr_b c = true <-> array_arg c.
Proof.
  unfold array_arg. destruct c as [l|v|]; cbn [carr_b]; [|split; [discriminate|intros [a [k [E _]]]; discriminate]..].
  rewrite existsb_exists. split.
  - intros [s [H E]]. destruct s as [m|k]; [discriminate|]. apply existsb_eqs in E. eauto 6.
  - intros [a [k [E [H1 H2]]]]. injection E as ->. exists (SApp k). split; [exact H1|]. apply existsb_eqs, H2.
Qed.
Lemma exb {A} (p : A -> bool) (P : A -> Prop) l : (forall x, p x = true <-> P x) -> (existsb p l = true <-> Exists P l).
Proof. intros H. rewrite existsb_exists, Exists_exists. split; intros [x [Hx E]]; exists x; (split; [exact Hx|]); apply H, E. Qed.
(** The flags after the commands [cs]. *)
Definition flags (cs : list mcmd) : dflags := mkD (existsb (ment_b "Real") cs) (existsb (ment_b "Int") cs) (existsb carr_b cs).
Lemma flags_snoc cs c : flags (cs ++ [c]) = mkD (d_reals (flags cs) || ment_b "Real" c) (d_ints (flags cs) || ment_b "Int" c) (d_arrays (flags cs) || carr_b c).
Proof. unfold flags. rewrite !existsb_app. cbn [existsb d_reals d_ints d_arrays]. rewrite !orb_false_r. reflexivity. Qed.
Lemma decide_ok pre : logic_for pre (decide (flags pre)).
Proof.
  pose proof (exb _ _ pre (ment_spec "Real")) as R. pose proof (exb _ _ pre (ment_spec "Int")) as I. pose proof (exb _ _ pre carr_spec) as A.
  unfold logic_for. rewrite <- R, <- I, <- A. unfold flags, decide. cbn [d_reals d_ints d_arrays]. destruct (existsb (ment_b "Real") pre), (existsb (ment_b "Int") pre), (existsb carr_b pre); repeat split; try reflexivity; congruence.
Qed.
Lemma loop_ok cs : forall pre, (forall a v b, pre = a ++ MAssert v :: b -> Forall (fun c => ~ arith c) a) ->
  exists pre', (exists mid, pre' = pre ++ mid) /\ considered (pre ++ cs) pre' /\ logic_for pre' (detect_loop (flags pre) cs).
Proof.
  assert (Ar : forall pre, (d_ints (flags pre) || d_reals (flags pre) = true <-> Exists arith pre)).
  { intros pre. unfold flags. cbn [d_ints d_reals]. rewrite orb_true_iff, (exb _ _ pre (ment_spec "Real")), (exb _ _ pre (ment_spec "Int")), !Exists_exists. unfold arith.
    split; [intros [[c [H E]]|[c [H E]]]; exists c; auto|intros [c [H [E|E]]]; [left|right]; eauto]. }
  induction cs as [|c cs IH]; intros pre Hp.
  - exists pre. split; [exists []; symmetry; apply app_nil_r|]. split; [exists []; auto|apply decide_ok].
  - assert (Step : (forall a v b, pre ++ [c] = a ++ MAssert v :: b -> Forall (fun c => ~ arith c) a) -> detect_loop (flags pre) (c :: cs) = detect_loop (flags (pre ++ [c])) cs ->
       exists pre', (exists mid, pre' = pre ++ mid) /\ considered (pre ++ c :: cs) pre' /\ logic_for pre' (detect_loop (flags pre) (c :: cs))).
    { intros H E. destruct (IH (pre ++ [c]) H) as [pre' [[mid Em] [C L]]]. exists pre'. split; [exists (c :: mid); rewrite Em, <- app_assoc; reflexivity|]. split; [rewrite <- app_assoc in C; exact C|]. rewrite E. exact L. }
    assert (Snoc : (forall v, c <> MAssert v) \/ Forall (fun c => ~ arith c) pre -> forall a v b, pre ++ [c] = a ++ MAssert v :: b -> Forall (fun c => ~ arith c) a).
    { intros Hc a v b E. destruct b as [|x b _] using rev_ind.
      - apply app_inj_tail in E as [-> E]. destruct Hc as [Hc|Hc]; [destruct (Hc v E)|exact Hc].
      - rewrite app_comm_cons, app_assoc in E. apply app_inj_tail in E as [-> _]. apply (Hp a v b eq_refl). }
    destruct c as [args|vars|].
    + apply Step; [apply Snoc; left; discriminate|]. cbn [detect_loop]. rewrite check_args, flags_snoc. reflexivity.
    + cbn [detect_loop] in *. destruct (d_ints (flags pre) || d_reals (flags pre)) eqn:D.
      * exists pre. split; [exists []; symmetry; apply app_nil_r|]. split; [|apply decide_ok]. exists (MAssert vars :: cs). split; [reflexivity|]. split; [exact Hp|]. right. exists vars, cs. split; [reflexivity|]. apply Ar, D.
      * apply Step; [apply Snoc; right; apply Forall_Exists_neg; intros X; apply Ar in X; congruence|]. rewrite flags_snoc. destruct vars as [l|]; [rewrite check_vars|]; cbn [ment_b carr_b]; rewrite !orb_false_r; destruct (flags pre); reflexivity.
    + apply Step; [apply Snoc; left; discriminate|]. cbn [detect_loop]. rewrite flags_snoc. cbn [ment_b carr_b]. rewrite !orb_false_r. destruct (flags pre); reflexivity.
Qed.
(** The logic found for a script. *)
Theorem C79_detect : forall cs, exists pre, considered cs pre /\ logic_for pre (detect_logic cs).
Proof. intros cs. destruct (loop_ok cs []) as [pre [_ [C L]]]; [intros [|] v b E; discriminate E|]. exists pre. auto. Qed.
Print Assumptions C79_detect.
Lemma app_split {A} (x1 : list A) : forall x2 y1 y2, x1 ++ x2 = y1 ++ y2 -> exists l, (x1 = y1 ++ l /\ y2 = l ++ x2) \/ (y1 = x1 ++ l /\ x2 = l ++ y2).
Proof.
  induction x1 as [|a x1 IH]; intros x2 [|b y1] y2 E; cbn [app] in *.
  - exists []. auto.
  - exists (b :: y1). auto.
  - exists (a :: x1). auto.
  - injection E as -> E. destruct (IH _ _ _ E) as [l [[-> ->]|[-> ->]]]; exists l; auto.
Qed.
(** If all declarations come before the first assertion and mention an integer or a real, all declarations count and only they. *)
Theorem C79_declared_first : forall ds v cs, Forall (fun c => forall w, c <> MAssert w) ds -> Exists arith ds -> logic_for ds (detect_logic (ds ++ MAssert v :: cs)).
Proof.
  intros ds v cs F X. destruct (C79_detect (ds ++ MAssert v :: cs)) as [pre [[post [E [H1 H2]]] L]]. enough (Q : pre = ds) by (rewrite Q in L; exact L).
  assert (N : forall l, pre <> ds ++ MAssert v :: l).
  { intros l Q. pose proof (H1 ds v l Q) as N. apply Exists_exists in X as [c [Hc X]]. rewrite Forall_forall in N. destruct (N c Hc X). }
  destruct H2 as [->|[w [post' [-> H2]]]]; [rewrite app_nil_r in E; destruct (N cs); symmetry; exact E|].
  destruct (app_split _ _ _ _ E) as [l [[A B]|[A B]]].
  - destruct l as [|c l]; [rewrite app_nil_r in A; symmetry; exact A|]. cbn [app] in B. injection B as <- _. exfalso. rewrite Forall_forall in F. apply (F (MAssert w)) with (w := w); [|reflexivity]. rewrite A. apply in_app_iff. right. left. reflexivity.
  - destruct l as [|c l]; [rewrite app_nil_r in A; exact A|]. cbn [app] in B. injection B as <- _. destruct (N l A).
Qed.
Print Assumptions C79_declared_first.

(** ** The program *)
Lemma ext_suffix s e : extension s = Some e -> exists a, s = (a ++ e)%string.
Proof.
  induction s as [|c s IH]; cbn [extension]; [discriminate|]. destruct (extension s) as [e'|]; [intros E; injection E as ->; destruct (IH eq_refl) as [a ->]; exists (String c a); reflexivity|].
  destruct (Ascii.eqb c "."); [|discriminate]. intros E. injection E as <-. exists "". reflexivity.
Qed.
Lemma ext_app a e : extension e = Some e -> extension (a ++ e) = Some e.
Proof. intros E. induction a as [|c a IH]; cbn [append extension]; [exact E|]. rewrite IH. reflexivity. Qed.
Definition ends_with (f e : string) : Prop := exists a, f = (a ++ e)%string.
Lemma ext_iff f e : extension e = Some e -> (extension f = Some e <-> ends_with f e).
Proof. intros E. split; [apply ext_suffix|intros [a ->]; apply ext_app, E]. Qed.
(** Each front end is chosen exactly for the files with its extension; the Horn solver also needs a script that is parsed, and one of three
    logics, given by the option or else detected. *)
Theorem C79_main :
  forall file logic readable script,
    let f := match file with Some f => f | None => "" end in
    let r := golem_main file logic readable script in
    (forall x, r = MTermination x <-> x = f /\ readable = true /\ ends_with f ".ari") /\ (forall x, r = MVmt x <-> x = f /\ readable = true /\ ends_with f ".vmt") /\ (forall l, r = MSafety l <-> readable = true /\ ends_with f ".smt2" /\ In l ["QF_LRA"; "QF_LIA"; "QF_ALIA"] /\ exists cs, script = Some cs /\ (logic = Some l \/ (logic = None /\ l = detect_logic cs))).
Proof.
  intros file logic readable script f r. unfold r, golem_main. fold f. clearbody f. clear r.
  pose proof (ext_iff f ".ari" eq_refl) as A. pose proof (ext_iff f ".vmt" eq_refl) as V. pose proof (ext_iff f ".smt2" eq_refl) as S. setoid_rewrite <- A. setoid_rewrite <- V. setoid_rewrite <- S. clear A V S.
  destruct (String.eqb_spec f "") as [->|_].
  { cbn [extension]. split; [|split]; intros x; (split; [discriminate|]); [intros [_ [_ X]]|intros [_ [_ X]]|intros [_ [X _]]]; discriminate X. }
  destruct readable; cbn [negb]; [|split; [|split]; intros x; (split; [discriminate|]); [intros [_ [X _]]|intros [_ [X _]]|intros [X _]]; discriminate X].
  destruct (extension f) as [e|]; [|split; [|split]; intros x; (split; [discriminate|]); [intros [_ [_ X]]|intros [_ [_ X]]|intros [_ [X _]]]; discriminate X].
  destruct (String.eqb_spec e ".ari") as [->|Na].
  { split; [|split]; intros x; (split; [intros E; try discriminate E; injection E as <-; auto|]); [intros [-> _]; reflexivity|intros [_ [_ X]]; discriminate X|intros [_ [X _]]; discriminate X]. }
  destruct (String.eqb_spec e ".vmt") as [->|Nv].
  { split; [|split]; intros x; (split; [intros E; try discriminate E; injection E as <-; auto|]); [intros [_ [_ X]]; discriminate X|intros [-> _]; reflexivity|intros [_ [X _]]; discriminate X]. }
  destruct (String.eqb_spec e ".smt2") as [->|Ns].
  2:{ split; [|split]; intros x; (split; [discriminate|]); [intros [_ [_ X]]|intros [_ [_ X]]|intros [_ [X _]]]; injection X as X; congruence. }
  assert (K : forall l, known_logic l = true <-> In l ["QF_LRA"; "QF_LIA"; "QF_ALIA"]) by (intros l; unfold known_logic; rewrite !orb_true_iff, !String.eqb_eq; cbn [In]; intuition).
  destruct script as [cs|].
  2:{ split; [|split]; intros x; (split; [discriminate|]); [intros [_ [_ X]]; discriminate X|intros [_ [_ X]]; discriminate X|intros [_ [_ [_ [cs [X _]]]]]; discriminate X]. }
  set (l0 := match logic with Some l => l | None => detect_logic cs end).
  assert (L : forall l, (logic = Some l \/ logic = None /\ l = detect_logic cs) <-> l = l0) by (intros l; unfold l0; destruct logic; split; [intros [E|[E _]]; congruence|intros ->; auto|intros [E|[_ E]]; congruence|intros ->; auto]).
  split; [|split]; intros x.
  - split; [destruct (known_logic l0); discriminate|intros [_ [_ X]]; discriminate X].
  - split; [destruct (known_logic l0); discriminate|intros [_ [_ X]]; discriminate X].
  - split.
    + destruct (known_logic l0) eqn:Kl; [|discriminate]. intros E. injection E as <-. split; [reflexivity|]. split; [reflexivity|]. split; [apply K, Kl|]. exists cs. split; [reflexivity|]. apply L. reflexivity.
    + intros [_ [_ [Hl [cs' [E Q]]]]]. injection E as <-. apply L in Q. subst x. apply K in Hl. rewrite Hl. reflexivity.
Qed.
Print Assumptions C79_main.
(** Arrays of reals are detected but never accepted, and a declaration after the first assertion is not looked at: the script is then
    read in a logic without its sort. *)
Theorem C79_detection_refuted :
  (forall file readable cs l, In (MDeclare [SApp [SName "Array"; SName "Real"; SName "Real"]]) cs -> detect_logic cs = "QF_ALRA" -> golem_main file None readable (Some cs) <> MSafety l) /\ (exists cs, detect_logic cs = "QF_ALRA") /\ (exists cs, In (MDeclare [SName "Real"]) cs /\ golem_main (Some "a.smt2") None true (Some cs) = MSafety "QF_LIA").
Proof.
  split; [|split].
  - intros file readable cs l _ D E. apply (proj2 (proj2 (C79_main file None readable (Some cs)))) in E. destruct E as [_ [_ [H [cs' [X [Y|[_ Y]]]]]]]; [discriminate Y|]. injection X as <-. rewrite D in Y. subst l. cbn [In] in H. intuition discriminate.
  - exists [MDeclare [SApp [SName "Array"; SName "Real"; SName "Real"]]]. reflexivity.
  - exists [MDeclare [SName "Int"]; MAssert None; MDeclare [SName "Real"]]. split; [right; right; left; reflexivity|reflexivity].
Qed.
Print Assumptions C79_detection_refuted.
Module ExMain.
Definition cs := [MOther; MDeclare [SName "Int"; SApp [SName "Array"; SName "Int"; SName "Int"]]; MDeclare [SName "Bool"]; MAssert (Some [SName "Int"]); MOther].
Example C79_nonvacuous :
  Forall (fun c => forall w, c <> MAssert w) (firstn 3 cs) /\ Exists arith (firstn 3 cs) /\ detect_logic cs = "QF_ALIA" /\ golem_main (Some "dir.d/x.smt2") None true (Some cs) = MSafety "QF_ALIA" /\ golem_main (Some "x.ari") None true None = MTermination "x.ari" /\ golem_main (Some "x.smt2.gz") None true (Some cs) = MError /\ detect_logic [MDeclare []; MAssert None; MAssert (Some [SName "Real"])] = "QF_LRA" /\ detect_logic [MDeclare [SName "Int"; SName "Real"]] = "".
Proof.
  split; [repeat constructor; intros w; discriminate|]. split; [|repeat split; reflexivity].
  apply Exists_cons_tl, Exists_cons_hd. left. exists (SName "Int"). split; [left; reflexivity|left; reflexivity].
Qed.
End ExMain.
