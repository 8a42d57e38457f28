(** * C74: safety problems in VMT files.
    Specification: VmtSpec.v (what a VMT file means: [vmt_file], [unsafe]), ChcSystem.v ([cderivable]). *)
From Coq Require Import Qcanon.
From Verif Require Import Syntax Solver Graph ChcSystem SExprModel Names GraphSem NormModel NormProofs NormRun PropNorm ItsModel ItsSpec ItsProofs VmtModel VmtSpec VmtProofs.
From Coq Require Import List.
Open Scope string_scope.
Open Scope list_scope.
Open Scope nat_scope.

Lemma sort_named_word t : sort_named t = word_sort t.
Proof. reflexivity. Qed.
Lemma nodup_left {A} (l m : list A) : NoDup (l ++ m) -> NoDup l.
Proof. induction l as [|x l IH]; [constructor|]. cbn. intros H. inversion H as [|? ? H1 H2]; subst. constructor; [|auto]. intros X. apply H1, in_or_app. auto. Qed.
Lemma nodup_right {A} (l m : list A) : NoDup (l ++ m) -> NoDup m.
Proof. induction l as [|x l IH]; [auto|]. cbn. intros H. inversion H; subst. auto. Qed.
Lemma declare_ok l : Forall (fun p => word_sort (snd p) <> None) l -> exists vs, declare l = Some vs /\ map fst vs = map fst l /\
  (forall n, find_name vs n = match find (fun p => String.eqb (fst p) n) l with Some (_, t) => option_map (vmt_var n) (word_sort t) | None => None end) /\
  (forall n v, In (n, v) vs -> exists s, v = vmt_var n s).
Proof.
  unfold declare. induction 1 as [|[n t] l H _ [vs [E [M [F V]]]]]; [exists []; repeat split; auto; intros ? ? []|].
  cbn [mapo fst snd]. fold (mapo (A := string * string) (B := string * var)). rewrite sort_named_word. cbn [snd] in H. destruct (word_sort t) as [s|] eqn:W; [|congruence]. cbn [option_map].
  change ((fix go (l0 : list (string * string)) : option (list (string * var)) := _) l) with (mapo (fun p => option_map (fun s => (fst p, vmt_var (fst p) s)) (sort_named (snd p))) l). rewrite E.
  exists ((n, vmt_var n s) :: vs). split; [reflexivity|]. split; [cbn; congruence|]. split.
  - intros m. unfold find_name in *. cbn [find fst]. destruct (String.eqb_spec n m) as [->|X]; [rewrite W; reflexivity|apply F].
  - intros m v [X|X]; [injection X as <- <-; eauto|eauto].
Qed.
Lemma after_in G ds d : NoDup (map d_name ds) -> In d ds -> after G ds (d_name d) = word_sort (d_type d).
Proof.
  revert G. unfold after. assert (K : forall ds G n, ~ In n (map d_name ds) -> fold_left (fun G d n => if String.eqb n (d_name d) then word_sort (d_type d) else G n) ds G n = G n).
  { induction ds0 as [|d0 ds0 IH]; intros G n N; [reflexivity|]. cbn [fold_left map] in *. rewrite IH by (intros X; apply N; right; exact X). destruct (String.eqb_spec n (d_name d0)) as [->|]; [destruct N; left; reflexivity|reflexivity]. }
  induction ds as [|d0 ds IH]; intros G N H; [destruct H|]. cbn [map] in N. inversion N as [|? ? N1 N2]; subst. cbn [fold_left]. destruct H as [->|H]; [|apply IH; auto].
  rewrite K by exact N1. rewrite String.eqb_refl. reflexivity.
Qed.

Section File.
Variable l_const : bool -> string -> option term.
Variable l_mk : bool -> vop -> list term -> option term.
Hypothesis L : forall real, vmt_logic_ok real (l_const real) (l_mk real).
Variable file : list sexpr.
Hypothesis V : vmt_file file.
Let ds := definitions file.
Let real := over_reals file.

(** The values of the names for the values of the variables of the terms. *)
Definition name_values (r : valuation) : venv := fun n => match declared_sort file n with Some s => coerce s (r (vmt_var n s)) | None => VBool true end.
Definition same_values (r : valuation) (e : venv) : Prop := forall n s, declared_sort file n = Some s -> e n = coerce s (r (vmt_var n s)).
Lemma name_values_same r : same_values r (name_values r).
Proof. intros n s H. unfold name_values. rewrite H. reflexivity. Qed.
Lemma declared_nodup : NoDup (map fst (declared file)).
Proof. exact (nodup_left _ _ (vf_distinct _ V)). Qed.
Lemma declared_sort_in x t : In (x, t) (declared file) -> declared_sort file x = word_sort t.
Proof.
  unfold declared_sort. pose proof declared_nodup as N. intros H. induction (declared file) as [|[n u] l IH]; [destruct H|]. cbn [map fst] in N. inversion N as [|? ? N1 N2]; subst. cbn [find fst].
  destruct H as [H|H]; [injection H as -> ->; rewrite String.eqb_refl; reflexivity|]. destruct (String.eqb_spec n x) as [->|X]; [|apply IH; auto]. destruct N1. apply in_map_iff. exists (x, t). auto.
Qed.
Lemma name_values_fits r : fits file (name_values r).
Proof. intros x t s H W. unfold name_values. rewrite (declared_sort_in x t H), W. apply coerce_sort. Qed.
Lemma fits_same e : fits file e -> same_values (fun v => e (vbase v)) e.
Proof.
  intros F n s H. unfold declared_sort in H. destruct (find _ (declared file)) as [[m t]|] eqn:E; [|discriminate]. apply find_some in E as [E1 E2]. apply String.eqb_eq in E2. cbn in E2. subst m.
  cbn [vbase vmt_var]. symmetry. apply coerce_id. exact (F n t s E1 H).
Qed.

Lemma native n s : declared_sort file n = Some s -> s <> foreign real.
Proof.
  intros H X. unfold declared_sort in H. destruct (find _ (declared file)) as [[m t]|] eqn:E; [|discriminate]. apply find_some in E as [E _].
  assert (T : In t (types file)) by (unfold types; apply in_or_app; left; apply in_map_iff; exists (m, t); auto).
  unfold word_sort in H. unfold real, over_reals in X. destruct (existsb (String.eqb "Int") (types file)) eqn:I; cbn [negb foreign] in X; subst s.
  - apply existsb_exists in I as [y [I1 I2]]. apply String.eqb_eq in I2. subst y. destruct (String.eqb_spec t "Int") as [|_]; [discriminate|]. destruct (String.eqb_spec t "Real") as [->|_]; [|destruct (String.eqb t "Bool"); discriminate].
    apply (vf_not_mixed _ V). auto.
  - destruct (String.eqb_spec t "Int") as [->|_]; [|destruct (String.eqb t "Real"); [discriminate|destruct (String.eqb t "Bool"); discriminate]].
    assert (Y : existsb (String.eqb "Int") (types file) = true) by (apply existsb_exists; exists "Int"; auto). congruence.
Qed.
(** The gatherer of the file. *)
Lemma parsed_facts g : parse_vmt l_const l_mk file = Some (real, g) ->
  exists vs di dt dp ti tt tp,
    (forall n, find_name vs n = option_map (vmt_var n) (declared_sort file n)) /\
    g_init g = Some ti /\ g_trans g = Some tt /\ g_inv g = [(0, tp)] /\ g_live g = [] /\
    filter (marked ":init") ds = [di] /\ filter (marked ":trans") ds = [dt] /\ filter (marked ":invar-property") ds = [dp] /\
    Forall2 (pair_of vs) (pairs file) (g_pairs g) /\
    (forall v, In v (map snd vs) -> exists n s, v = vmt_var n s) /\
    forall r e, same_values r e -> 
      (eval r ti = complete file e (d_name di) /\ sort_of (eval r ti) = SBool /\ incl (vars ti) (map snd vs)) /\
      (eval r tt = complete file e (d_name dt) /\ sort_of (eval r tt) = SBool /\ incl (vars tt) (map snd vs)) /\
      (eval r tp = complete file e (d_name dp) /\ sort_of (eval r tp) = SBool /\ incl (vars tp) (map snd vs)).
Proof.
  unfold parse_vmt. rewrite (gather_ok file (vf_commands _ V)). cbn [b_vars b_defs app].
  replace (map snd (declared file) ++ map vd_type (map vdef_of (definitions file))) with (types file) by (unfold types; rewrite map_map; reflexivity). rewrite (choose_ok file V). fold real.
  destruct (build_with (l_const real) (l_mk real) _) as [g'|] eqn:B; [|discriminate]. intros E. injection E as <-. unfold build_with in B. cbn [b_vars b_defs] in B.
  destruct (declare_ok (declared file) (declared_types file (vf_commands _ V))) as [vs [E1 [M [F VN]]]]. rewrite E1 in B. fold ds in B.
  set (g0 := mkG vs [] [] None None [] []) in *.
  assert (FN : forall n, find_name vs n = option_map (vmt_var n) (declared_sort file n)).
  { intros n. rewrite F. unfold declared_sort. destruct (find _ (declared file)) as [[? t]|]; reflexivity. }
  assert (N : NoDup (keys g0 ++ map d_name ds)) by (unfold keys, g0; cbn [g_vars g_defs map]; rewrite app_nil_r, M; exact (vf_distinct _ V)).
  assert (P : forall d x y, In d ds -> In (x, y) (next_pair d) -> find_name (g_vars g0) x <> None /\ find_name (g_vars g0) y <> None).
  { intros d x y Hd Hp. assert (X : In (x, y) (pairs file)) by (unfold pairs; apply in_concat; exists (next_pair d); split; [apply in_map; exact Hd|exact Hp]).
    destruct (vf_pairs _ V x y X) as [t [T1 T2]]. cbn [g_vars g0]. rewrite !FN, (declared_sort_in x t T1), (declared_sort_in y t T2).
    pose proof (declared_types file (vf_commands _ V)) as D. rewrite Forall_forall in D. specialize (D _ T1). cbn [snd] in D. destruct (word_sort t); [split; discriminate|congruence]. }
  destruct (defines_ok (l_const real) (l_mk real) ds g0 g' (vf_bodies _ V) N P B) as [V1 [[nd D1] [L1 [I1 [R1 [J1 [J2 [np [W1 W2]]]]]]]]].
  destruct (filter (marked ":init") ds) as [|di [|? ?]] eqn:Fi; pose proof (vf_init _ V) as Li; fold ds in Li; rewrite Fi in Li; try discriminate Li.
  destruct (filter (marked ":trans") ds) as [|dt [|? ?]] eqn:Ft; pose proof (vf_trans _ V) as Lt; fold ds in Lt; rewrite Ft in Lt; try discriminate Lt.
  destruct (filter (marked ":invar-property") ds) as [|dp [|? ?]] eqn:Fp; pose proof (vf_property _ V) as Lp; fold ds in Lp; rewrite Fp in Lp; try discriminate Lp.
  destruct I1 as [_ I1]. destruct R1 as [_ R1]. rewrite Fi in I1. rewrite Ft in R1. destruct (I1 di eq_refl) as [ti [I2 I3]]. destruct (R1 dt eq_refl) as [tt [R2 R3]]. destruct (J2 dp eq_refl eq_refl) as [tp [P2 P3]].
  exists vs, di, dt, dp, ti, tt, tp. split; [exact FN|]. split; [exact I2|]. split; [exact R2|]. split; [exact P2|]. split; [exact L1|]. do 3 (split; [first [exact Fi|exact Ft|exact Fp|reflexivity]|]).
  split; [rewrite W1; exact W2|]. split.
  { intros v Hv. apply in_map_iff in Hv as [[n w] [<- Hn]]. destruct (VN n w Hn) as [s Hs]. exists n, s. exact Hs. }
  intros r e S. assert (A0 : agrees real (map snd vs) (declared_sort file) r e g0).
  { split.
    - intros n s H. exists (Var (vmt_var n s)). unfold lookup. cbn [g_vars g0]. rewrite FN, H. cbn [option_map]. split; [reflexivity|]. rewrite (S n s H). split; [reflexivity|]. split; [apply coerce_sort|].
      intros v [<-|[]]. assert (X : find_name vs n = Some (vmt_var n s)) by (rewrite FN, H; reflexivity). apply find_name_in in X. apply in_map_iff. exists (n, vmt_var n s). auto.
    - apply native.
    - cbn [g_vars g_defs g0 map]. rewrite app_nil_r, M. pose proof (vf_names _ V) as X. apply Forall_app in X. apply X. }
  pose proof (vf_names _ V) as X. apply Forall_app in X. destruct X as [_ XN].
  pose proof (defines_agrees real (l_const real) (l_mk real) (L real) (map snd vs) r ds _ e g0 g' A0 (vf_bodies _ V) N XN P B (vf_sorted _ V)) as A.
  fold (complete file e) in A. change (fold_left (extend real) ds e) with (complete file e) in A.
  assert (ND : NoDup (map d_name ds)) by (exact (nodup_right _ _ N)).
  assert (Q : forall key d t, In key [":init"; ":trans"; ":invar-property"] -> filter (marked key) ds = [d] -> lookup g' (d_name d) = Some t ->
    eval r t = complete file e (d_name d) /\ sort_of (eval r t) = SBool /\ incl (vars t) (map snd vs)).
  { intros key d t K Fk Lk. assert (Hd : In d (filter (marked key) ds)) by (rewrite Fk; left; reflexivity). apply filter_In in Hd as [Hd Mk].
    assert (T : d_type d = "Bool").
    { apply (vf_bool _ V d Hd). destruct K as [<-|[<-|[<-|[]]]]; rewrite Mk, ?orb_true_r; reflexivity. }
    destruct (ag_name _ _ _ _ _ _ A (d_name d) SBool) as [u [U1 [U2 [U3 U4]]]]; [rewrite (after_in _ ds d ND Hd), T; reflexivity|].
    rewrite Lk in U1. injection U1 as <-. rewrite U2. auto. }
  split; [apply (Q ":init"); cbn; auto|]. split; [apply (Q ":trans"); cbn; auto|apply (Q ":invar-property"); cbn; auto].
Qed.

(** ** The clauses *)
Definition state_sorts : list sort := map (fun p => match declared_sort file (fst p) with Some s => s | None => SBool end) (pairs file).
Definition vmt_sig (p : sym) : list sort := if Nat.eqb p vmt_pred then state_sorts else [].
Section Clauses.
Variable cs : list clause.
Hypothesis E : vmt_clauses l_const l_mk file = Some cs.

Lemma pair_states vs g : (forall n, find_name vs n = option_map (vmt_var n) (declared_sort file n)) -> Forall2 (pair_of vs) (pairs file) (g_pairs g) ->
  forall r e, same_values r e -> avals r (cur_atom g) = map e (map fst (pairs file)) /\ avals r (next_atom g) = map e (map snd (pairs file)).
Proof.
  intros FN W r e S. unfold avals, cur_atom, next_atom. cbn [aargs]. rewrite !map_map.
  induction W as [|p q ps qs [vx [X1 [X2 X3]]] _ [IH1 IH2]]; [split; reflexivity|]. cbn [map]. rewrite X2. rewrite FN in X1, X3.
  destruct (declared_sort file (fst p)) as [sx|] eqn:Dx; [|discriminate]. destruct (declared_sort file (snd p)) as [sy|] eqn:Dy; [|discriminate]. injection X1 as <-. injection X3 as <-.
  rewrite (S _ _ Dx), (S _ _ Dy). split; f_equal; assumption.
Qed.
Lemma pair_typed vs g : (forall n, find_name vs n = option_map (vmt_var n) (declared_sort file n)) -> Forall2 (pair_of vs) (pairs file) (g_pairs g) ->
  map typed (aargs (cur_atom g)) = map Some state_sorts /\ map typed (aargs (next_atom g)) = map Some state_sorts /\
  forall v, In v (concat (map vars (aargs (cur_atom g)))) \/ In v (concat (map vars (aargs (next_atom g)))) -> exists n s, v = vmt_var n s.
Proof.
  intros FN W. unfold cur_atom, next_atom, state_sorts. cbn [aargs]. rewrite !map_map.
  assert (VP : forall x y, In (x, y) (pairs file) -> exists t, In (x, t) (declared file) /\ In (y, t) (declared file)) by apply (vf_pairs _ V).
  induction W as [|p q ps qs [vx [X1 [X2 X3]]] W IH]; [split; [reflexivity|split; [reflexivity|intros v [[]|[]]]]|].
  destruct (IH (fun x y H => VP x y (or_intror H))) as [IH1 [IH2 IH3]]. cbn [map concat]. rewrite X2. rewrite FN in X1, X3.
  destruct (declared_sort file (fst p)) as [sx|] eqn:Dx; [|discriminate]. destruct (declared_sort file (snd p)) as [sy|] eqn:Dy; [|discriminate]. injection X1 as <-. injection X3 as X3.
  assert (sx = sy).
  { destruct p as [x y]. destruct (VP x y (or_introl eq_refl)) as [t [T1 T2]]. cbn [fst snd] in *. rewrite (declared_sort_in x t T1) in Dx. rewrite (declared_sort_in y t T2) in Dy. congruence. }
  subst sy. rewrite <- X3. cbn [typed vsort vmt_var vars app]. split; [f_equal; exact IH1|]. split; [f_equal; exact IH2|]. intros v [[H|H]|[H|H]]; eauto.
Qed.
Lemma clauses_facts : exists vs g di dt dp ti tt np,
    cs = [mkClause (cur_atom g) ti []; mkClause (next_atom g) tt [cur_atom g]; mkClause (mkAtom exit []) np [cur_atom g]] /\
    (forall n, find_name vs n = option_map (vmt_var n) (declared_sort file n)) /\
    Forall2 (pair_of vs) (pairs file) (g_pairs g) /\
    (forall v, In v (vars ti) \/ In v (vars tt) \/ In v (vars np) -> exists n s, v = vmt_var n s) /\
    filter (marked ":init") ds = [di] /\ filter (marked ":trans") ds = [dt] /\ filter (marked ":invar-property") ds = [dp] /\
    forall r e, same_values r e ->
      (holds r ti <-> complete file e (d_name di) = VBool true) /\ (holds r tt <-> complete file e (d_name dt) = VBool true) /\ (holds r np <-> complete file e (d_name dp) = VBool false).
Proof.
  unfold vmt_clauses in E. destruct (parse_vmt l_const l_mk file) as [[real' g]|] eqn:P; [|discriminate].
  assert (R : real' = real).
  { unfold parse_vmt in P. rewrite (gather_ok file (vf_commands _ V)) in P. cbn [b_vars b_defs app] in P.
    replace (map snd (declared file) ++ map vd_type (map vdef_of (definitions file))) with (types file) in P by (unfold types; rewrite map_map; reflexivity). rewrite (choose_ok file V) in P. fold real in P.
    destruct (build_with _ _ _); [|discriminate]. injection P as P _. congruence. }
  subst real'. destruct (parsed_facts g P) as [vs [di [dt [dp [ti [tt [tp [FN [I1 [R1 [J1 [L1 [Fi [Ft [Fp [W [VN SV]]]]]]]]]]]]]]]]].
  destruct (is_safety g); [|discriminate]. unfold vmt_chcs in E. rewrite I1, R1, J1 in E. cbn [find fst Nat.eqb] in E. destruct (l_mk real ONot [tp]) as [np|] eqn:NP; [|discriminate]. injection E as <-.
  exists vs, g, di, dt, dp, ti, tt, np. split; [reflexivity|]. split; [exact FN|]. split; [exact W|].
  assert (H : forall r t b v, sort_of (eval r t) = SBool -> eval r t = v -> (eval r t = VBool b <-> v = VBool b)) by (intros; subst; tauto).
  assert (HH : forall r t, sort_of (eval r t) = SBool -> (holds r t <-> eval r t = VBool true)).
  { intros r t St. unfold holds, holdsb. destruct (eval r t) as [b| |]; try discriminate St. cbn. split; [intros ->; reflexivity|intros X; injection X as X; exact X]. }
  split; [|repeat (split; [assumption|])].
  - intros v Hv. apply VN. destruct (SV (fun _ => VBool true) (name_values (fun _ => VBool true)) (name_values_same _)) as [[_ [_ A]] [[_ [_ B]] [_ [_ C]]]].
    destruct Hv as [Hv|[Hv|Hv]]; [apply A, Hv|apply B, Hv|]. apply (vl_vars _ _ _ (L real) _ _ _ NP) in Hv. cbn [map concat] in Hv. rewrite app_nil_r in Hv. apply C, Hv.
  - intros r e S. destruct (SV r e S) as [[A1 [A2 _]] [[B1 [B2 _]] [C1 [C2 _]]]]. rewrite (HH r ti A2), (HH r tt B2), A1, B1. split; [tauto|]. split; [tauto|].
    destruct (eval r tp) as [b| |] eqn:Et; try discriminate C2. assert (N : eval r np = VBool (negb b)).
    { apply (vl_mk _ _ _ (L real) _ _ _ _ _ NP); cbn [map]; rewrite Et; [repeat constructor; destruct real; discriminate|reflexivity]. }
    rewrite HH by (rewrite N; reflexivity). rewrite N, <- C1. destruct b; cbn; split; congruence.
Qed.
Lemma says_iff key d b e : filter (marked key) ds = [d] -> (says file key b e <-> complete file e (d_name d) = VBool b).
Proof.
  intros F. split.
  - intros [d' [H1 [H2 H3]]]. assert (X : In d' (filter (marked key) ds)) by (apply filter_In; auto). rewrite F in X. destruct X as [<-|[]]. exact H3.
  - intros H. assert (X : In d (filter (marked key) ds)) by (rewrite F; left; reflexivity). apply filter_In in X as [X1 X2]. exists d. auto.
Qed.
Lemma clauses_derive : forall p vs, cderivable cs p vs <-> (p = vmt_pred /\ reached file vs) \/ (p = exit /\ vs = [] /\ unsafe file).
Proof.
  destruct clauses_facts as [vs0 [g [di [dt [dp [ti [tt [np [-> [FN [W [_ [Fi [Ft [Fp SV]]]]]]]]]]]]]]]. intros p vs. split.
  - intros D. induction D as [c r Hc Hb IH Hf]. pose proof (name_values_same r) as S. destruct (SV r _ S) as [A1 [A2 A3]]. destruct (pair_states vs0 g FN W r _ S) as [B1 B2].
    assert (Ch : cbody c = [cur_atom g] -> reached file (map (name_values r) (map fst (pairs file)))).
    { intros X. rewrite X in IH. destruct (IH (cur_atom g) (or_introl eq_refl)) as [[_ Y]|[Y _]]; [|discriminate Y]. rewrite B1 in Y. exact Y. }
    destruct Hc as [<-|[<-|[<-|[]]]]; cbn [chead cfla cbody] in *.
    + left. split; [reflexivity|]. rewrite B1. apply r_init. exists (name_values r). split; [apply name_values_fits|]. split; [reflexivity|]. apply (says_iff _ di _ _ Fi), A1, Hf.
    + left. split; [reflexivity|]. rewrite B2. apply (r_move file (map (name_values r) (map fst (pairs file)))); [apply Ch; reflexivity|].
      exists (name_values r). split; [apply name_values_fits|]. split; [reflexivity|]. split; [reflexivity|]. apply (says_iff _ dt _ _ Ft), A2, Hf.
    + right. split; [reflexivity|]. split; [reflexivity|]. exists (map (name_values r) (map fst (pairs file))). split; [apply Ch; reflexivity|].
      exists (name_values r). split; [apply name_values_fits|]. split; [reflexivity|]. apply (says_iff _ dp _ _ Fp), A3, Hf.
  - assert (K : forall vs, reached file vs -> cderivable [mkClause (cur_atom g) ti []; mkClause (next_atom g) tt [cur_atom g]; mkClause (mkAtom exit []) np [cur_atom g]] vmt_pred vs).
    { intros ws Re. induction Re as [s [e [F [<- Sy]]]|s t Re IH [e [F [<- [<- Sy]]]]]; pose proof (fits_same e F) as S; destruct (SV _ e S) as [A1 [A2 _]]; destruct (pair_states vs0 g FN W _ e S) as [B1 B2].
      - rewrite <- B1. apply (cder _ (mkClause (cur_atom g) ti [])); [left; reflexivity|intros a []|]. apply A1. apply (says_iff _ di _ _ Fi), Sy.
      - rewrite <- B2. apply (cder _ (mkClause (next_atom g) tt [cur_atom g])); [right; left; reflexivity| |].
        + intros a [<-|[]]. rewrite B1. exact IH.
        + apply A2. apply (says_iff _ dt _ _ Ft), Sy. }
    intros [[-> Re]|[-> [-> [s [Re [e [F [<- Sy]]]]]]]]; [apply K, Re|].
    pose proof (fits_same e F) as S. destruct (SV _ e S) as [_ [_ A3]]. destruct (pair_states vs0 g FN W _ e S) as [B1 _].
    change (cderivable [mkClause (cur_atom g) ti []; mkClause (next_atom g) tt [cur_atom g]; mkClause (mkAtom exit []) np [cur_atom g]] exit (avals (fun v => e (vbase v)) (mkAtom exit []))).
    apply (cder _ (mkClause (mkAtom exit []) np [cur_atom g])); [right; right; left; reflexivity| |].
    + intros a [<-|[]]. rewrite B1. apply K, Re.
    + apply A3. apply (says_iff _ dp _ _ Fp), Sy.
Qed.
Lemma vmt_clause_ok c : In c cs -> clause_ok vmt_sig c.
Proof.
  destruct clauses_facts as [vs0 [g [di [dt [dp [ti [tt [np [-> [FN [W [VN _]]]]]]]]]]]]. destruct (pair_typed vs0 g FN W) as [T1 [T2 T3]].
  assert (BF : forall v, (exists n s, v = vmt_var n s) -> ~ reserved v) by (intros v [n [s ->]] [m [so [X|[i X]]]]; discriminate X).
  intros [<-|[<-|[<-|[]]]]; split; cbn [chead cbody cfla clause_vars].
  - intros a [<-|[]]. exact T1.
  - discriminate.
  - intros a [].
  - intros v Hv. apply BF. unfold clause_vars in Hv. cbn [chead cbody cfla map concat] in Hv. rewrite app_nil_r in Hv. apply in_app_iff in Hv as [Hv|Hv]; auto.
  - intros a [<-|[<-|[]]]; [exact T2|exact T1].
  - discriminate.
  - intros a [<-|[]]. split; discriminate.
  - intros v Hv. apply BF. unfold clause_vars in Hv. cbn [chead cbody cfla map concat] in Hv. rewrite app_nil_r, !in_app_iff in Hv. destruct Hv as [Hv|[Hv|Hv]]; auto.
  - intros a [<-|[<-|[]]]; [reflexivity|exact T1].
  - discriminate.
  - intros a [<-|[]]. split; discriminate.
  - intros v Hv. apply BF. unfold clause_vars in Hv. cbn [chead cbody cfla map concat aargs] in Hv. rewrite app_nil_r in Hv. apply in_app_iff in Hv as [Hv|Hv]; auto.
Qed.
End Clauses.
End File.

(** C74.  The clauses made from a well-formed file derive [false] iff the file describes an unsafe system. *)
Theorem C74_vmt :
  forall l_const l_mk file cs, (forall real, vmt_logic_ok real (l_const real) (l_mk real)) -> vmt_file file -> vmt_clauses l_const l_mk file = Some cs ->
    (cderivable cs exit [] <-> unsafe file) /\ exists sig, sig entry = [] /\ sig exit = [] /\ forall c, In c cs -> clause_ok sig c.
Proof.
  intros l_const l_mk file cs L V E. split.
  - rewrite (clauses_derive l_const l_mk L file V cs E). split; [intros [[X _]|[_ [_ U]]]; [discriminate X|exact U]|auto].
  - exists (vmt_sig file). split; [reflexivity|]. split; [reflexivity|]. apply (vmt_clause_ok l_const l_mk L file V cs E).
Qed.
Print Assumptions C74_vmt.
(** Well-formed files are accepted if the constructors of OpenSMT succeed. *)
Theorem C74_accepts :
  forall l_const l_mk file, (forall real, vmt_logic_ok real (l_const real) (l_mk real)) ->
    (forall real s z, numeral s = Some z -> l_const real s <> None) -> (forall real o ts, l_mk real o ts <> None) -> vmt_file file ->
    exists cs, vmt_clauses l_const l_mk file = Some cs.
Proof.
  intros l_const l_mk file L TC TM V. set (real := over_reals file).
  assert (P : exists g, parse_vmt l_const l_mk file = Some (real, g)).
  { unfold parse_vmt. rewrite (gather_ok file (vf_commands _ V)). cbn [b_vars b_defs app].
    replace (map snd (declared file) ++ map vd_type (map vdef_of (definitions file))) with (types file) by (unfold types; rewrite map_map; reflexivity). rewrite (choose_ok file V). fold real.
    unfold build_with. cbn [b_vars b_defs]. destruct (declare_ok (declared file) (declared_types file (vf_commands _ V))) as [vs [E1 [M [F VN]]]]. rewrite E1.
    set (g0 := mkG vs [] [] None None [] []).
    assert (FN : forall n, find_name vs n = option_map (vmt_var n) (declared_sort file n)).
    { intros n. rewrite F. unfold declared_sort. destruct (find _ (declared file)) as [[? t]|]; reflexivity. }
    assert (N : NoDup (keys g0 ++ map d_name (definitions file))) by (unfold keys, g0; cbn [g_vars g_defs map]; rewrite app_nil_r, M; exact (vf_distinct _ V)).
    assert (P : forall d x y, In d (definitions file) -> In (x, y) (next_pair d) -> find_name (g_vars g0) x <> None /\ find_name (g_vars g0) y <> None).
    { intros d x y Hd Hp. assert (X : In (x, y) (pairs file)) by (unfold pairs; apply in_concat; exists (next_pair d); split; [apply in_map; exact Hd|exact Hp]).
      destruct (vf_pairs _ V x y X) as [t [T1 T2]]. cbn [g_vars g0]. rewrite !FN, (declared_sort_in file V x t T1), (declared_sort_in file V y t T2).
      pose proof (declared_types file (vf_commands _ V)) as D. rewrite Forall_forall in D. specialize (D _ T1). cbn [snd] in D. destruct (word_sort t); [split; discriminate|congruence]. }
    pose proof (vf_names _ V) as X. apply Forall_app in X. destruct X as [XV XN].
    destruct (defines_total real (l_const real) (l_mk real) (L real) (TC real) (TM real) (map snd vs) (fun _ => VBool true) (definitions file) (declared_sort file) (name_values file (fun _ => VBool true)) g0) as [g E]; auto.
    - split.
      + intros n s H. exists (Var (vmt_var n s)). unfold lookup. cbn [g_vars g0]. rewrite FN, H. cbn [option_map]. split; [reflexivity|]. rewrite (name_values_same file _ n s H). split; [reflexivity|]. split; [apply coerce_sort|].
        intros v [<-|[]]. assert (Y : find_name vs n = Some (vmt_var n s)) by (rewrite FN, H; reflexivity). apply find_name_in in Y. apply in_map_iff. exists (n, vmt_var n s). auto.
      + apply (native file V).
      + cbn [g_vars g_defs g0 map]. rewrite app_nil_r, M. exact XV.
    - apply (vf_bodies _ V).
    - apply (vf_sorted _ V).
    - exists g. fold vdef_of. rewrite E. reflexivity. }
  destruct P as [g P]. destruct (parsed_facts l_const l_mk L file V g P) as [vs [di [dt [dp [ti [tt [tp [FN [I1 [R1 [J1 [L1 _]]]]]]]]]]]].
  unfold vmt_clauses. rewrite P. unfold is_safety. rewrite J1, L1. cbn [length Nat.eqb andb]. unfold vmt_chcs. rewrite I1, R1, J1. cbn [find fst Nat.eqb].
  pose proof (TM real ONot [tp]) as T. fold real. destruct (l_mk real ONot [tp]); [eauto|congruence].
Qed.
Print Assumptions C74_accepts.

(** ** The printed answer *)
From Verif Require Import GraphOps UnreachProofs SimpleTransModel ElimModel InlineModel PipelineModel PipelineProofs PropInline PropPipeline.
(** [solveSafetyProblem] after the normalization (src/vmt/FrontEnd.cc:391-400), [printAnswer] (368-381).  [None]: the engine throws
    (an exception for nonlinear arithmetic is turned into "unknown", 401-403, which is left out) or the transformation does. *)
Definition vmt_answer (o : tools) (engine : hgraph -> eresult) (cs : list clause) : option string :=
  match run_stages o [Simplify] (build_graph cs) with
  | Some t => match engine (tr_graph t) with ESafe _ => Some "safe" | EUnsafe _ => Some "unsafe" | EUnknown => Some "unknown" | EThrow => None end
  | None => None
  end.
(** If the engine is right about the graph it is given, the printed answer is right about the file. *)
Theorem C74_answer :
  forall l_const l_mk file cs o engine a, (forall real, vmt_logic_ok real (l_const real) (l_mk real)) -> vmt_file file -> vmt_clauses l_const l_mk file = Some cs ->
    tools_ok o -> fresh_rewriting (t_rewrite o) (build_graph cs) ->
    (forall t, run_stages o [Simplify] (build_graph cs) = Some t -> right_answer (tr_graph t) (engine (tr_graph t))) ->
    vmt_answer o engine cs = Some a ->
    (a = "safe" -> ~ unsafe file) /\ (a = "unsafe" -> unsafe file) /\ In a ["safe"; "unsafe"; "unknown"].
Proof.
  intros l_const l_mk file cs o engine a L V E O FR Eng A. destruct (C74_vmt l_const l_mk file cs L V E) as [U [sig [S1 [S2 C]]]]. rewrite <- U.
  destruct (C29_normalization sig cs S1 S2 C) as [W [X [D _]]]. unfold vmt_answer in A.
  destruct (run_stages o [Simplify] (build_graph cs)) as [t|] eqn:R; [|discriminate]. specialize (Eng t eq_refl).
  apply run_cons in R as [r [r2 [T1 [T2 [T3 _]]]]]. apply run_nil in T2. subst r2. cbn [tr_graph] in T3.
  destruct (stage_sound o O Simplify (build_graph cs) r W (C35_versioned _ X) (fun _ => FR) T1) as [[_ _ ST _] _].
  assert (K : cderivable cs exit [] <-> derivable (tr_graph t) exit []).
  { rewrite T3, <- ST, D. split; [auto|]. intros [[Y _]|Y]; [discriminate Y|exact Y]. }
  rewrite K. destruct (engine (tr_graph t)); cbn [right_answer] in Eng; try discriminate A; injection A as <-; (split; [|split; [|cbn; tauto]]); intros Y; try discriminate Y; apply Eng.
Qed.
Print Assumptions C74_answer.

(** ** What is not accepted *)
(** A definition whose body is a name or a numeral is rejected (by an exception), well-formed as it is in VMT-LIB. *)
Theorem C74_atom_body_rejected :
  forall l_const l_mk file n t a, In (SList [atom_of "define-fun"; atom_of n; SList []; atom_of t; atom_of a]) file -> vmt_clauses l_const l_mk file = None.
Proof.
  intros l_const l_mk file n t a H. unfold vmt_clauses, parse_vmt. destruct (gather file (mkBuilder [] [])) as [b|] eqn:G; [|reflexivity].
  assert (X : forall file b b', gather file b = Some b' -> incl (b_defs b) (b_defs b') /\ (In (SList [atom_of "define-fun"; atom_of n; SList []; atom_of t; atom_of a]) file -> In (mkVDef n t (atom_of a)) (b_defs b'))).
  { clear. induction file as [|c file IH]; intros b b' G; [cbn in G; injection G as <-; split; [apply incl_refl|intros []]|]. cbn [gather] in G. destruct (resolve c b) as [b1|] eqn:R; [|discriminate]. destruct (IH _ _ G) as [I1 I2].
    assert (M : incl (b_defs b) (b_defs b1)).
    { unfold resolve in R. destruct c as [|[|k args]]; try discriminate. destruct (as_atom k) as [k'|]; [|discriminate]. destruct (String.eqb k' "declare-fun").
      { unfold resolve_declare in R. destruct args as [|x [|? [|y ?]]]; try discriminate. destruct (as_atom x), (as_atom y); try discriminate. injection R as <-. apply incl_refl. }
      destruct (String.eqb k' "define-fun").
      { unfold resolve_define in R. destruct args as [|x [|[|[]] [|y [|z ?]]]]; try discriminate. destruct (as_atom x), (as_atom y); try discriminate. injection R as <-. apply incl_appl, incl_refl. }
      destruct (String.eqb k' "assert"); [destruct args; [discriminate|injection R as <-; apply incl_refl]|]. destruct (String.eqb k' "set-info"); [injection R as <-; apply incl_refl|discriminate]. }
    split; [eapply incl_tran; eauto|]. intros [->|H]; [|auto]. apply I1. unfold resolve in R. rewrite as_atom_of in R. change (String.eqb "define-fun" "declare-fun") with false in R. change (String.eqb "define-fun" "define-fun") with true in R. cbv iota in R.
    unfold resolve_define in R. rewrite !as_atom_of in R. injection R as <-. apply in_or_app. right. left. reflexivity. }
  destruct (X _ _ _ G) as [_ D]. specialize (D H). destruct (choose_logic _) as [real|]; [|reflexivity]. unfold build_with. destruct (declare (b_vars b)) as [vs|]; [|reflexivity].
  assert (Y : forall ds g, In (mkVDef n t (atom_of a)) ds -> defines (l_const real) (l_mk real) ds g = None).
  { clear. induction ds as [|d ds IH]; intros g H; [destruct H|]. cbn [defines]. destruct H as [->|H]; [reflexivity|]. destruct (define _ _ d g); [apply IH, H|reflexivity]. }
  rewrite (Y _ _ D). reflexivity.
Qed.
Print Assumptions C74_atom_body_rejected.

(** ** Examples *)
Module ExVmt.
(** Constructors without simplification. *)
Definition neg (real : bool) (t : term) : term := App FTimes [Const (num real (-1)); t].
Definition minus (real : bool) (ts : list term) : term := match ts with [a] => neg real a | a :: l => App FPlus (a :: map (neg real) l) | [] => tt_true end.
Definition plain_mk (real : bool) (o : vop) (ts : list term) : option term :=
  Some match o with
       | OAnd => App FAnd ts | OOr => App FOr ts | ONot => App FNot ts | OEq => App FEq ts | OLeq => App FLeq ts
       | OPlus => App FPlus ts | OTimes => App FTimes ts | ONeg => minus real ts | OMinus => minus real ts
       end.
Definition plain_const (real : bool) (s : string) : option term := option_map (fun z => Const (num real z)) (numeral s).
Lemma fold_ints (fv : value -> value -> value) (fz : Z -> Z -> Z) : (forall a b, fv (VInt a) (VInt b) = VInt (fz a b)) -> forall zs z, fold_left fv (map VInt zs) (VInt z) = VInt (fold_left fz zs z).
Proof. intros H. induction zs as [|x zs IH]; intros z; [reflexivity|]. cbn [map fold_left]. rewrite H. apply IH. Qed.
Lemma fold_reals (fv : value -> value -> value) (fz : Qc -> Qc -> Qc) : (forall a b, fv (VReal a) (VReal b) = VReal (fz a b)) -> forall zs z, fold_left fv (map VReal zs) (VReal z) = VReal (fold_left fz zs z).
Proof. intros H. induction zs as [|x zs IH]; intros z; [reflexivity|]. cbn [map fold_left]. rewrite H. apply IH. Qed.
Lemma eval_app r f ts : eval r (App f ts) = interp f (map (eval r) ts).
Proof. reflexivity. Qed.
Lemma neg_int r t z : eval r t = VInt z -> eval r (neg false t) = VInt (- z).
Proof. intros H. unfold neg. rewrite eval_app. cbn [map eval]. rewrite H. cbn [interp fold1 fold_left vmul num]. destruct z; reflexivity. Qed.
Lemma neg_real r t q : eval r t = VReal q -> eval r (neg true t) = VReal (- q)%Qc.
Proof. intros H. unfold neg. rewrite eval_app. cbn [map eval]. rewrite H. cbn [interp fold1 fold_left vmul num asq]. apply (f_equal VReal). change (Q2Qc (QArith_base.inject_Z (-1))) with (- (1))%Qc. ring. Qed.
Lemma ints_inv vs zs : integers vs = Some zs -> vs = map VInt zs.
Proof.
  unfold integers. intros H. apply all_some_inv in H. revert zs H. induction vs as [|v vs IH]; intros [|z zs] H; try discriminate; [reflexivity|]. cbn [map] in *. injection H as H1 H2. destruct v; try discriminate. injection H1 as ->. f_equal. apply IH, H2.
Qed.
Lemma rats_inv vs zs : rationals vs = Some zs -> vs = map VReal zs.
Proof.
  unfold rationals. intros H. apply all_some_inv in H. revert zs H. induction vs as [|v vs IH]; intros [|z zs] H; try discriminate; [reflexivity|]. cbn [map] in *. injection H as H1 H2. destruct v; try discriminate. injection H1 as ->. f_equal. apply IH, H2.
Qed.
Lemma bools_inv vs zs : truths vs = Some zs -> vs = map VBool zs.
Proof.
  unfold truths. intros H. apply all_some_inv in H. revert zs H. induction vs as [|v vs IH]; intros [|z zs] H; try discriminate; [reflexivity|]. cbn [map] in *. injection H as H1 H2. destruct v; try discriminate. injection H1 as ->. f_equal. apply IH, H2.
Qed.
Lemma minus_ok real r ts v : Forall (fun v => sort_of v <> foreign real) (map (eval r) ts) -> apply_op "-" (map (eval r) ts) = Some v -> eval r (minus real ts) = v.
Proof.
  intros F H. unfold apply_op in H. cbn [String.eqb Ascii.eqb Bool.eqb] in H. destruct (map (eval r) ts) as [|v0 vs] eqn:E; [discriminate H|]. inversion F as [|? ? F0 _]; subst.
  assert (K : (exists q qs, real = true /\ v0 :: vs = map VReal (q :: qs) /\ real_op "-" (q :: qs) <> None /\ option_map VReal (real_op "-" (q :: qs)) = Some v) \/ (exists z zs, real = false /\ v0 :: vs = map VInt (z :: zs) /\ option_map VInt (arith_op "-" (z :: zs)) = Some v)).
  { destruct v0 as [b|z|q].
    - destruct (integers (VBool b :: vs)) as [zs|] eqn:I; [|discriminate]. apply ints_inv in I. destruct zs; discriminate.
    - destruct (integers (VInt z :: vs)) as [zs|] eqn:I; [|discriminate]. apply ints_inv in I. destruct zs as [|z' zs]; [discriminate|]. right. exists z', zs. destruct real; [destruct F0; reflexivity|]. auto.
    - destruct (rationals (VReal q :: vs)) as [qs|] eqn:I; [|discriminate]. apply rats_inv in I. destruct qs as [|q' qs]; [discriminate|]. left. exists q', qs. destruct real; [|destruct F0; reflexivity]. split; [reflexivity|]. split; [exact I|]. split; [discriminate|exact H]. }
  clear H F F0. destruct ts as [|t ts]; [discriminate|]. destruct K as [[q [qs [-> [E2 [_ H]]]]]|[z [zs [-> [E2 H]]]]]; injection H as <-; rewrite E2 in E; injection E as E0 E.
  - destruct ts as [|t1 ts]; [destruct qs; [|discriminate E]; apply neg_real, E0|]. destruct qs as [|q1 qs]; [discriminate E|].
    unfold minus. rewrite eval_app. cbn [map interp fold1]. rewrite E0. change (eval r (neg true t1) :: map (eval r) (map (neg true) ts)) with (map (eval r) (map (neg true) (t1 :: ts))).
    replace (map (eval r) (map (neg true) (t1 :: ts))) with (map VReal (map Qcopp (q1 :: qs))).
    + rewrite (fold_reals vadd Qcplus) by reflexivity. f_equal. generalize (q1 :: qs) as l. clear. intros l. revert q. induction l as [|x l IH]; intros q; [reflexivity|]. cbn [map fold_left]. rewrite IH. reflexivity.
    + change (eval r t1 :: map (eval r) ts) with (map (eval r) (t1 :: ts)) in E. clear -E. revert E. generalize (t1 :: ts) as l, (q1 :: qs) as m. induction l as [|t l IH]; intros [|x m] E; try discriminate E; [reflexivity|].
      cbn [map] in *. injection E as E1 E. rewrite (neg_real r t x E1). f_equal. apply IH, E.
  - destruct ts as [|t1 ts]; [destruct zs; [|discriminate E]; apply neg_int, E0|]. destruct zs as [|q1 zs]; [discriminate E|].
    unfold minus. rewrite eval_app. cbn [map interp fold1]. rewrite E0. change (eval r (neg false t1) :: map (eval r) (map (neg false) ts)) with (map (eval r) (map (neg false) (t1 :: ts))).
    replace (map (eval r) (map (neg false) (t1 :: ts))) with (map VInt (map Z.opp (q1 :: zs))).
    + rewrite (fold_ints vadd Z.add) by reflexivity. f_equal. generalize (q1 :: zs) as l. clear. intros l. revert z. induction l as [|x l IH]; intros q; [reflexivity|]. cbn [map fold_left]. rewrite IH. reflexivity.
    + change (eval r t1 :: map (eval r) ts) with (map (eval r) (t1 :: ts)) in E. clear -E. revert E. generalize (t1 :: ts) as l, (q1 :: zs) as m. induction l as [|t l IH]; intros [|x m] E; try discriminate E; [reflexivity|].
      cbn [map] in *. injection E as E1 E. rewrite (neg_int r t x E1). f_equal. apply IH, E.
Qed.
Lemma folds_ok real r op ts v fv fz fq : Forall (fun v => sort_of v <> foreign real) (map (eval r) ts) ->
  (forall a b, fv (VInt a) (VInt b) = VInt (fz a b)) -> (forall a b, fv (VReal a) (VReal b) = VReal (fq a b)) ->
  (forall z zs, arith_op op (z :: zs) = Some (fold_left fz zs z)) -> (forall z zs, real_op op (z :: zs) = Some (fold_left fq zs z)) ->
  match map (eval r) ts with VReal _ :: _ => match rationals (map (eval r) ts) with Some qs => option_map VReal (real_op op qs) | None => None end
  | _ => match integers (map (eval r) ts) with Some zs => option_map VInt (arith_op op zs) | None => None end end = Some v -> fold1 fv (map (eval r) ts) = v.
Proof.
  intros F Hi Hr Ai Ar H. destruct (map (eval r) ts) as [|v0 vs]; [discriminate H|]. destruct v0 as [b|z|q].
  - destruct (integers (VBool b :: vs)) as [zs|] eqn:I; [|discriminate]. apply ints_inv in I. destruct zs; discriminate.
  - destruct (integers (VInt z :: vs)) as [zs|] eqn:I; [|discriminate]. apply ints_inv in I. destruct zs as [|z' zs]; [discriminate|]. rewrite Ai in H. injection H as <-. rewrite I. cbn [map fold1]. apply (fold_ints fv fz Hi).
  - destruct (rationals (VReal q :: vs)) as [zs|] eqn:I; [|discriminate]. apply rats_inv in I. destruct zs as [|z' zs]; [discriminate|]. rewrite Ar in H. injection H as <-. rewrite I. cbn [map fold1]. apply (fold_reals fv fq Hr).
Qed.
Lemma logic_ok real : vmt_logic_ok real (plain_const real) (plain_mk real).
Proof.
  split.
  - intros s z t r N H. unfold plain_const in H. rewrite N in H. injection H as <-. reflexivity.
  - intros s z t N H. unfold plain_const in H. rewrite N in H. injection H as <-. reflexivity.
  - intros o ts t r v M F H. injection M as <-. destruct o; cbn [op_word] in H; try (apply (minus_ok real r ts v F H)); unfold apply_op in H; cbn [String.eqb Ascii.eqb Bool.eqb] in H; rewrite eval_app; cbn [interp].
    + destruct (truths _) as [bs|] eqn:T; [|discriminate]. injection H as <-. apply bools_inv in T. rewrite T. f_equal. clear. induction bs as [|b bs IH]; [reflexivity|]. cbn. rewrite IH. reflexivity.
    + destruct (truths _) as [bs|] eqn:T; [|discriminate]. injection H as <-. apply bools_inv in T. rewrite T. f_equal. clear. induction bs as [|b bs IH]; [reflexivity|]. cbn. rewrite IH. reflexivity.
    + destruct (map (eval r) ts) as [|[b| |] [|? ?]]; try discriminate. injection H as <-. reflexivity.
    + destruct (map (eval r) ts) as [|[a|a|a] [|[b|b|b] [|? ?]]]; try discriminate; injection H as <-; reflexivity.
    + destruct (map (eval r) ts) as [|[a|a|a] [|[b|b|b] [|? ?]]]; try discriminate; injection H as <-; reflexivity.
    + apply (folds_ok real r "+" ts v vadd Z.add Qcplus F); auto; reflexivity.
    + apply (folds_ok real r "*" ts v vmul Z.mul Qcmult F); auto; reflexivity.
  - intros o ts t M. injection M as <-. assert (N : forall a, vars (neg real a) = vars a) by (intros a; cbn; rewrite app_nil_r; reflexivity).
    assert (Q : forall l, concat (map vars (map (neg real) l)) = concat (map vars l)) by (intros l; rewrite map_map; f_equal; apply map_ext, N).
    assert (MM : incl (vars (minus real ts)) (concat (map vars ts))).
    { destruct ts as [|a [|b ts]]; [intros v []|cbn; rewrite !app_nil_r; apply incl_refl|]. unfold minus. change (incl (concat (map vars (a :: map (neg real) (b :: ts)))) (concat (map vars (a :: b :: ts)))). cbn [map concat]. rewrite N, Q. apply incl_refl. }
    destruct o; try exact MM; apply incl_refl.
Qed.
Lemma total_const real s z : numeral s = Some z -> plain_const real s <> None.
Proof. intros H. unfold plain_const. rewrite H. discriminate. Qed.
Lemma total_mk real o ts : plain_mk real o ts <> None.
Proof. discriminate. Qed.

(** A counter x with next value y, starting at 0 and counting to 3; [bad]: the property is that x is at most 2. *)
Notation A := atom_of.
Definition ap (op : string) (l : list sexpr) : sexpr := SList (A op :: l).
Definition file (ty : string) (bad : bool) : list sexpr :=
  [ap "set-info" [A ":source"; A "test"];
   ap "declare-fun" [A "x"; SList []; A ty];
   ap "declare-fun" [A "y"; SList []; A ty];
   ap "define-fun" [A "sv"; SList []; A ty; ap "!" [A "x"; A ":next"; A "y"]];
   ap "define-fun" [A "low"; SList []; A "Bool"; ap "<=" [A "x"; A "2"]];
   ap "define-fun" [A "init"; SList []; A "Bool"; ap "!" [ap "=" [A "sv"; A "0"]; A ":init"; A "true"]];
   ap "define-fun" [A "trans"; SList []; A "Bool"; ap "!" [ap "and" [A "low"; ap "=" [A "y"; ap "+" [A "x"; A "1"]]]; A ":trans"; A "true"]];
   ap "define-fun" [A "prop"; SList []; A "Bool"; ap "!" [(if bad then A "low" else ap "<=" [ap "-" [A "0"; A "x"]; A "0"]); A ":invar-property"; A "0"]]].
Lemma names_ok : Forall name ["x"; "y"; "sv"; "low"; "init"; "trans"; "prop"].
Proof. repeat constructor; discriminate. Qed.
Lemma file_ok ty bad : ty = "Int" \/ ty = "Real" -> vmt_file (file ty bad).
Proof.
  intros T. split.
  - destruct T as [-> | ->]; destruct bad; repeat (constructor; [first [apply cf_info|apply cf_declare; discriminate|apply cf_define; discriminate]|]); constructor.
  - destruct T as [-> | ->]; destruct bad; repeat (constructor; [first [apply bf_init|apply bf_trans|apply bf_property|apply (bf_next "x" "y")|apply bf_plain; discriminate]|]); constructor.
  - destruct T as [-> | ->]; destruct bad; intros [H1 H2]; cbn in H1, H2; repeat (destruct H1 as [H1|H1]; [discriminate|]); try contradiction; repeat (destruct H2 as [H2|H2]; [discriminate|]); contradiction.
  - destruct T as [-> | ->]; destruct bad; cbn; repeat constructor; cbn; intros H; repeat (destruct H as [H|H]; [discriminate|]); contradiction.
  - destruct T as [-> | ->]; destruct bad; apply names_ok.
  - destruct T as [-> | ->]; destruct bad; cbn; repeat (eexists; split; [reflexivity|]; split; [reflexivity|]); exact I.
  - destruct T as [-> | ->]; destruct bad; intros d H M; cbn in H; repeat (destruct H as [<-|H]; [try discriminate M; reflexivity|]); contradiction.
  - destruct T as [-> | ->]; destruct bad; reflexivity.
  - destruct T as [-> | ->]; destruct bad; reflexivity.
  - destruct T as [-> | ->]; destruct bad; reflexivity.
  - destruct T as [-> | ->]; destruct bad; cbn; repeat constructor; cbn; intros H; repeat (destruct H as [H|H]; [discriminate|]); contradiction.
  - destruct T as [-> | ->]; destruct bad; intros x y H; destruct H as [H|[]]; injection H as <- <-; eexists; cbn; eauto.
Qed.
Example accepted ty bad : ty = "Int" \/ ty = "Real" -> exists cs, vmt_clauses plain_const plain_mk (file ty bad) = Some cs /\ length cs = 3 /\ (cderivable cs exit [] <-> unsafe (file ty bad)).
Proof.
  intros T. destruct (C74_accepts plain_const plain_mk (file ty bad) logic_ok total_const total_mk (file_ok ty bad T)) as [cs E]. exists cs. split; [exact E|]. split.
  - assert (X : option_map (@length clause) (vmt_clauses plain_const plain_mk (file ty bad)) = Some 3) by (destruct T as [-> | ->]; destruct bad; vm_compute; reflexivity). rewrite E in X. injection X as X. exact X.
  - apply (C74_vmt plain_const plain_mk (file ty bad) cs logic_ok (file_ok ty bad T) E).
Qed.


(** The system with the property "at most 2" is unsafe (x = 3 is reached), the other one is safe. *)
Definition env_at (k : Z) : venv := fun n => VInt (if String.eqb n "y" then k + 1 else k).
Definition reindexed : list sexpr := removelast (file "Int" true) ++ [ap "define-fun" [A "prop"; SList []; A "Bool"; ap "!" [A "low"; A ":invar-property"; A "1"]]].
Definition which (b : bool) : list sexpr := if b then file "Int" true else reindexed.
Lemma env_fits k b : fits (which b) (env_at k).
Proof. intros x t s H W. destruct b; cbn in H; (destruct H as [H|[H|[]]]; injection H as <- <-; injection W as <-; reflexivity). Qed.
Lemma which_unsafe b : unsafe (which b).
Proof.
  assert (R0 : reached (which b) [VInt 0]).
  { apply r_init. exists (env_at 0). split; [apply env_fits|]. split; [destruct b; reflexivity|]. exists (nth 2 (definitions (which b)) (mkDef "" "" (A ""))). split; [destruct b; cbn; tauto|]. split; [destruct b; reflexivity|destruct b; vm_compute; reflexivity]. }
  assert (St : forall k, (k = 0 \/ k = 1 \/ k = 2)%Z -> moves (which b) [VInt k] [VInt (k + 1)]).
  { intros k K. exists (env_at k). split; [apply env_fits|]. split; [destruct b; reflexivity|]. split; [destruct b; reflexivity|]. exists (nth 3 (definitions (which b)) (mkDef "" "" (A ""))). split; [destruct b; cbn; tauto|]. split; [destruct b; reflexivity|].
    destruct K as [-> |[-> | ->]]; destruct b; vm_compute; reflexivity. }
  exists [VInt 3]. split.
  - apply (r_move _ [VInt 2]); [|apply (St 2%Z); auto]. apply (r_move _ [VInt 1]); [|apply (St 1%Z); auto]. apply (r_move _ [VInt 0]); [exact R0|apply (St 0%Z); auto].
  - exists (env_at 3). split; [apply env_fits|]. split; [destruct b; reflexivity|]. exists (nth 4 (definitions (which b)) (mkDef "" "" (A ""))). split; [destruct b; cbn; tauto|]. split; [destruct b; reflexivity|destruct b; vm_compute; reflexivity].
Qed.
Example is_unsafe : unsafe (file "Int" true).
Proof. exact (which_unsafe true). Qed.
Lemma says_nth key b r i : (forall d, In d (definitions (file "Int" false)) -> marked key d = true -> d = nth i (definitions (file "Int" false)) (mkDef "" "" (A ""))) ->
  says (file "Int" false) key b r -> complete (file "Int" false) r (d_name (nth i (definitions (file "Int" false)) (mkDef "" "" (A "")))) = VBool b.
Proof. intros U [d [H1 [H2 H3]]]. rewrite <- (U d H1 H2). exact H3. Qed.
Example is_safe : ~ unsafe (file "Int" false).
Proof.
  assert (FX : forall r, fits (file "Int" false) r -> exists a b, r "x" = VInt a /\ r "y" = VInt b).
  { intros r F. pose proof (F "x" "Int" SInt ltac:(cbn; auto) eq_refl) as X. pose proof (F "y" "Int" SInt ltac:(cbn; auto) eq_refl) as Y. destruct (r "x"), (r "y"); try discriminate. eauto. }
  assert (R : forall s, reached (file "Int" false) s -> exists n, s = [VInt n] /\ (0 <= n)%Z).
  { induction 1 as [s [r [F [<- S]]]|s t _ [n [-> IH]] [r [F [E1 [<- S]]]]]; destruct (FX r F) as [a [b [X Y]]].
    - apply (says_nth _ _ _ 2) in S; [|intros d H M; cbn in H; repeat (destruct H as [<-|H]; [try discriminate M; reflexivity|]); contradiction].
      do 3 (lazy -[Z.add Z.sub Z.mul Z.eqb Z.leb] in S; rewrite ?X, ?Y in S). injection S as S. apply Z.eqb_eq in S. exists a. split; [cbn; rewrite X; reflexivity|lia].
    - apply (says_nth _ _ _ 3) in S; [|intros d H M; cbn in H; repeat (destruct H as [<-|H]; [try discriminate M; reflexivity|]); contradiction].
      cbn in E1. rewrite X in E1. injection E1 as ->. do 3 (lazy -[Z.add Z.sub Z.mul Z.eqb Z.leb] in S; rewrite ?X, ?Y in S). injection S as S.
      destruct (Z.leb n 2); [|discriminate]. destruct (Z.eqb_spec b (n + 1)) as [S'|]; [|discriminate]. exists b. split; [cbn; rewrite Y; reflexivity|lia]. }
  intros [s [Re [r [F [E S]]]]]. destruct (R s Re) as [n [-> N]]. destruct (FX r F) as [a [b [X Y]]]. cbn in E. rewrite X in E. injection E as ->.
  apply (says_nth _ _ _ 4) in S; [|intros d H M; cbn in H; repeat (destruct H as [<-|H]; [try discriminate M; reflexivity|]); contradiction].
  do 3 (lazy -[Z.add Z.sub Z.mul Z.eqb Z.leb] in S; rewrite ?X, ?Y in S). injection S as S. apply Z.leb_gt in S. lia.
Qed.
(** A property with another index than 0. *)
Lemma reindexed_refused : exists g, parse_vmt plain_const plain_mk reindexed = Some (false, g) /\ is_safety g = true /\ vmt_chcs (plain_mk false) g = None.
Proof. eexists. split; [vm_compute; reflexivity|]. split; reflexivity. Qed.
End ExVmt.
(** The only invariant property of a file is not found if its index is not 0 (and the program dies). *)
Theorem C74_index_refuted :
  exists l_const l_mk file g, (forall real, vmt_logic_ok real (l_const real) (l_mk real)) /\ parse_vmt l_const l_mk file = Some (false, g) /\ is_safety g = true /\ vmt_clauses l_const l_mk file = None /\
    unsafe file.
Proof.
  destruct ExVmt.reindexed_refused as [g [P [S C]]]. exists ExVmt.plain_const, ExVmt.plain_mk, ExVmt.reindexed, g. split; [apply ExVmt.logic_ok|]. split; [exact P|]. split; [exact S|]. split.
  - unfold vmt_clauses. rewrite P, S. exact C.
  - exact (ExVmt.which_unsafe false).
Qed.
Print Assumptions C74_index_refuted.
