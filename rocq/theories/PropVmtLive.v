(** * C75: liveness problems in VMT files.
    Specification: VmtSpec.v, VmtLiveSpec.v ([live_file], [execution], [raised]), TerminationModel.engine_ok. *)
From Coq Require Import Qcanon Classical_Prop.
From Verif Require Import Syntax Solver Graph ChcSystem TransSys ExTac TerminationModel TerminationProofs PropTermination SExprModel Names GraphSem NormModel NormProofs NormRun PropNorm ItsModel ItsSpec ItsProofs VmtModel VmtSpec VmtProofs PropVmt
  VmtLiveModel VmtLiveSpec.
From Coq Require Import List.
Open Scope string_scope.
Open Scope list_scope.
Open Scope nat_scope.

(** ** Files with :invar-property for :live-property *)
Definition convd (d : definition) : definition := mkDef (d_name d) (d_type d) (body_with_invariant (d_body d)).
Lemma conv_lists file : Forall command_form file -> declared (map with_invariant file) = declared file /\ definitions (map with_invariant file) = map convd (definitions file).
Proof.
  induction 1 as [|c file H _ [IH1 IH2]]; [split; reflexivity|]. destruct H as [l|n t T|n t b T]; cbn [map].
  - assert (D : forall l f, declared (SList (atom_of "set-info" :: l) :: f) = declared f) by (intros l0 f; cbn [declared atom_of list_ascii_of_string]; destruct l0 as [|[x|] [|[|[]] [|[y|] [|? ?]]]]; reflexivity).
    assert (F : forall l f, definitions (SList (atom_of "set-info" :: l) :: f) = definitions f) by (intros l0 f; cbn [definitions atom_of list_ascii_of_string]; destruct l0 as [|[x|] [|[|[]] [|[y|] [|? [|? ?]]]]]; reflexivity).
    assert (X : exists l', with_invariant (SList (atom_of "set-info" :: l)) = SList (atom_of "set-info" :: l')).
    { unfold with_invariant, atom_of. destruct l as [|[x|] [|[|[]] [|[y|] [|? [|? ?]]]]]; eexists; reflexivity. }
    destruct X as [l' ->]. rewrite !D, !F. auto.
  - cbn [with_invariant atom_of declared definitions]. rewrite IH1, IH2. split; reflexivity.
  - cbn [with_invariant atom_of declared definitions]. rewrite IH1, IH2. destruct (String.eqb _ "define-fun"); split; reflexivity.
Qed.
(** The fields of a body that is not changed, or is. *)
Lemma conv_cases b : body_with_invariant b = b \/ exists k t a i, b = SList [Atom k; t; Atom a; i] /\ word k = "!" /\ word a = ":live-property" /\ body_with_invariant b = SList [Atom k; t; atom_of ":invar-property"; i].
Proof.
  destruct b as [w|[|[k|] [|t [|[a|] [|i [|? ?]]]]]]; try (left; reflexivity). cbn [body_with_invariant].
  destruct (String.eqb_spec (word k) "!") as [K|]; [|left; reflexivity]. destruct (String.eqb_spec (word a) ":live-property") as [A|]; [|left; reflexivity]. right. exists k, t, a, i. auto.
Qed.
Lemma conv_plain b : VmtSpec.plain (body_with_invariant b) = VmtSpec.plain b.
Proof. destruct (conv_cases b) as [->|[k [t [a [i [-> [K [A ->]]]]]]]]; [reflexivity|]. cbn [VmtSpec.plain]. rewrite K. reflexivity. Qed.
Lemma conv_pair d : next_pair (convd d) = next_pair d.
Proof.
  unfold next_pair. cbn [d_body convd]. destruct (conv_cases (d_body d)) as [->|[k [t [a [i [-> [K [A ->]]]]]]]]; [reflexivity|]. unfold atom_of. destruct t as [t|]; [|reflexivity]. destruct i as [i|]; [|reflexivity].
  rewrite word_of, A, K. reflexivity.
Qed.
Lemma atom_word w : Atom w = atom_of (word w).
Proof. unfold atom_of, word. rewrite list_ascii_of_string_of_list_ascii. reflexivity. Qed.
Lemma atom_of_inj a b : atom_of a = atom_of b -> a = b.
Proof. intros H. apply (f_equal (fun e => match e with Atom w => word w | _ => a end)) in H. unfold atom_of in H. rewrite !word_of in H. exact H. Qed.
Lemma body_cases d : body_form (body_with_invariant (d_body d)) -> marked ":invar-property" d = false ->
  (convd d = d /\ marked ":live-property" d = false) \/ (exists t, d_body d = SList [atom_of "!"; t; atom_of ":live-property"; atom_of "0"] /\ d_body (convd d) = SList [atom_of "!"; t; atom_of ":invar-property"; atom_of "0"]).
Proof.
  intros B N. destruct (conv_cases (d_body d)) as [E|[k [t [a [i [E [K [A C]]]]]]]].
  - left. split; [unfold convd; rewrite E; destruct d; reflexivity|]. rewrite E in B. unfold marked in *. destruct B as [op l No|b|b|b|x y].
    + destruct l as [|b [|[a|] l]]; try reflexivity. unfold atom_of. rewrite word_of. destruct (String.eqb_spec op "!"); [contradiction|reflexivity].
    + reflexivity.
    + reflexivity.
    + discriminate N.
    + reflexivity.
  - right. exists t. rewrite C in B. unfold convd. cbn [d_body]. rewrite C, E. rewrite (atom_word k), K, (atom_word a), A in *. remember (SList [atom_of "!"; t; atom_of ":invar-property"; i]) as b eqn:Hb.
    destruct B as [op l No|b|b|b|x y].
    + assert (X : atom_of op = atom_of "!") by congruence. apply atom_of_inj in X. contradiction.
    + assert (X : atom_of ":init" = atom_of ":invar-property") by congruence. apply atom_of_inj in X. discriminate X.
    + assert (X : atom_of ":trans" = atom_of ":invar-property") by congruence. apply atom_of_inj in X. discriminate X.
    + assert (X : i = atom_of "0") by congruence. rewrite X. split; [reflexivity|]. congruence.
    + assert (X : atom_of ":next" = atom_of ":invar-property") by congruence. apply atom_of_inj in X. discriminate X.
Qed.
Lemma conv_marked key d : body_form (body_with_invariant (d_body d)) -> marked ":invar-property" d = false ->
  marked key (convd d) = if String.eqb key ":invar-property" then marked ":live-property" d else if String.eqb key ":live-property" then false else marked key d.
Proof.
  intros B N. destruct (body_cases d B N) as [[E L]|[t [E C]]].
  - rewrite E. destruct (String.eqb_spec key ":invar-property") as [->|X]; [congruence|]. destruct (String.eqb_spec key ":live-property") as [->|Y]; [exact L|reflexivity].
  - unfold marked. rewrite C, E. unfold atom_of. rewrite !word_of. change (String.eqb "!" "!") with true. cbn [andb].
    destruct (String.eqb_spec key ":invar-property") as [->|X]; [reflexivity|]. destruct (String.eqb_spec key ":live-property") as [->|Y]; [reflexivity|].
    destruct (String.eqb_spec ":invar-property" key) as [Z|_]; [congruence|]. destruct (String.eqb_spec ":live-property" key) as [Z|_]; [congruence|]. reflexivity.
Qed.

Section File.
Variable file : list sexpr.
Hypothesis LF : live_file file.
Let file' := map with_invariant file.
Let V : vmt_file file' := lf_form _ LF.
Lemma declared_eq : declared file' = declared file.
Proof. apply conv_lists, (lf_commands _ LF). Qed.
Lemma definitions_eq : definitions file' = map convd (definitions file).
Proof. apply conv_lists, (lf_commands _ LF). Qed.
Lemma types_eq : types file' = types file.
Proof. unfold types. rewrite declared_eq, definitions_eq, map_map. reflexivity. Qed.
Lemma pairs_eq : pairs file' = pairs file.
Proof. unfold pairs. rewrite definitions_eq, map_map. f_equal. apply map_ext, conv_pair. Qed.
Lemma fits_eq r : fits file' r <-> fits file r.
Proof. unfold fits. rewrite declared_eq. reflexivity. Qed.
Lemma complete_eq r : complete file' r = complete file r.
Proof.
  unfold complete, over_reals. rewrite types_eq, definitions_eq. generalize (negb (existsb (String.eqb "Int") (types file))) as b. intros b. revert r. induction (definitions file) as [|d ds IH]; intros r; [reflexivity|]. cbn [map fold_left].
  assert (X : extend b r (convd d) = extend b r d) by (unfold extend, convd; cbn [d_body d_name]; rewrite conv_plain; reflexivity). rewrite X. apply IH.
Qed.
Lemma body_ok d : In d (definitions file) -> body_form (body_with_invariant (d_body d)).
Proof.
  intros H. pose proof (vf_bodies _ V) as B. rewrite definitions_eq in B. rewrite Forall_forall in B. apply (B (convd d)). apply in_map, H.
Qed.
Lemma says_eq key key' b r : (key' = ":invar-property" /\ key = ":live-property") \/ (key' = key /\ key <> ":invar-property" /\ key <> ":live-property") -> (says file' key' b r <-> says file key b r).
Proof.
  intros K. unfold says. rewrite definitions_eq, complete_eq. assert (M : forall d, In d (definitions file) -> marked key' (convd d) = marked key d).
  { intros d H. rewrite (conv_marked key' d (body_ok d H) (lf_live _ LF d H)). destruct K as [[-> ->]|[-> [N1 N2]]]; [reflexivity|].
    destruct (String.eqb_spec key ":invar-property"); [contradiction|]. destruct (String.eqb_spec key ":live-property"); [contradiction|]. reflexivity. }
  split.
  - intros [d [H1 [H2 H3]]]. apply in_map_iff in H1 as [d0 [<- H1]]. exists d0. rewrite M in H2 by exact H1. auto.
  - intros [d [H1 [H2 H3]]]. exists (convd d). rewrite M by exact H1. split; [apply in_map, H1|]. auto.
Qed.
Lemma initial_eq s : initial file' s <-> initial file s.
Proof.
  unfold initial. rewrite pairs_eq. split; intros [r [F [E S]]]; exists r; (split; [apply fits_eq, F|]); (split; [exact E|]); (apply (says_eq ":init" ":init"); [right; repeat split; discriminate|exact S]).
Qed.

(** ** The parsed files *)
Variable l_const : bool -> string -> option term.
Variable l_mk : bool -> vop -> list term -> option term.
Definition swap (g : gatherer) : gatherer := mkG (g_vars g) (g_defs g) (g_pairs g) (g_init g) (g_trans g) (g_live g) (g_inv g).
Lemma parse_swap lc lm g e : parse_term lc lm (swap g) e = parse_term lc lm g e.
Proof.
  induction e as [w|l IH] using sexpr_ind'; [reflexivity|]. destruct l as [|h args]; [reflexivity|]. cbn [parse_term]. inversion IH as [|? ? _ IH']; subst.
  assert (X : mapo (parse_term lc lm (swap g)) args = mapo (parse_term lc lm g) args).
  { clear IH. induction args as [|a args IHa]; [reflexivity|]. inversion IH' as [|? ? Ha Hl]; subst. cbn [mapo]. fold (mapo (parse_term lc lm (swap g))). fold (mapo (parse_term lc lm g)). rewrite Ha. destruct (parse_term lc lm g a); [|reflexivity]. rewrite (IHa Hl). reflexivity. }
  rewrite X. reflexivity.
Qed.
Lemma define_swap lc lm d g : In d (definitions file) -> define lc lm (vdef_of (convd d)) (swap g) = option_map swap (define lc lm (vdef_of d) g).
Proof.
  intros H. pose proof (body_ok d H) as B. destruct (body_cases d B (lf_live _ LF d H)) as [[E L]|[t [E C]]].
  - rewrite E. assert (B' : body_form (d_body d)) by (apply (f_equal d_body) in E; cbn [convd d_body] in E; rewrite E in B; exact B). assert (N : marked ":invar-property" d = false) by apply (lf_live _ LF d H).
    assert (VB : vd_value (vdef_of d) = d_body d) by reflexivity. unfold marked in N. remember (d_body d) as body eqn:HB. clear HB E L B. destruct B' as [op l No|b|b|b|x y].
    + unfold define. rewrite VB, as_atom_of. destruct (String.eqb_spec op "!") as [->|_]; [contradiction|]. rewrite parse_swap. destruct (parse_term lc lm g _); reflexivity.
    + rewrite !(bang lc lm _ _ _ _ VB), parse_swap. destruct (parse_term lc lm g b); reflexivity.
    + rewrite !(bang lc lm _ _ _ _ VB), parse_swap. destruct (parse_term lc lm g b); reflexivity.
    + discriminate N.
    + rewrite !(bang lc lm _ _ _ _ VB), parse_swap. destruct (parse_term lc lm g (atom_of x)) as [t|]; [|reflexivity]. unfold annotate. change (as_atom (atom_of ":next")) with (Some ":next"). cbv beta iota.
      change (String.eqb ":next" ":init") with false. change (String.eqb ":next" ":trans") with false. change (String.eqb ":next" ":invar-property") with false. change (String.eqb ":next" ":live-property") with false. change (String.eqb ":next" ":next") with true. cbv iota. rewrite as_atom_of.
      cbn [swap g_vars]. destruct (find_name (g_vars g) y); [reflexivity|]. destruct (typed t); reflexivity.
  - assert (VB : vd_value (vdef_of d) = SList [atom_of "!"; t; atom_of ":live-property"; atom_of "0"]) by exact E. assert (VC : vd_value (vdef_of (convd d)) = SList [atom_of "!"; t; atom_of ":invar-property"; atom_of "0"]) by exact C.
    rewrite (bang lc lm _ _ _ _ VB), (bang lc lm _ _ _ _ VC), parse_swap. destruct (parse_term lc lm g t); reflexivity.
Qed.
Lemma defines_swap lc lm ds g : incl ds (definitions file) -> defines lc lm (map vdef_of (map convd ds)) (swap g) = option_map swap (defines lc lm (map vdef_of ds) g).
Proof.
  revert g. induction ds as [|d ds IH]; intros g I; [reflexivity|]. cbn [map defines]. rewrite define_swap by (apply I; left; reflexivity). destruct (define lc lm (vdef_of d) g) as [g1|]; [|reflexivity]. apply IH. intros x Hx. apply I. right. exact Hx.
Qed.
Lemma commands' : Forall command_form file'.
Proof. exact (vf_commands _ V). Qed.
Lemma parsed_swap : parse_vmt l_const l_mk file' = option_map (fun p => (fst p, swap (snd p))) (parse_vmt l_const l_mk file).
Proof.
  unfold parse_vmt. rewrite (gather_ok file' commands'), (gather_ok file (lf_commands _ LF)). cbn [b_vars b_defs app]. rewrite declared_eq, definitions_eq.
  assert (T : map vd_type (map vdef_of (map convd (definitions file))) = map vd_type (map vdef_of (definitions file))) by (rewrite !map_map; reflexivity). rewrite T.
  destruct (choose_logic _) as [real|]; [|reflexivity]. unfold build_with. cbn [b_vars b_defs]. destruct (declare (declared file)) as [vs|]; [|reflexivity].
  change (mkG vs [] [] None None [] []) with (swap (mkG vs [] [] None None [] [])) at 1. rewrite defines_swap by apply incl_refl. destruct (defines _ _ _ _); reflexivity.
Qed.
End File.

(** ** The clauses *)
(** The names of the state variables follow golem's convention, and no variable is called like the counter. *)
Record names_versioned (file : list sexpr) : Prop := {
  nv_versions : forall x y, In (x, y) (pairs file) -> versioned_pair x y;
  nv_counter : ~ In "counter##0" (map fst (declared file)) /\ ~ In "counter##1" (map fst (declared file))
}.
Lemma num_no_hash c n : rfind2 hash (String c (to_string n)) = None.
Proof.
  cbn [rfind2]. rewrite rfind2_num by (auto using to_string_chars). rewrite starts_num by (auto using to_string_chars). rewrite andb_false_r. reflexivity.
Qed.
Lemma next_name_ok x y : versioned_pair x y -> next_name x = Some y.
Proof.
  intros [b n R R'|c n R R']; unfold next_name.
  - rewrite rfind_versioned. apply send_var_versioned; assumption.
  - rewrite num_no_hash, (stoi_to_string n R), R'. reflexivity.
Qed.
Lemma nv_next file : names_versioned file -> forall x y, In (x, y) (pairs file) -> next_name x = Some y.
Proof. intros H x y I. apply next_name_ok, (nv_versions _ H), I. Qed.
Section Live.
Variable l_const : bool -> string -> option term.
Variable l_mk : bool -> vop -> list term -> option term.
Hypothesis L : forall real, vmt_logic_ok real (l_const real) (l_mk real).
Variable file : list sexpr.
Hypothesis LF : live_file file.
Let file' := map with_invariant file.
Let V : vmt_file file' := lf_form _ LF.
Hypothesis NV : names_versioned file.

Lemma live_facts s : vmt_live l_const l_mk file = Some s ->
  exists sorts, length sorts = length (pairs file) /\
    ls_vars s = map (fun q => vmt_var (fst (fst q)) (snd q)) (combine (pairs file) sorts) /\
    ls_next s = map (fun q => vmt_var (snd (fst q)) (snd q)) (combine (pairs file) sorts) /\
    (forall x y so, In ((x, y), so) (combine (pairs file) sorts) -> declared_sort file x = Some so /\ declared_sort file y = Some so) /\
    (forall v, In v (vars (ls_init s)) \/ In v (vars (ls_trans s)) \/ In v (vars (ls_signal s)) -> exists n so, v = vmt_var n so /\ declared_sort file n = Some so) /\
    forall r e, (forall n so, declared_sort file n = Some so -> e n = coerce so (r (vmt_var n so))) ->
      (holds r (ls_init s) <-> says file ":init" true e) /\ (holds r (ls_trans s) <-> says file ":trans" true e) /\
      (says file ":live-property" true e <-> holds r (ls_signal s)) /\ (says file ":live-property" false e <-> ~ holds r (ls_signal s)).
Proof.
  unfold vmt_live. pose proof (parsed_swap file LF l_const l_mk) as PS. fold file' in PS. destruct (parse_vmt l_const l_mk file) as [[real g]|] eqn:P; [|discriminate]. cbn [option_map fst snd] in PS.
  assert (R : real = over_reals file').
  { unfold parse_vmt in PS. rewrite (gather_ok file' (vf_commands _ V)) in PS. cbn [b_vars b_defs app] in PS.
    replace (map snd (declared file') ++ map vd_type (map vdef_of (definitions file'))) with (types file') in PS by (unfold types; rewrite map_map; reflexivity). rewrite (choose_ok file' V) in PS.
    destruct (build_with _ _ _); [|discriminate]. injection PS as PS _. congruence. }
  rewrite R in PS. destruct (parsed_facts l_const l_mk L file' V (swap g) PS) as [vs [di [dt [dp [ti [tt [tp [FN [I1 [R1 [J1 [L1 [Fi [Ft [Fp [W [VN SV]]]]]]]]]]]]]]]]]. cbn [swap g_init g_trans g_inv g_live g_pairs] in *.
  assert (DS : forall n, declared_sort file' n = declared_sort file n) by (intros n; unfold declared_sort, file'; rewrite (declared_eq file LF); reflexivity).
  unfold is_safety, is_liveness, as_live. rewrite L1, J1, I1, R1. cbn [length Nat.eqb andb].
  destruct (mapo _ (g_pairs g)) as [svs|] eqn:M1; [|discriminate]. destruct (mapo _ svs) as [ns|] eqn:M2; [|discriminate]. destruct (_ && _) eqn:AM; [|discriminate]. rewrite !andb_true_iff in AM. intros E. injection E as <-. cbn [ls_vars ls_next ls_init ls_trans ls_signal].
  unfold file' in W. rewrite (pairs_eq file LF) in W.
  assert (X : exists sorts, length sorts = length (pairs file) /\ svs = map (fun q => vmt_var (fst (fst q)) (snd q)) (combine (pairs file) sorts) /\ ns = map (fun q => vmt_var (snd (fst q)) (snd q)) (combine (pairs file) sorts) /\
     (forall x y so, In ((x, y), so) (combine (pairs file) sorts) -> declared_sort file x = Some so /\ declared_sort file y = Some so)).
  { apply mapo_some in M1. apply mapo_some in M2. pose proof (nv_next file NV) as NN. pose proof (vf_pairs _ V) as VP. unfold file' in VP. rewrite (pairs_eq file LF) in VP. clear -W M1 M2 NN FN DS VP V LF.
    revert svs ns M1 M2. induction W as [|p q ps qs [vx [X1 [X2 X3]]] W IH]; intros svs ns M1 M2.
    - destruct svs; [|discriminate M1]. destruct ns; [|discriminate M2]. exists []. repeat split; intros; contradiction.
    - destruct svs as [|v svs]; [discriminate M1|]. destruct ns as [|w ns]; [discriminate M2|]. cbn [map] in M1, M2. rewrite X2 in M1. injection M1 as <- M1. injection M2 as Mv M2.
      destruct (IH (fun x y H => NN x y (or_intror H)) (fun x y H => VP x y (or_intror H)) svs ns M1 M2) as [sorts [Y1 [Y2 [Y3 Y4]]]]. rewrite FN, DS in X1. destruct (declared_sort file (fst p)) as [sx|] eqn:Dx; [|discriminate]. injection X1 as <-.
      cbn [vmt_var vbase vsort] in Mv. rewrite (NN (fst p) (snd p)) in Mv by (left; destruct p; reflexivity). cbn [option_map] in Mv. injection Mv as <-. 
      assert (Dy : declared_sort file (snd p) = Some sx).
      { destruct p as [x y]. destruct (VP x y (or_introl eq_refl)) as [t [T1 T2]]. cbn [fst snd] in *. rewrite <- DS in Dx |- *. unfold file' in *. rewrite (declared_sort_in _ V x t T1) in Dx. rewrite (declared_sort_in _ V y t T2). exact Dx. }
      exists (sx :: sorts). cbn [combine map length fst snd]. rewrite Y1, <- Y2, <- Y3. repeat split; auto.
      + destruct H as [H|H]; [injection H as -> <-; exact Dx|apply (Y4 x y so H)].
      + destruct H as [H|H]; [injection H as -> <-; exact Dy|apply (Y4 x y so H)]. }
  destruct X as [sorts [X1 [X2 [X3 X4]]]]. exists sorts. split; [exact X1|]. split; [exact X2|]. split; [exact X3|]. split; [exact X4|].
  assert (HH : forall r t, sort_of (eval r t) = SBool -> (holds r t <-> eval r t = VBool true)).
  { intros r t St. unfold holds, holdsb. destruct (eval r t) as [b| |]; try discriminate St. cbn. split; [intros ->; reflexivity|intros Y; injection Y as Y; exact Y]. }
  split.
  - intros v Hv. destruct AM as [[AM1 AM2] AM3]. unfold among in *. rewrite forallb_forall in AM1, AM2, AM3.
    assert (Y : In v (svs ++ ns)).
    { assert (K : existsb (var_eqb v) svs = true \/ existsb (var_eqb v) (svs ++ ns) = true) by (destruct Hv as [Hv|[Hv|Hv]]; auto).
      destruct K as [K|K]; apply existsb_exists in K as [w [K1 K2]]; destruct (var_eqb_spec v w) as [->|]; try discriminate; [apply in_or_app; left|]; exact K1. }
    apply in_app_iff in Y as [Y|Y]; [rewrite X2 in Y|rewrite X3 in Y]; apply in_map_iff in Y as [[[x y] so] [<- Y]]; destruct (X4 x y so Y); cbn [fst snd]; eauto.
  - intros r e S. assert (S' : same_values file' r e) by (intros n so H; apply S; rewrite <- DS; exact H). destruct (SV r e S') as [[A1 [A2 _]] [[B1 [B2 _]] [C1 [C2 _]]]].
    pose proof (fun key d b => says_iff file' key d b e) as SI. 
    rewrite (HH r ti A2), (HH r tt B2), (HH r tp C2), A1, B1.
    rewrite <- (says_eq file LF ":init" ":init" true e), <- (says_eq file LF ":trans" ":trans" true e) by (right; repeat split; discriminate).
    rewrite <- !(says_eq file LF ":live-property" ":invar-property") by (left; auto). fold file'.
    rewrite (SI ":init" di true Fi), (SI ":trans" dt true Ft), !(SI ":invar-property" dp _ Fp). split; [tauto|]. split; [tauto|]. rewrite <- C1. split; [tauto|].
    destruct (eval r tp) as [b| |]; try discriminate C2. destruct b; split; congruence.
Qed.
Definition with_live (e : venv) (c c' : Z) : valuation := fun v => if var_eqb v live_counter then VInt c else if var_eqb v live_counter' then VInt c' else e (vbase v).
Lemma wl_c e c c' : eval (with_live e c c') (Var live_counter) = VInt c.
Proof. reflexivity. Qed.
Lemma wl_c' e c c' : eval (with_live e c c') (Var live_counter') = VInt c'.
Proof. reflexivity. Qed.
Lemma wl_var e c c' n so : declared_sort file n = Some so -> with_live e c c' (vmt_var n so) = e n.
Proof.
  intros H. assert (I : In n (map fst (declared file))).
  { unfold declared_sort in H. destruct (find _ (declared file)) as [[m t]|] eqn:F; [|discriminate]. apply find_some in F as [F1 F2]. apply String.eqb_eq in F2. cbn [fst] in F2. subst m. apply in_map_iff. exists (n, t). auto. }
  destruct (nv_counter _ NV) as [N0 N1]. unfold with_live. destruct (var_eqb_spec (vmt_var n so) live_counter) as [E|_].
  { apply (f_equal vbase) in E. cbn in E. subst n. contradiction. }
  destruct (var_eqb_spec (vmt_var n so) live_counter') as [E|_]; [|reflexivity]. apply (f_equal vbase) in E. cbn in E. subst n. contradiction.
Qed.
Lemma fits_coerce e n so : fits file e -> declared_sort file n = Some so -> coerce so (e n) = e n.
Proof.
  intros F H. unfold declared_sort in H. destruct (find _ (declared file)) as [[m t]|] eqn:E; [|discriminate]. apply find_some in E as [E1 E2]. apply String.eqb_eq in E2. cbn [fst] in E2. subst m. apply coerce_id. exact (F n t so E1 H).
Qed.
Lemma wl_same e c c' : fits file e -> forall n so, declared_sort file n = Some so -> e n = coerce so (with_live e c c' (vmt_var n so)).
Proof. intros F n so H. rewrite (wl_var e c c' n so H), (fits_coerce e n so F H). reflexivity. Qed.
Section System.
Variable s : live_system.
Hypothesis E : vmt_live l_const l_mk file = Some s.
Lemma state_values e c c' : fits file e ->
  avals (with_live e c c') (TerminationModel.atom_of (ls_vars s ++ [live_counter])) = now file e ++ [VInt c] /\
  avals (with_live e c c') (TerminationModel.atom_of (ls_next s ++ [live_counter'])) = then_ file e ++ [VInt c'].
Proof.
  intros F. destruct (live_facts s E) as [sorts [X1 [X2 [X3 [X4 _]]]]]. unfold avals, TerminationModel.atom_of. cbn [aargs]. rewrite X2, X3, !map_app. cbn [map]. rewrite wl_c, wl_c'. unfold now, then_.
  clear X2 X3. revert sorts X1 X4. induction (pairs file) as [|p ps IH]; intros sorts X1 X4; [split; reflexivity|]. destruct sorts as [|so sorts]; [discriminate X1|]. cbn [combine map] in *.
  destruct (IH sorts) as [I1 I2]; [injection X1 as X1; exact X1|intros x y so' H; apply X4; right; exact H|]. cbn [app]. destruct p as [x y]. destruct (X4 x y so (or_introl eq_refl)) as [D1 D2]. cbn [fst snd] in *.
  rewrite I1, I2. split; (apply (f_equal2 cons); [|reflexivity]); cbn [eval vmt_var vsort]; symmetry; apply (wl_same e c c' F); first [exact D1|exact D2].
Qed.
Lemma minus_value r a b x y : eval r a = VInt x -> eval r b = VInt y -> eval r (mkMinus a b) = VInt (x - y).
Proof. intros A B. unfold mkMinus, mkPlus, mkNeg, mkTimes. cbn [eval map interp fold1 fold_left mkInt]. rewrite A, B. cbn. f_equal. Qed.
Lemma live_run st : initial file st -> exists c : Z, forall n m e, execution file st n e -> raised file e n m ->
  forall vs, (n = 0 -> vs = st) -> (forall k, n = S k -> vs = then_ file (e k)) -> cderivable (signal_clauses s) TerminationModel.pred (vs ++ [VInt (c - Z.of_nat m)]).
Proof.
  intros [e0 [F0 [S0 I0]]]. destruct (live_facts s E) as [_ [_ [_ [_ [_ [_ SV]]]]]].
  destruct (bounds_value (fun v => e0 (vbase v)) (ls_vars s)) as [c Hc]. exists c. intros n. induction n as [|n IH]; intros m e X R vs V0 V1.
  - assert (M0 : m = 0) by (inversion R; reflexivity). subst m. rewrite (V0 eq_refl), Z.sub_0_r. rewrite <- S0. change (map e0 (map fst (pairs file))) with (now file e0). rewrite <- (proj1 (state_values e0 c c F0)).
    apply (cder (signal_clauses s) (mkClause (TerminationModel.atom_of (ls_vars s ++ [live_counter])) (mkAnd [ls_init s; mkAnd (map (mkGt (Var live_counter)) (lower_bounds (ls_vars s)))]) []) (with_live e0 c c)).
    + left. reflexivity.
    + intros a [].
    + apply holds_and2. split; [apply (SV _ e0 (wl_same e0 c c F0)), I0|]. apply holds_and. apply Forall_forall. intros t Ht. apply in_map_iff in Ht as [b [<- Hb]].
      destruct (Hc b Hb) as [y [Ey Ly]]. apply (holds_gt _ _ _ c y); [reflexivity| |exact Ly]. rewrite <- Ey. apply eval_agree. intros v Hv.
      assert (Y : In v (ls_vars s)).
      { destruct Hb as [<-|Hb]; [destruct Hv|]. apply in_concat in Hb as [l [Hl Hb]]. apply in_map_iff in Hl as [w [<- Hw]]. destruct (is_int w); [|destruct Hb].
        destruct Hb as [<-|[<-|[]]]; cbn in Hv; destruct Hv as [<-|[]]; exact Hw. }
      destruct (live_facts s E) as [sorts [_ [Y2 [_ [Y4 _]]]]]. rewrite Y2 in Y. apply in_map_iff in Y as [[[x y'] so] [<- Y]]. cbn [fst snd vbase vmt_var]. apply wl_var. apply (Y4 x y' so Y).
  - rewrite (V1 n eq_refl). assert (Fn : fits file (e n)) by (apply (ex_fits _ _ _ _ X); lia).
    assert (Xn : execution file st n e) by (destruct X; split; auto; intros; auto with arith).
    assert (Now : (n = 0 -> now file (e n) = st) /\ forall k, n = S k -> now file (e n) = then_ file (e k)).
    { split; [intros ->; apply (ex_first _ _ _ _ X)|]. intros k ->. apply (ex_next _ _ _ _ X). lia. }
    destruct Now as [Now0 Now1]. destruct (SV _ (e n) (fun nm so H => wl_same (e n) 0 0 Fn nm so H)) as [_ [_ _]].
    clear V0 V1. inversion R as [|? m' R' Y|? m' R' Y]; subst.
    + pose proof (IH m' e Xn R' _ Now0 Now1) as D. set (x := (c - Z.of_nat m')%Z) in *. replace (c - Z.of_nat (S m'))%Z with (x - 1)%Z by (unfold x; lia).
      rewrite <- (proj2 (state_values (e n) x (x - 1) Fn)).
      apply (cder (signal_clauses s) (mkClause (TerminationModel.atom_of (ls_next s ++ [live_counter'])) (mkAnd [ls_trans s; ls_signal s; mkEq (Var live_counter') (mkMinus (Var live_counter) (mkInt 1))]) [TerminationModel.atom_of (ls_vars s ++ [live_counter])]) (with_live (e n) x (x - 1))).
      * right. right. left. reflexivity.
      * intros a [<-|[]]. cbn [asym TerminationModel.atom_of]. rewrite (proj1 (state_values (e n) x (x - 1) Fn)). exact D.
      * destruct (SV _ (e n) (wl_same (e n) x (x - 1) Fn)) as [_ [T [P _]]]. apply holds_and3. split; [apply T, (ex_step _ _ _ _ X); lia|]. split; [apply P, Y|].
        apply holds_eq. rewrite (minus_value _ _ _ x 1); reflexivity.
    + pose proof (IH m e Xn R' _ Now0 Now1) as D. set (x := (c - Z.of_nat m)%Z) in *.
      rewrite <- (proj2 (state_values (e n) x x Fn)).
      apply (cder (signal_clauses s) (mkClause (TerminationModel.atom_of (ls_next s ++ [live_counter'])) (mkAnd [ls_trans s; mkNot (ls_signal s); mkEq (Var live_counter') (Var live_counter)]) [TerminationModel.atom_of (ls_vars s ++ [live_counter])]) (with_live (e n) x x)).
      * right. left. reflexivity.
      * intros a [<-|[]]. cbn [asym TerminationModel.atom_of]. rewrite (proj1 (state_values (e n) x x Fn)). exact D.
      * destruct (SV _ (e n) (wl_same (e n) x x Fn)) as [_ [T [_ P]]]. apply holds_and3. split; [apply T, (ex_step _ _ _ _ X); lia|]. split; [apply holds_not, P, Y|]. apply holds_eq. reflexivity.
Qed.
(** The negative counter: the clauses derive [false]. *)
Lemma live_negative vs c e : fits file e -> now file e = vs -> (c < 0)%Z -> cderivable (signal_clauses s) TerminationModel.pred (vs ++ [VInt c]) -> cderivable (signal_clauses s) exit [].
Proof.
  intros F N C D. change (cderivable (signal_clauses s) (asym query_head) (avals (with_live e c c) query_head)).
  apply (cder (signal_clauses s) (mkClause query_head (mkLt (Var live_counter) (mkInt 0)) [TerminationModel.atom_of (ls_vars s ++ [live_counter])]) (with_live e c c)).
  - right. right. right. left. reflexivity.
  - intros a [<-|[]]. cbn [asym TerminationModel.atom_of]. rewrite (proj1 (state_values e c c F)), N. exact D.
  - unfold mkLt. apply holds_not. assert (EE : eval (with_live e c c) (mkLeq (mkInt 0) (Var live_counter)) = VBool (Z.leb 0 c)) by reflexivity. unfold holds, holdsb. rewrite EE. cbn [asb]. destruct (Z.leb_spec 0 c); [lia|discriminate].
Qed.
End System.
End Live.

(** The steps of an execution on which the property holds can be counted. *)
Lemma raised_total l_const l_mk file s : (forall real, vmt_logic_ok real (l_const real) (l_mk real)) -> live_file file -> names_versioned file -> vmt_live l_const l_mk file = Some s ->
  forall e n, (forall k, k < n -> fits file (e k)) -> exists m, raised file e n m.
Proof.
  intros L LF NV E e. destruct (live_facts l_const l_mk L file LF NV s E) as [_ [_ [_ [_ [_ [_ SV]]]]]].
  induction n as [|n IH]; intros F; [exists 0; constructor|]. destruct IH as [m R]; [intros k Hk; apply F; lia|].
  destruct (SV _ (e n) (wl_same file NV (e n) 0 0 (F n (Nat.lt_succ_diag_r n)))) as [_ [_ [P Q]]].
  destruct (holds_dec (with_live (e n) 0 0) (ls_signal s)) as [H|H]; [exists (S m); constructor 2|exists m; constructor 3]; tauto.
Qed.
(** C75.  The answer "valid": on the executions from an initial state the formula of the property holds in a bounded number of steps, so not infinitely often. *)
Theorem C75_liveness :
  forall l_const l_mk file engine, (forall real, vmt_logic_ok real (l_const real) (l_mk real)) -> live_file file -> names_versioned file -> engine_ok engine ->
    vmt_live_answer l_const l_mk engine file = Some "valid" ->
    forall s, initial file s ->
      (exists B, forall n m e, execution file s n e -> raised file e n m -> m <= B) /\
      (forall e, (forall n, execution file s n e) -> exists N, forall k, N <= k -> ~ says file ":live-property" true (e k)).
Proof.
  intros l_const l_mk file engine L LF NV EO A s I. unfold vmt_live_answer in A. destruct (vmt_live l_const l_mk file) as [sy|] eqn:E; [|discriminate].
  assert (N : ~ cderivable (signal_clauses sy) exit []).
  { destruct (engine (signal_clauses sy)) as [inv| |] eqn:Q; try discriminate A. apply (proj1 (EO _) inv Q). }
  assert (Bd : exists B, forall n m e, execution file s n e -> raised file e n m -> m <= B).
  { destruct (live_run l_const l_mk L file LF NV sy E s I) as [c Hc]. exists (S (Z.to_nat c)). intros n m e X R.
    assert (Y : exists n' m', m <= S m' /\ raised file e n' m' /\ (n = n' \/ n = S n') /\ (m = 0 \/ n' < n)).
    { inversion R as [|n0 m0 R0 Sy|n0 m0 R0 Sy]; subst; [exists 0, 0|exists n0, m0|exists n0, m]; repeat split; auto; lia. }
    destruct Y as [n' [m' [Y1 [Y2 [Y3 Y4]]]]]. destruct Y4 as [->|Y4]; [lia|]. destruct Y3 as [Y3|Y3]; [lia|]. subst n.
    destruct (Nat.le_gt_cases m' (Z.to_nat c)) as [G|G]; [lia|]. exfalso. apply N.
    assert (Xn : execution file s n' e) by (destruct X; split; auto; intros; auto with arith).
    apply (live_negative l_const l_mk L file LF NV sy E (now file (e n')) (c - Z.of_nat m') (e n')).
    - apply (ex_fits _ _ _ _ X). lia.
    - reflexivity.
    - lia.
    - apply (Hc n' m' e Xn Y2).
      + intros ->. apply (ex_first _ _ _ _ X).
      + intros k ->. apply (ex_next _ _ _ _ X). lia. }
  split; [exact Bd|]. destruct Bd as [B HB]. intros e X.
  assert (RT : forall n, exists m, raised file e n m) by (intros n; apply (raised_total l_const l_mk file sy L LF NV E); intros k Hk; apply (ex_fits _ _ _ _ (X n) k Hk)).
  destruct (classic (exists N, forall k, N <= k -> ~ says file ":live-property" true (e k))) as [Y|Y]; [exact Y|]. exfalso.
  assert (G : forall b, exists n m, raised file e n m /\ b <= m).
  { induction b as [|b [n [m [R Lb]]]]; [exists 0, 0; split; [constructor|lia]|].
    destruct (classic (exists k, n <= k /\ says file ":live-property" true (e k))) as [[k [Lk Sk]]|Z].
    - assert (Mono : forall d, exists m', raised file e (d + n) m' /\ b <= m').
      { induction d as [|d [m' [R' L']]]; [exists m; auto|]. cbn [Nat.add]. destruct (RT (S (d + n))) as [m2 R2].
        assert (Z2 : says file ":live-property" true (e (d + n)) \/ says file ":live-property" false (e (d + n))) by (inversion R2; auto).
        destruct Z2 as [Z2|Z2]; [exists (S m'); split; [constructor 2; assumption|lia]|exists m'; split; [constructor 3; assumption|exact L']]. }
      destruct (Mono (k - n)) as [m' [R' L']]. replace (k - n + n) with k in R' by lia. exists (S k), (S m'). split; [constructor 2; assumption|lia].
    - exfalso. apply Y. exists n. intros k Lk Sk. apply Z. eauto. }
  destruct (G (S B)) as [n [m [R Lm]]]. specialize (HB n m e (X n) R). lia.
Qed.
Print Assumptions C75_liveness.
(** The three answers. *)
Theorem C75_answers : forall l_const l_mk engine file a, vmt_live_answer l_const l_mk engine file = Some a -> In a ["valid"; "unknown"; "error"].
Proof. intros l_const l_mk engine file a. unfold vmt_live_answer. destruct (vmt_live _ _ file) as [s|]; [|discriminate]. destruct (engine _); intros H; injection H as <-; cbn; auto. Qed.
Print Assumptions C75_answers.

(** ** Names without versions *)
Lemma next_name_plain c tail : rfind2 hash (String c tail) = None -> (forall d r, tail = String d r -> Names.is_digit d = false /\ d <> "-"%char) -> next_name (String c tail) = None.
Proof.
  intros R T. unfold next_name. rewrite R. destruct tail as [|d r]; [reflexivity|]. destruct (T d r eq_refl) as [D M]. unfold stoi. destruct (Ascii.eqb_spec d "-"); [contradiction|]. cbn [digits]. rewrite D. reflexivity.
Qed.
(** A liveness problem with a state variable whose name has no version is rejected (by an exception of std::stoi). *)
Theorem C75_unversioned_rejected :
  forall l_const l_mk engine file x y, (forall real, vmt_logic_ok real (l_const real) (l_mk real)) -> live_file file -> In (x, y) (pairs file) ->
    (exists c tail, x = String c tail /\ rfind2 hash x = None /\ forall d r, tail = String d r -> Names.is_digit d = false /\ d <> "-"%char) ->
    vmt_live_answer l_const l_mk engine file = None.
Proof.
  intros l_const l_mk engine file x y L LF H [c [tail [-> [R T]]]]. pose proof (next_name_plain c tail R T) as NN. unfold vmt_live_answer. destruct (vmt_live l_const l_mk file) as [s|] eqn:E; [exfalso|reflexivity].
  unfold vmt_live in E. pose proof (lf_form _ LF) as V. pose proof (parsed_swap file LF l_const l_mk) as PS. destruct (parse_vmt l_const l_mk file) as [[real g]|] eqn:P; [|discriminate]. cbn [option_map fst snd] in PS.
  assert (R' : real = over_reals (map with_invariant file)).
  { unfold parse_vmt in PS. rewrite (gather_ok _ (vf_commands _ V)) in PS. cbn [b_vars b_defs app] in PS.
    replace (map snd (declared (map with_invariant file)) ++ map vd_type (map vdef_of (definitions (map with_invariant file)))) with (types (map with_invariant file)) in PS by (unfold types; rewrite map_map; reflexivity). rewrite (choose_ok _ V) in PS.
    destruct (build_with _ _ _); [|discriminate]. injection PS as PS _. congruence. }
  rewrite R' in PS. destruct (parsed_facts l_const l_mk L _ V (swap g) PS) as [vs [di [dt [dp [ti [tt [tp [FN [I1 [R1 [J1 [L1 [_ [_ [_ [W _]]]]]]]]]]]]]]]]. cbn [swap g_init g_trans g_inv g_live g_pairs] in *.
  unfold is_safety, is_liveness, as_live in E. rewrite L1, J1, I1, R1 in E. cbn [length Nat.eqb andb] in E.
  destruct (mapo _ (g_pairs g)) as [svs|] eqn:M1; [|discriminate]. destruct (mapo _ svs) as [ns|] eqn:M2; [|discriminate]. rewrite (pairs_eq file LF) in W. apply mapo_some in M1. apply mapo_some in M2. clear -W M1 M2 H NN FN.
  revert svs ns M1 M2. induction W as [|p q ps qs [vx [X1 [X2 X3]]] W IH]; intros svs ns M1 M2; [destruct H|].
  destruct svs as [|v svs]; [discriminate M1|]. destruct ns as [|w ns]; [discriminate M2|]. cbn [map] in M1, M2. rewrite X2 in M1. injection M1 as <- M1. injection M2 as Mv M2.
  destruct H as [->|H]; [|eapply IH; eauto]. cbn [fst] in X1. rewrite FN in X1. destruct (declared_sort _ _) as [so|]; [|discriminate]. injection X1 as <-. cbn [vmt_var vbase] in Mv. rewrite NN in Mv. discriminate Mv.
Qed.
Print Assumptions C75_unversioned_rejected.

(** ** Examples *)
Module ExLive.
Import ExVmt.
(** x = 3, 2, 1, 0, -1, ...: the property 1 <= x holds three times. *)
Definition live_as (key x y : string) : list sexpr :=
  [ap "declare-fun" [A x; SList []; A "Int"];
   ap "declare-fun" [A y; SList []; A "Int"];
   ap "define-fun" [A "sv"; SList []; A "Int"; ap "!" [A x; A ":next"; A y]];
   ap "define-fun" [A "init"; SList []; A "Bool"; ap "!" [ap "=" [A x; A "3"]; A ":init"; A "true"]];
   ap "define-fun" [A "trans"; SList []; A "Bool"; ap "!" [ap "=" [A x; ap "+" [A y; A "1"]]; A ":trans"; A "true"]];
   ap "define-fun" [A "prop"; SList []; A "Bool"; ap "!" [ap "<=" [A "1"; A x]; A key; A "0"]]].
Definition live := live_as ":live-property".
(** Two Booleans whose next-state variables are named crosswise. *)
Definition crossed_as (key : string) : list sexpr :=
  [ap "declare-fun" [A "a##0"; SList []; A "Bool"];
   ap "declare-fun" [A "a##1"; SList []; A "Bool"];
   ap "declare-fun" [A "b##0"; SList []; A "Bool"];
   ap "declare-fun" [A "b##1"; SList []; A "Bool"];
   ap "define-fun" [A "sa"; SList []; A "Bool"; ap "!" [A "a##0"; A ":next"; A "b##1"]];
   ap "define-fun" [A "sb"; SList []; A "Bool"; ap "!" [A "b##0"; A ":next"; A "a##1"]];
   ap "define-fun" [A "init"; SList []; A "Bool"; ap "!" [ap "and" [A "a##0"; ap "not" [A "b##0"]]; A ":init"; A "true"]];
   ap "define-fun" [A "trans"; SList []; A "Bool"; ap "!" [ap "and" [A "a##1"; ap "not" [A "b##1"]]; A ":trans"; A "true"]];
   ap "define-fun" [A "prop"; SList []; A "Bool"; ap "!" [A "b##0"; A key; A "0"]]].
Definition crossed := crossed_as ":live-property".
Ltac bodies := repeat (constructor; [first [apply bf_init|apply bf_trans|apply bf_property|apply (bf_next "x##0" "x##1")|apply (bf_next "x" "y")|apply (bf_next "a##0" "b##1")|apply (bf_next "b##0" "a##1")|apply bf_plain; discriminate]|]); constructor.
Ltac commands := repeat (constructor; [first [apply cf_info|apply cf_declare; discriminate|apply cf_define; discriminate]|]); constructor.
Ltac nodup := cbn; repeat constructor; cbn; intros H; repeat (destruct H as [H|H]; [discriminate|]); contradiction.
Ltac form := split; [commands|bodies|intros [H1 H2]; cbn in H1, H2; repeat (destruct H1 as [H1|H1]; [discriminate|]); try contradiction; repeat (destruct H2 as [H2|H2]; [discriminate|]); contradiction
  |nodup|match goal with |- Forall name ?l => let l' := eval vm_compute in l in change (Forall name l') end; repeat constructor; discriminate|cbn; repeat (eexists; split; [reflexivity|]; split; [reflexivity|]); exact I
  |intros d H M; cbn in H; repeat (destruct H as [<-|H]; [try discriminate M; reflexivity|]); contradiction|reflexivity|reflexivity|reflexivity|nodup
  |intros x y H; cbn in H; repeat (destruct H as [H|H]; [injection H as <- <-; eexists; cbn; eauto 8|]); contradiction].
Lemma live_ok : live_file (live "x##0" "x##1").
Proof.
  split; [commands|change (map with_invariant (live "x##0" "x##1")) with (live_as ":invar-property" "x##0" "x##1"); form|intros d H; cbn in H; repeat (destruct H as [<-|H]; [reflexivity|]); contradiction]. Qed.
Lemma plain_ok : live_file (live "x" "y").
Proof.
  split; [commands|change (map with_invariant (live "x" "y")) with (live_as ":invar-property" "x" "y"); form|intros d H; cbn in H; repeat (destruct H as [<-|H]; [reflexivity|]); contradiction]. Qed.
Lemma crossed_ok : live_file crossed.
Proof.
  split; [commands|change (map with_invariant crossed) with (crossed_as ":invar-property"); form|intros d H; cbn in H; repeat (destruct H as [<-|H]; [reflexivity|]); contradiction]. Qed.
Lemma live_names : names_versioned (live "x##0" "x##1").
Proof. split; [intros x y H; cbn in H; destruct H as [H|[]]; injection H as <- <-; apply (vp_version "x" 0); reflexivity|split; intros H; cbn in H; repeat (destruct H as [H|H]; [discriminate|]); contradiction]. Qed.
Definition the_live : live_system := Eval vm_compute in match vmt_live plain_const plain_mk (live "x##0" "x##1") with Some s => s | None => mkLive [] [] tt_true tt_true tt_true end.
Lemma live_is : vmt_live plain_const plain_mk (live "x##0" "x##1") = Some the_live.
Proof. vm_compute. reflexivity. Qed.
Definition the_crossed : live_system := Eval vm_compute in match vmt_live plain_const plain_mk crossed with Some s => s | None => mkLive [] [] tt_true tt_true tt_true end.
Lemma crossed_is : vmt_live plain_const plain_mk crossed = Some the_crossed.
Proof. vm_compute. reflexivity. Qed.
Ltac iv r v := let z := fresh "z" in let E := fresh "E" in destruct (coerce_SInt (r v)) as [z E]; rewrite ?E in *; clear E.
Ltac ivs := repeat match goal with |- context [coerce SInt (?r ?v)] => iv r v end.
Ltac bv r v := let z := fresh "b" in let E := fresh "E" in destruct (coerce_SBool (r v)) as [z E]; rewrite ?E in *; clear E.
Ltac bvs := repeat match goal with |- context [coerce SBool (?r ?v)] => bv r v end.
Definition M (p : sym) (vs : list value) : Prop := match vs with [VInt x; VInt c] => (0 < c /\ x < c)%Z | _ => False end.
Lemma live_safe : ~ cderivable (signal_clauses the_live) exit [].
Proof.
  apply csat_iff. exists M. split; [|intros []]. intros c r Hc. unfold signal_clauses, the_live in Hc. cbv zeta in Hc. destruct Hc as [<-|[<-|[<-|[<-|[]]]]]; cbn [chead cbody cfla asym]; intros Hb Hf.
  1: clear Hb. 2-4: specialize (Hb _ (or_introl eq_refl)); revert Hb. all: revert Hf; unfold holds, holdsb; cbn -[Z.mul Z.add Z.leb]; ivs; cbn -[Z.mul Z.add Z.leb]; intros H; try intros Hb.
  all: repeat match type of H with context [Z.leb ?a ?b] => destruct (Z.leb_spec a b); cbn -[Z.mul Z.add Z.leb] in H end; try discriminate.
  all: repeat match type of H with context [value_eqb ?a ?b] => destruct (value_eqb_spec a b) as [Q|Q]; [injection Q as Q|]; cbn -[Z.mul Z.add Z.leb] in H end; try discriminate; try lia.
Qed.
Definition Mc (p : sym) (vs : list value) : Prop := match vs with [VBool a; VBool b; VInt c] => a = true /\ b = false /\ (0 < c)%Z | _ => False end.
Lemma crossed_safe : ~ cderivable (signal_clauses the_crossed) exit [].
Proof.
  apply csat_iff. exists Mc. split; [|intros []]. intros c r Hc. unfold signal_clauses, the_crossed in Hc. cbv zeta in Hc. destruct Hc as [<-|[<-|[<-|[<-|[]]]]]; cbn [chead cbody cfla asym]; intros Hb Hf.
  1: clear Hb. 2-4: specialize (Hb _ (or_introl eq_refl)); revert Hb. all: revert Hf; unfold holds, holdsb; cbn -[Z.mul Z.add Z.leb]; ivs; bvs; cbn -[Z.mul Z.add Z.leb]; intros H; try intros Hb.
  all: repeat match type of H with context [Z.leb ?a ?b] => destruct (Z.leb_spec a b); cbn -[Z.mul Z.add Z.leb] in H end; try discriminate.
  all: repeat match goal with b : bool |- _ => destruct b; cbn -[Z.mul Z.add Z.leb] in * end; try discriminate; try tauto; try (destruct Hb as [? [? ?]]; discriminate).
  all: repeat match type of H with context [value_eqb ?a ?b] => destruct (value_eqb_spec a b) as [Q|Q]; [injection Q as Q|]; cbn -[Z.mul Z.add Z.leb] in H end; try discriminate; try (repeat split; lia); try lia.
Qed.
Definition eng : engine := table_engine [(signal_clauses the_live, ESafe tt_true); (signal_clauses the_crossed, ESafe tt_true)].
Lemma eng_ok : engine_ok eng.
Proof. apply table_engine_ok; intros cs y [H|[H|[]]]; inversion H; subst; [exact live_safe|exact crossed_safe]. Qed.
Lemma live_valid : vmt_live_answer plain_const plain_mk eng (live "x##0" "x##1") = Some "valid".
Proof. unfold vmt_live_answer. rewrite live_is. vm_compute. reflexivity. Qed.
Lemma crossed_valid : vmt_live_answer plain_const plain_mk eng crossed = Some "valid".
Proof. unfold vmt_live_answer. rewrite crossed_is. vm_compute. reflexivity. Qed.

(** The only execution of the first file. *)
Definition down (k : nat) : venv := fun n => VInt (if String.eqb n "x##1" then 2 - Z.of_nat k else 3 - Z.of_nat k).
Lemma down_fits k : fits (live "x##0" "x##1") (down k).
Proof. intros x t s H W. cbn in H. destruct H as [H|[H|[]]]; injection H as <- <-; injection W as <-; reflexivity. Qed.
Definition nth_def (file : list sexpr) (i : nat) : definition := nth i (definitions file) (mkDef "" "" (A "")).
Lemma says_at file key b r i : i < length (definitions file) -> marked key (nth_def file i) = true -> complete file r (d_name (nth_def file i)) = VBool b -> says file key b r.
Proof. intros H M C. exists (nth_def file i). split; [apply nth_In, H|]. auto. Qed.
Lemma down_initial : initial (live "x##0" "x##1") [VInt 3].
Proof. exists (down 0). split; [apply down_fits|]. split; [reflexivity|]. apply (says_at _ _ _ _ 1); [cbn; lia|reflexivity|vm_compute; reflexivity]. Qed.
Lemma down_run n : execution (live "x##0" "x##1") [VInt 3] n down.
Proof.
  split.
  - exact down_initial.
  - reflexivity.
  - intros k _. apply down_fits.
  - intros k _. apply (says_at _ _ _ _ 2); [cbn; lia|reflexivity|].
    transitivity (VBool (Z.eqb (3 - Z.of_nat k) (2 - Z.of_nat k + 1))); [reflexivity|]. f_equal. apply Z.eqb_eq. lia.
  - intros k _. change ([VInt (3 - Z.of_nat (S k))] = [VInt (2 - Z.of_nat k)]). replace (3 - Z.of_nat (S k))%Z with (2 - Z.of_nat k)%Z by lia. reflexivity.
Qed.
Lemma down_signal k : says (live "x##0" "x##1") ":live-property" (Z.leb 1 (3 - Z.of_nat k)) (down k).
Proof. apply (says_at _ _ _ _ 3); [cbn; lia|reflexivity|reflexivity]. Qed.
(** The conditions of the theorem are met by a file whose property holds in three steps of an execution. *)
Example nonvacuous : (forall real, vmt_logic_ok real (plain_const real) (plain_mk real)) /\ live_file (live "x##0" "x##1") /\ names_versioned (live "x##0" "x##1") /\ engine_ok eng /\
  vmt_live_answer plain_const plain_mk eng (live "x##0" "x##1") = Some "valid" /\ execution (live "x##0" "x##1") [VInt 3] 5 down /\ raised (live "x##0" "x##1") down 5 3.
Proof.
  split; [exact logic_ok|]. split; [exact live_ok|]. split; [exact live_names|]. split; [exact eng_ok|]. split; [exact live_valid|]. split; [apply down_run|].
  apply raised_no; [|apply (down_signal 4)]. apply raised_no; [|apply (down_signal 3)]. apply raised_yes; [|apply (down_signal 2)]. apply raised_yes; [|apply (down_signal 1)]. apply raised_yes; [constructor|apply (down_signal 0)].
Qed.
(** The same file with names that are not versioned. *)
Example unversioned : live_file (live "x" "y") /\ vmt_live_answer plain_const plain_mk eng (live "x" "y") = None.
Proof.
  split; [exact plain_ok|]. apply (C75_unversioned_rejected plain_const plain_mk eng _ "x" "y" logic_ok plain_ok); [cbn; auto|].
  exists "x"%char, "". split; [reflexivity|]. split; [reflexivity|]. intros d r H. discriminate H.
Qed.
(** The crossed file: a becomes false and b becomes true in every step. *)
Definition cross (k : nat) : venv := fun n => VBool (if String.eqb n "a##0" then Nat.eqb k 0 else if String.eqb n "b##0" then negb (Nat.eqb k 0) else String.eqb n "a##1").
Lemma cross_fits k : fits crossed (cross k).
Proof. intros x t s H W. cbn in H. repeat (destruct H as [H|H]; [injection H as <- <-; injection W as <-; reflexivity|]). contradiction. Qed.
Lemma cross_run n : execution crossed [VBool true; VBool false] n cross.
Proof.
  split.
  - exists (cross 0). split; [apply cross_fits|]. split; [reflexivity|]. apply (says_at _ _ _ _ 2); [cbn; lia|reflexivity|vm_compute; reflexivity].
  - reflexivity.
  - intros k _. apply cross_fits.
  - intros k _. apply (says_at _ _ _ _ 3); [cbn; lia|reflexivity|reflexivity].
  - intros k _. reflexivity.
Qed.
Lemma cross_signal k : says crossed ":live-property" true (cross (S k)).
Proof. apply (says_at _ _ _ _ 4); [cbn; lia|reflexivity|reflexivity]. Qed.
End ExLive.
(** "valid" does not mean that the property holds from some point on (what VMT-LIB calls valid, FG p): it can be false from some point on.  *)
Theorem C75_polarity_refuted :
  exists l_const l_mk engine file s e, (forall real, vmt_logic_ok real (l_const real) (l_mk real)) /\ live_file file /\ names_versioned file /\ engine_ok engine /\
    vmt_live_answer l_const l_mk engine file = Some "valid" /\ (forall n, execution file s n e) /\ exists N, forall k, N <= k -> says file ":live-property" false (e k).
Proof.
  exists ExVmt.plain_const, ExVmt.plain_mk, ExLive.eng, (ExLive.live "x##0" "x##1"), [VInt 3], ExLive.down. split; [exact ExVmt.logic_ok|]. split; [exact ExLive.live_ok|]. split; [exact ExLive.live_names|]. split; [exact ExLive.eng_ok|]. split; [exact ExLive.live_valid|].
  split; [exact ExLive.down_run|]. exists 3. intros k Hk. pose proof (ExLive.down_signal k) as S. assert (X : Z.leb 1 (3 - Z.of_nat k) = false) by (apply Z.leb_gt; lia). rewrite X in S. exact S.
Qed.
Print Assumptions C75_polarity_refuted.
(** The declared next-state variables are not used: with other names the answer "valid" is wrong. *)
Theorem C75_next_names_refuted :
  exists l_const l_mk engine file s e, (forall real, vmt_logic_ok real (l_const real) (l_mk real)) /\ live_file file /\ engine_ok engine /\
    vmt_live_answer l_const l_mk engine file = Some "valid" /\ (forall n, execution file s n e) /\ forall k, says file ":live-property" true (e (S k)).
Proof.
  exists ExVmt.plain_const, ExVmt.plain_mk, ExLive.eng, ExLive.crossed, [VBool true; VBool false], ExLive.cross. split; [exact ExVmt.logic_ok|]. split; [exact ExLive.crossed_ok|]. split; [exact ExLive.eng_ok|]. split; [exact ExLive.crossed_valid|].
  split; [exact ExLive.cross_run|exact ExLive.cross_signal].
Qed.
Print Assumptions C75_next_names_refuted.
