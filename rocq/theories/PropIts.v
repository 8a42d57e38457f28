(** * C71: the clauses made from an integer transition system run forever iff the system does. *)
From Verif Require Import Syntax Solver Graph ChcSystem SExprModel SExprProofs PropSExpr Names GraphSem NormModel NormProofs NormRun PropNorm TermRuns PropTermFront ItsModel ItsSpec ItsProofs.
Open Scope string_scope.
Open Scope list_scope.
Open Scope nat_scope.

(** ** Parsing *)
Lemma parse_at e f args : at_location e f args -> parse_location e = Some (mkLoc f args).
Proof.
  intros [[-> ->]| ->]; cbn [parse_location atom_of]; [unfold str; rewrite string_of_list_ascii_of_string; reflexivity|].
  change (Atom (list_ascii_of_string f)) with (atom_of f). change (fun s => Atom (list_ascii_of_string s)) with atom_of. rewrite as_atom_of, mapo_atoms. reflexivity.
Qed.
Lemma at_unique e f args f' args' : at_location e f args -> at_location e f' args' -> f = f' /\ args = args'.
Proof. intros A B. apply parse_at in A, B. rewrite A in B. injection B as -> ->. auto. Qed.
Lemma parse_arith_total e : arith_form e -> exists x, parse_guard e = Some x.
Proof.
  induction e as [s|l IH] using sexpr_ind'; intros F; [cbn; eauto|]. destruct l as [|[op|] l]; try contradiction. inversion IH as [|? ? _ IHl]; subst. cbn [arith_form] in F. rewrite fold_and in F. destruct F as [Fo [_ F]].
  destruct (mapo_total parse_guard l) as [xs M]; [rewrite Forall_forall in *; auto|]. cbn [parse_guard]. change (str op) with (word op). rewrite M. cbn in Fo. repeat (destruct Fo as [<-|Fo]; [cbn; eauto|]). destruct Fo.
Qed.
Lemma parse_guard_total e : guard_form e -> exists x, parse_guard e = Some x.
Proof.
  induction e as [s|l IH] using sexpr_ind'; intros F; [contradiction|]. destruct l as [|[op|] l]; try contradiction. inversion IH as [|? ? _ IHl]; subst. cbn [guard_form] in F. cbn [parse_guard]. change (str op) with (word op).
  destruct (String.eqb_spec (word op) "and") as [Y|Y].
  { rewrite fold_and in F. destruct (mapo_total parse_guard l) as [xs M]; [rewrite Forall_forall in *; auto|]. rewrite Y, M. cbn. eauto. }
  destruct (String.eqb_spec (word op) "or") as [Z|Z].
  { rewrite fold_and in F. destruct (mapo_total parse_guard l) as [xs M]; [rewrite Forall_forall in *; auto|]. rewrite Z, M. cbn. eauto. }
  destruct (String.eqb (word op) "exists").
  { destruct l as [|ds [|b [|? ?]]]; try contradiction. inversion IHl as [|? ? _ I2]; subst. inversion I2 as [|? ? Hb _]; subst. auto. }
  destruct F as [Fo [_ F]]. destruct (mapo_total parse_guard l) as [xs M]; [rewrite Forall_forall in *; intros x Hx; apply parse_arith_total, F, Hx|]. rewrite M. cbn in Fo. repeat (destruct Fo as [<-|Fo]; [cbn; eauto|]). destruct Fo.
Qed.
Definition rule_args (e : sexpr) (args : list sexpr) : Prop := e = SList (atom_of "rule" :: args).
(** The effect of declarations on the parsed system. *)
Record effect (es : list sexpr) (s s' : its) : Prop := {
  ef_locs : forall d, In d (i_locations s') <-> In d (i_locations s) \/ declares es (ld_name d) (ld_arity d);
  ef_rules : forall r, In r (i_rules s') <-> In r (i_rules s) \/ exists args, In (SList (atom_of "rule" :: args)) es /\ parse_rule args = Some r;
  ef_entry : (i_entry s' = i_entry s /\ forall f, ~ In (SList [atom_of "entrypoint"; atom_of f]) es) \/ exists f, i_entry s' = Some f /\ In (SList [atom_of "entrypoint"; atom_of f]) es
}.
Lemma declares_one e f n : declares [e] f n <-> (n = 0 /\ e = SList [atom_of "fun"; atom_of f; atom_of "Int"]) \/ e = SList [atom_of "fun"; atom_of f; SList (atom_of "->" :: repeat (atom_of "Int") (S n))].
Proof. unfold declares. cbn [In]. split; [intros [[A [B|[]]]|[B|[]]]; auto|intros [[A B]|B]; auto]. Qed.
Lemma map_rep {A B} (f : A -> B) x n : map f (repeat x n) = repeat (f x) n.
Proof. induction n as [|n IH]; [reflexivity|]. cbn. rewrite IH. reflexivity. Qed.
Lemma repeat_len {A} (x : A) n m : repeat x n = repeat x m -> n = m.
Proof. intros H. apply (f_equal (@length A)) in H. rewrite !repeat_length in H. exact H. Qed.
Lemma resolve_effect file e s : decl_form file e -> exists s', resolve e s = Some s' /\ effect [e] s s'.
Proof.
  intros D. destruct D as [k x Hk|f|f n|f He|l r a b Hl Hr|l r a b g Hl Hr Hg Hs Ha].
  - exists s. split.
    + unfold resolve. rewrite as_atom_of. destruct Hk as [<-|[<-|[]]]; cbn; reflexivity.
    + split; cbn [In].
      * intros d. rewrite declares_one. split; [auto|]. intros [H|[[_ H]|H]]; [exact H|destruct Hk as [<-|[<-|[]]]; discriminate H..].
      * intros d. split; [auto|]. intros [H|[args [[H|[]] _]]]; [exact H|destruct Hk as [<-|[<-|[]]]; discriminate H].
      * left. split; [reflexivity|]. intros f [H|[]]. destruct Hk as [<-|[<-|[]]]; discriminate H.
  - assert (E : parse_fun [atom_of f; atom_of "Int"] = Some (mkDecl f 0)) by (unfold parse_fun; rewrite as_atom_of; reflexivity).
    eexists. split; [unfold resolve; rewrite as_atom_of; cbn [String.eqb orb Ascii.eqb Bool.eqb]; rewrite E; cbn [option_map]; reflexivity|]. split; cbn [i_locations i_rules i_entry].
    + intros d. rewrite in_app_iff, declares_one. cbn [In]. split.
      * intros [H|[<-|[]]]; [auto|]. right. left. auto.
      * intros [H|[[E2 H]|H]]; [auto| |discriminate H]. right. left. destruct d as [dn da]. cbn [ld_name ld_arity] in *. subst da. f_equal.
        injection H as H. apply atom_inj. unfold atom_of. congruence.
    + intros x. split; [auto|]. intros [H|[args [[H|[]] _]]]; [exact H|discriminate H].
    + left. split; [reflexivity|]. intros x [H|[]]. discriminate H.
  - assert (E : parse_fun [atom_of f; SList (atom_of "->" :: repeat (atom_of "Int") (S n))] = Some (mkDecl f n)).
    { unfold parse_fun. rewrite !as_atom_of. change (String.eqb "->" "->") with true. cbv iota. replace (repeat (atom_of "Int") (S n)) with (map atom_of (repeat "Int" (S n))) by apply map_rep.
      rewrite mapo_atoms, repeat_length. f_equal. f_equal. lia. }
    eexists. split; [unfold resolve; rewrite as_atom_of; cbn [String.eqb orb Ascii.eqb Bool.eqb]; rewrite E; cbn [option_map]; reflexivity|]. split; cbn [i_locations i_rules i_entry].
    + intros d. rewrite in_app_iff, declares_one. cbn [In]. split.
      * intros [H|[<-|[]]]; [auto|]. right. right. reflexivity.
      * intros [H|[[E2 H]|H]]; [auto|discriminate H|]. right. left. destruct d as [dn da]. cbn [ld_name ld_arity] in *. injection H as H1 H2.
        assert (X : atom_of f = atom_of dn) by (unfold atom_of; congruence). apply atom_inj in X. apply repeat_len in H2. congruence.
    + intros x. split; [auto|]. intros [H|[args [[H|[]] _]]]; [exact H|discriminate H].
    + left. split; [reflexivity|]. intros x [H|[]]. discriminate H.
  - eexists. split; [unfold resolve; rewrite as_atom_of; cbn [String.eqb orb Ascii.eqb Bool.eqb]; rewrite as_atom_of; cbn [option_map]; reflexivity|]. split; cbn [i_locations i_rules i_entry].
    + intros d. rewrite declares_one. split; [auto|]. intros [H|[[_ H]|H]]; [exact H|discriminate H..].
    + intros x. split; [auto|]. intros [H|[args [[H|[]] _]]]; [exact H|discriminate H].
    + right. exists f. split; [reflexivity|left; reflexivity].
  - destruct Hl as [fl [Al _]], Hr as [fr [Ar _]].
    assert (E : parse_rule [l; r] = Some (mkRule (mkLoc fl a) (mkLoc fr b) None)) by (unfold parse_rule; rewrite (parse_at _ _ _ Al), (parse_at _ _ _ Ar); reflexivity).
    eexists. split; [unfold resolve; rewrite as_atom_of; cbn [String.eqb orb Ascii.eqb Bool.eqb]; rewrite E; cbn [option_map]; reflexivity|]. split; cbn [i_locations i_rules i_entry].
    + intros d. rewrite declares_one. split; [auto|]. intros [H|[[_ H]|H]]; [exact H|discriminate H..].
    + intros x. rewrite in_app_iff. cbn [In]. split.
      * intros [H|[<-|[]]]; [auto|]. right. exists [l; r]. auto.
      * intros [H|[args [[H|[]] P]]]; [auto|]. right. left. injection H as <-. congruence.
    + left. split; [reflexivity|]. intros x [H|[]]. discriminate H.
  - destruct Hl as [fl [Al _]], Hr as [fr [Ar _]]. destruct (parse_guard_total g Hg) as [gx G].
    assert (E : parse_rule [l; r; atom_of ":guard"; g] = Some (mkRule (mkLoc fl a) (mkLoc fr b) (Some gx))) by (unfold parse_rule; rewrite (parse_at _ _ _ Al), (parse_at _ _ _ Ar), as_atom_of, G; reflexivity).
    eexists. split; [unfold resolve; rewrite as_atom_of; cbn [String.eqb orb Ascii.eqb Bool.eqb]; rewrite E; cbn [option_map]; reflexivity|]. split; cbn [i_locations i_rules i_entry].
    + intros d. rewrite declares_one. split; [auto|]. intros [H|[[_ H]|H]]; [exact H|discriminate H..].
    + intros x. rewrite in_app_iff. cbn [In]. split.
      * intros [H|[<-|[]]]; [auto|]. right. exists [l; r; atom_of ":guard"; g]. auto.
      * intros [H|[args [[H|[]] P]]]; [auto|]. right. left. injection H as <-. congruence.
    + left. split; [reflexivity|]. intros x [H|[]]. discriminate H.
Qed.
Lemma declares_cons e es f n : declares (e :: es) f n <-> declares [e] f n \/ declares es f n.
Proof. unfold declares. cbn [In]. tauto. Qed.
Lemma parse_effect file es : Forall (decl_form file) es -> forall s, exists s', parse_its_from es s = Some s' /\ effect es s s'.
Proof.
  induction 1 as [|e es He _ IH]; intros s.
  - exists s. split; [reflexivity|]. split.
    + intros d. split; [auto|]. intros [H|[[_ []]|[]]]. exact H.
    + intros r. split; [auto|]. intros [H|[args [[] _]]]. exact H.
    + left. auto.
  - destruct (resolve_effect file e s He) as [s1 [E1 [A1 B1 C1]]]. destruct (IH s1) as [s2 [E2 [A2 B2 C2]]]. exists s2. split; [cbn [parse_its_from]; rewrite E1; exact E2|]. split.
    + intros d. rewrite A2, A1, (declares_cons e es). tauto.
    + intros r. rewrite B2, B1. cbn [In]. split.
      * intros [[H|[args [[H|[]] P]]]|[args [H P]]]; [auto|right; exists args; auto..].
      * intros [H|[args [[H|H] P]]]; [auto|left; right; exists args; auto|right; exists args; auto].
    + cbn [In]. destruct C2 as [[E N]|[f [E I]]]; [|right; exists f; auto]. destruct C1 as [[E' N']|[f [E' [I|[]]]]]; [|right; exists f; split; [congruence|auto]].
      left. split; [congruence|]. intros f [X|X]; [apply (N' f); left; exact X|apply (N f X)].
Qed.

Definition head_of (e : sexpr) : sexpr := match e with SList (a :: _) => a | _ => e end.
Definition tail_of (e : sexpr) : list sexpr := match e with SList (_ :: l) => l | _ => [] end.
Lemma not_head k x : In k ["format"; "theory"] -> atom_of k = atom_of x -> x <> "entrypoint" /\ x <> "rule".
Proof. intros H E. apply atom_inj in E. subst x. destruct H as [<-|[<-|[]]]; split; discriminate. Qed.
Lemma decl_entry file e f : decl_form file e -> e = SList [atom_of "entrypoint"; atom_of f] -> exists n, declares file f n.
Proof.
  intros D E. pose proof (f_equal head_of E) as Eh. pose proof (f_equal tail_of E) as Et. clear E.
  destruct D as [k x Hk|g|g n|g He|l r a b Hl Hr|l r a b g Hl Hr Hg Hs Ha]; cbn [head_of tail_of] in Eh, Et; try discriminate Eh; [destruct (not_head k _ Hk Eh) as [N _]; congruence|].
  injection Et as Et. assert (Y : atom_of g = atom_of f) by (unfold atom_of; congruence). apply atom_inj in Y. subst g. exact He.
Qed.
Lemma decl_rule file e l r rest : decl_form file e -> e = SList (atom_of "rule" :: l :: r :: rest) ->
  exists a b, location_form file l a /\ location_form file r b /\ (rest = [] \/ exists g, rest = [atom_of ":guard"; g] /\ guard_form g /\ scopes_apart g /\ apart (bound g) (a ++ b)).
Proof.
  intros D E. pose proof (f_equal head_of E) as Eh. pose proof (f_equal tail_of E) as Et. clear E.
  destruct D as [k x Hk|g|g n|g He|l0 r0 a b Hl Hr|l0 r0 a b g Hl Hr Hg Hs Ha]; cbn [head_of tail_of] in Eh, Et; try discriminate Eh; [destruct (not_head k _ Hk Eh) as [_ N]; congruence| |].
  - injection Et as -> -> <-. exists a, b. auto.
  - injection Et as -> -> <-. exists a, b. split; [exact Hl|]. split; [exact Hr|]. right. exists g. auto.
Qed.

(** ** Clauses *)
(** The symbols of the locations are numbered apart from each other and from the start and the error location. *)
Definition symbols_ok (file : list sexpr) (code : string -> sym) : Prop :=
  forall f n, declares file f n -> code f <> entry /\ code f <> exit /\ forall g m, declares file g m -> code f = code g -> f = g.
(** The sorts of the arguments of the predicates. *)
Definition its_sig (code : string -> sym) (s : its) (p : sym) : list sort :=
  match find (fun d => Nat.eqb (code (ld_name d)) p) (i_locations s) with Some d => repeat SInt (ld_arity d) | None => [] end.
Lemma values_exist (l : list string) : NoDup l -> forall zs : list Z, length zs = length l -> exists r : env, map r l = zs.
Proof.
  induction 1 as [|x l Hx _ IH]; intros [|z zs] E; try discriminate; [exists (fun _ => 0%Z); reflexivity|]. injection E as E. destruct (IH zs E) as [r R].
  exists (fun n => if String.eqb n x then z else r n). cbn [map]. rewrite String.eqb_refl. f_equal. rewrite <- R. apply map_ext_in. intros n Hn. destruct (String.eqb_spec n x); [subst; contradiction|reflexivity].
Qed.
Lemma entry_names_nodup n : NoDup (map entry_name (seq 0 n)).
Proof.
  apply FinFun.Injective_map_NoDup; [|apply seq_NoDup]. intros i j E. unfold entry_name in E. injection E as E. apply to_string_inj in E. lia.
Qed.
Section C.
Variable l_const : string -> option Z.
Variable l_mk : kind -> list term -> option term.
Variable code : string -> sym.
Hypothesis L : arith_logic_ok l_const l_mk.
Variable file : list sexpr.
Hypothesis F : its_file file.
Hypothesis SO : symbols_ok file code.
Variable s : its.
Hypothesis P : parse_its file = Some s.
Variable cs : list clause.
Hypothesis C : as_chcs l_const l_mk code s = Some cs.

Lemma parsed : effect file (mkIts [] None []) s.
Proof. clear C cs L. destruct (parse_effect file file (if_decls file F) (mkIts [] None [])) as [s' [E X]]. unfold parse_its in P. rewrite E in P. injection P as <-. exact X. Qed.
Lemma locs d : In d (i_locations s) <-> declares file (ld_name d) (ld_arity d).
Proof. clear C cs L. rewrite (ef_locs _ _ _ parsed d). cbn. tauto. Qed.
Lemma found f n : declares file f n -> find_location s f = Some (mkDecl f n).
Proof. clear C cs L.
  intros D. unfold find_location. destruct (find _ (i_locations s)) as [d|] eqn:E.
  - apply find_some in E as [I X]. apply String.eqb_eq in X. apply locs in I. destruct d as [dn da]. cbn in *. subst dn. f_equal. f_equal. exact (if_unique file F f da n I D).
  - pose proof (find_none _ _ E (mkDecl f n) (proj2 (locs (mkDecl f n)) D)) as X. cbn in X. rewrite String.eqb_refl in X. discriminate X.
Qed.
Lemma sig_of f n : declares file f n -> its_sig code s (code f) = repeat SInt n.
Proof. clear C cs L.
  intros D. unfold its_sig. destruct (find _ (i_locations s)) as [d|] eqn:E.
  - apply find_some in E as [I X]. apply Nat.eqb_eq in X. apply locs in I. destruct d as [dn da]. cbn in *. destruct (SO dn da I) as [_ [_ U]]. specialize (U f n D X). subst dn. f_equal. exact (if_unique file F f da n I D).
  - pose proof (find_none _ _ E (mkDecl f n) (proj2 (locs (mkDecl f n)) D)) as X. cbn in X. rewrite Nat.eqb_refl in X. discriminate X.
Qed.
Lemma sig_special p : p = entry \/ p = exit -> its_sig code s p = [].
Proof. clear C cs L.
  intros Hp. unfold its_sig. destruct (find _ (i_locations s)) as [d|] eqn:E; [|reflexivity]. apply find_some in E as [I X]. apply Nat.eqb_eq in X. apply locs in I. destruct (SO _ _ I) as [A [B _]]. destruct Hp; congruence.
Qed.
Definition loc_atom (f : string) (args : list string) : atom := mkAtom (code f) (map (fun n => Var (ivar n)) args).
Lemma applied f args : declares file f (length args) -> apply_location code s (mkLoc f args) = Some (loc_atom f args).
Proof. clear C cs L. intros D. unfold apply_location. cbn [l_name l_args]. rewrite (found f _ D). cbn [ld_arity]. rewrite Nat.eqb_refl. reflexivity. Qed.
(** The start. *)
Lemma start : exists f n, declares file f n /\ In (SList [atom_of "entrypoint"; atom_of f]) file /\
  entry_clause code s = Some (mkClause (loc_atom f (map entry_name (seq 0 n))) tt_true []).
Proof. clear C cs L.
  destruct (ef_entry _ _ _ parsed) as [[_ N]|[f [E I]]]; [destruct (if_start file F) as [f Hf]; destruct (N f Hf)|].
  pose proof (proj1 (Forall_forall _ _) (if_decls file F) _ I) as D. assert (X : exists n, declares file f n).
  { exact (decl_entry file _ f D eq_refl). }
  destruct X as [n Dn]. exists f, n. split; [exact Dn|]. split; [exact I|]. unfold entry_clause, loc_atom. rewrite E, (found f n Dn). cbn [ld_arity]. rewrite map_map. reflexivity.
Qed.
(** Rules of the file and their clauses. *)
Record rule_of (l r : sexpr) (rest : list sexpr) (f g : string) (a b : list string) (t : term) : Prop := {
  ro_lhs : at_location l f a; ro_rhs : at_location r g b; ro_decl_l : declares file f (length a); ro_decl_r : declares file g (length b);
  ro_names : Forall name (a ++ b);
  ro_vars : forall v, In v (vars t) -> exists m, v = ivar m;
  ro_guard : (rest = [] /\ t = tt_true) \/ exists gd, rest = [atom_of ":guard"; gd] /\ apart (bound gd) (a ++ b) /\
    (forall v, holds v t <-> sat0 (env_of v) gd) /\ guard_form gd /\ scopes_apart gd;
  ro_clause : In (mkClause (loc_atom g b) t [loc_atom f a]) cs
}.
Lemma chcs_split : exists rcs ec, mapo (rule_clause l_const l_mk code s) (i_rules s) = Some rcs /\ entry_clause code s = Some ec /\ cs = rcs ++ [ec].
Proof.
  unfold as_chcs in C. destruct (mapo _ (i_rules s)) as [rcs|]; [|discriminate]. destruct (entry_clause code s) as [ec|]; [|discriminate]. injection C as <-. eauto.
Qed.
Lemma file_rule l r rest : In (SList (atom_of "rule" :: l :: r :: rest)) file -> exists f g a b t, rule_of l r rest f g a b t /\
  forall x, parse_rule (l :: r :: rest) = Some x -> rule_clause l_const l_mk code s x = Some (mkClause (loc_atom g b) t [loc_atom f a]).
Proof.
  intros I. pose proof (proj1 (Forall_forall _ _) (if_decls file F) _ I) as D. destruct chcs_split as [rcs [ec [M [_ Ec]]]]. apply mapo_some in M.
  assert (Cl : forall x, parse_rule (l :: r :: rest) = Some x -> exists c, rule_clause l_const l_mk code s x = Some c /\ In c cs).
  { intros x Px. assert (Ix : In x (i_rules s)) by (apply (ef_rules _ _ _ parsed); right; exists (l :: r :: rest); auto).
    assert (Y : In (rule_clause l_const l_mk code s x) (map Some rcs)) by (rewrite <- M; apply in_map, Ix). apply in_map_iff in Y as [c [Ec' Hc]]. exists c. split; [auto|]. rewrite Ec. apply in_app_iff. auto. }
  destruct (decl_rule file _ l r rest D eq_refl) as [a [b [H1 [H2 [->|[gd [-> [H3 [H4 H5]]]]]]]]].
  - destruct H1 as [f [A1 [D1 N1]]], H2 as [g [A2 [D2 N2]]].
    assert (Px : parse_rule [l; r] = Some (mkRule (mkLoc f a) (mkLoc g b) None)) by (unfold parse_rule; rewrite (parse_at _ _ _ A1), (parse_at _ _ _ A2); reflexivity).
    destruct (Cl _ Px) as [c [Rc Hc]]. exists f, g, a, b, tt_true. assert (Ec' : rule_clause l_const l_mk code s (mkRule (mkLoc f a) (mkLoc g b) None) = Some (mkClause (loc_atom g b) tt_true [loc_atom f a])).
    { unfold rule_clause. cbn [r_lhs r_rhs r_guard]. rewrite !applied by assumption. reflexivity. }
    split; [|intros x Px'; rewrite Px in Px'; injection Px' as <-; exact Ec']. rewrite Ec' in Rc. injection Rc as <-. split; auto.
    + apply Forall_app. auto.
    + intros v [].
  - destruct H1 as [f [A1 [D1 N1]]], H2 as [g [A2 [D2 N2]]]. destruct (parse_guard_total gd H3) as [gx G].
    assert (Px : parse_rule [l; r; atom_of ":guard"; gd] = Some (mkRule (mkLoc f a) (mkLoc g b) (Some gx))) by (unfold parse_rule; rewrite (parse_at _ _ _ A1), (parse_at _ _ _ A2), as_atom_of, G; reflexivity).
    destruct (Cl _ Px) as [c [Rc Hc]]. assert (Ec' := Rc). unfold rule_clause in Ec'. cbn [r_lhs r_rhs r_guard] in Ec'. rewrite !applied in Ec' by assumption. destruct (translate l_const l_mk gx) as [t|] eqn:T; [|discriminate Ec']. injection Ec' as <-.
    exists f, g, a, b, t. split; [|intros x Px'; rewrite Px in Px'; injection Px' as <-; exact Rc]. split; auto.
    + apply Forall_app. auto.
    + apply (translate_vars l_const l_mk L (expr_size gx) gx t (le_n _) T).
    + right. exists gd. split; [reflexivity|]. split; [exact H5|]. split; [|auto]. intros v. destruct (guard_meaning l_const l_mk L gd gx t v H3 G T) as [bb [Eb Hb]]. unfold holds, holdsb. rewrite Eb. exact Hb.
Qed.
(** Every clause is that of a rule or the start. *)
Lemma clause_cases c : In c cs -> (exists l r rest f g a b t, In (SList (atom_of "rule" :: l :: r :: rest)) file /\ rule_of l r rest f g a b t /\ c = mkClause (loc_atom g b) t [loc_atom f a]) \/
  entry_clause code s = Some c.
Proof.
  intros Hc. destruct chcs_split as [rcs [ec [M [Ee Ec]]]]. rewrite Ec in Hc. apply in_app_iff in Hc as [Hc|[<-|[]]]; [left|right; exact Ee]. apply mapo_some in M.
  assert (Y : In (Some c) (map (rule_clause l_const l_mk code s) (i_rules s))) by (rewrite M; apply in_map, Hc). apply in_map_iff in Y as [x [Ex Hx]]. apply (ef_rules _ _ _ parsed) in Hx as [[]|[args [I Px]]].
  destruct args as [|l [|r rest]]; try discriminate Px. destruct (file_rule l r rest I) as [f [g [a [b [t [R K]]]]]]. rewrite (K x Px) in Ex. injection Ex as <-. exists l, r, rest, f, g, a, b, t. auto.
Qed.
Lemma vals_args v (l : list string) f : avals v (loc_atom f l) = map VInt (map (env_of v) l).
Proof. unfold avals, loc_atom. cbn [aargs]. rewrite !map_map. apply map_ext. intros n. apply eval_ivar. Qed.
Definition fact_of (c : config) : fact := (code (fst c), map VInt (snd c)).
Lemma arith_names r args zs : Forall name args -> (map (fun a => arith r (atom_of a)) args = map Some zs <-> map r args = zs).
Proof.
  intros N. replace (map (fun a => arith r (atom_of a)) args) with (map Some (map r args)).
  - split; [|intros ->; reflexivity]. revert zs. generalize (map r args) as xs. induction xs as [|x xs IH]; intros [|z zs] E; try discriminate; [reflexivity|]. injection E as -> E. f_equal. auto.
  - rewrite map_map. apply map_ext_in. intros a Ha. rewrite Forall_forall in N. symmetry. apply arith_name, N, Ha.
Qed.
Lemma vint_inj xs ys : map VInt xs = map VInt ys -> xs = ys.
Proof. revert ys. induction xs as [|x xs IH]; intros [|y ys] E; try discriminate; [reflexivity|]. injection E as -> E. f_equal. auto. Qed.
Lemma its_to_clauses c d : its_step file c d -> cstep cs (fact_of c) (fact_of d).
Proof.
  intros [l [r [rest [rho [I [[a' [A1 V1]] [[b' [A2 V2]] G]]]]]]]. destruct (file_rule l r rest I) as [f [g [a [b [t [[R1 R2 R3 R4 R5 R6 R7 R8] _]]]]]].
  destruct (at_unique _ _ _ _ _ R1 A1) as [Ef Ea]. destruct (at_unique _ _ _ _ _ R2 A2) as [Eg Eb]. subst a' b'. apply Forall_app in R5 as [Na Nb].
  apply (arith_names rho a (snd c) Na) in V1. apply (arith_names rho b (snd d) Nb) in V2.
  assert (X : exists rho', map rho' a = map rho a /\ map rho' b = map rho b /\ holds (val_of rho') t).
  { destruct R7 as [[-> ->]|[gd [-> [Ap [Hg [Fg Sg]]]]]]; [exists rho; repeat split|]. destruct G as [G|[gd' [G S]]]; [discriminate G|]. injection G as <-.
    destruct (sat_sat0 gd rho Fg Sg S) as [rho' [Ag S']]. exists rho'.
    assert (Y : forall n, In n (a ++ b) -> rho' n = rho n) by (intros n Hn; apply Ag; intros Z; exact (Ap n Z Hn)).
    split; [apply map_ext_in; intros n Hn; apply Y, in_app_iff; auto|]. split; [apply map_ext_in; intros n Hn; apply Y, in_app_iff; auto|]. apply Hg. exact S'. }
  destruct X as [rho' [Xa [Xb H]]]. eexists. split; [exact R8|]. exists (val_of rho'). split; [exact H|]. unfold instance_prems. cbn [cbody chead]. split.
  - cbn [map]. f_equal. unfold fact_of. rewrite vals_args. cbn [asym loc_atom]. rewrite Ef. f_equal. f_equal. rewrite <- V1, <- Xa. apply map_ext. intros n. apply env_val.
  - unfold fact_of. rewrite vals_args. cbn [asym loc_atom]. rewrite Eg. f_equal. f_equal. rewrite <- V2, <- Xb. apply map_ext. intros n. apply env_val.
Qed.
Lemma clauses_to_its f n xs z : declares file f n -> cstep cs (fact_of (f, xs)) z -> exists d m, its_step file (f, xs) d /\ declares file (fst d) m /\ z = fact_of d.
Proof.
  intros D [c [Hc [v [H [Pr ->]]]]]. destruct (clause_cases c Hc) as [[l [r [rest [f' [g [a [b [t [I [[R1 R2 R3 R4 R5 R6 R7 R8] ->]]]]]]]]]]|E].
  - unfold instance_prems in Pr. cbn [cbody map] in Pr. injection Pr as Ec Ev. cbn [asym loc_atom] in Ec. assert (Ef : f = f') by (apply (proj2 (proj2 (SO f n D)) f' _ R3 Ec)). subst f'.
    rewrite vals_args in Ev. apply vint_inj in Ev. cbn [snd fst fact_of] in *. exists (g, map (env_of v) b), (length b). apply Forall_app in R5 as [Na Nb]. split; [|split; [exact R4|]].
    + exists l, r, rest, (env_of v). split; [exact I|]. split; [exists a; split; [exact R1|apply arith_names; auto]|]. split; [exists b; split; [exact R2|apply arith_names; auto]|].
      destruct R7 as [[-> _]|[gd [-> [_ [Hg _]]]]]; [left; reflexivity|]. right. exists gd. split; [reflexivity|]. apply sat0_sat, Hg, H.
    + cbn [chead]. rewrite vals_args. reflexivity.
  - destruct start as [g [m [_ [_ Es]]]]. rewrite Es in E. injection E as <-. unfold instance_prems in Pr. cbn [cbody] in Pr. injection Pr as X _. destruct (SO f n D) as [Y _]. contradiction.
Qed.
Theorem its_clauses : clauses_run_forever cs <-> its_runs_forever file.
Proof.
  destruct start as [f [n [D [I E]]]]. split.
  - intros H. apply endless_inv in H as [z [[c [Hc [v [_ [Pr Ez]]]]] H]]. destruct (clause_cases c Hc) as [[l [r [rest [f' [g [a [b [t [_ [[R1 R2 R3 R4 R5 R6 R7 R8] ->]]]]]]]]]]|E'].
    { exfalso. unfold instance_prems in Pr. cbn [cbody map] in Pr. injection Pr as X _. cbn in X. destruct (SO f' _ R3) as [Y _]. congruence. }
    rewrite E in E'. injection E' as <-. cbn [chead asym loc_atom] in Ez. rewrite vals_args in Ez. subst z. exists f, (map (env_of v) (map entry_name (seq 0 n))). split; [exact I|]. split; [rewrite !map_length, seq_length; exact D|].
    apply (endless_coind (its_step file) (fun c => (exists m, declares file (fst c) m) /\ endless (cstep cs) (fact_of c))).
    + intros [f1 xs] [[m Dm] En]. apply endless_inv in En as [z [St En]]. destruct (clauses_to_its f1 m xs z Dm St) as [d [m' [St' [Dm' ->]]]]. exists d. eauto.
    + split; [exists n; exact D|exact H].
  - intros [f1 [xs [I1 [D1 En]]]]. pose proof (if_one file F f f1 I I1). subst f1. pose proof (if_unique file F f _ _ D1 D) as Ln.
    destruct (values_exist (map entry_name (seq 0 n)) (entry_names_nodup n) xs) as [rho R]; [rewrite map_length, seq_length; exact Ln|].
    assert (St : cstep cs (entry, []) (fact_of (f, xs))).
    { destruct chcs_split as [rcs [ec [_ [Ee Ec]]]]. rewrite E in Ee. injection Ee as <-. eexists. split; [rewrite Ec; apply in_app_iff; right; left; reflexivity|]. exists (val_of rho). split; [reflexivity|]. split; [reflexivity|].
      cbn [chead]. rewrite vals_args. unfold fact_of. cbn [asym loc_atom fst snd]. f_equal. f_equal. rewrite <- R. apply map_ext. intros x. symmetry. apply env_val. }
    apply (endless_step (cstep cs) _ _ St). apply (endless_coind (cstep cs) (fun z => exists c, z = fact_of c /\ endless (its_step file) c)); [|eauto].
    intros z [c [-> Ec]]. apply endless_inv in Ec as [d [Sd Ed]]. exists (fact_of d). split; [apply its_to_clauses, Sd|eauto].
Qed.
Lemma its_linear : linear_clauses cs.
Proof.
  intros c Hc. destruct (clause_cases c Hc) as [[l [r [rest [f [g [a [b [t [_ [[R1 R2 R3 R4 R5 R6 R7 R8] ->]]]]]]]]]]|E].
  - cbn. split; [lia|]. apply (SO g _ R4).
  - destruct start as [g [m [D [_ Es]]]]. rewrite Es in E. injection E as <-. cbn. split; [lia|]. apply (SO g m D).
Qed.
Lemma base_free m : ~ reserved (ivar m).
Proof. intros [n [so [E|[i E]]]]; discriminate E. Qed.
Lemma loc_vars f args v : In v (concat (map vars (aargs (loc_atom f args)))) -> exists m, v = ivar m.
Proof. cbn [loc_atom aargs]. rewrite map_map. intros H. apply in_concat in H as [w [Hw H]]. apply in_map_iff in Hw as [n [<- _]]. destruct H as [<-|[]]. eauto. Qed.
Lemma loc_typed f args : declares file f (length args) -> map typed (aargs (loc_atom f args)) = map Some (its_sig code s (code f)).
Proof. intros D. rewrite (sig_of f _ D). cbn [loc_atom aargs]. rewrite map_map. clear D. induction args as [|x args IH]; [reflexivity|]. cbn. f_equal. exact IH. Qed.
Lemma its_clause_ok c : In c cs -> clause_ok (its_sig code s) c.
Proof.
  intros Hc. destruct (clause_cases c Hc) as [[l [r [rest [f [g [a [b [t [_ [[R1 R2 R3 R4 R5 R6 R7 R8] ->]]]]]]]]]]|E].
  - split; cbn [chead cbody].
    + intros x [<-|[<-|[]]]; apply loc_typed; assumption.
    + apply (SO g _ R4).
    + intros x [<-|[]]. destruct (SO f _ R3) as [A [B _]]. auto.
    + intros v Hv. unfold clause_vars in Hv. cbn [chead cbody cfla] in Hv. apply in_app_iff in Hv as [Hv|Hv]; [destruct (R6 v Hv) as [m ->]; apply base_free|].
      cbn [map concat] in Hv. rewrite !in_app_iff in Hv. destruct Hv as [Hv|[Hv|[]]]; apply loc_vars in Hv as [m ->]; apply base_free.
  - destruct start as [g [m [D [_ Es]]]]. rewrite Es in E. injection E as <-. split; cbn [chead cbody].
    + intros x [<-|[]]. apply loc_typed. rewrite map_length, seq_length. exact D.
    + apply (SO g m D).
    + intros x [].
    + intros v Hv. unfold clause_vars in Hv. cbn [chead cbody cfla] in Hv. apply in_app_iff in Hv as [[]|Hv]. cbn [map concat] in Hv. rewrite in_app_iff in Hv. destruct Hv as [Hv|[]]. apply loc_vars in Hv as [x ->]. apply base_free.
Qed.
End C.

(** C71.  The clauses made from a well-formed file run forever iff the system that the file describes does. *)
Theorem C71_its :
  forall l_const l_mk code file s cs, arith_logic_ok l_const l_mk -> its_file file -> symbols_ok file code -> parse_its file = Some s -> as_chcs l_const l_mk code s = Some cs ->
    (clauses_run_forever cs <-> its_runs_forever file) /\ linear_clauses cs /\
    its_sig code s entry = [] /\ its_sig code s exit = [] /\ forall c, In c cs -> clause_ok (its_sig code s) c.
Proof.
  intros l_const l_mk code file s cs L F SO P C. split; [exact (its_clauses l_const l_mk code L file F SO s P cs C)|]. split; [exact (its_linear l_const l_mk code L file F SO s P cs C)|].
  split; [apply (sig_special code file F SO s P); auto|]. split; [apply (sig_special code file F SO s P); auto|exact (its_clause_ok l_const l_mk code L file F SO s P cs C)].
Qed.
Print Assumptions C71_its.
(** A well-formed file is accepted, if the constructors of OpenSMT accept its terms (they refuse products of two terms that are not constant). *)
Theorem C71_accepts :
  forall l_const l_mk code file, arith_logic_ok l_const l_mk -> (forall k ts, exists t, l_mk k ts = Some t) -> its_file file ->
    exists s cs, parse_its file = Some s /\ as_chcs l_const l_mk code s = Some cs.
Proof.
  intros l_const l_mk code file L T F. destruct (parse_effect file file (if_decls file F) (mkIts [] None [])) as [s [P X]]. exists s. change (parse_its file = Some s) in P.
  assert (Tr : forall e, arith_form e -> forall x, parse_guard e = Some x -> exists t, translate l_const l_mk x = Some t).
  { induction e as [w|l IH] using sexpr_ind'; intros Fo x Px.
    - cbn [parse_guard] in Px. change (str w) with (word w) in Px. injection Px as <-. destruct (looks_const (word w)) eqn:K; [|cbn; eauto]. destruct Fo as [N|N]; [rewrite (name_var _ N) in K; discriminate|].
      destruct (numeral (word w)) as [z|] eqn:E; [|congruence]. cbn [translate]. rewrite (al_const _ _ L _ z E). cbn. eauto.
    - destruct l as [|[op|] l]; try contradiction. inversion IH as [|? ? _ IHl]; subst. cbn [arith_form] in Fo. rewrite fold_and in Fo. destruct Fo as [Fo [_ Fl]]. cbn [parse_guard] in Px. change (str op) with (word op) in Px.
      assert (Y : String.eqb (word op) "exists" = false) by (cbn in Fo; repeat (destruct Fo as [<-|Fo]; [reflexivity|]); destruct Fo). rewrite Y in Px. destruct (kind_of (word op)) as [k|]; [|discriminate]. destruct (mapo parse_guard l) as [xs|] eqn:M; [|discriminate]. injection Px as <-. cbn [translate].
      destruct (mapo_total (translate l_const l_mk) xs) as [ts Ts]; [|rewrite Ts; apply T]. apply mapo_some in M. apply Forall_forall. intros y Hy. assert (Z : In (Some y) (map parse_guard l)) by (rewrite M; apply in_map, Hy). apply in_map_iff in Z as [e [Pe He]].
      rewrite Forall_forall in *. exact (IHl e He (Fl e He) y Pe). }
  assert (Tg : forall e, guard_form e -> forall x, parse_guard e = Some x -> exists t, translate l_const l_mk x = Some t).
  { assert (Nd : forall l k, (forall e, In e l -> forall x, parse_guard e = Some x -> exists t, translate l_const l_mk x = Some t) -> forall x, option_map (ENode k) (mapo parse_guard l) = Some x -> exists t, translate l_const l_mk x = Some t).
    { intros l k H x Px. destruct (mapo parse_guard l) as [xs|] eqn:M; [|discriminate]. injection Px as <-. cbn [translate]. destruct (mapo_total (translate l_const l_mk) xs) as [ts Ts]; [|rewrite Ts; apply T].
      apply mapo_some in M. apply Forall_forall. intros y Hy. assert (Z : In (Some y) (map parse_guard l)) by (rewrite M; apply in_map, Hy). apply in_map_iff in Z as [e [Pe He]]. eauto. }
    induction e as [w|l IH] using sexpr_ind'; intros Fo x Px; [contradiction|]. destruct l as [|[op|] l]; try contradiction. inversion IH as [|? ? _ IHl]; subst. cbn [guard_form] in Fo. cbn [parse_guard] in Px. change (str op) with (word op) in Px. rewrite Forall_forall in IHl.
    destruct (String.eqb_spec (word op) "and") as [Y|Y]; [rewrite Y in Px; rewrite fold_and, Forall_forall in Fo; apply (Nd l KAnd); [intros e He; exact (IHl e He (Fo e He))|exact Px]|].
    destruct (String.eqb_spec (word op) "or") as [Z|Z]; [rewrite Z in Px; rewrite fold_and, Forall_forall in Fo; apply (Nd l KOr); [intros e He; exact (IHl e He (Fo e He))|exact Px]|].
    destruct (String.eqb (word op) "exists"); [destruct l as [|ds [|b [|? ?]]]; try contradiction; apply (IHl b); cbn; auto|]. destruct (kind_of (word op)) as [k|]; [|discriminate]. destruct Fo as [_ [_ Fo]]. rewrite Forall_forall in Fo. apply (Nd l k); [intros e He; exact (Tr e (Fo e He))|exact Px]. }
  unfold as_chcs. destruct (start code file F s P) as [f [n [_ [_ E]]]]. rewrite E. destruct (mapo_total (rule_clause l_const l_mk code s) (i_rules s)) as [rcs R]; [|exists (rcs ++ [mkClause (loc_atom code f (map entry_name (seq 0 n))) tt_true []]); rewrite R; auto].
  apply Forall_forall. intros r Hr. apply (ef_rules _ _ _ X) in Hr as [[]|[args [I Pr]]]. pose proof (proj1 (Forall_forall _ _) (if_decls file F) _ I) as D.
  destruct args as [|l [|r0 rest]]; try discriminate Pr. destruct (decl_rule file _ l r0 rest D eq_refl) as [a [b [H1 [H2 [->|[gd [-> [H3 [H4 H5]]]]]]]]].
  - destruct H1 as [f1 [A1 [D1 _]]], H2 as [f2 [A2 [D2 _]]]. unfold parse_rule in Pr. rewrite (parse_at _ _ _ A1), (parse_at _ _ _ A2) in Pr. injection Pr as <-. unfold rule_clause. cbn [r_lhs r_rhs r_guard]. rewrite !(applied code file F s P) by assumption. eauto.
  - destruct H1 as [f1 [A1 [D1 _]]], H2 as [f2 [A2 [D2 _]]]. destruct (parse_guard_total gd H3) as [gx G]. unfold parse_rule in Pr. rewrite (parse_at _ _ _ A1), (parse_at _ _ _ A2), as_atom_of, G in Pr. cbn in Pr. injection Pr as <-.
    unfold rule_clause. cbn [r_lhs r_rhs r_guard]. rewrite !(applied code file F s P) by assumption. destruct (Tg gd H3 gx G) as [t Et]. rewrite Et. eauto.
Qed.
Print Assumptions C71_accepts.
(** The same from the text: any layout of the declarations that does not start with a comment. *)
Theorem C71_text :
  forall l_const l_mk code file t, arith_logic_ok l_const l_mk -> (forall k ts, exists t, l_mk k ts = Some t) -> its_file file -> symbols_ok file code ->
    writes_file file t -> hd_error t <> Some cSemi ->
    exists file' s cs, read_all t = Ok file' /\ parse_its file' = Some s /\ as_chcs l_const l_mk code s = Some cs /\ (clauses_run_forever cs <-> its_runs_forever file).
Proof.
  intros l_const l_mk code file t L T F SO W H. exists file. destruct (C71_accepts l_const l_mk code file L T F) as [s [cs [P C]]]. exists s, cs. split; [apply C51_file; assumption|]. split; [exact P|]. split; [exact C|].
  apply (C71_its l_const l_mk code file s cs L F SO P C).
Qed.
Print Assumptions C71_text.

(** ** Examples *)
Module ExIts.
(** Constructors without simplification. *)
Definition neg (t : term) : term := App FTimes [Const (VInt (-1)); t].
Definition plain_mk (k : kind) (ts : list term) : option term :=
  Some (match k, ts with
        | KAnd, _ => App FAnd ts | KOr, _ => App FOr ts | KAdd, _ => App FPlus ts | KMul, _ => App FTimes ts
        | KSub, [a] => neg a | KSub, a :: l => App FPlus (a :: map neg l)
        | KEq, [a; b] => App FEq [a; b] | KLeq, [a; b] => App FLeq [a; b] | KGeq, [a; b] => App FLeq [b; a]
        | KLt, [a; b] => App FNot [App FLeq [b; a]] | KGt, [a; b] => App FNot [App FLeq [a; b]]
        | _, _ => tt_true
        end).
Lemma fold_ints (fv : value -> value -> value) (fz : Z -> Z -> Z) : (forall a b, fv (VInt a) (VInt b) = VInt (fz a b)) -> forall zs z, fold_left fv (map VInt zs) (VInt z) = VInt (fold_left fz zs z).
Proof. intros H. induction zs as [|x zs IH]; intros z; [reflexivity|]. cbn [map fold_left]. rewrite H. apply IH. Qed.
Lemma eval_app r f ts : eval r (App f ts) = interp f (map (eval r) ts).
Proof. reflexivity. Qed.
Lemma eval_neg r t z : eval r t = VInt z -> eval r (neg t) = VInt (- z).
Proof. intros H. unfold neg. rewrite eval_app. cbn [map eval]. rewrite H. cbn [interp fold1 fold_left vmul]. destruct z; reflexivity. Qed.
Lemma plain_mk_ok : arith_logic_ok numeral plain_mk.
Proof.
  split.
  - auto.
  - intros op k ts t r zs z K M E A. injection M as <-. destruct zs as [|z0 zs]; [discriminate A|]. destruct ts as [|t0 ts]; [discriminate E|]. cbn [arith_op] in A.
    destruct (String.eqb_spec op "+") as [->|N1]; [injection K as <-; injection A as <-; rewrite eval_app, E; apply (fold_ints vadd Z.add); reflexivity|].
    destruct (String.eqb_spec op "*") as [->|N2]; [injection K as <-; injection A as <-; rewrite eval_app, E; apply (fold_ints vmul Z.mul); reflexivity|].
    destruct (String.eqb_spec op "-") as [->|N3]; [|discriminate A]. injection K as <-. injection A as <-. cbn [map] in E. injection E as E0 E.
    destruct ts as [|t1 ts]; [destruct zs; [|discriminate E]; apply eval_neg, E0|]. destruct zs as [|z1 zs]; [discriminate E|].
    rewrite eval_app. cbn [map interp fold1]. rewrite E0. change (eval r (neg t1) :: map (eval r) (map neg ts)) with (map (eval r) (map neg (t1 :: ts))).
    replace (map (eval r) (map neg (t1 :: ts))) with (map VInt (map Z.opp (z1 :: zs))).
    + rewrite (fold_ints vadd Z.add) by reflexivity. f_equal. generalize (z1 :: zs) as l. clear. intros l. revert z0. induction l as [|x l IH]; intros z0; [reflexivity|]. cbn [map fold_left]. rewrite IH. f_equal.
    + change (eval r t1 :: map (eval r) ts) with (map (eval r) (t1 :: ts)) in E. clear -E. revert E. generalize (t1 :: ts) as l, (z1 :: zs) as m. induction l as [|t l IH]; intros [|x m] E; try discriminate E; [reflexivity|].
      cbn [map] in *. injection E as E1 E. rewrite (eval_neg r t x E1). f_equal. apply IH, E.
  - intros op k a b t r x y I K M Ea Eb. injection M as <-.
    cbn in I. destruct I as [<-|[<-|[<-|[<-|[<-|[]]]]]]; injection K as <-; rewrite ?eval_app; cbn [map]; rewrite ?eval_app; cbn [map]; rewrite Ea, Eb; cbn [interp value_eqb vleq asb]; eexists; (split; [reflexivity|]); unfold compares.
    + rewrite Z.eqb_eq. split; [auto|]. intros H. decompose [or and] H; try discriminate; lia.
    + rewrite Z.leb_le. split; [auto|]. intros H. decompose [or and] H; try discriminate; lia.
    + rewrite Z.leb_le. split; [intros H; do 2 right; left; split; [reflexivity|lia]|]. intros H. decompose [or and] H; try discriminate; lia.
    + rewrite negb_true_iff, Z.leb_gt. split; [intros H; do 3 right; left; auto|]. intros H. decompose [or and] H; try discriminate; lia.
    + rewrite negb_true_iff, Z.leb_gt. split; [intros H; do 4 right; split; [reflexivity|lia]|]. intros H. decompose [or and] H; try discriminate; lia.
  - intros ts t r bs M E. injection M as <-. rewrite eval_app, E. cbn [interp]. f_equal. clear. induction bs as [|b bs IH]; [reflexivity|]. cbn. rewrite IH. reflexivity.
  - intros ts t r bs M E. injection M as <-. rewrite eval_app, E. cbn [interp]. f_equal. clear. induction bs as [|b bs IH]; [reflexivity|]. cbn. rewrite IH. reflexivity.
  - intros k ts t M. injection M as <-. assert (A : forall f l, vars (App f l) = concat (map vars l)) by (intros f l; cbn; rewrite flat_map_concat_map || idtac; reflexivity).
    assert (Nv : forall l, incl (concat (map vars (map neg l))) (concat (map vars l))).
    { induction l as [|x l IH]; [apply incl_refl|]. cbn [map concat]. unfold neg at 1. rewrite A. cbn [map concat vars]. rewrite app_nil_r. cbn [app]. apply incl_app; [apply incl_appl, incl_refl|apply incl_appr, IH]. }
    destruct k; rewrite ?A; try apply incl_refl; destruct ts as [|a [|b [|c ts]]]; try (intros v []); rewrite ?A; cbn [map concat]; rewrite ?A; cbn [map concat]; rewrite ?app_nil_r; try apply incl_refl; try (apply incl_app; [apply incl_appr, incl_refl|apply incl_appl, incl_refl]).
    + unfold neg. rewrite A. cbn [map concat vars app]. rewrite app_nil_r. apply incl_refl.
    + unfold neg. rewrite A. cbn [map concat vars app]. rewrite app_nil_r. apply incl_refl.
    + apply incl_app; [apply incl_appl, incl_refl|apply incl_appr]. exact (Nv (b :: c :: ts)).
Qed.
Definition A := atom_of.
Definition second (e : sexpr) : sexpr := match e with SList (_ :: x :: _) => x | _ => e end.
Definition ap (l : list string) : sexpr := SList (map A l).
Definition int1 : sexpr := SList [A "->"; A "Int"; A "Int"].
Definition int2 : sexpr := SList [A "->"; A "Int"; A "Int"; A "Int"].
(** A loop that takes an unknown positive amount from x; y says whether it is used ([up = true]: it adds, and runs forever). *)
Definition guard (up : bool) : sexpr :=
  SList [A "and"; ap [">"; "x"; "0"]; SList [A "exists"; SList [ap ["z"; "Int"]]; SList [A "and"; ap [">="; "z"; "1"]; SList [A "="; A "x1"; ap [if up then "+" else "-"; "x"; "z"]]]]].
Definition file (up : bool) : list sexpr :=
  [ap ["format"; "LCTRS"]; ap ["theory"; "Ints"]; SList [A "fun"; A "start"; int2]; SList [A "fun"; A "loop"; int2]; SList [A "fun"; A "done"; A "Int"]; ap ["entrypoint"; "start"];
   SList [A "rule"; ap ["start"; "x"; "y"]; ap ["loop"; "x"; "y"]];
   SList [A "rule"; ap ["loop"; "x"; "y"]; ap ["loop"; "x1"; "y"]; A ":guard"; guard up];
   SList [A "rule"; ap ["loop"; "x"; "y"]; A "done"; A ":guard"; ap ["<="; "x"; "-3"]]].
Definition code (f : string) : sym := if String.eqb f "start" then 2 else if String.eqb f "loop" then 3 else if String.eqb f "done" then 4 else 5.
Lemma named s : (match s with String c _ => negb (is_digit c) && negb (c =? "-")%char | EmptyString => false end) = true -> name s.
Proof.
  destruct s as [|c r]; [discriminate|]. intros H. apply andb_true_iff in H as [H1 H2]. rewrite digit_same in H1. cbn. destruct (digit_value c); [discriminate H1|]. split; [reflexivity|]. intros ->. discriminate H2.
Qed.
Lemma file_declares up f n : declares (file up) f n -> (f = "start" /\ n = 2) \/ (f = "loop" /\ n = 2) \/ (f = "done" /\ n = 0).
Proof.
  intros [[-> H]|H]; cbn [file In] in H; repeat (destruct H as [H|H]; [try discriminate H|]); try contradiction H.
  - assert (X : A f = A "done") by (symmetry; exact (f_equal second H)). apply atom_inj in X. auto.
  - assert (X : A f = A "start") by (symmetry; exact (f_equal second H)). injection H as _ H2.  apply atom_inj in X. apply (f_equal (@length sexpr)) in H2. rewrite repeat_length in H2. cbn in H2. left. split; [exact X|lia].
  - assert (X : A f = A "loop") by (symmetry; exact (f_equal second H)). injection H as _ H2.  apply atom_inj in X. apply (f_equal (@length sexpr)) in H2. rewrite repeat_length in H2. cbn in H2. right. left. split; [exact X|lia].
Qed.
Lemma names_ok l : forallb (fun s => match s with String c _ => negb (is_digit c) && negb (c =? "-")%char | EmptyString => false end) l = true -> Forall name l.
Proof. intros H. apply Forall_forall. intros s Hs. apply named, (proj1 (forallb_forall _ _) H s Hs). Qed.
Definition is_name (s : string) : bool := match s with String c _ => negb (is_digit c) && negb (c =? "-")%char | EmptyString => false end.
(** Decision procedures for the forms. *)
Fixpoint arith_formb (e : sexpr) : bool :=
  match e with
  | Atom s => is_name (word s) || match numeral (word s) with Some _ => true | None => false end
  | SList (Atom op :: l) => existsb (String.eqb (word op)) ["+"; "-"; "*"] && negb (match l with [] => true | _ => false end) && forallb arith_formb l
  | _ => false
  end.
Lemma arith_formb_ok e : arith_formb e = true -> arith_form e.
Proof.
  induction e as [s|l IH] using sexpr_ind'; intros H.
  - cbn in *. apply orb_true_iff in H as [H|H]; [left; apply named, H|right; destruct (numeral (word s)); congruence].
  - destruct l as [|[op|] l]; try discriminate H. inversion IH as [|? ? _ IHl]; subst. cbn [arith_formb] in H. apply andb_true_iff in H as [H H3]. apply andb_true_iff in H as [H1 H2]. cbn [arith_form]. split; [|split].
    + apply existsb_exists in H1 as [x [Hx E]]. apply String.eqb_eq in E. rewrite E. exact Hx.
    + destruct l; discriminate || congruence.
    + apply fold_and. rewrite Forall_forall in *. intros a Ha. apply IHl; [exact Ha|]. apply (proj1 (forallb_forall _ _) H3 a Ha).
Qed.
Fixpoint guard_formb (e : sexpr) : bool :=
  match e with
  | SList (Atom op :: l) =>
    if String.eqb (word op) "and" then forallb guard_formb l
    else if String.eqb (word op) "or" then forallb guard_formb l
    else if String.eqb (word op) "exists" then match l with [ds; b] => guard_formb b | _ => false end
    else existsb (String.eqb (word op)) ["="; "<="; ">="; "<"; ">"] && Nat.eqb (length l) 2 && forallb arith_formb l
  | _ => false
  end.
Lemma guard_formb_ok e : guard_formb e = true -> guard_form e.
Proof.
  induction e as [s|l IH] using sexpr_ind'; [discriminate|]. destruct l as [|[op|] l]; try discriminate. inversion IH as [|? ? _ IHl]; subst. cbn [guard_formb guard_form]. rewrite Forall_forall in IHl.
  destruct (String.eqb (word op) "and"); [intros H; apply fold_and, Forall_forall; intros a Ha; apply (IHl a Ha), (proj1 (forallb_forall _ _) H a Ha)|].
  destruct (String.eqb (word op) "or"); [intros H; apply fold_and, Forall_forall; intros a Ha; apply (IHl a Ha), (proj1 (forallb_forall _ _) H a Ha)|].
  destruct (String.eqb (word op) "exists"); [destruct l as [|ds [|b [|? ?]]]; try discriminate; apply (IHl b); cbn; auto|].
  intros H. apply andb_true_iff in H as [H H3]. apply andb_true_iff in H as [H1 H2]. split; [|split; [apply Nat.eqb_eq, H2|]].
  - apply existsb_exists in H1 as [x [Hx E]]. apply String.eqb_eq in E. rewrite E. exact Hx.
  - apply Forall_forall. intros a Ha. apply arith_formb_ok, (proj1 (forallb_forall _ _) H3 a Ha).
Qed.
Lemma apart_dec l m : forallb (fun n => negb (existsb (String.eqb n) m)) l = true -> apart l m.
Proof.
  intros H n Hn Hm. apply (proj1 (forallb_forall _ _) H) in Hn. apply negb_true_iff in Hn. apply (not_true_iff_false _) in Hn. apply Hn, existsb_exists. exists n. split; [exact Hm|apply String.eqb_refl].
Qed.
Lemma guard_ok up : guard_form (guard up) /\ scopes_apart (guard up) /\ bound (guard up) = ["z"].
Proof.
  split; [apply guard_formb_ok; destruct up; vm_compute; reflexivity|]. split; [|destruct up; reflexivity].
  assert (X : forall a b, apart (bound a) (occurring b) /\ apart (bound b) (occurring a) -> ForallOrdPairs (fun a b => apart (bound a) (occurring b) /\ apart (bound b) (occurring a)) [a; b]) by (intros a b H; repeat constructor; apply H).
  destruct up; (split; [apply X; split; apply apart_dec; vm_compute; reflexivity|]); (split; [split; [exact Logic.I|vm_compute; tauto]|]); (split; [|exact Logic.I]); (split; [exact Logic.I|]); (split; [vm_compute; tauto|]); (split; [|exact Logic.I]);
    (split; [apply X; split; apply apart_dec; vm_compute; reflexivity|vm_compute; tauto]).
Qed.
Lemma file_ok up : its_file (file up).
Proof.
  assert (D1 : declares (file up) "start" 2) by (right; cbn; tauto). assert (D2 : declares (file up) "loop" 2) by (right; cbn; tauto). assert (D3 : declares (file up) "done" 0) by (left; cbn; tauto).
  assert (Lx : forall f a b, declares (file up) f 2 -> is_name a = true -> is_name b = true -> location_form (file up) (ap [f; a; b]) [a; b]).
  { intros f a b D Ha Hb. exists f. split; [right; reflexivity|]. split; [exact D|]. apply names_ok. cbn. unfold is_name in Ha, Hb. rewrite Ha, Hb. reflexivity. }
  split.
  - repeat apply Forall_cons; try apply Forall_nil.
    + apply (df_head _ "format" "LCTRS"). cbn. tauto.
    + apply (df_head _ "theory" "Ints"). cbn. tauto.
    + apply (df_fun _ "start" 2).
    + apply (df_fun _ "loop" 2).
    + apply (df_fun0 _ "done").
    + apply (df_entry _ "start"). eauto.
    + apply (df_rule _ _ _ ["x"; "y"] ["x"; "y"]); apply Lx; auto.
    + destruct (guard_ok up) as [G1 [G2 G3]]. apply (df_guarded _ _ _ ["x"; "y"] ["x1"; "y"]); [apply Lx; auto..|exact G1|exact G2|]. rewrite G3. apply apart_dec. vm_compute. reflexivity.
    + apply (df_guarded _ _ _ ["x"; "y"] []); [apply Lx; auto| | | |].
      * exists "done". split; [left; auto|]. split; [exact D3|constructor].
      * apply guard_formb_ok. vm_compute. reflexivity.
      * vm_compute. tauto.
      * apply apart_dec. vm_compute. reflexivity.
  - intros f n m H1 H2. apply file_declares in H1, H2. destruct H1 as [[E1 N1]|[[E1 N1]|[E1 N1]]], H2 as [[E2 N2]|[[E2 N2]|[E2 N2]]]; congruence.
  - exists "start". cbn. tauto.
  - assert (U : forall f, In (SList [atom_of "entrypoint"; atom_of f]) (file up) -> f = "start").
    { intros f H. cbn [file In] in H. repeat (destruct H as [H|H]; [try discriminate H|]); try contradiction H. assert (X : A f = A "start") by (symmetry; exact (f_equal second H)). apply atom_inj in X. exact X. }
    intros f g H1 H2. rewrite (U f H1), (U g H2). reflexivity.
Qed.
Lemma code_ok up : symbols_ok (file up) code.
Proof.
  intros f n H. apply file_declares in H. assert (K : f = "start" \/ f = "loop" \/ f = "done") by tauto. clear H. split; [|split].
  - destruct K as [->|[->| ->]]; discriminate.
  - destruct K as [->|[->| ->]]; discriminate.
  - intros g m H. apply file_declares in H. assert (K' : g = "start" \/ g = "loop" \/ g = "done") by tauto. destruct K as [->|[->| ->]], K' as [->|[->| ->]]; auto; discriminate.
Qed.
Lemma total k ts : exists t, plain_mk k ts = Some t.
Proof. eexists. reflexivity. Qed.
(** The hypotheses are met by a system that runs forever ... *)
Example applies up : exists s cs, parse_its (file up) = Some s /\ as_chcs numeral plain_mk code s = Some cs /\ length cs = 4 /\ (clauses_run_forever cs <-> its_runs_forever (file up)).
Proof.
  destruct (C71_accepts numeral plain_mk code (file up) plain_mk_ok total (file_ok up)) as [s [cs [P C]]]. exists s, cs. split; [exact P|]. split; [exact C|]. split.
  - assert (X : option_map (fun s => option_map (@length clause) (as_chcs numeral plain_mk code s)) (parse_its (file up)) = Some (Some 4)) by (destruct up; vm_compute; reflexivity). rewrite P in X. cbn [option_map] in X. rewrite C in X. injection X as X. exact X.
  - apply (C71_its numeral plain_mk code (file up) s cs plain_mk_ok (file_ok up) (code_ok up) P C).
Qed.
Ltac ev := lazy -[Z.add Z.sub Z.le Z.lt Z.ge Z.gt not].
Ltac ev_in H := lazy -[Z.add Z.sub Z.le Z.lt Z.ge Z.gt not] in H.
Example runs : its_runs_forever (file true).
Proof.
  exists "start", [1%Z; 0%Z]. split; [cbn; tauto|]. split; [right; cbn; tauto|].
  apply (endless_coind (its_step (file true)) (fun c => c = ("start", [1%Z; 0%Z]) \/ exists i, (0 < i)%Z /\ c = ("loop", [i; 0%Z]))); [|auto].
  intros c [->|[i [Hi ->]]].
  - exists ("loop", [1%Z; 0%Z]). split; [|right; exists 1%Z; split; [lia|reflexivity]].
    exists (ap ["start"; "x"; "y"]), (ap ["loop"; "x"; "y"]), [], (fun n => if String.eqb n "x" then 1%Z else 0%Z). split; [cbn; tauto|].
    split; [exists ["x"; "y"]; split; [right; reflexivity|reflexivity]|]. split; [exists ["x"; "y"]; split; [right; reflexivity|reflexivity]|]. left. reflexivity.
  - exists ("loop", [(i + 1)%Z; 0%Z]). split; [|right; exists (i + 1)%Z; split; [lia|reflexivity]].
    exists (ap ["loop"; "x"; "y"]), (ap ["loop"; "x1"; "y"]), [A ":guard"; guard true], (fun n => if String.eqb n "x" then i else if String.eqb n "x1" then (i + 1)%Z else 0%Z). split; [cbn; tauto|].
    split; [exists ["x"; "y"]; split; [right; reflexivity|reflexivity]|]. split; [exists ["x1"; "y"]; split; [right; reflexivity|reflexivity]|]. right. eexists. split; [reflexivity|].
    ev. split; [do 4 right; split; [reflexivity|lia]|]. split; [|exact Logic.I].
    exists (fun n => if String.eqb n "z" then 1%Z else if String.eqb n "x" then i else if String.eqb n "x1" then (i + 1)%Z else 0%Z). split.
    + intros n Hn. destruct (String.eqb_spec n "z") as [->|N]; [exfalso; apply Hn; left; reflexivity|reflexivity].
    + ev. split; [do 2 right; left; split; [reflexivity|lia]|]. split; [left; split; [reflexivity|lia]|exact Logic.I].
Qed.
(** ... and by one that does not. *)
Example stops : ~ its_runs_forever (file false).
Proof.
  intros [f [args [_ [_ E]]]].
  assert (St : forall c d, its_step (file false) c d -> (fst c = "start" /\ fst d = "loop") \/ (fst c = "loop" /\ fst d = "done") \/
    (fst c = "loop" /\ fst d = "loop" /\ exists x y x1, snd c = [x; y] /\ snd d = [x1; y] /\ (0 < x)%Z /\ (x1 < x)%Z)).
  { intros [cf cx] [df dx] [l [r [rest [rho [I [[a [A1 V1]] [[b [A2 V2]] G]]]]]]]. cbn [fst snd] in *.
    assert (At : forall k m g0 a0, at_location (ap (k :: m)) g0 a0 -> g0 = k /\ a0 = m) by (intros k m g0 a0 H; apply (at_unique (ap (k :: m)) g0 a0 k m); [exact H|right; reflexivity]).
    unfold file in I. cbn [In] in I. repeat (destruct I as [I|I]; [try discriminate I|]); try contradiction I.
    - left. injection I as <- <- <-. apply At in A1 as [-> ->]. apply At in A2 as [-> ->]. auto.
    - right. right. injection I as <- <- <-. apply At in A1 as [-> ->]. apply At in A2 as [-> ->]. split; [reflexivity|]. split; [reflexivity|].
      cbn [map] in V1, V2. destruct cx as [|x [|y [|? ?]]]; try discriminate V1. destruct dx as [|x1 [|y1 [|? ?]]]; try discriminate V2. ev_in V1. ev_in V2. injection V1 as <- <-. injection V2 as <- <-.
      exists (rho "x"), (rho "y"), (rho "x1"). split; [reflexivity|]. split; [reflexivity|]. destruct G as [G|[g [G S]]]; [discriminate G|]. injection G as <-. ev_in S. destruct S as [S1 [[rho' [Ag [S2 [S3 _]]]] _]].
      assert (H1 : rho' "x" = rho "x") by (apply Ag; cbn; intros [X|[]]; discriminate X). assert (H2 : rho' "x1" = rho "x1") by (apply Ag; cbn; intros [X|[]]; discriminate X).
      rewrite H1, H2 in *. 
      repeat match goal with H : _ \/ _ |- _ => destruct H as [[? H]|H]; try discriminate end; repeat match goal with H : _ /\ _ |- _ => destruct H end; try discriminate; lia.
    - right. left. injection I as <- <- <-. apply At in A1 as [-> ->]. assert (X : df = "done" /\ b = []) by (apply (at_unique (A "done") df b "done" []); [exact A2|left; auto]). destruct X as [-> _]. auto. }
  assert (Ld : forall c, fst c = "done" -> ~ endless (its_step (file false)) c).
  { intros c Hc H. apply endless_inv in H as [d [H _]]. apply St in H. destruct H as [[H _]|[[H _]|[H _]]]; congruence. }
  assert (Ll : forall n c, fst c = "loop" -> (forall x y, snd c = [x; y] -> (x <= Z.of_nat n)%Z) -> ~ endless (its_step (file false)) c).
  { induction n as [|n IH]; intros c Hc Hb H; apply endless_inv in H as [d [H En]]; apply St in H; destruct H as [[H _]|[[_ H]|[_ [Hd [x [y [x1 [E1 [E2 [P1 P2]]]]]]]]]]; try congruence; try (exact (Ld d H En)).
    - specialize (Hb x y E1). lia.
    - apply (IH d Hd); [|exact En]. intros u v Ed. specialize (Hb x y E1). rewrite E2 in Ed. injection Ed as <- <-. lia. }
  assert (Lo : forall c, fst c = "loop" -> ~ endless (its_step (file false)) c).
  { intros c Hc. apply (Ll (Z.to_nat (match snd c with x :: _ => x | [] => 0%Z end)) c Hc). intros x y ->. lia. }
  destruct (String.eqb_spec f "loop") as [->|N]; [exact (Lo ("loop", args) eq_refl E)|]. apply endless_inv in E as [d [H En]]. apply St in H. cbn [fst] in H. destruct H as [[_ H]|[[H _]|[H _]]]; [exact (Lo d H En)|congruence..].
Qed.

(** A guard that binds a name used outside of the quantifier, and a rule with a number as an argument. *)
Definition bound_twice : sexpr := SList [A "and"; ap ["<"; "x"; "0"]; SList [A "exists"; SList [ap ["x"; "Int"]]; ap [">"; "x"; "0"]]].
Definition bad_file (b : bool) : list sexpr :=
  [SList [A "fun"; A "f"; int1]; ap ["entrypoint"; "f"];
   if b then SList [A "rule"; ap ["f"; "x"]; ap ["f"; "x"]; A ":guard"; bound_twice] else SList [A "rule"; ap ["f"; "x"]; ap ["f"; "0"]; A ":guard"; ap [">"; "x"; "0"]]].
Definition bad_its (b : bool) : option its := Eval vm_compute in if b then parse_its (bad_file true) else parse_its (bad_file false).
Definition bad_code (f : string) : sym := 2.
Definition bad_clauses (b : bool) : list clause := Eval vm_compute in match bad_its b with Some s => match as_chcs numeral plain_mk bad_code s with Some cs => cs | None => [] end | None => [] end.
Lemma bad_declares b f n : declares (bad_file b) f n -> f = "f" /\ n = 1.
Proof.
  intros [[-> H]|H]; cbn [bad_file In] in H; (destruct H as [H|[H|[H|[]]]]; [|discriminate H|destruct b; discriminate H]); [discriminate H|]. assert (X : A f = A "f") by (symmetry; exact (f_equal second H)). injection H as _ H2.
   apply atom_inj in X. apply (f_equal (@length sexpr)) in H2. rewrite repeat_length in H2. cbn in H2. split; [exact X|lia].
Qed.
Lemma bad_code_ok b : symbols_ok (bad_file b) bad_code.
Proof. intros f n H. apply bad_declares in H as [-> _]. split; [discriminate|]. split; [discriminate|]. intros g m H _. apply bad_declares in H as [-> _]. reflexivity. Qed.
Lemma bad_parse b : exists s, parse_its (bad_file b) = Some s /\ as_chcs numeral plain_mk bad_code s = Some (bad_clauses b).
Proof. destruct b; eexists; (split; [vm_compute; reflexivity|vm_compute; reflexivity]). Qed.
End ExIts.

(** ** What fails *)
(** A bound name that is also used outside its scope is taken for the same variable: a system that runs forever becomes one that stops. *)
Theorem C71_capture_refuted :
  exists l_const l_mk code file s cs, arith_logic_ok l_const l_mk /\ symbols_ok file code /\ parse_its file = Some s /\ as_chcs l_const l_mk code s = Some cs /\
    (forall l r g, In (SList [atom_of "rule"; l; r; atom_of ":guard"; g]) file -> guard_form g) /\
    its_runs_forever file /\ ~ clauses_run_forever cs.
Proof.
  destruct (ExIts.bad_parse true) as [s [P C]]. exists numeral, ExIts.plain_mk, ExIts.bad_code, (ExIts.bad_file true), s, (ExIts.bad_clauses true).
  split; [apply ExIts.plain_mk_ok|]. split; [apply ExIts.bad_code_ok|]. split; [exact P|]. split; [exact C|]. split; [|split].
  - intros l r g H. cbn [ExIts.bad_file In] in H. destruct H as [H|[H|[H|[]]]]; [discriminate H..|]. assert (E : g = ExIts.bound_twice) by congruence. subst g. apply ExIts.guard_formb_ok. vm_compute. reflexivity.
  - exists "f", [(-1)%Z]. split; [cbn; tauto|]. split; [right; cbn; tauto|]. apply (endless_coind (its_step (ExIts.bad_file true)) (fun c => c = ("f", [(-1)%Z]))); [|reflexivity]. intros c ->. exists ("f", [(-1)%Z]). split; [|reflexivity].
    exists (ExIts.ap ["f"; "x"]), (ExIts.ap ["f"; "x"]), [atom_of ":guard"; ExIts.bound_twice], (fun _ => (-1)%Z). split; [cbn; tauto|]. split; [exists ["x"]; split; [right; reflexivity|reflexivity]|]. split; [exists ["x"]; split; [right; reflexivity|reflexivity]|].
    right. eexists. split; [reflexivity|]. ExIts.ev. split; [do 3 right; left; split; [reflexivity|lia]|]. split; [|exact Logic.I]. exists (fun n => if String.eqb n "x" then 1%Z else (-1)%Z). split.
    + intros n Hn. destruct (String.eqb_spec n "x") as [->|N]; [exfalso; apply Hn; left; reflexivity|reflexivity].
    + ExIts.ev. do 4 right. split; [reflexivity|lia].
  - assert (N : forall a b, fst a = 2 -> ~ cstep (ExIts.bad_clauses true) a b).
    { intros a b Ha [c [Hc [v [H [Pr _]]]]]. destruct Hc as [<-|[<-|[]]].
      - cbn [cfla] in H. unfold holds, holdsb in H. cbn [eval interp map forallb asb] in H. change (eval v (Var (ivar "x"))) with (coerce SInt (v (ivar "x"))) in H. pose proof (eval_ivar v "x") as E. cbn [eval] in E. cbn [ivar vsort] in E.
        change (mkVar "x" TBase SInt) with (ivar "x") in H. cbn [vsort] in H. change (vsort (ivar "x")) with SInt in H. rewrite E in H. cbn [vleq] in H. destruct (Z.leb 0 (env_of v "x")) eqn:L1; [discriminate H|]. destruct (Z.leb (env_of v "x") 0) eqn:L2; [discriminate H|].
        apply Z.leb_gt in L1, L2. lia.
      - unfold instance_prems in Pr. cbn [cbody] in Pr. injection Pr as ->. discriminate Ha. }
    intros H. apply endless_inv in H as [a [[c [Hc [v [_ [_ ->]]]]] H]]. apply endless_inv in H as [b [H _]]. revert H. apply N. destruct Hc as [<-|[<-|[]]]; reflexivity.
Qed.
Print Assumptions C71_capture_refuted.
(** A number as an argument of a location is taken for a variable: a system that stops becomes one that runs forever. *)
Theorem C71_numeral_refuted :
  exists l_const l_mk code file s cs, arith_logic_ok l_const l_mk /\ symbols_ok file code /\ parse_its file = Some s /\ as_chcs l_const l_mk code s = Some cs /\
    ~ its_runs_forever file /\ clauses_run_forever cs.
Proof.
  destruct (ExIts.bad_parse false) as [s [P C]]. exists numeral, ExIts.plain_mk, ExIts.bad_code, (ExIts.bad_file false), s, (ExIts.bad_clauses false).
  split; [apply ExIts.plain_mk_ok|]. split; [apply ExIts.bad_code_ok|]. split; [exact P|]. split; [exact C|]. split.
  - assert (St : forall c d, its_step (ExIts.bad_file false) c d -> exists x, snd c = [x] /\ (0 < x)%Z /\ snd d = [0%Z]).
    { intros [cf cx] [df dx] [l [r [rest [rho [I [[a [A1 V1]] [[b [A2 V2]] G]]]]]]]. cbn [fst snd] in *. cbn [ExIts.bad_file In] in I. destruct I as [I|[I|[I|[]]]]; [discriminate I..|].
      injection I as <- <- <-. destruct (at_unique _ _ _ "f" ["x"] A1 (or_intror eq_refl)) as [-> ->]. destruct (at_unique _ _ _ "f" ["0"] A2 (or_intror eq_refl)) as [-> ->].
      destruct cx as [|x [|? ?]]; try discriminate V1. destruct dx as [|y [|? ?]]; try discriminate V2. ExIts.ev_in V1. ExIts.ev_in V2. injection V1 as <-. injection V2 as <-. exists (rho "x"). split; [reflexivity|]. split; [|reflexivity].
      destruct G as [G|[g [G S]]]; [discriminate G|]. injection G as <-. ExIts.ev_in S. repeat (destruct S as [[X S]|S]; [discriminate X|]). destruct S as [_ S]. lia. }
    intros [f [args [_ [_ E]]]]. apply endless_inv in E as [c [H1 E]]. apply endless_inv in E as [d [H2 _]]. apply St in H1 as [_ [_ [_ H1]]]. apply St in H2 as [x [E2 [H2 _]]]. rewrite H1 in E2. injection E2 as <-. lia.
  - apply (endless_coind (cstep (ExIts.bad_clauses false)) (fun a => a = (entry, []) \/ a = (2, [VInt 1]))); [|auto]. intros a Ha. exists (2, [VInt 1]). split; [|auto].
    pose (c0 := mkClause (mkAtom 2 []) tt_true []). destruct Ha as [->| ->]; [exists (nth 1 (ExIts.bad_clauses false) c0)|exists (nth 0 (ExIts.bad_clauses false) c0)]; (split; [cbn; auto|]); exists (fun _ => VInt 1); repeat split.
Qed.
Print Assumptions C71_numeral_refuted.
