(** * Proofs for C74: the clauses of a VMT file. *)
From Coq Require Import Qcanon.
From Verif Require Import Syntax Solver Graph ChcSystem SExprModel Names GraphSem NormModel NormProofs NormRun PropNorm ItsModel ItsSpec ItsProofs VmtModel VmtSpec.
From Coq Require Import List.
Open Scope string_scope.
Open Scope list_scope.
Open Scope nat_scope.

(** What OpenSMT's constructors promise: the meaning of the SMT-LIB operators. *)
Definition op_word (o : vop) : string :=
  match o with OAnd => "and" | OOr => "or" | ONot => "not" | OEq => "=" | OLeq => "<=" | OPlus => "+" | ONeg => "-" | OMinus => "-" | OTimes => "*" end.
(** The sort that the logic does not have. *)
Definition foreign (real : bool) : sort := if real then SInt else SReal.
Record vmt_logic_ok (real : bool) (l_const : string -> option term) (l_mk : vop -> list term -> option term) : Prop := {
  vl_const : forall s z t r, numeral s = Some z -> l_const s = Some t -> eval r t = num real z;
  vl_closed : forall s z t, numeral s = Some z -> l_const s = Some t -> vars t = [];
  vl_mk : forall o ts t r v, l_mk o ts = Some t -> Forall (fun v => sort_of v <> foreign real) (map (eval r) ts) -> apply_op (op_word o) (map (eval r) ts) = Some v -> eval r t = v;
  vl_vars : forall o ts t, l_mk o ts = Some t -> incl (vars t) (concat (map vars ts))
}.

(** ** Sorts and values *)
Definition sorted (s : sort) (v : value) : Prop := sort_of v = s.
Lemma all_some_inv {A} (l : list (option A)) xs : all_some l = Some xs -> l = map Some xs.
Proof.
  revert xs. induction l as [|[x|] l IH]; intros xs H; cbn in H; [injection H as <-; reflexivity| |discriminate].
  destruct (all_some l) as [ys|]; [|discriminate]. injection H as <-. cbn. f_equal. apply IH. reflexivity.
Qed.
Lemma truths_ok vs ss : Forall2 (fun v s => sort_of v = s) vs ss -> forallb (sort_eqb SBool) ss = true -> exists bs, truths vs = Some bs.
Proof.
  unfold truths. induction 1 as [|v s vs ss H _ IH]; cbn; [eauto|]. intros X. apply andb_prop in X as [X1 X2]. destruct (IH X2) as [bs E].
  destruct s; try discriminate. destruct v; try discriminate. cbn. rewrite E. eexists. reflexivity.
Qed.
Lemma integers_ok vs ss : Forall2 (fun v s => sort_of v = s) vs ss -> forallb (sort_eqb SInt) ss = true -> exists zs, integers vs = Some zs /\ length zs = length vs.
Proof.
  unfold integers. induction 1 as [|v s vs ss H _ IH]; cbn; [eauto|]. intros X. apply andb_prop in X as [X1 X2]. destruct (IH X2) as [bs [E L]].
  destruct s; try discriminate. destruct v; try discriminate. cbn. rewrite E. eexists. split; [reflexivity|]. cbn. congruence.
Qed.
Lemma rationals_ok vs ss : Forall2 (fun v s => sort_of v = s) vs ss -> forallb (sort_eqb SReal) ss = true -> exists zs, rationals vs = Some zs /\ length zs = length vs.
Proof.
  unfold rationals. induction 1 as [|v s vs ss H _ IH]; cbn; [eauto|]. intros X. apply andb_prop in X as [X1 X2]. destruct (IH X2) as [bs [E L]].
  destruct s; try discriminate. destruct v; try discriminate. cbn. rewrite E. eexists. split; [reflexivity|]. cbn. congruence.
Qed.
(** Well-sorted applications have values of their sorts. *)
Lemma op_sort_ok op ss vs s : op_sort op ss = Some s -> Forall2 (fun v s => sort_of v = s) vs ss -> exists v, apply_op op vs = Some v /\ sort_of v = s.
Proof.
  intros O F. unfold op_sort, apply_op in *.
  destruct (String.eqb_spec op "and") as [->|N1].
  { cbn [orb] in O. destruct (forallb (sort_eqb SBool) ss) eqn:A; [|discriminate]. injection O as <-. destruct (truths_ok _ _ F A) as [bs ->]. cbn. eauto. }
  destruct (String.eqb_spec op "or") as [->|N2].
  { cbn [orb] in O. destruct (forallb (sort_eqb SBool) ss) eqn:A; [|discriminate]. injection O as <-. destruct (truths_ok _ _ F A) as [bs ->]. cbn. eauto. }
  cbn [orb] in O. destruct (String.eqb_spec op "not") as [->|N3].
  { destruct ss as [|[] [|? ?]]; try discriminate. injection O as <-. inversion F as [|v ? vs' ? Hv F']; subst. inversion F'; subst. destruct v; try discriminate. eauto. }
  destruct (String.eqb_spec op "=") as [->|N4].
  { destruct ss as [|a [|b [|? ?]]]; try discriminate. destruct (sort_eqb_spec a b) as [->|]; [|discriminate]. injection O as <-.
    inversion F as [|v ? vs' ? Hv F']; subst. inversion F' as [|w ? vs'' ? Hw F'']; subst. inversion F''; subst. destruct v, w; try discriminate Hw; eauto. }
  destruct (String.eqb_spec op "<=") as [->|N5].
  { destruct ss as [|a [|b [|? ?]]]; try discriminate. destruct (sort_eqb_spec a b) as [->|]; [|discriminate].
    inversion F as [|v ? vs' ? Hv F']; subst. inversion F' as [|w ? vs'' ? Hw F'']; subst. inversion F''; subst.
    destruct v, w; try discriminate Hw; cbn in O; try discriminate O; injection O as <-; eauto. }
  destruct (String.eqb op "+" || String.eqb op "*" || _) eqn:K; [|discriminate].
  destruct ss as [|a ss]; [discriminate|]. destruct (forallb (sort_eqb a) (a :: ss)) eqn:A; [|discriminate]. cbn [andb] in O.
  inversion F as [|v ? vs' ? Hv F']; subst.
  assert (AR : forall z zs, exists y, arith_op op (z :: zs) = Some y).
  { intros z zs. unfold arith_op. destruct (String.eqb op "+"); [eauto|]. destruct (String.eqb op "*"); [eauto|]. destruct (String.eqb op "-"); [eauto|discriminate]. }
  assert (RR : forall z zs, exists y, real_op op (z :: zs) = Some y).
  { intros z zs. unfold real_op. destruct (String.eqb op "+"); [eauto|]. destruct (String.eqb op "*"); [eauto|]. destruct (String.eqb op "-"); [eauto|discriminate]. }
  destruct v as [b|z|q]; cbn [sort_of] in *; subst; cbn [negb sort_eqb] in O; try discriminate O. all: injection O as <-.
  - destruct (integers_ok _ _ F A) as [zs [E L]]. rewrite E. destruct zs as [|y zs]; [discriminate L|]. destruct (AR y zs) as [x ->]. cbn. eauto.
  - destruct (rationals_ok _ _ F A) as [zs [E L]]. rewrite E. destruct zs as [|y zs]; [discriminate L|]. destruct (RR y zs) as [x ->]. cbn. eauto.
Qed.
Lemma op_apply l_mk op ss s ts (len : length ss = length ts) : op_sort op ss = Some s -> exists o, op_word o = op /\ apply l_mk op ts = l_mk o ts.
Proof.
  unfold op_sort, apply. intros H.
  destruct (String.eqb_spec op "and") as [->|N1]; [exists OAnd; auto|].
  destruct (String.eqb_spec op "or") as [->|N2]; [exists OOr; auto|].
  destruct (String.eqb_spec op "not") as [->|N3]; [exists ONot; auto|].
  destruct (String.eqb_spec op "=") as [->|N4]; [exists OEq; auto|].
  destruct (String.eqb_spec op "<=") as [->|N5]; [exists OLeq; auto|].
  destruct (String.eqb_spec op "+") as [->|N6]; [exists OPlus; auto|].
  destruct (String.eqb_spec op "*") as [->|N7]; [exists OTimes; auto|]. cbn [orb] in H.
  destruct (String.eqb_spec op "-") as [->|N8]; [|discriminate]. destruct (Nat.eqb (length ts) 1); [exists ONeg|exists OMinus]; auto.
Qed.

(** ** Terms *)
Definition lookup (g : gatherer) (n : string) : option term := match find_name (g_vars g) n with Some v => Some (Var v) | None => find_name (g_defs g) n end.
Lemma find_name_in {A} (l : list (string * A)) n x : find_name l n = Some x -> In (n, x) l.
Proof.
  unfold find_name. destruct (find _ l) as [[m y]|] eqn:F; [|discriminate]. intros H. injection H as <-. apply find_some in F as [F1 F2]. apply String.eqb_eq in F2. cbn in F2. subst. exact F1.
Qed.
Lemma find_name_none {A} (l : list (string * A)) n : ~ In n (map fst l) -> find_name l n = None.
Proof.
  unfold find_name. intros H. destruct (find _ l) as [[m y]|] eqn:F; [|reflexivity]. apply find_some in F as [F1 F2]. apply String.eqb_eq in F2. cbn in F2. subst. destruct H. apply in_map_iff. exists (n, y). auto.
Qed.
Lemma find_name_app {A} (l l' : list (string * A)) n : find_name (l ++ l') n = match find_name l n with Some x => Some x | None => find_name l' n end.
Proof. unfold find_name. induction l as [|[m x] l IH]; [reflexivity|]. cbn [app find fst]. destruct (String.eqb m n); [reflexivity|exact IH]. Qed.
Lemma find_name_found {A} (l : list (string * A)) n x : NoDup (map fst l) -> In (n, x) l -> find_name l n = Some x.
Proof.
  unfold find_name. induction l as [|[m y] l IH]; intros N H; [destruct H|]. cbn [map fst] in N. inversion N as [|? ? N1 N2]; subst. cbn [find fst]. destruct H as [H|H].
  - injection H as <- <-. rewrite String.eqb_refl. reflexivity.
  - destruct (String.eqb_spec m n) as [->|X]; [|apply IH; auto]. destruct N1. apply in_map_iff. exists (n, x). auto.
Qed.
Lemma lookup_key g n t : lookup g n = Some t -> In n (map fst (g_vars g) ++ map fst (g_defs g)).
Proof.
  unfold lookup. rewrite in_app_iff. destruct (find_name (g_vars g) n) as [v|] eqn:F; intros H.
  - left. apply find_name_in in F. apply in_map_iff. exists (n, v). auto.
  - right. apply find_name_in in H. apply in_map_iff. exists (n, t). auto.
Qed.

Section Terms.
Variable real : bool.
Variable l_const : string -> option term.
Variable l_mk : vop -> list term -> option term.
Hypothesis L : vmt_logic_ok real l_const l_mk.
(** The gatherer, the values of the variables of terms, and the values of the names agree. *)
Record agrees (D : list var) (G : string -> option sort) (r : valuation) (e : venv) (g : gatherer) : Prop := {
  ag_name : forall n s, G n = Some s -> exists t, lookup g n = Some t /\ eval r t = e n /\ sort_of (e n) = s /\ incl (vars t) D;
  ag_sort : forall n s, G n = Some s -> s <> foreign real;
  ag_keys : Forall name (map fst (g_vars g) ++ map fst (g_defs g))
}.
Lemma op_sort_native op ss s : op_sort op ss = Some s -> Forall (fun s => s <> foreign real) ss -> s <> foreign real.
Proof.
  intros O F. unfold op_sort in O.
  destruct (String.eqb op "and" || String.eqb op "or"); [destruct (forallb _ ss); [injection O as <-; destruct real; discriminate|discriminate]|].
  destruct (String.eqb op "not"); [destruct ss as [|[] [|? ?]]; try discriminate; injection O as <-; destruct real; discriminate|].
  destruct (String.eqb op "="); [destruct ss as [|a [|b [|? ?]]]; try discriminate; destruct (sort_eqb a b); [injection O as <-; destruct real; discriminate|discriminate]|].
  destruct (String.eqb op "<="); [destruct ss as [|a [|b [|? ?]]]; try discriminate; destruct (_ && _); [injection O as <-; destruct real; discriminate|discriminate]|].
  destruct (_ || _); [|discriminate]. destruct ss as [|a ss]; [discriminate|]. destruct (_ && _); [|discriminate]. injection O as <-. inversion F; assumption.
Qed.
Lemma term_meaning D G r e g : agrees D G r e g -> forall x s t, expr_sort real G x = Some s -> parse_term l_const l_mk g x = Some t ->
  exists v, meaning real e x = Some v /\ eval r t = v /\ sort_of v = s /\ incl (vars t) D /\ s <> foreign real.
Proof.
  intros A. induction x as [w|l IH] using sexpr_ind'; intros s t X P.
  - cbn [expr_sort parse_term meaning] in *. change (str w) with (word w) in P. destruct (numeral (word w)) as [z|] eqn:N.
    + injection X as <-. assert (K : lookup g (word w) = None).
      { destruct (lookup g (word w)) as [u|] eqn:E; [|reflexivity]. apply lookup_key in E. pose proof (ag_keys _ _ _ _ _ A) as Y. rewrite Forall_forall in Y. apply Y in E. apply name_numeral in E. congruence. }
      unfold lookup in K. destruct (find_name (g_vars g) (word w)); [discriminate|]. rewrite K in P. exists (num real z). split; [reflexivity|].
      split; [apply (vl_const _ _ _ L _ _ _ r N P)|]. split; [unfold num; destruct real; reflexivity|]. rewrite (vl_closed _ _ _ L _ _ _ N P). split; [intros v []|destruct real; discriminate].
    + destruct (ag_name _ _ _ _ _ A _ _ X) as [u [K [H1 [H2 H3]]]]. unfold lookup in K. assert (u = t).
      { destruct (find_name (g_vars g) (word w)) as [v|]; [congruence|]. rewrite K in P. congruence. }
      subst u. exists (e (word w)). pose proof (ag_sort _ _ _ _ _ A _ _ X). auto.
  - destruct l as [|[op|] l]; [discriminate|..|discriminate]. inversion IH as [|? ? _ IHl]; subst. cbn [expr_sort parse_term meaning] in *.
    change (as_atom (Atom op)) with (Some (word op)) in P. destruct (all_some (map (expr_sort real G) l)) as [ss|] eqn:S1; [|discriminate]. destruct (mapo (parse_term l_const l_mk g) l) as [ts|] eqn:P1; [|discriminate].
    apply all_some_inv in S1. apply mapo_some in P1.
    assert (B : exists vs, map (meaning real e) l = map Some vs /\ map (eval r) ts = vs /\ Forall2 (fun v s => sort_of v = s) vs ss /\ incl (concat (map vars ts)) D /\ length ss = length ts /\ Forall (fun s => s <> foreign real) ss).
    { clear X P IH. revert ss ts S1 P1. induction l as [|a l IHm]; intros ss ts S1 P1.
      - destruct ss; [|discriminate]. destruct ts; [|discriminate]. exists []. repeat split; auto. intros v [].
      - destruct ss as [|s1 ss]; [discriminate|]. destruct ts as [|t1 ts]; [discriminate|]. cbn [map] in S1, P1. injection S1 as Sa S1. injection P1 as Pa P1. inversion IHl as [|? ? Ia Il]; subst.
        destruct (Ia s1 t1 Sa Pa) as [v [V1 [V2 [V3 [V4 V5]]]]]. destruct (IHm Il ss ts S1 P1) as [vs [W1 [W2 [W3 [W4 [W5 W6]]]]]]. exists (v :: vs). cbn [map concat]. rewrite V1, W1, W2, V2. repeat split; auto.
        + apply incl_app; auto.
        + cbn. congruence. }
    destruct B as [vs [B1 [B2 [B3 [B4 [B5 B6]]]]]]. rewrite B1, (all_some_some _ vs eq_refl). destruct (op_sort_ok _ _ _ _ X B3) as [v [V1 V2]]. exists v. split; [exact V1|].
    destruct (op_apply l_mk (word op) ss s ts B5 X) as [o [O1 O2]]. rewrite O2 in P. split; [|split; [exact V2|split; [|apply (op_sort_native _ _ _ X B6)]]].
    + apply (vl_mk _ _ _ L o ts t r v P); [|rewrite O1, B2; exact V1]. rewrite B2. clear -B3 B6. induction B3 as [|v s vs ss H _ IH]; [constructor|]. inversion B6; subst. constructor; [assumption|apply IH; assumption].
    + intros x Hx. apply B4. apply (vl_vars _ _ _ L o ts t P). exact Hx.
Qed.

(** ** Definitions *)
Definition vdef_of (d : definition) : vdef := mkVDef (d_name d) (d_type d) (d_body d).
Lemma as_bang : as_atom (atom_of "!") = Some "!".
Proof. reflexivity. Qed.
(** What a definition adds. *)
Definition inv_of (key : string) (t : term) (d : definition) (old : option term) : option term := if marked key d then Some t else old.
Lemma bang d b anns g : vd_value d = SList (atom_of "!" :: b :: anns) -> define l_const l_mk d g =
  match parse_term l_const l_mk g b with
  | Some t => match annotate anns t g with Some g' => Some (mkG (g_vars g') (g_defs g' ++ [(vd_name d, t)]) (g_pairs g') (g_init g') (g_trans g') (g_inv g') (g_live g')) | None => None end
  | None => None
  end.
Proof. unfold define. intros ->. change (as_atom (atom_of "!")) with (Some "!"). cbv beta iota. change (String.eqb "!" "!") with true. cbv iota. destruct (parse_term l_const l_mk g b) as [t|]; [|reflexivity]. destruct (annotate anns t g); reflexivity. Qed.
Lemma define_ok d g g' : body_form (d_body d) -> (forall x y, In (x, y) (next_pair d) -> exists v, find_name (g_vars g) y = Some v) -> define l_const l_mk (vdef_of d) g = Some g' ->
  exists t, parse_term l_const l_mk g (VmtSpec.plain (d_body d)) = Some t /\
    g_vars g' = g_vars g /\ g_defs g' = g_defs g ++ [(d_name d, t)] /\
    g_init g' = (if marked ":init" d then Some t else g_init g) /\
    g_trans g' = (if marked ":trans" d then Some t else g_trans g) /\
    g_inv g' = (if marked ":invar-property" d then insert_new (g_inv g) 0 t else g_inv g) /\
    g_live g' = g_live g /\
    exists new, g_pairs g' = g_pairs g ++ new /\ Forall2 (fun p q => fst q = t /\ VmtSpec.plain (d_body d) = atom_of (fst p) /\ find_name (g_vars g) (snd p) = Some (snd q)) (next_pair d) new.
Proof.
  intros F Hn E. assert (VB : vd_value (vdef_of d) = d_body d) by reflexivity. unfold marked, next_pair in *. remember (d_body d) as body eqn:HB. clear HB. destruct F as [op l No|b|b|b|x y].
  - unfold define in E. rewrite VB in E. rewrite as_atom_of in E. destruct (String.eqb_spec op "!") as [->|_]; [contradiction|]. cbv beta iota in E.
    destruct (parse_term l_const l_mk g (SList (atom_of op :: l))) as [t|] eqn:P; [|discriminate]. injection E as <-. exists t.
    assert (W : String.eqb (word (list_ascii_of_string op)) "!" = false) by (rewrite word_of; apply String.eqb_neq; exact No).
    split. { unfold VmtSpec.plain. unfold atom_of at 1. destruct l as [|b l]; [exact P|]. rewrite W. exact P. }
    cbn [g_vars g_defs g_init g_trans g_inv g_live g_pairs]. unfold atom_of at 1 2 3 4.
    assert (M : forall key, match SList (Atom (list_ascii_of_string op) :: l) with SList (Atom k :: _ :: Atom a :: _) => String.eqb (word k) "!" && String.eqb (word a) key | _ => false end = false).
    { intros key. destruct l as [|b [|[a|] l]]; auto. rewrite W. reflexivity. }
    rewrite !M. repeat split; auto. exists []. rewrite app_nil_r. split; [reflexivity|].
    destruct l as [|[x|] [|[a|] [|[y|] [|? ?]]]]; cbn; try constructor. rewrite W. constructor.
  - rewrite (bang _ _ _ _ VB) in E. destruct (parse_term l_const l_mk g b) as [t|] eqn:P; [|discriminate]. change (Some (mkG (g_vars g) (g_defs g ++ [(d_name d, t)]) (g_pairs g) (Some t) (g_trans g) (g_inv g) (g_live g)) = Some g') in E. injection E as <-. exists t. split; [exact P|]. cbn [g_vars g_defs g_init g_trans g_inv g_live g_pairs].
    repeat split; auto. exists []. rewrite app_nil_r. split; [reflexivity|destruct b; constructor].
  - rewrite (bang _ _ _ _ VB) in E. destruct (parse_term l_const l_mk g b) as [t|] eqn:P; [|discriminate]. change (Some (mkG (g_vars g) (g_defs g ++ [(d_name d, t)]) (g_pairs g) (g_init g) (Some t) (g_inv g) (g_live g)) = Some g') in E. injection E as <-. exists t. split; [exact P|]. cbn [g_vars g_defs g_init g_trans g_inv g_live g_pairs].
    repeat split; auto. exists []. rewrite app_nil_r. split; [reflexivity|destruct b; constructor].
  - rewrite (bang _ _ _ _ VB) in E. destruct (parse_term l_const l_mk g b) as [t|] eqn:P; [|discriminate]. change (Some (mkG (g_vars g) (g_defs g ++ [(d_name d, t)]) (g_pairs g) (g_init g) (g_trans g) (insert_new (g_inv g) 0 t) (g_live g)) = Some g') in E. injection E as <-. exists t. split; [exact P|]. cbn [g_vars g_defs g_init g_trans g_inv g_live g_pairs].
    repeat split; auto. exists []. rewrite app_nil_r. split; [reflexivity|destruct b; constructor].
  - destruct (parse_term l_const l_mk g (atom_of x)) as [t|] eqn:P.
    2:{ rewrite (bang _ _ _ _ VB), P in E. discriminate. }
    rewrite (bang _ _ _ _ VB), P in E.
    unfold annotate in E. change (as_atom (atom_of ":next")) with (Some ":next") in E. cbv beta iota in E.
    change (String.eqb ":next" ":init") with false in E. change (String.eqb ":next" ":trans") with false in E. change (String.eqb ":next" ":invar-property") with false in E. change (String.eqb ":next" ":live-property") with false in E. change (String.eqb ":next" ":next") with true in E. cbv iota in E.
    rewrite as_atom_of in E.
    assert (NP : (match SList [atom_of "!"; atom_of x; atom_of ":next"; atom_of y] with SList [Atom k; Atom x; Atom a; Atom y] => if String.eqb (word k) "!" && String.eqb (word a) ":next" then [(word x, word y)] else [] | _ => [] end) = [(x, y)]).
    { unfold atom_of. rewrite !word_of. reflexivity. }
    rewrite NP in Hn. destruct (Hn x y (or_introl eq_refl)) as [v V]. rewrite V in E. cbn [option_map] in E. injection E as <-. exists t.
    split; [exact P|]. cbn [g_vars g_defs g_init g_trans g_inv g_live g_pairs].
    assert (M : forall key, key <> ":next" -> match SList [atom_of "!"; atom_of x; atom_of ":next"; atom_of y] with SList (Atom k :: _ :: Atom a :: _) => String.eqb (word k) "!" && String.eqb (word a) key | _ => false end = false).
    { intros key K. unfold atom_of. rewrite !word_of. change (String.eqb "!" "!") with true. cbn [andb]. apply String.eqb_neq. auto. }
    rewrite !M by discriminate. repeat split; auto. exists [(t, v)]. split; [reflexivity|]. rewrite NP. repeat constructor; auto.
Qed.
(** The gatherer after the definitions. *)
Definition keys (g : gatherer) : list string := map fst (g_vars g) ++ map fst (g_defs g).
Lemma lookup_stable g g' n t : g_vars g' = g_vars g -> (exists new, g_defs g' = g_defs g ++ new) -> lookup g n = Some t -> lookup g' n = Some t.
Proof.
  unfold lookup. intros -> [new ->]. destruct (find_name (g_vars g) n); [auto|]. intros H. rewrite find_name_app, H. reflexivity.
Qed.
Definition pair_of (vs : list (string * var)) (p : string * string) (q : term * var) : Prop :=
  exists vx, find_name vs (fst p) = Some vx /\ fst q = Var vx /\ find_name vs (snd p) = Some (snd q).
Definition marked_term (key : string) (ds : list definition) (g' : gatherer) (old new : option term) : Prop :=
  (filter (marked key) ds = [] -> new = old) /\ (forall d, filter (marked key) ds = [d] -> exists t, new = Some t /\ lookup g' (d_name d) = Some t).
Lemma marked_step key d ds g' old mid new t : mid = (if marked key d then Some t else old) -> lookup g' (d_name d) = Some t ->
  marked_term key ds g' mid new -> marked_term key (d :: ds) g' old new.
Proof.
  intros E K [A B]. unfold marked_term. cbn [filter]. destruct (marked key d); subst mid; split.
  - discriminate.
  - intros d' X. injection X as <- X. exists t. split; [apply A, X|exact K].
  - exact A.
  - exact B.
Qed.
Lemma defines_ok : forall ds g g',
  Forall (fun d => body_form (d_body d)) ds -> NoDup (keys g ++ map d_name ds) ->
  (forall d x y, In d ds -> In (x, y) (next_pair d) -> find_name (g_vars g) x <> None /\ find_name (g_vars g) y <> None) ->
  defines l_const l_mk (map vdef_of ds) g = Some g' ->
  g_vars g' = g_vars g /\ (exists new, g_defs g' = g_defs g ++ new) /\ g_live g' = g_live g /\
  marked_term ":init" ds g' (g_init g) (g_init g') /\ marked_term ":trans" ds g' (g_trans g) (g_trans g') /\
  (filter (marked ":invar-property") ds = [] -> g_inv g' = g_inv g) /\
  (forall d, filter (marked ":invar-property") ds = [d] -> g_inv g = [] -> exists t, g_inv g' = [(0, t)] /\ lookup g' (d_name d) = Some t) /\
  exists new, g_pairs g' = g_pairs g ++ new /\ Forall2 (pair_of (g_vars g)) (concat (map next_pair ds)) new.
Proof.
  induction ds as [|d ds IH]; intros g g' F N P E.
  - cbn in E. injection E as <-. split; [reflexivity|]. split; [exists []; rewrite app_nil_r; reflexivity|]. split; [reflexivity|]. split; [split; [auto|discriminate]|]. split; [split; [auto|discriminate]|].
    split; [auto|]. split; [discriminate|]. exists []. rewrite app_nil_r. split; [reflexivity|constructor].
  - cbn [map defines] in E. destruct (define l_const l_mk (vdef_of d) g) as [g1|] eqn:E1; [|discriminate]. inversion F as [|? ? F1 F2]; subst.
    assert (Py : forall x y, In (x, y) (next_pair d) -> exists v, find_name (g_vars g) y = Some v).
    { intros x y H. destruct (P d x y (or_introl eq_refl) H) as [_ Y]. destruct (find_name (g_vars g) y) as [v|]; [eauto|congruence]. }
    destruct (define_ok d g g1 F1 Py E1) as [t [T1 [V1 [D1 [I1 [R1 [J1 [L1 [nw [W1 W2]]]]]]]]]].
    assert (K1 : keys g1 = keys g ++ [d_name d]) by (unfold keys; rewrite V1, D1, map_app, app_assoc; reflexivity).
    assert (N1 : NoDup (keys g1 ++ map d_name ds)) by (rewrite K1, <- app_assoc; exact N).
    assert (P1 : forall d x y, In d ds -> In (x, y) (next_pair d) -> find_name (g_vars g1) x <> None /\ find_name (g_vars g1) y <> None) by (rewrite V1; intros; eapply P; [right|]; eauto).
    destruct (IH g1 g' F2 N1 P1 E) as [V2 [[n2 D2] [L2 [I2 [R2 [J2 [J3 [n3 [W3 W4]]]]]]]]].
    assert (K : lookup g1 (d_name d) = Some t).
    { unfold lookup. rewrite V1, D1, find_name_app. cbn [map] in N. apply NoDup_remove_2 in N. rewrite in_app_iff in N. unfold keys in N. rewrite in_app_iff in N.
      rewrite (find_name_none (g_vars g)) by tauto. rewrite (find_name_none (g_defs g)) by tauto. unfold find_name. cbn [find fst]. rewrite String.eqb_refl. reflexivity. }
    assert (K' : lookup g' (d_name d) = Some t) by (apply (lookup_stable g1); eauto).
    split; [congruence|]. split; [exists ((d_name d, t) :: n2); rewrite D2, D1, <- app_assoc; reflexivity|]. split; [congruence|].
    split; [apply (marked_step _ _ _ _ _ (g_init g1) _ t); auto|]. split; [apply (marked_step _ _ _ _ _ (g_trans g1) _ t); auto|].
    split; [|split].
    + cbn [filter]. destruct (marked ":invar-property" d); [discriminate|]. intros X. rewrite (J2 X). exact J1.
    + cbn [filter]. intros d' X G0. destruct (marked ":invar-property" d).
      * injection X as <- X. exists t. split; [|exact K']. rewrite (J2 X), J1, G0. reflexivity.
      * apply (J3 d' X). congruence.
    + exists (nw ++ n3). rewrite W3, W1, <- app_assoc. split; [reflexivity|]. cbn [map concat]. apply Forall2_app; [|rewrite V1 in W4; exact W4].
      clear - W2 P T1. revert nw W2. assert (PI : forall p, In p (next_pair d) -> find_name (g_vars g) (fst p) <> None) by (intros [x y] H; apply (P d x y); [left; reflexivity|exact H]).
      induction (next_pair d) as [|p l IHl]; intros nw W2; inversion W2 as [|? q ? nw' [Q1 [Q2 Q3]] W2']; subst; constructor.
      * unfold pair_of. specialize (PI p (or_introl eq_refl)). rewrite Q2 in T1. cbn [parse_term atom_of] in T1. change (str (list_ascii_of_string (fst p))) with (word (list_ascii_of_string (fst p))) in T1. rewrite word_of in T1.
        destruct (find_name (g_vars g) (fst p)) as [vx|]; [|congruence]. exists vx. injection T1 as T1. repeat split; [congruence|exact Q3].
      * apply IHl; [|exact W2']. intros p' Hp. apply PI. right. exact Hp.
Qed.
(** ** Values *)
Definition after (G : string -> option sort) (ds : list definition) : string -> option sort :=
  fold_left (fun G d => fun n => if String.eqb n (d_name d) then word_sort (d_type d) else G n) ds G.
Lemma agrees_ext D G G' r e g : (forall n, G n = G' n) -> agrees D G r e g -> agrees D G' r e g.
Proof. intros X [A C B]. split; [| |exact B]; intros n s H; rewrite <- X in H; eauto. Qed.
Lemma define_agrees D G r e d g g' s : agrees D G r e g -> body_form (d_body d) -> (forall x y, In (x, y) (next_pair d) -> exists v, find_name (g_vars g) y = Some v) ->
  ~ In (d_name d) (keys g) -> name (d_name d) -> define l_const l_mk (vdef_of d) g = Some g' ->
  expr_sort real G (VmtSpec.plain (d_body d)) = Some s -> agrees D (fun n => if String.eqb n (d_name d) then Some s else G n) r (extend real e d) g'.
Proof.
  intros A F Py N Nn E S. destruct (define_ok d g g' F Py E) as [t [T1 [V1 [D1 _]]]]. destruct (term_meaning D G r e g A _ _ _ S T1) as [v [M1 [M2 [M3 [M4 M5]]]]].
  unfold keys in N. rewrite in_app_iff in N. split.
  - intros n s' H. unfold extend. rewrite M1. destruct (String.eqb_spec n (d_name d)) as [->|X].
    + injection H as <-. exists t. split; [|auto]. unfold lookup. rewrite V1, D1, find_name_app, (find_name_none (g_vars g)) by tauto. rewrite (find_name_none (g_defs g)) by tauto. unfold find_name. cbn [find fst]. rewrite String.eqb_refl. reflexivity.
    + destruct (ag_name _ _ _ _ _ A n s' H) as [u [U1 U2]]. exists u. split; [|exact U2]. apply (lookup_stable g); eauto.
  - intros n s' H. destruct (String.eqb n (d_name d)); [injection H as <-; exact M5|apply (ag_sort _ _ _ _ _ A _ _ H)].
  - rewrite V1, D1, map_app, app_assoc. apply Forall_app. split; [apply (ag_keys _ _ _ _ _ A)|]. constructor; [exact Nn|constructor].
Qed.
Lemma defines_agrees D r : forall ds G e g g', agrees D G r e g ->
  Forall (fun d => body_form (d_body d)) ds -> NoDup (keys g ++ map d_name ds) -> Forall name (map d_name ds) ->
  (forall d x y, In d ds -> In (x, y) (next_pair d) -> find_name (g_vars g) x <> None /\ find_name (g_vars g) y <> None) ->
  defines l_const l_mk (map vdef_of ds) g = Some g' -> well_sorted real G ds ->
  agrees D (after G ds) r (fold_left (extend real) ds e) g'.
Proof.
  induction ds as [|d ds IH]; intros G e g g' A F N Nn P E W.
  - cbn in *. injection E as <-. exact A.
  - cbn [map defines] in E. destruct (define l_const l_mk (vdef_of d) g) as [g1|] eqn:E1; [|discriminate]. inversion F as [|? ? F1 F2]; subst. cbn [map] in N, Nn. inversion Nn as [|? ? Nn1 Nn2]; subst.
    assert (Py : forall x y, In (x, y) (next_pair d) -> exists v, find_name (g_vars g) y = Some v).
    { intros x y H. destruct (P d x y (or_introl eq_refl) H) as [_ Y]. destruct (find_name (g_vars g) y) as [v|]; [eauto|congruence]. }
    destruct (define_ok d g g1 F1 Py E1) as [t [T1 [V1 [D1 _]]]].
    assert (K1 : keys g1 = keys g ++ [d_name d]) by (unfold keys; rewrite V1, D1, map_app, app_assoc; reflexivity).
    cbn [well_sorted] in W. destruct W as [s [W1 [W2 W3]]].
    assert (Nd : ~ In (d_name d) (keys g)) by (apply NoDup_remove_2 in N; rewrite in_app_iff in N; tauto).
    cbn [after fold_left]. unfold after in IH. apply (IH (fun n => if String.eqb n (d_name d) then word_sort (d_type d) else G n) (extend real e d) g1); auto.
    + apply (agrees_ext D (fun n => if String.eqb n (d_name d) then Some s else G n)); [intros n; rewrite W1; reflexivity|]. apply (define_agrees D G r e d g g1 s); auto.
    + rewrite K1, <- app_assoc. exact N.
    + rewrite V1. intros; eapply P; [right|]; eauto.
    + rewrite W1. exact W3.
Qed.
(** Parsing succeeds if the constructors do. *)
Hypothesis total_const : forall s z, numeral s = Some z -> l_const s <> None.
Hypothesis total_mk : forall o ts, l_mk o ts <> None.
Lemma parse_total D G r e g : agrees D G r e g -> forall x s, expr_sort real G x = Some s -> exists t, parse_term l_const l_mk g x = Some t.
Proof.
  intros A. induction x as [w|l IH] using sexpr_ind'; intros s X.
  - cbn [expr_sort parse_term] in *. change (str w) with (word w). destruct (numeral (word w)) as [z|] eqn:N.
    + destruct (find_name (g_vars g) (word w)); [eauto|]. destruct (find_name (g_defs g) (word w)); [eauto|]. pose proof (total_const _ _ N) as T. destruct (l_const (word w)); [eauto|congruence].
    + destruct (ag_name _ _ _ _ _ A _ _ X) as [u [K _]]. unfold lookup in K. destruct (find_name (g_vars g) (word w)); [eauto|]. rewrite K. eauto.
  - destruct l as [|[op|] l]; [discriminate|..|discriminate]. inversion IH as [|? ? _ IHl]; subst. cbn [expr_sort parse_term] in *. change (as_atom (Atom op)) with (Some (word op)).
    destruct (all_some (map (expr_sort real G) l)) as [ss|] eqn:S1; [|discriminate]. apply all_some_inv in S1.
    destruct (mapo_total (parse_term l_const l_mk g) l) as [ts E].
    { clear X IH. revert ss S1. induction l as [|a l IHm]; intros ss S1; [constructor|]. destruct ss as [|s1 ss]; [discriminate|]. injection S1 as Sa S1. inversion IHl as [|? ? Ia Il]; subst. constructor; [eauto|eapply IHm; eauto]. }
    rewrite E. assert (LL : length ss = length ts).
    { apply mapo_some in E. rewrite <- (map_length (@Some sort) ss), <- S1, map_length, <- (map_length (@Some term) ts), <- E, map_length. reflexivity. }
    destruct (op_apply l_mk (word op) ss s ts LL X) as [o [_ ->]]. pose proof (total_mk o ts) as T. destruct (l_mk o ts); [eauto|congruence].
Qed.
Lemma define_total D G r e d g s : agrees D G r e g -> body_form (d_body d) -> (forall x y, In (x, y) (next_pair d) -> exists v, find_name (g_vars g) y = Some v) ->
  expr_sort real G (VmtSpec.plain (d_body d)) = Some s -> exists g', define l_const l_mk (vdef_of d) g = Some g'.
Proof.
  intros A F Py S. destruct (parse_total D G r e g A _ _ S) as [t T]. assert (VB : vd_value (vdef_of d) = d_body d) by reflexivity. unfold next_pair in Py. remember (d_body d) as body eqn:HB. clear HB.
  destruct F as [op l No|b|b|b|x y]; try (rewrite (bang _ _ _ _ VB); cbn in T; rewrite T; eexists; reflexivity).
  - unfold define. rewrite VB, as_atom_of. destruct (String.eqb_spec op "!") as [->|_]; [contradiction|]. cbv beta iota.
    assert (W : String.eqb (word (list_ascii_of_string op)) "!" = false) by (rewrite word_of; apply String.eqb_neq; exact No).
    unfold VmtSpec.plain in T. unfold atom_of at 1 in T. assert (T' : parse_term l_const l_mk g (SList (atom_of op :: l)) = Some t) by (destruct l as [|b l]; [exact T|rewrite W in T; exact T]). rewrite T'. eexists. reflexivity.
  - rewrite (bang _ _ _ _ VB). change (VmtSpec.plain (SList [atom_of "!"; atom_of x; atom_of ":next"; atom_of y])) with (atom_of x) in T. rewrite T. unfold annotate. change (as_atom (atom_of ":next")) with (Some ":next"). cbv beta iota.
    change (String.eqb ":next" ":init") with false. change (String.eqb ":next" ":trans") with false. change (String.eqb ":next" ":invar-property") with false. change (String.eqb ":next" ":live-property") with false. change (String.eqb ":next" ":next") with true. cbv iota. rewrite as_atom_of.
    assert (NP : (match SList [atom_of "!"; atom_of x; atom_of ":next"; atom_of y] with SList [Atom k; Atom x; Atom a; Atom y] => if String.eqb (word k) "!" && String.eqb (word a) ":next" then [(word x, word y)] else [] | _ => [] end) = [(x, y)]).
    { unfold atom_of. rewrite !word_of. reflexivity. }
    rewrite NP in Py. destruct (Py x y (or_introl eq_refl)) as [v ->]. eexists. reflexivity.
Qed.
Lemma defines_total D r : forall ds G e g, agrees D G r e g ->
  Forall (fun d => body_form (d_body d)) ds -> NoDup (keys g ++ map d_name ds) -> Forall name (map d_name ds) ->
  (forall d x y, In d ds -> In (x, y) (next_pair d) -> find_name (g_vars g) x <> None /\ find_name (g_vars g) y <> None) ->
  well_sorted real G ds -> exists g', defines l_const l_mk (map vdef_of ds) g = Some g'.
Proof.
  induction ds as [|d ds IH]; intros G e g A F N Nn P W; [cbn; eauto|]. inversion F as [|? ? F1 F2]; subst. cbn [map] in N, Nn. inversion Nn as [|? ? Nn1 Nn2]; subst. cbn [well_sorted] in W. destruct W as [s [W1 [W2 W3]]].
  assert (Py : forall x y, In (x, y) (next_pair d) -> exists v, find_name (g_vars g) y = Some v).
  { intros x y H. destruct (P d x y (or_introl eq_refl) H) as [_ Y]. destruct (find_name (g_vars g) y) as [v|]; [eauto|congruence]. }
  destruct (define_total D G r e d g s A F1 Py W2) as [g1 E1]. cbn [map defines]. rewrite E1. destruct (define_ok d g g1 F1 Py E1) as [t [T1 [V1 [D1 _]]]].
  assert (K1 : keys g1 = keys g ++ [d_name d]) by (unfold keys; rewrite V1, D1, map_app, app_assoc; reflexivity).
  assert (Nd : ~ In (d_name d) (keys g)) by (apply NoDup_remove_2 in N; rewrite in_app_iff in N; tauto).
  apply (IH (fun n => if String.eqb n (d_name d) then Some s else G n) (extend real e d) g1); auto.
  - apply (define_agrees D G r e d g g1 s); auto.
  - rewrite K1, <- app_assoc. exact N.
  - rewrite V1. intros; eapply P; [right|]; eauto.
Qed.
End Terms.

(** ** Reading the commands *)
Lemma gather_ok file : Forall command_form file -> forall b, gather file b = Some (mkBuilder (b_vars b ++ declared file) (b_defs b ++ map vdef_of (definitions file))).
Proof.
  induction 1 as [|c file H _ IH]; intros b.
  - cbn. rewrite !app_nil_r. destruct b; reflexivity.
  - cbn [gather]. destruct H as [l|n t T|n t body T].
    + change (resolve (SList (atom_of "set-info" :: l)) b) with (Some b). cbv iota. rewrite IH. f_equal.
      assert (D : declared (SList (atom_of "set-info" :: l) :: file) = declared file).
      { cbn [declared atom_of list_ascii_of_string]. destruct l as [|[x|] [|[|[]] [|[y|] [|? ?]]]]; reflexivity. }
      assert (F : definitions (SList (atom_of "set-info" :: l) :: file) = definitions file).
      { cbn [definitions atom_of list_ascii_of_string]. destruct l as [|[x|] [|[|[]] [|[y|] [|? [|? ?]]]]]; reflexivity. }
      rewrite D, F. reflexivity.
    + assert (R : resolve (SList [atom_of "declare-fun"; atom_of n; SList []; atom_of t]) b = Some (mkBuilder (b_vars b ++ [(n, t)]) (b_defs b))).
      { unfold resolve. rewrite as_atom_of. change (String.eqb "declare-fun" "declare-fun") with true. cbv iota. unfold resolve_declare. rewrite !as_atom_of. reflexivity. }
      rewrite R. cbv iota. rewrite IH. cbn [b_vars b_defs]. rewrite <- app_assoc. cbn [declared definitions]. unfold atom_of. rewrite !word_of. reflexivity.
    + assert (R : resolve (SList [atom_of "define-fun"; atom_of n; SList []; atom_of t; body]) b = Some (mkBuilder (b_vars b) (b_defs b ++ [mkVDef n t body]))).
      { unfold resolve. rewrite as_atom_of. change (String.eqb "define-fun" "declare-fun") with false. change (String.eqb "define-fun" "define-fun") with true. cbv iota. unfold resolve_define. rewrite !as_atom_of. reflexivity. }
      rewrite R. cbv iota. rewrite IH. cbn [b_vars b_defs]. rewrite <- app_assoc. cbn [declared definitions]. unfold atom_of. rewrite !word_of. reflexivity.
Qed.
Lemma declared_types file : Forall command_form file -> Forall (fun p => word_sort (snd p) <> None) (declared file).
Proof.
  induction 1 as [|c file H _ IH]; [constructor|]. destruct H as [l|n t T|n t body T].
  - assert (D : declared (SList (atom_of "set-info" :: l) :: file) = declared file).
    { cbn [declared atom_of list_ascii_of_string]. destruct l as [|[x|] [|[|[]] [|[y|] [|? ?]]]]; reflexivity. }
    rewrite D. exact IH.
  - cbn [declared]. unfold atom_of. rewrite !word_of. constructor; [exact T|exact IH].
  - cbn [declared]. exact IH.
Qed.
Lemma definition_types file : Forall command_form file -> Forall (fun d => word_sort (d_type d) <> None) (definitions file).
Proof.
  induction 1 as [|c file H _ IH]; [constructor|]. destruct H as [l|n t T|n t body T].
  - assert (F : definitions (SList (atom_of "set-info" :: l) :: file) = definitions file).
    { cbn [definitions atom_of list_ascii_of_string]. destruct l as [|[x|] [|[|[]] [|[y|] [|? [|? ?]]]]]; reflexivity. }
    rewrite F. exact IH.
  - cbn [definitions]. exact IH.
  - cbn [definitions]. unfold atom_of. rewrite !word_of. constructor; [exact T|exact IH].
Qed.
Lemma choose_ok file : vmt_file file -> choose_logic (types file) = Some (over_reals file).
Proof.
  intros V. unfold choose_logic. assert (A : forallb (fun t => String.eqb t "Real" || String.eqb t "Int" || String.eqb t "Bool") (types file) = true).
  { apply forallb_forall. intros t H. unfold types in H. assert (W : word_sort t <> None).
    { apply in_app_iff in H as [H|H]; apply in_map_iff in H as [p [<- H]].
      - pose proof (declared_types file (vf_commands _ V)) as X. rewrite Forall_forall in X. apply (X p H).
      - pose proof (definition_types file (vf_commands _ V)) as X. rewrite Forall_forall in X. apply (X p H). }
    unfold word_sort in W. destruct (String.eqb t "Int"), (String.eqb t "Real"), (String.eqb t "Bool"); auto. }
  rewrite A. cbn [negb]. destruct (existsb (String.eqb "Real") (types file)) eqn:R, (existsb (String.eqb "Int") (types file)) eqn:I; cbn [andb]; unfold over_reals; rewrite ?I; try reflexivity.
  exfalso. apply (vf_not_mixed _ V). apply existsb_exists in R as [x [R1 R2]]. apply existsb_exists in I as [y [I1 I2]]. apply String.eqb_eq in R2, I2. subst. auto.
Qed.
