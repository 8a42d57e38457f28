From Coq Require Import List Ascii String Bool Arith Lia.
Import ListNotations.
From Verif Require Import Syntax SExprModel SExprProofs LetModel.
Open Scope list_scope.
Open Scope nat_scope.

Fixpoint tsize (t : term) : nat := match t with App _ l => S (list_sum (map tsize l)) | _ => 1 end.
Lemma child_size c t : In c (children t) -> tsize c < tsize t.
Proof.
  destruct t as [| |f l]; cbn [children]; intros H; try destruct H. cbn [tsize]. enough (tsize c <= list_sum (map tsize l)) by lia.
  induction l as [|x l IH]; [destruct H|]. change (list_sum (map tsize (x :: l))) with (tsize x + list_sum (map tsize l)). destruct H as [->|H]; [lia|]. specialize (IH H). lia.
Qed.
Lemma tmem_in t l : tmem t l = true <-> In t l.
Proof.
  unfold tmem. rewrite existsb_exists. split.
  - intros [x [Hx E]]. apply term_eqb_iff in E. subst. exact Hx.
  - intros H. exists t. split; [exact H|apply term_eqb_refl].
Qed.
Lemma subterm_trans a b c : subterm a b -> subterm b c -> subterm a c.
Proof. intros H1 H2. induction H2 as [|d u Hd _ IH]; [exact H1|]. eapply sub_child; [exact Hd|exact IH]. Qed.

(** ** The order *)
Definition topo (O : list term) : Prop := forall O1 x O2, O = O1 ++ x :: O2 -> incl (children x) O1.
Lemma topo_snoc O t : topo O -> incl (children t) O -> topo (O ++ [t]).
Proof.
  intros T H O1 x O2 E. destruct O2 as [|y O2] using rev_ind.
  - apply app_inj_tail in E as [<- <-]. exact H.
  - clear IHO2. rewrite app_comm_cons, app_assoc in E. apply app_inj_tail in E as [E _]. apply (T O1 x O2 E).
Qed.
Record inv (A V O : list term) : Prop := { iv_v : forall v, In v V -> In v O \/ In v A; iv_o : incl O V; iv_t : topo O }.

Lemma push_children visited l : forall q, fold_left (fun q c => if tmem c visited then q else (c, false) :: q) l q
  = map (fun c => (c, false)) (rev (filter (fun c => negb (tmem c visited)) l)) ++ q.
Proof.
  induction l as [|c l IH]; intros q; [reflexivity|]. cbn [fold_left filter]. destruct (tmem c visited); cbn [negb]; rewrite IH; [reflexivity|]. cbn [rev]. rewrite map_app, <- app_assoc. reflexivity.
Qed.

Lemma dfs_node : forall n t, tsize t <= n -> forall A q V O, inv A V O -> (forall a, In a A -> tsize t < tsize a) ->
  exists k V' D, (forall f, dfs (k + f) ((t, false) :: q) V O = dfs f q V' (O ++ D)) /\ inv A V' (O ++ D) /\ In t (O ++ D) /\ incl V V' /\ (forall x, In x D -> subterm x t).
Proof.
  induction n as [|n IH]; intros t Hn A q V O I HA; [destruct t; cbn in Hn; lia|].
  assert (L : forall ps, (forall p, In p ps -> tsize p <= n /\ tsize p < tsize t /\ subterm p t) -> forall V O, inv (t :: A) V O -> forall q,
    exists k V' D, (forall f, dfs (k + f) (map (fun c => (c, false)) ps ++ q) V O = dfs f q V' (O ++ D)) /\ inv (t :: A) V' (O ++ D) /\ incl ps (O ++ D) /\ incl V V' /\ (forall x, In x D -> subterm x t)).
  { clear V O I q. induction ps as [|p ps IHp]; intros Hp V O I q.
    - exists 0, V, []. rewrite app_nil_r. split; [reflexivity|]. split; [exact I|]. split; [intros x []|]. split; [intros x Hx; exact Hx|intros x []].
    - destruct (Hp p (or_introl eq_refl)) as [P1 [P2 P3]].
      destruct (IH p P1 (t :: A) (map (fun c => (c, false)) ps ++ q) V O I) as [k1 [V1 [D1 [E1 [I1 [In1 [M1 S1]]]]]]].
      { intros a [<-|Ha]; [exact P2|]. specialize (HA a Ha). lia. }
      destruct (IHp (fun x Hx => Hp x (or_intror Hx)) V1 (O ++ D1) I1 q) as [k2 [V2 [D2 [E2 [I2 [In2 [M2 S2]]]]]]].
      exists (k1 + k2), V2, (D1 ++ D2). rewrite app_assoc. split; [intros f; rewrite <- Nat.add_assoc; cbn [map app]; rewrite E1; apply E2|]. split; [exact I2|].
      split; [intros x [<-|Hx]; [apply in_or_app; left; exact In1|apply In2, Hx]|]. split; [intros x Hx; apply M2, M1, Hx|].
      intros x Hx. apply in_app_or in Hx as [Hx|Hx]; [apply (subterm_trans _ p); [apply S1, Hx|exact P3]|apply S2, Hx]. }
  set (ps := rev (filter (fun c => negb (tmem c (t :: V))) (children t))).
  assert (Ip : inv (t :: A) (t :: V) O).
  { split; [|intros x Hx; right; apply (iv_o _ _ _ I), Hx|apply I]. intros v [<-|Hv]; [right; left; reflexivity|]. destruct (iv_v _ _ _ I v Hv); [left|right; right]; assumption. }
  destruct (L ps) with (V := t :: V) (O := O) (q := (t, true) :: q) as [k [V' [D [E [I' [In' [M Sb]]]]]]]; [|exact Ip|].
  { intros p Hp. apply in_rev in Hp. apply filter_In in Hp as [Hp _]. pose proof (child_size p t Hp) as Sz. split; [lia|]. split; [exact Sz|]. eapply sub_child; [exact Hp|constructor]. }
  assert (Ch : incl (children t) (O ++ D)).
  { intros c Hc. pose proof (child_size c t Hc) as Sz. destruct (tmem c (t :: V)) eqn:Ev.
    - apply tmem_in in Ev as [->|Ev]; [lia|]. apply in_or_app. left. destruct (iv_v _ _ _ I c Ev) as [X|X]; [exact X|]. specialize (HA c X). lia.
    - apply In'. unfold ps. apply -> in_rev. apply filter_In. split; [exact Hc|]. rewrite Ev. reflexivity. }
  exists (S k + 1), V', (D ++ [t]). rewrite app_assoc. split; [|split; [split|split; [|split]]].
  - intros f. replace (S k + 1 + f) with (S (k + S f)) by lia. cbn [dfs]. cbv zeta. rewrite push_children. fold ps. rewrite E. reflexivity.
  - intros v Hv. destruct (iv_v _ _ _ I' v Hv) as [X|[<-|X]]; [left; apply in_or_app; left; exact X|left; apply in_or_app; right; left; reflexivity|right; exact X].
  - intros x Hx. apply in_app_or in Hx as [Hx|[<-|[]]]; [apply (iv_o _ _ _ I'), Hx|]. apply M. left. reflexivity.
  - apply topo_snoc; [apply I'|exact Ch].
  - apply in_or_app. right. left. reflexivity.
  - intros x Hx. apply M. right. exact Hx.
  - intros x Hx. apply in_app_or in Hx as [Hx|[<-|[]]]; [apply Sb, Hx|constructor].
Qed.
Lemma dfs_order root : exists k O, (forall f, k < f -> dfs f [(root, false)] [] [] = Some O) /\ topo O /\ In root O /\ (forall x, In x O -> subterm x root).
Proof.
  destruct (dfs_node (tsize root) root (le_n _) [] [] [] []) as [k [V [D [E [I [R [_ Sb]]]]]]]; [|intros a []|].
  { split; [intros v []|intros x []|]. intros O1 x O2 H. destruct O1; discriminate. }
  exists k, D. cbn [app] in *. split; [|split; [apply I|split; [exact R|exact Sb]]]. intros f Hf. replace f with (k + S (f - k - 1)) by lia. rewrite E. reflexivity.
Qed.

(** ** Texts *)
Section Print.
Variable leaf_text : term -> text.
Variable leaf : term -> sexpr.
Variable sym_text : fsym -> text.
Variable let_id : term -> text.
Variable root : term.
Hypothesis HL : forall t, subterm t root -> children t = [] -> writes (leaf t) (leaf_text t).
Hypothesis HS : forall f, plain (sym_text f).
Hypothesis HI : forall t, subterm t root -> plain (let_id t).

Fixpoint short (t : term) : sexpr :=
  if is_junction t then Atom (let_id t)
  else match t with App f (c :: l) => SList (Atom (sym_text f) :: map short (c :: l)) | _ => leaf t end.
Definition body (t : term) : sexpr := match t with App f (c :: l) => SList (Atom (sym_text f) :: map short (c :: l)) | _ => leaf t end.
Lemma short_body t : short t = if is_junction t then Atom (let_id t) else body t.
Proof. destruct t as [| |f l]; reflexivity. Qed.
Definition good_map (m : reprs) : Prop := forall x y, rfind x m = Some y -> writes (short x) y.
Lemma rinsert_find t x y m : rfind y (rinsert t x m) = match rfind y m with Some z => Some z | None => if term_eqb t y then Some x else None end.
Proof.
  unfold rinsert. destruct (rfind t m) as [z|] eqn:E.
  - destruct (rfind y m) as [w|] eqn:F; [reflexivity|]. destruct (term_eqb_spec t y) as [->|]; [congruence|reflexivity].
  - unfold rfind at 1. cbn [find fst]. destruct (term_eqb_spec t y) as [->|]; [rewrite E; reflexivity|]. fold (rfind y m). destruct (rfind y m); reflexivity.
Qed.
Lemma child_ok m l : good_map m -> (forall c, In c l -> exists y, rfind c m = Some y) ->
  exists x, child_texts m l = Some x /\ writes_items (map short l) (x ++ [cClose]).
Proof.
  intros G. induction l as [|c l IH]; intros H; [exists []; split; [reflexivity|apply (wi_nil []); constructor]|].
  destruct (H c (or_introl eq_refl)) as [y Ey]. destruct IH as [x [Ex Wx]]; [intros d Hd; apply H; right; exact Hd|].
  exists (y ++ cSpace :: x). cbn [child_texts]. rewrite Ey, Ex. split; [reflexivity|]. rewrite <- app_assoc. cbn [app].
  cbn [map]. apply (wi_cons [] (short c) y (map short l) (cSpace :: x ++ [cClose])); [constructor|apply (G _ _ Ey)| |intros; cbn; tauto].
  destruct (map short l) as [|e l'] eqn:Em.
  - inversion Wx as [g Hg Q Eg|]; subst. apply app_inj_tail in Eg as [-> _]. apply (wi_nil (cSpace :: x)). apply gap_ws; [reflexivity|exact Hg].
  - inversion Wx as [|g e0 t l0 t' Hg We Wl D Q1 Q2]; subst. apply (wi_cons (cSpace :: g) e t l' t'); [apply gap_ws; [reflexivity|exact Hg]|assumption|assumption|assumption].
Qed.
Lemma to_str_ok m t : good_map m -> subterm t root -> (forall c, In c (children t) -> exists y, rfind c m = Some y) ->
  exists x, to_str leaf_text sym_text m t = Some x /\ writes (body t) x.
Proof.
  intros G S H. destruct t as [v|c|f l]; [exists (leaf_text (Var v)); split; [reflexivity|apply HL; [exact S|reflexivity]]|exists (leaf_text (Const c)); split; [reflexivity|apply HL; [exact S|reflexivity]]|].
  destruct l as [|c l]; [exists (leaf_text (App f [])); split; [reflexivity|apply HL; [exact S|reflexivity]]|].
  cbn [children] in H. destruct (child_ok m (c :: l) G H) as [x [Ex Wx]]. unfold to_str. cbn [children]. rewrite Ex. cbn [option_map]. eexists. split; [reflexivity|].
  unfold body. apply w_list. apply (wi_cons [] (Atom (sym_text f)) (sym_text f) (map short (c :: l)) (cSpace :: x ++ [cClose])); [constructor|apply w_plain, HS| |intros; cbn; tauto].
  inversion Wx as [|g e0 t l0 t' Hg We Wl D E1 E2]; subst. apply (wi_cons (cSpace :: g)); [apply gap_ws; [reflexivity|exact Hg]|assumption|assumption|assumption].
Qed.

Fixpoint final (order : list term) : sexpr :=
  match order with
  | [] => short root
  | t :: o => if is_junction t then SList [Atom (txt "let"); SList [SList [Atom (let_id t); body t]]; final o] else final o
  end.
Lemma writes_let i d b ti td tb : plain i -> ti = i -> writes d td -> writes b tb ->
  writes (SList [Atom (txt "let"); SList [SList [Atom i; d]]; b]) (let_head ti td ++ tb ++ [cClose]).
Proof.
  intros Pi -> Wd Wb. unfold let_head.
  assert (W1 : writes_items [Atom i; d] (i ++ cSpace :: td ++ [cClose])).
  { apply (wi_cons [] (Atom i) i [d] (cSpace :: td ++ [cClose])); [constructor|apply w_plain, Pi| |intros; cbn; tauto].
    apply (wi_cons [cSpace] d td [] [cClose]); [apply gap_ws; [reflexivity|constructor]|exact Wd|apply (wi_nil []); constructor|intros; cbn; tauto]. }
  assert (W2 : writes_items [SList [Atom i; d]] (cOpen :: (i ++ cSpace :: td ++ [cClose]) ++ [cClose])).
  { apply (wi_cons [] (SList [Atom i; d]) (cOpen :: (i ++ cSpace :: td ++ [cClose])) [] [cClose]); [constructor|apply w_list, W1|apply (wi_nil []); constructor|intros; cbn; tauto]. }
  assert (W3 : writes_items [b] (tb ++ [cClose])).
  { apply (wi_cons [] b tb [] [cClose]); [constructor|exact Wb|apply (wi_nil []); constructor|intros; cbn; tauto]. }
  assert (W4 : writes_items [SList [SList [Atom i; d]]; b] (cSpace :: (cOpen :: cOpen :: (i ++ cSpace :: td ++ [cClose]) ++ [cClose]) ++ tb ++ [cClose])).
  { apply (wi_cons [cSpace] (SList [SList [Atom i; d]]) (cOpen :: cOpen :: (i ++ cSpace :: td ++ [cClose]) ++ [cClose]) [b] (tb ++ [cClose])); [apply gap_ws; [reflexivity|constructor]|apply w_list, W2|exact W3|intros; discriminate]. }
  replace ((txt "(let ((" ++ i ++ cSpace :: td ++ txt "))") ++ tb ++ [cClose])
    with (cOpen :: (txt "let" ++ (cSpace :: (cOpen :: cOpen :: (i ++ cSpace :: td ++ [cClose]) ++ [cClose]) ++ tb ++ [cClose]))).
  - apply w_list. apply (wi_cons [] (Atom (txt "let")) (txt "let") _ (cSpace :: (cOpen :: cOpen :: (i ++ cSpace :: td ++ [cClose]) ++ [cClose]) ++ tb ++ [cClose]));
      [constructor|apply w_plain|exact W4|intros; cbn; tauto].
    split; [discriminate|]. split; [|discriminate]. intros c Hc. cbn in Hc. unfold special. repeat (destruct Hc as [<-|Hc]; [cbn; intuition discriminate|]). destruct Hc.
  - change (txt "(let ((") with (cOpen :: txt "let" ++ cSpace :: [cOpen; cOpen]). change (txt "))") with [cClose; cClose].
    cbn [app]. rewrite <- !app_assoc. cbn [app]. f_equal. f_equal. cbn [app]. rewrite <- ?app_assoc. cbn [app]. reflexivity.
Qed.

Lemma print_ok : forall order out m n, good_map m -> (forall t, In t order -> subterm t root) ->
  (forall O1 t O2, order = O1 ++ t :: O2 -> forall c, In c (children t) -> In c O1 \/ exists y, rfind c m = Some y) ->
  exists hd m' k, print_loop leaf_text sym_text let_id order out m n = Some (out ++ hd, m', n + k) /\ good_map m' /\
    (forall x, In x order \/ (exists y, rfind x m = Some y) -> exists y, rfind x m' = Some y) /\
    (forall y, writes (short root) y -> writes (final order) (hd ++ y ++ repeat cClose k)).
Proof.
  induction order as [|t o IH]; intros out m n G HS' HT.
  - exists [], m, 0. rewrite app_nil_r, Nat.add_0_r. split; [reflexivity|]. split; [exact G|]. split; [intros x [[]|H]; exact H|]. intros y Hy. cbn. rewrite app_nil_r. exact Hy.
  - destruct (to_str_ok m t G (HS' t (or_introl eq_refl))) as [x [Ex Wx]].
    { intros c Hc. destruct (HT [] t o eq_refl c Hc) as [[]|H]; exact H. }
    assert (St : subterm t root) by (apply HS'; left; reflexivity).
    assert (G' : forall z, writes (short t) z -> good_map (rinsert t z m)).
    { intros z Hz a b. rewrite rinsert_find. destruct (rfind a m) as [w|] eqn:Ea; [intros H; injection H as <-; apply (G _ _ Ea)|].
      destruct (term_eqb_spec t a) as [<-|]; [intros H; injection H as <-; exact Hz|discriminate]. }
    assert (Dom : forall z c, c = t \/ (exists y, rfind c m = Some y) -> exists y, rfind c (rinsert t z m) = Some y).
    { intros z c H. rewrite rinsert_find. destruct (rfind c m) as [w|]; [eauto|]. destruct H as [->|[y H]]; [|discriminate]. rewrite term_eqb_refl. eauto. }
    assert (HT' : forall z O1 u O2, o = O1 ++ u :: O2 -> forall c, In c (children u) -> In c O1 \/ exists y, rfind c (rinsert t z m) = Some y).
    { intros z O1 u O2 E c Hc. destruct (HT (t :: O1) u O2 (f_equal (cons t) E) c Hc) as [[<-|H]|H]; [right; apply Dom; left; reflexivity|left; exact H|right; apply Dom; right; exact H]. }
    cbn [print_loop final]. rewrite Ex. pose proof (short_body t) as SB. destruct (is_junction t).
    + destruct (IH (out ++ let_head (let_id t) x) (rinsert t (let_id t) m) (S n) (G' _ ltac:(rewrite SB; apply w_plain, HI, St)) (fun u Hu => HS' u (or_intror Hu)) (HT' _)) as [hd [m' [k [E [Gm [Dm W]]]]]].
      exists (let_head (let_id t) x ++ hd), m', (S k). rewrite E, <- app_assoc, Nat.add_succ_r. split; [reflexivity|]. split; [exact Gm|]. split.
      * intros c [[<-|Hc]|Hc]; apply Dm; [right; apply Dom; left; reflexivity|left; exact Hc|right; apply Dom; right; exact Hc].
      * intros y Hy. rewrite <- app_assoc. replace (hd ++ y ++ repeat cClose (S k)) with ((hd ++ y ++ repeat cClose k) ++ [cClose]).
        -- apply writes_let; [apply HI, St|reflexivity|exact Wx|apply W, Hy].
        -- rewrite <- !app_assoc. change [cClose] with (repeat cClose 1). rewrite <- repeat_app. rewrite Nat.add_1_r. reflexivity.
    + destruct (IH out (rinsert t x m) n (G' _ ltac:(rewrite SB; exact Wx)) (fun u Hu => HS' u (or_intror Hu)) (HT' _)) as [hd [m' [k [E [Gm [Dm W]]]]]].
      exists hd, m', k. split; [exact E|]. split; [exact Gm|]. split; [|exact W].
      intros c [[<-|Hc]|Hc]; apply Dm; [right; apply Dom; left; reflexivity|left; exact Hc|right; apply Dom; right; exact Hc].
Qed.

(** ** Expansion *)
Fixpoint atoms (e : sexpr) : list text := match e with Atom a => [a] | SList l => concat (map atoms l) end.
Hypothesis HF : forall f, sym_text f <> txt "let".
Hypothesis HLi : forall t, subterm t root -> children t = [] -> ~ In (txt "let") (atoms (leaf t)) /\ forall u, subterm u root -> is_junction u = true -> ~ In (let_id u) (atoms (leaf t)).
Hypothesis Inj : forall t u, subterm t root -> subterm u root -> is_junction t = true -> is_junction u = true -> let_id t = let_id u -> t = u.

Lemma text_eqb_spec a b : reflect (a = b) (text_eqb a b).
Proof. unfold text_eqb. destruct (list_eq_dec ascii_dec a b); constructor; assumption. Qed.
Lemma expand_generic env f l : (forall k, f = Atom k -> k <> txt "let") -> expand env (SList (f :: l)) = SList (f :: map (expand env) l).
Proof.
  intros H. cbn [expand]. destruct f as [k|]; [|reflexivity]. specialize (H k eq_refl).
  destruct l as [|[?|[|[?|[|[x|?] [|d [|? ?]]]] [|? ?]]] [|b [|? ?]]]; try reflexivity. destruct (text_eqb_spec k (txt "let")); [contradiction|reflexivity].
Qed.
Lemma expand_inert : forall e env, ~ In (txt "let") (atoms e) -> (forall a, In a (atoms e) -> blookup a env = None) -> expand env e = e.
Proof.
  fix IH 1. intros [a|l] env NL NE.
  - cbn [expand]. rewrite (NE a); [reflexivity|left; reflexivity].
  - destruct l as [|f l]; [reflexivity|]. rewrite expand_generic.
    + f_equal. f_equal. cbn [atoms] in *.
      assert (G : forall a, In a (concat (map atoms l)) -> In a (concat (map atoms (f :: l)))) by (intros a Ha; cbn; apply in_or_app; right; exact Ha).
      assert (NL' : ~ In (txt "let") (concat (map atoms l))) by (intros Ha; apply NL, G, Ha).
      assert (NE' : forall a, In a (concat (map atoms l)) -> blookup a env = None) by (intros a Ha; apply NE, G, Ha).
      clear NL NE G f. induction l as [|x l IHl]; [reflexivity|]. cbn [map]. f_equal.
      * apply IH; [intros Ha; apply NL'; cbn; apply in_or_app; left; exact Ha|intros a Ha; apply NE'; cbn; apply in_or_app; left; exact Ha].
      * apply IHl; [intros Ha; apply NL'; cbn; apply in_or_app; right; exact Ha|intros a Ha; apply NE'; cbn; apply in_or_app; right; exact Ha].
    + intros k -> ->. apply NL. cbn. left. reflexivity.
Qed.
Notation pl := (plain_sexpr leaf sym_text).
Record good_env (env : bindings) (P : list term) : Prop := {
  ge_find : forall x, In x P -> is_junction x = true -> blookup (let_id x) env = Some (pl x);
  ge_keys : forall a d, blookup a env = Some d -> exists u, subterm u root /\ is_junction u = true /\ a = let_id u;
  ge_sub : forall x, In x P -> subterm x root;
  ge_closed : forall x, In x P -> incl (children x) P
}.
Lemma leaf_expand env P t : good_env env P -> subterm t root -> children t = [] -> expand env (leaf t) = leaf t.
Proof.
  intros G S C. destruct (HLi t S C) as [N1 N2]. apply expand_inert; [exact N1|]. intros a Ha. destruct (blookup a env) as [d|] eqn:E; [|reflexivity].
  destruct (ge_keys _ _ G a d E) as [u [Hu [Ju ->]]]. destruct (N2 u Hu Ju Ha).
Qed.
Lemma expand_short env P : good_env env P -> forall t, In t P -> expand env (short t) = pl t.
Proof.
  intros G. induction t as [v|c|f l IH] using term_ind'; intros Ht; rewrite short_body.
  - cbn [is_junction body plain_sexpr]. apply (leaf_expand env P); [exact G|apply (ge_sub _ _ G), Ht|reflexivity].
  - cbn [is_junction body plain_sexpr]. apply (leaf_expand env P); [exact G|apply (ge_sub _ _ G), Ht|reflexivity].
  - destruct (is_junction (App f l)) eqn:J; [cbn [expand]; rewrite (ge_find _ _ G _ Ht J); reflexivity|].
    destruct l as [|c l]; [cbn [body plain_sexpr]; apply (leaf_expand env P); [exact G|apply (ge_sub _ _ G), Ht|reflexivity]|].
    unfold body. rewrite expand_generic by (intros k E; injection E as <-; apply HF). cbn [plain_sexpr]. f_equal. f_equal. rewrite map_map. apply map_ext_in. intros d Hd.
    rewrite Forall_forall in IH. apply IH; [exact Hd|]. apply (ge_closed _ _ G _ Ht). exact Hd.
Qed.
Lemma expand_body env P t : good_env env P -> subterm t root -> incl (children t) P -> expand env (body t) = pl t.
Proof.
  intros G S C. destruct t as [v|c|f l]; try (cbn [body plain_sexpr]; apply (leaf_expand env P); [exact G|exact S|reflexivity]).
  destruct l as [|c l]; [cbn [body plain_sexpr]; apply (leaf_expand env P); [exact G|exact S|reflexivity]|].
  unfold body. rewrite expand_generic by (intros k E; injection E as <-; apply HF). cbn [plain_sexpr]. f_equal. f_equal. rewrite map_map. apply map_ext_in. intros d Hd. apply (expand_short env P G), C, Hd.
Qed.
Lemma expand_final : forall order P env, good_env env P -> (forall t, In t order -> subterm t root) ->
  (forall O1 t O2, order = O1 ++ t :: O2 -> forall c, In c (children t) -> In c O1 \/ In c P) -> In root order \/ In root P ->
  expand env (final order) = pl root.
Proof.
  induction order as [|t o IH]; intros P env G HS' HT R; [destruct R as [[]|R]; apply (expand_short env P G), R|].
  assert (St : subterm t root) by (apply HS'; left; reflexivity).
  assert (Ct : incl (children t) P) by (intros c Hc; destruct (HT [] t o eq_refl c Hc) as [[]|H]; exact H).
  assert (HT' : forall O1 u O2, o = O1 ++ u :: O2 -> forall c, In c (children u) -> In c O1 \/ In c (t :: P)).
  { intros O1 u O2 E c Hc. destruct (HT (t :: O1) u O2 (f_equal (cons t) E) c Hc) as [[<-|H]|H]; [right; left; reflexivity|left; exact H|right; right; exact H]. }
  assert (R' : In root o \/ In root (t :: P)) by (destruct R as [[<-|R]|R]; [right; left; reflexivity|left; exact R|right; right; exact R]).
  assert (Sub : forall x, In x (t :: P) -> subterm x root) by (intros x [<-|Hx]; [exact St|apply (ge_sub _ _ G), Hx]).
  assert (Cl : forall x, In x (t :: P) -> incl (children x) (t :: P)) by (intros x [<-|Hx] c Hc; right; [apply Ct, Hc|apply (ge_closed _ _ G x Hx), Hc]).
  cbn [final]. destruct (is_junction t) eqn:J.
  - cbn [expand]. destruct (text_eqb_spec (txt "let") (txt "let")) as [_|N]; [|congruence]. rewrite (expand_body env P t G St Ct).
    apply (IH (t :: P)); [|intros u Hu; apply HS'; right; exact Hu|exact HT'|exact R'].
    assert (F : forall a, blookup a ((let_id t, pl t) :: env) = if text_eqb (let_id t) a then Some (pl t) else blookup a env).
    { intros a. unfold blookup. cbn [find fst]. destruct (text_eqb (let_id t) a); reflexivity. }
    split; [|intros a d; rewrite F; destruct (text_eqb_spec (let_id t) a) as [<-|N]; [intros _; eauto|apply (ge_keys _ _ G)]|exact Sub|exact Cl].
    intros x Hx Jx. rewrite F. destruct (text_eqb_spec (let_id t) (let_id x)) as [E|N].
    + rewrite (Inj t x St (Sub x Hx) J Jx E). reflexivity.
    + destruct Hx as [<-|Hx]; [congruence|apply (ge_find _ _ G); assumption].
  - apply (IH (t :: P)); [|intros u Hu; apply HS'; right; exact Hu|exact HT'|exact R'].
    split; [|apply (ge_keys _ _ G)|exact Sub|exact Cl]. intros x [<-|Hx] Jx; [congruence|apply (ge_find _ _ G); assumption].
Qed.

Theorem print_with_lets_ok : exists fuel0, forall fuel, fuel0 <= fuel -> exists t e,
  print_with_lets leaf_text sym_text let_id fuel root = Some t /\ writes e t /\ expand [] e = pl root.
Proof.
  destruct (dfs_order root) as [k [O [E [T [R S]]]]]. exists (Datatypes.S k). intros fuel Hf. unfold print_with_lets. rewrite E by lia.
  destruct (print_ok O [] [] 0) as [hd [m' [n [E' [G [Dm W]]]]]]; [intros x y H; discriminate|exact S|intros O1 t O2 Eq c Hc; left; apply (T O1 t O2 Eq), Hc|].
  rewrite E'. cbn [app]. destruct (Dm root (or_introl R)) as [y Ey]. rewrite Ey. cbn [option_map]. eexists; exists (final O). split; [reflexivity|]. split; [apply W, (G _ _ Ey)|].
  apply (expand_final O []); [|exact S|intros O1 t O2 Eq c Hc; left; apply (T O1 t O2 Eq), Hc|left; exact R].
  split; [intros x []|intros a d H; discriminate|intros x []|intros x []].
Qed.
End Print.
