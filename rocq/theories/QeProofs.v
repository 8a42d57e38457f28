(** * Proofs about quantifier elimination: it computes the projection, and it ends. *)
From Coq Require Import QArith Qcanon ZArith Lia FinFun.
From Verif Require Import Syntax Solver KTo1Model DarModel FormulaModel FormulaProofs FormulaProofs2 NontermProofs Lin MbpModel MbpLia MbpClassic MbpLra MbpProofs.
Open Scope list_scope.

Section Qe.
Variable check : check_fn.
Hypothesis Hc : check_ok check.
Variable simp : term -> term.
Hypothesis Hsimp : simp_ok simp.
Variable lia : bool.
Variable shuffle : list literal -> list literal.
Variable same : ql -> ql -> bool.
Hypothesis Hs : forall l x, In x (shuffle l) <-> In x l.
Hypothesis Hsame : forall a b, same a b = true -> a = b.

(** [g] says the same as [fla] with the variables in [elim] quantified existentially. *)
Record eliminates (fla : term) (elim : list var) (g : term) : Prop := {
  el_vars : forall v, In v (vars g) -> In v (vars fla) /\ ~ In v elim;
  el_sem : forall r, holds r g <-> exists r', (forall v, ~ In v elim -> r v = r' v) /\ holds r' fla }.

Lemma qe_loop_ok fuel : forall f elim ps g, (lia = true -> ~ In tmp_var elim /\ ~ In tmp_var (vars f)) ->
  (forall p, In p ps -> (forall v, In v (vars p) -> In v (vars f) /\ ~ In v elim) /\ (forall r, holds r p -> exists r', (forall v, ~ In v elim -> r v = r' v) /\ holds r' f)) ->
  qe_loop check simp (project lia shuffle same f elim) fuel f ps = QeDone g -> eliminates f elim g.
Proof.
  induction fuel as [|fuel IH]; intros f elim ps g T P E; [discriminate|]. cbn [qe_loop] in E. destruct (check (f :: map mkNot ps)) as [m| |] eqn:Ec; [| |discriminate].
  - destruct (project lia shuffle same f elim m) as [p|] eqn:Ep; [|discriminate]. apply (check_sat _ Hc) in Ec. apply Forall_cons_iff in Ec as [Ef _].
    destruct (project_ok lia shuffle same Hs Hsame f elim m p Ep Ef T) as [P1 [_ P3]]. apply (IH f elim (ps ++ [p]) g T); [|exact E].
    intros q Hq. apply in_app_iff in Hq as [Hq|[<-|[]]]; [apply P, Hq|auto].
  - injection E as <-. destruct (Hsimp (mkOr ps)) as [S1 S2]. split.
    + intros v H. apply S2 in H. unfold mkOr in H. apply in_vars_app in H as [p [Hp Hv]]. apply (P p Hp), Hv.
    + intros r. rewrite S1, holds_or, Exists_exists. split.
      * intros [p [Hp H]]. apply (P p Hp), H.
      * intros [r' [A H]]. destruct (existsb (fun p => holdsb r' p) ps) eqn:Ee.
        -- apply existsb_exists in Ee as [p [Hp Hh]]. exists p. split; [exact Hp|]. apply (holds_agree r r'); [|exact Hh]. intros v Hv. apply A. apply (proj1 (P p Hp)), Hv.
        -- exfalso. pose proof (check_unsat _ Hc _ Ec) as U. apply (U r'). constructor; [exact H|]. apply Forall_map_iff, Forall_forall. intros p Hp. apply holds_not. intros X.
           assert (existsb (fun p => holdsb r' p) ps = true) by (apply existsb_exists; exists p; auto). congruence.
Qed.
Lemma qe_eliminate_ok fuel f elim g : (lia = true -> ~ In tmp_var elim /\ ~ In tmp_var (vars f)) ->
  qe_eliminate check simp lia shuffle same fuel f elim = QeDone g -> eliminates f elim g.
Proof.
  intros T E. unfold qe_eliminate in E. destruct (is_bool f) eqn:Eb; [|discriminate]. cbn [negb] in E. destruct (nnf f) as [f'|] eqn:En; [|discriminate]. destruct (nnf_ok f Eb f' En) as [_ [_ N]].
  pose proof (fun v => nnf_vars v f f' En) as V. apply qe_loop_ok in E; [|intros L; destruct (T L) as [T1 T2]; split; [exact T1|intros X; apply T2, (V tmp_var), X]|intros p []].
  destruct E as [E1 E2]. split.
  - intros v H. apply E1 in H as [H1 H2]. split; [apply (V v), H1|exact H2].
  - intros r. rewrite E2. split; intros [r' [A H]]; exists r'; (split; [exact A|apply N, H]).
Qed.
Lemma qe_keep_ok fuel f keep g : (lia = true -> ~ In tmp_var (vars f)) -> qe_keep_only check simp lia shuffle same fuel f keep = QeDone g -> is_projection f keep g.
Proof.
  intros T E. unfold qe_keep_only in E. set (elim := filter (fun v => negb (inb v keep)) (nodup var_dec (vars f))) in *.
  assert (He : forall v, In v elim <-> In v (vars f) /\ ~ In v keep). { intros v. unfold elim. rewrite filter_In, nodup_In. destruct (inb_spec v keep); cbn; intuition congruence. }
  apply qe_eliminate_ok in E; [|intros L; split; [rewrite He; intros [X _]; exact (T L X)|exact (T L)]]. destruct E as [E1 E2].
  assert (V : forall v, In v (vars g) -> In v keep) by (intros v H; apply E1 in H as [H1 H2]; destruct (inb_spec v keep) as [|N]; [assumption|exfalso; apply H2, He; auto]).
  split; [exact V|]. intros r. split.
  - intros H. apply E2 in H as [r' [A H]]. exists r'. split; [|exact H]. intros v Hv. apply A. rewrite He. tauto.
  - intros [r' [A H]]. assert (G : holds r' g) by (apply E2; exists r'; auto). apply (holds_agree r r'); [|exact G]. intros v Hv. apply A, V, Hv.
Qed.
End Qe.

(** ** Finitely many projections *)
Definition fin {A B} (f : A -> B) : Prop := exists l, forall m, In (f m) l.
Lemma fin_ext {A B} (f g : A -> B) : (forall m, f m = g m) -> fin g -> fin f.
Proof. intros E [l H]. exists l. intros m. rewrite E. apply H. Qed.
Lemma fin_const {A B} (b : B) : fin (fun _ : A => b). Proof. exists [b]. intros m. left. reflexivity. Qed.
Lemma fin_bool {A} (f : A -> bool) : fin f. Proof. exists [true; false]. intros m. destruct (f m); cbn; auto. Qed.
Lemma fin_bind {A B C} (f : A -> B) (g : B -> A -> C) : fin f -> (forall b, fin (g b)) -> fin (fun m => g (f m) m).
Proof.
  intros [l Hl] G. assert (X : exists L, forall b, In b l -> forall m, In (g b m) L).
  { clear Hl. induction l as [|b l [L HL]]; [exists []; intros b []|]. destruct (G b) as [L' HL']. exists (L' ++ L). intros x [<-|H] m; apply in_app_iff; [left; apply HL'|right; apply HL, H]. }
  destruct X as [L HL]. exists L. intros m. apply HL, Hl.
Qed.

(** The same with what is known about the intermediate results. *)
Lemma fin_bind' {A B C} (P : B -> bool) (f : A -> B) (g : B -> A -> C) : fin f -> (forall m, P (f m) = true) -> (forall b, P b = true -> fin (g b)) -> fin (fun m => g (f m) m).
Proof.
  intros [l Hl] HP G. assert (X : exists L, forall b, In b l -> P b = true -> forall m, In (g b m) L).
  { clear Hl. induction l as [|b l [L HL]]; [exists []; intros b []|]. destruct (P b) eqn:Eb.
    - destruct (G b Eb) as [L' HL']. exists (L' ++ L). intros x [<-|H] Px m; apply in_app_iff; [left; apply HL'|right; apply HL; auto].
    - exists L. intros x [<-|H] Px m; [congruence|apply HL; auto]. }
  destruct X as [L HL]. exists L. intros m. apply HL; auto.
Qed.
Lemma fin_if {A B} (c : A -> bool) (f g : A -> B) : fin f -> fin g -> fin (fun m => if c m then f m else g m).
Proof. intros [l Hl] [l' Hl']. exists (l ++ l'). intros m. apply in_app_iff. destruct (c m); auto. Qed.
Lemma fin_map {A B C} (h : B -> C) (f : A -> B) : fin f -> fin (fun m => h (f m)).
Proof. intros [l Hl]. exists (map h l). intros m. apply in_map, Hl. Qed.
Lemma fin_pair {A B C} (f : A -> B) (g : A -> C) : fin f -> fin g -> fin (fun m => (f m, g m)).
Proof. intros [l Hl] [l' Hl']. exists (list_prod l l'). intros m. apply in_prod; auto. Qed.
Lemma fin_comp {A B C} (h : C -> A) (f : A -> B) : fin f -> fin (fun m => f (h m)).
Proof. intros [l Hl]. exists l. intros m. apply Hl. Qed.
Lemma fin_mapM {A B C} (f : A -> B -> option C) l : (forall x, In x l -> fin (fun m => f m x)) -> fin (fun m => mapM (f m) l).
Proof.
  induction l as [|x l IH]; intros H; cbn [mapM]; [apply fin_const|].
  pose proof (fin_pair _ _ (H x (or_introl eq_refl)) (IH (fun y Hy => H y (or_intror Hy)))) as P.
  apply (fin_map (fun p => match fst p, snd p with Some y, Some ys => Some (y :: ys) | _, _ => None end) _ P).
Qed.
Lemma fin_list {A B C} (f : A -> B -> C) l : (forall x, In x l -> fin (fun m => f m x)) -> fin (fun m => map (f m) l).
Proof.
  induction l as [|x l IH]; intros H; cbn [map]; [apply fin_const|].
  pose proof (fin_pair _ _ (H x (or_introl eq_refl)) (IH (fun y Hy => H y (or_intror Hy)))) as P.
  apply (fin_map (fun p => fst p :: snd p) _ P).
Qed.
Lemma fin_mod {A} (f : A -> Z) k : (0 < k)%Z -> fin (fun m => (f m mod k)%Z).
Proof.
  intros P. exists (map Z.of_nat (seq 0 (Z.to_nat k))). intros m. pose proof (Z.mod_pos_bound (f m) k P). apply in_map_iff. exists (Z.to_nat (f m mod k)). split; [lia|]. apply in_seq. lia.
Qed.

Lemma fin_classify v lt : fin (fun m => classify m v lt).
Proof.
  unfold classify. destruct (zatom (fst lt)) as [[[|] l]|]; [|apply fin_const|apply fin_const]. destruct (zco v l =? 0)%Z; [apply fin_const|]. destruct (snd lt); [apply fin_const|].
  apply (fin_if (fun m => (0 <? zev m l)%Z)); apply fin_const.
Qed.
Lemma fin_glb l : forall best others, fin (fun m => glb m best others l).
Proof. induction l as [|x l IH]; intros best others; cbn [glb]; [apply fin_const|]. apply (fin_if (fun m => (zev m (fst best) * snd x <? zev m (fst x) * snd best)%Z)); apply IH. Qed.
Lemma fin_resolve low up : (0 < snd low)%Z -> (0 < snd up)%Z -> fin (fun m => resolve m low up).
Proof.
  destruct low as [s b], up as [t a]. cbn [snd]. intros Pb Pa. unfold resolve. apply (fin_if (fun m => ((a - 1) * (b - 1) <=? b * zev m t - a * zev m s)%Z)); [apply fin_const|]. destruct (b <=? a)%Z.
  - apply (fin_map (fun d => (zle (zsub (zsc b t) (zsc a s)) ++ (if (d =? 0)%Z then [] else zle (zsub (zsc b t) (zsc a (zpl s (zc d))))), [(b, zpl s (zc d))]))). apply fin_mod, Pb.
  - apply (fin_map (fun d => (zle (zsub (zsc b t) (zsc a s)) ++ (if (d =? 0)%Z then [] else zle (zsub (zsc b (zsub t (zc d))) (zsc a s))), [(a, zsub t (zc d))]))). apply fin_mod, Pa.
Qed.
Definition posb (bs : list bound) : bool := forallb (fun b => (0 <? bcoef b)%Z) bs.
Definition dposb (ds : list divc) : bool := forallb (fun d => (0 <? fst d)%Z) ds.
Lemma classify_posb m v l bs : mapM (classify m v) l = Some bs -> posb bs = true.
Proof. intros E. apply forallb_forall. intros b Hb. destruct (mapM_in _ _ _ _ E Hb) as [lt [_ H]]. apply classify_ok in H as [H _]. apply Z.ltb_lt, H. Qed.
Lemma posb_lows bs p : posb bs = true -> In p (lows bs) -> (0 < snd p)%Z.
Proof. intros P H. apply in_lows in H. unfold posb in P. rewrite forallb_forall in P. apply P in H. apply Z.ltb_lt, H. Qed.
Lemma posb_ups bs p : posb bs = true -> In p (ups bs) -> (0 < snd p)%Z.
Proof. intros P H. apply in_ups in H. unfold posb in P. rewrite forallb_forall in P. apply P in H. apply Z.ltb_lt, H. Qed.
Lemma posb_eqls bs p : posb bs = true -> In p (eqls bs) -> (0 < snd p)%Z.
Proof. intros P H. apply in_eqls in H. unfold posb in P. rewrite forallb_forall in P. apply P in H. apply Z.ltb_lt, H. Qed.
Lemma glb_in m l : forall best others g os, glb m best others l = (g, os) -> In g (best :: l).
Proof.
  induction l as [|x l IH]; intros best others g os E; cbn [glb] in E; [injection E as <- _; left; reflexivity|].
  destruct (_ <? _)%Z; apply IH in E as [E|E]; [right; left; exact E|right; right; exact E|left; exact E|right; right; exact E].
Qed.
Lemma resolve_pos m low up ls ds : (0 < snd low)%Z -> (0 < snd up)%Z -> resolve m low up = (ls, ds) -> forall d, In d ds -> (0 < fst d)%Z.
Proof.
  destruct low as [s b], up as [t a]. cbn [snd]. intros Pb Pa. unfold resolve. destruct (_ <=? _)%Z; [intros E; injection E as <- <-; intros d []|].
  destruct (b <=? a)%Z; intros E; injection E as <- <-; intros d [<-|[]]; assumption.
Qed.
Lemma classic_dposb shuffle m v divs lits d l : dposb divs = true -> classic shuffle m v divs lits = Some (d, l) -> dposb d = true.
Proof.
  intros P. unfold classic. destruct (mapM _ _) as [bs|] eqn:Eb; [|discriminate]. apply classify_posb in Eb. destruct (eqls bs) as [|[t a] es] eqn:Ee.
  - destruct (lows bs) as [|l0 lr] eqn:El; [intros E; injection E as <- <-; exact P|]. destruct (ups bs) as [|u0 ur] eqn:Eu; [intros E; injection E as <- <-; exact P|].
    destruct (glb m l0 [] lr) as [g os] eqn:Eg. intros E. injection E as <- _. unfold dposb. rewrite forallb_app. apply andb_true_iff. split; [exact P|]. apply forallb_forall. intros x Hx.
    apply glb_in in Eg. rewrite <- El in Eg. assert (Pg : (0 < snd g)%Z) by (apply (posb_lows bs); auto).
    change (snd (resolve m g u0) ++ concat (map snd (map (resolve m g) ur))) with (concat (map snd (map (resolve m g) (u0 :: ur)))) in Hx. rewrite <- Eu in Hx.
    apply in_concat in Hx as [y [H1 H2]]. apply in_map_iff in H1 as [z [<- H1]]. apply in_map_iff in H1 as [u [<- H1]]. destruct (resolve m g u) as [ls ds] eqn:Er. apply Z.ltb_lt.
    apply (resolve_pos m g u ls ds Pg (posb_ups bs u Eb H1) Er x H2).
  - intros E. injection E as <- _. unfold dposb. rewrite forallb_app. apply andb_true_iff. split; [exact P|]. destruct (a =? 1)%Z; [reflexivity|]. cbn. rewrite andb_true_r. apply Z.ltb_lt. apply (posb_eqls bs (t, a) Eb). rewrite Ee. left. reflexivity.
Qed.
Lemma fin_classic shuffle v divs lits : fin (fun m => classic shuffle m v divs lits).
Proof.
  set (rest := filter (fun lt => negb (contains v lt)) lits). set (L := shuffle (filter (contains v) lits)). eapply fin_ext; [intros m; unfold classic; fold rest; fold L; reflexivity|]. cbv beta.
  apply (fin_bind' (fun o => match o with Some bs => posb bs | None => true end) (fun m => mapM (classify m v) L)
    (fun o m => match o with None => None | Some bs => match eqls bs with
    | [] =>
      match lows bs, ups bs with
      | [], _ | _, [] => Some (divs, rest)
      | low0 :: low', us =>
        let (g, others) := glb m low0 [] low' in
        let rs := map (resolve m g) us in
        Some (divs ++ concat (map snd rs),
              concat (map (fun o => zle (zsub (zsc (snd o) (fst g)) (zsc (snd g) (fst o)))) others) ++ concat (map fst rs) ++ rest)
      end
    | (t, a) :: es =>
      Some (divs ++ (if (a =? 1)%Z then [] else [(a, t)]),
            concat (map (fun o => zeq (zsub (zsc a (fst o)) (zsc (snd o) t))) es) ++
            concat (map (fun o => zle (zsub (zsc (snd o) t) (zsc a (fst o)))) (lows bs)) ++
            concat (map (fun o => zle (zsub (zsc a (fst o)) (zsc (snd o) t))) (ups bs)) ++ rest)
    end end)).
  - apply fin_mapM. intros x _. apply fin_classify.
  - intros m. destruct (mapM (classify m v) L) eqn:E; [apply (classify_posb _ _ _ _ E)|reflexivity].
  - intros [bs|] P; [|apply fin_const]. destruct (eqls bs) as [|[t a] es]; [|apply fin_const]. destruct (lows bs) as [|l0 lr] eqn:El; [apply fin_const|]. destruct (ups bs) as [|u0 ur] eqn:Eu; [apply fin_const|].
    rewrite <- Eu.
    apply (fin_bind' (fun p => (0 <? snd (fst p))%Z) (fun m => glb m l0 [] lr) (fun p m => let (g, others) := p in let rs := map (resolve m g) (ups bs) in
        Some (divs ++ concat (map snd rs), concat (map (fun o => zle (zsub (zsc (snd o) (fst g)) (zsc (snd g) (fst o)))) others) ++ concat (map fst rs) ++ rest))).
    + apply fin_glb.
    + intros m. destruct (glb m l0 [] lr) as [g os] eqn:Eg. apply glb_in in Eg. apply Z.ltb_lt. apply (posb_lows bs); [exact P|rewrite El; exact Eg].
    + intros [g os] Pg. cbn [fst] in Pg. apply Z.ltb_lt in Pg. 
      apply (fin_map (fun rs => Some (divs ++ concat (map snd rs), concat (map (fun o => zle (zsub (zsc (snd o) (fst g)) (zsc (snd g) (fst o)))) os) ++ concat (map fst rs) ++ rest))).
      apply fin_list. intros u Hu. apply fin_resolve; [exact Pg|apply (posb_ups bs); auto].
Qed.
Lemma lcm_pos ds : forall acc, (0 < acc)%Z -> dposb ds = true -> (0 < fold_left (fun acc (x : divc) => Z.lcm acc (fst x)) ds acc)%Z.
Proof.
  intros acc Pa P. apply lcm_fold; [exact Pa|]. apply Forall_forall. intros x Hx. unfold dposb in P. rewrite forallb_forall in P. apply Z.ltb_lt, P, Hx.
Qed.
Lemma fin_process shuffle v divs lits : dposb divs = true -> fin (fun m => process_div shuffle m v divs lits).
Proof.
  intros P. unfold process_div. destruct (filter (fun d => zhas v (snd d)) divs) as [|d0 ds] eqn:Ef; [apply fin_classic|].
  assert (Pd : (0 < fst d0)%Z /\ dposb ds = true).
  { assert (X : dposb (d0 :: ds) = true) by (apply forallb_forall; intros x Hx; rewrite <- Ef in Hx; apply filter_In in Hx as [Hx _]; unfold dposb in P; rewrite forallb_forall in P; apply P, Hx).
    unfold dposb in X. cbn [forallb] in X. apply andb_true_iff in X as [X1 X2]. apply Z.ltb_lt in X1. auto. }
  destruct Pd as [P1 P2]. pose proof (lcm_pos ds (fst d0) P1 P2) as Pl. set (d := fold_left _ ds (fst d0)) in *.
  refine (fin_bind (fun m => (zval m v mod d)%Z) (fun u m => classic shuffle (set_val m tmp_var (VInt ((zval m v - u) / d))) tmp_var
      (map (fun x => (fst x, zput v u (snd x))) (d0 :: ds) ++ filter (fun x => negb (zhas v (snd x))) divs)
      (map (fun lt => (zcanon (subst [(v, mkPlus [mkInt u; mkTimes [mkInt d; Var tmp_var]])] (fst lt)), snd lt)) lits)) _ _).
  - apply fin_mod, Pl.
  - intros u. set (D := map _ (d0 :: ds) ++ _). match goal with |- fin (fun m => classic _ _ _ _ ?X) => set (L := X) end.
    apply (fin_comp (fun m => set_val m tmp_var (VInt ((zval m v - u) / d))) (fun m => classic shuffle m tmp_var D L)). apply fin_classic.
Qed.
Lemma process_dposb shuffle m v divs lits d l : dposb divs = true -> process_div shuffle m v divs lits = Some (d, l) -> dposb d = true.
Proof.
  intros P. unfold process_div. destruct (filter (fun d => zhas v (snd d)) divs) as [|d0 ds] eqn:Ef; [apply classic_dposb, P|]. apply classic_dposb.
  unfold dposb in *. rewrite forallb_app. rewrite forallb_forall in P. apply andb_true_iff. split; apply forallb_forall; intros x Hx.
  - apply in_map_iff in Hx as [y [<- Hy]]. cbn [fst]. rewrite <- Ef in Hy. apply filter_In in Hy as [Hy _]. apply P, Hy.
  - apply filter_In in Hx as [Hx _]. apply P, Hx.
Qed.
Lemma fin_int_loop shuffle vs : forall divs lits, dposb divs = true -> fin (fun m => int_loop shuffle m vs divs lits).
Proof.
  induction vs as [|v vs IH]; intros divs lits P; cbn [int_loop]; [apply fin_const|]. destruct (sort_eqb (vsort v) SInt); [|apply fin_const].
  apply (fin_bind' (fun o => match o with Some (d, _) => dposb d | None => true end) (fun m => match divs with [] => classic shuffle m v divs lits | _ => process_div shuffle m v divs lits end)
     (fun o m => match o with Some (divs', lits') => int_loop shuffle m vs divs' lits' | None => None end)).
  - destruct divs; [apply fin_classic|apply fin_process, P].
  - intros m. destruct divs as [|x divs].
    + destruct (classic shuffle m v [] lits) as [[d l]|] eqn:E; [apply (classic_dposb _ _ _ _ _ _ _ P E)|reflexivity].
    + destruct (process_div shuffle m v (x :: divs) lits) as [[d l]|] eqn:E; [apply (process_dposb _ _ _ _ _ _ _ P E)|reflexivity].
  - intros [[d l]|] Pd; [apply IH, Pd|apply fin_const].
Qed.
Lemma fin_project_ints shuffle vs lits : fin (fun m => project_ints shuffle m vs lits).
Proof.
  unfold project_ints. destruct (mapM to_div (filter is_div_lit lits)) as [divs|] eqn:Ed; [|apply fin_const].
  apply (fin_map (fun o => match o with None => None | Some (divs', lits') => Some (lits' ++ map div_lit divs') end)). apply fin_int_loop.
  apply forallb_forall. intros d Hd. destruct (mapM_in _ _ _ _ Ed Hd) as [lt [H1 H2]]. apply filter_In in H1 as [_ H1]. apply to_div_ok in H2 as [[H2 _] _]; [|exact H1]. apply Z.ltb_lt, H2.
Qed.

Lemma fin_presolve v todo : forall seen, fin (fun m => presolve m v seen todo).
Proof.
  induction todo as [|lt todo IH]; intros seen; cbn [presolve]; [apply fin_const|]. destruct (qatom (fst lt)) as [[[|] l]|]; [|apply IH|apply fin_const].
  destruct (qeqb (qco v l) 0); [apply fin_const|]. destruct (snd lt); [apply fin_const|].
  refine (fin_bind (fun m => qltb (qev m l) 0) (fun b m => presolve m v (seen ++ [(qle_term (if b then l else qneg l), false)]) todo) _ _); [apply fin_bool|]. intros b. apply IH.
Qed.
Lemma fin_highest same us l : forall cur, fin (fun m => highest same m us cur l).
Proof.
  induction l as [|b l IH]; intros cur; cbn [highest]; [apply fin_const|].
  apply (fin_if (fun m => qltb (qev m (rb_val cur)) (qev m (rb_val b)) || (qeqb (qev m (rb_val cur)) (qev m (rb_val b)) && rb_strict b))); [apply IH|].
  apply (fin_if (fun m => qeqb (qev m (rb_val cur)) (qev m (rb_val b)) && existsb (fun u => same (rb_val u) (rb_val b)) us)); [apply fin_const|apply IH].
Qed.
Lemma fin_project_real shuffle same v lits : fin (fun m => project_real shuffle same m v lits).
Proof.
  unfold project_real. set (rest := filter (fun lt => negb (contains v lt)) lits). set (L := shuffle _).
  refine (fin_bind (fun m => presolve m v [] L) (fun o m => match o with None => None | Some (Some e, ls) => _ | Some (None, ls) => _ end) _ _); [apply fin_presolve|].
  intros [[[e|] ls]|]; [apply fin_const| |apply fin_const]. destruct (mapM (to_rbound v) ls) as [bs|]; [|apply fin_const].
  destruct (filter rb_low bs) as [|l0 lr]; [apply fin_const|]. destruct (filter (fun b => negb (rb_low b)) bs) as [|u0 ur]; [apply fin_const|].
  destruct ur as [|u1 ur]; [apply fin_const|]. destruct lr as [|l1 lr]; [apply fin_const|].
  apply (fin_map (fun c => option_map (fun n => simplify_literals Conj (n ++ rest)) (subst_bounds c bs))). apply fin_highest.
Qed.
Lemma fin_real_loop shuffle same vs : forall lits, fin (fun m => real_loop shuffle same m vs lits).
Proof.
  induction vs as [|v vs IH]; intros lits; cbn [real_loop]; [apply fin_const|]. destruct (sort_eqb (vsort v) SReal); [|apply fin_const].
  refine (fin_bind (fun m => project_real shuffle same m v lits) (fun o m => match o with Some lits' => real_loop shuffle same m vs lits' | None => None end) _ _); [apply fin_project_real|].
  intros [l|]; [apply IH|apply fin_const].
Qed.
Lemma fin_implicant elim t : fin (fun m => implicant m elim t).
Proof.
  induction t as [w|c|f ts IH] using term_ind'; cbn [implicant]; [apply fin_const|apply fin_const|]. destruct (is_atom (App f ts)); [apply fin_const|]. destruct f; try apply fin_const.
  - apply (fin_map (option_map (@concat literal))). apply fin_mapM. rewrite Forall_forall in IH. exact IH.
  - destruct (negb _); [apply fin_const|]. induction ts as [|x ts IHt]; [apply fin_const|]. apply Forall_cons_iff in IH as [IHx IH]. apply (fin_if (fun m => holdsb m x)); [exact IHx|apply IHt, IH].
Qed.
Lemma fin_coerce v : fin (fun m : valuation => coerce SBool (m v)).
Proof.
  exists [VBool true; VBool false]. intros m. pose proof (coerce_sort SBool (m v)) as X. destruct (coerce SBool (m v)) as [b| |]; try discriminate. destruct b; cbn; auto.
Qed.
Lemma fin_project lia shuffle same f elim : fin (fun m => project lia shuffle same f elim m).
Proof.
  unfold project. set (bools := filter (fun v => sort_eqb (vsort v) SBool) elim). set (nums := filter (fun v => negb (sort_eqb (vsort v) SBool)) elim).
  refine (fin_bind (fun m => map (fun v => (v, Const (coerce SBool (m v)))) bools) (fun s m => match nums with [] => Some (subst s f) | _ => if negb (is_bool (subst s f)) then None else match nnf (subst s f) with Throw => None | Ok g => _ end end) _ _).
  - apply (fin_list (fun (m : valuation) v => (v, Const (coerce SBool (m v))))). intros v _. apply (fin_map (fun c => (v, Const c))), fin_coerce.
  - intros s. destruct nums as [|n ns]; [apply fin_const|]. destruct (negb _); [apply fin_const|]. destruct (nnf (subst s f)) as [g|]; [|apply fin_const].
    refine (fin_bind (fun m => implicant m (n :: ns) g) (fun o m => match o with None => None | Some lits => _ end) _ _); [apply fin_implicant|].
    intros [lits|]; [|apply fin_const].
    apply (fin_map (fun res => option_map (fun out => mkAnd (map lit_term (simplify_literals Conj (out ++ filter (fun lt => negb (interesting (n :: ns) (fst lt))) lits)))) res)).
    destruct lia; [apply fin_project_ints|apply fin_real_loop].
Qed.

Section End_.
Variable check : check_fn.
Hypothesis Hc : check_ok check.
Variable simp : term -> term.
Variable lia : bool.
Variable shuffle : list literal -> list literal.
Variable same : ql -> ql -> bool.
Hypothesis Hs : forall l x, In x (shuffle l) <-> In x l.
Hypothesis Hsame : forall a b, same a b = true -> a = b.

Lemma qe_loop_ends f elim L : (lia = true -> ~ In tmp_var elim /\ ~ In tmp_var (vars f)) -> (forall m, In (project lia shuffle same f elim m) L) -> forall fuel ps,
  NoDup ps -> incl (map Some ps) L -> (length L < fuel + length ps)%nat -> qe_loop check simp (project lia shuffle same f elim) fuel f ps <> QeFuel.
Proof.
  intros T HL. induction fuel as [|fuel IH]; intros ps N I F.
  - exfalso. assert (X : (length (map Some ps) <= length L)%nat) by (apply NoDup_incl_length; [apply Injective_map_NoDup; [intros a b E; congruence|exact N]|exact I]). rewrite map_length in X. lia.
  - cbn [qe_loop]. destruct (check (f :: map mkNot ps)) as [m| |] eqn:Ec; try discriminate. destruct (project lia shuffle same f elim m) as [p|] eqn:Ep; [|discriminate].
    apply (check_sat _ Hc) in Ec. apply Forall_cons_iff in Ec as [Ef En]. destruct (project_ok lia shuffle same Hs Hsame f elim m p Ep Ef T) as [_ [Mp _]].
    apply IH.
    + assert (Np : ~ In p ps). { intros X. apply (proj1 (Forall_map_iff _ _ _)) in En. rewrite Forall_forall in En. specialize (En p X). cbv beta in En. rewrite holds_not in En. contradiction. }
      clear -N Np. induction ps as [|q ps IH]; [constructor; [intros []|constructor]|]. cbn [app]. apply NoDup_cons_iff in N as [N1 N2]. constructor.
      * intros X. apply in_app_iff in X as [X|[X|[]]]; [contradiction|]. apply Np. left. auto.
      * apply IH; [exact N2|]. intros X. apply Np. right. exact X.
    + rewrite map_app. intros x Hx. apply in_app_iff in Hx as [Hx|[<-|[]]]; [apply I, Hx|]. rewrite <- Ep. apply HL.
    + rewrite app_length. cbn [length]. lia.
Qed.
Lemma qe_ends f elim : (lia = true -> ~ In tmp_var elim /\ ~ In tmp_var (vars f)) ->
  exists N, forall fuel, (N <= fuel)%nat -> qe_eliminate check simp lia shuffle same fuel f elim <> QeFuel.
Proof.
  intros T. unfold qe_eliminate. destruct (negb (is_bool f)); [exists O; discriminate|]. destruct (nnf f) as [f'|] eqn:En; [|exists O; discriminate].
  destruct (fin_project lia shuffle same f' elim) as [L HL]. exists (Datatypes.S (length L)). intros fuel Hf. apply (qe_loop_ends f' elim L); [|exact HL|constructor|intros x []|cbn; lia].
  intros X. destruct (T X) as [T1 T2]. split; [exact T1|]. intros Y. apply T2, (nnf_vars _ _ _ En), Y.
Qed.
End End_.
