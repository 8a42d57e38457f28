(** * Parsing terms: records are restored and the meaning is kept. *)
From Verif Require Import Syntax FrontModel FrontSpec.
From Coq Require Import Arith.
Local Open Scope string_scope.
Local Open Scope list_scope.
Local Open Scope nat_scope.

Section AstInd.
  Variable P : ast -> Prop.
  Hypothesis HNum : forall c, P (ANum c).
  Hypothesis HId : forall n, P (AId n).
  Hypothesis HApp : forall n l, Forall P l -> P (AApp n l).
  Hypothesis HLet : forall bs b, Forall (fun x => P (snd x)) bs -> P b -> P (ALet bs b).
  Hypothesis HForall : forall vs b, P b -> P (AForall vs b).
  Hypothesis HOther : P AOther.
  Fixpoint ast_ind' (a : ast) : P a :=
    match a with
    | ANum c => HNum c
    | AId n => HId n
    | AApp n l => HApp n l ((fix go (l : list ast) : Forall P l :=
                      match l with
                      | [] => Forall_nil P
                      | x :: l' => Forall_cons x (ast_ind' x) (go l')
                      end) l)
    | ALet bs b => HLet bs b ((fix go (l : list (string * ast)) : Forall (fun x => P (snd x)) l :=
                      match l with
                      | [] => Forall_nil _
                      | x :: l' => Forall_cons x (ast_ind' (snd x)) (go l')
                      end) bs) (ast_ind' b)
    | AForall vs b => HForall vs b (ast_ind' b)
    | AOther => HOther
    end.
End AstInd.

Section PtermInd.
  Variable P : pterm -> Prop.
  Hypothesis HVar : forall v, P (PVar v).
  Hypothesis HConst : forall c, P (PConst c).
  Hypothesis HOp : forall f l, Forall P l -> P (POp f l).
  Hypothesis HPred : forall p l, Forall P l -> P (PPred p l).
  Fixpoint pterm_ind' (t : pterm) : P t :=
    let fix go (l : list pterm) : Forall P l :=
      match l with [] => Forall_nil P | x :: l' => Forall_cons x (pterm_ind' x) (go l') end in
    match t with
    | PVar v => HVar v
    | PConst c => HConst c
    | POp f l => HOp f l (go l)
    | PPred p l => HPred p l (go l)
    end.
End PtermInd.

(** ** Records *)
Lemma find_add_value n t l m :
  find_binder n l <> None ->
  option_map fst (find_binder m (add_value n t l)) = if String.eqb m n then Some t else option_map fst (find_binder m l).
Proof.
  induction l as [|[k [c sh]] l IH]; intros H; [contradiction|]. cbn [find_binder add_value] in *.
  destruct (String.eqb_spec n k) as [->|N].
  - cbn [find_binder]. destruct (String.eqb_spec m k); reflexivity.
  - cbn [find_binder]. destruct (String.eqb_spec m k) as [->|N2].
    + destruct (String.eqb_spec k n); [congruence|]. reflexivity.
    + apply IH, H.
Qed.

Lemma get_add_binding n t rs m :
  get_binding (add_binding n t rs) m = if String.eqb m n then Some t else get_binding rs m.
Proof.
  unfold get_binding, add_binding. cbn [r_binders]. destruct (find_binder n (r_binders rs)) eqn:E.
  - apply find_add_value. congruence.
  - cbn [find_binder]. destruct (String.eqb_spec m n); reflexivity.
Qed.

Lemma drop_add_value n t l : find_binder n l <> None -> drop_value n (add_value n t l) = l.
Proof.
  induction l as [|[k [c sh]] l IH]; intros H; [contradiction|]. cbn [find_binder add_value drop_value] in *.
  destruct (String.eqb_spec n k) as [->|N]; cbn [drop_value].
  - rewrite String.eqb_refl. reflexivity.
  - destruct (String.eqb_spec n k); [congruence|]. f_equal. apply IH, H.
Qed.

Lemma drop_add_binding n t rs : drop_value n (r_binders (add_binding n t rs)) = r_binders rs.
Proof.
  unfold add_binding. cbn [r_binders]. destruct (find_binder n (r_binders rs)) eqn:E.
  - apply drop_add_value. congruence.
  - cbn [drop_value]. rewrite String.eqb_refl. reflexivity.
Qed.

Fixpoint adds (l : list (string * pterm)) (rs : records) : records :=
  match l with [] => rs | (n, t) :: l' => adds l' (add_binding n t rs) end.

Lemma adds_app l k rs : adds (l ++ k) rs = adds k (adds l rs).
Proof. revert rs. induction l as [|[n t] l IH]; intros rs; [reflexivity|]. apply IH. Qed.

Lemma adds_limits l rs : r_limits (adds l rs) = r_limits rs.
Proof. revert rs. induction l as [|[n t] l IH]; intros rs; [reflexivity|]. cbn [adds]. rewrite IH. reflexivity. Qed.
Lemma adds_known l rs : length (r_known (adds l rs)) = length l + length (r_known rs).
Proof.
  revert rs. induction l as [|[n t] l IH]; intros rs; [reflexivity|]. cbn [adds]. rewrite IH. cbn [add_binding r_known length].
  lia.
Qed.

Lemma undo_adds l rs : undo (length l) (adds l rs) = rs.
Proof.
  revert rs. induction l as [|[n t] l IH] using rev_ind; intros rs; [reflexivity|].
  rewrite adds_app, app_length. cbn [adds length]. replace (length l + 1) with (S (length l)) by lia.
  cbn [undo]. change (r_known (add_binding n t (adds l rs))) with (n :: r_known (adds l rs)). cbn iota.
  rewrite drop_add_binding. change (r_limits (add_binding n t (adds l rs))) with (r_limits (adds l rs)).
  replace {| r_binders := r_binders (adds l rs); r_known := r_known (adds l rs); r_limits := r_limits (adds l rs) |}
    with (adds l rs) by (destruct (adds l rs); reflexivity).
  apply IH.
Qed.

Definition with_limits (rs : records) (ls : list nat) : records :=
  {| r_binders := r_binders rs; r_known := r_known rs; r_limits := ls |}.

Lemma adds_with_limits l rs ls : adds l (with_limits rs ls) = with_limits (adds l rs) ls.
Proof. revert rs. induction l as [|[n t] l IH]; intros rs; [reflexivity|]. cbn [adds]. rewrite <- IH. reflexivity. Qed.

Lemma pop_adds_push l rs : pop_frame (adds l (push_frame rs)) = rs.
Proof.
  unfold pop_frame. rewrite adds_limits. cbn [push_frame r_limits].
  rewrite adds_known. cbn [push_frame r_known].
  replace (length l + length (r_known rs) - length (r_known rs)) with (length l) by lia.
  change (push_frame rs) with (with_limits rs (length (r_known rs) :: r_limits rs)).
  rewrite adds_with_limits. cbn [with_limits r_binders r_known].
  change {| r_binders := r_binders (adds l rs); r_known := r_known (adds l rs); r_limits := r_limits rs |}
    with (with_limits (adds l rs) (r_limits rs)).
  rewrite <- adds_with_limits. replace (with_limits rs (r_limits rs)) with rs by (destruct rs; reflexivity).
  apply undo_adds.
Qed.

Lemma map_fst_combine' {A B} {l : list A} {k : list B} : length l = length k -> map fst (combine l k) = l.
Proof. revert k. induction l as [|x l IH]; intros [|y k] H; try discriminate; [reflexivity|]. cbn. f_equal. apply IH. injection H as H. exact H. Qed.

Lemma Forall2_len {A B} {R : A -> B -> Prop} {l k} : Forall2 R l k -> length l = length k.
Proof. induction 1; [reflexivity|]. cbn. f_equal. assumption. Qed.

Section P.
Variable l_op : string -> list pterm -> option pterm.
Variable reserved : string -> bool.
Notation parse := (parse l_op reserved).
Notation parse_top := (parse_top l_op reserved).

Lemma add_all_adds ns ts rs : exists l, snd (add_all reserved ns ts rs) = adds l rs /\
  (fst (add_all reserved ns ts rs) = true -> l = combine ns ts).
Proof.
  revert ts rs. induction ns as [|n ns IH]; intros ts rs.
  - exists []. split; [destruct ts; reflexivity|reflexivity].
  - destruct ts as [|t ts]; [exists []; split; reflexivity|]. cbn [add_all].
    destruct (reserved n).
    + exists []. split; [reflexivity|discriminate].
    + destruct (IH ts (add_binding n t rs)) as [l [H1 H2]]. exists ((n, t) :: l). split; [exact H1|].
      intros H. cbn [combine]. rewrite H2 by exact H. reflexivity.
Qed.

Lemma add_let_frame_adds ns ts rs : exists l, snd (add_let_frame reserved ns ts rs) = adds l rs /\
  (fst (add_let_frame reserved ns ts rs) = true -> l = combine ns ts).
Proof.
  unfold add_let_frame. destruct (distinct_names ns); [apply add_all_adds|].
  exists []. split; [reflexivity|discriminate].
Qed.

(** ** The parser as a function of the records *)
Fixpoint seqo {A} (l : list (outcome A)) : outcome (list A) :=
  match l with
  | [] => Ok []
  | Ok x :: l' => match seqo l' with Ok xs => Ok (x :: xs) | Undef => Undef | Quantified => Quantified | Unhandled => Unhandled end
  | Undef :: _ => Undef
  | Quantified :: _ => Quantified
  | Unhandled :: _ => Unhandled
  end.

Lemma seqo_ok {A} (l : list (outcome A)) xs : seqo l = Ok xs <-> l = map Ok xs.
Proof.
  revert xs. induction l as [|[x| | |] l IH]; intros xs; cbn [seqo].
  - split; intros H; [injection H as <-; reflexivity|]. destruct xs; [reflexivity|discriminate].
  - destruct (seqo l) as [ys| | |] eqn:E.
    + split; intros H.
      * injection H as <-. cbn [map]. f_equal. apply IH. reflexivity.
      * destruct xs as [|z zs]; [discriminate|]. cbn [map] in H. injection H as -> H. apply IH in H. congruence.
    + split; intros H; [discriminate|]. destruct xs as [|z zs]; [discriminate|]. cbn [map] in H. injection H as -> H.
      apply IH in H. congruence.
    + split; intros H; [discriminate|]. destruct xs as [|z zs]; [discriminate|]. cbn [map] in H. injection H as -> H.
      apply IH in H. congruence.
    + split; intros H; [discriminate|]. destruct xs as [|z zs]; [discriminate|]. cbn [map] in H. injection H as -> H.
      apply IH in H. congruence.
  - split; intros H; [discriminate|]. destruct xs; discriminate.
  - split; intros H; [discriminate|]. destruct xs; discriminate.
  - split; intros H; [discriminate|]. destruct xs; discriminate.
Qed.

Definition bindo {A B} (o : outcome A) (f : A -> outcome B) : outcome B :=
  match o with Ok x => f x | Undef => Undef | Quantified => Quantified | Unhandled => Unhandled end.

(** The result of parsing, the records being restored. *)
Definition res (ds : list pid) (a : ast) (rs : records) : outcome pterm := fst (parse ds a rs).

Lemma parse_restores ds a : forall rs, snd (parse ds a rs) = rs.
Proof.
  induction a as [c|n|n l IH|bs b IHs IHb|vs b IHb|] using ast_ind'; intros rs; cbn [FrontModel.parse]; try reflexivity.
  - destruct (get_binding rs n); reflexivity.
  - match goal with |- context [?g l rs] => is_fix g; set (go := g) end.
    assert (G : forall k, Forall (fun a => forall rs, snd (parse ds a rs) = rs) k -> forall rs, snd (go k rs) = rs).
    { induction k as [|x k IHk]; intros F rs'; [reflexivity|]. inversion F as [|? ? Fx Fk]; subst. cbn.
      destruct (parse ds x rs') as [[t| | |] rs1] eqn:E; specialize (Fx rs'); rewrite E in Fx; cbn [snd] in Fx; subst; try reflexivity.
      fold go. specialize (IHk Fk rs'). destruct (go k rs') as [[ts| | |] rs2]; cbn [snd] in *; congruence. }
    specialize (G l IH rs). destruct (go l rs) as [[ts| | |] rs1]; cbn [snd] in *; congruence.
  - match goal with |- context [?g bs (push_frame rs)] => is_fix g; set (go := g) end.
    assert (G : forall k, Forall (fun a => forall rs, snd (parse ds (snd a) rs) = rs) k -> forall rs, snd (go k rs) = rs).
    { induction k as [|[m x] k IHk]; intros F rs'; [reflexivity|]. inversion F as [|? ? Fx Fk]; subst. cbn.
      cbn [snd] in Fx.
      destruct (parse ds x rs') as [[t| | |] rs1] eqn:E; specialize (Fx rs'); rewrite E in Fx; cbn [snd] in Fx; subst; try reflexivity.
      fold go. specialize (IHk Fk rs'). destruct (go k rs') as [[ts| | |] rs2]; cbn [snd] in *; congruence. }
    specialize (G bs IHs (push_frame rs)). destruct (go bs (push_frame rs)) as [[ts| | |] rs1]; cbn [snd] in *; subst rs1;
      try exact (pop_adds_push [] rs).
    destruct (add_let_frame_adds (map fst bs) ts (push_frame rs)) as [l [E _]].
    destruct (add_let_frame reserved (map fst bs) ts (push_frame rs)) as [[|] rs2]; cbn [snd] in E; subst rs2; cbn [snd].
    + specialize (IHb (adds l (push_frame rs))). destruct (parse ds b (adds l (push_frame rs))) as [t rs3]. cbn [snd] in *.
      subst rs3. apply pop_adds_push.
    + apply pop_adds_push.
Qed.

Lemma parse_eq ds a rs : parse ds a rs = (res ds a rs, rs).
Proof. unfold res. pose proof (parse_restores ds a rs). destruct (parse ds a rs); cbn [fst snd] in *; congruence. Qed.

Lemma res_app ds n l rs : res ds (AApp n l) rs = bindo (seqo (map (fun x => res ds x rs) l)) (resolve l_op ds n).
Proof.
  unfold res at 1. cbn [FrontModel.parse].
  match goal with |- context [?g l rs] => is_fix g; set (go := g) end.
  assert (G : forall k, go k rs = (seqo (map (fun x => res ds x rs) k), rs)).
  { induction k as [|x k IHk]; [reflexivity|]. cbn. rewrite parse_eq. fold go.
    destruct (res ds x rs); try reflexivity. rewrite IHk. destruct (seqo (map (fun x0 => res ds x0 rs) k)); reflexivity. }
  rewrite G. destruct (seqo (map (fun x => res ds x rs) l)); reflexivity.
Qed.

Lemma res_let ds bs b rs : res ds (ALet bs b) rs =
  bindo (seqo (map (fun x => res ds (snd x) (push_frame rs)) bs)) (fun ts =>
    let '(ok, rs2) := add_let_frame reserved (map fst bs) ts (push_frame rs) in
    if ok then res ds b rs2 else Undef).
Proof.
  unfold res at 1. cbn [FrontModel.parse].
  match goal with |- context [?g bs (push_frame rs)] => is_fix g; set (go := g) end.
  assert (G : forall k r, go k r = (seqo (map (fun x => res ds (snd x) r) k), r)).
  { induction k as [|[m x] k IHk]; intros r; [reflexivity|]. cbn. rewrite parse_eq. fold go.
    destruct (res ds x r); try reflexivity. rewrite IHk. destruct (seqo (map (fun x0 => res ds (snd x0) r) k)); reflexivity. }
  rewrite G. destruct (seqo (map (fun x => res ds (snd x) (push_frame rs)) bs)); try reflexivity. cbn [bindo].
  destruct (add_let_frame reserved (map fst bs) a (push_frame rs)) as [[|] rs2]; [|reflexivity].
  rewrite parse_eq. reflexivity.
Qed.

(** Only the bindings matter. *)
Definition same_bindings (rs rs' : records) := forall n, get_binding rs n = get_binding rs' n.

Lemma get_adds l : forall rs rs', same_bindings rs rs' -> same_bindings (adds l rs) (adds l rs').
Proof.
  induction l as [|[n t] l IH]; intros rs rs' H; [exact H|]. cbn [adds]. apply IH. intros m.
  rewrite !get_add_binding. destruct (String.eqb m n); [reflexivity|apply H].
Qed.

(** ** Meaning of the specification functions *)
Fixpoint omap {A B} (f : A -> option B) (l : list A) : option (list B) :=
  match l with
  | [] => Some []
  | x :: l' => match f x, omap f l' with Some y, Some ys => Some (y :: ys) | _, _ => None end
  end.

Lemma omap_some {A B} (f : A -> option B) l ys : omap f l = Some ys <-> map f l = map Some ys.
Proof.
  revert ys. induction l as [|x l IH]; intros ys; cbn [omap map].
  - split; intros H; [injection H as <-; reflexivity|]. destruct ys; [reflexivity|discriminate].
  - split.
    + destruct (f x) eqn:E, (omap f l) eqn:E2; intros H; try discriminate. injection H as <-. cbn [map]. f_equal. apply IH. reflexivity.
    + destruct ys as [|y ys]; intros H; [discriminate|]. cbn [map] in H. injection H as H1 H2. rewrite H1. apply IH in H2. rewrite H2. reflexivity.
Qed.

Lemma asem_app ds M e n l : asem ds M e (AApp n l) =
  match omap (asem ds M e) l with
  | Some vs => if in_pids (n, length vs) ds then Some (VBool (M n vs)) else op_value n vs
  | None => None
  end.
Proof.
  cbn [asem].
  match goal with |- context [?g l] => is_fix g; set (go := g) end.
  assert (G : forall k, go k = omap (asem ds M e) k).
  { induction k as [|x k IHk]; [reflexivity|]. cbn. rewrite <- IHk. reflexivity. }
  rewrite G. reflexivity.
Qed.

Lemma asem_let ds M e bs b : asem ds M e (ALet bs b) =
  match omap (fun x => asem ds M e (snd x)) bs with
  | Some vs => asem ds M (env_adds e (combine (map fst bs) vs)) b
  | None => None
  end.
Proof.
  cbn [asem].
  match goal with |- context [?g bs] => is_fix g; set (go := g) end.
  assert (G : forall k, go k = option_map (combine (map fst k)) (omap (fun x => asem ds M e (snd x)) k)).
  { induction k as [|[m x] k IHk]; [reflexivity|]. cbn. fold go. rewrite IHk.
    destruct (asem ds M e x); [|reflexivity]. destruct (omap (fun x0 => asem ds M e (snd x0)) k); reflexivity. }
  rewrite G. destruct (omap (fun x => asem ds M e (snd x)) bs); reflexivity.
Qed.

Lemma ast_sort_app ds e n l : ast_sort ds e (AApp n l) =
  match omap (ast_sort ds e) l with
  | Some vs => if in_pids (n, length vs) ds then Some SBool else op_sort n vs
  | None => None
  end.
Proof.
  cbn [ast_sort].
  match goal with |- context [?g l] => is_fix g; set (go := g) end.
  assert (G : forall k, go k = omap (ast_sort ds e) k).
  { induction k as [|x k IHk]; [reflexivity|]. cbn. rewrite <- IHk. reflexivity. }
  rewrite G. reflexivity.
Qed.

Lemma ast_sort_let ds e bs b : ast_sort ds e (ALet bs b) =
  match omap (fun x => ast_sort ds e (snd x)) bs with
  | Some vs => if distinct_names (map fst bs) then ast_sort ds (senv_adds e (combine (map fst bs) vs)) b else None
  | None => None
  end.
Proof.
  cbn [ast_sort].
  match goal with |- context [?g bs] => is_fix g; set (go := g) end.
  assert (G : forall k, go k = option_map (combine (map fst k)) (omap (fun x => ast_sort ds e (snd x)) k)).
  { induction k as [|[m x] k IHk]; [reflexivity|]. cbn. fold go. rewrite IHk.
    destruct (ast_sort ds e x); [|reflexivity]. destruct (omap (fun x0 => ast_sort ds e (snd x0)) k); reflexivity. }
  rewrite G. destruct (omap (fun x => ast_sort ds e (snd x)) bs); reflexivity.
Qed.

Definition env_eq (e e' : env) := forall n, e n = e' n.

Lemma env_adds_ext l : forall e e', env_eq e e' -> env_eq (env_adds e l) (env_adds e' l).
Proof.
  induction l as [|[n v] l IH]; intros e e' H; [exact H|]. cbn [env_adds]. apply IH. intros m.
  unfold env_add. destruct (String.eqb m n); [reflexivity|apply H].
Qed.

Lemma omap_ext {A B} (f g : A -> option B) l : Forall (fun x => f x = g x) l -> omap f l = omap g l.
Proof. induction 1 as [|x l H _ IH]; [reflexivity|]. cbn [omap]. rewrite H, IH. reflexivity. Qed.

Lemma asem_ext ds M a : forall e e', env_eq e e' -> asem ds M e a = asem ds M e' a.
Proof.
  induction a as [c|n|n l IH|bs b IHs IHb|vs b IHb|] using ast_ind'; intros e e' H; try reflexivity.
  - cbn [asem]. rewrite (H n). reflexivity.
  - rewrite !asem_app. rewrite (omap_ext (asem ds M e) (asem ds M e') l); [reflexivity|].
    eapply Forall_impl; [|exact IH]. intros x Hx. apply Hx, H.
  - rewrite !asem_let. rewrite (omap_ext _ (fun x => asem ds M e' (snd x)) bs).
    2:{ eapply Forall_impl; [|exact IHs]. intros x Hx. apply Hx, H. }
    destruct (omap _ bs); [|reflexivity]. apply IHb, env_adds_ext, H.
Qed.

Lemma for_all_ext vs : forall e e' (P Q : env -> Prop),
  env_eq e e' -> (forall f f', env_eq f f' -> (P f <-> Q f')) -> (for_all vs e P <-> for_all vs e' Q).
Proof.
  induction vs as [|[n s] vs IH]; intros e e' P Q H HP; [apply HP, H|]. cbn [for_all]. split; intros G v Hv.
  - refine (proj1 (IH _ _ P Q _ HP) (G v Hv)). intros m. unfold env_add. destruct (String.eqb m n); [reflexivity|apply H].
  - refine (proj2 (IH _ _ P Q _ HP) (G v Hv)). intros m. unfold env_add. destruct (String.eqb m n); [reflexivity|apply H].
Qed.

Lemma asserts_ext ds M a : forall e e', env_eq e e' -> (asserts ds M e a <-> asserts ds M e' a).
Proof.
  induction a as [c|n|n l IH|bs b IHs IHb|vs b IHb|] using ast_ind'; intros e e' H;
    try (cbn [asserts]; rewrite (asem_ext ds M _ e e' H); tauto).
  cbn [asserts]. apply for_all_ext; [exact H|]. exact IHb.
Qed.

(** ** Sorts *)
Lemma all_sort_spec s l : all_sort s l = true <-> Forall (fun x => x = s) l.
Proof.
  unfold all_sort. rewrite forallb_forall, Forall_forall. split; intros H x Hx; specialize (H x Hx);
    destruct (sort_eqb_spec s x); congruence.
Qed.

Lemma fold_sort (f : value -> value -> value) s (l : list value) v :
  (forall a b, sort_of a = s -> sort_of b = s -> sort_of (f a b) = s) ->
  sort_of v = s -> Forall (fun x => sort_of x = s) l -> sort_of (fold_left f l v) = s.
Proof.
  intros Hf Hv H. revert v Hv. induction H as [|x l Hx _ IH]; intros v Hv; [exact Hv|]. cbn [fold_left]. apply IH, Hf; auto.
Qed.

Lemma numeric_fold f vs v l s :
  vs = v :: l -> same_numeric (map sort_of vs) = Some s ->
  (forall a b, sort_of a = SInt -> sort_of b = SInt -> sort_of (f a b) = SInt) ->
  (forall a b, sort_of a = SReal -> sort_of b = SReal -> sort_of (f a b) = SReal) ->
  sort_of (fold_left f l v) = s.
Proof.
  intros -> H HI HR. unfold same_numeric in H.
  destruct (all_sort SInt _) eqn:E.
  - injection H as <-. apply all_sort_spec in E. cbn [map] in E. inversion E as [|? ? E1 E2]; subst.
    apply fold_sort; auto. rewrite Forall_map in E2. exact E2.
  - destruct (all_sort SReal _) eqn:E'; [|discriminate]. injection H as <-. apply all_sort_spec in E'. cbn [map] in E'.
    inversion E' as [|? ? E1 E2]; subst. apply fold_sort; auto. rewrite Forall_map in E2. exact E2.
Qed.

Lemma same_numeric_1 s s' : same_numeric [s] = Some s' -> s = s' /\ (s = SInt \/ s = SReal).
Proof. destruct s; intros H; vm_compute in H; try discriminate; injection H as <-; auto. Qed.

Lemma op_meaning_sort o vs s : op_rank o (map sort_of vs) = Some s -> sort_of (op_meaning o vs) = s.
Proof.
  assert (AI : forall a b, sort_of a = SInt -> sort_of b = SInt -> sort_of (vadd a b) = SInt).
  { intros [|z|] [|z'|] H1 H2; try discriminate. reflexivity. }
  assert (AR : forall a b, sort_of a = SReal -> sort_of b = SReal -> sort_of (vadd a b) = SReal).
  { intros [|z|] [|z'|] H1 H2; try discriminate. reflexivity. }
  assert (MI : forall a b, sort_of a = SInt -> sort_of b = SInt -> sort_of (vmul a b) = SInt).
  { intros [|z|] [|z'|] H1 H2; try discriminate. reflexivity. }
  assert (MR : forall a b, sort_of a = SReal -> sort_of b = SReal -> sort_of (vmul a b) = SReal).
  { intros [|z|] [|z'|] H1 H2; try discriminate. reflexivity. }
  assert (NS : forall a, sort_of (vneg a) = sort_of a) by (intros [| |]; reflexivity).
  destruct o; cbn [op_rank op_meaning].
  1,2: destruct vs; cbn [map]; intros H; try discriminate; injection H as <-; reflexivity.
  1-4: destruct vs as [|v vs]; cbn [map]; [discriminate|]; match goal with |- context [all_sort ?a ?b] => destruct (all_sort a b) end;
    intros H; try discriminate; injection H as <-; reflexivity.
  - destruct vs as [|v [|w l]]; cbn [map]; try discriminate; destruct (sort_of v); intros H; try discriminate; injection H as <-; reflexivity.
  - destruct vs as [|v [|w l]]; cbn [map]; try discriminate. destruct (all_sort _ _); intros H; try discriminate; injection H as <-; reflexivity.
  - destruct vs as [|v [|w l]]; cbn [map]; try discriminate. destruct (all_sort _ _); intros H; try discriminate; injection H as <-; reflexivity.
  - destruct vs as [|v [|w l]]; cbn [map]; try discriminate. destruct (same_numeric _); intros H; try discriminate; injection H as <-; reflexivity.
  - destruct vs as [|v [|w l]]; cbn [map]; try discriminate. destruct (same_numeric _); intros H; try discriminate; injection H as <-; reflexivity.
  - destruct vs as [|v [|w l]]; cbn [map]; try discriminate. destruct (same_numeric _); intros H; try discriminate; injection H as <-; reflexivity.
  - destruct vs as [|v [|w l]]; cbn [map]; try discriminate. destruct (same_numeric _); intros H; try discriminate; injection H as <-; reflexivity.
  - destruct vs as [|v l]; [discriminate|]. intros H. exact (numeric_fold vadd _ v l s eq_refl H AI AR).
  - destruct vs as [|v [|w l]]; [discriminate| |]; intros H.
    + cbn [map] in H. apply same_numeric_1 in H as [<- _]. apply NS.
    + apply (numeric_fold (fun a b => vadd a (vneg b)) (v :: w :: l) v (w :: l) s eq_refl H).
      * intros a b Ha Hb. apply AI; [exact Ha|rewrite NS; exact Hb].
      * intros a b Ha Hb. apply AR; [exact Ha|rewrite NS; exact Hb].
  - destruct vs as [|v l]; [discriminate|]. intros H. exact (numeric_fold vmul _ v l s eq_refl H MI MR).
  - destruct vs as [|c [|a [|b [|d l]]]]; cbn [map]; intros H; try discriminate.
    + destruct (sort_of c); discriminate.
    + destruct (sort_of c); discriminate.
    + destruct (sort_of c); try discriminate. destruct (sort_eqb_spec (sort_of a) (sort_of b)); [|discriminate].
      injection H as <-. destruct (asb c); congruence.
    + destruct (sort_of c); discriminate.
  - destruct vs as [|a [|b [|d l]]]; cbn [map]; intros H; try discriminate; destruct a; cbn [sort_of] in H; try discriminate;
      destruct b; cbn [sort_of] in H; try discriminate. injection H as <-. reflexivity.
  - destruct vs as [|a [|b [|d l]]]; cbn [map]; intros H; try discriminate; destruct a; cbn [sort_of] in H; try discriminate;
      destruct b; cbn [sort_of] in H; try discriminate. injection H as <-. reflexivity.
Qed.

Lemma op_value_sort n vs s : op_sort n (map sort_of vs) = Some s -> exists v, op_value n vs = Some v /\ sort_of v = s.
Proof.
  unfold op_sort, op_value. destruct (op_of n) as [o|]; [|discriminate]. intros H. rewrite H. eexists. split; [reflexivity|].
  apply op_meaning_sort, H.
Qed.

Definition env_sorted (e : env) (g : senv) := forall n, option_map sort_of (e n) = g n.

Lemma env_adds_sorted l : forall e g, env_sorted e g ->
  env_sorted (env_adds e l) (senv_adds g (map (fun x => (fst x, sort_of (snd x))) l)).
Proof.
  induction l as [|[n v] l IH]; intros e g H; [exact H|]. cbn [env_adds map senv_adds fst snd]. apply IH. intros m.
  unfold env_add, senv_add. destruct (String.eqb m n); [reflexivity|apply H].
Qed.

Lemma combine_map_snd {A B C} (f : B -> C) (l : list A) (k : list B) :
  combine l (map f k) = map (fun x => (fst x, f (snd x))) (combine l k).
Proof. revert k. induction l as [|x l IH]; intros [|y k]; cbn; [reflexivity..|]. rewrite IH. reflexivity. Qed.

Lemma asem_list {A} (f : A -> option value) (g : A -> option sort) l :
  Forall (fun x => forall s, g x = Some s -> exists v, f x = Some v /\ sort_of v = s) l ->
  forall ss, omap g l = Some ss -> exists vs, omap f l = Some vs /\ map sort_of vs = ss.
Proof.
  induction 1 as [|x l Hx _ IH]; intros ss E.
  - injection E as <-. exists []. split; reflexivity.
  - cbn [omap] in *. destruct (g x) as [s|]; [|discriminate]. destruct (omap g l) as [ss'|]; [|discriminate].
    injection E as <-. destruct (Hx s eq_refl) as [v [-> Hv]]. destruct (IH ss' eq_refl) as [vs [-> Hvs]].
    exists (v :: vs). split; [reflexivity|]. cbn [map]. congruence.
Qed.

Lemma asem_sorted ds M a : forall e g s, env_sorted e g -> ast_sort ds g a = Some s ->
  exists v, asem ds M e a = Some v /\ sort_of v = s.
Proof.
  induction a as [c|n|n l IH|bs b IHs IHb|vs b IHb|] using ast_ind'; intros e g s He H; try discriminate.
  - injection H as <-. exists c. split; reflexivity.
  - cbn [asem ast_sort] in *. specialize (He n). destruct (e n) as [v|]; cbn [option_map] in He; rewrite <- He in H.
    + injection H as <-. exists v. split; reflexivity.
    + destruct (in_pids (n, 0) ds); [injection H as <-; eexists; split; reflexivity|].
      apply (op_value_sort n [] s). exact H.
  - rewrite ast_sort_app in H. rewrite asem_app.
    destruct (omap (ast_sort ds g) l) as [ss|] eqn:E; [|discriminate].
    destruct (asem_list (asem ds M e) (ast_sort ds g) l) with (ss := ss) as [vs [E2 Hvs]]; [|exact E|].
    + eapply Forall_impl; [|exact IH]. intros x Hx s' Hs'. exact (Hx e g s' He Hs').
    + rewrite E2. subst ss. rewrite map_length in H. destruct (in_pids (n, length vs) ds).
      * injection H as <-. eexists. split; reflexivity.
      * apply op_value_sort, H.
  - rewrite ast_sort_let in H. rewrite asem_let.
    destruct (omap (fun x => ast_sort ds g (snd x)) bs) as [ss|] eqn:E; [|discriminate].
    destruct (asem_list (fun x => asem ds M e (snd x)) (fun x => ast_sort ds g (snd x)) bs) with (ss := ss) as [vs [E2 Hvs]]; [|exact E|].
    + eapply Forall_impl; [|exact IHs]. intros x Hx s' Hs'. exact (Hx e g s' He Hs').
    + rewrite E2. destruct (distinct_names (map fst bs)); [|discriminate]. subst ss.
      eapply IHb; [|exact H]. rewrite combine_map_snd. apply env_adds_sorted, He.
Qed.

(** ** Soundness of parsing *)
Variable l_not : pterm -> pterm.
Variables l_or l_and : list pterm -> pterm.
Hypothesis L : logic_ok l_op l_not l_or l_and.

Definition env_of (M : preds) (r : valuation) (rs : records) : env := fun n => option_map (peval M r) (get_binding rs n).

Lemma env_of_adds M r l : forall rs e, env_eq (env_of M r rs) e ->
  env_eq (env_of M r (adds l rs)) (env_adds e (map (fun x => (fst x, peval M r (snd x))) l)).
Proof.
  induction l as [|[n t] l IH]; intros rs e H; [exact H|]. cbn [adds map env_adds fst snd]. apply IH. intros m.
  unfold env_of, env_add. rewrite get_add_binding. destruct (String.eqb m n); [reflexivity|apply H].
Qed.

Lemma resolve_sound ds M r n ts t v :
  resolve l_op ds n ts = Ok t ->
  (if in_pids (n, length ts) ds then Some (VBool (M n (map (peval M r) ts))) else op_value n (map (peval M r) ts)) = Some v ->
  peval M r t = v.
Proof.
  unfold resolve. destruct (in_pids (n, length ts) ds).
  - intros [= <-] [= <-]. reflexivity.
  - destruct (l_op n ts) as [u|] eqn:E; [|discriminate]. intros [= <-] H. eapply lo_op; eauto.
Qed.

Lemma res_list {A} (f : A -> outcome pterm) (g : A -> option value) (h : pterm -> value) l :
  Forall (fun x => forall t v, f x = Ok t -> g x = Some v -> h t = v) l ->
  forall ts vs, seqo (map f l) = Ok ts -> omap g l = Some vs -> map h ts = vs.
Proof.
  intros H ts vs E1 E2. apply seqo_ok in E1. apply omap_some in E2. revert ts vs E1 E2.
  induction H as [|x l Hx _ IH]; intros ts vs E1 E2.
  - destruct ts; [|discriminate]. destruct vs; [|discriminate]. reflexivity.
  - destruct ts as [|t ts]; [discriminate|]. destruct vs as [|v vs]; [discriminate|]. cbn [map] in *.
    injection E1 as E1 E1'. injection E2 as E2 E2'. f_equal; auto.
Qed.

Lemma parse_sound ds M r a : forall rs e t v, env_eq (env_of M r rs) e ->
  res ds a rs = Ok t -> asem ds M e a = Some v -> peval M r t = v.
Proof.
  induction a as [c|n|n l IH|bs b IHs IHb|vs b IHb|] using ast_ind'; intros rs e t v He E1 E2; try discriminate.
  - injection E1 as <-. injection E2 as <-. reflexivity.
  - unfold res in E1. cbn [FrontModel.parse asem] in *. rewrite <- (He n) in E2. unfold env_of in E2.
    destruct (get_binding rs n) as [u|]; cbn [fst option_map] in *; [congruence|].
    exact (resolve_sound ds M r n [] t v E1 E2).
  - rewrite res_app in E1. rewrite asem_app in E2.
    destruct (seqo (map (fun x => res ds x rs) l)) as [ts| | |] eqn:F; try discriminate. cbn [bindo] in E1.
    destruct (omap (asem ds M e) l) as [vs|] eqn:G; [|discriminate].
    assert (Hts : map (peval M r) ts = vs).
    { apply (res_list (fun x => res ds x rs) (asem ds M e) (peval M r) l); auto.
      eapply Forall_impl; [|exact IH]. intros x Hx t' v' H1 H2. exact (Hx rs e t' v' He H1 H2). }
    subst vs. rewrite map_length in E2. exact (resolve_sound ds M r n ts t v E1 E2).
  - rewrite res_let in E1. rewrite asem_let in E2.
    destruct (seqo (map (fun x => res ds (snd x) (push_frame rs)) bs)) as [ts| | |] eqn:F; try discriminate. cbn [bindo] in E1.
    destruct (omap (fun x => asem ds M e (snd x)) bs) as [vs|] eqn:G; [|discriminate].
    assert (Hts : map (peval M r) ts = vs).
    { apply (res_list (fun x => res ds (snd x) (push_frame rs)) (fun x => asem ds M e (snd x)) (peval M r) bs); auto.
      eapply Forall_impl; [|exact IHs]. intros x Hx t' v' H1 H2. exact (Hx (push_frame rs) e t' v' He H1 H2). }
    destruct (add_let_frame_adds (map fst bs) ts (push_frame rs)) as [k [K1 K2]].
    destruct (add_let_frame reserved (map fst bs) ts (push_frame rs)) as [[|] rs2]; [|discriminate].
    cbn [fst snd] in *. specialize (K2 eq_refl). subst k rs2 vs.
    eapply IHb; [|exact E1|exact E2]. rewrite combine_map_snd. apply env_of_adds. exact He.
Qed.

(** ** Quantifiers *)
Lemma bind_push ds rs x : get_binding (bind_var ds rs x) = get_binding (adds [(fst x, qterm ds x)] rs).
Proof. reflexivity. Qed.

Lemma pops_bind ds vs : forall rs, pops (length vs) (fold_left (bind_var ds) vs rs) = rs.
Proof.
  induction vs as [|x vs IH] using rev_ind; intros rs; [reflexivity|].
  rewrite fold_left_app, app_length. cbn [length fold_left]. replace (length vs + 1) with (S (length vs)) by lia.
  cbn [pops]. unfold bind_var at 1. change (add_binding (fst x) (qterm ds x) ?r) with (adds [(fst x, qterm ds x)] r).
  rewrite pop_adds_push. apply IH.
Qed.

Lemma parse_top_restores ds a : forall rs, snd (parse_top ds a rs) = rs.
Proof.
  induction a as [c|n|n l IH|bs b IHs IHb|vs b IHb|] using ast_ind'; intros rs; try apply parse_restores.
  cbn [FrontModel.parse_top]. specialize (IHb (fold_left (bind_var ds) vs rs)).
  destruct (parse_top ds b (fold_left (bind_var ds) vs rs)) as [t rs1]. cbn [snd] in *. subst rs1. apply pops_bind.
Qed.

Definition vars_only (rs : records) := forall n t, get_binding rs n = Some t -> exists s, t = PVar (mkVar n TBase s).

Definition top (ds : list pid) (a : ast) (rs : records) : outcome pterm := fst (parse_top ds a rs).

Lemma top_forall ds vs b rs : top ds (AForall vs b) rs = top ds b (fold_left (bind_var ds) vs rs).
Proof. unfold top. cbn [FrontModel.parse_top]. destruct (parse_top ds b _); reflexivity. Qed.

Definition no_clash (ds : list pid) (vs : list (string * sort)) :=
  forall n, In (n, SBool) vs -> in_pids (n, 0) ds = false.

Lemma qterm_var ds x vs : no_clash ds vs -> In x vs -> qterm ds x = PVar (qvar x).
Proof.
  intros H I. unfold qterm. destruct x as [n s]. cbn [fst snd]. destruct (sort_eqb_spec s SBool) as [->|N]; [|reflexivity].
  rewrite (H n I). reflexivity.
Qed.

Definition setv (r : valuation) (x : var) (v : value) : valuation := fun y => if var_eqb y x then v else r y.

Lemma bind_vars_only ds rs x : qterm ds x = PVar (qvar x) -> vars_only rs -> vars_only (bind_var ds rs x).
Proof.
  intros Q H n t. rewrite bind_push. cbn [adds]. rewrite get_add_binding. destruct (String.eqb_spec n (fst x)) as [->|N].
  - rewrite Q. intros [= <-]. exists (snd x). reflexivity.
  - apply H.
Qed.

Lemma env_bind ds M r rs x v : qterm ds x = PVar (qvar x) -> vars_only rs -> sort_of v = snd x ->
  env_eq (env_of M (setv r (qvar x) v) (bind_var ds rs x)) (env_add (env_of M r rs) (fst x) v).
Proof.
  intros Q H Hv m. unfold env_of, env_add. rewrite bind_push. cbn [adds]. rewrite get_add_binding.
  destruct (String.eqb_spec m (fst x)) as [->|N].
  - rewrite Q. cbn [option_map peval]. unfold setv. rewrite var_eqb_refl. cbn [qvar vsort]. rewrite coerce_id by exact Hv. reflexivity.
  - destruct (get_binding rs m) as [t|] eqn:E; [|reflexivity]. apply H in E as [s ->]. cbn [option_map peval].
    unfold setv. destruct (var_eqb_spec (mkVar m TBase s) (qvar x)) as [F|F]; [|reflexivity].
    apply (f_equal vbase) in F. cbn [qvar vbase] in F. contradiction.
Qed.

Lemma env_bind_back ds M r rs x : qterm ds x = PVar (qvar x) ->
  env_eq (env_add (env_of M r rs) (fst x) (coerce (snd x) (r (qvar x)))) (env_of M r (bind_var ds rs x)).
Proof.
  intros Q m. unfold env_of, env_add. rewrite bind_push. cbn [adds]. rewrite get_add_binding.
  destruct (String.eqb_spec m (fst x)) as [->|N]; [|reflexivity]. rewrite Q. reflexivity.
Qed.

Lemma for_all_bind ds M (P : env -> Prop) vs :
  (forall f f', env_eq f f' -> (P f <-> P f')) ->
  no_clash ds vs -> forall rs, vars_only rs ->
  (vars_only (fold_left (bind_var ds) vs rs)) /\
  ((forall r, for_all vs (env_of M r rs) P) <-> (forall r, P (env_of M r (fold_left (bind_var ds) vs rs)))).
Proof.
  intros HP. induction vs as [|x vs IH]; intros NC rs V; [split; [exact V|tauto]|].
  assert (Q : qterm ds x = PVar (qvar x)) by (eapply qterm_var; [exact NC|left; reflexivity]).
  assert (NC' : no_clash ds vs) by (intros n Hn; apply NC; right; exact Hn).
  destruct (IH NC' (bind_var ds rs x) (bind_vars_only ds rs x Q V)) as [I1 I2]. cbn [fold_left]. split; [exact I1|].
  rewrite <- I2. destruct x as [n s]. cbn [for_all]. split.
  - intros H r. specialize (H r (coerce s (r (qvar (n, s)))) (coerce_sort _ _)).
    eapply for_all_ext; [| |exact H]; [|exact HP]. intros m. symmetry. apply (env_bind_back ds M r rs (n, s) Q m).
  - intros H r v Hv. specialize (H (setv r (qvar (n, s)) v)).
    eapply for_all_ext; [| |exact H]; [|exact HP]. intros m. symmetry. apply (env_bind ds M r rs (n, s) v Q V Hv).
Qed.

Lemma ptrue_value M r t : ptrue_in M r t = true <-> peval M r t = VBool true.
Proof. unfold ptrue_in. destruct (peval M r t) as [[|]| |]; cbn; split; congruence. Qed.

Definition senv_of (rs : records) : senv := fun n =>
  match get_binding rs n with Some (PVar v) => Some (vsort v) | _ => None end.

Lemma env_of_sorted M r rs : vars_only rs -> env_sorted (env_of M r rs) (senv_of rs).
Proof.
  intros V n. unfold env_of, senv_of. destruct (get_binding rs n) as [t|] eqn:E; [|reflexivity].
  apply V in E as [s ->]. cbn [option_map peval vsort]. rewrite coerce_sort. reflexivity.
Qed.

Lemma ast_sort_ext ds a : forall g g', (forall n, g n = g' n) -> ast_sort ds g a = ast_sort ds g' a.
Proof.
  assert (SA : forall l (g g' : senv), (forall n, g n = g' n) -> forall n, senv_adds g l n = senv_adds g' l n).
  { induction l as [|[m s] l IH]; intros g g' H; [exact H|]. cbn [senv_adds]. apply IH. intros n. unfold senv_add.
    destruct (String.eqb n m); [reflexivity|apply H]. }
  induction a as [c|n|n l IH|bs b IHs IHb|vs b IHb|] using ast_ind'; intros g g' H; try reflexivity.
  - cbn [ast_sort]. rewrite (H n). reflexivity.
  - rewrite !ast_sort_app. rewrite (omap_ext (ast_sort ds g) (ast_sort ds g') l); [reflexivity|].
    eapply Forall_impl; [|exact IH]. intros x Hx. apply Hx, H.
  - rewrite !ast_sort_let. rewrite (omap_ext _ (fun x => ast_sort ds g' (snd x)) bs).
    2:{ eapply Forall_impl; [|exact IHs]. intros x Hx. apply Hx, H. }
    destruct (omap _ bs); [|reflexivity]. destruct (distinct_names (map fst bs)); [|reflexivity]. apply IHb, SA, H.
Qed.

Lemma senv_adds_ext l : forall (g g' : senv), (forall n, g n = g' n) -> forall n, senv_adds g l n = senv_adds g' l n.
Proof.
  induction l as [|[m s] l IH]; intros g g' H; [exact H|]. cbn [senv_adds]. apply IH. intros n. unfold senv_add.
  destruct (String.eqb n m); [reflexivity|apply H].
Qed.

Lemma well_sorted_ext ds a : forall g g', (forall n, g n = g' n) -> well_sorted_from ds g a -> well_sorted_from ds g' a.
Proof.
  induction a as [c|n|n l IH|bs b IHs IHb|vs b IHb|] using ast_ind'; intros g g' H W;
    try (cbn [well_sorted_from] in *; rewrite <- (ast_sort_ext ds _ g g' H); exact W).
  cbn [well_sorted_from] in *. eapply IHb; [|exact W]. apply senv_adds_ext, H.
Qed.

Lemma senv_of_bind ds vs : no_clash ds vs -> forall rs,
  forall n, senv_of (fold_left (bind_var ds) vs rs) n = senv_adds (senv_of rs) vs n.
Proof.
  induction vs as [|x vs IH]; intros NC rs n; [reflexivity|].
  assert (Q : qterm ds x = PVar (qvar x)) by (eapply qterm_var; [exact NC|left; reflexivity]).
  cbn [fold_left]. rewrite IH by (intros m Hm; apply NC; right; exact Hm). destruct x as [m s]. cbn [senv_adds].
  apply senv_adds_ext. intros k. unfold senv_of, senv_add. rewrite bind_push. cbn [adds fst]. rewrite get_add_binding.
  destruct (String.eqb k m); [|reflexivity]. rewrite Q. reflexivity.
Qed.

Lemma top_sound ds M a : forall rs t, vars_only rs -> no_clash ds (quantified a) -> well_sorted_from ds (senv_of rs) a ->
  top ds a rs = Ok t ->
  ((forall r, asserts ds M (env_of M r rs) a) <-> (forall r, ptrue_in M r t = true)).
Proof.
  assert (Base : forall a rs t, vars_only rs -> ast_sort ds (senv_of rs) a = Some SBool -> res ds a rs = Ok t ->
    ((forall r, asem ds M (env_of M r rs) a = Some (VBool true)) <-> (forall r, ptrue_in M r t = true))).
  { intros a' rs t V W E. split; intros H r.
    - apply ptrue_value. eapply parse_sound; [|exact E|apply H]. intros n. reflexivity.
    - destruct (asem_sorted ds M a' (env_of M r rs) (senv_of rs) SBool (env_of_sorted M r rs V) W) as [v [Hv _]].
      rewrite Hv. f_equal. rewrite <- (parse_sound ds M r a' rs (env_of M r rs) t v (fun _ => eq_refl) E Hv).
      apply ptrue_value, H. }
  induction a as [c|n|n l IH|bs b IHs IHb|vs b IHb|] using ast_ind'; intros rs t V NC W E;
    try (apply Base; [exact V|exact W|exact E]).
  rewrite top_forall in E. cbn [asserts quantified well_sorted_from] in *.
  assert (NC1 : no_clash ds vs) by (intros n Hn; apply NC, in_or_app; left; exact Hn).
  assert (NC2 : no_clash ds (quantified b)) by (intros n Hn; apply NC, in_or_app; right; exact Hn).
  destruct (for_all_bind ds M (fun e' => asserts ds M e' b) vs (asserts_ext ds M b) NC1 rs V) as [V' B].
  rewrite B. apply IHb; auto. eapply well_sorted_ext; [|exact W]. intros n. symmetry. apply senv_of_bind, NC1.
Qed.

(** ** Success *)
Lemma add_all_ok ns ts rs : length ns = length ts -> forallb (fun n => negb (reserved n)) ns = true ->
  add_all reserved ns ts rs = (true, adds (combine ns ts) rs).
Proof.
  revert ts rs. induction ns as [|n ns IH]; intros [|t ts] rs Hl H; try discriminate; [reflexivity|].
  cbn [add_all combine adds forallb] in *. apply andb_true_iff in H as [H1 H2]. destruct (reserved n); [discriminate|].
  apply IH; auto.
Qed.

Hypothesis T : logic_total l_op.

Definition rec_sorted (rs : records) (g : senv) : Prop :=
  forall n, match get_binding rs n, g n with
            | Some t, Some s => forall M r, sort_of (peval M r t) = s
            | None, None => True
            | _, _ => False
            end.

Lemma rec_sorted_adds l : forall rs g, rec_sorted rs g ->
  forall ss, Forall2 (fun x s => forall M r, sort_of (peval M r (snd x)) = s) l ss ->
  rec_sorted (adds l rs) (senv_adds g (combine (map fst l) ss)).
Proof.
  induction l as [|[n t] l IH]; intros rs g H ss F; inversion F as [|? s ? ss' F1 F2]; subst; [exact H|].
  cbn [adds map combine senv_adds fst]. apply IH; [|exact F2]. intros m. rewrite get_add_binding. unfold senv_add.
  destruct (String.eqb m n); [exact F1|apply H].
Qed.

Lemma resolve_total ds n ts ss s :
  Forall2 (fun t s => forall M r, sort_of (peval M r t) = s) ts ss ->
  (if in_pids (n, length ss) ds then Some SBool else op_sort n ss) = Some s ->
  exists t, resolve l_op ds n ts = Ok t /\ forall M r, sort_of (peval M r t) = s.
Proof.
  intros F E. unfold resolve. rewrite (Forall2_len F). destruct (in_pids (n, length ss) ds).
  - injection E as <-. eexists. split; [reflexivity|]. reflexivity.
  - assert (HS : forall M r, map sort_of (map (peval M r) ts) = ss).
    { intros M r. clear E. induction F as [|t s' ts ss Ht _ IH]; [reflexivity|]. cbn [map]. rewrite Ht, IH. reflexivity. }
    assert (HV : forall M r, exists v, op_value n (map (peval M r) ts) = Some v /\ sort_of v = s).
    { intros M r. apply op_value_sort. rewrite HS. exact E. }
    destruct (T n ts) as [t Ht].
    { intros M r. destruct (HV M r) as [v [-> _]]. discriminate. }
    rewrite Ht. exists t. split; [reflexivity|]. intros M r. destruct (HV M r) as [v [Hv <-]].
    f_equal. eapply lo_op; eauto.
Qed.

Lemma res_list_ok {A} (f : A -> outcome pterm) (g : A -> option sort) l :
  Forall (fun x => forall s, g x = Some s -> exists t, f x = Ok t /\ forall M r, sort_of (peval M r t) = s) l ->
  forall ss, omap g l = Some ss ->
  exists ts, seqo (map f l) = Ok ts /\ Forall2 (fun t s => forall M r, sort_of (peval M r t) = s) ts ss.
Proof.
  induction 1 as [|x l Hx _ IH]; intros ss E.
  - injection E as <-. exists []. split; [reflexivity|constructor].
  - cbn [omap] in E. destruct (g x) as [s|]; [|discriminate]. destruct (omap g l) as [ss'|]; [|discriminate]. injection E as <-.
    destruct (Hx s eq_refl) as [t [Ht Hs]]. destruct (IH ss' eq_refl) as [ts [Hts HF]].
    exists (t :: ts). cbn [map seqo]. rewrite Ht, Hts. split; [reflexivity|]. constructor; assumption.
Qed.

Lemma parse_total ds a : forall rs g s, rec_sorted rs g -> lets_fine reserved a = true -> ast_sort ds g a = Some s ->
  exists t, res ds a rs = Ok t /\ forall M r, sort_of (peval M r t) = s.
Proof.
  induction a as [c|n|n l IH|bs b IHs IHb|vs b IHb|] using ast_ind'; intros rs g s H LF E; try discriminate.
  - injection E as <-. eexists. split; reflexivity.
  - unfold res. cbn [FrontModel.parse ast_sort] in *. specialize (H n). destruct (get_binding rs n) as [t|].
    + destruct (g n) as [s'|]; [|contradiction]. injection E as <-. exists t. split; [reflexivity|exact H].
    + destruct (g n) as [s'|]; [contradiction|]. cbn [fst]. apply (resolve_total ds n [] [] s); [constructor|exact E].
  - rewrite ast_sort_app in E. rewrite res_app. cbn [lets_fine] in LF.
    destruct (omap (ast_sort ds g) l) as [ss|] eqn:F; [|discriminate].
    destruct (res_list_ok (fun x => res ds x rs) (ast_sort ds g) l) with (ss := ss) as [ts [-> HF]]; [|exact F|].
    + rewrite Forall_forall in *. rewrite forallb_forall in LF. intros x Hx s' Hs'. exact (IH x Hx rs g s' H (LF x Hx) Hs').
    + cbn [bindo]. exact (resolve_total ds n ts ss s HF E).
  - rewrite ast_sort_let in E. rewrite res_let. cbn [lets_fine] in LF. apply andb_true_iff in LF as [LF1 LF2].
    destruct (omap (fun x => ast_sort ds g (snd x)) bs) as [ss|] eqn:F; [|discriminate].
    destruct (res_list_ok (fun x => res ds (snd x) (push_frame rs)) (fun x => ast_sort ds g (snd x)) bs) with (ss := ss)
      as [ts [Ets HF]]; [|exact F|].
    + rewrite Forall_forall in *. rewrite forallb_forall in LF1. intros x Hx s' Hs'. specialize (LF1 x Hx).
      apply andb_true_iff in LF1 as [_ LFx]. exact (IHs x Hx (push_frame rs) g s' H LFx Hs').
    + rewrite Ets. cbn [bindo]. destruct (distinct_names (map fst bs)) eqn:D; [|discriminate].
      unfold add_let_frame. rewrite D.
      assert (Hl : length (map fst bs) = length ts).
      { apply seqo_ok in Ets. rewrite map_length. rewrite <- (map_length (@Ok pterm) ts), <- Ets, map_length. reflexivity. }
      rewrite add_all_ok; [|exact Hl|].
      2:{ rewrite forallb_forall in *. intros n Hn. apply in_map_iff in Hn as [x [<- Hx]]. specialize (LF1 x Hx).
          apply andb_true_iff in LF1. tauto. }
      eapply IHb; [|exact LF2|exact E].
      pose proof (rec_sorted_adds (combine (map fst bs) ts) (push_frame rs) g H ss) as RS.
      rewrite (map_fst_combine' Hl) in RS. apply RS.
      clear -HF Hl. revert HF Hl. generalize (map fst bs). intros ns HF. revert ns.
      induction HF as [|t s' ts ss Ht _ IH]; intros [|n ns] Hl; try discriminate; [constructor|].
      cbn [combine]. constructor; [exact Ht|]. apply IH. injection Hl as Hl. exact Hl.
Qed.

Lemma rec_sorted_vars rs : vars_only rs -> rec_sorted rs (senv_of rs).
Proof.
  intros V n. unfold senv_of. destruct (get_binding rs n) as [t|] eqn:E; [|exact I]. apply V in E as [s ->].
  intros M r. cbn [peval vsort]. apply coerce_sort.
Qed.

Lemma vars_only_bind ds vs : no_clash ds vs -> forall rs, vars_only rs -> vars_only (fold_left (bind_var ds) vs rs).
Proof.
  induction vs as [|x vs IH]; intros NC rs V; [exact V|]. cbn [fold_left]. apply IH.
  - intros n Hn. apply NC. right. exact Hn.
  - apply bind_vars_only; [|exact V]. eapply qterm_var; [exact NC|left; reflexivity].
Qed.

Lemma top_total ds a : forall rs, vars_only rs -> no_clash ds (quantified a) -> lets_fine reserved a = true ->
  well_sorted_from ds (senv_of rs) a -> exists t, top ds a rs = Ok t.
Proof.
  assert (Base : forall a rs, vars_only rs -> lets_fine reserved a = true -> ast_sort ds (senv_of rs) a = Some SBool ->
    exists t, res ds a rs = Ok t).
  { intros a' rs V LF W. destruct (parse_total ds a' rs (senv_of rs) SBool (rec_sorted_vars rs V) LF W) as [t [Ht _]]. eauto. }
  induction a as [c|n|n l IH|bs b IHs IHb|vs b IHb|] using ast_ind'; intros rs V NC LF W;
    try (exact (Base _ rs V LF W)).
  rewrite top_forall. cbn [quantified well_sorted_from lets_fine] in *.
  assert (NC1 : no_clash ds vs) by (intros n Hn; apply NC, in_or_app; left; exact Hn).
  apply IHb; auto.
  - apply vars_only_bind; assumption.
  - intros n Hn. apply NC, in_or_app. right. exact Hn.
  - eapply well_sorted_ext; [|exact W]. intros n. symmetry. apply senv_of_bind, NC1.
Qed.

End P.
