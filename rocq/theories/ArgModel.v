(** * Model of predicate abstraction with an abstract reachability graph (src/engine/ArgBasedEngine.cc). *)
From Verif Require Import Syntax Solver Graph GraphOps ValidatorModel Names GraphSem SimpleTransModel EntailModel PdkModel SpacerModel.
Open Scope list_scope.
Open Scope nat_scope.

(** ** Tree interpolation (src/engine/ArgBasedEngine.cc:637-654) *)
(** The argument: for every node its parent and its formula.  The answer: one formula per node. *)
Definition titp_fn := list (option nat * term) -> option (list term).
(** [in_sub T n m]: node [m] is in the subtree of node [n]. *)
Inductive in_sub (T : list (option nat * term)) (n : nat) : nat -> Prop :=
| sub_refl : in_sub T n n
| sub_up m p l : nth_error T m = Some (Some p, l) -> in_sub T n p -> in_sub T n m.
(** The specification: the interpolants of the masks "subtree of n", taken from one refutation, form a tree
    interpolant: the interpolants of the children and the formula of a node imply its interpolant, the interpolant of the
    root (all partitions) is false, and interpolants speak about variables shared by the subtree and the rest only. *)
Definition titp_ok (f : titp_fn) : Prop := forall T Is, f T = Some Is ->
  length Is = length T /\
  (forall I0 r, nth_error Is 0 = Some I0 -> ~ holds r I0) /\
  forall n p l J, nth_error T n = Some (p, l) -> nth_error Is n = Some J ->
    (forall r, holds r l -> (forall k lk Jk, nth_error T k = Some (Some n, lk) -> nth_error Is k = Some Jk -> holds r Jk) -> holds r J) /\
    (forall v, In v (vars J) ->
      (exists m q l', in_sub T n m /\ nth_error T m = Some (q, l') /\ In v (vars l')) /\
      (exists m q l', ~ in_sub T n m /\ nth_error T m = Some (q, l') /\ In v (vars l'))).

(** ** [AuxCleanupPass] (src/engine/ArgBasedEngine.cc:664-712) *)
Definition paux (k : nat) (s : sort) : var := mkVar ("paux#" ++ to_string (Z.of_nat k))%string TBase s.
Fixpoint index_of (v : var) (l : list var) : option nat :=
  match l with [] => None | x :: l' => if var_eqb v x then Some 0 else option_map S (index_of v l') end.
(** The renaming of the local variables [l] (src/engine/ArgBasedEngine.cc:699-706). *)
Definition paux_ren (k : nat) (l : list var) (v : var) : var :=
  match index_of v l with Some i => paux (k + i) (vsort v) | None => v end.
Definition locals (g : hgraph) (e : hedge) (t : term) : list var :=
  nodup (fun a b => Bool.reflect_dec _ _ (var_eqb_spec a b)) (filter (fun v => negb (inb v (own_vars g e))) (vars t)).
Fixpoint clean_edges (elim : elim_fn) (g : hgraph) (k : nat) (es : list hedge) : list hedge :=
  match es with
  | [] => []
  | e :: es' =>
    let t := elim (fun v => inb v (own_vars g e)) (efla e) in
    let l := locals g e t in
    mkEdge (eid e) (efrom e) (eto e) (rename (paux_ren k l) t) :: clean_edges elim g (k + length l) es'
  end.
Definition clean (elim : elim_fn) (g : hgraph) : hgraph := mkGraph (clean_edges elim g 0 (gedges g)) (gpv g) (gfree g) (gctr g).

(** ** The abstract reachability graph *)
(** [ARGNode] (src/engine/ArgBasedEngine.cc:86-90) with its single incoming edge (:109, 147-150, 380): [addEdge] is called once
    per created node.  The id of a node is its position; node 0 is [ENTRY]. *)
Record gnode := mkGN { n_sym : sym; n_preds : list term; n_edge : hedge; n_srcs : list nat }.
Definition root_node : gnode := mkGN entry [] (mkEdge no_id [] entry tt_true) [].
(** [predicateManager], [nodes], [coveredNodes] (src/engine/ArgBasedEngine.cc:105-110); [instances] is computed from the nodes.
    [g_unk] is not in the code: it records that the solver has answered UNKNOWN to an entailment check. *)
Record gst := mkGS { g_nodes : list gnode; g_preds : sym -> list term; g_cov : list (nat * nat); g_unk : bool }.
Definition uedge := (hedge * list nat)%type.
(** A node of [InterpolationTree] (src/engine/ArgBasedEngine.cc:217-224); [t_arg] is the ARG node it was made for. *)
Record tnode := mkTN { t_parent : option nat; t_edge : hedge; t_arg : nat }.

(** The flag of [ASafe] is the ghost [g_unk] of the last state. *)
Inductive ares := ASafe (unk : bool) (w : option defs_t) | AUnsafe (d : option derivation) | AThrow | AFuel.

Definition mem_term (t : term) (l : list term) : bool := existsb (term_eqb t) l.
(** Insertion into a [std::set]. *)
Definition add_terms (l l' : list term) : list term := fold_left (fun acc t => if mem_term t acc then acc else acc ++ [t]) l' l.
(** [isCoveredByExistingInstance] (src/engine/ArgBasedEngine.cc:184-192): the tests of sizes follow from the inclusion. *)
Definition covers (existing candidate : list term) : bool := forallb (fun t => mem_term t candidate) existing.

Section Arg.
Variable c : ctors.
Variable check : check_fn.
Variable titp : titp_fn.
(** The orders in which sets and hash maps are traversed. *)
Variable ord : list term -> list term.
Variable cord : list (nat * nat) -> list (nat * nat).
Variable computeWitness : bool.
Variable g : hgraph.

Definition nd (st : gst) (i : nat) : gnode := nth i (g_nodes st) root_node.
Definition nsym (st : gst) (i : nat) : sym := n_sym (nd st i).
(** [getInstancesFor] (src/engine/ArgBasedEngine.cc:163-167). *)
Definition insts (st : gst) (p : sym) : list nat := filter (fun i => Nat.eqb (nsym st i) p) (seq 0 (length (g_nodes st))).
Definition gcovered (st : gst) (i : nat) : bool := existsb (fun x => Nat.eqb (fst x) i) (g_cov st).
(** [asSingleFormula] (src/engine/ArgBasedEngine.cc:60-68). *)
Definition reached (st : gst) (i : nat) : term := cand c (ord (n_preds (nd st i))).
(** The states of the sources of an edge, versioned (src/engine/ArgBasedEngine.cc:339-346, 825-835). *)
Definition src_states (st : gst) (srcs : list nat) : list term :=
  map (fun x => rename (src (snd (snd x))) (reached st (fst x))) (combine srcs (instances (map (nsym st) srcs))).
(** [Checker::isFeasible] (src/engine/ArgBasedEngine.cc:337-351). *)
Definition feasible (st : gst) (e : hedge) (srcs : list nat) : bool :=
  match check (efla e :: src_states st srcs) with UNSAT => false | _ => true end.
(** [computePropagatedPredicates] (src/engine/ArgBasedEngine.cc:820-846). *)
Definition propagated (st : gst) (cands : list term) (srcs : list nat) (fla : term) : list term :=
  map (rename base) (one_by_one check (fla :: src_states st srcs) (map (rename tgt) cands)).
(** Ghost: one of these checks is answered UNKNOWN. *)
Definition undecided (st : gst) (cands : list term) (srcs : list nat) (fla : term) : bool :=
  existsb (fun q => match check ((fla :: src_states st srcs) ++ [mkNot q]) with UNKNOWN => true | _ => false end) (map (rename tgt) cands).

(** [tryInsertNode] (src/engine/ArgBasedEngine.cc:131-145) and [addEdge] (:147-150). *)
Definition insert_node (st : gst) (e : hedge) (srcs : list nat) (preds : list term) (unk : bool) : gst * bool :=
  let id := length (g_nodes st) in
  let ns := g_nodes st ++ [mkGN (eto e) preds e srcs] in
  match find (fun i => covers (n_preds (nd st i)) preds) (insts st (eto e)) with
  | Some i => (mkGS ns (g_preds st) (g_cov st ++ [(id, i)]) (g_unk st || unk), true)
  | None => (mkGS ns (g_preds st) (g_cov st) (g_unk st || unk), false)
  end.
(** [computeTarget] (src/engine/ArgBasedEngine.cc:435-441). *)
Definition compute_target (st : gst) (e : hedge) (srcs : list nat) : gst * bool :=
  let cands := ord (g_preds st (eto e)) in
  insert_node st e srcs (add_terms [] (propagated st cands srcs (efla e))) (undecided st cands srcs (efla e)).

(** ** The queue (src/engine/ArgBasedEngine.cc:263-277, 723-751) *)
Definition enqueue (q : list uedge) (x : uedge) : list uedge := if Nat.eqb (eto (fst x)) exit then x :: q else q ++ [x].
Fixpoint nats_eqb (a b : list nat) : bool :=
  match a, b with [], [] => true | x :: a', y :: b' => Nat.eqb x y && nats_eqb a' b' | _, _ => false end.
Definition queued (q : list uedge) (x : uedge) : bool := existsb (fun y => Nat.eqb (eid (fst y)) (eid (fst x)) && nats_eqb (snd y) (snd x)) q.
(** The tuples of instances (src/engine/ArgBasedEngine.cc:315-325, 418-425). *)
Fixpoint tuples (l : list (list nat)) : list (list nat) :=
  match l with [] => [[]] | xs :: l' => flat_map (fun x => map (cons x) (tuples l')) xs end.
(** [computeNewUnprocessedEdges] (src/engine/ArgBasedEngine.cc:401-433). *)
Definition uncovered_insts (st : gst) (p : sym) : list nat := filter (fun i => negb (gcovered st i)) (insts st p).
Definition outs (p : sym) : list hedge := flat_map (fun i => match hfind g i with Some e => [e] | None => [] end) (out_edges g p).
Definition new_edges (st : gst) (v : nat) (q : list uedge) : list uedge :=
  fold_left (fun q e =>
    fold_left (fun q srcs => if existsb (Nat.eqb v) srcs && negb (queued q (e, srcs)) then enqueue q (e, srcs) else q)
      (tuples (map (uncovered_insts st) (efrom e))) q)
    (outs (nsym st v)) q.

(** ** The interpolation tree *)
Definition kids (T : list tnode) (i : nat) : list nat :=
  filter (fun j => match nth_error T j with Some n => match t_parent n with Some p => Nat.eqb p i | None => false end | None => false end) (seq 0 (length T)).
(** [InterpolationTree::make] (src/engine/ArgBasedEngine.cc:529-555); the head of the list is the top of the stack. *)
Fixpoint make_loop (fuel : nat) (st : gst) (T : list tnode) (stack : list (nat * nat)) : option (list tnode) :=
  match fuel with
  | O => None
  | S f =>
    match stack with
    | [] => Some T
    | (a, p) :: s' =>
      if Nat.eqb a 0 then make_loop f st T s'
      else make_loop f st (T ++ [mkTN (Some p) (n_edge (nd st a)) a]) (map (fun x => (x, length T)) (n_srcs (nd st a)) ++ s')
    end
  end.
Definition make_tree (fuel : nat) (st : gst) (e : hedge) (srcs : list nat) : option (list tnode) :=
  make_loop fuel st [mkTN None e 0] (map (fun x => (x, 0)) srcs).
(** The predicate of a node. *)
Definition t_sym (T : list tnode) (i : nat) : sym := match nth_error T i with Some n => eto (t_edge n) | None => entry end.
(** [computeLabels] (src/engine/ArgBasedEngine.cc:557-622): the numbering of the instances of the predicates.  [cnt] is
    [symbolEncountered], [ver] gives the version of the node's instance. *)
Definition assign (T : list tnode) (acc : (sym -> nat) * (nat -> option nat)) (k : nat) : (sym -> nat) * (nat -> option nat) :=
  let (cnt, ver) := acc in let p := t_sym T k in
  (fun q => if Nat.eqb q p then S (cnt p) else cnt q, fun j => if Nat.eqb j k then Some (cnt p) else ver j).
Fixpoint ver_loop (fuel : nat) (T : list tnode) (stack : list nat) (acc : (sym -> nat) * (nat -> option nat)) : option (nat -> option nat) :=
  match fuel with
  | O => None
  | S f =>
    match stack with
    | [] => Some (snd acc)
    | i :: s' => ver_loop f T (rev (kids T i) ++ s') (fold_left (assign T) (kids T i) acc)
    end
  end.
Definition versions (fuel : nat) (T : list tnode) : option (nat -> option nat) := ver_loop fuel T [0] (fun _ => 0, fun _ => None).
(** The version of a variable ([getVarVersionZero], [sendVarThroughTime], src/engine/ArgBasedEngine.cc:592-593, 612-613). *)
Definition at_ver (k : nat) (v : var) : var := mkVar (vbase v) (TTime (Z.of_nat k)) (vsort v).
Definition ver_of (ver : nat -> option nat) (i : nat) : nat := match ver i with Some k => k | None => 0 end.
(** The arguments of the instance of a node ([nodeToSymbolInstance]). *)
Definition inst_vars (ver : nat -> option nat) (T : list tnode) (i : nat) : list var := map (at_ver (ver_of ver i)) (gpv g (t_sym T i)).
(** The substitution of a node (src/engine/ArgBasedEngine.cc:574-615). *)
Definition label_sub (ver : nat -> option nat) (T : list tnode) (i : nat) (e : hedge) : list (var * var) :=
  map (fun b => (tgt b, at_ver (ver_of ver i) b)) (gpv g (eto e)) ++
  flat_map (fun x => map (fun b => (src (snd (snd x)) b, at_ver (ver_of ver (fst x)) b)) (gpv g (fst (snd x)))) (combine (kids T i) (instances (efrom e))).
Fixpoint assoc (v : var) (l : list (var * var)) : option var :=
  match l with [] => None | (a, b) :: l' => if var_eqb v a then Some b else assoc v l' end.
Definition label_ren (ver : nat -> option nat) (T : list tnode) (i : nat) (e : hedge) (v : var) : var :=
  match assoc v (label_sub ver T i e) with Some w => w | None => at_ver i v end.
Definition label (ver : nat -> option nat) (T : list tnode) (i : nat) (n : tnode) : term := rename (label_ren ver T i (t_edge n)) (efla (t_edge n)).
Definition labels (ver : nat -> option nat) (T : list tnode) : list term := map (fun x => label ver T (fst x) (snd x)) (combine (seq 0 (length T)) T).

(** ** Refinement *)
(** The predicates learnt (src/engine/ArgBasedEngine.cc:453-464). *)
Definition learnt (T : list tnode) (Is : list term) : list (sym * term) :=
  flat_map (fun x => match t_parent (fst x) with
                     | None => []
                     | Some _ => if term_eqb (snd x) tt_true then [] else [(eto (t_edge (fst x)), rename base (snd x))]
                     end) (combine T Is).
Definition info (l : list (sym * term)) (p : sym) : list term := add_terms [] (map snd (filter (fun x => Nat.eqb (fst x) p) l)).
Fixpoint set_nth {A} (i : nat) (x : A) (l : list A) : list A :=
  match l, i with [], _ => [] | _ :: l', O => x :: l' | y :: l', S j => y :: set_nth j x l' end.
Definition set_preds (st : gst) (i : nat) (preds : list term) (unk : bool) : gst :=
  let n := nd st i in mkGS (set_nth i (mkGN (n_sym n) preds (n_edge n) (n_srcs n)) (g_nodes st)) (g_preds st) (g_cov st) (g_unk st || unk).
(** [ARG::refine] (src/engine/ArgBasedEngine.cc:753-793), one node; [ch] is [changed]. *)
Definition refine_node (inf : sym -> list term) (acc : gst * list nat) (i : nat) : gst * list nat :=
  let (st, ch) := acc in
  let n := nd st i in
  let srcch := existsb (fun s => existsb (Nat.eqb s) ch) (n_srcs n) in
  let old := g_preds st (n_sym n) in
  let cands := filter (fun t => negb (mem_term t old)) (inf (n_sym n)) ++ (if srcch then filter (fun t => negb (mem_term t (n_preds n))) old else []) in
  match cands with
  | [] => (st, ch)
  | _ =>
    let imp := propagated st (ord cands) (n_srcs n) (efla (n_edge n)) in
    (set_preds st i (add_terms (n_preds n) imp) (undecided st (ord cands) (n_srcs n) (efla (n_edge n))), match imp with [] => ch | _ => i :: ch end)
  end.
Definition refine_nodes (inf : sym -> list term) (st : gst) : gst :=
  fst (fold_left (refine_node inf) (seq 1 (length (g_nodes st) - 1)) (st, [])).
Definition refine_arg (inf : sym -> list term) (st : gst) : gst :=
  let st' := refine_nodes inf st in mkGS (g_nodes st') (fun p => add_terms (g_preds st' p) (inf p)) (g_cov st') (g_unk st').
(** [recheckCoveredNodes] (src/engine/ArgBasedEngine.cc:795-818). *)
Definition still_covered (st : gst) (x : nat * nat) : bool := covers (n_preds (nd st (snd x))) (n_preds (nd st (fst x))).
Definition other_coverer (st : gst) (v : nat) : option nat :=
  find (fun o => negb (Nat.eqb o v) && negb (gcovered st o) && covers (n_preds (nd st o)) (n_preds (nd st v))) (insts st (nsym st v)).
Definition recheck1 (st : gst) (x : nat * nat) : option (nat * nat) :=
  if still_covered st x then Some x else option_map (fun o => (fst x, o)) (other_coverer st (fst x)).
Definition recheck (st : gst) : gst * list nat :=
  (mkGS (g_nodes st) (g_preds st) (flat_map (fun x => match recheck1 st x with Some y => [y] | None => [] end) (g_cov st)) (g_unk st),
   flat_map (fun x => match recheck1 st x with Some _ => [] | None => [fst x] end) (cord (g_cov st))).
(** [Algorithm::refine] (src/engine/ArgBasedEngine.cc:468-477). *)
Definition refine (inf : sym -> list term) (st : gst) (q : list uedge) : gst * list uedge :=
  let (st', un) := recheck (refine_arg inf st) in (st', fold_left (fun q v => new_edges st' v q) un q).

(** ** Counterexamples *)
(** [computeInvalidityWitness] (src/engine/ArgBasedEngine.cc:479-523): the steps, the steps of the facts, the premises collected for
    the parents; the nodes are visited from the last to the first. *)
Definition node_fact (ver : nat -> option nat) (T : list tnode) (m : valuation) (i : nat) : fact := (t_sym T i, args m (inst_vars ver T i)).
Fixpoint build (ver : nat -> option nat) (T : list tnode) (m : valuation) (is : list nat) (d : derivation) (ds : list (fact * nat)) (pm : nat -> list nat) : derivation :=
  match is with
  | [] => d
  | i :: is' =>
    let f := node_fact ver T m i in
    let '(d', ds', k) :=
      match step_of ds f with
      | Some k => (d, ds, k)
      | None =>
        let k := length d in
        let clause := match nth_error T i with Some n => eid (t_edge n) | None => no_id end in
        (d ++ [mkStep (match pm i with [] => [0] | l => l end) f clause], ds ++ [(f, k)], k)
      end in
    let pm' := match nth_error T i with
               | Some n => match t_parent n with Some p => fun j => if Nat.eqb j p then k :: pm p else pm j | None => pm end
               | None => pm
               end in
    build ver T m is' d' ds' pm'
  end.
Definition arg_witness (ver : nat -> option nat) (T : list tnode) (m : valuation) : derivation :=
  build ver T m (rev (seq 0 (length T))) [mkStep [] (entry, []) no_id] [((entry, []), 0)] (fun _ => []).

(** [isRealProof] (src/engine/ArgBasedEngine.cc:443-466), [InterpolationTree::solve] (:624-655). *)
Inductive proof_res := PReal (d : option derivation) | PSpurious (inf : sym -> list term) | PGaveUp | PFuel.
Definition real_proof (fuel : nat) (st : gst) (e : hedge) (srcs : list nat) : proof_res :=
  match make_tree fuel st e srcs with
  | None => PFuel
  | Some T =>
    match versions fuel T with
    | None => PFuel
    | Some ver =>
      let ls := labels ver T in
      match check ls with
      | SAT m => PReal (if computeWitness then Some (arg_witness ver T m) else None)
      | UNSAT =>
        match titp (combine (map t_parent T) ls) with
        | Some Is => PSpurious (info (learnt T Is))
        | None => PGaveUp
        end
      | UNKNOWN => PGaveUp
      end
    end
  end.

(** ** The main loop *)
(** The invariants (src/engine/ArgBasedEngine.cc:383-397). *)
Definition arg_defs (st : gst) : defs_t := fun p =>
  if Nat.eqb p entry then Some tt_true
  else if Nat.eqb p exit then Some tt_false
  else if smem p (hnodes g) then Some (cor c (map (reached st) (insts st p))) else None.
(** [Algorithm::run] (src/engine/ArgBasedEngine.cc:357-399). *)
Fixpoint arg_loop (fuel : nat) (st : gst) (q : list uedge) : ares :=
  match fuel with
  | O => AFuel
  | S f =>
    match q with
    | [] => ASafe (g_unk st) (if computeWitness then Some (arg_defs st) else None)
    | (e, srcs) :: q' =>
      if negb (feasible st e srcs) then arg_loop f st q'
      else if Nat.eqb (eto e) exit then
        match real_proof f st e srcs with
        | PReal d => AUnsafe d
        | PSpurious inf => let (st', q'') := refine inf st q' in arg_loop f st' q''
        | PGaveUp => AThrow
        | PFuel => AFuel
        end
      else
        let (st', covd) := compute_target st e srcs in
        arg_loop f st' (if covd then q' else new_edges st' (length (g_nodes st)) q')
    end
  end.
(** The initial state (src/engine/ArgBasedEngine.cc:286-293). *)
Definition arg_init : gst := mkGS [root_node] (fun _ => []) [] false.
Definition arg_run (fuel : nat) : ares := arg_loop fuel arg_init (fold_left (fun q e => enqueue q (e, [0])) (outs entry) []).
End Arg.

(** [ARGBasedEngine::solve] (src/engine/ArgBasedEngine.cc:715-721) for a logic without arrays. *)
Definition arg_engine (c : ctors) (check : check_fn) (titp : titp_fn) (ord : list term -> list term) (cord : list (nat * nat) -> list (nat * nat))
    (elim : elim_fn) (computeWitness : bool) (fuel : nat) (g : hgraph) : ares :=
  arg_run c check titp ord cord computeWitness (clean elim g) fuel.
