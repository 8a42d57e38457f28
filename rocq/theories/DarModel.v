(** * Model of src/engine/DAR.cc (dual approximated reachability). *)
From Verif Require Import Syntax Solver TransSys TSLemmas KTo1Model KindModel.

(** Element [i] of a sequence of formulas; the C++ code indexes only existing elements
    (asserted, src/engine/DAR.cc:152, 187-188). *)
Definition el (l : list term) (i : nat) : term := nth i l tt_false.

Fixpoint set_el (l : list term) (i : nat) (t : term) : list term :=
  match l, i with
  | [], _ => []
  | _ :: l', O => t :: l'
  | x :: l', S i' => x :: set_el l' i' t
  end.

Definition bind {A B} (x : res A) (f : A -> res B) : res B :=
  match x with Ok a => f a | Throw => Throw end.

Section M.
Variable check : check_fn.
Variable itp : itp_fn.
Variable pitp : pitp_fn.
Variable ts : tsys.

(** The query of [interpolateForward]/[interpolateBackward]
    (src/engine/DAR.cc:186-193, 205-212). *)
Definition pair_query (f b : term) : list term := [f; ttrans ts; shift 1 b].

(** [interpolateForward] (src/engine/DAR.cc:183-200): mask 3 selects [f] and the transition. *)
Definition interpolate_forward (n fi : nat) (F B : list term) : res term :=
  let f := el F fi in let b := el B (n - fi) in
  match check (pair_query f b) with
  | UNSAT => match itp [f; ttrans ts] [shift 1 b] with Some j => Ok j | None => Throw end
  | _ => Throw
  end.

(** [interpolateBackward] (src/engine/DAR.cc:202-219): mask 6 selects the transition and [b]. *)
Definition interpolate_backward (n bi : nat) (F B : list term) : res term :=
  let f := el F (n - bi) in let b := el B bi in
  match check (pair_query f b) with
  | UNSAT => match itp [ttrans ts; shift 1 b] [f] with Some j => Ok j | None => Throw end
  | _ => Throw
  end.

(** First loop of [iterativeLocalStrengthening] (src/engine/DAR.cc:125-130);
    [cnt] is the number of remaining iterations, [n - fi]. *)
Fixpoint strengthen_fwd (cnt n fi : nat) (F B : list term) : res (list term) :=
  match cnt with
  | O => Ok F
  | S cnt' =>
    bind (interpolate_forward n fi F B) (fun j =>
    strengthen_fwd cnt' n (S fi) (set_el F (S fi) (mkAnd [el F (S fi); shift (-1) j])) B)
  end.

(** Second loop (src/engine/DAR.cc:133-137). *)
Fixpoint strengthen_bwd (cnt n bi : nat) (F B : list term) : res (list term) :=
  match cnt with
  | O => Ok B
  | S cnt' =>
    bind (interpolate_backward n bi F B) (fun j =>
    strengthen_bwd cnt' n (S bi) F (set_el B (S bi) (mkAnd [el B (S bi); j])))
  end.

(** [iterativeLocalStrengthening] (src/engine/DAR.cc:122-139). *)
Definition local_strengthening (n fi : nat) (F B : list term) : res (list term * list term) :=
  bind (strengthen_fwd (n - fi) n fi F B) (fun F1 =>
  bind (interpolate_forward n n F1 B) (fun j =>
  let F2 := F1 ++ [shift (-1) j] in
  bind (strengthen_bwd (n - (n - fi)) n (n - fi) F2 B) (fun B1 =>
  bind (interpolate_backward n n F2 B1) (fun j' => Ok (F2, B1 ++ [j']))))).

(** The index search of [localStrengthen] (src/engine/DAR.cc:108-116). *)
Definition local_index (n : nat) (F B : list term) : option nat :=
  match find (fun j => is_unsat (check [mkAnd [el F (n - j); ttrans ts; shift 1 (el B j)]])) (seq 0 n) with
  | Some j => Some (n - j)%nat
  | None => None
  end.

(** Solver content at iteration [i] of [globalStrengthen] (src/engine/DAR.cc:145-153, 177-178). *)
Definition global_query (n i : nat) (B : list term) : list term :=
  tinit ts :: trans_at (ttrans ts) 0 i ++ [shift (Z.of_nat i) (el B (n + 1 - i))].

(** The masks of src/engine/DAR.cc:157-165 as partitions of the solver content: {init, T},
    {T@1}, .., {T@(i-1)}, {B@i}; the last two are joined when [i = n+1]. *)
Definition global_parts (n i : nat) (B : list term) : list (list term) :=
  let last := shift (Z.of_nat i) (el B (n + 1 - i)) in
  if Nat.eqb i (n + 1)
  then [tinit ts; ttrans ts] :: map (fun t => [t]) (trans_at (ttrans ts) 1 (i - 2))
         ++ [[shift (Z.of_nat (i - 1)) (ttrans ts); last]]
  else [tinit ts; ttrans ts] :: map (fun t => [t]) (trans_at (ttrans ts) 1 (i - 1)) ++ [[last]].

(** src/engine/DAR.cc:168-173. *)
Fixpoint strengthen_itps (k : nat) (js : list term) (F : list term) : list term :=
  match js with
  | [] => F
  | j :: js' => strengthen_itps (S k) js' (set_el F k (mkAnd [el F k; shift (- Z.of_nat k) j]))
  end.

Inductive global_result :=
| GStrengthened (F B : list term)   (* returned true *)
| GFailed (unknown_last : bool)     (* returned false; the ghost: the last query was UNKNOWN *)
| GExn.

(** The loop of [globalStrengthen] (src/engine/DAR.cc:149-179) from iteration [i]. *)
Fixpoint global_loop (cnt i n : nat) (F B : list term) (u : bool) : global_result :=
  match cnt with
  | O => GFailed u
  | S cnt' =>
    match check (global_query n i B) with
    | UNSAT =>
      match pitp (global_parts n i B) with
      | None => GExn
      | Some js =>
        match local_strengthening n (i - 1) (strengthen_itps 1 js F) B with
        | Ok (F', B') => GStrengthened F' B'
        | Throw => GExn
        end
      end
    | a => global_loop cnt' (S i) n F B (is_unknown a)
    end
  end.
Definition global_strengthen (n : nat) (F B : list term) : global_result :=
  match n with O => GFailed true | S _ => global_loop n 2 n F B true end.

(** [checkSequence] and [fixpoint] (src/engine/DAR.cc:227-262). *)
Definition check_sequence (L : list term) : option nat :=
  find (fun i => is_unsat (check [mkAnd [el L i; mkNot (mkOr (firstn i L))]])) (seq 1 (length L - 1)).
Definition fixpoint (F B : list term) : option term :=
  match check_sequence F with
  | Some i => Some (mkOr (firstn i F))
  | None => match check_sequence B with
            | Some i => Some (mkNot (mkOr (firstn i B)))
            | None => None
            end
  end.

(** The main loop (src/engine/DAR.cc:87-100). *)
Fixpoint dar_loop (fuel n : nat) (F B : list term) : verdict * bool :=
  match fuel with
  | O => (Fuel, false)
  | S fuel' =>
    let continue (F B : list term) :=
      match fixpoint F B with
      | Some inv => (Safe inv, false)
      | None => dar_loop fuel' (S n) F B
      end in
    match local_index n F B with
    | Some fi =>
      match local_strengthening n fi F B with
      | Ok (F', B') => continue F' B'
      | Throw => (Exn, false)
      end
    | None =>
      match global_strengthen n F B with
      | GStrengthened F' B' => continue F' B'
      | GFailed u => (Unsafe (n + 1), u)
      | GExn => (Exn, false)
      end
    end
  end.

(** [DualApproximatedReachability::run] (src/engine/DAR.cc:62-101). *)
Definition dar_run (fuel : nat) : verdict * bool :=
  match check [tinit ts; ttrans ts; shift 1 (tquery ts)] with
  | SAT _ => (Unsafe 1, false)
  | UNKNOWN => (Unknown, false)
  | UNSAT =>
    match itp [tinit ts; ttrans ts] [shift 1 (tquery ts)],
          itp [ttrans ts; shift 1 (tquery ts)] [tinit ts] with
    | Some f, Some b => dar_loop fuel 1 [tinit ts; shift (-1) f] [tquery ts; b]
    | _, _ => (Exn, false)
    end
  end.

(** [DAR::solve] (src/engine/DAR.cc:49-60).  The ghost flag is set when an UNKNOWN answer
    that matters was not treated as such: the one for "Init and Query" (line 54) or the last one
    of [globalStrengthen] (line 154).  Arrays are not modelled. *)
Definition dar (fuel : nat) : verdict * bool :=
  match check [tinit ts; tquery ts] with
  | SAT _ => (Unsafe 0, false)
  | a => let (v, u) := dar_run fuel in (v, is_unknown a || u)%bool
  end.
End M.
