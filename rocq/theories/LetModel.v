(** * [TermUtils::printTermWithLets] (src/TermUtils.cc:155-217). *)
From Coq Require Import List Ascii String Bool Arith Lia.
Import ListNotations.
From Verif Require Import Syntax SExprModel.
Open Scope list_scope.
Open Scope nat_scope.

Definition txt (s : string) : text := list_ascii_of_string s.
Definition children (t : term) : list term := match t with App _ l => l | _ => [] end.
Definition tmem (t : term) (l : list term) : bool := existsb (term_eqb t) l.
Definition is_junction (t : term) : bool := match t with App FAnd _ | App FOr _ => true | _ => false end.

Section Print.
(** OpenSMT's [printSym] / [printTerm] for leaves and symbols, and [toLetId] (162): "l" and the number of the term. *)
Variable leaf_text : term -> text.
Variable sym_text : fsym -> text.
Variable let_id : term -> text.

(** The loop that computes [dfsOrder] (165-181).  The back of [queue] is the head of the list; an entry is a node and
    [treatAsParent]. *)
Fixpoint dfs (fuel : nat) (queue : list (term * bool)) (visited order : list term) : option (list term) :=
  match fuel with
  | O => None
  | S f =>
    match queue with
    | [] => Some order
    | (node, true) :: q => dfs f q visited (order ++ [node])
    | (node, false) :: q =>
      let visited := node :: visited in
      dfs f (fold_left (fun q c => if tmem c visited then q else (c, false) :: q) (children node) ((node, true) :: q)) visited order
    end
  end.

(** [strRepr] (183) *)
Definition reprs := list (term * text).
Definition rfind (t : term) (m : reprs) : option text := option_map snd (find (fun p => term_eqb (fst p) t) m).
(** [insert] does not overwrite. *)
Definition rinsert (t : term) (x : text) (m : reprs) : reprs := match rfind t m with Some _ => m | None => (t, x) :: m end.
(** The children separated by blanks (196-199); [None]: [at] throws. *)
Fixpoint child_texts (m : reprs) (l : list term) : option text :=
  match l with
  | [] => Some []
  | c :: l' => match rfind c m, child_texts m l' with Some x, Some y => Some (x ++ cSpace :: y) | _, _ => None end
  end.
(** [toStr] (185-202) *)
Definition to_str (m : reprs) (t : term) : option text :=
  match t, children t with
  | App f _, c :: l => option_map (fun x => cOpen :: sym_text f ++ cSpace :: x ++ [cClose]) (child_texts m (c :: l))
  | _, _ => Some (leaf_text t)
  end.
Definition let_head (i repr : text) : text := txt "(let ((" ++ i ++ cSpace :: repr ++ txt "))".
(** The loop that prints (204-215). *)
Fixpoint print_loop (order : list term) (out : text) (m : reprs) (count : nat) : option (text * reprs * nat) :=
  match order with
  | [] => Some (out, m, count)
  | t :: order' =>
    match to_str m t with
    | None => None
    | Some actual =>
      if is_junction t then print_loop order' (out ++ let_head (let_id t) actual) (rinsert t (let_id t) m) (S count)
      else print_loop order' out (rinsert t actual m) count
    end
  end.
Definition print_with_lets (fuel : nat) (root : term) : option text :=
  match dfs fuel [(root, false)] [] [] with
  | None => None
  | Some order =>
    match print_loop order [] [] 0 with
    | None => None
    | Some (out, m, count) => option_map (fun x => out ++ x ++ repeat cClose count) (rfind root m)
    end
  end.
End Print.

(** ** Specification *)
(** The plain S-expression of a term. *)
Section Spec.
Variable leaf : term -> sexpr.
Variable sym_text : fsym -> text.
Fixpoint plain_sexpr (t : term) : sexpr :=
  match t with
  | App f (c :: l) => SList (Atom (sym_text f) :: map plain_sexpr (c :: l))
  | _ => leaf t
  end.
End Spec.
Definition text_eqb (a b : text) : bool := if list_eq_dec ascii_dec a b then true else false.
Definition bindings := list (text * sexpr).
Definition blookup (a : text) (env : bindings) : option sexpr := option_map snd (find (fun p => text_eqb (fst p) a) env).
(** Expanding let-bindings as SMT-LIB defines them: [(let ((x e)) b)] stands for [b] with [x] replaced by [e]; the first
    element of another list is a function symbol. *)
Fixpoint expand (env : bindings) (e : sexpr) : sexpr :=
  match e with
  | Atom a => match blookup a env with Some x => x | None => Atom a end
  | SList [] => SList []
  | SList (f :: l) =>
    match f, l with
    | Atom k, [SList [SList [Atom x; d]]; b] =>
      if text_eqb k (txt "let") then expand ((x, expand env d) :: env) b else SList (f :: map (expand env) l)
    | _, _ => SList (f :: map (expand env) l)
    end
  end.
(** Subterms. *)
Inductive subterm (t : term) : term -> Prop :=
| sub_refl : subterm t t
| sub_child c u : In c (children u) -> subterm t c -> subterm t u.
