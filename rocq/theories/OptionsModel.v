(** * The command line: [CommandLineParser::parse] (src/Options.cc:74-188) on the sequence of options that getopt_long delivers. *)
From Coq Require Import List String ZArith Bool.
Import ListNotations.
From Verif Require Import Names.
Open Scope string_scope.
Open Scope list_scope.

(** What getopt_long returns, in order, with the option's argument ([None]: an optional argument that is absent); [OBad]: an unknown option, or a
    required argument that is absent ('?').  Long and short names of the same option are one case, but for -v and --verbose. *)
Inductive token :=
| OHelp | OVersion | OBad
| OEngine (a : string) | OLogic (a : string) | OInput (a : string) | OFlow (a : string) | OProof (a : string) | OBackend (a : string)
| OValidate | OPrintWitness | OForceTS | OSimplifyNested
| OComputeWitness (a : option string) | OForcedCovering (a : option string) | OUseQE (a : option string)
| OLraItp (a : string) | OVerbose (a : option string) | OV.

(** The map of class Options (src/Options.h:16-38): [emplace] keeps the first value of a key. *)
Definition opts := list (string * string).
Definition get (o : opts) (k : string) : option string := option_map snd (find (fun p => String.eqb (fst p) k) o).
Definition add (o : opts) (k v : string) : opts := match get o k with Some _ => o | None => o ++ [(k, v)] end.

(** The local variables of the function. *)
Record pst := mkP { p_opts : opts; p_validate : bool; p_print : bool; p_compute : bool; p_lra : Z; p_forced : bool; p_verbose : Z; p_useqe : bool; p_force : bool; p_simplify : bool }.
(** [PNull]: std::atoi is applied to a null pointer (an assertion excludes it), undefined behaviour. *)
Inductive presult := PDone (o : opts) | PExit (code : nat) | PAbort | PNull.

(** Lines 69-71. *)
Definition disable_keyword (w : string) : bool := String.eqb w "no" || String.eqb w "false" || String.eqb w "disable".
Section Parse.
Variable atoi : string -> Z.
(** Lines 107-167.  getopt_long itself stores the value of the table into a flag before the switch is entered; [int] is unbounded here. *)
Definition pstep (s : pst) (t : token) : pst + presult :=
  let with_opt k v := inl (mkP (add (p_opts s) k v) (p_validate s) (p_print s) (p_compute s) (p_lra s) (p_forced s) (p_verbose s) (p_useqe s) (p_force s) (p_simplify s)) in
  let with_compute b := inl (mkP (p_opts s) (p_validate s) (p_print s) b (p_lra s) (p_forced s) (p_verbose s) (p_useqe s) (p_force s) (p_simplify s)) in
  let with_forced b := inl (mkP (p_opts s) (p_validate s) (p_print s) (p_compute s) (p_lra s) b (p_verbose s) (p_useqe s) (p_force s) (p_simplify s)) in
  let with_verbose n := inl (mkP (p_opts s) (p_validate s) (p_print s) (p_compute s) (p_lra s) (p_forced s) n (p_useqe s) (p_force s) (p_simplify s)) in
  match t with
  | OHelp | OVersion => inr (PExit 0)
  | OBad => inr PAbort
  | OEngine a => with_opt "engine" a
  | OLogic a => with_opt "logic" a
  | OInput a => with_opt "input" a
  | OFlow a => with_opt "flow" a
  | OProof a => with_opt "proof-format" a
  | OBackend a => with_opt "termination-backend" a
  | OValidate => inl (mkP (p_opts s) true (p_print s) (p_compute s) (p_lra s) (p_forced s) (p_verbose s) (p_useqe s) (p_force s) (p_simplify s))
  | OPrintWitness => inl (mkP (p_opts s) (p_validate s) true (p_compute s) (p_lra s) (p_forced s) (p_verbose s) (p_useqe s) (p_force s) (p_simplify s))
  | OForceTS => inl (mkP (p_opts s) (p_validate s) (p_print s) (p_compute s) (p_lra s) (p_forced s) (p_verbose s) (p_useqe s) true (p_simplify s))
  | OSimplifyNested => inl (mkP (p_opts s) (p_validate s) (p_print s) (p_compute s) (p_lra s) (p_forced s) (p_verbose s) (p_useqe s) (p_force s) true)
  | OComputeWitness a => with_compute (match a with Some w => negb (disable_keyword w) | None => true end)
  | OForcedCovering a => with_forced (match a with Some w => negb (disable_keyword w) | None => true end)
  | OUseQE _ => inl (mkP (p_opts s) (p_validate s) (p_print s) (p_compute s) (p_lra s) (p_forced s) (p_verbose s) true (p_force s) (p_simplify s))
  | OLraItp a => inl (mkP (p_opts s) (p_validate s) (p_print s) (p_compute s) (atoi a) (p_forced s) (p_verbose s) (p_useqe s) (p_force s) (p_simplify s))
  | OVerbose (Some a) => with_verbose (atoi a)
  | OVerbose None => inr PNull
  | OV => with_verbose (p_verbose s + 1)%Z
  end.
Fixpoint ploop (s : pst) (ts : list token) : pst + presult :=
  match ts with
  | [] => inl s
  | t :: ts' => match pstep s t with inl s' => ploop s' ts' | inr r => inr r end
  end.
(** Lines 76-86. *)
Definition pinit : pst := mkP [] false false false 0 false 0 false false false.
Definition add_if (b : bool) (o : opts) (k : string) : opts := if b then add o k "true" else o.
(** Lines 168-187; [rest]: the arguments that are not options. *)
Definition pfinish (s : pst) (rest : list string) : presult :=
  let finish o :=
    let o := add_if (p_validate s) o "validate" in
    let o := add_if (p_print s) o "print-witness" in
    let o := add_if (p_validate s || p_compute s || p_print s) o "compute-witness" in
    let o := add_if (p_forced s) o "forced-covering" in
    let o := add_if (p_useqe s) o "tpa.use-qe" in
    let o := add_if (p_force s) o "force-ts" in
    let o := add_if (p_simplify s) o "simplify-nested" in
    PDone (add (add o "lra-itp-algorithm" (to_string (p_lra s))) "verbose" (to_string (p_verbose s))) in
  match rest with
  | [] => finish (p_opts s)
  | [f] => match get (p_opts s) "input" with Some _ => PExit 1 | None => finish (add (p_opts s) "input" f) end
  | _ => PExit 1
  end.
Definition parse (ts : list token) (rest : list string) : presult :=
  match ploop pinit ts with inl s => pfinish s rest | inr r => r end.
End Parse.
