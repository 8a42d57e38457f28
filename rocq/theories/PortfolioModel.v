(** * The engine portfolio and the termination portfolio.

    Models [ChcInterpreterContext::solveWithMultipleEngines] and
    [interpretCheckSat] (src/ChcInterpreter.cc:472-556) and
    [multiMethodSolve] (src/termination/Frontend.cc:384-432): the parent
    forks one process for every engine, the first child that comes to a
    definite answer claims a shared word with compare-and-swap, prints the
    answer, does the witness work and exits with code 0; the parent waits,
    and kills the remaining children once a child exited with code 0.

    The operating system is modelled as an interleaving semantics: [exec]
    performs one atomic action of one process, and a run is an arbitrary
    list of actions.  At any point a child may crash ([ACrash]) and a fork
    may fail ([AFork false]).  Every process has its own buffer of standard
    output, copied by fork, written to the shared standard output by a flush
    (std::endl) and by a regular exit.

    Simplifications: engines are an oracle [e_verdict] (their computation is
    the subject of the other files); a process identifier is the index of the
    child (no reuse of identifiers after [wait]); [wait] interrupted by a
    signal (EINTR) repeats without effect and is not a step; a witness is
    written line by line. *)
From Coq Require Import Ascii String List Arith Bool Lia.
Import ListNotations.
Local Open Scope string_scope.
Local Open Scope list_scope.

(** What the call [solve(engines[i], *hyperGraph)] of one child does:
    a definite answer together with the text printed for it (printAnswer,
    ChcInterpreter.cc:455-469, Frontend.cc:367-382), no answer (UNKNOWN, or
    ERROR for termination), an exception that nobody catches (the process
    aborts), or the exception LANonLinearException, which
    termination::run catches (Frontend.cc:495-497). *)
Inductive verdict :=
| VDef (answer : string)
| VNone
| VAbort
| VCaught.

(** One line on standard output; lines that were in the parent's buffer
    before the portfolio started are marked (reportError,
    ChcInterpreter.cc:558-560, ends a line without flushing). *)
Inductive line :=
| LAnswer (s : string)
| LWork (s : string)
| LPending (s : string).

Record config := {
  c_num : nat;                         (* number of engines / methods *)
  c_verdict : nat -> option verdict;   (* [None]: the engine runs forever *)
  c_work : nat -> list string;         (* lines of the witness work, [doWorkAfterAnswer] *)
  c_pending : list string;             (* unflushed lines at the start *)
  c_fallback : option string;          (* printed at ECHILD when nobody won (Frontend.cc:417-420) *)
  c_caught : list string               (* printed by the handler Frontend.cc:495-497 *)
}.

Inductive cause := Crashed | Aborted | KilledByParent.

(** Program counter of a child: lines 496; 498; 499; 500-502; after exit. *)
Inductive kpc :=
| KSolve
| KCas (answer : string)
| KPrint (answer : string)
| KWork (left : list string)
| KExit (code : nat)
| KDead (c : cause).

Record kid := { k_eng : nat; k_pc : kpc; k_buf : list line; k_reaped : bool }.

(** Program counter of the parent: fork loop (492-508), [wait] loop (511-521),
    kill loop (522-524), returned. *)
Inductive ppc :=
| PFork (i : nat)
| PWait
| PKill (left : list (option nat))
| PDone.

Record state := {
  s_pc : ppc;
  s_procs : list (option nat);   (* the vector [processes]; [None] is -1 *)
  s_winner : option nat;         (* the shared word [winner_pid] *)
  s_kids : list kid;
  s_buf : list line;             (* the parent's buffer *)
  s_out : list line;             (* standard output so far *)
  s_killall : bool               (* kill(-1, SIGKILL) was called *)
}.

Section Exec.
Variable cfg : config.

(** Lines 477-491. *)
Definition init : state :=
  {| s_pc := PFork 0; s_procs := []; s_winner := None; s_kids := [];
     s_buf := map LPending (c_pending cfg); s_out := []; s_killall := false |}.

Definition alive (p : kpc) : bool :=
  match p with KExit _ | KDead _ => false | _ => true end.

Definition set_kid (j : nat) (k : kid) (l : list kid) : list kid :=
  firstn j l ++ k :: skipn (S j) l.

Definition with_pc (k : kid) (p : kpc) : kid :=
  {| k_eng := k_eng k; k_pc := p; k_buf := k_buf k; k_reaped := k_reaped k |}.
Definition with_flush (k : kid) (p : kpc) : kid :=
  {| k_eng := k_eng k; k_pc := p; k_buf := []; k_reaped := k_reaped k |}.
Definition reap (k : kid) : kid :=
  {| k_eng := k_eng k; k_pc := k_pc k; k_buf := k_buf k; k_reaped := true |}.

Inductive action :=
| AFork (ok : bool)      (* line 493, fork succeeds or returns -1 *)
| AKid (j : nat)         (* child j makes one step *)
| ACrash (j : nat)       (* child j dies *)
| AWait (j : nat)        (* wait returns child j *)
| AEchild                (* wait returns -1 with ECHILD, or the fork loop ends *)
| AKill.                 (* one call of kill *)

Definition upd (st : state) (j : nat) (k : kid) (w : option nat) (out : list line) : state :=
  {| s_pc := s_pc st; s_procs := s_procs st; s_winner := w;
     s_kids := set_kid j k (s_kids st); s_buf := s_buf st; s_out := out;
     s_killall := s_killall st |}.

(** One step of a child (lines 495-507; Frontend.cc:396-406). *)
Definition kid_step (st : state) (j : nat) (k : kid) : option state :=
  match k_pc k with
  | KSolve =>
      match c_verdict cfg (k_eng k) with
      | None => None
      | Some (VDef a) => Some (upd st j (with_pc k (KCas a)) (s_winner st) (s_out st))
      | Some VNone =>
          (* exit(1): the exit flushes the buffer *)
          Some (upd st j (with_flush k (KExit 1)) (s_winner st) (s_out st ++ k_buf k))
      | Some VAbort => Some (upd st j (with_pc k (KDead Aborted)) (s_winner st) (s_out st))
      | Some VCaught =>
          (* the handler prints, main returns 0 *)
          Some (upd st j (with_flush k (KExit 0)) (s_winner st)
                  (s_out st ++ k_buf k ++ map LAnswer (c_caught cfg)))
      end
  | KCas a =>
      match s_winner st with
      | None => Some (upd st j (with_pc k (KPrint a)) (Some j) (s_out st))
      | Some _ => Some (upd st j (with_flush k (KExit 1)) (s_winner st) (s_out st ++ k_buf k))
      end
  | KPrint a =>
      (* printAnswer ends with std::endl *)
      Some (upd st j (with_flush k (KWork (c_work cfg (k_eng k)))) (s_winner st)
              (s_out st ++ k_buf k ++ [LAnswer a]))
  | KWork [] => Some (upd st j (with_flush k (KExit 0)) (s_winner st) (s_out st ++ k_buf k))
  | KWork (l :: ls) =>
      Some (upd st j (with_flush k (KWork ls)) (s_winner st)
              (s_out st ++ k_buf k ++ [LWork l]))
  | KExit _ | KDead _ => None
  end.

Definition with_ppc (st : state) (p : ppc) : state :=
  {| s_pc := p; s_procs := s_procs st; s_winner := s_winner st; s_kids := s_kids st;
     s_buf := s_buf st; s_out := s_out st; s_killall := s_killall st |}.

Definition kill_kid (k : kid) : kid :=
  if alive (k_pc k) then with_pc k (KDead KilledByParent) else k.

(** One atomic action; [None] when the action is not enabled. *)
Definition exec (a : action) (st : state) : option state :=
  match a with
  | AFork ok =>
      match s_pc st with
      | PFork i =>
          if Nat.ltb i (c_num cfg) then
            if ok then
              Some {| s_pc := PFork (S i);
                      s_procs := s_procs st ++ [Some (length (s_kids st))];
                      s_winner := s_winner st;
                      s_kids := s_kids st ++
                        [ {| k_eng := i; k_pc := KSolve; k_buf := s_buf st; k_reaped := false |} ];
                      s_buf := s_buf st; s_out := s_out st; s_killall := s_killall st |}
            else
              Some {| s_pc := PFork (S i); s_procs := s_procs st ++ [None];
                      s_winner := s_winner st; s_kids := s_kids st;
                      s_buf := s_buf st; s_out := s_out st; s_killall := s_killall st |}
          else None
      | _ => None
      end
  | AKid j =>
      match nth_error (s_kids st) j with
      | Some k => kid_step st j k
      | None => None
      end
  | ACrash j =>
      match nth_error (s_kids st) j with
      | Some k =>
          if alive (k_pc k)
          then Some (upd st j (with_pc k (KDead Crashed)) (s_winner st) (s_out st))
          else None
      | None => None
      end
  | AWait j =>
      (* lines 514-525: a child that has finished is reported once *)
      match s_pc st, nth_error (s_kids st) j with
      | PWait, Some k =>
          if alive (k_pc k) || k_reaped k then None
          else
            let st' := upd st j (reap k) (s_winner st) (s_out st) in
            match k_pc k with
            | KExit 0 => Some (with_ppc st' (PKill (s_procs st)))
            | _ => Some st'
            end
      | _, _ => None
      end
  | AEchild =>
      match s_pc st with
      | PFork i => if Nat.ltb i (c_num cfg) then None else Some (with_ppc st PWait)
      | PWait =>
          if forallb k_reaped (s_kids st) then
            match s_winner st, c_fallback cfg with
            | None, Some m =>
                Some {| s_pc := PDone; s_procs := s_procs st; s_winner := s_winner st;
                        s_kids := s_kids st; s_buf := [];
                        s_out := s_out st ++ s_buf st ++ [LAnswer m];
                        s_killall := s_killall st |}
            | _, _ => Some (with_ppc st PDone)
            end
          else None
      | _ => None
      end
  | AKill =>
      match s_pc st with
      | PKill [] => Some (with_ppc st PDone)
      | PKill (Some j :: rest) =>
          match nth_error (s_kids st) j with
          | Some k => Some (with_ppc (upd st j (kill_kid k) (s_winner st) (s_out st)) (PKill rest))
          | None => Some (with_ppc st (PKill rest))
          end
      | PKill (None :: rest) =>
          (* kill(-1, SIGKILL): every process the user may signal *)
          Some {| s_pc := PKill rest; s_procs := s_procs st; s_winner := s_winner st;
                  s_kids := map kill_kid (s_kids st); s_buf := s_buf st; s_out := s_out st;
                  s_killall := true |}
      | _ => None
      end
  end.

(** A run: any interleaving. *)
Fixpoint execs (l : list action) (st : state) : option state :=
  match l with
  | [] => Some st
  | a :: l' => match exec a st with Some st' => execs l' st' | None => None end
  end.

Definition reachable (st : state) : Prop := exists l, execs l init = Some st.

End Exec.

(** ** The two uses *)

(** Answers of the verification engines (include/engine/Engine.h). *)
Inductive chc_answer := ASafe | AUnsafe | AUnknown.

(** printAnswer, ChcInterpreter.cc:455-469. *)
Definition chc_text (a : chc_answer) : string :=
  match a with ASafe => "sat" | AUnsafe => "unsat" | AUnknown => "unknown" end.

(** What solve(name, graph) does: answers, throws, or (None) runs on. *)
Inductive chc_solve := Answers (a : chc_answer) | Throws.

(** std::getline(ss, token, ',') until the end, lines 477-482. *)
Fixpoint split_commas (s : string) (acc : string) : list string :=
  match s with
  | EmptyString => match acc with EmptyString => [] | _ => [acc] end
  | String c r =>
      if Ascii.eqb c ","%char then acc :: split_commas r EmptyString
      else split_commas r (append acc (String c EmptyString))
  end.

Fixpoint has_comma (s : string) : bool :=
  match s with
  | EmptyString => false
  | String c r => if Ascii.eqb c ","%char then true else has_comma r
  end.

Section Chc.
Variable solve : string -> option chc_solve.
Variable work : string -> list string.   (* lines of doWorkAfterAnswer for the result of an engine; [] without --validate / --print-witness *)

Definition chc_verdict (name : string) : option verdict :=
  match solve name with
  | None => None
  | Some Throws => Some VAbort
  | Some (Answers AUnknown) => Some VNone
  | Some (Answers a) => Some (VDef (chc_text a))
  end.

(** Lines 472-528. *)
Definition chc_config (names : list string) (pending : list string) : config :=
  {| c_num := length names;
     c_verdict := fun i => chc_verdict (nth i names EmptyString);
     c_work := fun i => work (nth i names EmptyString);
     c_pending := pending; c_fallback := None; c_caught := [] |}.

(** What (check-sat) prints with a single engine, lines 550-555 (when the
    engine returns a result). *)
Definition single_output (name : string) : option (list line) :=
  match solve name with
  | Some (Answers AUnknown) => Some [LAnswer (chc_text AUnknown)]
  | Some (Answers a) => Some (LAnswer (chc_text a) :: map LWork (work name))
  | _ => None
  end.

End Chc.

(** Answers of the termination methods (Frontend.cc:330). *)
Inductive term_answer := TTerm | TNonterm | TUnknown | TError.

(** printAnswer, Frontend.cc:367-382. *)
Definition term_text (a : term_answer) : string :=
  match a with TTerm => "YES" | TNonterm => "NO" | TUnknown => "MAYBE" | TError => "ERROR" end.

Inductive term_solve := TAnswers (a : term_answer) | TThrows | TNonlinear.

(** Frontend.cc:384-432 (with the handler 495-497 of the caller). *)
Definition term_verdict (r : option term_solve) : option verdict :=
  match r with
  | None => None
  | Some TThrows => Some VAbort
  | Some TNonlinear => Some VCaught
  | Some (TAnswers (TUnknown | TError)) => Some VNone
  | Some (TAnswers a) => Some (VDef (term_text a))
  end.

Definition term_config (num : nat) (solve : nat -> option term_solve) (pending : list string) : config :=
  {| c_num := num; c_verdict := fun i => term_verdict (solve i);
     c_work := fun _ => []; c_pending := pending;
     c_fallback := Some (term_text TUnknown);
     c_caught := [term_text TUnknown] |}.
