(** * S-expressions: src/utils/SExpressions.{h,cc}. *)
From Coq Require Import List Ascii Bool Arith Lia.
Import ListNotations.

(** Text is a list of characters ([std::string], [std::istream]). *)
Definition text := list ascii.
(** [SExpression] (src/utils/SExpressions.h:17-22). *)
Inductive sexpr := Atom (s : text) | SList (l : list sexpr).

Definition ch (n : nat) : ascii := ascii_of_nat n.
Definition cNul := ch 0.
Definition cTab := ch 9.
Definition cNl := ch 10.
Definition cCr := ch 13.
Definition cSpace := ch 32.
Definition cOpen := ch 40.
Definition cClose := ch 41.
Definition cSemi := ch 59.
Definition cPipe := ch 124.
(** [static_cast<char>(EOF)] *)
Definition cEof := ch 255.

(** [SExpression::toString] (src/utils/SExpressions.cc:11-30). *)
Fixpoint to_string (e : sexpr) : text :=
  match e with
  | Atom s => s
  | SList l =>
    cOpen :: (fix go (first : bool) (l : list sexpr) : text :=
                match l with
                | [] => [cClose]
                | x :: l' => (if first then [] else [cSpace]) ++ to_string x ++ go false l'
                end) true l
  end.

(** The parser: the last character read, the characters not read yet, and [m_input.good()]
    (src/utils/SExpressions.h:44-69). *)
Record pstate := mkP { tok : ascii; rest : text; good : bool }.
(** Result of a step: a value, a [ParsingException], or a loop that never ends. *)
Inductive res (A : Type) := Ok (a : A) | Throw | Hang | OutOfFuel.
Arguments Ok {A} _.
Arguments Throw {A}.
Arguments Hang {A}.
Arguments OutOfFuel {A}.
Definition bind {A B} (x : res A) (f : A -> res B) : res B :=
  match x with Ok a => f a | Throw => Throw | Hang => Hang | OutOfFuel => OutOfFuel end.

(** [m_token = m_input.get()]: at the end of the input the value is EOF and the stream is not good any more. *)
Definition get (s : pstate) : pstate :=
  match rest s with [] => mkP cEof [] false | c :: r => mkP c r (good s) end.
(** [SExpressionParser::SExpressionParser] (src/utils/SExpressions.h:48). *)
Definition open_parser (input : text) : pstate := get (mkP cNul input true).
(** [isWhiteSpace] (src/utils/SExpressions.cc:51-53). *)
Definition is_ws (c : ascii) : bool := (c =? cSpace)%char || (c =? cNl)%char || (c =? cTab)%char || (c =? cCr)%char.
(** The loop over a comment (src/utils/SExpressions.cc:79-80).  At the end of the input [get] yields EOF, which is
    neither the end of a line nor 0, for ever. *)
Fixpoint skip_comment (t : ascii) (r : text) (g : bool) : res pstate :=
  if (t =? cNl)%char || (t =? cNul)%char then Ok (mkP t r g)
  else match r with [] => Hang | c :: r' => skip_comment c r' g end.
(** [SExpressionParser::advance] (src/utils/SExpressions.cc:75-81). *)
Definition advance (s : pstate) : res pstate :=
  if good s then
    let s' := get s in
    if (tok s' =? cSemi)%char then skip_comment (tok s') (rest s') (good s') else Ok s'
  else Throw.
(** How much can still be read; bounds the loops below. *)
Definition left (s : pstate) : nat := length (rest s) + (if good s then 1 else 0).
(** [SExpressionParser::skipWhitespace] (src/utils/SExpressions.cc:83-86). *)
Fixpoint skip_ws_f (fuel : nat) (s : pstate) : res pstate :=
  match fuel with
  | O => OutOfFuel
  | S f => if is_ws (tok s) then bind (advance s) (skip_ws_f f) else Ok s
  end.
Definition skip_ws (s : pstate) : res pstate := skip_ws_f (S (left s)) s.
(** The loop of [parseToken] (src/utils/SExpressions.cc:62-71). *)
Fixpoint token_loop_f (fuel : nat) (pipe : bool) (acc : text) (s : pstate) : res (text * pstate) :=
  match fuel with
  | O => OutOfFuel
  | S f =>
    let c := tok s in
    if (c =? cNul)%char then Ok (acc, s)
    else if pipe && (c =? cPipe)%char then bind (advance s) (fun s' => Ok (acc, s'))
    else if negb pipe && (is_ws c || (c =? cOpen)%char || (c =? cClose)%char) then Ok (acc, s)
    else bind (advance s) (token_loop_f f pipe (acc ++ [c]))
  end.
(** [SExpressionParser::parseToken] (src/utils/SExpressions.cc:56-73). *)
Definition parse_token (s : pstate) : res (text * pstate) :=
  bind (skip_ws s) (fun s =>
    if (tok s =? cPipe)%char then bind (advance s) (fun s => token_loop_f (S (left s)) true [] s)
    else token_loop_f (S (left s)) false [] s).
(** [SExpressionParser::parseExpression] (src/utils/SExpressions.cc:32-48) and its loop (38-41). *)
Fixpoint parse_expr_f (fuel : nat) (s : pstate) : res (sexpr * pstate) :=
  match fuel with
  | O => OutOfFuel
  | S f =>
    bind (skip_ws s) (fun s =>
      if (tok s =? cOpen)%char then
        bind (advance s) (fun s => bind (skip_ws s) (fun s => bind (parse_items_f f [] s) (fun p => Ok (SList (fst p), snd p))))
      else bind (parse_token s) (fun p => Ok (Atom (fst p), snd p)))
  end
with parse_items_f (fuel : nat) (acc : list sexpr) (s : pstate) : res (list sexpr * pstate) :=
  match fuel with
  | O => OutOfFuel
  | S f =>
    if negb (tok s =? cNul)%char && negb (tok s =? cClose)%char then
      bind (parse_expr_f f s) (fun p => bind (skip_ws (snd p)) (fun s => parse_items_f f (acc ++ [fst p]) s))
    else if (tok s =? cClose)%char then Ok (acc, mkP cSpace (rest s) (good s))
    else Throw
  end.
Definition parse_expr (s : pstate) : res (sexpr * pstate) := parse_expr_f (2 * left s + 2) s.
(** [SExpressionParser::isEOF] (src/utils/SExpressions.h:52-55); the end-of-file bit is set exactly when [get] failed. *)
Definition is_eof (s : pstate) : res (bool * pstate) := bind (skip_ws s) (fun s => Ok (negb (good s), s)).
(** Reading a whole input: the loops at src/termination/Frontend.cc:89-90 and src/vmt/FrontEnd.cc:96-97; an expression
    that is an atom is an error there (src/termination/Frontend.cc:101, src/vmt/FrontEnd.cc:104). *)
Fixpoint read_loop (fuel : nat) (acc : list sexpr) (s : pstate) : res (list sexpr) :=
  match fuel with
  | O => OutOfFuel
  | S f =>
    bind (is_eof s) (fun p =>
      if fst p then Ok acc
      else bind (parse_expr (snd p)) (fun q =>
        match fst q with
        | Atom _ => Throw
        | e => read_loop f (acc ++ [e]) (snd q)
        end))
  end.
Definition read_all (input : text) : res (list sexpr) := let s := open_parser input in read_loop (left s + 2) [] s.

(** ** Specification: the texts that denote an expression *)
Definition special (c : ascii) : Prop := is_ws c = true \/ c = cOpen \/ c = cClose \/ c = cSemi \/ c = cNul.
(** Between expressions: white space and comments that end with a newline. *)
Inductive gap : text -> Prop :=
| gap_nil : gap []
| gap_ws c g : is_ws c = true -> gap g -> gap (c :: g)
| gap_comment body g : ~ In cNl body -> ~ In cNul body -> gap g -> gap (cSemi :: body ++ cNl :: g).
(** An atom that needs no quoting: not empty, no special characters, does not start with a bar. *)
Definition plain (a : text) : Prop := a <> [] /\ (forall c, In c a -> ~ special c) /\ hd_error a <> Some cPipe.
Definition delimited (k : text) : Prop := match k with c :: _ => is_ws c = true \/ c = cOpen \/ c = cClose \/ c = cSemi | [] => False end.
Inductive writes : sexpr -> text -> Prop :=
| w_plain a : plain a -> writes (Atom a) a
| w_quoted a : ~ In cPipe a -> ~ In cSemi a -> ~ In cNul a -> writes (Atom a) (cPipe :: a ++ [cPipe])
| w_list l t : writes_items l t -> writes (SList l) (cOpen :: t)
with writes_items : list sexpr -> text -> Prop :=
| wi_nil g : gap g -> writes_items [] (g ++ [cClose])
| wi_cons g e t l t' : gap g -> writes e t -> writes_items l t' -> (forall a, e = Atom a -> t = a -> delimited t') ->
    writes_items (e :: l) (g ++ t ++ t').
(** A file: list expressions separated by gaps. *)
Inductive writes_file : list sexpr -> text -> Prop :=
| wf_nil g : gap g -> writes_file [] g
| wf_cons g x t l t' : gap g -> writes (SList x) t -> writes_file l t' -> writes_file (SList x :: l) (g ++ t ++ t').
