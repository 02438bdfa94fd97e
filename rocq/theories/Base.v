(** Common vocabulary of the models: bytes, outcomes, cursors, ranges. *)
From Coq Require Export List Ascii String Arith NArith ZArith Bool Lia.
Export ListNotations.
Open Scope list_scope.
Open Scope bool_scope.

(** A document, an identifier, a message: a list of bytes (C++ std::string / std::string_view). *)
Definition bytes := list ascii.

(** Literal bytes. *)
Definition b (s : string) : bytes := list_ascii_of_string s.
Arguments b s%string.

Definition code (c : ascii) : N := N_of_ascii c.

Definition ascii_eqb := Ascii.eqb.

Fixpoint bytes_eqb (x y : bytes) : bool :=
  match x, y with
  | [], [] => true
  | a :: x', c :: y' => Ascii.eqb a c && bytes_eqb x' y'
  | _, _ => false
  end.

(** std::string_view::starts_with *)
Fixpoint starts_with (p s : bytes) : bool :=
  match p, s with
  | [], _ => true
  | a :: p', c :: s' => Ascii.eqb a c && starts_with p' s'
  | _ :: _, [] => false
  end.

(** Lexicographic order on unsigned bytes: the order of std::map<std::string, _>. *)
Fixpoint bytes_ltb (x y : bytes) : bool :=
  match x, y with
  | _, [] => false
  | [], _ :: _ => true
  | a :: x', c :: y' =>
      if N.ltb (code a) (code c) then true
      else if N.eqb (code a) (code c) then bytes_ltb x' y' else false
  end.

(** Outcome of running modelled code.  [Crash] is a failed assertion, a null dereference, an
    out-of-bounds access or an uncaught exception; [OutOfFuel] only exists because Gallina is total. *)
Inductive res (A : Type) : Type :=
| Ok (a : A)
| Crash (why : string)
| OutOfFuel.
Arguments Ok {A} a.
Arguments Crash {A} why%string.
Arguments OutOfFuel {A}.

Definition bind {A B} (m : res A) (f : A -> res B) : res B :=
  match m with
  | Ok a => f a
  | Crash w => Crash w
  | OutOfFuel => OutOfFuel
  end.

Notation "'let*' p ':=' m 'in' k" := (bind m (fun p => k))
  (at level 200, p pattern, m at level 100, k at level 200, only parsing).

(** libnixf/include/nixf/Basic/Range.h:57-103 LexerCursor (int64 / size_t fields as nat) *)
Record cursor := mkCur { line : nat; col : nat; off : nat }.

(** Range.h:70 default-constructed cursor (value-initialised by the Lexer constructor, Lexer.h:122-123) *)
Definition cur0 : cursor := mkCur 0 0 0.

(** Range.h:66-69 LexerCursor::operator== *)
Definition cur_eqb (x y : cursor) : bool :=
  Nat.eqb (line x) (line y) && Nat.eqb (col x) (col y) && Nat.eqb (off x) (off y).

(** Range.h:105-126 LexerCursorRange *)
Record range := mkRange { lcur : cursor; rcur : cursor }.

(** Range.h:114 LexerCursorRange(Pos) *)
Definition point (c : cursor) : range := mkRange c c.

(** Range.h:8-31 Position and its order *)
Definition pos := (nat * nat)%type.
Definition pos_of (c : cursor) : pos := (line c, col c).
Definition pos_eqb (x y : pos) : bool := Nat.eqb (fst x) (fst y) && Nat.eqb (snd x) (snd y).
Definition pos_ltb (x y : pos) : bool :=
  Nat.ltb (fst x) (fst y) || (Nat.eqb (fst x) (fst y) && Nat.ltb (snd x) (snd y)).
Definition pos_leb (x y : pos) : bool := pos_ltb x y || pos_eqb x y.

(** Range.h:33-50 PositionRange::contains *)
Definition prange := (pos * pos)%type.
Definition prange_of (r : range) : prange := (pos_of (lcur r), pos_of (rcur r)).
Definition pcontains (outer inner : prange) : bool :=
  pos_leb (fst outer) (fst inner) && pos_leb (snd inner) (snd outer).

(** Range.h:119-121 LexerCursorRange::contains *)
Definition rcontains (outer inner : range) : bool := pcontains (prange_of outer) (prange_of inner).
