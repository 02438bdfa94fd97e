(** Model of the parser's support functions: libnixf/src/Parse/{Parser.h,ParseSupport.cpp}. *)
From Verif Require Import Base Diag LexModel AstModel.

(** Parser.h:41-60: the fields of Parser.  The lexer holds the diagnostics (newest first), which the C++ classes
    share by reference; [psync] is the multiset SyncTokens; [pnid] is the next node identity (allocation). *)
Record pst := PS {
  plex : lst; pbuf : list token; plast : option token;
  pmodes : list pmode; psync : list tkind; pnid : nat }.

(** A parser action: run on the parser object, it yields a value or does not return. *)
Definition P (A : Type) := pst -> res (A * pst).
Definition ret {A} (a : A) : P A := fun s => Ok (a, s).
Definition pbind {A B} (m : P A) (k : A -> P B) : P B :=
  fun s => match m s with
           | Ok (a, s') => k a s'
           | Crash w => Crash w
           | OutOfFuel => OutOfFuel
           end.
Notation "'let!' p ':=' m 'in' k" := (pbind m (fun p => k))
  (at level 200, p pattern, m at level 100, k at level 200, only parsing).
Notation "'do!' m 'in' k" := (pbind m (fun _ => k))
  (at level 200, m at level 100, k at level 200, only parsing).

Definition crash {A} (w : string) : P A := fun _ => Crash w.
Arguments crash {A} w%string.
Definition lift {A} (m : res A) : P A :=
  fun s => match m with Ok a => Ok (a, s) | Crash w => Crash w | OutOfFuel => OutOfFuel end.
(** assert(c) *)
Definition passert (c : bool) (w : string) : P unit := if c then ret tt else crash w.
Arguments passert c w%string.

(** a fresh node identity: std::make_shared of a node *)
Definition fresh : P nat :=
  fun s => Ok (pnid s, PS (plex s) (pbuf s) (plast s) (pmodes s) (psync s) (S (pnid s))).

(** Diags.emplace_back *)
Definition emit (d : diag) : P unit :=
  fun s => Ok (tt, PS (push_diag d (plex s)) (pbuf s) (plast s) (pmodes s) (psync s) (pnid s)).
(** A reference returned by the latest emplace_back is used before the next one in all the code modelled, so
    changing "that diagnostic" changes the newest one. *)
Definition upd_last (f : diag -> diag) : P unit :=
  fun s => match diags (plex s) with
           | [] => Crash "no diagnostic"
           | d :: ds => Ok (tt, PS (Lst (cur (plex s)) (rest (plex s)) (f d :: ds)) (pbuf s) (plast s)
                                   (pmodes s) (psync s) (pnid s))
           end.

Definition set_lex (l : lst) (s : pst) : pst := PS l (pbuf s) (plast s) (pmodes s) (psync s) (pnid s).
Definition set_buf (bf : list token) (s : pst) : pst := PS (plex s) bf (plast s) (pmodes s) (psync s) (pnid s).
Definition set_modes (m : list pmode) (s : pst) : pst := PS (plex s) (pbuf s) (plast s) m (psync s) (pnid s).
Definition set_sync (y : list tkind) (s : pst) : pst := PS (plex s) (pbuf s) (plast s) (pmodes s) y (pnid s).

(** std::multiset<TokenKind>::contains, and erase(find(k)) *)
Definition kmem (k : tkind) (l : list tkind) : bool := existsb (tkind_beq k) l.
Fixpoint kremove (k : tkind) (l : list tkind) : list tkind :=
  match l with
  | [] => []
  | x :: l' => if tkind_beq k x then l' else x :: kremove k l'
  end.

(** Parser.h:88-99 SyncRAII: the token is a synchronisation token while [m] runs *)
Definition withSync {A} (k : tkind) (m : P A) : P A :=
  fun s => match m (set_sync (k :: psync s) s) with
           | Ok (a, s') => Ok (a, set_sync (kremove k (psync s')) s')
           | Crash w => Crash w
           | OutOfFuel => OutOfFuel
           end.

Section WithSource.
Variable src : bytes.

(** ParseSupport.cpp:53-61 resetLookAheadBuf *)
Definition resetLookAheadBuf : P unit :=
  fun s => match pbuf s with
           | [] => Ok (tt, s)
           | t :: _ =>
               match setCur src (lcur (trange t)) (plex s) with
               | Ok l => Ok (tt, set_buf [] (set_lex l s))
               | Crash w => Crash w
               | OutOfFuel => OutOfFuel
               end
           end.
(** ParseSupport.cpp:20-23 *)
Definition pushState (m : pmode) : P unit :=
  let! _ := resetLookAheadBuf in fun s => Ok (tt, set_modes (m :: pmodes s) s).
(** ParseSupport.cpp:25-28 *)
Definition popState : P unit :=
  let! _ := resetLookAheadBuf in
  fun s => match pmodes s with
           | [] => Crash "pop of an empty stack"
           | _ :: ms => Ok (tt, set_modes ms s)
           end.
(** Parser.h:62-71, ParseSupport.cpp:30-33 withState: the mode is in force while [m] runs *)
Definition withState {A} (m : pmode) (body : P A) : P A :=
  let! _ := pushState m in
  let! x := body in
  let! _ := popState in
  ret x.

(** ParseSupport.cpp:63-81 peek: [n] tokens are lexed and appended to the buffer *)
Fixpoint fill (n : nat) : P unit :=
  match n with
  | 0 => ret tt
  | S n' =>
      fun s => match pmodes s with
               | [] => Crash "top of an empty stack"
               | m :: _ =>
                   match lex_mode m (plex s) with
                   | Ok (t, l) => fill n' (set_buf (pbuf s ++ [t]) (set_lex l s))
                   | Crash w => Crash w
                   | OutOfFuel => OutOfFuel
                   end
               end
  end.
Definition peek (n : nat) : P token :=
  fun s => match fill (S n - List.length (pbuf s)) s with
           | Ok (_, s') => match nth_error (pbuf s') n with
                           | Some t => Ok (t, s')
                           | None => Crash "peek: out of bounds"
                           end
           | Crash w => Crash w
           | OutOfFuel => OutOfFuel
           end.
Definition peekk (n : nat) : P tkind := let! t := peek n in ret (tk t).

(** Parser.h:130-134 popBuf *)
Definition popBuf : P token :=
  fun s => match pbuf s with
           | [] => Crash "front of an empty deque"
           | t :: bf => Ok (t, PS (plex s) bf (Some t) (pmodes s) (psync s) (pnid s))
           end.
(** Parser.h:124-128 consume *)
Definition consume : P unit :=
  fun s => match pbuf s with
           | [] => (do! peek 0 in do! popBuf in ret tt) s
           | _ => (do! popBuf in ret tt) s
           end.

(** LastToken->rCur(); dereferencing an empty optional is a crash *)
Definition lastR : P cursor :=
  fun s => match plast s with
           | Some t => Ok (rcur (trange t), s)
           | None => Crash "LastToken is empty"
           end.
Definition assertLast : P unit := do! lastR in ret tt.
(** Parser.h:147 lCur *)
Definition lCur : P cursor := let! t := peek 0 in ret (lcur (trange t)).

(** ParseSupport.cpp:86-91, the loop of consumeAsUnknown *)
Fixpoint unknown_loop (fuel : nat) (consumed : bool) : P bool :=
  match fuel with
  | 0 => fun _ => OutOfFuel
  | S f =>
      let! t := peek 0 in
      fun s =>
        if tkind_beq (tk t) tok_eof || kmem (tk t) (psync s) then Ok (consumed, s)
        else (do! consume in unknown_loop f true) s
  end.
(** ParseSupport.cpp:83-96 consumeAsUnknown *)
Definition consumeAsUnknown : P (option range) :=
  let! t := peek 0 in
  let! c := unknown_loop (S (List.length src)) false in
  if c then let! e := lastR in ret (Some (mkRange (lcur (trange t)) e)) else ret None.

(** a diagnostic with one fix of one edit *)
Definition fix1 (msg : bytes) (e : res tedit) : P fix_ := let! x := lift e in ret (Fix_ msg [x]).

(** Parser.h:136-145 removeUnexpected *)
Definition removeUnexpected : P bool :=
  let! u := consumeAsUnknown in
  match u with
  | Some r =>
      let! f := fix1 (b "remove unexpected text") (mkRemoval r) in
      do! emit (d_tag Striked (d_fix f (diag0 DK_UnexpectedText r))) in
      ret true
  | None => ret false
  end.

(** ParseSupport.cpp:98-120 expect: [Some tok] is success (the token is not consumed); [None] is failure, and
    the diagnostic that ExpectResult::diag() gives access to is the newest one *)
Definition expect (k : tkind) : P (option token) :=
  withSync k (
    let! t := peek 0 in
    if tkind_beq (tk t) k then ret (Some t) else
    let! rm := removeUnexpected in
    let! again := (if rm then let! t' := peek 0 in ret (if tkind_beq (tk t') k then Some t' else None)
                   else ret None) in
    match again with
    | Some t' => ret (Some t')
    | None =>
        let! ins := (fun s => match plast s with
                              | Some l => Ok (rcur (trange l), s)
                              | None => lCur s
                              end) in
        let! f := fix1 (b "insert " ++ spelling k) (mkInsertion ins (spelling k)) in
        do! emit (d_fix f (d_arg (spelling k) (diag0 DK_Expected (point ins)))) in
        ret None
    end).

(** ParseSupport.cpp:11-18 diagNullExpr, always called with LastToken->rCur() *)
Definition diagNullExpr (what : string) : P unit :=
  let! loc := lastR in
  let! f := fix1 (b "insert dummy expression") (mkInsertion loc (b " expr")) in
  emit (d_fix f (d_arg (b what ++ b " expression") (diag0 DK_Expected (point loc)))).
Arguments diagNullExpr what%string.
Definition orNull (e : option node) (what : string) : P unit :=
  match e with Some _ => ret tt | None => diagNullExpr what end.
Arguments orNull e what%string.

(** ER.diag().note(NK_ToMachThis, r) << spelling *)
Definition noteMatch (r : range) (k : tkind) : P unit :=
  upd_last (d_note (Note_ NK_ToMachThis r [spelling k])).
(** D.fix(msg).edit(e) on the newest diagnostic *)
Definition addFix (msg : bytes) (e : res tedit) : P unit :=
  let! f := fix1 msg e in upd_last (d_fix f).

(** LexerCursorRange{from, LastToken->rCur()} *)
Definition toLast (from : cursor) : P range := let! e := lastR in ret (mkRange from e).

(** std::make_shared<Misc>(r) *)
Definition mkMisc (r : range) : P node := let! i := fresh in ret (NMisc i r).

End WithSource.
