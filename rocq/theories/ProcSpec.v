(** Specification vocabulary for C56, C57 and C71. *)
From Verif Require Import Base TextModel TextSpec ConnModel ProcModel.

(** Any number of steps. *)
Inductive steps {A} (R : A -> A -> Prop) : A -> A -> Prop :=
| steps_none x : steps R x x
| steps_more x y z : R x y -> steps R y z -> steps R x z.

(** ** A program run on its own: its input is a file, and nothing limits its output. *)

(** [moves F s input out err s' input']: the program goes from [s], with [input] still to be read, to [s'], and writes
    [out], and [err] bytes of messages.  A read gives some of the input, or nothing at its end. *)
Inductive moves (F : program) : pstate F -> bytes -> bytes -> nat -> pstate F -> bytes -> Prop :=
| moves_read s n k chunk rest :
    pnext F s = ARead n k -> chunk <> [] -> List.length chunk <= S n -> moves F s (chunk ++ rest) [] 0 (k chunk) rest
| moves_end s n k : pnext F s = ARead n k -> moves F s [] [] 0 (k []) []
| moves_out s x s' input : pnext F s = AOut x s' -> moves F s input [x] 0 s' input
| moves_err s s' input : pnext F s = AErr s' -> moves F s input [] 1 s' input
| moves_work s s' input : pnext F s = AWork s' -> moves F s input [] 0 s' input.
(** [does F s input out err status unread]: from [s] it writes [out], and [err] bytes of messages, and ends with
    [status], [unread] being what it has not read. *)
Inductive does (F : program) : pstate F -> bytes -> bytes -> nat -> N -> bytes -> Prop :=
| does_end s status input : pnext F s = AExit status -> does F s input [] 0 status input
| does_more s input o1 e1 s' input' o2 e2 status unread :
    moves F s input o1 e1 s' input' -> does F s' input' o2 e2 status unread ->
    does F s input (o1 ++ o2) (e1 + e2) status unread.
(** It ends, however its input arrives. *)
Definition ends (F : program) (s : pstate F) (input : bytes) : Prop :=
  Acc (fun q p => exists o e, moves F (fst p) (snd p) o e (fst q) (snd q)) (s, input).

(** ** C56 *)

(** [p] is not after [q] *)
Definition not_after (p q : lpos) : Prop :=
  (p_line p < p_line q)%Z \/ (p_line p = p_line q /\ (p_char p <= p_char q)%Z).
(** The range covers the document: LSP takes a position beyond the end for the end. *)
Definition covers (d : text) (from upto : lpos) : Prop := from = position [] d /\ not_after (position d []) upto.
(** The answer for a document [code] when the formatter wrote [out] and ended with [status]: an error if it failed;
    else no edit if nothing is to be changed; else one edit that replaces the whole document with [out]. *)
Definition right_answer (code out : bytes) (status : N) (a : answer) : Prop :=
  (status <> 0%N /\ a = CommandFailed status) \/
  (status = 0%N /\ out = code /\ a = Edits []) \/
  (status = 0%N /\ out <> code /\ exists from upto, a = Edits [((from, upto), out)] /\
    forall d, unicode d -> code = utf8 d -> (Z.of_nat (List.length code) < 2147483648)%Z -> covers d from upto).

Definition answered {F} (w : world F) : Prop := exists J a, In J (w_jobs w) /\ j_thread J = Answered a.
(** evaluators that were started before the requests *)
Definition before_requests (l : list (list (nat * pipe_end))) : Prop := Forall (fun x => x = []) l.

(** cat(1): copies its input to its output *)
Definition cat : program :=
  Program (option bytes) (Some []) (fun s =>
    match s with
    | Some (x :: l) => AOut x (Some l)
    | Some [] => ARead 1023 (fun chunk => match chunk with [] => None | _ => Some chunk end)
    | None => AExit 0
    end).
(** true(1): ends at once *)
Definition true1 : program := Program unit tt (fun _ => AExit 0).
