(** Formatting by an external program, and calls to evaluator processes: the parts of nixd that deal with other
    processes.  Processes are transition systems; a schedule is a sequence of steps of any of them. *)
From Verif Require Import Base TextModel ConnModel.

(** ** Programs *)

(** What a program does next: read(2) from standard input with a buffer of [n] + 1 bytes (an empty result is the end of
    the input), write one byte to standard output or error (a longer write is several of these), work, or end with
    the wait status [status].  Programs see nothing but their standard input. *)
Inductive act (S : Type) :=
| ARead (n : nat) (k : bytes -> S)
| AOut (c : ascii) (s : S)
| AErr (s : S)
| AWork (s : S)
| AExit (status : N).
Arguments ARead {S}. Arguments AOut {S}. Arguments AErr {S}. Arguments AWork {S}. Arguments AExit {S}.
Record program := Program { pstate : Type; pinit : pstate; pnext : pstate -> act pstate }.

(** ** Format.cpp and ForkPiped.cpp *)

(** The ends of the three pipes of ForkPiped.cpp:11-14 *)
Inductive pipe_end := InR | InW | OutR | OutW | ErrR | ErrW.
Definition pipe_end_eqb (a b : pipe_end) : bool :=
  match a, b with InR, InR | InW, InW | OutR, OutR | OutW, OutW | ErrR, ErrR | ErrW, ErrW => true | _, _ => false end.
(** how many bytes each pipe holds before a write blocks *)
Record capacities := Capacities { cap_in : nat; cap_out : nat; cap_err : nat }.

(** An edit of the document: from, to, new text *)
Definition text_edit := (lpos * lpos * bytes)%type.
(** What the request is answered with: Format.cpp:74-77 or :93-100 *)
Inductive answer := CommandFailed (status : N) | Edits (l : list text_edit).

(** How far the thread that runs the request has come *)
Inductive thread :=
| Ready                     (* before forkPiped *)
| Piped                     (* ForkPiped.cpp:14: the pipes exist *)
| Forked                    (* ForkPiped.cpp:17: the child exists *)
| Writing (rest : bytes)    (* Format.cpp:56-64, [rest] still to be written *)
| Waiting                   (* Format.cpp:67-69 *)
| Reading (got : bytes)     (* Format.cpp:79-90 *)
| Answered (a : answer)
| Killed.                   (* by SIGPIPE, or by an exception that leaves the thread *)
(** The program it started *)
Inductive child (S : Type) := NotStarted | Running (s : S) | Ended (status : N).
Arguments NotStarted {S}. Arguments Running {S}. Arguments Ended {S}.

(** One request.  [j_in], [j_out]: the bytes in the pipes; [j_err]: how many are in the third.  [j_others]: the ends
    of the pipes of other requests that the child inherited. *)
Record job (S : Type) := Job {
  j_code : bytes; j_thread : thread; j_child : child S;
  j_in : bytes; j_out : bytes; j_err : nat; j_others : list (nat * pipe_end) }.
Arguments Job {S}. Arguments j_code {S}. Arguments j_thread {S}. Arguments j_child {S}. Arguments j_in {S}.
Arguments j_out {S}. Arguments j_err {S}. Arguments j_others {S}.

(** The ends nixd itself has open: all after pipe(2); ForkPiped.cpp:37-39 closes three, Format.cpp:65 closes [InW];
    nobody closes [OutR] and [ErrR] *)
Definition own_ends (t : thread) : list pipe_end :=
  match t with
  | Ready => []
  | Piped | Forked => [InR; InW; OutR; OutW; ErrR; ErrW]
  | Writing _ => [InW; OutR; ErrR]
  | Waiting | Reading _ | Answered _ | Killed => [OutR; ErrR]
  end.

(** Format.cpp:92-100 *)
Definition answer_of (code response : bytes) : answer :=
  if bytes_eqb response code then Edits []
  else Edits [((LPos 0 0, LPos INT_MAX INT_MAX), response)].

Section Format.
Variable F : program.
Variable K : capacities.
Notation job := (job (pstate F)).

Definition with_thread (J : job) (t : thread) : job :=
  Job (j_code J) t (j_child J) (j_in J) (j_out J) (j_err J) (j_others J).
Definition is_running (c : child (pstate F)) : bool := match c with Running _ => true | _ => false end.
(** does nixd have this end open? *)
Definition owned (e : pipe_end) (t : thread) : bool := existsb (pipe_end_eqb e) (own_ends t).

(** One step of a request: of its thread, or of its child.  [held e]: some other process has the end [e] of this
    request's pipes open; [inherit]: the ends of other requests open in nixd. *)
Inductive jstep (held : pipe_end -> bool) (inherit : list (nat * pipe_end)) : job -> job -> Prop :=
(* ForkPiped.cpp:14 *)
| j_pipe code c i o e l : jstep held inherit (Job code Ready c i o e l) (Job code Piped c i o e l)
(* ForkPiped.cpp:17-32, Format.cpp:49-53: the child closes InW, OutR and ErrR of its own pipes, keeps whatever else
   is open (no descriptor is close-on-exec), and becomes the program *)
| j_fork code c i o e l : jstep held inherit (Job code Piped c i o e l) (Job code Forked (Running (pinit F)) i o e inherit)
(* ForkPiped.cpp:37-39 *)
| j_close code c i o e l : jstep held inherit (Job code Forked c i o e l) (Job code (Writing code) c i o e l)
(* Format.cpp:58-60: write(2) moves the bytes one by one, and blocks while the pipe is full *)
| j_write code x rest c i o e l :
    is_running c || held InR = true -> List.length i < cap_in K ->
    jstep held inherit (Job code (Writing (x :: rest)) c i o e l) (Job code (Writing rest) c (i ++ [x]) o e l)
(* write(2) on a pipe that nobody can read: SIGPIPE, which nixd does not handle, or else Format.cpp:62 throws out of
   the thread *)
| j_epipe code x rest c i o e l :
    is_running c || held InR = false ->
    jstep held inherit (Job code (Writing (x :: rest)) c i o e l) (Job code Killed c i o e l)
(* Format.cpp:65 *)
| j_close_in code c i o e l : jstep held inherit (Job code (Writing []) c i o e l) (Job code Waiting c i o e l)
(* Format.cpp:69-77 *)
| j_wait code status i o e l :
    jstep held inherit (Job code Waiting (Ended status) i o e l)
      (Job code (if N.eqb status 0 then Reading [] else Answered (CommandFailed status)) (Ended status) i o e l)
(* Format.cpp:82-90: read(2) with a buffer of 1024 bytes *)
| j_read code got c i o e l :
    o <> [] ->
    jstep held inherit (Job code (Reading got) c i o e l) (Job code (Reading (got ++ firstn 1024 o)) c i (skipn 1024 o) e l)
(* Format.cpp:84-85, 92-100: the end of the output, once nobody can write to the pipe *)
| j_eof code got c i e l :
    is_running c || held OutW = false ->
    jstep held inherit (Job code (Reading got) c i [] e l) (Job code (Answered (answer_of code got)) c i [] e l)
(* the program *)
| c_read code t s n k i o e l :
    pnext F s = ARead n k -> i <> [] ->
    jstep held inherit (Job code t (Running s) i o e l) (Job code t (Running (k (firstn (S n) i))) (skipn (S n) i) o e l)
| c_eof code t s n k o e l :
    pnext F s = ARead n k -> owned InW t || held InW = false ->
    jstep held inherit (Job code t (Running s) [] o e l) (Job code t (Running (k [])) [] o e l)
| c_out code t s x s' i o e l :
    pnext F s = AOut x s' -> List.length o < cap_out K ->
    jstep held inherit (Job code t (Running s) i o e l) (Job code t (Running s') i (o ++ [x]) e l)
| c_err code t s s' i o e l :
    pnext F s = AErr s' -> e < cap_err K ->
    jstep held inherit (Job code t (Running s) i o e l) (Job code t (Running s') i o (S e) l)
| c_work code t s s' i o e l :
    pnext F s = AWork s' ->
    jstep held inherit (Job code t (Running s) i o e l) (Job code t (Running s') i o e l)
| c_exit code t s status i o e l :
    pnext F s = AExit status ->
    jstep held inherit (Job code t (Running s) i o e l) (Job code t (Ended status) i o e l).

(** All requests, and the evaluator processes started so far with the ends they inherited.  Simplification: all
    requests run the same program. *)
Record world := World { w_jobs : list job; w_evaluators : list (list (nat * pipe_end)) }.
(** a request for a document, about to be run by the pool (Format.cpp:19-48) *)
Definition request (code : bytes) : job := Job code Ready NotStarted [] [] 0 [].

(** the ends of the pipes of the requests numbered [i], [i] + 1, ... that nixd has open *)
Fixpoint open_ends (i : nat) (l : list job) : list (nat * pipe_end) :=
  match l with [] => [] | J :: l => map (pair i) (own_ends (j_thread J)) ++ open_ends (S i) l end.
Definition other_ends (j : nat) (w : world) : list (nat * pipe_end) :=
  filter (fun p => negb (Nat.eqb (fst p) j)) (open_ends 0 (w_jobs w)).
Definition has_end (j : nat) (e : pipe_end) (l : list (nat * pipe_end)) : bool :=
  existsb (fun p => Nat.eqb (fst p) j && pipe_end_eqb e (snd p)) l.
(** some other process has the end [e] of request [j] open *)
Definition held_by_others (w : world) (j : nat) (e : pipe_end) : bool :=
  existsb (fun J => is_running (j_child J) && has_end j e (j_others J)) (w_jobs w) ||
  existsb (has_end j e) (w_evaluators w).

Fixpoint update {A} (j : nat) (x : A) (l : list A) : list A :=
  match l, j with
  | [], _ => []
  | _ :: l, 0 => x :: l
  | y :: l, S j => y :: update j x l
  end.
(** a step of one of the requests, and the start of an evaluator process (Launch.cpp:24-30, StreamProc.cpp:24-29, for
    instance on a change of the configuration) *)
Inductive wstep : world -> world -> Prop :=
| w_job w j J J' :
    nth_error (w_jobs w) j = Some J -> jstep (held_by_others w j) (other_ends j w) J J' ->
    wstep w (World (update j J' (w_jobs w)) (w_evaluators w)).
Inductive estep : world -> world -> Prop :=
| w_evaluator w : estep w (World (w_jobs w) (open_ends 0 (w_jobs w) :: w_evaluators w)).
End Format.
Arguments World {F}. Arguments w_jobs {F}. Arguments w_evaluators {F}.
Arguments open_ends {F}. Arguments is_running {F}. Arguments request F code : clear implicits.

(** Format.cpp:21-22: the reference to the text, taken from the store without keeping the draft; dereferencing the
    draft of a file that is not open is undefined *)
Definition formatSource (st : store) (f : bytes) : res bytes :=
  match getDraft f st with
  | Some d => Ok (dr_contents d)
  | None => Crash "Format.cpp:22: no draft"
  end.
(** Is the string that [formatSource] referred to sure to have an owner?  The owners of texts of [f] are its draft, its
    translation unit, and the notification being handled. *)
Definition has_owner {A} (sp : cstate A * phase A) (f : bytes) : bool :=
  match getDraft f (drafts A (fst sp)), lookup f (tus A (fst sp)), snd sp with
  | None, None, Idle _ => false
  | _, _, _ => true
  end.

(** ** Calls to an evaluator process: LSPServer.h:43-50 callMethod, LSPServer.cpp:54-80 onReply, Connection.cpp
    readLine and loop, AttrSetClient.cpp:31-44 *)

(** [cl_server]: the pending calls.  [cl_requests]: sent, not yet taken by the evaluator.  [cl_replies]: sent by the
    evaluator, not yet read.  [cl_listening]: the thread that reads replies is in its loop.  [cl_ran]: the callbacks
    that have been run.  [cl_killed]: nixd is gone. *)
Record client := Client {
  cl_server : server; cl_requests : list Z; cl_alive : bool; cl_replies : list (Z * outcome);
  cl_listening : bool; cl_ran : list (callback * outcome); cl_killed : bool }.
Definition client_start : client := Client server_init [] true [] true [] false.

Inductive client_event := Ask (cb : callback) | Evaluate | Die | Receive | HangUp.

(** AttrSetClient.cpp:40-44: kill(pid, 0) succeeds for a process that has ended and has not been waited for, and nixd
    waits for none, so the client is used whether the process lives or not. *)
Inductive clstep : client -> client_event -> client -> Prop :=
(* bindReply, then the message is written to the pipe *)
| cl_ask s rq rp ls ran cb id s' old :
    bindReply cb s = Ok (id, s', old) ->
    clstep (Client s rq true rp ls ran false) (Ask cb) (Client s' (rq ++ [id]) true rp ls (ran ++ old) false)
(* the evaluator is gone: SIGPIPE *)
| cl_ask_dead s rq rp ls ran cb id s' old :
    bindReply cb s = Ok (id, s', old) ->
    clstep (Client s rq false rp ls ran false) (Ask cb) (Client s' rq false rp ls (ran ++ old) true)
(* the evaluator takes a request and replies to it with something *)
| cl_evaluate s id rq rp ls ran o :
    clstep (Client s (id :: rq) true rp ls ran false) Evaluate (Client s rq true (rp ++ [(id, o)]) ls ran false)
(* it may end at any time *)
| cl_die s rq rp ls ran :
    clstep (Client s rq true rp ls ran false) Die (Client s rq false rp ls ran false)
(* Connection.cpp:199-207, LSPServer.cpp:54-80 *)
| cl_receive s rq id o rp ran s' new :
    onReply (JInt id) o s = Ok (s', new) ->
    clstep (Client s rq true ((id, o) :: rp) true ran false) Receive (Client s' rq true rp true (ran ++ new) false)
(* Connection.cpp:128-130: when the other side has hung up the loop ends, even if there is something left to read *)
| cl_hangup s rq rp ran :
    clstep (Client s rq false rp true ran false) HangUp (Client s rq false rp false ran false).
Inductive clrun : client -> list client_event -> client -> Prop :=
| clrun_nil c : clrun c [] c
| clrun_snoc c es c1 e c2 : clrun c es c1 -> clstep c1 e c2 -> clrun c (es ++ [e]) c2.
