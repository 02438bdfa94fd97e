(** Properties C13 to C16 of the JSON-RPC connection. *)
From Verif Require Import Base LexModel LexProofs ConnModel ConnSpec ConnProofs ConnFacts.

(** ** C13: message framing is transparent to chunking.
    False when the transport is disturbed: the reader drops messages that have arrived when the writer has hung up,
    and an interrupted read in a body corrupts the message. *)
Theorem C13_refuted :
  exists ms evs1 evs2,
    (* hang-up after the whole stream has arrived *)
    (ms <> [] /\ evs1 = [Hangup] /\ readAll 5 evs1 (stream ms) = ([], true)) /\
    (* one interrupted read, all bytes delivered *)
    (Forall (fun e => undisturbed e \/ e = Intr) evs2 /\
     exists m', readAll 1 evs2 (stream ms) = ([m'], false) /\ ~ initial_part [m'] ms).
Proof. exact C13_refuted_proof. Qed.
Print Assumptions C13_refuted.

(** Whatever the transport does short of interrupting a read, also if it breaks off anywhere ([left] is any initial
    part of what was sent), the messages received are an initial part of those sent. *)
Theorem C13_no_spurious_partial :
  forall fuel evs left lost ms,
    Forall fits ms -> Forall (fun e => e <> Intr) evs -> left ++ lost = stream ms ->
    initial_part (fst (readAll fuel evs left)) ms.
Proof. exact C13_no_spurious_partial_proof. Qed.
Print Assumptions C13_no_spurious_partial.

(** However an undisturbed transport splits the stream, all messages are received once their bytes have arrived.
    Missing from the full property: transports with hang-ups or interrupted reads. *)
Theorem C13_complete_partial :
  forall ms fuel evs,
    Forall fits ms -> Forall undisturbed evs ->
    List.length (stream ms) <= List.length (filter is_data evs) -> List.length ms <= fuel ->
    fst (readAll fuel evs (stream ms)) = ms.
Proof. exact C13_complete_partial_proof. Qed.
Print Assumptions C13_complete_partial.

Example C13_nonvacuous :
  let ms := [b "{""a"":1}"; b "[]"; b "null"] in
  Forall fits ms /\
  readAll 9 (repeat (Data 1) 22 ++ [Timeout; Data 3; Timeout; Data 9] ++ repeat (Data 2) 60) (stream ms) = (ms, true) /\
  readAll 9 (repeat (Data 7) 60) (firstn 49 (stream ms)) = ([b "{""a"":1}"], true).
Proof.
  split; [|split; vm_compute; reflexivity]. unfold fits. repeat constructor.
Qed.

(** ** C14: every request gets exactly one reply.
    False: a request for a method the server does not know is not answered, and the server stops reading; so does a
    message without "jsonrpc": "2.0". *)
Theorem C14_refuted :
  forall methods decodes answer m, ~ In m methods ->
  exists msg bad, is_request msg (JInt 1) m JNull /\
    let s := drun methods decodes answer [Message msg] in
    sent s = [] /\ tasks s = [] /\ running s = false /\
    (is_notification bad (b "exit") -> False) /\ running (drun methods decodes answer [Message bad]) = false.
Proof. exact C14_refuted_proof. Qed.
Print Assumptions C14_refuted.

(** No request is answered twice, whatever arrives in whatever order the handlers reply, every reply carries what the
    handler of that request says, and nothing else is answered.  [requests] lists what each request should get. *)
Theorem C14_at_most_once :
  forall methods decodes answer es rs, requests decodes answer es rs ->
    exists unanswered, Permutation (sent (drun methods decodes answer es) ++ unanswered) rs.
Proof. exact C14_at_most_once_proof. Qed.
Print Assumptions C14_at_most_once.

(** As long as requests are for known methods, notifications are not "exit" and messages are JSON-RPC, the server
    keeps running, and when all handlers have replied each request has exactly its one reply.  Missing from the full
    property: other messages (see above). *)
Theorem C14_partial :
  forall methods decodes answer es rs,
    Forall (conforming_event methods) es -> requests decodes answer es rs ->
    running (drun methods decodes answer es) = true /\
    (tasks (drun methods decodes answer es) = [] -> Permutation (sent (drun methods decodes answer es)) rs) /\
    (* the handlers can always finish, and then everything is answered *)
    exists n, tasks (drun methods decodes answer (es ++ repeat (Finish 0) n)) = [] /\
      Permutation (sent (drun methods decodes answer (es ++ repeat (Finish 0) n))) rs.
Proof. exact C14_partial_proof. Qed.
Print Assumptions C14_partial.

Theorem C14_requests_defined :
  forall decodes answer es, exists rs, requests decodes answer es rs /\
    forall rs', requests decodes answer es rs' -> rs' = rs.
Proof. exact C14_requests_defined_proof. Qed.
Print Assumptions C14_requests_defined.

Definition example_message (id : option json) (m : string) : json :=
  JObject ([(b "jsonrpc", JString (b "2.0")); (b "method", JString (b m))]
           ++ match id with Some i => [(b "id", i)] | None => [] end).
Example C14_nonvacuous :
  let methods := [b "hover"; b "rename"] in
  let decodes := fun m (_ : json) => bytes_eqb m (b "hover") in
  let answer := fun m (_ : json) => Result (JString m) in
  let es := [Message (example_message (Some (JInt 1)) "hover"); Message (example_message None "didOpen");
             Message (example_message (Some (JString (b "x"))) "hover"); Finish 1;
             Message (example_message (Some (JInt 2)) "rename"); Finish 0] in
  Forall (conforming_event methods) es /\
  sent (drun methods decodes answer es) =
    [(JString (b "x"), Result (JString (b "hover"))); (JInt 2, Error); (JInt 1, Result (JString (b "hover")))].
Proof.
  split; [|vm_compute; reflexivity].
  assert (RQ : forall i m, is_request (example_message (Some i) m) i (b m) JNull).
  { intros i m. eexists. split; [split; reflexivity|]. repeat split. }
  repeat (apply Forall_cons || apply Forall_nil); try exact I.
  - left. exists (JInt 1), (b "hover"), JNull. split; [apply RQ|cbn; tauto].
  - right. left. exists (b "didOpen"). split; [|discriminate]. eexists. split; [split; reflexivity|]. repeat split.
  - left. exists (JString (b "x")), (b "hover"), JNull. split; [apply RQ|cbn; tauto].
  - left. exists (JInt 2), (b "rename"), JNull. split; [apply RQ|cbn; tauto].
Qed.

(** ** C15: replies to server-initiated calls reach the right caller once.
    [t] is what happens, in order: identifiers given out, callbacks run.  Callbacks are told apart by name. *)
Theorem C15_ids :
  forall ops s t, NoDup (calls ops) -> op_run ops server_init = Ok (s, t) ->
    NoDup (issued t) /\ List.length (issued t) = List.length (calls ops).
Proof. exact C15_ids_proof. Qed.
Print Assumptions C15_ids.

(** The replies handed to the callbacks are the responses received, in order: a response with an error object is an
    error, any other one carries its result. *)
Theorem C15_delivered :
  forall methods decodes answer es rs, Forall (conforming_event methods) es -> responses es rs ->
    replies_in (drun methods decodes answer es) = rs.
Proof. exact C15_delivered_proof. Qed.
Print Assumptions C15_delivered.

Example C15_delivered_nonvacuous :
  let ok := JObject [(b "jsonrpc", JString (b "2.0")); (b "id", JInt 1); (b "result", JString (b "x"))] in
  let bad := JObject [(b "jsonrpc", JString (b "2.0")); (b "id", JInt 2); (b "error", JObject [])] in
  let es := [Message ok; Finish 0; Message bad] in
  Forall (conforming_event []) es /\ responses es [(JInt 1, Result (JString (b "x"))); (JInt 2, Error)].
Proof.
  cbv zeta. split.
  - constructor; [right; right; do 2 eexists; repeat split|]. constructor; [exact I|].
    constructor; [right; right; do 2 eexists; repeat split|constructor].
  - constructor; [|constructor; constructor; [|constructor]]; eexists; (split; [split; reflexivity|]); (split; [reflexivity|]); (split; [reflexivity|]).
    + right. split; [discriminate|reflexivity].
    + left. eexists. split; reflexivity.
Qed.

(** At any moment no more than 101 callbacks wait, and no more than 100 between operations. *)
Theorem C15_bounded :
  forall ops s t, NoDup (calls ops) -> op_run ops server_init = Ok (s, t) ->
    (forall l, NoDup l -> (forall i cb, In (i, cb) l -> waiting t cb i) -> List.length l <= 100) /\
    (forall t1 t2 l, t = t1 ++ t2 -> NoDup l -> (forall i cb, In (i, cb) l -> waiting t1 cb i) -> List.length l <= 101).
Proof. exact C15_bounded_proof. Qed.
Print Assumptions C15_bounded.

Theorem C15_once :
  forall ops s t cb, NoDup (calls ops) -> op_run ops server_init = Ok (s, t) -> runs_of cb t <= 1.
Proof. exact C15_once_proof. Qed.
Print Assumptions C15_once.

(** A callback run by a reply was waiting under the identifier of that reply.  Missing from the full property:
    identifiers below the range of int, see C15_refuted. *)
Theorem C15_right_reply_partial :
  forall ops s t t1 t2 cb z r, NoDup (calls ops) -> op_run ops server_init = Ok (s, t) ->
    t = t1 ++ Ran cb (Some z) r :: t2 -> int32 z ->
    waiting t1 cb z /\ exists id, In (Reply id r) ops /\ getAsInteger id = Some z.
Proof. exact C15_right_reply_partial_proof. Qed.
Print Assumptions C15_right_reply_partial.

(** A callback run for any other reason gets an error, and was the one waiting longest of 101. *)
Theorem C15_evicted :
  forall ops s t t1 t2 cb r, NoDup (calls ops) -> op_run ops server_init = Ok (s, t) ->
    t = t1 ++ Ran cb None r :: t2 ->
    r = Error /\ exists i, waiting t1 cb i /\ (forall cb' i', waiting t1 cb' i' -> cb' <> cb -> (i < i')%Z) /\
    exists l, NoDup l /\ List.length l = 101 /\ forall j c, In (j, c) l -> waiting t1 c j.
Proof. exact C15_evicted_proof. Qed.
Print Assumptions C15_evicted.

(** The reply to a waiting call runs its callback. *)
Theorem C15_completed :
  forall ops s t cb i r, NoDup (calls ops) -> op_run ops server_init = Ok (s, t) -> waiting t cb i ->
    exists s', op_step (Reply (JInt i) r) s = Ok (s', [Ran cb (Some i) r]).
Proof. exact C15_completed_proof. Qed.
Print Assumptions C15_completed.

(** None of this fails as long as fewer than 2^31 - 1 calls are made and replies have identifiers that are integers
    not above INT_MAX. *)
Theorem C15_safe :
  forall ops, NoDup (calls ops) -> (Z.of_nat (List.length (calls ops)) < 2147483647)%Z ->
    (forall id r, In (Reply id r) ops -> exists z, getAsInteger id = Some z /\ (z <= 2147483647)%Z) ->
    exists s t, op_run ops server_init = Ok (s, t).
Proof. exact C15_safe_proof. Qed.
Print Assumptions C15_safe.

(** False for identifiers below the range of int: they wrap around. *)
Theorem C15_refuted :
  exists ops s t cb z r, NoDup (calls ops) /\ op_run ops server_init = Ok (s, t) /\
    In (Ran cb (Some z) r) t /\ forall i, In (Issued cb i) t -> i <> z.
Proof. exact C15_refuted_proof. Qed.
Print Assumptions C15_refuted.

Example C15_nonvacuous :
  let ops := List.map Call (seq 0 101) ++ [Reply (JInt 5) (Result JNull); Reply (JInt 1) Error; Reply (JInt 5) Error] in
  NoDup (calls ops) /\
  exists s t, op_run ops server_init = Ok (s, t) /\ skipn 101 t = [Ran 0 None Error; Ran 4 (Some 5%Z) (Result JNull)].
Proof.
  split.
  - assert (E : calls (List.map Call (seq 0 101) ++ [Reply (JInt 5) (Result JNull); Reply (JInt 1) Error; Reply (JInt 5) Error]) = seq 0 101)
      by (vm_compute; reflexivity).
    rewrite E. apply seq_NoDup.
  - do 2 eexists. split; vm_compute; reflexivity.
Qed.

(** ** C16: a reply with a malformed identifier does not bring the server down.
    False: a string, null or an integer above INT_MAX ends the process with an uncaught exception; an integer below
    INT_MIN can complete someone else's call. *)
Theorem C16_refuted :
  (exists w1 w2 w3, onReply (JString (b "1")) Error server_init = Crash w1 /\
     onReply JNull Error server_init = Crash w2 /\ onReply (JInt 2147483648) Error server_init = Crash w3) /\
  exists s z cb, mfind z (pending s) = None /\ exists s' r, onReply (JInt z) r s = Ok (s', [(cb, r)]).
Proof. exact C16_refuted_proof. Qed.
Print Assumptions C16_refuted.

(** Exactly the identifiers that are no integers, or too large, bring the server down; an integer within int that is
    not that of a waiting call changes nothing.  Missing from the full property: the other identifiers. *)
Theorem C16_partial :
  forall id r s,
    ((exists w, onReply id r s = Crash w) <->
       match getAsInteger id with Some z => (2147483647 < z)%Z | None => True end) /\
    (forall z, getAsInteger id = Some z -> int32 z -> (forall cb, ~ In (z, cb) (pending s)) -> onReply id r s = Ok (s, [])).
Proof. exact C16_partial_proof. Qed.
Print Assumptions C16_partial.

Example C16_nonvacuous :
  getAsInteger (JDouble (Some 8%Z)) = Some 8%Z /\ int32 8 /\ (forall cb, ~ In (8%Z, cb) (pending (Server [(3%Z, 0)] 4))) /\
  onReply (JInt 3) Error (Server [(3%Z, 0)] 4) = Ok (Server [] 4, [(0, Error)]).
Proof.
  split; [reflexivity|]. split; [unfold int32; lia|]. split; [|reflexivity]. intros cb [E|[]]. discriminate.
Qed.
