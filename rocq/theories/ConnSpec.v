(** What framing, request dispatch and outgoing calls should do. *)
From Coq Require Export Permutation.
From Verif Require Import Base ConnModel.

(** [x] is an initial part of [y]. *)
Definition initial_part {A} (x y : list A) : Prop := exists z, x ++ z = y.

(** ** C13 *)
Definition stream (ms : list bytes) : bytes := List.concat (List.map frame ms).

(** an undisturbed transport: bytes arrive in pieces of any size, at any time *)
Definition undisturbed (e : ev) : Prop := match e with Data _ | Timeout => True | _ => False end.
Definition is_data (e : ev) : bool := match e with Data _ => true | _ => false end.

(** The length of a message fits in a size_t. *)
Definition fits (m : bytes) : Prop := (N.of_nat (List.length m) < 2 ^ 64)%N.

(** ** C14 *)
(** the parts of a JSON-RPC message *)
Definition jsonrpc2 (msg : json) (o : list (bytes * json)) : Prop :=
  msg = JObject o /\ get (b "jsonrpc") o = Some (JString (b "2.0")).
Definition is_request (msg : json) (id : json) (m : bytes) (params : json) : Prop :=
  exists o, jsonrpc2 msg o /\ get (b "method") o = Some (JString m) /\ get (b "id") o = Some id /\
    params = match get (b "params") o with Some p => p | None => JNull end.
Definition is_notification (msg : json) (m : bytes) : Prop :=
  exists o, jsonrpc2 msg o /\ get (b "method") o = Some (JString m) /\ get (b "id") o = None.
Definition is_response (msg : json) (id : json) : Prop :=
  exists o, jsonrpc2 msg o /\ get (b "method") o = None /\ get (b "id") o = Some id.

Section Replies.
Variable decodes : bytes -> json -> bool.
Variable answer : bytes -> json -> outcome.
(** [requests es rs]: the requests among the incoming messages are answered by [rs], in order of arrival. *)
Inductive requests : list dev -> list (json * outcome) -> Prop :=
| RqNil : requests [] []
| RqRequest msg id m p es rs : is_request msg id m p -> requests es rs ->
    requests (Message msg :: es) ((id, if decodes m p then answer m p else Error) :: rs)
| RqOther msg es rs : (forall id m p, ~ is_request msg id m p) -> requests es rs -> requests (Message msg :: es) rs
| RqFinish n es rs : requests es rs -> requests (Finish n :: es) rs.
End Replies.

(** a response and what it carries: an error if it has an error object, otherwise its result (or null) *)
Definition response_with (msg : json) (id : json) (r : outcome) : Prop :=
  exists o, jsonrpc2 msg o /\ get (b "method") o = None /\ get (b "id") o = Some id /\
    ((exists e, get (b "error") o = Some (JObject e) /\ r = Error) \/
     ((forall e, get (b "error") o <> Some (JObject e)) /\
      r = Result (match get (b "result") o with Some v => v | None => JNull end))).
(** [responses es rs]: the responses among the incoming messages, in order of arrival, are [rs]. *)
Inductive responses : list dev -> list (json * outcome) -> Prop :=
| RsNil : responses [] []
| RsResponse msg id r es rs : response_with msg id r -> responses es rs -> responses (Message msg :: es) ((id, r) :: rs)
| RsOther msg es rs : (forall id r, ~ response_with msg id r) -> responses es rs -> responses (Message msg :: es) rs
| RsFinish n es rs : responses es rs -> responses (Finish n :: es) rs.

(** Messages a conforming client sends before it asks the server to exit: requests for methods the server knows,
    notifications, and responses to the server's calls. *)
Definition conforming (methods : list bytes) (msg : json) : Prop :=
  (exists id m p, is_request msg id m p /\ In m methods) \/
  (exists m, is_notification msg m /\ m <> b "exit") \/
  (exists id, is_response msg id).
Definition conforming_event (methods : list bytes) (e : dev) : Prop :=
  match e with Message msg => conforming methods msg | Finish _ => True end.

(** ** C15, C16 *)
Definition issued (t : list obs) : list Z :=
  flat_map (fun o => match o with Issued _ i => [i] | _ => [] end) t.
Definition calls (ops : list op) : list callback :=
  flat_map (fun o => match o with Call cb => [cb] | _ => [] end) ops.
Definition runs_of (cb : callback) (t : list obs) : nat :=
  List.length (filter (fun o => match o with Ran c _ _ => Nat.eqb c cb | _ => false end) t).
(** issued with identifier [i] and still waiting *)
Definition waiting (t : list obs) (cb : callback) (i : Z) : Prop :=
  In (Issued cb i) t /\ runs_of cb t = 0.
Definition int32 (z : Z) : Prop := (-2147483648 <= z <= 2147483647)%Z.
