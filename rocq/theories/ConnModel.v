(** Model of nixd/lspserver/src/Connection.cpp and nixd/lspserver/src/LSPServer.cpp. *)
From Verif Require Import Base.

(** ** Framing *)

(** raw_ostream << size_t (used at Connection.cpp:121): decimal digits without leading zeros; the fuel is the number
    of binary digits plus one, which is always enough *)
Definition digit (n : N) : ascii := ascii_of_N (48 + n).
Fixpoint decimal_go (fuel : nat) (n : N) (acc : bytes) : bytes :=
  match fuel with
  | 0 => acc
  | S fuel =>
      let acc' := digit (n mod 10) :: acc in
      if (n <? 10)%N then acc' else decimal_go fuel (n / 10) acc'
  end.
Definition decimal_of (n : N) : bytes := decimal_go (S (N.to_nat (N.size n))) n [].

Definition CRLF : bytes := ["013"%char; "010"%char].

(** Connection.cpp:113-124 sendMessage, on the serialised message *)
Definition frame (payload : bytes) : bytes :=
  b "Content-Length: " ++ decimal_of (N.of_nat (List.length payload)) ++ CRLF ++ CRLF ++ payload.

(** What the operating system answers to the reader's successive system calls. The stream [left] holds what the
    writer has sent and the reader has not yet read. *)
Inductive ev :=
| Data (k : nat)   (* input available; a read returns at most k (but at least one) bytes *)
| Timeout          (* poll returns without an event; the parent process is alive *)
| Hangup           (* poll reports POLLHUP (possibly together with POLLIN: data may still be buffered) *)
| Intr             (* the read system call fails with EINTR *)
| Stop.            (* poll fails, the port is closed, or the parent has died *)

(** result of reading: end of input, a value, or not enough events to go on *)
Inductive rd (A : Type) := Eof | Got (a : A) (left : bytes) (evs : list ev) | Blocked.
Arguments Eof {A}.  Arguments Got {A} a left evs.  Arguments Blocked {A}.

(** Connection.cpp:163-207 readLine; [acc] is Line reversed.  Line 184 gives up on POLLHUP before looking at POLLIN;
    a read of 0 bytes is the end of the stream; EINTR retries (192). *)
Fixpoint readLine (evs : list ev) (left acc : bytes) : rd bytes :=
  match evs with
  | [] => Blocked
  | Stop :: _ => Eof
  | Hangup :: _ => Eof
  | Timeout :: evs' => readLine evs' left acc
  | Intr :: evs' => readLine evs' left acc
  | Data _ :: evs' =>
      match left with
      | [] => Eof
      | c :: left' =>
          if Ascii.eqb c "010" then Got (rev acc) left' evs' else readLine evs' left' (c :: acc)
      end
  end.

Definition is_space (c : ascii) : bool := existsb (Ascii.eqb c) [" "%char; "009"%char; "010"%char; "011"%char; "012"%char; "013"%char].
Fixpoint ltrim (s : bytes) : bytes :=
  match s with c :: r => if is_space c then ltrim r else s | [] => [] end.
(** StringRef::trim *)
Definition trim (s : bytes) : bytes := rev (ltrim (rev (ltrim s))).

(** the digit value of llvm::consumeUnsignedInteger *)
Definition char_value (c : ascii) : option N :=
  let n := code c in
  if (48 <=? n)%N && (n <=? 57)%N then Some (n - 48)%N
  else if (97 <=? n)%N && (n <=? 122)%N then Some (n - 97 + 10)%N
  else if (65 <=? n)%N && (n <=? 90)%N then Some (n - 65 + 10)%N
  else None.

Definition two64 : N := 18446744073709551616.

(** the loop of llvm::consumeUnsignedInteger: the value when it stops, whether it overflowed *)
Fixpoint consume_digits (radix : N) (s : bytes) (acc : N) : N * bool :=
  match s with
  | [] => (acc, false)
  | c :: r =>
      match char_value c with
      | Some v =>
          if (v <? radix)%N then
            let acc' := ((acc * radix + v) mod two64)%N in
            if (acc' / radix <? acc)%N then (acc', true) else consume_digits radix r acc'
          else (acc, false)
      | None => (acc, false)
      end
  end.

(** llvm::getAsUnsignedInteger(Str, 0, Result) as used at Connection.cpp:221: the error is ignored and only Result
    matters; [old] is its value before.  The radix is sensed from the prefix (GetAutoSenseRadix). *)
Definition auto_radix (s : bytes) : N * bytes :=
  match s with
  | "0"%char :: c :: r =>
      if existsb (Ascii.eqb c) (b "xX") then (16%N, r)
      else if existsb (Ascii.eqb c) (b "bB") then (2%N, r)
      else if existsb (Ascii.eqb c) (b "o") then (8%N, r)
      else if (48 <=? code c)%N && (code c <=? 57)%N then (8%N, c :: r)
      else (10%N, s)
  | _ => (10%N, s)
  end.
Definition getContentLength (s : bytes) (old : N) : N :=
  let '(radix, s') := auto_radix s in
  match s' with [] => old | _ => fst (consume_digits radix s' 0) end.

(** Connection.cpp:212-229, the header loop.  One unit of fuel per header line. *)
Fixpoint readHeaders (fuel : nat) (evs : list ev) (left : bytes) (len : N) : rd N :=
  match fuel with
  | 0 => Blocked
  | S fuel =>
      match readLine evs left [] with
      | Blocked => Blocked
      | Eof => Eof
      | Got line left' evs' =>
          let key := b "Content-Length: " in
          if starts_with key line
          then readHeaders fuel evs' left' (getContentLength (trim (skipn (List.length key) line)) len)
          else match trim line with
               | [] => Got len left' evs'
               | _ => readHeaders fuel evs' left' len
               end
      end
  end.

(** Connection.cpp:231-241, the body loop: [buf] is Buffer, [pos] is Pos.  Buffer is taken to start as zero bytes
    (resize keeps those of the previous message); this shows only when the very first read fails.  A failed read returns -1, which as a size_t makes Pos + Read = Pos - 1 modulo 2^64: the next read overwrites
    the last byte; at Pos = 0 the loop ends at once. *)
Fixpoint readBody (evs : list ev) (left : bytes) (len : nat) (buf : bytes) (pos : nat) : rd bytes :=
  if Nat.leb len pos then Got buf left evs
  else
    match evs with
    | [] => Blocked
    | Data k :: evs' =>
        match left with
        | [] => Eof
        | _ =>
            let n := Nat.min (Nat.min (Nat.max 1 k) (len - pos)) (List.length left) in
            readBody evs' (skipn n left) len (firstn pos buf ++ firstn n left ++ skipn (pos + n) buf) (pos + n)
        end
    | Intr :: evs' =>
        match pos with
        | 0 => Got buf left evs'
        | S pos' => readBody evs' left len buf pos'
        end
    | (Timeout | Hangup | Stop) :: evs' => readBody evs' left len buf pos   (* not looked at here *)
    end.

(** Connection.cpp:209-243 readStandardMessage, up to json::parse *)
Definition readMessage (evs : list ev) (left : bytes) : rd bytes :=
  match readHeaders (S (List.length evs)) evs left 0%N with
  | Blocked => Blocked
  | Eof => Eof
  | Got len left' evs' => readBody evs' left' (N.to_nat len) (repeat "000"%char (N.to_nat len)) 0
  end.

(** Connection.cpp:318-339 loop, reading only: the payloads received, and whether the loop ended *)
Fixpoint readAll (fuel : nat) (evs : list ev) (left : bytes) : list bytes * bool :=
  match fuel with
  | 0 => ([], false)
  | S fuel =>
      match readMessage evs left with
      | Blocked => ([], false)
      | Eof => ([], true)
      | Got m left' evs' => let '(ms, e) := readAll fuel evs' left' in (m :: ms, e)
      end
  end.

(** ** Dispatch *)

(** llvm::json::Value; a double carries its value only when it is integral and fits in an int64, which is all
    getAsInteger looks at *)
Inductive json :=
| JNull | JBool (x : bool) | JInt (z : Z) | JDouble (integral : option Z)
| JString (s : bytes) | JArray (l : list json) | JObject (fields : list (bytes * json)).

(** Value::getAsInteger *)
Definition getAsInteger (j : json) : option Z :=
  match j with JInt z => Some z | JDouble z => z | _ => None end.
Definition getAsObject (j : json) : option (list (bytes * json)) :=
  match j with JObject o => Some o | _ => None end.
Fixpoint get (k : bytes) (o : list (bytes * json)) : option json :=
  match o with
  | [] => None
  | (k', v) :: o' => if bytes_eqb k k' then Some v else get k o'
  end.
Definition getString (k : bytes) (o : list (bytes * json)) : option bytes :=
  match get k o with Some (JString s) => Some s | _ => None end.

(** what a reply says: a result or an error (its text left out) *)
Inductive outcome := Result (j : json) | Error.

(** callbacks are named by numbers *)
Definition callback := nat.

Record server := Server {
  pending : list (Z * callback);   (* std::map<int, Callback>: sorted by increasing ID *)
  topID : Z
}.
Definition server_init : server := Server [] 1.

Definition INT_MAX : Z := 2147483647.
Definition to_int (z : Z) : Z := ((z + 2147483648) mod 4294967296 - 2147483648)%Z.
Definition MaxPendingCalls : nat := 100.

(** PendingCalls[ID] = CB *)
Fixpoint minsert (id : Z) (cb : callback) (m : list (Z * callback)) : list (Z * callback) :=
  match m with
  | [] => [(id, cb)]
  | (i, c) :: m' =>
      if (id <? i)%Z then (id, cb) :: m
      else if (id =? i)%Z then (id, cb) :: m'
      else (i, c) :: minsert id cb m'
  end.
Fixpoint mfind (id : Z) (m : list (Z * callback)) : option callback :=
  match m with
  | [] => None
  | (i, c) :: m' => if (id =? i)%Z then Some c else mfind id m'
  end.
Definition merase (id : Z) (m : list (Z * callback)) : list (Z * callback) :=
  filter (fun ic => negb (fst ic =? id)%Z) m.

(** LSPServer.cpp:81-98 bindReply: the ID, the new state, and the callback run with an error, if any *)
Definition bindReply (cb : callback) (s : server) : res (Z * server * list (callback * outcome)) :=
  let id := topID s in
  if (id =? INT_MAX)%Z then Crash "signed overflow of TopID"
  else
    let m := minsert id cb (pending s) in
    if Nat.ltb MaxPendingCalls (List.length m) then
      match m with
      | [] => Crash "unreachable"
      | (_, oldest) :: m' => Ok (id, Server m' (id + 1), [(oldest, Error)])
      end
    else Ok (id, Server m (id + 1), []).

(** LSPServer.cpp:53-79 onReply; it always returns true *)
Definition onReply (id : json) (r : outcome) (s : server) : res (server * list (callback * outcome)) :=
  match getAsInteger id with
  | None => Crash "uncaught std::logic_error: not an integer message ID"
  | Some z =>
      if (INT_MAX <? z)%Z then Crash "uncaught std::logic_error: id is too large"
      else
        let i := to_int z in
        match mfind i (pending s) with
        | Some cb => Ok (Server (merase i (pending s)) (topID s), [(cb, r)])
        | None => Ok (s, [])
        end
  end.

(** A history of outgoing calls and incoming replies; the trace lists the IDs issued (oldest first) and the callback
    runs. *)
Inductive op := Call (cb : callback) | Reply (id : json) (r : outcome).
Inductive obs := Issued (cb : callback) (id : Z) | Ran (cb : callback) (why : option Z) (o : outcome).
(** [Ran cb (Some z) o]: by a reply with integer identifier z; [Ran cb None Error]: evicted. *)
Definition op_step (o : op) (s : server) : res (server * list obs) :=
  match o with
  | Call cb =>
      let* (id, s', ran) := bindReply cb s in
      Ok (s', Issued cb id :: List.map (fun co => Ran (fst co) None (snd co)) ran)
  | Reply id r =>
      let* (s', ran) := onReply id r s in
      Ok (s', List.map (fun co => Ran (fst co) (getAsInteger id) (snd co)) ran)
  end.
Fixpoint op_run (ops : list op) (s : server) : res (server * list obs) :=
  match ops with
  | [] => Ok (s, [])
  | o :: ops' =>
      let* (s1, t1) := op_step o s in
      let* (s2, t2) := op_run ops' s1 in
      Ok (s2, t1 ++ t2)
  end.

(** *** Incoming messages *)
Section Dispatch.
(** the registered methods and notifications (Support.cpp:69-138) *)
Variable methods : list bytes.
(** whether a handler can decode its parameters (LSPBinder.h:61), and what it finally answers: every handler of the
    controller calls its Reply exactly once; that is assumed here, and the time when it does so is left open. *)
Variable decodes : bytes -> json -> bool.
Variable answer : bytes -> json -> outcome.

(** requests whose handler has been started and has not replied yet *)
Record task := Task { t_id : json; t_method : bytes; t_params : json }.

(** Sent id o: OutboundPort::reply *)
Record dstate := DState { tasks : list task; sent : list (json * outcome); running : bool; replies_in : list (json * outcome) }.
Definition dinit : dstate := DState [] [] true [].

Definition method_known (m : bytes) : bool := existsb (bytes_eqb m) methods.

(** Connection.cpp:126-161 dispatch with LSPServer.cpp:17-51; replies to the server's own calls are only recorded
    (their handling is [onReply]) *)
Definition dispatch (msg : json) (s : dstate) : dstate :=
  let stop := DState (tasks s) (sent s) false (replies_in s) in
  match getAsObject msg with
  | None => stop
  | Some o =>
      if negb (match getString (b "jsonrpc") o with Some v => bytes_eqb v (b "2.0") | None => false end) then stop
      else
        let id := get (b "id") o in
        match getString (b "method") o with
        | None =>
            match id with
            | None => stop
            | Some i =>
                let r := match get (b "error") o with
                         | Some (JObject _) => Error
                         | _ => Result (match get (b "result") o with Some v => v | None => JNull end)
                         end in
                DState (tasks s) (sent s) (running s) (replies_in s ++ [(i, r)])
            end
        | Some m =>
            let params := match get (b "params") o with Some p => p | None => JNull end in
            match id with
            | Some i =>
                if method_known m then
                  if decodes m params then DState (tasks s ++ [Task i m params]) (sent s) (running s) (replies_in s)
                  else DState (tasks s) (sent s ++ [(i, Error)]) (running s) (replies_in s)
                else stop
            | None => if bytes_eqb m (b "exit") then stop else s
            end
        end
  end.

(** One step: a message arrives (only while the loop runs), or the n-th started handler replies. *)
Inductive dev := Message (msg : json) | Finish (n : nat).
Definition dstep (e : dev) (s : dstate) : dstate :=
  match e with
  | Message msg => if running s then dispatch msg s else s
  | Finish n =>
      match nth_error (tasks s) n with
      | Some t => DState (firstn n (tasks s) ++ skipn (S n) (tasks s))
                         (sent s ++ [(t_id t, answer (t_method t) (t_params t))]) (running s) (replies_in s)
      | None => s
      end
  end.
Definition drun (es : list dev) : dstate := fold_left (fun s e => dstep e s) es dinit.
End Dispatch.
