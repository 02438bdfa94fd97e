(** Properties C56, C57 and C71 of formatting and of calls to evaluators, and C59 for formatting. *)
From Verif Require Import Base TextModel TextSpec TextProofs TextFacts ConnModel ProcModel ProcSpec ProcProofs ProcFacts.

(** ** C56: formatting cannot deadlock and returns the formatter's output.
    [does F s input out err status unread] (ProcSpec): run on its own, the program [F] writes [out] and [err] bytes of
    messages and ends with [status], leaving [unread].  [right_answer] says what the request must then be answered
    with.  [wstep] are the steps of nixd and of the formatter, in any order.
    Missing: formatters that write more than a pipe holds, that leave input unread, and processes started at the same
    time; see below for these. *)
Theorem C56_partial : forall F K code evaluators, before_requests evaluators -> 0 < cap_in K ->
  ends F (pinit F) code ->
  (forall out err status unread, does F (pinit F) code out err status unread ->
     List.length out <= cap_out K /\ err <= cap_err K /\ unread = []) ->
  Acc (fun after before => wstep F K before after) (World [request F code] evaluators) /\
  forall w, steps (wstep F K) (World [request F code] evaluators) w ->
    (exists w', wstep F K w w') \/
    exists J a out err status, w_jobs w = [J] /\ j_thread J = Answered a /\
      does F (pinit F) code out err status [] /\ right_answer code out status a.
Proof. exact C56_partial_proof. Qed.
Print Assumptions C56_partial.

(** The hypotheses hold for cat(1) on a document that fits in the pipes. *)
Example C56_nonvacuous : forall code, ends cat (pinit cat) code /\
  forall out err status unread, does cat (pinit cat) code out err status unread ->
    List.length out <= List.length code /\ err <= 0 /\ unread = [].
Proof.
  intro code. split; [apply cat_ends|]. intros o e st un D. apply cat_does in D as (-> & _ & -> & ->). cbn. auto.
Qed.

(** A formatter that writes more than the pipe holds never gets nixd to answer: it is waited for before its output is
    read, and nobody reads its messages. *)
Theorem C56_no_answer : forall F K code evaluators w, before_requests evaluators -> ends F (pinit F) code ->
  (forall out err status unread, does F (pinit F) code out err status unread ->
     cap_out K < List.length out \/ cap_err K < err) ->
  steps (wstep F K) (World [request F code] evaluators) w -> ~ answered w.
Proof. exact C56_no_answer_proof. Qed.
Print Assumptions C56_no_answer.

(** So the claim fails, whatever the pipes hold: a document that is longer, and cat(1), which ends with it as its
    output and reads all of its input. *)
Theorem C56_refuted : forall K, exists F code, ends F (pinit F) code /\
  (forall out err status unread, does F (pinit F) code out err status unread -> out = code /\ err = 0 /\ status = 0%N /\ unread = []) /\
  forall w, steps (wstep F K) (World [request F code] []) w -> ~ answered w.
Proof. exact C56_refuted_proof. Qed.
Print Assumptions C56_refuted.

(** Two requests at the same time can wait for each other forever: each formatter keeps the other's input open. *)
Theorem C56_two_requests_refuted : forall K x, 0 < cap_in K -> 0 < cap_out K ->
  exists w, steps (wstep cat K) (World [request cat [x]; request cat [x]] []) w /\ ~ answered w /\ forall w', ~ wstep cat K w w'.
Proof. exact C56_two_requests_refuted_proof. Qed.
Print Assumptions C56_two_requests_refuted.

(** An evaluator started while the document is being written keeps the formatter's input open for good. *)
Theorem C56_evaluator_refuted : forall K x, 0 < cap_in K -> 0 < cap_out K ->
  exists w, steps (fun v v' => wstep cat K v v' \/ estep cat v v') (World [request cat [x]] []) w /\
    forall w', steps (fun v v' => wstep cat K v v' \/ estep cat v v') w w' -> ~ answered w'.
Proof. exact C56_evaluator_refuted_proof. Qed.
Print Assumptions C56_evaluator_refuted.

(** A formatter that ends without reading its input can bring nixd down. *)
Theorem C56_unread_refuted : forall K x, ends true1 (pinit true1) [x] /\
  exists w J, steps (wstep true1 K) (World [request true1 [x]] []) w /\ w_jobs w = [J] /\ j_thread J = Killed.
Proof. exact C56_unread_refuted_proof. Qed.
Print Assumptions C56_unread_refuted.

(** ** C71: formatting gives back the descriptors it takes.
    False: after [n] answered requests nixd has 2[n] ends of pipes open. *)
Theorem C71_refuted : forall K n, exists w, steps (wstep cat K) (World (repeat (request cat []) n) []) w /\
  List.length (w_jobs w) = n /\ (forall J, In J (w_jobs w) -> exists a, j_thread J = Answered a) /\
  List.length (open_ends 0 (repeat (request cat []) n)) = 0 /\ List.length (open_ends 0 (w_jobs w)) = 2 * n.
Proof. exact C71_refuted_proof. Qed.
Print Assumptions C71_refuted.

(** ** C57: a dead evaluator does not block requests.
    [Ask cb]: a request sends a call and waits for [cb] to be run.  [Die]: the evaluator ends; all other events are
    steps of nixd and of the evaluator, in any order.
    What holds: while the evaluator lives every call can be completed, and is completed once everything sent has been
    handled. *)
Theorem C57_partial : forall es c, clrun client_start es c -> ~ In Die es ->
  (cl_requests c = [] -> cl_replies c = [] -> forall cb, In (Ask cb) es -> exists o, In (cb, o) (cl_ran c)) /\
  exists es' c', clrun c es' c' /\ Forall (fun e => e = Evaluate \/ e = Receive) es' /\
    cl_requests c' = [] /\ cl_replies c' = [].
Proof. exact C57_partial_proof. Qed.
Print Assumptions C57_partial.

Example C57_nonvacuous : exists c, clrun client_start [Ask 7; Ask 8; Evaluate; Evaluate; Receive; Receive] c /\
  cl_requests c = [] /\ cl_replies c = [] /\ cl_ran c = [(7, Error); (8, Error)].
Proof.
  eexists. split.
  - change [Ask 7; Ask 8; Evaluate; Evaluate; Receive; Receive] with (((((([] ++ [Ask 7]) ++ [Ask 8]) ++ [Evaluate]) ++ [Evaluate]) ++ [Receive]) ++ [Receive]).
    eapply clrun_snoc; [eapply clrun_snoc; [eapply clrun_snoc; [eapply clrun_snoc; [eapply clrun_snoc; [eapply clrun_snoc; [constructor|]|]|]|]|]|].
    + eapply cl_ask. reflexivity.
    + eapply cl_ask. reflexivity.
    + apply (cl_evaluate _ _ _ _ _ _ Error).
    + apply (cl_evaluate _ _ _ _ _ _ Error).
    + eapply cl_receive. reflexivity.
    + eapply cl_receive. reflexivity.
  - repeat split.
Qed.

(** When it has died and nixd has seen that, a call not yet completed never is, unless by the next call, which nixd
    does not survive. *)
Theorem C57_stuck : forall es c, clrun client_start es c -> cl_alive c = false -> cl_listening c = false ->
  cl_killed c = false -> forall es' c', clrun c es' c' ->
  (es' = [] /\ c' = c) \/ ((exists cb, es' = [Ask cb]) /\ cl_killed c' = true).
Proof. exact C57_stuck_proof. Qed.
Print Assumptions C57_stuck.

(** So the claim fails, even for a call the evaluator has replied to. *)
Theorem C57_refuted : exists es c, clrun client_start es c /\ es = [Ask 7; Evaluate; Die; HangUp] /\
  forall es' c', clrun c es' c' -> cl_killed c' = true \/ forall o, ~ In (7, o) (cl_ran c').
Proof. exact C57_refuted_proof. Qed.
Print Assumptions C57_refuted.

(** ** C59 for formatting: it keeps a reference to the text of the document and nothing that owns it.
    False: the reference is taken in a state where the file is open, and then nobody owns the text any more. *)
Theorem C59_format_refuted : forall (A : Type) (analyse : bytes -> A), exists es es' f text sp sp',
  mexec A analyse (cinit A, Idle A) es sp /\ formatSource (drafts A (fst sp)) f = Ok text /\
  mexec A analyse sp es' sp' /\ has_owner sp' f = false.
Proof. exact C59_format_refuted_proof. Qed.
Print Assumptions C59_format_refuted.

(** and formatting a file that is not open is undefined *)
Theorem C59_format_unopened_refuted : exists f, match formatSource [] f with Crash _ => True | _ => False end.
Proof. exact C59_format_unopened_refuted_proof. Qed.
Print Assumptions C59_format_unopened_refuted.
