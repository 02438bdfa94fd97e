(** Properties C91 and C92: the linter prints the reports; the life cycle of the server. *)
From Verif Require Import Base Diag LexModel AstModel SemaModel ParseModel VlaModel TextModel UriModel ConnModel EvalModel EvalSpec EvalProofs IdSpec IdFacts MsgSpec MsgProofs ToolModel ToolSpec ToolProofs ToolFacts.
From Coq Require Import Lia.

(** ** C91: the linter prints exactly the reports.
    nixf-tidy ends with status 0 and prints a list that shows, one by one and in order, the reports of the parser and, if the
    option is given, those of the variable analysis (which completes, by C74).  Missing: that the texts in the reports are
    Unicode whenever the document is. *)
Theorem C91_partial : forall primops argv src ast ds, plain_table primops ->
  (forall x internal, In (x, internal) primops -> internal = false) -> parse src = Ok (ast, ds) ->
  exists more,
  match ast with
  | Some root => exists s, vla primops root = Ok s /\
      ((In (b "--variable-lookup") argv /\ more = v_diags s) \/ (~ In (b "--variable-lookup") argv /\ more = []))
  | None => more = []
  end /\
  (all_of text_diag (ds ++ more) -> exists j, tidy primops argv src = Ok (j, 0%Z) /\ says_all shows_diag j (ds ++ more)).
Proof. exact C91_partial_proof. Qed.
Print Assumptions C91_partial.
(** The list determines the reports: no two different lists of reports are printed alike. *)
Theorem C91_unambiguous : forall j l l', says_all shows_diag j l -> says_all shows_diag j l' -> l = l'.
Proof. exact C91_unambiguous_proof. Qed.
Print Assumptions C91_unambiguous.
(** A document that is not Unicode is parsed, but the linter ends with an exception and prints nothing. *)
Theorem C91_refuted : exists src ast ds why, parse src = Ok (ast, ds) /\ ds <> [] /\ tidy [] [b "nixf-tidy"] src = Crash why.
Proof. exact C91_refuted_proof. Qed.
Print Assumptions C91_refuted.
Example C91_partial_example : exists primops argv src root ds s, plain_table primops /\
  (forall x internal, In (x, internal) primops -> internal = false) /\
  parse src = Ok (Some root, ds) /\ List.length ds = 2 /\ vla primops root = Ok s /\ List.length (v_diags s) = 2 /\
  In (b "--variable-lookup") argv /\ all_of text_diag (ds ++ v_diags s).
Proof.
  exists [], [b "nixf-tidy"; b "--variable-lookup"], (b "let a = 1; in (b").
  do 3 eexists. split; [split; [constructor|intros x []]|]. split; [intros x i []|]. split; [vm_compute; reflexivity|].
  split; [reflexivity|]. split; [vm_compute; reflexivity|]. split; [reflexivity|]. split; [right; now left|].
  assert (T : forall l, forallb isUTF8 l = true -> all_of is_text l).
  { intros l H s I. apply isUTF8_inv. rewrite forallb_forall in H. now apply H. }
  assert (U : forall d, forallb isUTF8 (d_args d) = true -> forallb (fun n => forallb isUTF8 (n_args n)) (d_notes d) = true ->
     forallb (fun f => isUTF8 (f_msg f) && forallb (fun e => isUTF8 (e_text e)) (f_edits f)) (d_fixes d) = true -> text_diag d).
  { intros d A B C. split; [now apply T|]. rewrite forallb_forall in B, C. split.
    - intros n I. apply T, B, I.
    - intros f I. specialize (C f I). apply andb_prop in C as [C C']. split; [now apply isUTF8_inv|].
      intros e J. apply isUTF8_inv. rewrite forallb_forall in C'. now apply C'. }
  cbn [app]. intros d I. repeat (destruct I as [<-|I]; [apply U; vm_compute; reflexivity|]). destruct I.
Qed.

(** ** C92: the life cycle of the protocol.
    From any state in which the server reads messages: a shutdown request is answered with null, once; `exit` after it ends
    the loop, later messages are not read, no answer is lost or added, and the status is 0. *)
Theorem C92_partial : forall methods decodes answer es msg id bye es',
  running (fst (life methods decodes answer es)) = true -> In (b "shutdown") methods -> (forall p, decodes (b "shutdown") p = true) ->
  is_request msg id "shutdown" -> is_notification bye "exit" -> (forall e, In e es' -> exists m, e = Message m) ->
  let n := List.length (tasks (fst (life methods decodes answer es))) in
  let before := fst (life methods decodes answer es) in
  let after := life methods decodes answer (es ++ [Message msg; Finish n; Message bye] ++ es') in
  snd after = 0%Z /\ running (fst after) = false /\ sent (fst after) = sent before ++ [(id, Result JNull)] /\
  tasks (fst after) = tasks before.
Proof. exact C92_partial_proof. Qed.
Print Assumptions C92_partial.
(** `exit` without a shutdown request has to give the status 1, and gives 0. *)
Theorem C92_refuted : exists methods decodes answer before bye, is_notification bye "exit" /\
  running (fst (life methods decodes answer (before ++ [Message bye]))) = false /\
  ~ due_status before (snd (life methods decodes answer (before ++ [Message bye]))).
Proof. exact C92_refuted_proof. Qed.
Print Assumptions C92_refuted.
(** After a shutdown request, other requests have to be refused; the server answers them. *)
Theorem C92_after_refuted : exists methods decodes answer down i before msg id r,
  is_request down i "shutdown" /\ In (i, Result JNull) (sent (fst (life methods decodes answer (Message down :: before)))) /\
  is_request msg id "textDocument/hover" /\
  In (id, Result r) (sent (fst (life methods decodes answer ((Message down :: before) ++ [Message msg; Finish 0])))).
Proof. exact C92_after_refuted_proof. Qed.
Print Assumptions C92_after_refuted.
(** Before the initialize request, other requests have to be refused; the server answers them. *)
Theorem C92_before_refuted : exists methods decodes answer es id r,
  (forall msg, In (Message msg) es -> forall i, ~ is_request msg i "initialize") /\
  In (id, Result r) (sent (fst (life methods decodes answer es))).
Proof. exact C92_before_refuted_proof. Qed.
Print Assumptions C92_before_refuted.
Example C92_partial_example : exists methods decodes answer es msg id bye,
  running (fst (life methods decodes answer es)) = true /\ tasks (fst (life methods decodes answer es)) <> [] /\
  In (b "shutdown") methods /\ (forall p, decodes (b "shutdown") p = true) /\
  is_request msg id "shutdown" /\ is_notification bye "exit".
Proof.
  exists [b "shutdown"; b "textDocument/hover"], (fun _ _ => true), (fun _ _ => Error), [Message (request_ 1 "textDocument/hover")],
    (request_ 2 "shutdown"), (JInt 2), exit_.
  split; [vm_compute; reflexivity|]. split; [vm_compute; discriminate|]. split; [now left|]. split; [reflexivity|].
  split; [apply request_is|apply exit_is].
Qed.
