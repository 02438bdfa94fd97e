(** Proofs of the theorems stated in ToolProps. *)
From Verif Require Import Base Diag LexModel AstModel SemaModel ParseModel VlaModel TextModel UriModel ConnModel EvalModel EvalSpec EvalProofs IdSpec IdFacts MsgSpec MsgProofs ToolModel ToolSpec ToolProofs.
From Coq Require Import Lia.

Definition request_ (id : Z) (m : string) : json :=
  JObject [(b "jsonrpc", JString (b "2.0")); (b "id", JInt id); (b "method", JString (b m)); (b "params", JObject [])].
Definition exit_ : json := JObject [(b "jsonrpc", JString (b "2.0")); (b "method", JString (b "exit"))].
Lemma request_is id m : is_request (request_ id m) (JInt id) m.
Proof. eexists. split; [reflexivity|]. split; [apply get_field; reflexivity|]. split; apply get_field; reflexivity. Qed.
Lemma exit_is : is_notification exit_ "exit".
Proof. eexists. split; [reflexivity|]. split; [apply get_field; reflexivity|]. split; [apply get_absent; reflexivity|apply get_field; reflexivity]. Qed.
Lemma exit_no_request id m : ~ is_request exit_ id m.
Proof. intros (o & E & _ & F & _). injection E as <-. apply get_field in F. discriminate F. Qed.
Definition latin1 : bytes := b "{ """ ++ ["233"%char] ++ b """ = 1; """ ++ ["233"%char] ++ b """ = 2; }".

Lemma C91_partial_proof : forall primops argv src ast ds, plain_table primops ->
  (forall x internal, In (x, internal) primops -> internal = false) -> parse src = Ok (ast, ds) ->
  exists more,
  match ast with
  | Some root => exists s, vla primops root = Ok s /\
      ((In (b "--variable-lookup") argv /\ more = v_diags s) \/ (~ In (b "--variable-lookup") argv /\ more = []))
  | None => more = []
  end /\
  (all_of text_diag (ds ++ more) -> exists j, tidy primops argv src = Ok (j, 0%Z) /\ says_all shows_diag j (ds ++ more)).
Proof.
  intros primops argv src ast ds HT HI HP. destruct ast as [root|].
  - destruct (C74_partial_proof src root ds primops HP HT HI) as [s HV].
    assert (D : In (b "--variable-lookup") argv \/ ~ In (b "--variable-lookup") argv).
    { destruct (snd (parseArgs argv)) eqn:E; [left; now apply parseArgs_lookup|right]. intro I. apply parseArgs_lookup in I. congruence. }
    assert (G : exists more, (In (b "--variable-lookup") argv /\ more = v_diags s) \/ (~ In (b "--variable-lookup") argv /\ more = [])).
    { destruct D as [D|D]; eexists; [left; split; [exact D|reflexivity]|right; split; [exact D|reflexivity]]. }
    destruct G as [more G]. exists more. split; [exists s; split; [exact HV|exact G]|]. intro T.
    apply (tidy_prints primops argv src (Some root) ds more HP); [exists s; split; [exact HV|exact G]|exact T].
  - exists []. split; [reflexivity|]. intro T. apply (tidy_prints primops argv src None ds [] HP); [reflexivity|exact T].
Qed.

Lemma C91_unambiguous_proof : forall j l l', says_all shows_diag j l -> says_all shows_diag j l' -> l = l'.
Proof.
  exact (clear_all shows_diag clear_diag).
Qed.

Lemma C91_refuted_proof : exists src ast ds why, parse src = Ok (ast, ds) /\ ds <> [] /\ tidy [] [b "nixf-tidy"] src = Crash why.
Proof.
  exists latin1. do 3 eexists. split; [vm_compute; reflexivity|]. split; [discriminate|]. vm_compute. reflexivity.
Qed.

Lemma C92_partial_proof : forall methods decodes answer es msg id bye es',
  running (fst (life methods decodes answer es)) = true -> In (b "shutdown") methods -> (forall p, decodes (b "shutdown") p = true) ->
  is_request msg id "shutdown" -> is_notification bye "exit" -> (forall e, In e es' -> exists m, e = Message m) ->
  let n := List.length (tasks (fst (life methods decodes answer es))) in
  let before := fst (life methods decodes answer es) in
  let after := life methods decodes answer (es ++ [Message msg; Finish n; Message bye] ++ es') in
  snd after = 0%Z /\ running (fst after) = false /\ sent (fst after) = sent before ++ [(id, Result JNull)] /\
  tasks (fst after) = tasks before.
Proof.
  exact life_ends.
Qed.

Lemma C92_refuted_proof : exists methods decodes answer before bye, is_notification bye "exit" /\
  running (fst (life methods decodes answer (before ++ [Message bye]))) = false /\
  ~ due_status before (snd (life methods decodes answer (before ++ [Message bye]))).
Proof.
  exists [b "shutdown"], (fun _ _ => true), (fun _ _ => Error), [], exit_. split; [apply exit_is|]. split; [vm_compute; reflexivity|].
  intros [[(m & i & [] & _) _]|[_ E]]. discriminate E.
Qed.

Lemma C92_after_refuted_proof : exists methods decodes answer down i before msg id r,
  is_request down i "shutdown" /\ In (i, Result JNull) (sent (fst (life methods decodes answer (Message down :: before)))) /\
  is_request msg id "textDocument/hover" /\
  In (id, Result r) (sent (fst (life methods decodes answer ((Message down :: before) ++ [Message msg; Finish 0])))).
Proof.
  exists [b "shutdown"; b "textDocument/hover"], (fun _ _ => true), (fun _ _ => Result (JInt 7)), (request_ 1 "shutdown"), (JInt 1),
    [Finish 0], (request_ 2 "textDocument/hover"), (JInt 2), (JInt 7).
  split; [apply request_is|]. split; [vm_compute; left; reflexivity|]. split; [apply request_is|]. vm_compute. right. left. reflexivity.
Qed.

Lemma C92_before_refuted_proof : exists methods decodes answer es id r,
  (forall msg, In (Message msg) es -> forall i, ~ is_request msg i "initialize") /\
  In (id, Result r) (sent (fst (life methods decodes answer es))).
Proof.
  exists [b "shutdown"], (fun _ _ => true), (fun _ _ => Error), [Message (request_ 1 "shutdown"); Finish 0], (JInt 1), JNull. split.
  - intros msg [I|[I|[]]] i H; [|discriminate I]. injection I as <-. destruct H as (o & E & _ & _ & F). injection E as <-.
    apply get_field in F. discriminate F.
  - vm_compute. left. reflexivity.
Qed.
