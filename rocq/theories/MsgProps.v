(** Properties C86 to C90: resolved actions and completion items, messages from the client, folding ranges on the wire and the
    text inserted for an option. *)
From Verif Require Import Base TextModel TextSpec UriModel UriSpec ConnModel EvalModel EvalSpec EvalProofs ActModel FeatModel ReqModel MsgModel MsgSpec MsgProofs MsgFacts.
From Coq Require Import Sorted Lia.

(** ** C86: resolving a code action gives it back.
    An action whose edit changes text only, in the form in which the server sent it, which says all of the action, is answered
    with that same form; an address is opened exactly if the action's data has one. *)
Theorem C86_partial : forall a, sendable a ->
  exists j opened, codeActionToJSON a = Ok j /\ says_action j a /\ onCodeActionResolve j = Ok (Answered j opened) /\
    forall u, opened = Some u <-> address a u.
Proof. exact C86_partial_proof. Qed.
Print Assumptions C86_partial.
(** The server's own action "extract to file" loses its edit: the file to be created cannot be read back. *)
Theorem C86_refuted : exists a j o, codeActionToJSON a = Ok j /\ (exists w, ca_edit a = Some w) /\
  onCodeActionResolve j = Ok (Answered (JObject o) None) /\ absent o "edit".
Proof. exact C86_refuted_proof. Qed.
Print Assumptions C86_refuted.
Example C86_partial_example : exists a, sendable a /\ exists w, ca_edit a = Some w.
Proof.
  exists (CodeAction (b "Open noogle") (Some (b "refactor")) true
    (Some (WorkspaceEdit (Some [(b "file:///a.nix", [TextEdit (LPos 0 0, LPos 0 1) (b "x") []])]) None))
    (Some (JObject [(b "noogleUrl", JString (b "https://noogle.dev/f/lib/id"))]))).
  pose proof isUTF8_inv as T.
  split; [|eexists; reflexivity]. split; [apply T; reflexivity|]. split; [intros x [= <-]; apply T; reflexivity|].
  intros w [= <-]. split; [|intros x [=]]. intros x [= <-]. split; [repeat constructor|].
  intros p [<-|[]]. split; [apply T; reflexivity|]. intros e [<-|[]]. split; apply T; reflexivity.
Qed.

(** ** C87: resolving a completion item keeps it and adds its documentation.
    For a package that the server offered (the data is the JSON text of the set that was completed and of the prefix), the
    reply has the label, the kind, the edit and the data of the item, the version (or a question mark) as its detail, and the
    two descriptions as documentation in markdown. *)
Theorem C87_partial : forall ask parse (x : bytes) r (scope : list bytes) prefix text j,
  x <> [] -> is_text x -> is_text text -> text <> [] -> completeToJSON (CompleteParams scope prefix) = Ok j -> parse text = Some j ->
  all_of is_text scope -> is_text prefix ->
  let d := match ask (scope ++ [x]) with Some i => ai_PackageDesc i | None => PackageDescription None None None None None None None end in
  let version := match pk_Version d with Some v => v | None => b "?" end in
  let words := match pk_Description d with Some v => v | None => [] end ++ LF ++ LF ++
               match pk_LongDescription d with Some v => v | None => [] end in
  is_text version -> is_text words ->
  exists request o, itemToJSON (packageItem x r text) = Ok request /\
    onCompletionItemResolve (Some ask) parse request = Ok (Answered (JObject o) None) /\
    field o "label" (JString x) /\ field o "kind" (JInt 5) /\
    (exists e, textEditToJSON (TextEdit r x []) = Ok e /\ field o "textEdit" e) /\
    field o "data" (JString text) /\
    (version <> [] -> field o "detail" (JString version)) /\
    field o "documentation" (JObject [(b "kind", JString (b "markdown")); (b "value", JString words)]).
Proof. exact C87_partial_proof. Qed.
Print Assumptions C87_partial.
(** An item without data, in the form in which the server sends it, which says all of the item, is answered with that form. *)
Theorem C87_kept_partial : forall client parse i, plain_item i -> ci_data i = [] ->
  exists j, itemToJSON i = Ok j /\ says_item j i /\ onCompletionItemResolve client parse j = Ok (Answered j None).
Proof. exact C87_kept_partial_proof. Qed.
Print Assumptions C87_kept_partial.
Example C87_kept_partial_example : exists i, plain_item i /\ ci_data i = [] /\ ci_insertText i <> [].
Proof.
  exists (Item (b "enable") 4 (b "nixos | boolean") (Some (true, b "Whether to enable it.")) [] [] (b "enable = ${1:false};") 2 None [] false []).
  pose proof isUTF8_inv as T. split; [|split; [reflexivity|discriminate]].
  split; [discriminate|]. split. { intros x [<-|[<-|[<-|[<-|[<-|[<-|[]]]]]]]; apply T; reflexivity. }
  split; [split; [discriminate|unfold is_int; cbn [ci_kind]; lia]|]. split; [split; [discriminate|unfold is_int; cbn [ci_format]; lia]|].
  split; [intros m [= <-]; split; [discriminate|apply T; reflexivity]|]. split; [intros e [=]|]. split; [intros e []|reflexivity].
Qed.
(** The reply for a package has an insertTextFormat that the item did not have, and 5 is no value of that field. *)
Theorem C87_refuted : exists ask parse x r text request o o', itemToJSON (packageItem x r text) = Ok request /\
  request = JObject o /\ absent o "insertTextFormat" /\
  onCompletionItemResolve (Some ask) parse request = Ok (Answered (JObject o') None) /\ field o' "insertTextFormat" (JInt 5).
Proof. exact C87_refuted_proof. Qed.
Print Assumptions C87_refuted.
(** The protocol allows a string as documentation, and it allows an item without a kind: an assertion fails for the one and
    an uninitialised field is read for the other. *)
Theorem C87_documentation_refuted : exists client parse o why, field o "label" (JString (b "x")) /\ field o "kind" (JInt 5) /\
  field o "documentation" (JString (b "text")) /\ onCompletionItemResolve client parse (JObject o) = Crash why.
Proof. exact C87_documentation_refuted_proof. Qed.
Print Assumptions C87_documentation_refuted.
Theorem C87_kind_refuted : exists client parse o why, field o "label" (JString (b "x")) /\ absent o "kind" /\
  onCompletionItemResolve client parse (JObject o) = Crash why.
Proof. exact C87_kind_refuted_proof. Qed.
Print Assumptions C87_kind_refuted.
(** Without an evaluator for nixpkgs, an item with data makes the server dereference a null pointer. *)
Theorem C87_client_refuted : exists parse request why,
  (exists x r text, x <> [] /\ itemToJSON (packageItem x r text) = Ok request) /\ onCompletionItemResolve None parse request = Crash why.
Proof. exact C87_client_refuted_proof. Qed.
Print Assumptions C87_client_refuted.
Example C87_partial_example : exists ask parse x scope prefix text j,
  x <> [] /\ is_text x /\ is_text text /\ text <> [] /\ completeToJSON (CompleteParams scope prefix) = Ok j /\ parse text = Some j /\
  all_of is_text scope /\ is_text prefix /\
  exists i, ask (scope ++ [x]) = Some i /\ pk_Version (ai_PackageDesc i) = Some (b "2.12.1") /\
    is_text (b "2.12.1") /\ is_text (b "A greeter" ++ LF ++ LF ++ []).
Proof.
  exists (fun q => match q with [_; n] => Some (AttrPathInfo (ValueMeta 7 None)
      (PackageDescription (Some n) None (Some (b "2.12.1")) (Some (b "A greeter")) None None None) None) | _ => None end).
  exists (fun t => if bytes_eqb t (b "{}") then Some (JObject [(b "Scope", JArray [JString (b "python3Packages")]); (b "Prefix", JString (b "num"))]) else None).
  exists (b "numpy"), [b "python3Packages"], (b "num"), (b "{}"). eexists. pose proof isUTF8_inv as T.
  split; [discriminate|]. split; [apply T; reflexivity|]. split; [apply T; reflexivity|]. split; [discriminate|].
  split; [vm_compute; reflexivity|]. split; [vm_compute; reflexivity|].
  split; [intros y [<-|[]]; apply T; reflexivity|]. split; [apply T; reflexivity|].
  eexists. split; [reflexivity|]. split; [reflexivity|]. split; apply T; reflexivity.
Qed.

(** ** C88: a conforming client's messages are understood, whatever other fields they have. *)
Theorem C88_partial :
  (forall j f p, says_at j f p -> positionParams j = Some (f, p)) /\
  (forall j f p n, says_rename j f p n -> renameParams j = Some (f, p, n)) /\
  (forall j f v t, says_open j f v t -> didOpenParams j = Some (f, Some v, t)) /\
  (forall j f v cs, says_changes j f v cs -> didChangeParams j = Some (f, Some v, cs)) /\
  (forall j f r ds kinds, says_codeAction is_text_code j f r ds kinds -> codeActionParams j = Some (f, r, (ds, kinds))) /\
  (forall j i, plain_item i -> says_item j i -> itemFromJSON j = Ok (Some i)).
Proof. exact C88_partial_proof. Qed.
Print Assumptions C88_partial.
(** The code of a diagnostic may be a number; a request for code actions with one is refused. *)
Theorem C88_refuted : exists j f r ds kinds, says_codeAction is_code j f r ds kinds /\ codeActionParams j = None.
Proof. exact C88_refuted_proof. Qed.
Print Assumptions C88_refuted.
Example C88_partial_example :
  says_codeAction is_text_code (action_request (JString (b "sema-unused-def"))) (b "/a.nix") (LPos 0 0, LPos 0 0) [((LPos 0 0, LPos 0 0), b "m")] [] /\
  says_changes change_request (b "/a.nix") 3 [Change (Some (LPos 0 0, LPos 0 0)) (Some 0%Z) (b "x"); Change None None (b "y")].
Proof.
  split; [apply action_request_says; [discriminate|eexists; reflexivity]|].
  do 6 eexists. split; [reflexivity|]. split; [apply here; reflexivity|]. split; [reflexivity|]. split; [apply here; reflexivity|].
  split; [eexists; split; [reflexivity|vm_compute; reflexivity]|]. split; [apply here; reflexivity|]. split; [now left|].
  split; [apply here; reflexivity|]. split; [|split; apply not_here; reflexivity].
  constructor; [|constructor; [|constructor]]; do 2 eexists; (split; [reflexivity|]); cbn [c_range c_rangeLength c_text says_maybe].
  - split; [eexists; split; [apply here; reflexivity|apply range00_says]|].
    split; [eexists; split; [apply here; reflexivity|]; split; [now left|lia]|]. split; [apply here; reflexivity|reflexivity].
  - split; [left; apply not_here; reflexivity|]. split; [left; apply not_here; reflexivity|]. split; [apply here; reflexivity|reflexivity].
Qed.

(** ** C89: folding ranges arrive as computed. *)
Theorem C89_partial : forall width r, p_char (l_start r) <> 0%Z -> p_char (l_end r) <> 0%Z ->
  exists j, foldingToJSON r = Ok j /\ forall s e, reads_folding width j s e <-> s = l_start r /\ e = l_end r.
Proof. exact C89_partial_proof. Qed.
Print Assumptions C89_partial.
(** A range that starts at the first column of a line is read as one that starts at that line's end. *)
Theorem C89_refuted : exists width r j, foldingToJSON r = Ok j /\
  exists s e, reads_folding width j s e /\ s <> l_start r.
Proof. exact C89_refuted_proof. Qed.
Print Assumptions C89_refuted.
Example C89_partial_example : exists width r j s e, p_char (l_start r) <> 0%Z /\ p_char (l_end r) <> 0%Z /\
  foldingToJSON r = Ok j /\ reads_folding width j s e.
Proof.
  exists (fun _ => 9%Z), (LRange (LPos 1 4) (LPos 3 5)). eexists. exists (LPos 1 4), (LPos 3 5).
  split; [discriminate|]. split; [discriminate|]. split; [vm_compute; reflexivity|].
  do 3 eexists. split; [reflexivity|]. split; [apply here; reflexivity|]. split; [now left|].
  split; [left; eexists; split; [apply here; reflexivity|now left]|]. split; [apply here; reflexivity|]. split; [now left|].
  left. eexists. split; [apply here; reflexivity|now left].
Qed.

(** ** C90: accepting a completed option inserts `name = value;`, as a snippet or as plain text, whatever the value is. *)
Theorem C90_partial : forall name value, no_special name ->
  fst (fillInsertText true name value) = true /\
  inserted Plain 0 (snd (fillInsertText true name value)) = name ++ b " = " ++ value ++ b ";" /\
  fillInsertText false name value = (false, name ++ b " = " ++ value ++ b ";").
Proof. exact C90_partial_proof. Qed.
Print Assumptions C90_partial.
(** A dollar sign in the name starts a tab stop. *)
Theorem C90_refuted : exists name value,
  inserted Plain 0 (snd (fillInsertText true name value)) <> name ++ b " = " ++ value ++ b ";".
Proof. exact C90_refuted_proof. Qed.
Print Assumptions C90_refuted.
Example C90_partial_example : no_special (b "enable") /\
  inserted Plain 0 (snd (fillInsertText true (b "enable") (b "{ a = ""${x}\n""; }"))) = b "enable = { a = ""${x}\n""; };".
Proof.
  split; [split; cbn; intuition discriminate|vm_compute; reflexivity].
Qed.
