(** Proofs of the theorems stated in MsgProps. *)
From Verif Require Import Base TextModel TextSpec UriModel UriSpec ConnModel EvalModel EvalSpec EvalProofs ActModel FeatModel ReqModel MsgModel MsgSpec MsgProofs.
From Coq Require Import Sorted Lia.

Lemma here o k v : get (b k) o = Some v -> field o k v.
Proof. now intros; apply get_field. Qed.
Lemma not_here o k : get (b k) o = None -> absent o k.
Proof. now intros; apply get_absent. Qed.
Definition pos00 : json := JObject [(b "line", JInt 0); (b "character", JInt 0)].
Definition range00 : json := JObject [(b "start", pos00); (b "end", pos00)].
Definition doc_a : json := JObject [(b "uri", JString (b "file:///a.nix"))].
Lemma pos00_says : says_position pos00 (LPos 0 0).
Proof. do 3 eexists. split; [reflexivity|]. split; [apply here; reflexivity|]. split; [now left|]. split; [apply here; reflexivity|now left]. Qed.
Lemma range00_says : says_range range00 (LPos 0 0, LPos 0 0).
Proof. do 3 eexists. split; [reflexivity|]. split; [apply here; reflexivity|]. split; [apply pos00_says|]. split; [apply here; reflexivity|apply pos00_says]. Qed.
Lemma doc_a_says : says_document doc_a (b "/a.nix").
Proof. do 2 eexists. split; [reflexivity|]. split; [apply here; reflexivity|]. eexists. split; [reflexivity|vm_compute; reflexivity]. Qed.
Definition action_request (code : json) : json := JObject [(b "textDocument", doc_a); (b "range", range00);
  (b "context", JObject [(b "diagnostics", JArray [JObject [(b "range", range00); (b "message", JString (b "m")); (b "code", code)]])])].
Lemma action_request_says (P : json -> Prop) code : code <> JNull -> P code ->
  says_codeAction P (action_request code) (b "/a.nix") (LPos 0 0, LPos 0 0) [((LPos 0 0, LPos 0 0), b "m")] [].
Proof.
  intros N H. do 6 eexists. split; [reflexivity|]. split; [apply here; reflexivity|]. split; [apply doc_a_says|].
  split; [apply here; reflexivity|]. split; [apply range00_says|]. split; [apply here; reflexivity|]. split; [reflexivity|].
  split; [apply here; reflexivity|]. split; [|left; split; [reflexivity|apply not_here; reflexivity]]. constructor; [|constructor]. do 3 eexists. split; [reflexivity|].
  split; [apply here; reflexivity|]. split; [apply range00_says|]. split; [apply here; reflexivity|]. split; [reflexivity|].
  split; [left; apply not_here; reflexivity|]. split; [right; right; exists code; split; [apply here; reflexivity|]; split; [exact N|exact H]|].
  split; [left; apply not_here; reflexivity|apply not_here; reflexivity].
Qed.
Definition change_request : json := JObject [(b "textDocument", JObject [(b "uri", JString (b "file:///a.nix")); (b "version", JInt 3)]);
  (b "contentChanges", JArray [JObject [(b "range", range00); (b "rangeLength", JInt 0); (b "text", JString (b "x"))]; JObject [(b "text", JString (b "y"))]])].

Lemma C86_partial_proof : forall a, sendable a ->
  exists j opened, codeActionToJSON a = Ok j /\ says_action j a /\ onCodeActionResolve j = Ok (Answered j opened) /\
    forall u, opened = Some u <-> address a u.
Proof.
  exact resolved_action.
Qed.

Lemma C86_refuted_proof : exists a j o, codeActionToJSON a = Ok j /\ (exists w, ca_edit a = Some w) /\
  onCodeActionResolve j = Ok (Answered (JObject o) None) /\ absent o "edit".
Proof.
  exists (extractAction (b "Extract to a.nix") (b "/d/default.nix") (b "/d/a.nix") (b "{ }") (b "import ./a.nix") (LPos 0 2, LPos 0 5)).
  do 2 eexists. split; [vm_compute; reflexivity|]. split; [eexists; reflexivity|]. split; [vm_compute; reflexivity|].
  apply not_here. vm_compute. reflexivity.
Qed.

Lemma C87_partial_proof : forall ask parse (x : bytes) r (scope : list bytes) prefix text j,
  x <> [] -> is_text x -> is_text text -> text <> [] -> completeToJSON (CompleteParams scope prefix) = Ok j -> parse text = Some j ->
  all_of is_text scope -> is_text prefix ->
  let d := match ask (scope ++ [x]) with Some i => ai_PackageDesc i | None => PackageDescription None None None None None None None end in
  let version := match pk_Version d with Some v => v | None => b "?" end in
  let words := match pk_Description d with Some v => v | None => [] end ++ LF ++ LF ++
               match pk_LongDescription d with Some v => v | None => [] end in
  is_text version -> is_text words ->
  exists request o, itemToJSON (packageItem x r text) = Ok request /\
    onCompletionItemResolve (Some ask) parse request = Ok (Answered (JObject o) None) /\
    field o "label" (JString x) /\ field o "kind" (JInt 5) /\
    (exists e, textEditToJSON (TextEdit r x []) = Ok e /\ field o "textEdit" e) /\
    field o "data" (JString text) /\
    (version <> [] -> field o "detail" (JString version)) /\
    field o "documentation" (JObject [(b "kind", JString (b "markdown")); (b "value", JString words)]).
Proof.
  intros ask parse x r scope prefix text j Hx Tx Tt Ht Ej Pj Ts Tp d version words Tv Tw.
  destruct (rt_string version Tv) as (jt & Ev & _). destruct (rt_string words Tw) as (jx & Ew & _).
  destruct (resolved_package ask parse x r scope prefix text j jt jx Hx Tx Tt Ht Ej Pj Ts Tp Ev Ew)
    as (q & o & A & B & C & D & (e & E & E') & F & G & H & _).
  exists q, o. split; [exact A|]. split; [exact B|]. split; [now apply here|]. split; [now apply here|].
  split; [exists e; split; [exact E|now apply here]|]. split; [now apply here|]. split; [intro N; now apply here, G|now apply here].
Qed.

Lemma C87_kept_partial_proof : forall client parse i, plain_item i -> ci_data i = [] ->
  exists j, itemToJSON i = Ok j /\ says_item j i /\ onCompletionItemResolve client parse j = Ok (Answered j None).
Proof.
  exact kept_item.
Qed.

Lemma C87_refuted_proof : exists ask parse x r text request o o', itemToJSON (packageItem x r text) = Ok request /\
  request = JObject o /\ absent o "insertTextFormat" /\
  onCompletionItemResolve (Some ask) parse request = Ok (Answered (JObject o') None) /\ field o' "insertTextFormat" (JInt 5).
Proof.
  exists (fun _ => None), (fun t => if bytes_eqb t (b "q") then Some (JObject [(b "Scope", JArray []); (b "Prefix", JString (b "h"))]) else None),
    (b "hello"), (LPos 0 0, LPos 0 1), (b "q").
  do 3 eexists. split; [vm_compute; reflexivity|]. split; [reflexivity|]. split; [apply not_here; reflexivity|].
  split; [vm_compute; reflexivity|]. apply here. vm_compute. reflexivity.
Qed.

Lemma C87_documentation_refuted_proof : exists client parse o why, field o "label" (JString (b "x")) /\ field o "kind" (JInt 5) /\
  field o "documentation" (JString (b "text")) /\ onCompletionItemResolve client parse (JObject o) = Crash why.
Proof.
  exists None, (fun _ => None), [(b "label", JString (b "x")); (b "kind", JInt 5); (b "documentation", JString (b "text"))].
  eexists. split; [apply here; reflexivity|]. split; [apply here; reflexivity|]. split; [apply here; reflexivity|]. vm_compute. reflexivity.
Qed.

Lemma C87_kind_refuted_proof : exists client parse o why, field o "label" (JString (b "x")) /\ absent o "kind" /\
  onCompletionItemResolve client parse (JObject o) = Crash why.
Proof.
  exists None, (fun _ => None), [(b "label", JString (b "x"))].
  eexists. split; [apply here; reflexivity|]. split; [apply not_here; reflexivity|]. vm_compute. reflexivity.
Qed.

Lemma C87_client_refuted_proof : exists parse request why,
  (exists x r text, x <> [] /\ itemToJSON (packageItem x r text) = Ok request) /\ onCompletionItemResolve None parse request = Crash why.
Proof.
  exists (fun _ => Some (JObject [(b "Scope", JArray []); (b "Prefix", JString (b "h"))])).
  do 2 eexists. split; [exists (b "hello"), (LPos 0 0, LPos 0 1), (b "q"); split; [discriminate|vm_compute; reflexivity]|].
  vm_compute. reflexivity.
Qed.

Lemma C88_partial_proof :
  (forall j f p, says_at j f p -> positionParams j = Some (f, p)) /\
  (forall j f p n, says_rename j f p n -> renameParams j = Some (f, p, n)) /\
  (forall j f v t, says_open j f v t -> didOpenParams j = Some (f, Some v, t)) /\
  (forall j f v cs, says_changes j f v cs -> didChangeParams j = Some (f, Some v, cs)) /\
  (forall j f r ds kinds, says_codeAction is_text_code j f r ds kinds -> codeActionParams j = Some (f, r, (ds, kinds))) /\
  (forall j i, plain_item i -> says_item j i -> itemFromJSON j = Ok (Some i)).
Proof.
  split; [exact read_at|]. split; [exact read_rename|]. split; [exact read_open|]. split; [exact read_changes|]. split; [exact read_codeAction|].
  intros j i P S. exact (read_item j i P S).
Qed.

Lemma C88_refuted_proof : exists j f r ds kinds, says_codeAction is_code j f r ds kinds /\ codeActionParams j = None.
Proof.
  exists (action_request (JInt 4)), (b "/a.nix"), (LPos 0 0, LPos 0 0), [((LPos 0 0, LPos 0 0), b "m")], [].
  split; [apply action_request_says; [discriminate|right; exists 4%Z; now left]|vm_compute; reflexivity].
Qed.

Lemma C89_partial_proof : forall width r, p_char (l_start r) <> 0%Z -> p_char (l_end r) <> 0%Z ->
  exists j, foldingToJSON r = Ok j /\ forall s e, reads_folding width j s e <-> s = l_start r /\ e = l_end r.
Proof.
  exact read_folding.
Qed.

Lemma C89_refuted_proof : exists width r j, foldingToJSON r = Ok j /\
  exists s e, reads_folding width j s e /\ s <> l_start r.
Proof.
  exists (fun _ => 1%Z), (LRange (LPos 0 0) (LPos 2 1)). eexists. split; [vm_compute; reflexivity|].
  exists (LPos 0 1), (LPos 2 1). split; [|discriminate].
  do 3 eexists. split; [reflexivity|]. split; [apply here; reflexivity|]. split; [now left|].
  split; [right; split; [apply not_here; reflexivity|reflexivity]|]. split; [apply here; reflexivity|]. split; [now left|].
  left. eexists. split; [apply here; reflexivity|now left].
Qed.

Lemma C90_partial_proof : forall name value, no_special name ->
  fst (fillInsertText true name value) = true /\
  inserted Plain 0 (snd (fillInsertText true name value)) = name ++ b " = " ++ value ++ b ";" /\
  fillInsertText false name value = (false, name ++ b " = " ++ value ++ b ";").
Proof.
  intros name value H. split; [reflexivity|]. split; [exact (inserted_option name value H)|reflexivity].
Qed.

Lemma C90_refuted_proof : exists name value,
  inserted Plain 0 (snd (fillInsertText true name value)) <> name ++ b " = " ++ value ++ b ";".
Proof.
  exists (b "a$1b"), (b "true"). vm_compute. discriminate.
Qed.
