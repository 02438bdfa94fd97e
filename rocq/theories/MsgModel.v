(** Model of messages between nixd and its client: the parts of nixd/lspserver/src/Protocol.cpp that read requests and write
    replies, codeAction/resolve (nixd/lib/Controller/CodeAction.cpp), completionItem/resolve and the text that a completed
    option inserts (nixd/lib/Controller/Completion.cpp).  JSON values are those of ConnModel, readers and writers of common
    types those of EvalModel; the text form of JSON is llvm's. *)
From Verif Require Import Base TextModel UriModel ConnModel EvalModel ActModel FeatModel RefModel ReqModel.

(** fields that are written only under a condition *)
Definition jmaybe {A} (k : string) (w : A -> res json) (o : option A) : list (string * res json) :=
  match o with Some a => [(k, w a)] | None => [] end.
Definition jtext (k : string) (s : bytes) : list (string * res json) := match s with [] => [] | _ => [(k, jstring s)] end.
Definition jbool (x : bool) : res json := Ok (JBool x).
(** llvm::json fromJSON(bool), and std::map with toJSON as Protocol.cpp:977-982 writes it *)
Definition fromBool (j : json) : option bool := match j with JBool x => Some x | _ => None end.
Fixpoint jmapFields {A} (w : A -> res json) (l : list (bytes * A)) : res (list (bytes * json)) :=
  match l with
  | [] => Ok []
  | (x, a) :: l' =>
      let* k := jstring x in let* j := w a in let* js := jmapFields w l' in Ok ((x, j) :: js)
  end.
Definition jmap {A} (w : A -> res json) (l : list (bytes * A)) : res json := let* o := jmapFields w l in Ok (JObject o).
Fixpoint fromMapFields {A} (r : json -> option A) (o : list (bytes * json)) : option (list (bytes * A)) :=
  match o with
  | [] => Some []
  | (x, j) :: o' => let- a := r j in let- l := fromMapFields r o' in Some (mapInsert x a l)
  end.
Definition fromMap {A} (r : json -> option A) (j : json) : option (list (bytes * A)) :=
  match getAsObject j with Some o => fromMapFields r o | None => None end.
(** Protocol.cpp:28-38 mapOptOrNull *)
Definition mapOptOrNull {A} (k : string) (r : json -> option A) (old : A) (o : list (bytes * json)) : option A :=
  match get (b k) o with None | Some JNull => Some old | Some j => r j end.
(** a mapping whose failure is ignored *)
Definition keep {A} (old : A) (m : option A) : A := match m with Some a => a | None => old end.

(** ** Code actions *)
(** Protocol.cpp:191-206 TextEdit *)
Record textEdit := TextEdit { te_range : lpos * lpos; te_text : bytes; te_annotation : bytes }.
Definition textEditToJSON (e : textEdit) : res json :=
  jobject ([("range"%string, rangeToJSON (te_range e)); ("newText"%string, jstring (te_text e))]
           ++ jtext "annotationId" (te_annotation e)).
Definition textEditFromJSON (j : json) : option textEdit :=
  let- o := getAsObject j in
  let- r := omap "range" rangeFromJSON o in
  let- t := omap "newText" fromString o in
  let- a := omapOptional "annotationId" fromString [] o in
  Some (TextEdit r t a).
(** Protocol.cpp:105-116 VersionedTextDocumentIdentifier, 224-233 TextDocumentEdit *)
Record documentEdit := DocumentEdit { de_file : bytes; de_version : option Z; de_edits : list textEdit }.
Definition versionedToJSON (d : bytes * option Z) : res json :=
  jobject [("uri"%string, uriToJSON (fst d)); ("version"%string, joptional (fun z => Ok (JInt z)) (snd d))].
Definition versionedFromJSON (j : json) : option (bytes * option Z) :=
  let- o := getAsObject j in
  let- u := omap "uri" uriFromJSON o in
  let- v := omapO "version" fromInt64 o in Some (u, v).
Definition documentEditToJSON (d : documentEdit) : res json :=
  jobject [("textDocument"%string, versionedToJSON (de_file d, de_version d)); ("edits"%string, jvector textEditToJSON (de_edits d))].
Definition documentEditFromJSON (j : json) : option documentEdit :=
  let- o := getAsObject j in
  let- d := omap "textDocument" versionedFromJSON o in
  let- e := omap "edits" (fromVector textEditFromJSON) o in
  Some (DocumentEdit (fst d) (snd d) e).
(** Protocol.cpp:239-301: a file to create, rename or delete; its options are two optional booleans.
    (The annotation of an operation, which nixd never sets, is left out.) *)
Inductive fileop := CreateFile (file : bytes) | RenameFile (old new : bytes) | DeleteFile (file : bytes).
Record operation := Operation { op_file : fileop; op_options : option (option bool * option bool) }.
Definition optionNames (f : fileop) : string * string :=
  match f with DeleteFile _ => ("recursive", "ignoreIfNotExists") | _ => ("overwrite", "ignoreIfExists") end%string.
Definition operationToJSON (p : operation) : res json :=
  jobject (match op_file p with
           | CreateFile f => [("kind", jstring (b "create")); ("uri", uriToJSON f)]
           | RenameFile f g => [("kind", jstring (b "rename")); ("oldUri", uriToJSON f); ("newUri", uriToJSON g)]
           | DeleteFile f => [("kind", jstring (b "delete")); ("uri", uriToJSON f)]
           end%string ++
           jmaybe "options" (fun q => let (x, y) := optionNames (op_file p) in
             jobject (jmaybe x jbool (fst q) ++ jmaybe y jbool (snd q))) (op_options p)).
(** Protocol.cpp:303-380 DocumentChange: an object with a [kind] is an operation.  The URI of an operation is read from the
    whole object [j] and not from its field. *)
Inductive docChange := Edits (d : documentEdit) | FileOp (p : operation).
Definition docChangeToJSON (c : docChange) : res json :=
  match c with Edits d => documentEditToJSON d | FileOp p => operationToJSON p end.
Definition getBool (k : string) (o : list (bytes * json)) : option bool :=
  match get (b k) o with Some (JBool x) => Some x | _ => None end.
Definition optionsOf (f : fileop) (o : list (bytes * json)) : option (option bool * option bool) :=
  match get (b "options") o with
  | Some (JObject q) => let (x, y) := optionNames f in Some (getBool x q, getBool y q)
  | _ => None
  end.
Definition docChangeFromJSON (j : json) : option docChange :=
  let- o := getAsObject j in
  match getString (b "kind") o with
  | Some k =>
      if bytes_eqb k (b "create") then
        let- u := uriFromJSON j in let f := CreateFile u in Some (FileOp (Operation f (optionsOf f o)))
      else if bytes_eqb k (b "rename") then
        let- u := uriFromJSON j in let- v := uriFromJSON j in
        let f := RenameFile u v in Some (FileOp (Operation f (optionsOf f o)))
      else if bytes_eqb k (b "delete") then
        let- u := uriFromJSON j in let f := DeleteFile u in Some (FileOp (Operation f (optionsOf f o)))
      else None
  | None => let- d := documentEditFromJSON j in Some (Edits d)
  end.
(** Protocol.cpp:850-856, 975-992 WorkspaceEdit (without change annotations, which nixd never writes) *)
Record workspaceEdit := WorkspaceEdit {
  we_changes : option (list (bytes * list textEdit)); we_documentChanges : option (list docChange) }.
Definition workspaceEditToJSON (w : workspaceEdit) : res json :=
  jobject (jmaybe "changes" (jmap (jvector textEditToJSON)) (we_changes w)
           ++ jmaybe "documentChanges" (jvector docChangeToJSON) (we_documentChanges w)).
Definition workspaceEditFromJSON (j : json) : option workspaceEdit :=
  let- o := getAsObject j in
  let- c := omapO "changes" (fromMap (fromVector textEditFromJSON)) o in
  let- d := omapO "documentChanges" (fromVector docChangeFromJSON) o in
  Some (WorkspaceEdit c d).
(** Protocol.cpp:920-953 CodeAction (without diagnostics and commands, which nixd's actions do not have) *)
Record codeAction := CodeAction {
  ca_title : bytes; ca_kind : option bytes; ca_preferred : bool; ca_edit : option workspaceEdit; ca_data : option json }.
Definition codeActionToJSON (a : codeAction) : res json :=
  jobject ([("title"%string, jstring (ca_title a))]
           ++ jmaybe "kind" jstring (ca_kind a)
           ++ (if ca_preferred a then [("isPreferred"%string, jbool true)] else [])
           ++ jmaybe "edit" workspaceEditToJSON (ca_edit a)
           ++ jmaybe "data" Ok (ca_data a)).
Definition codeActionFromJSON (j : json) : option codeAction :=
  let- o := getAsObject j in
  let- t := omap "title" fromString o in
  Some (CodeAction t (keep None (omapO "kind" fromString o)) (keep false (omap "isPreferred" fromBool o))
          (keep None (omapO "edit" workspaceEditFromJSON o)) (get (b "data") o)).
(** what the server answers to a request: an error, or a result together with the address that the client is asked to open *)
Inductive answer := Refused | Answered (result : json) (opened : option bytes).
(** CodeAction.cpp:125-156 onCodeActionResolve, LSPBinder.h:52-62 *)
Definition onCodeActionResolve (request : json) : res answer :=
  match codeActionFromJSON request with
  | None => Ok Refused
  | Some a =>
      let* reply := codeActionToJSON a in
      Ok (Answered reply (match ca_data a with Some (JObject o) => getString (b "noogleUrl") o | _ => None end))
  end.
(** CodeActions/ExtractToFile.cpp:361-422: the action that extracts [content] into [newFile], [replacement] taking its place in
    [file] at [r] *)
Definition extractAction (title file newFile content replacement : bytes) (r : lpos * lpos) : codeAction :=
  CodeAction title (Some (b "refactor")) false
    (Some (WorkspaceEdit None (Some [
       FileOp (Operation (CreateFile newFile) (Some (Some false, Some false)));
       Edits (DocumentEdit newFile (Some 0%Z) [TextEdit (LPos 0 0, LPos 0 0) content []]);
       Edits (DocumentEdit file None [TextEdit r replacement []])]))) None.

(** ** Completion items *)
(** Protocol.cpp:1067-1123 MarkupContent; true: markdown.  The mapper asserts that it was given an object, and a kind that is
    not known is llvm_unreachable *)
Definition markupToJSON (m : bool * bytes) : res json :=
  match snd m with
  | [] => Ok JNull
  | t => jobject [("kind"%string, jstring (if fst m then b "markdown" else b "plaintext")); ("value"%string, jstring t)]
  end.
Definition markupFromJSON (j : json) : res (option (bool * bytes)) :=
  match getAsObject j with
  | None => Crash "assert: Must check this is an object before calling map()"
  | Some o =>
      match keep [] (omap "kind" fromString o) with
      | k =>
          let* m := if bytes_eqb k (b "plaintext") then Ok false
                    else if bytes_eqb k (b "markdown") then Ok true else Crash "unreachable: Invalid MarkupKind" in
          Ok (let- t := omapOptional "value" fromString [] o in Some (m, t))
      end
  end.
(** Protocol.h:1353-1415 (without score, which nixd leaves 0 and never reads) *)
Record item := Item {
  ci_label : bytes; ci_kind : Z; ci_detail : bytes; ci_documentation : option (bool * bytes);
  ci_sortText : bytes; ci_filterText : bytes; ci_insertText : bytes; ci_format : Z;
  ci_textEdit : option textEdit; ci_additional : list textEdit; ci_deprecated : bool; ci_data : bytes }.
Definition jnumber (k : string) (z : Z) : list (string * res json) := if Z.eqb z 0 then [] else [(k, Ok (JInt z))].
(** Protocol.cpp:1181-1207 *)
Definition itemToJSON (i : item) : res json :=
  match ci_label i with
  | [] => Crash "assert: completion item label is required"
  | _ =>
      jobject ([("label"%string, jstring (ci_label i))]
        ++ jnumber "kind" (ci_kind i)
        ++ jtext "detail" (ci_detail i)
        ++ jmaybe "documentation" markupToJSON (ci_documentation i)
        ++ jtext "sortText" (ci_sortText i) ++ jtext "filterText" (ci_filterText i) ++ jtext "insertText" (ci_insertText i)
        ++ jnumber "insertTextFormat" (ci_format i)
        ++ jmaybe "textEdit" textEditToJSON (ci_textEdit i)
        ++ match ci_additional i with [] => [] | l => [("additionalTextEdits"%string, jvector textEditToJSON l)] end
        ++ (if ci_deprecated i then [("deprecated"%string, jbool true)] else [])
        ++ [("score"%string, Ok (JDouble (Some 0%Z))); ("data"%string, jstring (ci_data i))])
  end.
(** Protocol.cpp:1209-1231.  The int that [kind] is read into is not initialised, and it is read into again for
    [insertTextFormat], which keeps the kind if that field is missing. *)
Definition itemFromJSON (j : json) : res (option item) :=
  match getAsObject j with
  | None => Crash "assert: Must check this is an object before calling map()"
  | Some o =>
      match get (b "kind") o with
      | None => Crash "read of an uninitialised variable"
      | Some k =>
          match fromInt k with
          | None => Ok None
          | Some kind =>
              match omapOptional "insertTextFormat" fromInt kind o with
              | None => Ok None
              | Some format =>
                  match (let- l := omap "label" fromString o in
                         let- d := omapOptional "detail" fromString [] o in Some (l, d)) with
                  | None => Ok None
                  | Some (l, d) =>
                      let* doc := match get (b "documentation") o with
                                  | None | Some JNull => Ok (Some None)
                                  | Some m => let* r := markupFromJSON m in Ok (option_map Some r)
                                  end in
                      Ok (let- doc := doc in
                          let- s := omapOptional "sortText" fromString [] o in
                          let- f := omapOptional "filterText" fromString [] o in
                          let- t := omapOptional "insertText" fromString [] o in
                          let- e := omapOptional "textEdit" (fromOptional textEditFromJSON) None o in
                          let- a := omapOptional "additionalTextEdits" (fromVector textEditFromJSON) [] o in
                          let- x := omapOptional "data" fromString [] o in
                          Some (Item l kind d doc s f t format e a false x))
                  end
              end
          end
      end
  end.
(** Completion.cpp:164-173: the item for the name [x] in nixpkgs; [data] is the text of the parameters.  CompletionItemKind::Field
    is 5 *)
Definition packageItem (x : bytes) (r : lpos * lpos) (data : bytes) : item :=
  Item x 5 [] None [] [] [] 0 (Some (TextEdit r x [])) [] false data.
(** Completion.cpp:122-142 resolvePackage.  [ask] is the evaluator's answer (None: an error) *)
Definition resolvePackage (ask : list bytes -> option attrPathInfo) (scope : list bytes) (i : item) : item :=
  let text {A} (f : packageDescription -> option A) := match ask (scope ++ [ci_label i]) with Some d => f (ai_PackageDesc d) | None => None end in
  Item (ci_label i) (ci_kind i) (keep (b "?") (text pk_Version))
    (Some (true, keep [] (text pk_Description) ++ LF ++ LF ++ keep [] (text pk_LongDescription)))
    (ci_sortText i) (ci_filterText i) (ci_insertText i) (ci_format i) (ci_textEdit i) (ci_additional i) (ci_deprecated i) (ci_data i).
(** Completion.cpp:527-554 onCompletionItemResolve, LSPBinder.h:52-62.  [parse] is llvm::json::parse.  A failure to read the
    parameters is ignored: what was read stays. *)
Definition onCompletionItemResolve (client : option (list bytes -> option attrPathInfo)) (parse : bytes -> option json)
    (request : json) : res answer :=
  let* i := itemFromJSON request in
  match i with
  | None => Ok Refused
  | Some i =>
      match ci_data i with
      | [] => let* reply := itemToJSON i in Ok (Answered reply None)
      | text =>
          match parse text with
          | None => Ok Refused
          | Some p =>
              match client with
              | None => Crash "null pointer"
              | Some ask =>
                  let scope := match getAsObject p with Some o => keep [] (omap "Scope" (fromVector fromString) o) | None => [] end in
                  let* reply := itemToJSON (resolvePackage ask scope i) in
                  Ok (Answered reply None)
              end
          end
      end
  end.

(** ** What a completed option inserts *)
(** Completion.cpp:186-200 escapeCharacters *)
Definition escapeCharacters (set : list ascii) (s : bytes) : bytes :=
  List.concat (map (fun c => if existsb (Ascii.eqb c) set then ["\"%char; c] else [c]) s).
(** Completion.cpp:202-214 fillInsertText: is it a snippet, and the text *)
Definition fillInsertText (snippets : bool) (name value : bytes) : bool * bytes :=
  if snippets then
    (true, name ++ b " = " ++ b "${1:" ++ escapeCharacters ["\"; "$"; "}"]%char value ++ b "}" ++ b ";")
  else (false, name ++ b " = " ++ value ++ b ";").

(** ** Requests *)
(** Protocol.cpp:99-103 TextDocumentIdentifier, 1039-1044 TextDocumentPositionParams, 1293-1298 RenameParams *)
Definition documentFromJSON (j : json) : option bytes := let- o := getAsObject j in omap "uri" uriFromJSON o.
Definition positionParams (j : json) : option (bytes * lpos) :=
  let- o := getAsObject j in
  let- d := omap "textDocument" documentFromJSON o in let- p := omap "position" positionFromJSON o in Some (d, p).
Definition renameParams (j : json) : option (bytes * lpos * bytes) :=
  let- o := getAsObject j in
  let- d := omap "textDocument" documentFromJSON o in
  let- p := omap "position" positionFromJSON o in
  let- n := omap "newName" fromString o in Some (d, p, n).
(** Protocol.cpp:184-189 TextDocumentItem, 666-670 DidOpenTextDocumentParams: the file, version and text *)
Definition itemParams (j : json) : option (bytes * option Z * bytes) :=
  let- o := getAsObject j in
  let- u := omap "uri" uriFromJSON o in
  let- l := omap "languageId" fromString o in
  let- v := omapO "version" fromInt64 o in
  let- t := omap "text" fromString o in Some (u, v, t).
Definition didOpenParams (j : json) : option (bytes * option Z * bytes) :=
  let- o := getAsObject j in omap "textDocument" itemParams o.
(** Protocol.cpp:717-722 TextDocumentContentChangeEvent, 684-691 DidChangeTextDocumentParams *)
Definition changeFromJSON (j : json) : option change :=
  let- o := getAsObject j in
  let- r := omapO "range" rangeFromJSON o in
  let- n := omapO "rangeLength" fromInt o in
  let- t := omap "text" fromString o in Some (Change r n t).
Definition didChangeParams (j : json) : option (bytes * option Z * list change) :=
  let- o := getAsObject j in
  let- d := omap "textDocument" versionedFromJSON o in
  let- c := omap "contentChanges" (fromVector changeFromJSON) o in
  let- w := omapO "wantDiagnostics" fromBool o in
  let- f := mapOptOrNull "forceRebuild" fromBool false o in Some (fst d, snd d, c).
(** Protocol.cpp:788-800 Diagnostic: its range and message (the other fields are read and not used) *)
Definition diagnosticFromJSON (j : json) : option ((lpos * lpos) * bytes) :=
  let- o := getAsObject j in
  let- r := omap "range" rangeFromJSON o in
  let- m := omap "message" fromString o in
  let- s := mapOptOrNull "severity" fromInt 0%Z o in
  let- c := mapOptOrNull "category" (fromOptional fromString) None o in
  let- k := mapOptOrNull "code" fromString [] o in
  let- w := mapOptOrNull "source" fromString [] o in Some (r, m).
(** Protocol.cpp:812-819 CodeActionContext, 843-848 CodeActionParams: file, range, diagnostics and kinds *)
Definition contextFromJSON (j : json) : option (list ((lpos * lpos) * bytes) * list bytes) :=
  let- o := getAsObject j in
  let- d := omap "diagnostics" (fromVector diagnosticFromJSON) o in
  Some (d, keep [] (omap "only" (fromVector fromString) o)).
Definition codeActionParams (j : json) : option (bytes * (lpos * lpos) * (list ((lpos * lpos) * bytes) * list bytes)) :=
  let- o := getAsObject j in
  let- d := omap "textDocument" documentFromJSON o in
  let- r := omap "range" rangeFromJSON o in
  let- c := omap "context" contextFromJSON o in Some (d, r, c).

(** ** Folding ranges *)
(** Protocol.cpp:1678-1690: a column is written unless it is 0 *)
Definition foldingToJSON (r : lrange) : res json :=
  jobject ([("startLine"%string, Ok (JInt (p_line (l_start r)))); ("endLine"%string, Ok (JInt (p_line (l_end r))))]
           ++ jnumber "startCharacter" (p_char (l_start r)) ++ jnumber "endCharacter" (p_char (l_end r))
           ++ [("kind"%string, jstring (b "region"))]).
