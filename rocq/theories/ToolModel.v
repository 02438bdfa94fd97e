(** The two programs around the libraries: nixf-tidy (libnixf/tools/nixf-tidy.cpp with libnixf/src/Basic/JSONDiagnostic.cpp) and
    the main loop of nixd as far as the life cycle of the protocol is concerned (nixd/tools/nixd.cpp, LifeTime.cpp,
    lspserver LSPServer.cpp and Connection.cpp). *)
From Verif Require Import Base Diag LexModel AstModel SemaModel ParseModel VlaModel TextModel UriModel ConnModel EvalModel.

(** ** JSONDiagnostic.cpp.  Objects are lists of fields in the order of the source (nlohmann sorts them by key); [jobject] and
    [jvector] stand for nlohmann's conversions too. *)
(** A string in the output.  nlohmann::json accepts any bytes in a string; it is `operator<<' (nixf-tidy.cpp:52) that throws
    type_error 316 if they are not UTF-8, and nobody catches it.  Here the failure is at the string itself: what comes out
    of the program is the same. *)
Definition nstring (s : bytes) : res json := if isUTF8 s then Ok (JString s) else Crash "uncaught type_error.316: invalid UTF-8".
Definition nnat (n : nat) : res json := Ok (JInt (Z.of_nat n)).
(** JSONDiagnostic.cpp:8-14 *)
Definition cursorToJSON (c : cursor) : res json :=
  jobject [("line"%string, nnat (line c)); ("column"%string, nnat (col c)); ("offset"%string, nnat (off c))].
(** JSONDiagnostic.cpp:16-21 *)
Definition crangeToJSON (r : range) : res json :=
  jobject [("lCur"%string, cursorToJSON (lcur r)); ("rCur"%string, cursorToJSON (rcur r))].
(** Diagnostic.h:74-77: an enumeration is written as its number *)
Definition tagToJSON (t : dtag) : res json := nnat (match t with Faded => 0 | Striked => 1 end).
(** the number of a kind: its place in diagnostic.py (DiagnosticEnum.h.py) *)
Fixpoint placeOf {A} (eqb : A -> A -> bool) (a : A) (l : list A) : nat :=
  match l with [] => 0 | x :: l' => if eqb a x then 0 else S (placeOf eqb a l') end.
Scheme Equality for dkind.
Definition dkindNumber (k : dkind) : nat := placeOf dkind_beq k all_dkinds.
(** NoteKinds.inc, in its order *)
Definition nkindNumber (k : nkind) : nat :=
  match k with
  | NK_PrevDeclared => 0 | NK_DuplicateFormal => 1 | NK_ThisRecursive => 2 | NK_RecConsider => 3 | NK_BCommentBegin => 4
  | NK_ToMachThis => 5
  end.
(** Diagnostic.h:154-168 *)
Definition severityNumber (s : severity) : nat :=
  match s with DS_Fatal => 0 | DS_Error => 1 | DS_Warning => 2 | DS_Info => 3 | DS_Hint => 4 end.
(** JSONDiagnostic.cpp:23-29 PartialDiagnostic *)
Definition partialFields (args : list bytes) (tags : list dtag) (r : range) : list (string * res json) :=
  [("args"%string, jvector nstring args); ("tag"%string, jvector tagToJSON tags); ("range"%string, crangeToJSON r)].
(** JSONDiagnostic.cpp:42-47 Note; notes get no tags *)
Definition noteToJSON (n : note) : res json :=
  jobject (partialFields (n_args n) [] (n_range n) ++
    [("kind"%string, nnat (nkindNumber (n_kind n))); ("sname"%string, nstring (nsname_of (n_kind n)));
     ("message"%string, nstring (nmessage (n_kind n)))]).
(** JSONDiagnostic.cpp:56-61 TextEdit *)
Definition teditToJSON (e : tedit) : res json :=
  jobject [("range"%string, crangeToJSON (e_range e)); ("newText"%string, nstring (e_text e))].
(** JSONDiagnostic.cpp:49-54 Fix *)
Definition fixToJSON (f : fix_) : res json :=
  jobject [("edits"%string, jvector teditToJSON (f_edits f)); ("message"%string, nstring (f_msg f))].
(** JSONDiagnostic.cpp:31-40 Diagnostic *)
Definition diagToJSON (d : diag) : res json :=
  jobject (partialFields (d_args d) (d_tags d) (d_range d) ++
    [("kind"%string, nnat (dkindNumber (d_kind d))); ("severity"%string, nnat (severityNumber (severity_of (d_kind d))));
     ("message"%string, nstring (dmessage (d_kind d))); ("sname"%string, nstring (sname_of (d_kind d)));
     ("notes"%string, jvector noteToJSON (d_notes d)); ("fixes"%string, jvector fixToJSON (d_fixes d))]).

(** ** nixf-tidy.cpp *)
(** nixf-tidy.cpp:24-31 parseArgs: (pretty, variable lookup); the name of the program is looked at too *)
Definition parseArgs (argv : list bytes) : bool * bool :=
  fold_left (fun s a => if bytes_eqb a (b "--pretty-print") then (true, snd s)
                        else if bytes_eqb a (b "--variable-lookup") then (fst s, true) else s) argv (false, false).
(** nixf-tidy.cpp:35-54 main: what is printed (the white space is left out) and the status *)
Definition tidy (primops : list (bytes * bool)) (argv : list bytes) (src : bytes) : res (json * Z) :=
  let lookup := snd (parseArgs argv) in
  let* p := parse src in
  let (ast, ds) := p : option node * list diag in
  let* ds' := match ast with
              | Some root => if lookup then let* s := vla primops root in Ok (ds ++ v_diags s) else Ok ds
              | None => Ok ds
              end in
  let* v := jvector diagToJSON ds' in
  Ok (v, 0%Z).

(** ** The life of nixd *)
Section Life.
Variable methods : list bytes.
Variable decodes : bytes -> json -> bool.
Variable answer : bytes -> json -> outcome.
(** LifeTime.cpp:203-207 onShutdown: it replies null and sets ReceivedShutdown, which no code reads; LSPBinder.h:52-62.
    All other answers are parameters. *)
Definition answers (m : bytes) (p : json) : outcome := if bytes_eqb m (b "shutdown") then Result JNull else answer m p.
(** Connection.cpp:313-350 loop, LSPServer.cpp:15 run, nixd.cpp main: messages are dispatched until one ends the loop or the
    input ends; the status is 0.  Handlers finish in the order and at the times of [es]. *)
Definition life (es : list dev) : dstate * Z := (drun methods decodes answers es, 0%Z).
End Life.
