(** Model of nixd/lspserver/src/URI.cpp and of URIForFile in nixd/lspserver/src/Protocol.cpp, on POSIX.
    The llvm::sys::path functions are modelled after LLVM 21 (flake.nix:34), POSIX style. *)
From Verif Require Import Base.

Definition slash : ascii := "/".
Definition percent : ascii := "%".

Definition between (lo hi : ascii) (c : ascii) : bool := N.leb (code lo) (code c) && N.leb (code c) (code hi).
(** llvm::isAlpha, isDigit, isAlnum: ASCII only *)
Definition isAlpha (c : ascii) : bool := between "a" "z" c || between "A" "Z" c.
Definition isDigit (c : ascii) : bool := between "0" "9" c.
Definition isAlnum (c : ascii) : bool := isAlpha c || isDigit c.
(** llvm::isHexDigit *)
Definition isHexDigit (c : ascii) : bool := between "0" "9" c || between "a" "f" c || between "A" "F" c.
(** llvm::hexDigitValue on a hexadecimal digit *)
Definition hexDigitValue (c : ascii) : N :=
  if between "0" "9" c then (code c - 48)%N
  else if between "a" "f" c then (code c - 97 + 10)%N
  else (code c - 65 + 10)%N.
(** llvm::hexdigit, upper case *)
Definition hexdigit (n : N) : ascii := if N.ltb n 10 then ascii_of_N (48 + n) else ascii_of_N (65 + (n - 10)).

(** URI.cpp:87-103 shouldEscape *)
Definition shouldEscape (c : ascii) : bool :=
  negb (between "a" "z" c || between "A" "Z" c || between "0" "9" c
        || existsb (Ascii.eqb c) (b "-_.~/:")).

(** URI.cpp:109-118 percentEncode *)
Definition encode_char (c : ascii) : bytes :=
  if shouldEscape c then [percent; hexdigit (code c / 16); hexdigit (code c mod 16)] else [c].
Definition percentEncode (s : bytes) : bytes := flat_map encode_char s.

(** *(Content.begin() + i): reading at or past the end is out of bounds *)
Definition read_at (s : bytes) (i : nat) : res ascii :=
  match nth_error s i with Some c => Ok c | None => Crash "read past the end of the string" end.

(** URI.cpp:121-136 percentDecode; [i] is the iterator, [acc] Result reversed; one unit of fuel per iteration *)
Fixpoint decode_loop (fuel : nat) (s : bytes) (i : nat) (acc : bytes) : res bytes :=
  match fuel with
  | 0 => OutOfFuel
  | S fuel =>
      if Nat.eqb i (List.length s) then Ok (rev acc)
      else
        let* c := read_at s i in
        if negb (Ascii.eqb c percent) then decode_loop fuel s (S i) (c :: acc)
        else
          let* hex :=
            (if Nat.ltb (i + 2) (List.length s) then
               let* h := read_at s (i + 1) in
               if isHexDigit h then (let* l := read_at s (i + 2) in Ok (isHexDigit l)) else Ok false
             else Ok false) in
          if hex then
            let* h := read_at s (i + 1) in
            let* l := read_at s (i + 2) in
            decode_loop fuel s (S (i + 2)) (ascii_of_N (hexDigitValue h * 16 + hexDigitValue l) :: acc)
          else decode_loop fuel s (S i) (c :: acc)
  end.
Definition percentDecode (s : bytes) : res bytes := decode_loop (S (List.length s)) s 0 [].

(** StringRef::find of a character, as a split around its first occurrence *)
Fixpoint split_at (ch : ascii) (s : bytes) : option (bytes * bytes) :=
  match s with
  | [] => None
  | c :: r =>
      if Ascii.eqb c ch then Some ([], r)
      else match split_at ch r with Some (x, y) => Some (c :: x, y) | None => None end
  end.

Record uri := Uri { u_scheme : bytes; u_authority : bytes; u_body : bytes }.

(** URI.cpp:138-146 isValidScheme *)
Definition isValidScheme (s : bytes) : bool :=
  match s with
  | [] => false
  | c :: r => isAlpha c && forallb (fun c => isAlnum c || existsb (Ascii.eqb c) (b "+.-")) r
  end.

(** URI.cpp:150-156, the asserting constructor *)
Definition mkUri (scheme authority body : bytes) : res uri :=
  match scheme with
  | [] => Crash "assert(!Scheme.empty())"
  | _ =>
      if match authority with [] => true | _ => starts_with (b "/") body end
      then Ok (Uri scheme authority body)
      else Crash "URI body must start with '/' when authority is present."
  end.

(** URI.cpp:158-172 toString *)
Definition toString (u : uri) : bytes :=
  percentEncode (u_scheme u) ++ b ":" ++
  match u_authority u, u_body u with
  | [], [] => []
  | a, body =>
      (if match a with [] => starts_with (b "/") body | _ => true end then b "//" ++ percentEncode a else [])
      ++ percentEncode body
  end.

(** URI.cpp:174-193 parse; None is an error.  Without a slash after the authority, Pos is npos and
    Uri.substr(npos) is empty. *)
Definition parseUri (s : bytes) : res (option uri) :=
  match split_at ":" s with
  | None => Ok None
  | Some (sch, rest) =>
      let* scheme := percentDecode sch in
      if negb (isValidScheme scheme) then Ok None
      else if starts_with (b "//") rest then
        match split_at slash (skipn 2 rest) with
        | Some (a, body) =>
            let* a' := percentDecode a in
            let* body' := percentDecode (slash :: body) in
            Ok (Some (Uri scheme a' body'))
        | None =>
            let* a' := percentDecode (skipn 2 rest) in
            Ok (Some (Uri scheme a' []))
        end
      else
        let* body := percentDecode rest in
        Ok (Some (Uri scheme [] body))
  end.

(** URI.cpp:21-23 isWindowsPath *)
Definition isWindowsPath (p : bytes) : bool :=
  match p with c :: d :: _ => isAlpha c && Ascii.eqb d ":" | _ => false end.

(** URI.cpp:25-28 isNetworkPath *)
Definition isNetworkPath (p : bytes) : bool :=
  match p with c :: d :: _ :: _ => Ascii.eqb c d && Ascii.eqb c slash | _ => false end.

(** llvm::sys::path::native, POSIX style: every backslash becomes a slash *)
Definition native (p : bytes) : bytes := List.map (fun c => if Ascii.eqb c "\" then slash else c) p.

(** llvm::sys::path::root_name, POSIX style: //net for a path that starts with exactly two slashes; the rest of
    the path comes second.  Otherwise empty. *)
Fixpoint until_slash (s : bytes) : bytes * bytes :=
  match s with
  | [] => ([], [])
  | c :: r => if Ascii.eqb c slash then ([], s) else let '(x, y) := until_slash r in (c :: x, y)
  end.
Definition root_split (p : bytes) : bytes * bytes :=
  match p with
  | c :: d :: e :: _ =>
      if Ascii.eqb c slash && Ascii.eqb d slash && negb (Ascii.eqb e slash)
      then let '(net, rest) := until_slash (skipn 2 p) in (c :: d :: net, rest)
      else ([], p)
  | _ => ([], p)
  end.

(** llvm::sys::path::is_absolute, POSIX style: has a root directory; for //net, that is the slash after it *)
Definition is_absolute (p : bytes) : bool := starts_with (b "/") (snd (root_split p)).

(** URI.cpp:36-54 getAbsolutePath *)
Definition getAbsolutePath (authority body : bytes) : option bytes :=
  if negb (starts_with (b "/") body) then None
  else
    Some (native
      (match authority with
       | [] => if isWindowsPath (skipn 1 body) then skipn 1 body else body
       | _ => b "//" ++ authority ++ body
       end)).

(** URI.cpp:56-71 uriFromAbsolutePath (convert_to_slash is the identity on POSIX) and 235-240 createFile *)
Definition createFile (path : bytes) : res uri :=
  let '(root, rest) := root_split path in
  if isNetworkPath root then mkUri (b "file") (skipn 2 root) rest
  else mkUri (b "file") [] ((if isWindowsPath root then b "/" else []) ++ path).

(** Protocol.h:80 URIForFile::uri *)
Definition uriOfFile (path : bytes) : res bytes := let* u := createFile path in Ok (toString u).

(** Protocol.cpp:64-87 fromJSON(URIForFile) on a string; the path, or None when rejected.  The scheme registry is
    empty (no scheme is registered in the repository), so scheme "test" is unresolvable. *)
Definition fileOfUri (s : bytes) : res (option bytes) :=
  let* u := parseUri s in
  match u with
  | None => Ok None
  | Some u =>
      if bytes_eqb (u_scheme u) (b "file") then Ok (getAbsolutePath (u_authority u) (u_body u)) else Ok None
  end.

(** Protocol.cpp:43-54 URIForFile::canonicalize with the fallback of URI.cpp:250-268 *)
Definition canonicalize (path : bytes) : res bytes :=
  if is_absolute path then Ok path else Crash "the path is relative".

(** What opening a document does with its URI before anything else is sent: the path is taken from the URI
    (TextDocumentSync.cpp:15), and publishDiagnostics turns it into a URI again (Diagnostics.cpp:116).
    None: the notification was rejected. *)
Definition openUri (s : bytes) : res (option bytes) :=
  let* f := fileOfUri s in
  match f with
  | None => Ok None
  | Some p => let* c := canonicalize p in let* u := uriOfFile c in Ok (Some u)
  end.
