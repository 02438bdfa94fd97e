(** Properties C11, C12 and C64 of URIs. *)
From Verif Require Import Base UriModel UriSpec UriProofs UriFacts.

(** ** C11: file paths survive the trip through URIs.
    False of three kinds of absolute POSIX paths: one that looks like a Windows drive after its first slash loses
    that slash, one with a backslash gets a slash instead, and //name alone violates an assertion. *)
Theorem C11_refuted :
  exists p1 p2 p3,
    (starts_with (b "/") p1 = true /\ exists u, uriOfFile p1 = Ok u /\ fileOfUri u = Ok (Some (b "c:/x.nix"))
       /\ p1 <> b "c:/x.nix") /\
    (starts_with (b "/") p2 = true /\ exists u, uriOfFile p2 = Ok u /\ fileOfUri u = Ok (Some (b "/a/b.nix"))
       /\ p2 <> b "/a/b.nix") /\
    (starts_with (b "/") p3 = true /\ exists why, uriOfFile p3 = Crash why).
Proof. exact C11_refuted_proof. Qed.
Print Assumptions C11_refuted.

(** Exactly the other paths survive.  Missing from the full property: those three kinds. *)
Theorem C11_partial :
  forall p, starts_with (b "/") p = true ->
    (path_survives p <-> ~ In "\"%char p /\ ~ drive_like p /\ ~ net_only p).
Proof. exact C11_partial_proof. Qed.
Print Assumptions C11_partial.

Example C11_nonvacuous :
  let p := b "/home/ü x/%41 #?.nix" in
  starts_with (b "/") p = true /\ path_survives p /\
  uriOfFile p = Ok (b "file:///home/%C3%BC%20x/%2541%20%23%3F.nix") /\ path_survives (b "//host/share:1/x").
Proof.
  split; [reflexivity|]. split; [|split; [vm_compute; reflexivity|]];
    (eexists; split; [vm_compute; reflexivity|vm_compute; reflexivity]).
Qed.

(** ** C12: percent-encoding is lossless and safe. *)
Theorem C12_lossless : forall s, percentDecode (percentEncode s) = Ok s.
Proof. exact C12_lossless_proof. Qed.
Print Assumptions C12_lossless.

Theorem C12_safe : forall s, encoded (percentEncode s).
Proof. exact C12_safe_proof. Qed.
Print Assumptions C12_safe.

(** Decoding never reads past its input (it would crash) and does what RFC 3986 says; a percent sign that starts
    no escape is kept. *)
Theorem C12_total : forall s, exists r, percentDecode s = Ok r /\ decodes s r.
Proof. exact C12_total_proof. Qed.
Print Assumptions C12_total.

Example C12_nonvacuous :
  percentEncode (b "a%b ü/~") = b "a%25b%20%C3%BC/~" /\ percentDecode (b "%4a%4A%zz%4") = Ok (b "JJ%zz%4").
Proof. split; vm_compute; reflexivity. Qed.

(** ** C64: opening a document under any URI does not bring the server down.
    False: the path of file:///c:/x.nix is c:/x.nix, which is not absolute, and publishing its diagnostics asserts
    that it is. *)
Theorem C64_refuted :
  exists s why, openUri s = Crash why.
Proof. exact C64_refuted_proof. Qed.
Print Assumptions C64_refuted.

(** What holds: reading a path from a URI never fails badly, whatever the text of the URI, and opening succeeds when
    the path starts with a slash and is not //name.  Missing: the other paths. *)
Theorem C64_partial :
  forall s, exists f, fileOfUri s = Ok f /\
    match f with
    | None => openUri s = Ok None
    | Some p => starts_with (b "/") p = true -> ~ net_only p -> exists u, openUri s = Ok (Some u)
    end.
Proof. exact C64_partial_proof. Qed.
Print Assumptions C64_partial.

(** A path taken from a URI starts with a slash or with a drive letter: relative ones are rejected. *)
Theorem C64_absolute :
  forall s p, fileOfUri s = Ok (Some p) ->
    (exists r, p = "/"%char :: r) \/ (exists c r, In c letters /\ p = c :: ":"%char :: r).
Proof. exact C64_absolute_proof. Qed.
Print Assumptions C64_absolute.

Example C64_nonvacuous :
  fileOfUri (b "file:///a%20b/c.nix") = Ok (Some (b "/a b/c.nix")) /\ ~ net_only (b "/a b/c.nix") /\
  openUri (b "http://x/y") = Ok None.
Proof.
  split; [vm_compute; reflexivity|]. split; [|vm_compute; reflexivity].
  intros (n & _ & _ & E). discriminate.
Qed.
