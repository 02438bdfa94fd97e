(** Specification vocabulary for C11, C12 and C64. *)
From Verif Require Import Base UriModel.

(** RFC 3986: unreserved characters (and the two the server keeps in paths), and percent escapes. *)
Definition letters := b "abcdefghijklmnopqrstuvwxyzABCDEFGHIJKLMNOPQRSTUVWXYZ".
Definition safe_chars := letters ++ b "0123456789-_.~/:".
Inductive encoded : bytes -> Prop :=
| encoded_nil : encoded []
| encoded_safe c s : In c safe_chars -> encoded s -> encoded (c :: s)
| encoded_escape h l s :
    In h (b "0123456789ABCDEF") -> In l (b "0123456789ABCDEF") -> encoded s -> encoded ("%"%char :: h :: l :: s).

(** The path comes back from the URI the server builds for it. *)
Definition path_survives (p : bytes) : Prop :=
  exists u, uriOfFile p = Ok u /\ fileOfUri u = Ok (Some p).

(** Shapes of POSIX paths. *)
Definition drive_like (p : bytes) : Prop := exists c r, In c letters /\ p = "/"%char :: c :: ":"%char :: r.
Definition net_only (p : bytes) : Prop := exists n, n <> [] /\ ~ In "/"%char n /\ p = b "//" ++ n.

(** What RFC 3986 says a percent-encoded text means: an escape is the byte it names, anything else itself. *)
Definition hex_digits := b "0123456789ABCDEF".
Definition hex_lower := b "0123456789abcdef".
Definition hex_value (c : ascii) (v : nat) : Prop := nth_error hex_digits v = Some c \/ nth_error hex_lower v = Some c.
Inductive decodes : bytes -> bytes -> Prop :=
| decodes_nil : decodes [] []
| decodes_escape h l vh vl s r :
    hex_value h vh -> hex_value l vl -> decodes s r ->
    decodes ("%"%char :: h :: l :: s) (ascii_of_nat (vh * 16 + vl) :: r)
| decodes_plain c s r : c <> "%"%char -> decodes s r -> decodes (c :: s) (c :: r)
| decodes_stray s r :
    (forall h l t vh vl, s = h :: l :: t -> ~ (hex_value h vh /\ hex_value l vl)) ->
    decodes s r -> decodes ("%"%char :: s) ("%"%char :: r).
