(** Properties C43 to C46 and C49: text written by the code actions. *)
From Verif Require Import Base Diag LexModel AstModel PSupModel SemaModel ParseModel ParseSpec ParseTree NavModel NavSpec ConnModel ActModel ActSpec ReadString ReadJson ReadJson2 ReadJson3 ReadInd LexSpec LexLongSpec GramSpec ActInd ActFacts.


(** ** C43: a string escaped by the server and put between double quotes reads back as the original. *)
Theorem C43 : forall x : bytes, exists n,
  parse (b """" ++ escapeNixString x ++ b """") = Ok (Some n, []) /\ string_value n x.
Proof. exact C43_proof. Qed.
Print Assumptions C43.
(** a string with every character that needs an escape *)
Example C43_nonvacuous : escapeNixString (b "a""\${b}" ++ LF) = b "a\""\\\${b}\n".
Proof. vm_compute. reflexivity. Qed.

(** ** C44: attribute keys written by the server read back as themselves.
    False of the empty key: it is written as an empty string, which the parser takes for a dynamic name.  *)
Theorem C44_refuted : exists n,
  parse (b "{ " ++ quoteNixAttrKey [] ++ b " = 1; }") = Ok (Some n, []) /\ static_names n = Some [].
Proof. exact C44_refuted_proof. Qed.
Print Assumptions C44_refuted.
(** Missing: the empty key. *)
Theorem C44_partial : forall k : bytes, k <> [] -> exists n,
  parse (b "{ " ++ quoteNixAttrKey k ++ b " = 1; }") = Ok (Some n, []) /\ static_names n = Some [k] /\
  denotes n (JObject [(k, JInt 1)]).
Proof. exact C44_partial_proof. Qed.
Print Assumptions C44_partial.
Example C44_nonvacuous : quoteNixAttrKey (b "a-b'") = b "a-b'" /\ quoteNixAttrKey (b "let") = b """let""" /\ quoteNixAttrKey (b "1a") = b """1a""".
Proof. vm_compute. repeat split. Qed.

(** ** C45: converting JSON to Nix preserves the value.
    False: a negative number in an array is not an element on its own, and the least int64 has no literal. *)
Theorem C45_refuted : (exists v t, v = JArray [JInt (-1)] /\ jsonToNix v 0 0 = t /\ t <> [] /\ ~ exists n, parse t = Ok (Some n, [])) /\
  (exists v t, v = JInt (-9223372036854775808) /\ jsonToNix v 0 0 = t /\ t <> [] /\ ~ exists n, parse t = Ok (Some n, [])).
Proof. exact C45_refuted_proof. Qed.
Print Assumptions C45_refuted.
(** For every JSON value whose objects have no empty key, whose numbers are integers above the least int64 and whose
    arrays have no negative elements: whatever text the action proposes parses, without diagnostics, to an
    expression that denotes the value.  Missing: fractional numbers. *)
Theorem C45_partial : forall sel v t, tame v -> jsonAction sel v = Some t ->
  exists n, parse t = Ok (Some n, []) /\ denotes n v.
Proof. exact C45_partial_proof. Qed.
Print Assumptions C45_partial.
Example C45_nonvacuous : tame sample /\ exists t, jsonAction (b "{}") sample = Some t.
Proof. split; [exact sample_tame|]. eexists. vm_compute. reflexivity. Qed.

(** ** C46: quoting or unquoting an attribute name preserves it.
    False: quoting a name of an inherit clause gives a document on which the parser aborts, and an unquoted name can
    run into the token that follows it. *)
Theorem C46_refuted :
  (exists src root an r t w, parse src = Ok (Some root, []) /\ (exists l, chain root an l) /\ attrNameAction an = Some (r, t) /\
     src = b "{ inherit a; }" /\ splice src r t = b "{ inherit ""a""; }" /\ parse (splice src r t) = Crash w) /\
  (exists src root an r t root', parse src = Ok (Some root, []) /\ (exists l, chain root an l) /\ attrNameAction an = Some (r, t) /\
     splice src r t = b "{ a = 1; }.aor 1" /\ parse (splice src r t) = Ok (Some root', []) /\
     kind_of root = NK_ExprSelect /\ kind_of root' = NK_ExprCall).
Proof. exact C46_refuted_proof. Qed.
Print Assumptions C46_refuted.
(** What is written in place of the attribute name is, as the name of a binding, the same static name.  Missing: names
    in inherit clauses and names with no space around them. *)
Theorem C46_partial : forall an r t, (forall i q j p x, an = NAttrName i q (NIdent j p x) -> ident_text x) ->
  attrNameAction an = Some (r, t) -> r = nrange an /\ exists x n, staticName an = Some x /\
    parse (b "{ " ++ t ++ b " = 1; }") = Ok (Some n, []) /\ denotes n (JObject [(x, JInt 1)]).
Proof. exact C46_partial_proof. Qed.
Print Assumptions C46_partial.
Example C46_nonvacuous :
  ident_text (b "a-b'") /\
  attrNameAction (NAttrName 1 (mkRange (mkCur 0 2 2) (mkCur 0 6 6)) (NIdent 0 (mkRange (mkCur 0 2 2) (mkCur 0 6 6)) (b "a-b'"))) =
    Some (mkRange (mkCur 0 2 2) (mkCur 0 6 6), b """a-b'""") /\
  attrNameAction (NAttrName 1 (mkRange (mkCur 0 2 2) (mkCur 0 5 5)) (NString 0 (mkRange (mkCur 0 2 2) (mkCur 0 5 5))
    (NParts 2 (mkRange (mkCur 0 2 2) (mkCur 0 5 5)) [inl (b "x")]))) = Some (mkRange (mkCur 0 2 2) (mkCur 0 5 5), b "x").
Proof. split; [exists "a"%char, (b "-b'"); repeat constructor|]. split; vm_compute; reflexivity. Qed.

(** ** C49: rewriting a string between the two quoting styles preserves its value.
    False: a quote before the closing quotes makes the new literal unterminated, and the leading spaces of an
    indented string are not part of its value. *)
Theorem C49_refuted :
  (exists src n r t, parse src = Ok (Some n, []) /\ string_value n (b "a'") /\ rewriteString src n = Ok (Some (r, t)) /\
     ~ exists n', parse t = Ok (Some n', [])) /\
  (exists src n r x t, parse src = Ok (Some n, []) /\ string_value n x /\ rewriteString src n = Ok (Some (r, b "''" ++ t ++ b "''")) /\
     unindented t <> x).
Proof. exact C49_refuted_proof. Qed.
Print Assumptions C49_refuted.
(** A rewritten literal without interpolation reads back, without diagnostics, as a literal with the value the parser
    gave the old one, if the old one was indented, or if it has no quotes and no dollars in it.  Missing: the
    removal of indentation, which the parser does not do; interpolations; quotes and dollars in the second case. *)
Theorem C49_partial : forall src n r t x, string_value n x -> rewriteString src n = Ok (Some (r, t)) ->
  (isIndentedString src (nrange n) = true \/ (forall c, In c x -> c <> "'"%char /\ c <> "$"%char)) ->
  r = nrange n /\ exists n', parse t = Ok (Some n', []) /\ string_value n' x.
Proof. exact C49_partial_proof. Qed.
Print Assumptions C49_partial.
(** By the rules of Nix for what stands between two double quotes, the literal written for a quoted one is a single
    indented string whose text, each escape standing for what it denotes, is the value of the old one, if every run of
    quotes at its end or directly before a dollar and brace is even.  ([C49_refuted] has a text for which it is not.
    The parser of nixd itself misreads these escapes, C21_refuted, so this is not stated with it.) *)
Theorem C49_escapes : forall src n r t x, string_value n x -> isIndentedString src (nrange n) = false ->
  rewriteString src n = Ok (Some (r, t)) -> quotes_paired x ->
  exists inside, layout ([E tok_quote2 (b "''")] ++ inside ++ [It true PS_IndString tok_quote2 (b "''")]) t /\
    contents (fun _ _ => False) PS_IndString inside (map inl x).
Proof. exact C49_escapes_proof. Qed.
Print Assumptions C49_escapes.
Example C49_escapes_nonvacuous : rewritten (b """a''b'$\${c}""") = Some (b "''a'''b'$''${c}''") /\ quotes_paired (b "a''b'$${c}").
Proof.
  split; [vm_compute; reflexivity|]. apply paired_test_ok. vm_compute. reflexivity.
Qed.
Example C49_nonvacuous : rewritten (b "''a""\ b''") = Some (b """a\""\\ b""") /\ rewritten (b """a\""\\ b""") = Some (b "''a""\ b''").
Proof. vm_compute. split; reflexivity. Qed.
