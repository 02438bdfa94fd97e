(** Properties C36 to C39 and C55: positions, semantic tokens, document symbols, folding and published diagnostics. *)
From Verif Require Import Base Diag LexModel LexSpec AstModel PSupModel SemaModel VlaModel ParseModel ParseSpec NavSpec TextModel TextSpec FeatModel FeatSpec ParseInv ParseTree ParseSema ParseProofs FeatProofs FeatFacts.
From Coq Require Import Permutation Sorted.


(** ** C36: a request at a position sees the character there.
    [position before after] (TextSpec) is the LSP position of the place between [before] and [after]. *)

(** false when the line has a non-ASCII character before the place: in `["é" a b]` the position of `a` gives the string *)
Theorem C36_refuted : exists bef aft n ds m,
  unicode (bef ++ aft) /\ no_lone_cr (bef ++ aft) /\ parse (utf8 (bef ++ aft)) = Ok (Some n, ds) /\
  nodeAtPosition n (position bef aft) = Ok (Some m) /\ kind_of m = NK_ExprString /\
  ~ touches m (List.length (utf8 bef)).
Proof. exact C36_refuted_proof. Qed.
Print Assumptions C36_refuted.

(** true on lines that are ASCII up to the place: the node is the innermost one touching the byte at which the place is;
    no node if the expression does not touch it *)
Theorem C36_partial : forall bef aft ln n ds,
  unicode (bef ++ aft) -> no_lone_cr (bef ++ aft) -> line_before bef ln -> ascii_text ln ->
  parse (utf8 (bef ++ aft)) = Ok (Some n, ds) ->
  exists o, nodeAtPosition n (position bef aft) = Ok o /\
    match o with
    | Some m => node_of n m /\ touches m (List.length (utf8 bef)) /\
                forall c, In c (present (children m)) -> ~ touches c (List.length (utf8 bef))
    | None => ~ touches n (List.length (utf8 bef))
    end.
Proof. exact C36_partial_proof. Qed.
Print Assumptions C36_partial.

(** and only there: the position handed to the tree search is the place's if and only if the line is ASCII before it *)
Theorem C36_exact : forall bef aft ln c,
  unicode (bef ++ aft) -> no_lone_cr (bef ++ aft) -> line_before bef ln -> cursor_after (utf8 bef) c ->
  (toNixfPosition (position bef aft) = pos_of c <-> ascii_text ln).
Proof. exact C36_exact_proof. Qed.
Print Assumptions C36_exact.

Example C36_nonvacuous :
  let bef := [34; 233; 34; 10; 43; 32]%N in let aft := txt "foo" in
  unicode (bef ++ aft) /\ no_lone_cr (bef ++ aft) /\ line_before bef (txt "+ ") /\ ascii_text (txt "+ ") /\
  clean_doc (utf8 (bef ++ aft)) = true /\
  match nodeAtPosition (doc (utf8 (bef ++ aft))) (position bef aft) with
  | Ok (Some m) => kind_of m = NK_Identifier | _ => False end.
Proof.
  cbv zeta. split; [apply unicode_test; reflexivity|]. split; [apply no_lone_cr_test; reflexivity|].
  split; [exists [34; 233; 34; 10]%N; split; [reflexivity|]; split; [simpl; intuition discriminate|right; exists [34; 233; 34]%N; reflexivity]|].
  split; [apply ascii_test; reflexivity|]. split; [vm_compute; reflexivity|]. vm_compute. reflexivity.
Qed.

(** ** C37: semantic tokens.  [decode] is how LSP tells a client to read the numbers; [tokens] are the tokens the walk
    over the tree classifies, [abs_of] their place, length, type and modifiers. *)
Theorem C37_decodes : forall s src n ds, (Z.of_nat (List.length src) < 2147483648)%Z -> parse src = Ok (Some n, ds) ->
  exists out, semanticTokens s src n = Ok out /\
    Permutation (decode 0 0 out) (map abs_of (tokens s src n)) /\ StronglySorted abs_le (decode 0 0 out).
Proof. exact C37_decodes_proof. Qed.
Print Assumptions C37_decodes.

(** each stands for a node of the tree, of the kind its type is for, written on one line, and starts where it does *)
Theorem C37_classified : forall s src n ds out a, (Z.of_nat (List.length src) < 2147483648)%Z ->
  parse src = Ok (Some n, ds) -> semanticTokens s src n = Ok out -> In a (decode 0 0 out) ->
  exists m, within n m /\ marks s (ab_type a) (ab_mods a) m /\ line (nl m) = line (nr m) /\
    Z.of_nat (ab_line a) = p_line (offsetToPosition src (off (nl m))) /\
    Z.of_nat (ab_start a) = p_char (offsetToPosition src (off (nl m))) /\
    ab_len a = List.length (text_of src (nrange m)).
Proof. exact C37_classified_proof. Qed.
Print Assumptions C37_classified.

(** but the length is in bytes, not in the unit LSP asks for: the token of "é" has length 4, its text 3 UTF-16 units *)
Theorem C37_refuted : exists d s n ds out a,
  unicode d /\ parse (utf8 d) = Ok (Some n, ds) /\ nrange n = mkRange (mkCur 0 0 0) (mkCur 0 4 4) /\
  semanticTokens s (utf8 d) n = Ok out /\
  decode 0 0 out = [a] /\ List.length (utf8 d) = 4 /\ ab_len a <> u16len d.
Proof. exact C37_refuted_proof. Qed.
Print Assumptions C37_refuted.

(** it is right for a token whose text is ASCII *)
Theorem C37_partial : forall s src n ds out a, (Z.of_nat (List.length src) < 2147483648)%Z ->
  parse src = Ok (Some n, ds) -> semanticTokens s src n = Ok out -> In a (decode 0 0 out) ->
  exists m, within n m /\ marks s (ab_type a) (ab_mods a) m /\
    Z.of_nat (ab_line a) = p_line (offsetToPosition src (off (nl m))) /\
    Z.of_nat (ab_start a) = p_char (offsetToPosition src (off (nl m))) /\
    forall w, unicode w -> text_of src (nrange m) = utf8 w -> (ab_len a = u16len w <-> ascii_text w).
Proof. exact C37_partial_proof. Qed.
Print Assumptions C37_partial.

Example C37_nonvacuous :
  let src := b "x: { a = ""s""; b = y.c; }" in
  exists out, semanticTokens vst0 src (doc src) = Ok out /\
    map (fun a => (ab_line a, ab_start a, ab_len a, ab_type a)) (decode 0 0 out) =
      [(0, 0, 1, ST_LambdaArg); (0, 5, 1, ST_AttrName); (0, 9, 3, ST_String); (0, 14, 1, ST_AttrName);
       (0, 18, 1, ST_Defined); (0, 20, 1, ST_Select)] /\ clean_doc src = true.
Proof.
  eexists. split; [vm_compute; reflexivity|]. split; vm_compute; reflexivity.
Qed.

(** ** C38: document symbols *)

(** the request never fails, and at every level a symbol's selection range lies inside its range *)
Theorem C38_selection : forall s src n ds, parse src = Ok (Some n, ds) ->
  exists l, collect s src n = Ok l /\ forall x y, In x l -> symbol_of x y -> linside (s_sel y) (s_full y).
Proof. exact C38_selection_proof. Qed.
Print Assumptions C38_selection.

(** the symbols of variables are struck out exactly for the unknown ones, and no other symbols are *)
Theorem C38_variables : forall s src n ds, parse src = Ok (Some n, ds) ->
  exists l, collect s src n = Ok l /\ forall x y, In x l -> symbol_of x y -> shows s src y.
Proof. exact C38_variables_proof. Qed.
Print Assumptions C38_variables.

(** but a child need not lie inside the symbol it is listed under: in `{ a.b = 1; }` the symbol of `a` covers the name
    only *)
Theorem C38_refuted : exists src n ds l x y, parse src = Ok (Some n, ds) /\ collect vst0 src n = Ok l /\
  In x l /\ In y (s_kids x) /\ ~ linside (s_full y) (s_full x) /\ ~ linside (s_sel y) (s_full x).
Proof. exact C38_refuted_proof. Qed.
Print Assumptions C38_refuted.

Example C38_nonvacuous :
  let src := b "{ a = x: [ 1 { c.d = y; } ]; inherit (z) w; ${q} = 2; }" in
  clean_doc src = true /\
  match collect vst0 src (doc src) with Ok l => map s_name l | _ => [] end =
    [b "a"; b "w"; b "${dynamic attribute}"].
Proof. split; vm_compute; reflexivity. Qed.

(** ** C39: folding ranges *)

(** each is the range of a foldable construct of the tree that starts on one line and ends on a later one, and lies in
    the document *)
Theorem C39_sound : forall src n ds r, parse src = Ok (Some n, ds) -> In r (foldingRanges src n) ->
  (p_line (l_start r) < p_line (l_end r))%Z /\
  exists m, node_of n m /\ foldable m /\ multi_line m /\ range_in src (nrange m) /\
    lsp_range src (off (nl m)) (off (nr m)) r.
Proof. exact C39_sound_proof. Qed.
Print Assumptions C39_sound.

(** not every multi-line construct is offered: those in the default of a formal are not, nor those inside a string *)
Theorem C39_refuted : exists src n ds m, parse src = Ok (Some n, ds) /\ node_of n m /\ foldable m /\ multi_line m /\
  kind_of m = NK_ExprList /\
  exists l, chain n m l /\ List.length l = 5 /\ forall r, In r (foldingRanges src n) -> p_line (l_start r) <> Z.of_nat (line (nl m)).
Proof. exact C39_refuted_proof. Qed.
Print Assumptions C39_refuted.

(** the others are, down to a depth of 256 *)
Theorem C39_partial : forall src n ds m l, parse src = Ok (Some n, ds) -> chain n m l ->
  (forall p, In p (tl l) -> kind_of p <> NK_ExprString /\ kind_of p <> NK_LambdaArg) -> List.length l <= 256 ->
  foldable m -> multi_line m ->
  exists r, In r (foldingRanges src n) /\ lsp_range src (off (nl m)) (off (nr m)) r.
Proof. exact C39_partial_proof. Qed.
Print Assumptions C39_partial.

Example C39_nonvacuous :
  let src := b "{
 a = [
 1 ];
 b = ''
  x'';
}" in
  clean_doc src = true /\
  map (fun r => (p_line (l_start r), p_line (l_end r))) (foldingRanges src (doc src)) = [(0, 5); (1, 2); (3, 4)]%Z.
Proof. split; vm_compute; reflexivity. Qed.

(** ** C55: publishing.  [unsuppressed names ds] drops the diagnostics whose name is in the list; a name that is no
    diagnostic's therefore has no effect.  [entries] (FeatSpec) is what is published for one diagnostic. *)
Theorem C55_published : forall names src n ds, parse src = Ok (n, ds) ->
  exists blocks, publishDiagnostics (updateSuppressed names) src ds = Ok (List.concat blocks) /\
    Forall2 (entries src) (unsuppressed names ds) blocks.
Proof. exact C55_published_proof. Qed.
Print Assumptions C55_published.

(** also for diagnostics of any other origin that are properly instantiated, such as those of the variable analysis *)
Theorem C55_published_any : forall names src ds, Forall instantiated ds ->
  exists blocks, publishDiagnostics (updateSuppressed names) src ds = Ok (List.concat blocks) /\
    Forall2 (entries src) (unsuppressed names ds) blocks.
Proof. exact C55_published_any_proof. Qed.
Print Assumptions C55_published_any.

Theorem C55_unknown : forall names name src ds, (forall k, sname_of k <> name) ->
  publishDiagnostics (updateSuppressed (name :: names)) src ds = publishDiagnostics (updateSuppressed names) src ds.
Proof. exact C55_unknown_proof. Qed.
Print Assumptions C55_unknown.

Example C55_nonvacuous :
  let src := b "{ a = 1; a = 2; b = 07; } ;" in
  match parse src with
  | Ok (_, ds) =>
      map d_kind ds = [DK_DuplicatedAttrName; DK_UnexpectedText] /\
      match publishDiagnostics (updateSuppressed [b "no-such-name"; sname_of DK_UnexpectedText]) src ds with
      | Ok l => map (fun e => (ld_code e, ld_severity e, p_char (l_start (ld_range e)))) l =
                  [(b "sema-duplicated-attrname", 1, 9%Z); (b "note-prev", 4, 2%Z)]
      | _ => False
      end
  | _ => False
  end.
Proof. vm_compute. split; reflexivity. Qed.
