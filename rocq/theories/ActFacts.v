(** Proofs of the theorems stated in ActProps. *)
From Verif Require Import Base Diag LexModel AstModel PSupModel SemaModel ParseModel ParseSpec ParseTree NavModel NavSpec ConnModel ActModel ActSpec ReadString ReadJson ReadJson2 ReadJson3 ReadInd LexSpec LexLongSpec GramSpec ActInd.

Definition tree (src : bytes) : option node := match parse src with Ok (Some n, []) => Some n | _ => None end.
Lemma tree_parse src n : tree src = Some n -> parse src = Ok (Some n, []).
Proof. unfold tree. destruct (parse src) as [[[m|] [|d ds]]|w|]; try discriminate. now intros [= ->]. Qed.
Definition bytes_list_eqb (x y : list bytes) : bool := if list_eq_dec (list_eq_dec Ascii.ascii_dec) x y then true else false.
Lemma bytes_list_eqb_eq x y : bytes_list_eqb x y = true -> x = y.
Proof. unfold bytes_list_eqb. destruct list_eq_dec; congruence. Qed.
Fixpoint down (ks : list nat) (n : node) : option node :=
  match ks with
  | [] => Some n
  | k :: ks => match nth_error (present (children n)) k with Some c => down ks c | None => None end
  end.
Lemma down_chain root ks : forall n l c, chain root n l -> down ks n = Some c -> exists l', chain root c l'.
Proof.
  induction ks as [|k ks IH]; intros n l c C H; cbn [down] in H; [injection H as <-; eauto|].
  destruct (nth_error (present (children n)) k) as [d|] eqn:E; [|discriminate]. apply nth_error_In in E.
  apply (IH d (d :: l)); auto. exact (chain_up _ _ _ _ E C).
Qed.
Lemma ident_escape x : ident_text x -> escapeNixString x = x.
Proof.
  intros (a & u & -> & A & U).
  assert (P : forall c, (isalpha c || isdigit c || Ascii.eqb c "_" || Ascii.eqb c "'" || Ascii.eqb c "-")%bool = true -> special c = None /\ c <> "$"%char).
  { intros c H. split; [|intros ->; discriminate]. unfold special.
    repeat match goal with |- context [if Ascii.eqb c ?d then _ else _] => destruct (Ascii.eqb_spec c d); [subst; discriminate|] end. reflexivity. }
  assert (PA : special a = None /\ a <> "$"%char).
  { apply P. apply orb_true_iff in A as [A|A]; rewrite A; rewrite ?orb_true_r; reflexivity. }
  assert (B : forall c s, c <> "$"%char -> starts_with (b "${") (c :: s) = false).
  { intros c s N. apply (ReadTools.sw_ne "$"%char (b "{")). exact N. }
  rewrite esc_plain by (destruct PA; auto). f_equal. clear A PA.
  induction U as [|c u H _ IH]; [reflexivity|]. destruct (P c H). rewrite esc_plain by auto. now f_equal.
Qed.
Lemma ident_quoted x : ident_text x -> exists n, parse (b "{ " ++ (b """" ++ x ++ b """") ++ b " = 1; }") = Ok (Some n, []) /\ denotes n (JObject [(x, JInt 1)]).
Proof.
  intros I. pose proof (quoted_reads_back x) as H. rewrite ident_escape in H by exact I. apply H.
  destruct I as (a & u & -> & _). discriminate.
Qed.
Lemma denotes_single n k v : denotes n (JObject [(k, v)]) -> static_names n = Some [k].
Proof.
  intros D. inversion D as [| |? ? ? ? [X|X]|? ? ? ? ? ? ? ? [X|X]| | |i r binds st fields o P F]; try discriminate. subst.
  inversion F as [|f g fs os (E & _ & _) F' A]; subst. inversion F'; subst. apply Permutation_sym, Permutation_length_1_inv in P. subst.
  cbn in *. destruct f; cbn in *. now subst.
Qed.
Definition quoted_doc : bytes := b "{ inherit a; }".
Definition edge_doc : bytes := b "{ a = 1; }.""a""or 1".
Definition at_path (src : bytes) (ks : list nat) : option (node * node) :=
  match tree src with Some n => match down ks n with Some m => Some (n, m) | None => None end | None => None end.
Lemma at_path_ok src ks n m : at_path src ks = Some (n, m) -> parse src = Ok (Some n, []) /\ exists l, chain n m l.
Proof.
  unfold at_path. destruct (tree src) as [n'|] eqn:T; [|discriminate]. destruct (down ks n') as [m'|] eqn:D; [|discriminate].
  intros [= <- <-]. split; [now apply tree_parse|]. eapply down_chain; [apply chain_root|exact D].
Qed.
Definition crashes (src : bytes) : bool := match parse src with Crash _ => true | _ => false end.
Lemma crashes_ok src : crashes src = true -> exists w, parse src = Crash w.
Proof. unfold crashes. destruct (parse src) as [[n d]|w|]; try discriminate. eauto. Qed.
Definition clean_kind (src : bytes) : option nodekind := match tree src with Some n => Some (kind_of n) | None => None end.
Lemma clean_kind_ok src k : clean_kind src = Some k -> exists n, parse src = Ok (Some n, []) /\ kind_of n = k.
Proof. unfold clean_kind. destruct (tree src) as [n|] eqn:T; [|discriminate]. intros [= <-]. exists n. split; [now apply tree_parse|reflexivity]. Qed.
Definition clean (src : bytes) : bool := match tree src with Some _ => true | None => false end.
Lemma clean_ok src n : parse src = Ok (Some n, []) -> clean src = true.
Proof. intro H. unfold clean, tree. now rewrite H. Qed.
Definition text_of (n : node) : option bytes :=
  match n with NString _ _ (NParts _ _ [inl x]) => Some x | NString _ _ (NParts _ _ []) => Some [] | _ => None end.
Lemma text_of_ok n x : text_of n = Some x -> string_value n x.
Proof.
  destruct n; try discriminate. destruct n; try discriminate.
  destruct frags as [|[y|m] [|? ?]]; try discriminate; cbn; intros [= <-]; eexists _, _, _, _, _; (split; [reflexivity|]); auto.
Qed.
Lemma value_unique n x y : string_value n x -> string_value n y -> x = y.
Proof.
  intros (i & r & j & q & fs & -> & [->|[-> ->]]) (i2 & r2 & j2 & q2 & fs2 & E & [->|[-> ->]]); congruence.
Qed.
Lemma parse_text src x : match parse src with Ok (Some n, []) => text_of n | _ => None end = Some x -> exists n, parse src = Ok (Some n, []) /\ string_value n x.
Proof.
  destruct (parse src) as [[[n|] [|d ds]]|w|] eqn:P; try discriminate. intro H. exists n. split; [reflexivity|now apply text_of_ok].
Qed.
Definition rewritten (src : bytes) : option bytes :=
  match tree src with Some n => match rewriteString src n with Ok (Some (_, t)) => Some t | _ => None end | None => None end.
Lemma rewritten_ok src t : rewritten src = Some t -> exists n r, parse src = Ok (Some n, []) /\ rewriteString src n = Ok (Some (r, t)).
Proof.
  unfold rewritten. destruct (tree src) as [n|] eqn:T; [|discriminate]. apply tree_parse in T.
  destruct (rewriteString src n) as [[[r u]|]|w|] eqn:R; try discriminate. intros [= <-]. eauto.
Qed.
Definition crash_test (src : bytes) (ks : list nat) (want : bytes) : bool :=
  match at_path src ks with
  | Some (n, m) => match attrNameAction m with Some (r, t) => bytes_eqb (splice src r t) want && crashes (splice src r t) | None => false end
  | None => false
  end.
Lemma crash_test_ok src ks want : crash_test src ks want = true ->
  exists root an r t w, parse src = Ok (Some root, []) /\ (exists l, chain root an l) /\ attrNameAction an = Some (r, t) /\
     splice src r t = want /\ parse (splice src r t) = Crash w.
Proof.
  unfold crash_test. destruct (at_path src ks) as [[n m]|] eqn:A; [|discriminate]. apply at_path_ok in A as [P C].
  destruct (attrNameAction m) as [[r t]|] eqn:N; [|discriminate]. intros H. apply andb_prop in H as [B T].
  apply LexProofs.bytes_eqb_spec in B. apply crashes_ok in T as [w W]. exists n, m, r, t, w. auto 10.
Qed.
Definition kind_test (src : bytes) (ks : list nat) (want : bytes) (k k' : nodekind) : bool :=
  match at_path src ks with
  | Some (n, m) => match attrNameAction m with
                   | Some (r, t) => bytes_eqb (splice src r t) want && nodekind_beq (kind_of n) k &&
                       match clean_kind (splice src r t) with Some x => nodekind_beq x k' | None => false end
                   | None => false
                   end
  | None => false
  end.
Lemma kind_test_ok src ks want k k' : kind_test src ks want k k' = true ->
  exists root an r t root', parse src = Ok (Some root, []) /\ (exists l, chain root an l) /\ attrNameAction an = Some (r, t) /\
     splice src r t = want /\ parse (splice src r t) = Ok (Some root', []) /\ kind_of root = k /\ kind_of root' = k'.
Proof.
  unfold kind_test. destruct (at_path src ks) as [[n m]|] eqn:A; [|discriminate]. apply at_path_ok in A as [P C].
  destruct (attrNameAction m) as [[r t]|] eqn:N; [|discriminate]. intros H. apply andb_prop in H as [H T]. apply andb_prop in H as [B K].
  apply LexProofs.bytes_eqb_spec in B. apply internal_nodekind_dec_bl in K.
  destruct (clean_kind (splice src r t)) as [x|] eqn:X; [|discriminate]. apply internal_nodekind_dec_bl in T. subst x.
  apply clean_kind_ok in X as (n' & P' & K'). exists n, m, r, t, n'. auto 10.
Qed.
Definition sample : json :=
  JObject [(b "a", JInt 3); (b "b c", JArray [JNull; JString (b "x${y"); JObject []; JBool true]); (b "let", JInt (-4))].
Lemma sample_tame : tame sample.
Proof.
  unfold sample. apply tame_object.
  - apply Forall_cons; [|apply Forall_cons; [|apply Forall_cons; [|apply Forall_nil]]]; cbn [snd].
    + apply (tame_number _ 3); [now left|lia].
    + apply tame_array.
      * repeat (apply Forall_cons || apply Forall_nil); [apply tame_null|apply tame_string| |apply tame_bool].
        apply tame_object; [apply Forall_nil|apply NoDup_nil|intros []].
      * repeat (apply Forall_cons || apply Forall_nil); intros (z & [E|E] & _); discriminate.
    + apply (tame_number _ (-4)); [now left|lia].
  - cbn [map fst]. repeat (apply NoDup_cons || apply NoDup_nil); cbn [In]; intuition discriminate.
  - cbn [map fst In]. intuition discriminate.
Qed.

Lemma C43_proof : forall x : bytes, exists n,
  parse (b """" ++ escapeNixString x ++ b """") = Ok (Some n, []) /\ string_value n x.
Proof.
  exact string_reads_back.
Qed.

Lemma C44_refuted_proof : exists n,
  parse (b "{ " ++ quoteNixAttrKey [] ++ b " = 1; }") = Ok (Some n, []) /\ static_names n = Some [].
Proof.
  assert (T : match tree (b "{ " ++ quoteNixAttrKey [] ++ b " = 1; }") with Some n => static_names n | None => None end = Some []) by (vm_compute; reflexivity).
  destruct (tree (b "{ " ++ quoteNixAttrKey [] ++ b " = 1; }")) as [n|] eqn:E; [|discriminate]. exists n. split; [now apply tree_parse|exact T].
Qed.

Lemma C44_partial_proof : forall k : bytes, k <> [] -> exists n,
  parse (b "{ " ++ quoteNixAttrKey k ++ b " = 1; }") = Ok (Some n, []) /\ static_names n = Some [k] /\
  denotes n (JObject [(k, JInt 1)]).
Proof.
  intros k NE. destruct (key_reads_back k NE) as (n & P & D). exists n. split; [exact P|]. split; [|exact D]. exact (denotes_single n k _ D).
Qed.

Lemma C45_refuted_proof : (exists v t, v = JArray [JInt (-1)] /\ jsonToNix v 0 0 = t /\ t <> [] /\ ~ exists n, parse t = Ok (Some n, [])) /\
  (exists v t, v = JInt (-9223372036854775808) /\ jsonToNix v 0 0 = t /\ t <> [] /\ ~ exists n, parse t = Ok (Some n, [])).
Proof.
  split.
  - eexists _, _. split; [reflexivity|]. split; [reflexivity|]. split; [vm_compute; discriminate|]. intros (n & P). apply clean_ok in P.
    assert (X : clean (jsonToNix (JArray [JInt (-1)]) 0 0) = false) by (vm_compute; reflexivity). congruence.
  - eexists _, _. split; [reflexivity|]. split; [reflexivity|]. split; [vm_compute; discriminate|]. intros (n & P). apply clean_ok in P.
    assert (X : clean (jsonToNix (JInt (-9223372036854775808)) 0 0) = false) by (vm_compute; reflexivity). congruence.
Qed.

Lemma C45_partial_proof : forall sel v t, tame v -> jsonAction sel v = Some t ->
  exists n, parse t = Ok (Some n, []) /\ denotes n v.
Proof.
  intros sel v t T H. unfold jsonAction in H. destruct (Nat.ltb (List.length sel) 2); [discriminate|]. destruct sel as [|c sel]; [discriminate|].
  destruct (Ascii.eqb c "{" || Ascii.eqb c "[")%bool; [|discriminate].
  assert (J : jsonToNix v 0 0 = t /\ t <> []).
  { destruct (jsonToNix v 0 0) as [|a u]; destruct v as [| | | | |[|? ?]|[|? ?]]; try discriminate; injection H as <-; split; (reflexivity || discriminate). }
  destruct J as [<- NE]. now apply json_reads.
Qed.

Lemma C46_refuted_proof :
  (exists src root an r t w, parse src = Ok (Some root, []) /\ (exists l, chain root an l) /\ attrNameAction an = Some (r, t) /\
     src = b "{ inherit a; }" /\ splice src r t = b "{ inherit ""a""; }" /\ parse (splice src r t) = Crash w) /\
  (exists src root an r t root', parse src = Ok (Some root, []) /\ (exists l, chain root an l) /\ attrNameAction an = Some (r, t) /\
     splice src r t = b "{ a = 1; }.aor 1" /\ parse (splice src r t) = Ok (Some root', []) /\
     kind_of root = NK_ExprSelect /\ kind_of root' = NK_ExprCall).
Proof.
  split.
  - destruct (crash_test_ok quoted_doc [0; 0; 0] (b "{ inherit ""a""; }")) as (n & m & r & t & w & P & C & N & B & W); [vm_compute; reflexivity|].
    exists quoted_doc, n, m, r, t, w.
    split; [exact P|]. split; [exact C|]. split; [exact N|]. split; [reflexivity|]. split; [exact B|exact W].
  - destruct (kind_test_ok edge_doc [1; 0] (b "{ a = 1; }.aor 1") NK_ExprSelect NK_ExprCall) as (n & m & r & t & n' & H); [vm_compute; reflexivity|].
    exists edge_doc, n, m, r, t, n'. exact H.
Qed.

Lemma C46_partial_proof : forall an r t, (forall i q j p x, an = NAttrName i q (NIdent j p x) -> ident_text x) ->
  attrNameAction an = Some (r, t) -> r = nrange an /\ exists x n, staticName an = Some x /\
    parse (b "{ " ++ t ++ b " = 1; }") = Ok (Some n, []) /\ denotes n (JObject [(x, JInt 1)]).
Proof.
  intros an r t ID H. assert (A : exists i q k, an = NAttrName i q k /\ ((exists j p x, k = NIdent j p x) \/ exists j p pt, k = NString j p pt)).
  { destruct an as [| | | | | | | | | | | |i q k| | | | | | | | | | | | | | | | | | | | |]; try discriminate. exists i, q, k. split; [reflexivity|].
    destruct k; try discriminate; [left|right]; eauto. }
  destruct A as (i & q & k & -> & [(j & p & x & ->)|(j & p & pt & ->)]).
  - injection H as <- <-. split; [reflexivity|]. exists x. specialize (ID i q j p x eq_refl). destruct (ident_quoted x ID) as (n & P & D).
    exists n. split; [reflexivity|]. auto.
  - unfold attrNameAction in H. destruct (staticName (NAttrName i q (NString j p pt))) as [x|] eqn:SN; [|discriminate].
    destruct (isValidNixIdentifier x) eqn:V; [|discriminate]. injection H as <- <-. split; [reflexivity|]. exists x.
    destruct (key_reads_back x) as (n & P & D); [intros ->; discriminate V|]. unfold quoteNixAttrKey in P. rewrite V in P. eauto.
Qed.

Lemma C49_refuted_proof :
  (exists src n r t, parse src = Ok (Some n, []) /\ string_value n (b "a'") /\ rewriteString src n = Ok (Some (r, t)) /\
     ~ exists n', parse t = Ok (Some n', [])) /\
  (exists src n r x t, parse src = Ok (Some n, []) /\ string_value n x /\ rewriteString src n = Ok (Some (r, b "''" ++ t ++ b "''")) /\
     unindented t <> x).
Proof.
  split.
  - destruct (parse_text (b """a'""") (b "a'")) as (n & P & V); [vm_compute; reflexivity|].
    destruct (rewritten_ok (b """a'""") (b "''a'''")) as (n' & r & P' & R); [vm_compute; reflexivity|].
    rewrite P in P'. injection P' as <-. eexists _, n, r, _. split; [exact P|]. split; [exact V|]. split; [exact R|].
    intros (m & Pm). apply clean_ok in Pm. assert (X : clean (b "''a'''") = false) by (vm_compute; reflexivity). congruence.
  - destruct (parse_text (b """  a""") (b "  a")) as (n & P & V); [vm_compute; reflexivity|].
    destruct (rewritten_ok (b """  a""") (b "''" ++ b "  a" ++ b "''")) as (n' & r & P' & R); [vm_compute; reflexivity|].
    rewrite P in P'. injection P' as <-. exists (b """  a"""), n, r, (b "  a"), (b "  a"). split; [exact P|]. split; [exact V|]. split; [exact R|].
    vm_compute. discriminate.
Qed.

Lemma C49_partial_proof : forall src n r t x, string_value n x -> rewriteString src n = Ok (Some (r, t)) ->
  (isIndentedString src (nrange n) = true \/ (forall c, In c x -> c <> "'"%char /\ c <> "$"%char)) ->
  r = nrange n /\ exists n', parse t = Ok (Some n', []) /\ string_value n' x.
Proof.
  intros src n r t x (i & rg & j & q & fs & -> & F) R C. unfold rewriteString in R. cbn [nrange] in *.
  assert (BP : forall e, buildParts src e fs = Ok (match fs with [] => [] | _ => e x end)).
  { intros e. destruct F as [->|[-> ->]]; cbn; rewrite ?app_nil_r; reflexivity. }
  destruct (isIndentedString src rg).
  - rewrite BP in R. cbn [bind] in R. injection R as <- <-. split; [reflexivity|].
    replace (match fs with [] => [] | _ => escapeNixString x end) with (escapeNixString x) by (destruct F as [->|[-> ->]]; reflexivity).
    apply string_reads_back.
  - destruct C as [C|C]; [discriminate|]. rewrite BP in R. cbn [bind] in R. injection R as <- <-. split; [reflexivity|].
    replace (match fs with [] => [] | _ => escapeForIndentedString x end) with x.
    + now apply ind_reads_back.
    + destruct F as [->|[-> ->]]; [|reflexivity]. symmetry. now apply escape_plain.
Qed.

Lemma C49_escapes_proof : forall src n r t x, string_value n x -> isIndentedString src (nrange n) = false ->
  rewriteString src n = Ok (Some (r, t)) -> quotes_paired x ->
  exists inside, layout ([E tok_quote2 (b "''")] ++ inside ++ [It true PS_IndString tok_quote2 (b "''")]) t /\
    contents (fun _ _ => False) PS_IndString inside (map inl x).
Proof.
  intros src n r t x (i & rg & j & q & fs & -> & F) Hi R P. unfold rewriteString in R. cbn [nrange] in *. rewrite Hi in R.
  assert (BP : buildParts src escapeForIndentedString fs = Ok (escapeForIndentedString x)).
  { destruct F as [->|[-> ->]]; cbn; rewrite ?app_nil_r; reflexivity. }
  rewrite BP in R. cbn [bind] in R. injection R as <- <-. exact (indented_reads x P).
Qed.
