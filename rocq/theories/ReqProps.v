(** Properties C77 to C85: highlights, quick fixes, names in nixpkgs, hints, links, documentation, settings, hover texts and
    definitions. *)
From Verif Require Import Base Diag LexModel AstModel PSupModel SemaModel ParseModel ParseSpec ParseFacts NavModel NavSpec NavProofs NavFacts VlaModel VlaSpec VlaPost VlaBase VlaThms TextModel ActModel ConnModel FeatModel FeatSpec FeatProofs EvalModel RefModel RefSpec RefFacts IdSpec IdProofs IdFacts ReqModel ReqSpec ReqProofs ReqLinks ReqMore ReqFacts.

(** ** C77: highlights are the declaration and its occurrences.
    A highlighted range is either that of an occurrence (read) or that of the declaration (written): for a cursor on a
    declared name or on an occurrence of it, the name where it is declared and all its occurrences; for a cursor on a
    `with` or on a variable whose outermost `with` it is, the keyword and all undeclared variables in the body; for a
    builtin, the occurrences only. *)
Theorem C77_partial : forall src root ds primops s m n hs,
  parse src = Ok (Some root, ds) -> vla primops root = Ok s -> parents root = Ok m -> node_of root n ->
  highlight root s m n = value hs ->
  exists vs decl, hs = map (fun v => (nrange v, HRead)) vs ++ map (fun q => (nrange q, HWrite)) decl /\
  ((exists sc o x nd, declaration primops root sc o x nd /\ decl = [nd] /\
      ((exists v v', on_variable root n v /\ refers sc o x v' /\ nid v' = nid v) \/ on_name root n nd) /\
      forall v, In v vs <-> refers sc o x v) \/
   (exists sc i r kw semi we e, let w := NWith i r kw semi we e in visit (prelude primops) root sc w /\ decl = [kw] /\
      ((exists v v' sc' x ws, on_variable root n v /\ occurs_at primops root sc' v' x /\ nid v' = nid v /\ unbound sc' x /\
          withs sc' = ws ++ [w]) \/ on_name root n kw) /\
      forall v, In v vs <-> may_use sc w v) \/
   (exists x v v' sc', on_variable root n v /\ occurs_at primops root sc' v' x /\ nid v' = nid v /\
      bound sc' x (prelude primops) /\ decl = [] /\
      forall v, In v vs <-> exists sc, occurs_at primops root sc v x /\ bound sc x (prelude primops))).
Proof. exact C77_partial_proof. Qed.
Print Assumptions C77_partial.
(** With the cursor on the name of an `inherit` that repeats an attribute, an assertion fails. *)
Theorem C77_refuted : exists src root ds s m n why, parse src = Ok (Some root, ds) /\ vla table root = Ok s /\
  parents root = Ok m /\ node_of root n /\ highlight root s m n = Crash why.
Proof. exact C77_refuted_proof. Qed.
Print Assumptions C77_refuted.
(** The declaration and two occurrences; the keyword and an undeclared variable. *)
Example C77_nonvacuous : let src := b "x: with x; z x" in
  (exists ds, parse src = Ok (Some (doc src), ds)) /\ vla table (doc src) = Ok (analysed src) /\ parents (doc src) = Ok (ups src) /\
  (exists hs, highlight (doc src) (analysed src) (ups src) (node_no src 2) = value hs /\
     map (fun h => (off (lcur (fst h)), snd h)) hs = [(8, HRead); (13, HRead); (0, HWrite)]) /\
  (exists hs, highlight (doc src) (analysed src) (ups src) (node_no src 10) = value hs /\
     map (fun h => (off (lcur (fst h)), snd h)) hs = [(11, HRead); (3, HWrite)]).
Proof.
  cbv zeta. set (src := b "x: with x; z x"). split; [eexists; vm_compute; reflexivity|]. split; [apply sound_ok; vm_compute; reflexivity|].
  split; [apply sound_ok; vm_compute; reflexivity|]. split; eexists; (split; [vm_compute; reflexivity|reflexivity]).
Qed.

(** ** C78: quick fixes are those of the diagnostics that meet the request, and apply cleanly.
    A fix is offered if and only if it belongs to a diagnostic whose range overlaps or touches the requested one; its edits
    lie in the document, none is a no-op, and they do not overlap. *)
Theorem C78_partial : forall src root ds primops s r a,
  parse src = Ok (Some root, ds) -> vla primops root = Ok s ->
  (In a (quickFixes src r (ds ++ v_diags s)) <->
   exists d f preferred, (In d ds \/ In d (v_diags s)) /\ In f (d_fixes d) /\ meets r (toLSPRange src (d_range d)) /\
     (preferred = true <-> d_kind d = DK_UnusedDefLet) /\ fix_clean src f /\
     a = QuickFix (f_msg f) preferred (map (fun e => (toLSPRange src (e_range e), e_text e)) (f_edits f))).
Proof. exact C78_partial_proof. Qed.
Print Assumptions C78_partial.
(** The fixes of a diagnostic that the configuration suppresses are offered all the same. *)
Theorem C78_suppressed_refuted : exists src root d f names r, parse src = Ok (Some root, [d]) /\
  d_fixes d = [f] /\ isSuppressed (updateSuppressed names) (d_kind d) = true /\
  exists a, In a (quickFixes src r [d]) /\ qf_title a = f_msg f.
Proof. exact C78_suppressed_refuted_proof. Qed.
Print Assumptions C78_suppressed_refuted.
(** Asking at the closing brace offers the missing semicolon, and asking at the name offers nothing. *)
Example C78_nonvacuous : let src := b "{ a = 1 }" in exists ds s, parse src = Ok (Some (doc src), ds) /\ vla table (doc src) = Ok s /\
  map qf_title (quickFixes src (LRange (LPos 0 7) (LPos 0 7)) (ds ++ v_diags s)) = [b "insert ;"] /\
  quickFixes src (LRange (LPos 0 2) (LPos 0 3)) (ds ++ v_diags s) = [].
Proof.
  cbv zeta. set (src := b "{ a = 1 }"). do 2 eexists. split; [vm_compute; reflexivity|]. split; [vm_compute; reflexivity|].
  split; vm_compute; reflexivity.
Qed.

(** ** C79: names in nixpkgs are found by convention.
    For a variable or a selection of an analysed document, reading it as an attribute path of nixpkgs ends normally, and it
    gives the path [p] if and only if the expression is meant to be that path (ReqSpec.meant). *)
Theorem C79_variable : forall src root ds primops s m sc v x,
  parse src = Ok (Some root, ds) -> vla primops root = Ok s -> parents root = Ok m -> occurs_at primops root sc v x ->
  exists r, mkVarSelector s m 3 v = Ok r /\ forall p, r = inr p <-> meant primops root sc v p.
Proof. exact C79_variable_proof. Qed.
Print Assumptions C79_variable.
Theorem C79_selection : forall src root ds primops s m sc e,
  parse src = Ok (Some root, ds) -> vla primops root = Ok s -> parents root = Ok m ->
  visit (prelude primops) root sc e -> kind_of e = NK_ExprSelect ->
  exists r, mkSelector s m 3 e = Ok r /\ forall p, r = inr p <-> meant primops root sc e p.
Proof. exact C79_selection_proof. Qed.
Print Assumptions C79_selection.
(** A variable `pkgs` that the document itself declares is taken for nixpkgs. *)
Theorem C79_shadow_refuted : exists src root s m sc v, parse src = Ok (Some root, []) /\ vla table root = Ok s /\ parents root = Ok m /\
  occurs_at table root sc v (b "pkgs") /\ ~ unbound sc (b "pkgs") /\ mkVarSelector s m 3 v = Ok (inr []).
Proof. exact C79_shadow_refuted_proof. Qed.
Print Assumptions C79_shadow_refuted.
(** In `with pkgs; with lib; x` Nix looks for `x` in `lib` first, but `x` is read as `pkgs.x`. *)
Theorem C79_with_refuted : exists src root s m sc v i r kw semi we e, parse src = Ok (Some root, []) /\ vla table root = Ok s /\ parents root = Ok m /\
  occurs_at table root sc v (b "x") /\ unbound sc (b "x") /\ innermost sc = Some (NWith i r kw semi (Some we) e) /\ is_var we (b "lib") /\
  mkVarSelector s m 3 v = Ok (inr [b "x"]).
Proof. exact C79_with_refuted_proof. Qed.
Print Assumptions C79_with_refuted.
(** `lib.y.z` is `lib.y.z`, `hello` below `with pkgs.a;` is `a.hello`, and `u.v` is nothing. *)
Example C79_nonvacuous : let src := b "u: [ lib.y.z (with pkgs.a; hello) u ]" in
  (exists ds, parse src = Ok (Some (doc src), ds)) /\ vla table (doc src) = Ok (analysed src) /\ parents (doc src) = Ok (ups src) /\
  (let p := sight src NK_ExprSelect in visit (prelude table) (doc src) (fst p) (snd p) /\ kind_of (snd p) = NK_ExprSelect /\
     mkSelector (analysed src) (ups src) 3 (snd p) = Ok (inr [b "lib"; b "y"; b "z"]) /\ meant table (doc src) (fst p) (snd p) [b "lib"; b "y"; b "z"]) /\
  (let p := spot src (b "hello") in occurs_at table (doc src) (fst p) (snd p) (b "hello") /\
     mkVarSelector (analysed src) (ups src) 3 (snd p) = Ok (inr [b "a"; b "hello"]) /\ meant table (doc src) (fst p) (snd p) [b "a"; b "hello"]) /\
  (let p := spot src (b "u") in occurs_at table (doc src) (fst p) (snd p) (b "u") /\
     mkVarSelector (analysed src) (ups src) 3 (snd p) = Ok (inl NotAnIdiom)).
Proof.
  cbv zeta. set (src := b "u: [ lib.y.z (with pkgs.a; hello) u ]"). destruct (sound_ok src) as [A B]; [vm_compute; reflexivity|].
  assert (P : exists ds, parse src = Ok (Some (doc src), ds)) by (eexists; vm_compute; reflexivity). split; [exact P|]. destruct P as [ds P].
  split; [exact A|]. split; [exact B|]. split; [|split].
  - destruct (sight_at src NK_ExprSelect) as [V K]; [vm_compute; reflexivity|]. split; [exact V|]. split; [exact K|].
    assert (E : mkSelector (analysed src) (ups src) 3 (snd (sight src NK_ExprSelect)) = Ok (inr [b "lib"; b "y"; b "z"])) by (vm_compute; reflexivity).
    split; [exact E|]. destruct (C79_selection_proof _ _ _ _ _ _ _ _ P A B V K) as (r & E' & R). rewrite E in E'. injection E' as E'. now apply R.
  - assert (O : occurs_at table (doc src) (fst (spot src (b "hello"))) (snd (spot src (b "hello"))) (b "hello")) by (apply spot_at; vm_compute; reflexivity).
    split; [exact O|].
    assert (E : mkVarSelector (analysed src) (ups src) 3 (snd (spot src (b "hello"))) = Ok (inr [b "a"; b "hello"])) by (vm_compute; reflexivity).
    split; [exact E|]. destruct (C79_variable_proof _ _ _ _ _ _ _ _ _ P A B O) as (r & E' & R). rewrite E in E'. injection E' as E'. now apply R.
  - split; [apply spot_at; vm_compute; reflexivity|]. vm_compute. reflexivity.
Qed.

(** ** C80: version hints are shown for the packages in the requested range.
    [ask]: the version that the evaluator knows for a package.  Every hint is at the end of a variable in the requested
    range that has a `with pkgs;` around it, and shows its version; and every such variable has one. *)
Theorem C80_partial : forall src root ds primops s m ask limit,
  parse src = Ok (Some root, ds) -> vla primops root = Ok s -> parents root = Ok m ->
  exists l, onInlayHint s m (Some ask) limit root = Ok l /\
  (forall h, In h l -> exists v ver, node_of root v /\ kind_of v = NK_ExprVar /\
     (forall r, limit = Some r -> contains (toNixfRange r) (prange_of (nrange v))) /\ ask (varName v) = Some ver /\
     h = Hint (rcur (nrange v)) (b ": " ++ ver) (nrange v) /\
     forall sc, visit (prelude primops) root sc v -> under_pkgs sc) /\
  (forall sc v x ver, node_of root v -> occurs_at primops root sc v x -> under_pkgs sc ->
     (forall r, limit = Some r -> contains (toNixfRange r) (prange_of (nrange v))) -> ask x = Some ver ->
     In (Hint (rcur (nrange v)) (b ": " ++ ver) (nrange v)) l).
Proof. exact C80_partial_proof. Qed.
Print Assumptions C80_partial.
(** The version of the package `x` is shown for a function's argument `x`. *)
Theorem C80_refuted : exists src root s m sc v ask h, parse src = Ok (Some root, []) /\ vla table root = Ok s /\ parents root = Ok m /\
  occurs_at table root sc v (b "x") /\ ~ unbound sc (b "x") /\ onInlayHint s m (Some ask) None root = Ok [h] /\ h_range h = nrange v.
Proof. exact C80_refuted_proof. Qed.
Print Assumptions C80_refuted.
(** Without an evaluator for nixpkgs the request follows a null pointer. *)
Theorem C80_client_refuted : exists src root s m, parse src = Ok (Some root, []) /\ vla table root = Ok s /\ parents root = Ok m /\
  onInlayHint s m None None root = Crash "null pointer".
Proof. exact C80_client_refuted_proof. Qed.
Print Assumptions C80_client_refuted.
Example C80_nonvacuous : let src := b "[ vim (with pkgs; vim) ]" in let ask := fun x => if bytes_eqb x (b "vim") then Some (b "9") else None in
  (exists ds, parse src = Ok (Some (doc src), ds)) /\ vla table (doc src) = Ok (analysed src) /\ parents (doc src) = Ok (ups src) /\
  (exists h, onInlayHint (analysed src) (ups src) (Some ask) (Some (LRange (LPos 0 7) (LPos 0 24))) (doc src) = Ok [h] /\
     off (h_at h) = 21 /\ h_label h = b ": 9") /\
  onInlayHint (analysed src) (ups src) (Some ask) (Some (LRange (LPos 0 0) (LPos 0 20))) (doc src) = Ok [].
Proof.
  cbv zeta. set (src := b "[ vim (with pkgs; vim) ]"). split; [eexists; vm_compute; reflexivity|]. split; [apply sound_ok; vm_compute; reflexivity|].
  split; [apply sound_ok; vm_compute; reflexivity|]. split; [eexists; split; [vm_compute; reflexivity|split; reflexivity]|]. vm_compute. reflexivity.
Qed.

(** ** C81: links are the literal paths and lead to the files they name.
    A link is made if and only if a path without interpolations, not inside another path, leads to a file (ReqSpec.leads_to:
    seen from the directory of the document, `default.nix` for a directory). *)
Theorem C81_partial : forall fs file root, exists l, onDocumentLink fs file root = Ok l /\
  forall r t, In (r, t) l <-> exists p x, open_node root p /\ literal_path p r x /\ leads_to fs file x t.
Proof. exact C81_partial_proof. Qed.
Print Assumptions C81_partial.
(** A path inside the interpolation of another path has no link. *)
Theorem C81_refuted : exists fs file src root p r x t, parse src = Ok (Some root, []) /\ node_of root p /\ literal_path p r x /\ leads_to fs file x t /\
  onDocumentLink fs file root = Ok [].
Proof. exact C81_refuted_proof. Qed.
Print Assumptions C81_refuted.
(** A path in the home directory leads to a directory named `~` beside the document. *)
Theorem C81_home_refuted : exists fs file src root r, parse src = Ok (Some root, []) /\ src = b "~/x" /\ file = b "/d/f.nix" /\
  onDocumentLink fs file root = Ok [(r, b "/d/~/x")].
Proof. exact C81_home_refuted_proof. Qed.
Print Assumptions C81_home_refuted.
Example C81_nonvacuous : let src := b "[ ./a ./e ./none ]" in (exists ds, parse src = Ok (Some (doc src), ds)) /\
  exists l, onDocumentLink disk (b "/d/f.nix") (doc src) = Ok l /\ map (fun p => (off (lcur (fst p)), snd p)) l = [(2, b "/d/./a"); (6, b "/d/./e/default.nix")].
Proof.
  cbv zeta. set (src := b "[ ./a ./e ./none ]"). split; [eexists; vm_compute; reflexivity|]. eexists. split; vm_compute; reflexivity.
Qed.

(** ** C82: the documentation of a function of `lib` is offered where it is selected.
    The page is offered if and only if the innermost selection around the cursor selects names that are written out from
    the variable `lib`; the title names the last of them and the address all of them. *)
Theorem C82_offered : forall src root ds m n,
  parse src = Ok (Some root, ds) -> parents root = Ok m -> node_of root n -> kind_of n <> NK_Misc ->
  exists o, noogleDoc m n = Ok o /\
  forall t u, o = Some (t, u) <-> exists i q v d p df or_ xs, nearest root n NK_ExprSelect (NSelect i q v d (Some p) df or_) /\
    is_var v (b "lib") /\ reads_names (path_names p) (xs ++ [t]) /\ u = noogle_page (xs ++ [t]).
Proof. exact C82_offered_proof. Qed.
Print Assumptions C82_offered.
(** Different functions have different pages, if no name has a slash. *)
Theorem C82_address_partial : forall xs ys, Forall no_slash xs -> Forall no_slash ys -> noogle_page xs = noogle_page ys -> xs = ys.
Proof. exact C82_address_partial_proof. Qed.
Print Assumptions C82_address_partial.
(** `lib."a/b"` and `lib.a.b` share a page. *)
Theorem C82_refuted : exists src1 src2 m1 m2 n1 n2 t1 t2 u, parse src1 = Ok (Some (doc src1), []) /\ parse src2 = Ok (Some (doc src2), []) /\
  parents (doc src1) = Ok m1 /\ parents (doc src2) = Ok m2 /\ node_of (doc src1) n1 /\ node_of (doc src2) n2 /\
  noogleDoc m1 n1 = Ok (Some (t1, u)) /\ noogleDoc m2 n2 = Ok (Some (t2, u)) /\ t1 <> t2.
Proof. exact C82_refuted_proof. Qed.
Print Assumptions C82_refuted.
Example C82_nonvacuous : let src := b "lib.strings.concat x.y" in
  (exists ds, parse src = Ok (Some (doc src), ds)) /\ parents (doc src) = Ok (ups src) /\
  (let n := node_no src 5 in node_of (doc src) n /\ kind_of n = NK_AttrName /\
     noogleDoc (ups src) n = Ok (Some (b "concat", b "https://noogle.dev/f/lib/strings/concat"))) /\
  noogleDoc (ups src) (node_no src 12) = Ok None.
Proof.
  cbv zeta. set (src := b "lib.strings.concat x.y"). split; [eexists; vm_compute; reflexivity|]. split; [apply sound_ok; vm_compute; reflexivity|].
  split; [split; [apply node_no_in; apply Nat.ltb_lt; vm_compute; reflexivity|]; split; [vm_compute; reflexivity|vm_compute; reflexivity]|]. vm_compute. reflexivity.
Qed.

(** ** C83: the settings that the client sends take effect.
    [settings] (ReqSpec): the object that a client sends with the settings that the user gave.  After such a reply the
    formatter is the one given (else nixfmt), exactly the diagnostics named are suppressed, the worker of every option set
    given evaluates the expression given for it, and nixpkgs is the expression given. *)
Theorem C83_partial : forall command options nixpkgs suppress rest st, NoDup (map fst (given options [])) ->
  exists st', configReply (Some (JArray (settings command options nixpkgs suppress :: rest))) st = Ok st' /\
  cf_command (c_config st') = given command [b "nixfmt"] /\
  (forall k, isSuppressed (c_suppressed st') k = true <-> In (sname_of k) (given suppress [])) /\
  (forall x, aget x (c_workers st') = match aget x (given options []) with Some e => Some e | None => aget x (c_workers st) end) /\
  (forall e, nixpkgs = Some e -> e <> [] -> c_nixpkgs st' = e).
Proof. exact C83_partial_proof. Qed.
Print Assumptions C83_partial.
(** A reply that is an error, is no array, or has a field of the wrong kind changes nothing. *)
Theorem C83_bad_reply : forall reply st,
  match reply with
  | Some (JArray (JObject o :: _)) => exists k j, In k [b "options"; b "nixpkgs"; b "diagnostic"] /\ ConnModel.get k o = Some j /\ forall f, j <> JObject f
  | Some (JArray (_ :: _)) => True
  | Some (JArray []) => False
  | _ => True
  end -> configReply reply st = Ok st.
Proof. exact C83_bad_reply_proof. Qed.
Print Assumptions C83_bad_reply.
(** An empty array as the reply is undefined behaviour. *)
Theorem C83_empty_refuted : exists st why, configReply (Some (JArray [])) st = Crash why.
Proof. exact C83_empty_refuted_proof. Qed.
Print Assumptions C83_empty_refuted.
(** An option set that the user removes from the settings keeps its worker, and so does an expression for nixpkgs. *)
Theorem C83_removed_refuted : exists st1 st2 st3 x e,
  configReply (Some (JArray [settings None (Some [(x, e)]) (Some e) None])) st1 = Ok st2 /\
  configReply (Some (JArray [settings None (Some []) (Some []) None])) st2 = Ok st3 /\
  cf_options (c_config st3) = [] /\ cf_nixpkgs (c_config st3) = [] /\
  aget x (c_workers st3) = Some e /\ c_nixpkgs st3 = e.
Proof. exact C83_removed_refuted_proof. Qed.
Print Assumptions C83_removed_refuted.
Example C83_nonvacuous : let st := CState defaultConfig (b "old") [(b "home", b "h")] [] in
  let o := [(b "nixos", b "n"); (b "flake", b "f")] in NoDup (map fst o) /\
  exists st', configReply (Some (JArray [settings (Some [b "fmt"; b "-x"]) (Some o) None (Some [b "sema-extra-with"])])) st = Ok st' /\
    cf_command (c_config st') = [b "fmt"; b "-x"] /\ map snd (c_workers st') = [b "f"; b "h"; b "n"] /\ c_nixpkgs st' = b "old" /\
    isSuppressed (c_suppressed st') DK_ExtraWith = true /\ isSuppressed (c_suppressed st') DK_UndefinedVariable = false.
Proof.
  cbv zeta. split; [constructor; [intros [Z|[]]; vm_compute in Z; discriminate Z|constructor; [intros []|constructor]]|].
  eexists. split; [vm_compute; reflexivity|]. repeat split; vm_compute; reflexivity.
Qed.

(** ** C84: hover shows what is known about the package or function meant.
    [ask]: the answer of the evaluator about an attribute path.  On a variable or a selection hover shows a text, about
    that expression, if and only if the expression is meant to be an attribute path of nixpkgs that the evaluator knows
    something to show about. *)
Theorem C84_shown : forall src root ds primops s m ask workers sc n e,
  parse src = Ok (Some root, ds) -> vla primops root = Ok s -> parents root = Ok m ->
  nearest_expr root n e -> kind_of n <> NK_Misc -> visit (prelude primops) root sc e ->
  (kind_of e = NK_ExprVar \/ kind_of e = NK_ExprSelect) ->
  exists r, onHover s m (Some ask) workers n = Ok r /\
  forall text q, r = Some (text, q) <-> q = e /\ exists p i, meant primops root sc e p /\ ask p = Some i /\ text = infoMarkdown i /\ text <> [].
Proof. exact C84_shown_proof. Qed.
Print Assumptions C84_shown.
(** The text has the name, the homepage and the description of a package, and the documentation, the arity and the
    arguments of a function.  Missing: the long description of a package that has no description. *)
Theorem C84_text_partial : forall i, let text := infoMarkdown i in let p := ai_PackageDesc i in
  (forall x, pk_Name p = Some x -> shows text (b "`" ++ x ++ b "`")) /\
  (forall x, pk_Homepage p = Some x -> shows text (b "[homepage](" ++ x ++ b ")")) /\
  (forall x, pk_Description p = Some x -> shows text x) /\
  (forall x y, pk_Description p = Some x -> pk_LongDescription p = Some y -> shows text y) /\
  (forall v, ai_ValueDesc i = Some v -> shows text (vd_Doc v) /\
     (vd_Arity v <> 0%Z -> shows text (b "**Arity:** " ++ intText (vd_Arity v))) /\
     forall x, In x (vd_Args v) -> shows text (b "`" ++ x ++ b "`")).
Proof. exact C84_text_partial_proof. Qed.
Print Assumptions C84_text_partial.
Theorem C84_long_refuted : exists i y, pk_LongDescription (ai_PackageDesc i) = Some y /\ y <> [] /\ infoMarkdown i = [].
Proof. exact C84_long_refuted_proof. Qed.
Print Assumptions C84_long_refuted.
(** Hover on an option shows nothing without an evaluator for nixpkgs, although a worker knows the option. *)
Theorem C84_option_refuted : exists src root s m n w t, parse src = Ok (Some root, []) /\ vla table root = Ok s /\ parents root = Ok m /\ node_of root n /\
  onHover s m (Some (fun _ => None)) [w] n = Ok (Some t) /\ onHover s m None [w] n = Ok None.
Proof. exact C84_option_refuted_proof. Qed.
Print Assumptions C84_option_refuted.
Example C84_nonvacuous : let src := b "pkgs.hello" in let n := node_no src 5 in let p := sight src NK_ExprSelect in
  (exists ds, parse src = Ok (Some (doc src), ds)) /\ vla table (doc src) = Ok (analysed src) /\ parents (doc src) = Ok (ups src) /\
  nearest_expr (doc src) n (snd p) /\ kind_of n <> NK_Misc /\ visit (prelude table) (doc src) (fst p) (snd p) /\ kind_of (snd p) = NK_ExprSelect /\
  exists text q, onHover (analysed src) (ups src) (Some asks) [] n = Ok (Some (text, q)) /\ text <> [].
Proof.
  cbv zeta. set (src := b "pkgs.hello"). destruct (sound_ok src) as [A B]; [vm_compute; reflexivity|].
  assert (P : exists ds, parse src = Ok (Some (doc src), ds)) by (eexists; vm_compute; reflexivity). split; [exact P|]. destruct P as [ds P].
  split; [exact A|]. split; [exact B|]. destruct (sight_at src NK_ExprSelect) as [V K]; [vm_compute; reflexivity|].
  split; [eapply up_nearest; [exact P|exact B|apply node_no_in; apply Nat.ltb_lt; vm_compute; reflexivity|vm_compute; reflexivity]|].
  split; [vm_compute; discriminate|]. split; [exact V|]. split; [exact K|]. do 2 eexists. split; [vm_compute; reflexivity|]. discriminate.
Qed.

(** ** C85: definitions are found.
    [ask]: the answer of the evaluator about an attribute path of nixpkgs.  On a variable, the first place is the name
    where it is declared, or the keyword of the outermost `with` around a variable that nothing declares; behind it come the
    places that nixpkgs knows if the variable is meant to be an attribute path of it; builtins and undefined variables have
    no place. *)
Theorem C85_variable : forall src root ds primops s m ask workers fs file sc n e x,
  parse src = Ok (Some root, ds) -> vla primops root = Ok s -> parents root = Ok m ->
  nearest_expr root n e -> kind_of n <> NK_Misc -> not_inherited root n -> occurs_at primops root sc e x ->
  exists l, onDefinition s m (Some ask) workers fs file n = Ok (Some l) /\
  ((exists who names t nd role rest, bound sc x (Binds who names :: t) /\ In (x, (nd, role)) names /\
      l = InDocument (nrange nd) :: rest /\ elsewhere root primops ask sc e rest) \/
   (exists ws i r kw semi we body rest, unbound sc x /\ withs sc = ws ++ [NWith i r kw semi we body] /\
      l = InDocument (nrange kw) :: rest /\ elsewhere root primops ask sc e rest) \/
   (exists xs t, bound sc x (Prelude xs :: t) /\ l = []) \/
   (unbound sc x /\ withs sc = [] /\ l = [])).
Proof. exact C85_variable_proof. Qed.
Print Assumptions C85_variable.
(** On a selection: the places that nixpkgs knows for the attribute path meant, if its position can be read. *)
Theorem C85_selection_partial : forall src root ds primops s m ask workers fs file sc n e,
  parse src = Ok (Some root, ds) -> vla primops root = Ok s -> parents root = Ok m ->
  nearest_expr root n e -> kind_of n <> NK_Misc -> not_inherited root n -> visit (prelude primops) root sc e -> kind_of e = NK_ExprSelect ->
  (forall p, meant primops root sc e p -> ~ bad_position ask p) ->
  exists l, onDefinition s m (Some ask) workers fs file n = Ok (Some l) /\
  ((exists p, meant primops root sc e p /\ nixpkgs_places ask p l) \/ ((forall p, ~ meant primops root sc e p) /\ l = [])).
Proof. exact C85_selection_partial_proof. Qed.
Print Assumptions C85_selection_partial.
(** On a literal path: the file it leads to. *)
Theorem C85_path : forall src root ds s m nixpkgs workers fs file n e r x,
  parse src = Ok (Some root, ds) -> parents root = Ok m ->
  nearest_expr root n e -> kind_of n <> NK_Misc -> not_inherited root n -> literal_path e r x ->
  exists l, onDefinition s m nixpkgs workers fs file n = Ok (Some l) /\
  forall q, In q l <-> exists t, leads_to fs file x t /\ q = InFile t 0.
Proof. exact C85_path_proof. Qed.
Print Assumptions C85_path.
(** A selection in a value that was dropped as a duplicate ends the server: its variable was never analysed, and the
    exception that says so is not caught. *)
Theorem C85_duplicate_refuted : exists src root ds s m n, parse src = Ok (Some root, ds) /\ vla table root = Ok s /\ parents root = Ok m /\ node_of root n /\
  onDefinition s m (Some (fun _ => None)) [] disk [] n = Crash "std::terminate".
Proof. exact C85_duplicate_refuted_proof. Qed.
Print Assumptions C85_duplicate_refuted.
(** So does a package whose position has no number behind the colon. *)
Theorem C85_position_refuted : exists src root s m ask n, parse src = Ok (Some root, []) /\ vla table root = Ok s /\ parents root = Ok m /\ node_of root n /\
  onDefinition s m (Some ask) [] disk [] n = Crash "std::terminate".
Proof. exact C85_position_refuted_proof. Qed.
Print Assumptions C85_position_refuted.
(** Without an evaluator for nixpkgs the request on `pkgs.hello` follows a null pointer. *)
Theorem C85_client_refuted : exists src root s m n, parse src = Ok (Some root, []) /\ vla table root = Ok s /\ parents root = Ok m /\ node_of root n /\
  onDefinition s m None [] disk [] n = Crash "null pointer".
Proof. exact C85_client_refuted_proof. Qed.
Print Assumptions C85_client_refuted.
(** The line of a package is counted from 1, that of a place from 0: the place is one line too far. *)
Theorem C85_line_refuted : exists src root s m n, parse src = Ok (Some root, []) /\ vla table root = Ok s /\ parents root = Ok m /\ node_of root n /\
  pk_Position (ai_PackageDesc hello) = Some (b "/n/hello.nix:12") /\
  onDefinition s m (Some asks) [] disk [] n = Ok (Some [InFile (b "/n/hello.nix") 12]).
Proof. exact C85_line_refuted_proof. Qed.
Print Assumptions C85_line_refuted.
Example C85_nonvacuous : let src := b "x: [ (with pkgs; hello) x ./a pkgs.hello ]" in
  (exists ds, parse src = Ok (Some (doc src), ds)) /\ vla table (doc src) = Ok (analysed src) /\ parents (doc src) = Ok (ups src) /\
  (forall q, In q (all_nodes (nsize (doc src)) (doc src)) -> kind_of q <> NK_Inherit) /\
  (let p := spot src (b "hello") in occurs_at table (doc src) (fst p) (snd p) (b "hello") /\ nearest_expr (doc src) (snd p) (snd p) /\
     exists r, onDefinition (analysed src) (ups src) (Some asks) [] disk (b "/d/f.nix") (snd p) = Ok (Some [InDocument r; InFile (b "/n/hello.nix") 12]) /\ off (lcur r) = 6) /\
  (let p := spot src (b "x") in occurs_at table (doc src) (fst p) (snd p) (b "x") /\
     exists r, onDefinition (analysed src) (ups src) (Some asks) [] disk (b "/d/f.nix") (snd p) = Ok (Some [InDocument r]) /\ off (lcur r) = 0) /\
  (let p := sight src NK_ExprPath in (exists r, literal_path (snd p) r (b "./a")) /\
     onDefinition (analysed src) (ups src) (Some asks) [] disk (b "/d/f.nix") (snd p) = Ok (Some [InFile (b "/d/./a") 0])) /\
  (let p := sight src NK_ExprSelect in visit (prelude table) (doc src) (fst p) (snd p) /\
     onDefinition (analysed src) (ups src) (Some asks) [] disk (b "/d/f.nix") (snd p) = Ok (Some [InFile (b "/n/hello.nix") 12])).
Proof.
  cbv zeta. set (src := b "x: [ (with pkgs; hello) x ./a pkgs.hello ]"). destruct (sound_ok src) as [A B]; [vm_compute; reflexivity|].
  assert (P : exists ds, parse src = Ok (Some (doc src), ds)) by (eexists; vm_compute; reflexivity). split; [exact P|]. destruct P as [ds P].
  split; [exact A|]. split; [exact B|]. split.
  { assert (F : forallb (fun q => negb (nodekind_beq (kind_of q) NK_Inherit)) (all_nodes (nsize (doc src)) (doc src)) = true) by (vm_compute; reflexivity).
    rewrite forallb_forall in F. intros q I Z. specialize (F q I). rewrite Z in F. discriminate F. }
  split; [|split; [|split]].
  - assert (O : occurs_at table (doc src) (fst (spot src (b "hello"))) (snd (spot src (b "hello"))) (b "hello")) by (apply spot_at; vm_compute; reflexivity).
    split; [exact O|]. split.
    + eapply up_nearest; [exact P|exact B| |vm_compute; reflexivity].
      assert (Z : exists i, i < List.length (all_nodes (nsize (doc src)) (doc src)) /\ snd (spot src (b "hello")) = node_no src i).
      { exists 10. split; [apply Nat.ltb_lt; vm_compute; reflexivity|vm_compute; reflexivity]. }
      destruct Z as (i & L & ->). now apply node_no_in.
    + eexists. split; vm_compute; reflexivity.
  - split; [apply spot_at; vm_compute; reflexivity|]. eexists. split; vm_compute; reflexivity.
  - split; [do 3 eexists; split; vm_compute; reflexivity|]. vm_compute. reflexivity.
  - split; [apply sight_at; vm_compute; reflexivity|]. vm_compute. reflexivity.
Qed.
