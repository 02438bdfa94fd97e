(** Properties C35, C52 to C54 and C70: requests and code actions that rely on where a variable comes from. *)
From Verif Require Import Base Diag LexModel AstModel PSupModel SemaModel SemaSpec ParseModel ParseSpec NavModel NavSpec NavProofs NavFacts VlaModel VlaSpec VlaPost VlaBase VlaThms ActModel RefModel RefSpec RefProofs RefWith RefFree IdSpec IdProofs RefFacts.


(** ** C35: renaming edits every occurrence exactly once and nothing else.
    The edits cover the declaration and precisely the occurrences that refer to it, and the cursor is on one of these.
    Missing: that the edits are pairwise disjoint (false, below); that the new text of the document is a program of
    the renamed scopes (C35_fresh states what the renamed scopes are worth).  The analysis needs identities to be
    unambiguous. *)
Theorem C35_partial : forall src ds primops root s m n new edits,
  parse src = Ok (Some root, ds) ->
  vla primops root = Ok s -> parents root = Ok m -> node_of root n ->
  rename root s m n new = value edits ->
  exists sc o x nd, declaration primops root sc o x nd /\
    ((exists v v', on_variable root n v /\ refers sc o x v' /\ nid v' = nid v) \/ on_name root n nd) /\
    forall e, In e edits <-> e = TEdit (nrange nd) new \/ exists v, refers sc o x v /\ e = TEdit (nrange v) new.
Proof. exact C35_partial_proof. Qed.
Print Assumptions C35_partial.
(** A variable that is bound can be renamed wherever the cursor is in it. *)
Theorem C35_offered : forall src ds primops root s m n v i r j q x sc who names t new,
  parse src = Ok (Some root, ds) ->
  vla primops root = Ok s -> parents root = Ok m ->
  node_of root v -> v = NVar i r (NIdent j q x) -> in_var root n v ->
  visit (prelude primops) root sc v -> bound sc x (Binds who names :: t) ->
  exists edits o nd, rename root s m n new = value edits /\ declaration primops root t o x nd /\ refers t o x v /\
    forall e, In e edits <-> e = TEdit (nrange nd) new \/ exists v, refers t o x v /\ e = TEdit (nrange v) new.
Proof. exact C35_offered_proof. Qed.
Print Assumptions C35_offered.
(** Preparing a rename answers with the range of the node at the cursor, and only where a rename succeeds. *)
Theorem C35_prepare : forall root s m n r, prepareRename root s m n = value r ->
  r = nrange n /\ forall new, exists edits, rename root s m n new = value edits.
Proof. exact C35_prepare_proof. Qed.
Print Assumptions C35_prepare.
(** In scopes: where the declaration of [x] is renamed to a name [y] that nothing nearer declares, what referred to it
    refers to it under the new name, and every name other than [y] keeps its meaning. *)
Theorem C35_fresh : forall pre who names sc x y, let l := Binds who names in let l' := renamed_layer x y l in
  declares l x -> unbound pre y ->
  (bound (pre ++ l :: sc) x (l :: sc) -> bound (pre ++ l' :: sc) y (l' :: sc)) /\
  forall z, z <> y ->
    (unbound (pre ++ l :: sc) z -> unbound (pre ++ l' :: sc) z /\ withs (pre ++ l' :: sc) = withs (pre ++ l :: sc)) /\
    (bound (pre ++ l :: sc) z (l :: sc) -> z <> x -> bound (pre ++ l' :: sc) z (l' :: sc)) /\
    forall h t, bound (pre ++ l :: sc) z (h :: t) -> ~ bound (pre ++ l :: sc) z (l :: sc) ->
      exists t', bound (pre ++ l' :: sc) z (h :: t').
Proof. exact C35_fresh_proof. Qed.
Print Assumptions C35_fresh.
(** The property is false.  The source of `inherit (e) a b` is analysed once for each name, so renaming [e] has the same
    edit twice.  Renaming a variable that a set inherits renames the attribute.  And with the cursor on the name in
    `{ a = 1; inherit a; }` the server aborts. *)
Theorem C35_refuted :
  (exists src root s m n e1 e2 rest, parse src = Ok (Some root, []) /\ vla table root = Ok s /\ parents root = Ok m /\ node_of root n /\
     rename root s m n (b "yy") = value (e1 :: e2 :: rest) /\ lcur (e_range e1) = lcur (e_range e2) /\ rcur (e_range e1) = rcur (e_range e2)) /\
  (exists src root s m n edits root', parse src = Ok (Some root, []) /\ vla table root = Ok s /\ parents root = Ok m /\ node_of root n /\
     rename root s m n (b "y") = value edits /\ parse (apply_edits src edits) = Ok (Some root', []) /\
     set_names root = [b "x"] /\ set_names root' = [b "y"]) /\
  (exists src root s m n w ds, parse src = Ok (Some root, ds) /\ vla table root = Ok s /\ parents root = Ok m /\ node_of root n /\
     rename root s m n (b "y") = Crash w).
Proof. exact C35_refuted_proof. Qed.
Print Assumptions C35_refuted.
(** in a function of two arguments, the outer one occurs three times and once where it is shadowed *)
Example C35_nonvacuous : let src := b "x: y: [ x (x: x) x y ]" in let new := b "z" in
  (exists ds, parse src = Ok (Some (doc src), ds)) /\ vla table (doc src) = Ok (analysed src) /\ parents (doc src) = Ok (ups src) /\
  node_of (doc src) (node_no src 8) /\
  exists es, renames src 8 new = value es /\ map (fun e => off (lcur (e_range e))) es = [8; 17; 0].
Proof.
  cbv zeta. set (src := b "x: y: [ x (x: x) x y ]"). split; [eexists; vm_compute; reflexivity|]. split; [apply sound_ok; vm_compute; reflexivity|].
  split; [apply sound_ok; vm_compute; reflexivity|]. split; [apply node_no_in; apply Nat.ltb_lt; vm_compute; reflexivity|].
  eexists. split; [vm_compute; reflexivity|reflexivity].
Qed.

(** ** C70: references are exactly the occurrences with the same meaning.
    They are those of the declaration that the cursor is on or on an occurrence of; or all the undeclared variables in
    the body of a `with`, the cursor being on its keyword or on a variable for which it is the outermost `with`; or the
    occurrences of the same global name. *)
Theorem C70 : forall src ds primops root s m n rs,
  parse src = Ok (Some root, ds) ->
  vla primops root = Ok s -> parents root = Ok m -> node_of root n ->
  findReferences root s m n = value rs ->
  exists vs, rs = map nrange vs /\
  ((exists sc o x nd, declaration primops root sc o x nd /\
      ((exists v v', on_variable root n v /\ refers sc o x v' /\ nid v' = nid v) \/ on_name root n nd) /\
      forall v, In v vs <-> refers sc o x v) \/
   (exists sc i r kw semi we e, let w := NWith i r kw semi we e in visit (prelude primops) root sc w /\
      ((exists v v' sc' x ws, on_variable root n v /\ occurs_at primops root sc' v' x /\ nid v' = nid v /\ unbound sc' x /\
          withs sc' = ws ++ [w]) \/ on_name root n kw) /\
      forall v, In v vs <-> may_use sc w v) \/
   (exists x v v' sc', on_variable root n v /\ occurs_at primops root sc' v' x /\ nid v' = nid v /\
      bound sc' x (prelude primops) /\
      forall v, In v vs <-> exists sc, occurs_at primops root sc v x /\ bound sc x (prelude primops))).
Proof. exact C70_proof. Qed.
Print Assumptions C70.
(** Each occurrence need not be listed once: the source of `inherit (e) a b` is listed twice. *)
Theorem C70_once_refuted : exists src root s m n r1 r2, parse src = Ok (Some root, []) /\ vla table root = Ok s /\
  parents root = Ok m /\ node_of root n /\ findReferences root s m n = value [r1; r2] /\ lcur r1 = lcur r2 /\ rcur r1 = rcur r2.
Proof. exact C70_once_refuted_proof. Qed.
Print Assumptions C70_once_refuted.
Example C70_nonvacuous : let src := b "x: map (y: x y) (with x; z)" in
  (exists ds, parse src = Ok (Some (doc src), ds)) /\ vla table (doc src) = Ok (analysed src) /\ parents (doc src) = Ok (ups src) /\
  (exists rs, findReferences (doc src) (analysed src) (ups src) (node_no src 2) = value rs /\ map (fun r => off (lcur r)) rs = [11; 22]) /\
  (exists rs, findReferences (doc src) (analysed src) (ups src) (node_no src 4) = value rs /\ map (fun r => off (lcur r)) rs = [3]) /\
  (exists rs, findReferences (doc src) (analysed src) (ups src) (node_no src 24) = value rs /\ map (fun r => off (lcur r)) rs = [25]).
Proof.
  cbv zeta. set (src := b "x: map (y: x y) (with x; z)"). split; [eexists; vm_compute; reflexivity|]. split; [apply sound_ok; vm_compute; reflexivity|].
  split; [apply sound_ok; vm_compute; reflexivity|]. split; [|split]; eexists; (split; [vm_compute; reflexivity|reflexivity]).
Qed.

(** ** C52: converting `with` to `let` preserves what names mean.
    The action rewrites the nearest `with e; body` to `let inherit (e) names; in body`, the names being in order, each
    once, and exactly those that the body leaves to a `with`.  Whatever layer [new] the `let` opens, as long as it binds these
    names: in the body, names that were declared keep their declaration, and the others, for which this `with` was
    the innermost, now mean the `let`; in [e], which is now inside the `let`, declared names keep their declaration, and so
    do undeclared ones unless they are among the names.
    Missing: undeclared names of [e] that are among the names, and outer `with` expressions in which a name was looked up if
    [e] has no such attribute (both false, below); that the new text parses to this `let`. *)
Theorem C52_partial : forall ds primops root s m src n ed,
  parse src = Ok (Some root, ds) ->
  vla primops root = Ok s -> parents root = Ok m -> node_of root n ->
  withToLet root s m src n = Ok (Some ed) ->
  exists i r kw semi we e sc names t1 t2, let w := NWith i r kw semi (Some we) (Some e) in
    nearest root n NK_ExprWith w /\ visit (prelude primops) root sc w /\ names <> [] /\ increasing names /\
    (forall x, In x names <-> exists v, may_use sc w v /\ is_var v x) /\
    nsrc src we = Ok t1 /\ nsrc src e = Ok t2 /\
    ed = TEdit r (b "let inherit (" ++ t1 ++ b ")" ++ List.concat (map (fun x => b " " ++ x) names) ++ b "; in " ++ t2) /\
    forall new, binds_names new names ->
      (forall v x pre, visit (WithOf w :: sc) e (pre ++ WithOf w :: sc) v -> is_var v x ->
         (forall h t, bound (pre ++ WithOf w :: sc) x (h :: t) -> exists t', bound (pre ++ new :: sc) x (h :: t')) /\
         (unbound (pre ++ WithOf w :: sc) x -> withs pre = [] /\ bound (pre ++ new :: sc) x (new :: sc))) /\
      (forall v x pre, visit sc we (pre ++ sc) v -> is_var v x ->
         (forall h t, bound (pre ++ sc) x (h :: t) -> exists t', bound (pre ++ new :: sc) x (h :: t')) /\
         (~ In x names -> unbound (pre ++ sc) x -> unbound (pre ++ new :: sc) x /\ withs (pre ++ new :: sc) = withs (pre ++ sc))).
Proof. exact C52_partial_proof. Qed.
Print Assumptions C52_partial.
(** The property is false.  In `a: with a; with x; x` the inner `with` becomes `let inherit (x) x; in x`, in which the
    source refers to the name it defines.  And in `with {a=1;}; with {b=2;}; a` the name was to be looked up in both
    sets; after the rewrite only in the inner one, which does not have it. *)
Theorem C52_refuted :
  (exists src s m n ed, parse src = Ok (Some (doc src), []) /\ vla table (doc src) = Ok s /\ parents (doc src) = Ok m /\ node_of (doc src) n /\
     withToLet (doc src) s m src n = Ok (Some ed) /\ apply_edit src ed = b "a: with a; let inherit (x) x; in x" /\
     parse (apply_edit src ed) = Ok (Some (doc (apply_edit src ed)), []) /\
     (forall sc v, occurs_at table (doc src) sc v (b "x") -> unbound sc (b "x")) /\
     (forall sc v, occurs_at table (doc (apply_edit src ed)) sc v (b "x") -> ~ unbound sc (b "x"))) /\
  (exists src s m n ed, parse src = Ok (Some (doc src), []) /\ vla table (doc src) = Ok s /\ parents (doc src) = Ok m /\ node_of (doc src) n /\
     withToLet (doc src) s m src n = Ok (Some ed) /\ apply_edit src ed = b "with {a=1;}; let inherit ({b=2;}) a; in a" /\
     parse (apply_edit src ed) = Ok (Some (doc (apply_edit src ed)), []) /\
     (forall sc v, occurs_at table (doc src) sc v (b "a") -> unbound sc (b "a") /\ List.length (withs sc) = 2) /\
     (forall sc v, occurs_at table (doc (apply_edit src ed)) sc v (b "a") -> ~ unbound sc (b "a"))).
Proof. exact C52_refuted_proof. Qed.
Print Assumptions C52_refuted.
Example C52_nonvacuous : let src := b "x: with x; y (z: z y a)" in
  (exists ds, parse src = Ok (Some (doc src), ds)) /\ vla table (doc src) = Ok (analysed src) /\
  parents (doc src) = Ok (ups src) /\ node_of (doc src) (node_no src 3) /\
  exists r, withToLet (doc src) (analysed src) (ups src) src (node_no src 3) = Ok (Some (TEdit r (b "let inherit (x) a y; in y (z: z y a)"))).
Proof.
  cbv zeta. set (src := b "x: with x; y (z: z y a)"). split; [eexists; vm_compute; reflexivity|]. split; [apply sound_ok; vm_compute; reflexivity|].
  split; [apply sound_ok; vm_compute; reflexivity|]. split; [apply node_no_in; apply Nat.ltb_lt; vm_compute; reflexivity|].
  eexists. vm_compute. reflexivity.
Qed.

(** ** C53: extracting an expression captures the names it takes from outside.
    The new file is a function of the names, in order, each once, whose body is the text of the expression; the
    expression is replaced by an import of the file with these names passed on.  Each name is that of a variable in the
    expression whose declaration is written outside of it or which comes from a `with`; and each such variable that is in the
    expression as a node has its name there.
    Missing: variables that are not nodes of the expression, those of `inherit` clauses (false, below). *)
Theorem C53_partial : forall ds primops root s m src file n text ed,
  parse src = Ok (Some root, ds) ->
  vla primops root = Ok s -> extractToFile s m src file n = Ok (Some (text, ed)) ->
  exists top body names, isExtractable top = true /\ nsrc src top = Ok body /\ body <> [] /\ increasing names /\
    text = match names with [] => [] | _ => b "{ " ++ commas names ++ b " }:" ++ LF end ++ body ++ LF /\
    ed = TEdit (nrange top) (b "import ./" ++ file ++
           match names with [] => [] | _ => b " { inherit" ++ List.concat (map (fun x => b " " ++ x) names) ++ b "; }" end) /\
    (forall x, In x names -> exists v sc v' x', node_of top v /\ varName v = x /\ occurs_at primops root sc v' x' /\ nid v' = nid v /\ outside top sc x') /\
    (forall v sc x, node_of top v -> occurs_at primops root sc v x -> outside top sc x -> In x names).
Proof. exact C53_partial_proof. Qed.
Print Assumptions C53_partial.
(** The property is false: the variable of `inherit x` is not collected, and the new file has an undefined variable. *)
Theorem C53_refuted : exists src s m n text ed, parse src = Ok (Some (doc src), []) /\ vla table (doc src) = Ok s /\ parents (doc src) = Ok m /\
  node_of (doc src) n /\ extractToFile s m src (b "f.nix") n = Ok (Some (text, ed)) /\ text = b "{ inherit x; }" ++ LF /\
  (forall sc v, occurs_at table (doc src) sc v (b "x") -> ~ unbound sc (b "x")) /\
  (exists sc v, occurs_at table (doc text) sc v (b "x") /\ unbound sc (b "x") /\ withs sc = []).
Proof. exact C53_refuted_proof. Qed.
Print Assumptions C53_refuted.
Example C53_nonvacuous : let src := b "x: y: with x; [ (z: z a x) y map ]" in
  (exists ds, parse src = Ok (Some (doc src), ds)) /\ vla table (doc src) = Ok (analysed src) /\ kind_of (node_no src 11) = NK_ExprList /\
  exists r, extractToFile (analysed src) (ups src) src (b "f.nix") (node_no src 11) =
    Ok (Some (b "{ a, x, y }:" ++ LF ++ b "[ (z: z a x) y map ]" ++ LF, TEdit r (b "import ./f.nix { inherit a x y; }"))).
Proof.
  cbv zeta. set (src := b "x: y: with x; [ (z: z a x) y map ]"). split; [eexists; vm_compute; reflexivity|].
  split; [apply sound_ok; vm_compute; reflexivity|]. split; [vm_compute; reflexivity|]. eexists. vm_compute. reflexivity.
Qed.

(** ** C54: adding an undefined variable to the formals.
    The action is offered on a variable that has no meaning, when the nearest enclosing function has formals and none of
    this name.  The name is inserted after the opening brace if there are no formals, before an ellipsis that is alone,
    after the last other formal if the ellipsis is last, and after the last formal otherwise, with a comma; and a layer that
    has the name gives it a meaning wherever nothing nearer declares it.
    Missing: that the list stays well-formed (false after a trailing comma, below). *)
Theorem C54_partial : forall src ds primops root s m n pos text,
  parse src = Ok (Some root, ds) ->
  vla primops root = Ok s -> parents root = Ok m -> node_of root n ->
  addToFormals s m n = Ok (Some (pos, text)) ->
  exists v i r j q id k fr ms formals body sc v' x,
    nearest root n NK_ExprVar v /\ nearest root n NK_ExprLambda (NLambda i r (Some (NLambdaArg j q id (Some (NFormals k fr ms formals)))) body) /\
    occurs_at primops root sc v' x /\ nid v' = nid v /\ unbound sc x /\ withs sc = [] /\ ~ In (varName v) (map fst formals) /\
    ((ms = [] /\ pos = S (off (lcur fr)) /\ text = b " " ++ quoteNixAttrKey (varName v) ++ b " ") \/
     (exists last, ms = [last] /\ isEllipsis last = true /\ pos = off (nl last) /\ text = quoteNixAttrKey (varName v) ++ b ", ") \/
     (exists before f dots last, ms = before ++ f :: dots ++ [last] /\ isEllipsis last = true /\ isEllipsis f = false /\
        forallb isEllipsis dots = true /\ pos = off (nr f) /\ text = b ", " ++ quoteNixAttrKey (varName v)) \/
     (exists before last, ms = before ++ [last] /\ isEllipsis last = false /\ pos = off (nr last) /\ text = b ", " ++ quoteNixAttrKey (varName v))) /\
    forall pre who names t, sc = pre ++ Binds who names :: t -> forall new, declares new x -> bound (pre ++ new :: t) x (new :: t).
Proof. exact C54_partial_proof. Qed.
Print Assumptions C54_partial.
(** The property is false: after a trailing comma, which is part of the last formal, the result has a parse error. *)
Theorem C54_refuted : exists src s m n pos text, parse src = Ok (Some (doc src), []) /\ vla table (doc src) = Ok s /\ parents (doc src) = Ok m /\
  node_of (doc src) n /\ addToFormals s m n = Ok (Some (pos, text)) /\
  firstn pos src ++ text ++ skipn pos src = b "{ a,, x }: x" /\
  exists root' d ds, parse (firstn pos src ++ text ++ skipn pos src) = Ok (Some root', d :: ds).
Proof. exact C54_refuted_proof. Qed.
Print Assumptions C54_refuted.
Example C54_nonvacuous : let src := b "{ a, ... }: a x" in
  (exists ds, parse src = Ok (Some (doc src), ds)) /\ vla table (doc src) = Ok (analysed src) /\ parents (doc src) = Ok (ups src) /\ node_of (doc src) (node_no src 10) /\
  addToFormals (analysed src) (ups src) (node_no src 10) = Ok (Some (3, b ", x")).
Proof.
  cbv zeta. set (src := b "{ a, ... }: a x"). split; [eexists; vm_compute; reflexivity|].
  split; [apply sound_ok; vm_compute; reflexivity|]. split; [apply sound_ok; vm_compute; reflexivity|].
  split; [apply node_no_in; apply Nat.ltb_lt; vm_compute; reflexivity|]. vm_compute. reflexivity.
Qed.
