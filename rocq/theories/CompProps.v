(** Properties C40, C41 and C42 of completion. *)
From Verif Require Import Base Diag LexModel LexSpec AstModel PSupModel SemaModel ParseModel ParseSpec ParseTree ParseProofs NavModel NavSpec NavProofs NavFacts VlaModel VlaSpec VlaPost VlaBase VlaProofs VlaDfs VlaMain VlaThms VlaFacts TextModel ConnModel UriModel EvalModel CompModel CompSpec CompProofs CompPath IdSpec IdProofs CompFacts.


(** ** C40: completion lists are bounded, and flagged incomplete when cut.
    [may_complete r x] (CompSpec) says that [x] is a candidate of the request: a name of an environment around the
    variable, an attribute of the set looked at, or an option, that begins with what was typed. *)
Theorem C40_bounded : forall r, List.length (cl_items (onCompletion r)) <= 30.
Proof. exact C40_bounded_proof. Qed.
Print Assumptions C40_bounded.

(** every item is a candidate *)
Theorem C40_sound : forall r x, In x (cl_items (onCompletion r)) ->
  exists y, may_complete r y /\ (x = y \/ x = y ++ b " (example)" \/ x = y ++ b " (default)").
Proof. exact C40_sound_proof. Qed.
Print Assumptions C40_sound.

(** a candidate that was left out shows in the flag; for options this is proved when each option set has at most 30
    matching ones *)
Theorem C40_partial : forall r x, may_complete r x ->
  (forall clients prefix fields, r = AtAttrs clients prefix -> In (Some fields) clients -> matching prefix fields <= 30) ->
  offered (onCompletion r) x \/ cl_isIncomplete (onCompletion r) = true.
Proof. exact C40_partial_proof. Qed.
Print Assumptions C40_partial.

(** Options are cut by the evaluator at 30, and then nothing is flagged: *)
Theorem C40_refuted : exists r x, may_complete r x /\ ~ offered (onCompletion r) x /\ cl_isIncomplete (onCompletion r) = false /\
  List.length (cl_items (onCompletion r)) = 30.
Proof. exact C40_refuted_proof. Qed.
Print Assumptions C40_refuted.

Example C40_nonvacuous :
  (* 40 attributes of nixpkgs: cut and flagged *)
  let attrs := map (fun k => (repeat "a"%char (S k), NOther)) (seq 0 40) in
  List.length (cl_items (onCompletion (AtSelect (Some attrs) (b "aa")))) = 30 /\
  cl_isIncomplete (onCompletion (AtSelect (Some attrs) (b "aa"))) = true /\
  (* 30 of them: complete *)
  List.length (cl_items (onCompletion (AtSelect (Some (firstn 31 attrs)) (b "aa")))) = 30 /\
  cl_isIncomplete (onCompletion (AtSelect (Some (firstn 31 attrs)) (b "aa"))) = false /\
  may_complete (AtSelect (Some attrs) (b "aa")) (repeat "a"%char 40).
Proof.
  cbv zeta. repeat (split; [vm_compute; reflexivity|]). exists (map (fun k => (repeat "a"%char (S k), NOther)) (seq 0 40)), NOther.
  split; [reflexivity|]. split; [apply in_map_iff; exists 39; split; [reflexivity|apply in_seq; lia]|exists (repeat "a"%char 38); reflexivity].
Qed.

(** ** C41: scope completion proposes exactly the visible names.
    [occurs_at primops root sc v x] (VlaSpec): the variable [x] is written at [v], and [sc] are the scopes around it.
    [completeScope] gives the proposed names, and whether the list was cut. *)
Theorem C41_sound : forall src ds primops root s m sc v x,
  parse src = Ok (Some root, ds) -> vla primops root = Ok s -> parents root = Ok m -> occurs_at primops root sc v x ->
  exists l cut, completeScope s m v [] = Ok (l, cut) /\
    forall y, In y l -> (exists layer, In layer sc /\ declares layer y) /\ exists rest, y = x ++ rest.
Proof. exact C41_sound_proof. Qed.
Print Assumptions C41_sound.

(** each visible name with the prefix is proposed, unless the list is cut; names with two underscores are not covered *)
Theorem C41_complete_partial : forall src ds primops root s m sc v x layer y,
  parse src = Ok (Some root, ds) -> vla primops root = Ok s -> parents root = Ok m -> occurs_at primops root sc v x -> In layer sc -> declares layer y -> (exists rest, y = x ++ rest) ->
  ~ (exists rest, y = b "__" ++ rest) ->
  exists l cut, completeScope s m v [] = Ok (l, cut) /\ (In y l \/ (cut = true /\ List.length l = 30)).
Proof. exact C41_complete_partial_proof. Qed.
Print Assumptions C41_complete_partial.

(** The full claim fails for names that begin with two underscores, whoever declared them: *)
Theorem C41_refuted : exists src root s m sc v x layer y,
  parse src = Ok (Some root, []) /\ vla table root = Ok s /\ parents root = Ok m /\ occurs_at table root sc v x /\
  In layer sc /\ declares layer y /\ (exists rest, y = x ++ rest) /\ completeScope s m v [] = Ok ([], false).
Proof. exact C41_refuted_proof. Qed.
Print Assumptions C41_refuted.

Example C41_nonvacuous :
  let src := b "foo: let fob = 1; in rec { fa = fo; fx = 1; }" in
  vla table (tree src) = Ok (analysed src) /\ (exists ds, parse src = Ok (Some (tree src), ds)) /\ 
  exists m sc v, parents (tree src) = Ok m /\ occurs_at table (tree src) sc v (b "fo") /\
    completeScope (analysed src) m v [] = Ok ([b "foo"; b "fob"], false).
Proof.
  cbv zeta. set (src := b "foo: let fob = 1; in rec { fa = fo; fx = 1; }"). split; [vm_compute; reflexivity|].
  split; [eexists; vm_compute; reflexivity|].
  exists (match parents (tree src) with Ok m => m | _ => [] end), (fst (at_ src 4)), (snd (at_ src 4)). split; [vm_compute; reflexivity|].
  split; [split; [apply at_visit|split]; vm_compute; try reflexivity; lia|]. vm_compute. reflexivity.
Qed.

(** A variable the analysis skips (in the value of a repeated attribute, say) is completed with the names visible at
    the nearest analysed node around it.  [l] lists the variable and the nodes around it, inside out. *)
Theorem C41_skipped : forall src ds primops root s m v,
  parse src = Ok (Some root, ds) -> vla primops root = Ok s -> parents root = Ok m -> node_of root v ->
  exists l, chain root v l /\ forall inner p outer sc, l = inner ++ p :: outer ->
    (forall q sc' q', In q inner -> visit (prelude primops) root sc' q' -> nid q' <> nid q) ->
    visit (prelude primops) root sc p ->
    exists names cut, completeScope s m v [] = Ok (names, cut) /\
      (forall y, In y names -> (exists layer, In layer sc /\ declares layer y) /\ exists rest, y = varName v ++ rest) /\
      (forall y layer, In layer sc -> declares layer y -> (exists rest, y = varName v ++ rest) ->
        ~ (exists rest, y = b "__" ++ rest) -> In y names \/ (cut = true /\ List.length names = 30)).
Proof. exact C41_skipped_proof. Qed.
Print Assumptions C41_skipped.

Example C41_skipped_nonvacuous :
  let src := b "foo: { a = 1; a = fo; }" in
  vla table (tree src) = Ok (analysed src) /\ (exists ds, parse src = Ok (Some (tree src), ds)) /\
  exists m v inner p outer sc, parents (tree src) = Ok m /\ chain (tree src) v (inner ++ p :: outer) /\ inner <> [] /\
    (forall q sc' q', In q inner -> visit (prelude table) (tree src) sc' q' -> nid q' <> nid q) /\
    visit (prelude table) (tree src) sc p /\ completeScope (analysed src) m v [] = Ok ([b "foo"], false).
Proof.
  cbv zeta. set (src := b "foo: { a = 1; a = fo; }"). split; [vm_compute; reflexivity|].
  split; [eexists; vm_compute; reflexivity|].
  set (c := climb [1;0;1;2] (tree src) [tree src]).
  exists (match parents (tree src) with Ok m => m | _ => [] end), (match c with Some (v, _) => v | None => tree src end).
  exists (match c with Some (_, l) => firstn 3 l | None => [] end), (match c with Some (_, l) => nth 3 l (tree src) | None => tree src end),
         (match c with Some (_, l) => skipn 4 l | None => [] end).
  exists (fst (at_ src 1)).
  split; [vm_compute; reflexivity|]. split; [|split; [|split; [|split]]].
  - eapply (climb_chain (tree src) [1;0;1;2] (tree src) [tree src]); [constructor|]. vm_compute. reflexivity.
  - vm_compute. discriminate.
  - apply (skipped_test table (tree src) _ (S (vsize (tree src)))); [lia|vm_compute; reflexivity].
  - match goal with |- visit _ _ _ ?p => replace p with (snd (at_ src 1)) by (vm_compute; reflexivity) end. apply at_visit. vm_compute. lia.
  - vm_compute. reflexivity.
Qed.

(** ** C42: option lookup by attribute path.
    [path_of root u p] (CompSpec): [p] lists the attribute names from the outermost set down to the set [u].  [found]
    is the answer for such a list followed by further texts: their texts, or that one of them is computed.  An empty
    text is one still to be typed. *)
Theorem C42_path : forall src root ds u, parse src = Ok (Some root, ds) -> node_of root u ->
  kind_of u = NK_ExprAttrs -> exists p, path_of root u p /\ forall p', path_of root u p' -> p' = p.
Proof. exact C42_path_proof. Qed.
Print Assumptions C42_path.

(** on a name of a binding's path *)
Theorem C42_name_partial : forall src root ds m u p ap b0 x after n, parse src = Ok (Some root, ds) -> parents root = Ok m -> exposed root u -> path_of root u p ->
  path_in u ap -> (exists i r dots, ap = NAttrPath i r (b0 ++ x :: after) dots) ->
  n = x \/ In n (present (children x)) ->
  findAttrPath m n = Ok (found (p ++ b0 ++ [x]) []).
Proof. exact C42_name_partial_proof. Qed.
Print Assumptions C42_name_partial.

(** on the dot after a name *)
Theorem C42_dot_partial : forall src root ds m u p ap b0 x after di dr nx, parse src = Ok (Some root, ds) -> parents root = Ok m -> exposed root u -> path_of root u p ->
  path_in u ap -> (exists i r dots, ap = NAttrPath i r (b0 ++ x :: after) dots /\ In (NDot di dr (nid x) nx) dots) ->
  findAttrPath m (NDot di dr (nid x) nx) = Ok (found (p ++ b0 ++ [x]) [[]]).
Proof. exact C42_dot_partial_proof. Qed.
Print Assumptions C42_dot_partial.

(** on a set, outside its names and values *)
Theorem C42_set_partial : forall src root ds m i2 r2 k t bs kw st dy p n, parse src = Ok (Some root, ds) -> parents root = Ok m ->
  let u := AstModel.NAttrs i2 r2 (Some (NBinds k t bs)) kw st dy in
  exposed root u -> path_of root u p ->
  n = u \/ n = NBinds k t bs \/ (In n bs /\ kind_of n = NK_Binding) ->
  findAttrPath m n = Ok (found p [[]]).
Proof. exact C42_set_partial_proof. Qed.
Print Assumptions C42_set_partial.

(** a leading `config` is left out, and completion asks for the last text in the scope of the others *)
Theorem C42_query : forall m n path, findAttrPath m n = Ok (FOK path) -> path <> [] -> path <> [b "config"] ->
  exists scope prefix, attrPathQuery m n = Ok (Some (scope, prefix)) /\
    (path = scope ++ [prefix] /\ hd_error path <> Some (b "config") \/ path = b "config" :: scope ++ [prefix]).
Proof. exact C42_query_proof. Qed.
Print Assumptions C42_query.

(** The full claim fails twice.  With the cursor on the attribute `config` itself, dropping it leaves an empty path,
    whose last element is then taken.  And a set inside a computed attribute name is taken for a value. *)
Theorem C42_refuted :
  (exists src root m n, parse src = Ok (Some root, []) /\ parents root = Ok m /\ node_of root n /\
     findAttrPath m n = Ok (FOK [b "config"]) /\ attrPathQuery m n = Crash "back() of an empty vector") /\
  (exists src root m n, parse src = Ok (Some root, []) /\ parents root = Ok m /\ node_of root n /\
     findAttrPath m n = Crash "must have corresbonding value").
Proof. exact C42_refuted_proof. Qed.
Print Assumptions C42_refuted.

Example C42_nonvacuous :
  let src := b "{ config.a.b = { c.d = 1; }; }" in
  let u := climbed [0; 0; 2] (doc src) in
  parse src = Ok (Some (doc src), []) /\ kind_of u = NK_ExprAttrs /\ exposed (doc src) u /\
  (exists ap i r c d dots, path_in u ap /\ ap = NAttrPath i r ([c] ++ d :: []) dots /\ staticName d = Some (b "d")) /\
  exists m n, parents (doc src) = Ok m /\
    cursor_node src 19 = Some n /\ findAttrPath m n = Ok (FOK [b "config"; b "a"; b "b"; b "c"; b "d"]) /\
    attrPathQuery m n = Ok (Some ([b "a"; b "b"; b "c"], b "d")).
Proof.
  cbv zeta. set (src := b "{ config.a.b = { c.d = 1; }; }").
  split; [vm_compute; reflexivity|]. split; [vm_compute; reflexivity|].
  split; [apply exposed_climbed; vm_compute; reflexivity|]. split.
  - do 6 eexists. split; [|split].
    + unfold path_in. do 12 eexists. split; [vm_compute; reflexivity|vm_compute; left; reflexivity].
    + reflexivity.
    + reflexivity.
  - exists (match parents (doc src) with Ok m => m | _ => [] end), (match cursor_node src 19 with Some n => n | None => doc src end).
    repeat (split; [vm_compute; reflexivity|]). vm_compute. reflexivity.
Qed.
