(** Properties C23 to C26: attribute sets, inherit and formals after semantic analysis. *)
From Verif Require Import Base Diag LexModel AstModel PSupModel SemaModel ParseModel ParseSpec SemaSpec SemaProofs SemaDyn IdProofs DocSpec DocBase DocProofs SemaFacts.


(** All theorems are about the sets, formals and arguments of any document: [node_of root n] says that [n] is written in
    it.  The table of a set is the one it has when it has been read; a set that is the value of an attribute may be
    extended when the attribute is declared again, which the table of the outer set shows.  [in_a_row news ds] (DocSpec):
    [news] are reported for the document, one after the other.  A binding without value (`a = ;`, a syntax error) declares
    its path as [AMissing]: it is not entered, so it does not count as an earlier declaration. *)

(** ** C23: names are unique.  [tidy] (SemaSpec): the names of the set and of all sets inside it increase. *)
Theorem C23_unique : forall src root ds n st, parse src = Ok (Some root, ds) -> node_of root n -> set_of n = Some st ->
  tidy st /\ NoDup (map fst st) /\
  forall p key k key' k', attr_at st p key k -> attr_at st p key' k' -> key = key' /\ k = k'.
Proof. exact C23_unique_proof. Qed.
Print Assumptions C23_unique.

(** the first declaration in document order wins; later ones never change it *)
Theorem C23_first_wins : forall src root ds i r bd rc st dy, parse src = Ok (Some root, ds) ->
  node_of root (NAttrs i r bd rc st dy) ->
  (forall x key k, attr_at st [x] key k ->
     exists pre it post, items (bindings bd) = pre ++ it :: post /\ declares_attr it [x] key k /\
       forall it' key' k', In it' pre -> declares_attr it' [x] key' k' -> k' = AMissing) /\
  forall x it key k, In it (items (bindings bd)) -> declares_attr it [x] key k -> k <> AMissing ->
    exists key' k', attr_at st [x] key' k'.
Proof. exact C23_first_wins_proof. Qed.
Print Assumptions C23_first_wins.

(** a collision is reported, with a note at an earlier declaration *)
Theorem C23_reported : forall src root ds i r bd rc st dy, parse src = Ok (Some root, ds) ->
  node_of root (NAttrs i r bd rc st dy) ->
  exists news, in_a_row news ds /\
    (forall d, In d news -> d_kind d = DK_DuplicatedAttrName ->
       exists pre it post p x key k key1 k1 it1, items (bindings bd) = pre ++ it :: post /\ In it1 pre /\
         declares_attr it (p ++ [x]) key k /\ declares_attr it1 (p ++ [x]) key1 k1 /\
         clashes it (p ++ [x]) k1 k /\ d = duplicate x key key1) /\
    (forall pre it post it1 p key k key1 k1, items (bindings bd) = pre ++ it :: post -> In it1 pre ->
       declares_attr it p key k -> declares_attr it1 p key1 k1 -> k1 <> AMissing -> clashes it p k1 k ->
       exists d, In d news /\ d_kind d = DK_DuplicatedAttrName).
Proof. exact C23_reported_proof. Qed.
Print Assumptions C23_reported.

(** nothing else is reported as a collision in the whole document *)
Theorem C23_only : forall src root ds d, parse src = Ok (Some root, ds) -> In d ds -> d_kind d = DK_DuplicatedAttrName ->
  exists i r bd rc st dy, node_of root (NAttrs i r bd rc st dy) /\
    exists pre it post p x key k key1 k1 it1, items (bindings bd) = pre ++ it :: post /\ In it1 pre /\
      declares_attr it (p ++ [x]) key k /\ declares_attr it1 (p ++ [x]) key1 k1 /\
      clashes it (p ++ [x]) k1 k /\ d = duplicate x key key1.
Proof. exact C23_only_proof. Qed.
Print Assumptions C23_only.

Example C23_nonvacuous :
  exists ds i r bd rc st dy,
    parse (b "{ a.x = 1; a = { y = 2; }; inherit (z) w a; a.x = 3; q = ; a = ; }") = Ok (Some (NAttrs i r bd rc st dy), ds) /\
    List.length (items (bindings bd)) = 7 /\
    map (fun d => (d_kind d, d_args d, off (lcur (d_range d)))) (filter about_names ds) =
      [(DK_DuplicatedAttrName, [b "a"], 41); (DK_DuplicatedAttrName, [b "x"], 46); (DK_DuplicatedAttrName, [b "a"], 59)].
Proof.
  do 7 eexists. split; [vm_compute; reflexivity|]. split; vm_compute; reflexivity.
Qed.

(** ** C24: dotted paths mean nested sets.  [declares_attr] (SemaSpec) is the meaning of one declaration by itself. *)
Theorem C24_sound : forall src root ds i r bd rc st dy p key k, parse src = Ok (Some root, ds) ->
  node_of root (NAttrs i r bd rc st dy) ->
  attr_at st p key k -> exists it, In it (items (bindings bd)) /\ declares_attr it p key k.
Proof. exact C24_sound_proof. Qed.
Print Assumptions C24_sound.

Theorem C24_complete : forall src root ds i r bd rc st dy, parse src = Ok (Some root, ds) ->
  node_of root (NAttrs i r bd rc st dy) ->
  exists news, in_a_row news ds /\
    ((forall d, In d news -> d_kind d <> DK_DuplicatedAttrName) ->
     forall it p key k, In it (items (bindings bd)) -> declares_attr it p key k -> k <> AMissing ->
       exists key', attr_at st p key' k /\ (k <> ASet -> key' = key)).
Proof. exact C24_complete_proof. Qed.
Print Assumptions C24_complete.

(** dynamic names: the set has one dynamic attribute for each, in document order *)
Theorem C24_dynamic : forall src root ds i r bd rc st dy, parse src = Ok (Some root, ds) ->
  node_of root (NAttrs i r bd rc st dy) ->
  Forall2 stands_for (flat_map own_dynamic (items (bindings bd))) dy.
Proof. exact C24_dynamic_proof. Qed.
Print Assumptions C24_dynamic.

(** and those under static names, as in `a.${x} = 1` or `a = { ${x} = 1; }`, are found there *)
Theorem C24_dynamic_nested : forall src root ds i r bd rc st dy, parse src = Ok (Some root, ds) ->
  node_of root (NAttrs i r bd rc st dy) ->
  exists news, in_a_row news ds /\
    ((forall d, In d news -> d_kind d <> DK_DuplicatedAttrName) ->
     forall names v p key w, In (Bound names (Some v)) (items (bindings bd)) -> path_dyn names v p key w ->
       dyn_at (NAttrs i r bd rc st dy) p key w).
Proof. exact C24_dynamic_nested_proof. Qed.
Print Assumptions C24_dynamic_nested.

Example C24_dynamic_nonvacuous :
  exists i r bd rc st dy, parse (b "{ ${x} = 1; a.${y} = 2; ${z}.b = 3; a = { ${u} = 4; }; }") = Ok (Some (NAttrs i r bd rc st dy), []) /\
    List.length (flat_map own_dynamic (items (bindings bd))) = 2 /\
    exists key key' w w', dyn_at (NAttrs i r bd rc st dy) [b "a"] key w /\ dyn_at (NAttrs i r bd rc st dy) [b "a"] key' w' /\ key <> key'.
Proof.
  do 6 eexists. split; [vm_compute; reflexivity|]. split; [vm_compute; reflexivity|].
  do 4 eexists. split; [eapply dyn_inside; [reflexivity|left; reflexivity|]; apply dyn_here; left; reflexivity|].
  split; [eapply dyn_inside; [reflexivity|left; reflexivity|]; apply dyn_here; right; left; reflexivity|]. discriminate.
Qed.

Example C24_nonvacuous :
  exists i r bd rc st dy, parse (b "{ a.b.c = 1; a = { d.e = 2; f = [ ]; }; a.b.g = x; inherit h; }") = Ok (Some (NAttrs i r bd rc st dy), []) /\
    exists key k, attr_at st [b "a"; b "d"; b "e"] key k /\ k <> ASet.
Proof.
  do 6 eexists. split; [vm_compute; reflexivity|].
  eexists. eexists. split.
  - eapply at_inside; [left; reflexivity|reflexivity|]. eapply at_inside; [right; left; reflexivity|reflexivity|].
    eapply at_here. left. reflexivity.
  - discriminate.
Qed.

(** ** C25: inherited names.  An attribute that is a variable or a selection comes from an inherit, and without a
    collision every inherited name is bound so; a name that is not static is reported and not bound. *)
Theorem C25_lowered : forall src root ds i r bd rc st dy name from x, parse src = Ok (Some root, ds) ->
  node_of root (NAttrs i r bd rc st dy) ->
  In (Inherited name from) (items (bindings bd)) -> staticName name = Some x ->
  exists news, in_a_row news ds /\
    (attr_at st [x] name (match from with None => AVar x | Some e => ASelect e name end) \/
     exists d, In d news /\ d_kind d = DK_DuplicatedAttrName).
Proof. exact C25_lowered_proof. Qed.
Print Assumptions C25_lowered.

Theorem C25_already_bound : forall src root ds i r bd rc st dy pre name from post x it1 key1 k1,
  parse src = Ok (Some root, ds) -> node_of root (NAttrs i r bd rc st dy) ->
  items (bindings bd) = pre ++ Inherited name from :: post -> staticName name = Some x ->
  In it1 pre -> declares_attr it1 [x] key1 k1 -> k1 <> AMissing ->
  exists news d, in_a_row news ds /\ In d news /\ d_kind d = DK_DuplicatedAttrName.
Proof. exact C25_already_bound_proof. Qed.
Print Assumptions C25_already_bound.

Theorem C25_dynamic : forall src root ds i r bd rc st dy, parse src = Ok (Some root, ds) ->
  node_of root (NAttrs i r bd rc st dy) ->
  exists news, in_a_row news ds /\
    (forall name from, In (Inherited name from) (items (bindings bd)) -> staticName name = None ->
       exists d, In d news /\ d_kind d = DK_DynamicInherit /\ d_range d = nrange name) /\
    (forall d, In d news -> d_kind d = DK_DynamicInherit ->
       exists name from, In (Inherited name from) (items (bindings bd)) /\ staticName name = None /\ d_range d = nrange name) /\
    forall p key k name from, attr_at st p key k ->
      In (Inherited name from) (items (bindings bd)) -> staticName name = None ->
      exists it, In it (items (bindings bd)) /\ it <> Inherited name from /\ declares_attr it p key k.
Proof. exact C25_dynamic_proof. Qed.
Print Assumptions C25_dynamic.

(** nothing else is reported as a dynamic name in the whole document *)
Theorem C25_only : forall src root ds d, parse src = Ok (Some root, ds) -> In d ds -> d_kind d = DK_DynamicInherit ->
  exists i r bd rc st dy name from, node_of root (NAttrs i r bd rc st dy) /\
    In (Inherited name from) (items (bindings bd)) /\ staticName name = None /\ d_range d = nrange name.
Proof. exact C25_only_proof. Qed.
Print Assumptions C25_only.

Example C25_nonvacuous :
  exists ds i r bd rc st dy,
    parse (b "{ b = 1; inherit a b; inherit (e) c ""d"" ${f}; }") = Ok (Some (NAttrs i r bd rc st dy), ds) /\
    map fst st = [b "a"; b "b"; b "c"; b "d"] /\
    map (fun d => (d_kind d, off (lcur (d_range d)))) ds = [(DK_DuplicatedAttrName, 19); (DK_DynamicInherit, 40)] /\
    exists key, attr_at st [b "a"] key (AVar (b "a")).
Proof.
  do 7 eexists. split; [vm_compute; reflexivity|]. split; [vm_compute; reflexivity|].
  split; [vm_compute; reflexivity|]. eexists. refine (at_here _ _ (AK_Inherit, _, NVar _ _ (NIdent _ _ (b "a"))) _). vm_compute. left. reflexivity.
Qed.

(** ** C26: formals.  The reports of the analysis are exactly the misuses, each once, with the edits that mend them
    (SemaSpec). *)
Theorem C26_reports : forall src root ds i r fv d, parse src = Ok (Some root, ds) -> node_of root (NFormals i r fv d) ->
  exists news, in_a_row news ds /\
    map brief news = no_comma fv ++ early_ellipsis src fv ++ empty_formal fv ++ repeated_name fv.
Proof. exact C26_reports_proof. Qed.
Print Assumptions C26_reports.

Theorem C26_names : forall src root ds i r fv d, parse src = Ok (Some root, ds) -> node_of root (NFormals i r fv d) ->
  NoDup (map fst d) /\
  forall x j, In (x, j) d <-> exists f, first_named fv x f /\ j = nid f.
Proof. exact C26_names_proof. Qed.
Print Assumptions C26_names.

(** the name of the whole argument may not be the name of a formal: `x@{ x }:` is reported once, at `x@` *)
Theorem C26_argument : forall src root ds ai ar i fi r fv d, parse src = Ok (Some root, ds) ->
  node_of root (NLambdaArg ai ar (Some i) (Some (NFormals fi r fv d))) ->
  exists news, in_a_row news ds /\
    match find (named (text_of i)) fv with
    | Some f => map brief news = [(DK_DuplicatedFormalToArg, nrange i, [nrange f], [])]
    | None => news = []
    end.
Proof. exact C26_argument_proof. Qed.
Print Assumptions C26_argument.

(** nothing else is reported about formals in the whole document *)
Theorem C26_only : forall src root ds d, parse src = Ok (Some root, ds) -> In d ds ->
  In (d_kind d) [DK_FormalMissingComma; DK_FormalExtraEllipsis; DK_FormalMisplacedEllipsis; DK_EmptyFormal; DK_DuplicatedFormal;
                 DK_DuplicatedFormalToArg] ->
  (exists i r fv dd, node_of root (NFormals i r fv dd) /\
     In (brief d) (no_comma fv ++ early_ellipsis src fv ++ empty_formal fv ++ repeated_name fv)) \/
  (exists ai ar i fi r fv dd f, node_of root (NLambdaArg ai ar (Some i) (Some (NFormals fi r fv dd))) /\
     find (named (text_of i)) fv = Some f /\ brief d = (DK_DuplicatedFormalToArg, nrange i, [nrange f], [])).
Proof. exact C26_only_proof. Qed.
Print Assumptions C26_only.

Example C26_nonvacuous :
  exists ds i lr ai ar id fi fr fv d body,
    parse (b "a@{ b, ..., c d, , b ? 1, a }: b") = Ok (Some (NLambda i lr (Some (NLambdaArg ai ar id (Some (NFormals fi fr fv d)))) body), ds) /\
    List.length fv = 7 /\
    map (fun r => snd r) (early_ellipsis (b "a@{ b, ..., c d, , b ? 1, a }: b") fv) =
      [[[TEdit (mkRange (mkCur 0 5 5) (mkCur 0 10 10)) []; TEdit (point (mkCur 0 27 27)) (b ", ...")]]] /\
    List.length (repeated_name fv) = 1 /\ List.length (empty_formal fv) = 1 /\ List.length d = 4 /\
    map (fun d => (d_kind d, off (lcur (d_range d)))) ds =
      [(DK_FormalMissingComma, 14); (DK_FormalMisplacedEllipsis, 5); (DK_EmptyFormal, 15); (DK_DuplicatedFormal, 19); (DK_DuplicatedFormalToArg, 0)].
Proof.
  do 11 eexists. split; [vm_compute; reflexivity|].
  split; [reflexivity|]. split; [vm_compute; reflexivity|]. split; [vm_compute; reflexivity|]. split; [vm_compute; reflexivity|].
  split; vm_compute; reflexivity.
Qed.
