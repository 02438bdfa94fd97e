(** Model of the requests and code actions that need the variable lookup: nixd/lib/Controller/{Rename,FindReferences}.cpp,
    the part of Definition.cpp they share, and nixd/lib/Controller/CodeActions/{WithToLet,ExtractToFile,AddToFormals}.cpp.
    Ranges stay those of the syntax tree: the conversion to LSP ranges (toLSPRange) is applied to each by the code and
    left out here. *)
From Verif Require Import Base Diag LexModel AstModel SemaModel NavModel VlaModel VlaSpec VlaBase ActModel.

(** A pointer to a variable that the analysis keeps (Definition::uses, std::vector<const ExprVar *>) is an identity in
    the model.  [arena]: the nodes that the analysis visits, which include the variables it makes up for `inherit`;
    [useNode]: the node at an address. *)
Fixpoint arena (k : nat) (n : node) : list node :=
  match k with
  | 0 => []
  | S k => n :: flat_map (fun p => arena k (snd p)) (enters [] n)
  end.
Definition useNode (root : node) (u : nat) : res node :=
  match find (fun v => Nat.eqb (nid v) u) (arena (S (vsize root)) root) with
  | Some v => Ok v
  | None => Crash "dangling pointer"
  end.
Fixpoint useNodes (root : node) (us : list nat) : res (list node) :=
  match us with
  | [] => Ok []
  | u :: us => let* v := useNode root u in let* vs := useNodes root us in Ok (v :: vs)
  end.

(** what a function gives that may throw a std::exception: its what(), or a value *)
Definition exn (A : Type) := res (bytes + A).
Definition throw {A} (what : bytes) : exn A := Ok (inl what).
Definition value {A} (x : A) : exn A := Ok (inr x).
Definition tbind {A B} (m : exn A) (k : A -> exn B) : exn B :=
  let* r := m in match r with inl e => Ok (inl e) | inr x => k x end.

Section Analysed.
Variable root : node.
Variable s : vst.
Variable m : pmap.

(** Definition.cpp:42-56 findSelfDefinition *)
Definition findSelfDefinition (n : node) : option nat :=
  match toDef s n with
  | Some d => Some d
  | None =>
      match pquery m n with
      | Some p => if nodekind_beq (kind_of p) NK_AttrName then toDef s p else None
      | None => None
      end
  end.

(** Definition.cpp:58-93 findInheritVar *)
Definition findInheritVar (n : node) : exn (option node) :=
  let* up := upTo m n NK_Inherit in
  match up with
  | Some ((NInherit _ _ _ e) as inh) =>
      let* an := upTo m n NK_AttrName in
      match an, e with
      | None, _ => value None
      | _, Some _ => value None
      | Some a, None =>
          match staticName a with
          | None => value None
          | Some x =>
              let* up := upTo m inh NK_ExprAttrs in
              match up with
              | Some (NAttrs _ _ _ _ st _) =>
                  match bfind x st with
                  | Some at_ =>
                      if nodekind_beq (kind_of (a_value at_)) NK_ExprVar then value (Some (a_value at_))
                      else Crash "assert: NK_ExprVar"
                  | None => throw (b "map::at")
                  end
              | _ => value None
              end
          end
      end
  | _ => value None
  end.

(** Definition.cpp:95-101 findVar *)
Definition findVar (n : node) : exn (option node) :=
  tbind (findInheritVar n) (fun v =>
  match v with
  | Some v => value (Some v)
  | None => let* v := upTo m n NK_ExprVar in value v
  end).

(** Definition.cpp:103-116 findVarDefinition *)
Definition findVarDefinition (v : node) : exn nat :=
  match query s v with
  | Some Undefined => throw (b "undefined variable")
  | None => throw (b "no such variable")
  | Some (Defined d) | Some (FromWith d) => value d
  end.

(** Definition.cpp:366-377 findDefinition *)
Definition findDefinition (n : node) : exn nat :=
  tbind (findVar n) (fun v =>
  match v with
  | Some v => findVarDefinition v
  | None => match findSelfDefinition n with Some d => value d | None => throw (b "cannot find variable on given node") end
  end).

(** the Definition at an address *)
Definition defAt (d : nat) : exn vdef :=
  match nth_error (v_defs s) d with Some y => value y | None => Crash "dangling pointer" end.

(** FindReferences.cpp:24-48 findReferences; the uri of each location is the document's *)
Definition findReferences (n : node) : exn (list range) :=
  tbind (findDefinition n) (fun d => tbind (defAt d) (fun y =>
  let* vs := useNodes root (df_uses y) in value (map nrange vs))).

(** Rename.cpp:38-70 rename *)
Definition rename (n : node) (new : bytes) : exn (list tedit) :=
  tbind (findDefinition n) (fun d => tbind (defAt d) (fun y =>
  if dsource_beq (df_src y) DS_With then throw (b "cannot rename `with` defined variable")
  else if dsource_beq (df_src y) DS_Builtin then throw (b "cannot rename builtin variable")
  else
    let* vs := useNodes root (df_uses y) in
    match df_syn y with
    | Some q => value (map (fun v => TEdit (nrange v) new) vs ++ [TEdit (nrange q) new])
    | None => Crash "null pointer"
    end)).

(** Rename.cpp:98-124 onPrepareRename, after the node is found *)
Definition prepareRename (n : node) : exn range :=
  tbind (rename n []) (fun _ => value (nrange n)).

(** ** WithToLet.cpp *)

(** the definition of a `with` expression: VLA.toDef(With.kwWith()) *)
Definition kwDef (kw : node) : res (option vdef) :=
  match toDef s kw with
  | None => Ok None
  | Some d => match nth_error (v_defs s) d with Some y => Ok (Some y) | None => Crash "dangling pointer" end
  end.

(** WithToLet.cpp:15-55 hasNestedWithScope *)
Definition hasNestedWithScope (w kw : node) : res bool :=
  let* d := kwDef kw in
  match d with
  | None => Ok false
  | Some y =>
      let* vs := useNodes root (df_uses y) in
      Ok (existsb (fun v => match getWithScopes s v with
                            | first :: _ :: _ => negb (Nat.eqb first (nid w))
                            | _ => false
                            end) vs)
  end.
(** WithToLet.cpp:57-67 isCursorOnWithKeyword *)
Definition isCursorOnWithKeyword (kw n : node) : bool :=
  Nat.leb (off (nl n)) (off (nr kw)) && Nat.leb (off (nl kw)) (off (nr n)).

(** std::set<std::string>::insert: the names in order, each once *)
Fixpoint setAdd (x : bytes) (l : list bytes) : list bytes :=
  match l with
  | [] => [x]
  | y :: l' => if bytes_eqb x y then l else if bytes_ltb x y then x :: l else y :: setAdd x l'
  end.

(** WithToLet.cpp:69-89 collectWithVariables *)
Definition collectWithVariables (kw : node) : res (list bytes) :=
  let* d := kwDef kw in
  match d with
  | None => Ok []
  | Some y => let* vs := useNodes root (df_uses y) in Ok (fold_left (fun l v => setAdd (varName v) l) vs [])
  end.

(** WithToLet.cpp:91-131 generateLetInherit *)
Definition generateLetInherit (src : bytes) (w e : option node) (names : list bytes) : res bytes :=
  match w, e with
  | Some w, Some e =>
      let* ws := nsrc src w in let* es := nsrc src e in
      Ok (b "let inherit (" ++ ws ++ b ")" ++ List.concat (map (fun x => b " " ++ x) names) ++ b "; in " ++ es)
  | _, _ => Ok []
  end.

(** WithToLet.cpp:135-177 addWithToLetAction: the edit of the action, if it is offered *)
Definition withToLet (src : bytes) (n : node) : res (option tedit) :=
  let* up := upTo m n NK_ExprWith in
  match up with
  | Some ((NWith _ r kw _ we e) as w) =>
      if negb (isCursorOnWithKeyword kw n) then Ok None else
      let* nested := hasNestedWithScope w kw in
      if nested then Ok None else
      let* names := collectWithVariables kw in
      match names with
      | [] => Ok None
      | _ =>
          let* text := generateLetInherit src we e names in
          match text with [] => Ok None | _ => Ok (Some (TEdit r text)) end
      end
  | _ => Ok None
  end.

(** ** ExtractToFile.cpp *)

(** ExtractToFile.cpp:76-87 isInsideNode *)
Definition isInsideNode (n top : node) : bool :=
  Nat.leb (off (nl top)) (off (nl n)) && Nat.leb (off (nr n)) (off (nr top)).
(** ExtractToFile.cpp:41-67: what one node adds to the names and to the flag *)
Definition freeVar (top n : node) (acc : list bytes * bool) : res (list bytes * bool) :=
  let (names, flag) := acc in
  if nodekind_beq (kind_of n) NK_ExprVar then
    match query s n with
    | Some (Defined d) =>
        match nth_error (v_defs s) d with
        | None => Crash "dangling pointer"
        | Some y =>
            if dsource_beq (df_src y) DS_Builtin then Ok acc else
            match df_syn y with
            | Some q => if isInsideNode q top then Ok acc else Ok (setAdd (varName n) names, flag)
            | None => Ok acc
            end
        end
    | Some (FromWith _) => Ok (setAdd (varName n) names, true)
    | _ => Ok acc
    end
  else Ok acc.
(** ExtractToFile.cpp:39-74 collect, the recursion bounded by [fuel] *)
Fixpoint freeVars (fuel : nat) (top n : node) (acc : list bytes * bool) : res (list bytes * bool) :=
  match fuel with
  | 0 => OutOfFuel
  | S f =>
      fold_left (fun r ch => let* a := r in match ch with Some c => freeVars f top c a | None => Ok a end)
        (children n) (freeVar top n acc)
  end.
(** ExtractToFile.cpp:93-98 *)
Definition freeVariables (top : node) : res (list bytes * bool) := freeVars (nsize top) top top ([], false).

(** ", ".join *)
Fixpoint commas (l : list bytes) : bytes :=
  match l with [] => [] | [x] => x | x :: l' => x ++ b ", " ++ commas l' end.
(** ExtractToFile.cpp:146-172 generateExtractedContent *)
Definition extractedContent (text : bytes) (names : list bytes) : bytes :=
  match names with [] => [] | _ => b "{ " ++ commas names ++ b " }:" ++ LF end ++ text ++ LF.
(** ExtractToFile.cpp:174-196 generateImportStatement *)
Definition importStatement (file : bytes) (names : list bytes) : bytes :=
  b "import ./" ++ file ++
  match names with [] => [] | _ => b " { inherit" ++ List.concat (map (fun x => b " " ++ x) names) ++ b "; }" end.

(** ExtractToFile.cpp:246-303 isExtractable *)
Definition isExtractable (n : node) : bool :=
  match n with
  | NAttrs _ _ (Some (NBinds _ _ (_ :: _))) _ _ _ => true
  | NList _ _ (_ :: _) => true
  | NLambda _ _ _ _ | NLet _ _ _ _ _ _ | NIf _ _ _ _ _ | NWith _ _ _ _ _ _ | NCall _ _ _ _ | NBinOp _ _ _ _ _
  | NUnary _ _ _ _ | NHasAttr _ _ _ _ _ | NAssert _ _ _ _ | NParen _ _ _ _ _ => true
  | _ => false
  end.
(** ExtractToFile.cpp:305-342 findExtractableExpr *)
Definition findExtractableExpr (n : node) : option node :=
  if isExtractable n then Some n else
  if nodekind_beq (kind_of n) NK_Identifier || nodekind_beq (kind_of n) NK_AttrName then
    match pquery m n with
    | Some p =>
        if nodekind_beq (kind_of p) NK_AttrPath then
          match pquery m p with
          | Some (NBinding _ _ _ (Some v) _) => if isExtractable v then Some v else None
          | _ => None
          end
        else None
    | None => None
    end
  else None.
(** ExtractToFile.cpp:346-400 addExtractToFileAction: the content of the new file and the edit of the document, if the
    action is offered.  The name of the new file, which depends on the files that exist, is given. *)
Definition extractToFile (src file : bytes) (n : node) : res (option (bytes * tedit)) :=
  match findExtractableExpr n with
  | None => Ok None
  | Some top =>
      let* text := nsrc src top in
      match text with
      | [] => Ok None
      | _ =>
          let* fv := freeVariables top in
          Ok (Some (extractedContent text (fst fv), TEdit (nrange top) (importStatement file (fst fv))))
      end
  end.

(** ** AddToFormals.cpp *)

(** Lambda.h:35 isEllipsis *)
Definition isEllipsis (f : node) : bool := match f with NFormal _ _ _ _ _ (Some _) => true | _ => false end.
(** AddToFormals.cpp:54-118: where to insert and what *)
Definition formalsInsertion (formals : node) (ms : list node) (x : bytes) : option (nat * bytes) :=
  match rev ms with
  | [] => Some (S (off (nl formals)), b " " ++ quoteNixAttrKey x ++ b " ")
  | last :: before =>
      if isEllipsis last then
        match before with
        | [] => Some (off (nl last), quoteNixAttrKey x ++ b ", ")
        | _ => match find (fun f => negb (isEllipsis f)) before with
               | Some f => Some (off (nr f), b ", " ++ quoteNixAttrKey x)
               | None => None
               end
        end
      else Some (off (nr last), b ", " ++ quoteNixAttrKey x)
  end.
(** AddToFormals.cpp:20-138 addToFormalsAction: the offset of the insertion and its text, if the action is offered *)
Definition addToFormals (n : node) : res (option (nat * bytes)) :=
  let* v := upTo m n NK_ExprVar in
  match v with
  | None => Ok None
  | Some v =>
      match query s v with
      | Some Undefined =>
          let* l := upTo m n NK_ExprLambda in
          match l with
          | Some (NLambda _ _ (Some (NLambdaArg _ _ _ (Some ((NFormals _ _ ms table) as formals)))) _) =>
              match bfind (varName v) table with
              | Some _ => Ok None
              | None => Ok (formalsInsertion formals ms (varName v))
              end
          | _ => Ok None
          end
      | _ => Ok None
      end
  end.
End Analysed.
