(** Model of libnixf/src/Sema/VariableLookup.cpp, libnixf/include/nixf/Sema/VariableLookup.h and
    libnixf/src/Sema/PrimOpLookup.cpp.

    - A [Definition] object is an index into the list of definitions made so far (allocation order); shared_ptr
      counts are not modelled.
    - A node pointer used as a map key is the node's identity.
    - [PrimOpsInfo] is a table generated from Nix at build time (libnixf/src/Sema/meson.build); it is the parameter
      [primops]: the names with their [Internal] flag. *)
From Verif Require Import Base Diag LexModel AstModel SemaModel.

(** VariableLookup.h:29-55 Definition::DefinitionSource *)
Inductive dsource :=
| DS_With | DS_Let | DS_LambdaArg | DS_LambdaNoArg_Formal | DS_LambdaWithArg_Arg | DS_LambdaWithArg_Formal
| DS_Rec | DS_Builtin.
Scheme Equality for dsource.

(** VariableLookup.h:26-80 Definition: its syntax (null for builtins), its source and the variables using it, by
    identity, in the order of usedBy *)
Record vdef := VDef { df_syn : option node; df_src : dsource; df_uses : list nat }.

(** VariableLookup.h:83-110 EnvNode, without its parent: [Defs] (a std::map, here sorted) and [Syntax]. *)
Record frame := Frame { fr_defs : list (bytes * nat); fr_syn : option node }.
(** an EnvNode with its chain of parents, innermost first *)
Definition env := list frame.

(** VariableLookup.h:103-105 EnvNode::isWith *)
Definition isWith (f : frame) : bool :=
  match fr_syn f with Some (NWith _ _ _ _ _ _) => true | _ => false end.

(** VariableLookup.h:114-124 LookupResult without NoSuchVar, which is the absence of an entry *)
Inductive lresult := Undefined | FromWith (d : nat) | Defined (d : nat).

(** VariableLookup.h:130-174 the fields of VariableLookupAnalysis, plus the list of definitions allocated.  Diagnostics
    are newest first. *)
Record vst := VS {
  v_diags : list diag; v_defs : list vdef; v_with : list (nat * nat); v_todef : list (nat * nat);
  v_envs : list (nat * env); v_res : list (nat * lresult); v_ws : list (nat * list nat) }.

Definition V (A : Type) := vst -> res (A * vst).
Definition vret {A} (a : A) : V A := fun s => Ok (a, s).
Definition vcrash {A} (w : string) : V A := fun _ => Crash w.
Definition vbind {A B} (m : V A) (f : A -> V B) : V B :=
  fun s => match m s with Ok (a, s') => f a s' | Crash w => Crash w | OutOfFuel => OutOfFuel end.
Notation "'let?' p ':=' m 'in' k" := (vbind m (fun p => k))
  (at level 200, p pattern, m at level 100, k at level 200, only parsing).
Notation "'do?' m 'in' k" := (vbind m (fun _ => k)) (at level 200, m at level 100, k at level 200, only parsing).

(** a loop over the elements of a container *)
Definition vfor {A} (f : A -> V unit) : list A -> V unit :=
  fix go l := match l with [] => vret tt | x :: l' => do? f x in go l' end.

(** std::map::at, find *)
Fixpoint nfind {A} (k : nat) (l : list (nat * A)) : option A :=
  match l with [] => None | (k', v) :: l' => if Nat.eqb k k' then Some v else nfind k l' end.
Fixpoint bfind {A} (k : bytes) (l : list (bytes * A)) : option A :=
  match l with [] => None | (k', v) :: l' => if bytes_eqb k k' then Some v else bfind k l' end.
(** std::map::insert keeps the entry already there, std::map::insert_or_assign replaces it; entries are searched from
    the head, so replacing is adding at the head *)
Definition insert_new {A} (k : nat) (v : A) (l : list (nat * A)) : list (nat * A) :=
  match nfind k l with Some _ => l | None => (k, v) :: l end.
Definition insert_or_assign {A} (k : nat) (v : A) (l : list (nat * A)) : list (nat * A) := (k, v) :: l.

(** Diags.emplace_back with the builder calls that follow it *)
Definition vdiag (d : diag) : V unit := fun s =>
  Ok (tt, VS (d :: v_diags s) (v_defs s) (v_with s) (v_todef s) (v_envs s) (v_res s) (v_ws s)).
(** std::make_shared<Definition>(Entry, Source) *)
Definition newDef (syn : option node) (src : dsource) : V nat := fun s =>
  Ok (List.length (v_defs s),
      VS (v_diags s) (v_defs s ++ [VDef syn src []]) (v_with s) (v_todef s) (v_envs s) (v_res s) (v_ws s)).
(** VariableLookup.h:77 Definition::usedBy *)
Fixpoint addUse (d u : nat) (l : list vdef) : list vdef :=
  match l, d with
  | [], _ => []
  | x :: l', 0 => VDef (df_syn x) (df_src x) (df_uses x ++ [u]) :: l'
  | x :: l', S d' => x :: addUse d' u l'
  end.
Definition usedBy (d u : nat) : V unit := fun s =>
  Ok (tt, VS (v_diags s) (addUse d u (v_defs s)) (v_with s) (v_todef s) (v_envs s) (v_res s) (v_ws s)).
Definition setToDef (n d : nat) : V unit := fun s =>
  Ok (tt, VS (v_diags s) (v_defs s) (v_with s) (insert_or_assign n d (v_todef s)) (v_envs s) (v_res s) (v_ws s)).
Definition setWithDef (n d : nat) : V unit := fun s =>
  Ok (tt, VS (v_diags s) (v_defs s) (insert_or_assign n d (v_with s)) (v_todef s) (v_envs s) (v_res s) (v_ws s)).
Definition insEnv (n : nat) (e : env) : V unit := fun s =>
  Ok (tt, VS (v_diags s) (v_defs s) (v_with s) (v_todef s) (insert_new n e (v_envs s)) (v_res s) (v_ws s)).
Definition insRes (n : nat) (r : lresult) : V unit := fun s =>
  Ok (tt, VS (v_diags s) (v_defs s) (v_with s) (v_todef s) (v_envs s) (insert_new n r (v_res s)) (v_ws s)).
Definition insWs (n : nat) (w : list nat) : V unit := fun s =>
  Ok (tt, VS (v_diags s) (v_defs s) (v_with s) (v_todef s) (v_envs s) (v_res s) (insert_new n w (v_ws s))).
(** WithDefs.at(Syntax) *)
Definition withDef (n : nat) : V nat := fun s =>
  match nfind n (v_with s) with Some d => Ok (d, s) | None => Crash "WithDefs.at" end.
Definition hasWithDef (n : nat) : V bool := fun s =>
  Ok (match nfind n (v_with s) with Some _ => true | None => false end, s).
(** Definition::uses, syntax and source of an allocated definition *)
Definition getDef (d : nat) : V vdef := fun s =>
  match nth_error (v_defs s) d with Some x => Ok (x, s) | None => Crash "dangling definition" end.

(** a fix with edits made by TextEdit::mkRemoval etc., whose constructor asserts (Diagnostic.h) *)
Definition vlift {A} (r : res A) : V A := fun s =>
  match r with Ok a => Ok (a, s) | Crash w => Crash w | OutOfFuel => OutOfFuel end.

(** VariableLookup.cpp:14-19 Constants (a std::set: iterated in order) *)
Definition Constants : list bytes :=
  [b "__currentSystem"; b "__currentTime"; b "__importNative"; b "__langVersion"; b "__nixPath"; b "__nixVersion";
   b "__storeDir"; b "__traceVerbose"; b "derivation"; b "false"; b "null"; b "true"].
Definition isConstant (x : bytes) : bool := existsb (bytes_eqb x) Constants.

(** PrimOpInfo.h:39-46 *)
Inductive primopLookup := Found | PrefixedFound | NotFound.

(** std::map::contains on DefMap and insertion in key order *)
Fixpoint minsert (x : bytes) (d : nat) (l : list (bytes * nat)) : list (bytes * nat) :=
  match l with
  | [] => [(x, d)]
  | (y, e) :: l' => if bytes_ltb x y then (x, d) :: l else (y, e) :: minsert x d l'
  end.

(** Simple.h:204 ExprVar::id().name() *)
Definition varName (n : node) : bytes :=
  match n with NVar _ _ (NIdent _ _ x) => x | _ => [] end.
(** Basic.h:121 Identifier::name() *)
Definition idName (n : node) : bytes := match n with NIdent _ _ x => x | _ => [] end.

(** VariableLookup.cpp:72-87 checkInheritedFromBuiltin *)
Definition checkInheritedFromBuiltin (a : attribute) : res bool :=
  match a_kind a with
  | AK_InheritFrom =>
      match a_value a with
      | NSelect _ _ e _ _ _ _ =>
          match e with
          | NVar _ _ _ => Ok (bytes_eqb (varName e) (b "builtins"))
          | _ => Ok false
          end
      | _ => Crash "desugared inherited from should be a select expr"
      end
  | _ => Ok false
  end.

(** VariableLookup.cpp:89-93 isBuiltinConstant *)
Definition isBuiltinConstant (x : bytes) : bool :=
  if starts_with (b "_") x then false else isConstant x || isConstant (b "__" ++ x).

(** VariableLookup.cpp:176-193: the walk through the chain of environments: the definition found, and the `with`
    environments passed on the way, innermost first *)
Fixpoint walk (x : bytes) (e : env) : option nat * list frame :=
  match e with
  | [] => (None, [])
  | f :: e' =>
      match bfind x (fr_defs f) with
      | Some d => (Some d, [])
      | None => let (d, ws) := walk x e' in (d, if isWith f then f :: ws else ws)
      end
  end.

Definition synId (f : frame) : nat := match fr_syn f with Some n => nid n | None => 0 end.

Section Vla.
Variable primops : list (bytes * bool).

(** PrimOpLookup.cpp:5-17 lookupGlobalPrimOpInfo *)
Definition lookupGlobalPrimOpInfo (x : bytes) : primopLookup :=
  match bfind x primops with
  | Some _ => Found
  | None => match bfind (b "__" ++ x) primops with Some _ => PrefixedFound | None => NotFound end
  end.

(** VariableLookup.cpp:27-33 DefBuilder::addSimple *)
Definition addSimple (x : bytes) (entry : option node) (src : dsource) (m : list (bytes * nat))
  : V (nat * list (bytes * nat)) :=
  match bfind x m with
  | Some _ => vcrash "!Def.contains(Name)"
  | None => let? d := newDef entry src in vret (d, minsert x d m)
  end.

(** VariableLookup.cpp:43-62 DefBuilder::add *)
Definition dbAdd (x : bytes) (entry : node) (src : dsource) (inhBuiltin : bool) (m : list (bytes * nat))
  : V (nat * list (bytes * nat)) :=
  do? match lookupGlobalPrimOpInfo x with
      | Found => if inhBuiltin then vret tt
                 else vdiag (d_arg x (diag0 DK_PrimOpOverridden (nrange entry)))
      | _ => vret tt
      end in
  do? (if isConstant x then vdiag (d_arg x (diag0 DK_ConstantOverridden (nrange entry))) else vret tt) in
  addSimple x (Some entry) src m.

(** VariableLookup.cpp:171-234 lookupVar *)
Definition lookupVar (n : node) (e : env) : V unit :=
  let x := varName n in
  let u := nid n in
  match walk x e with
  | (Some d, _) => do? usedBy d u in insRes u (Defined d)
  | (None, []) =>
      match lookupGlobalPrimOpInfo x with
      | Found => vcrash "primop name should be defined"
      | PrefixedFound =>
          let? ed := vlift (mkInsertion (nl n) (b "builtins.")) in
          do? vdiag (d_fix (Fix_ (b "use `builtins.` prefix") [ed]) (diag0 DK_PrimOpNeedsPrefix (nrange n))) in
          insRes u Undefined
      | NotFound =>
          do? insRes u Undefined in
          vdiag (d_arg x (diag0 DK_UndefinedVariable (nrange n)))
      end
  | (None, (f0 :: _) as ws) =>
      do? vfor (fun f => let? d := withDef (synId f) in usedBy d u) ws in
      do? insWs u (map synId ws) in
      let? d := withDef (synId (last ws f0)) in
      insRes u (FromWith d)
  end.

(** VariableLookup.cpp:95-101 EnvNode::isLive *)
Definition isLive (f : frame) : V bool := fun s =>
  Ok (existsb (fun p => match nth_error (v_defs s) (snd p) with
                        | Some d => match df_uses d with [] => false | _ => true end
                        | None => false
                        end) (fr_defs f), s).

(** VariableLookup.cpp:138-159: the first binding of a `let` whose path begins with the name at range [r] *)
Definition bindingAt (r : range) (bs : list node) : option node :=
  find (fun q => match q with
                 | NBinding _ _ (NAttrPath _ _ (first :: _) _) _ _ =>
                     cur_eqb (lcur r) (nl first) && cur_eqb (rcur r) (nr first)
                 | _ => false
                 end) bs.

(** Expr.h:155 ExprLet::binds, Attrs.h:191 Binds::bindings *)
Definition letBindings (n : node) : list node :=
  match n with
  | NLet _ _ _ _ _ (Some (NAttrs _ _ (Some (NBinds _ _ bs)) _ _ _)) => bs
  | _ => []
  end.

(** VariableLookup.cpp:114-128 the kind of the warning *)
Definition unusedKind (s : dsource) : res dkind :=
  match s with
  | DS_Let => Ok DK_UnusedDefLet
  | DS_LambdaNoArg_Formal => Ok DK_UnusedDefLambdaNoArg_Formal
  | DS_LambdaWithArg_Formal => Ok DK_UnusedDefLambdaWithArg_Formal
  | DS_LambdaWithArg_Arg => Ok DK_UnusedDefLambdaWithArg_Arg
  | _ => Crash "liveness diagnostic encountered an unknown source!"
  end.

(** VariableLookup.cpp:103-169 emitEnvLivenessWarning *)
Definition emitEnvLivenessWarning (f : frame) : V unit :=
  vfor (fun p =>
    let? d := getDef (snd p) in
    if dsource_beq (df_src d) DS_LambdaArg then vret tt else
    match df_syn d with
    | None => vret tt
    | Some syn =>
        match df_uses d with
        | _ :: _ => vret tt
        | [] =>
            let? k := vlift (unusedKind (df_src d)) in
            let d0 := d_tag Faded (d_arg (fst p) (diag0 k (nrange syn))) in
            match df_src d, fr_syn f with
            | DS_Let, Some n =>
                match bindingAt (nrange syn) (letBindings n) with
                | Some q =>
                    let? ed := vlift (mkRemoval (nrange q)) in
                    vdiag (d_fix (Fix_ (b "remove unused binding") [ed]) d0)
                | None => vdiag d0
                end
            | _, _ => vdiag d0
            end
        end
    end) (fr_defs f).

(** VariableLookup.cpp:443-493 checkBuiltins *)
Definition checkBuiltins (n : node) : V unit :=
  match n with
  | NSelect _ _ e dot (Some (NAttrPath _ _ [first] _)) _ None =>
      match e with
      | NVar _ _ _ =>
          if negb (bytes_eqb (varName e) (b "builtins")) then vret tt else
          match staticName first with
          | None => vret tt
          | Some x =>
              match lookupGlobalPrimOpInfo x with
              | Found =>
                  let? e1 := vlift (mkRemoval (nrange e)) in
                  let? es := match dot with
                             | Some dt => let? e2 := vlift (mkRemoval (nrange dt)) in vret [e1; e2]
                             | None => vret [e1]
                             end in
                  vdiag (d_fix (Fix_ (b "remove `builtins.` prefix") es)
                               (diag0 DK_PrimOpRemovablePrefix (nrange e)))
              | PrefixedFound => vret tt
              | NotFound =>
                  if isBuiltinConstant x then vret tt
                  else vdiag (d_arg x (diag0 DK_PrimOpUnknown (nrange first)))
              end
          end
      | _ => vret tt
      end
  | _ => vret tt
  end.

(** VariableLookup.cpp:495-508 checkLetInheritBuiltins *)
Definition checkLetInheritBuiltins (st : list (bytes * attribute)) : V unit :=
  vfor (fun p =>
    let? ib := vlift (checkInheritedFromBuiltin (snd p)) in
    if negb ib then vret tt else
    match lookupGlobalPrimOpInfo (fst p) with
    | Found =>
        let? ed := vlift (mkRemoval (nrange (a_key (snd p)))) in
        vdiag (d_fix (Fix_ (b "remove unnecessary inherit") [ed])
                     (diag0 DK_PrimOpRemovablePrefix (nrange (a_key (snd p)))))
    | _ => vret tt
    end) st.

(** VariableLookup.cpp:317-325 the definitions of a recursive set *)
Fixpoint attrDefs (st : list (bytes * attribute)) (src : dsource) (m : list (bytes * nat)) : V (list (bytes * nat)) :=
  match st with
  | [] => vret m
  | (x, a) :: st' =>
      let? ib := vlift (checkInheritedFromBuiltin a) in
      let? dm := dbAdd x (a_key a) src ib m in
      do? setToDef (nid (a_key a)) (fst dm) in
      attrDefs st' src (snd dm)
  end.

(** Lambda.h:80 Formals::dedup: the member of that identity; Lambda.h:36 Formal::id *)
Definition formalId (ms : list node) (i : nat) : option node :=
  match find (fun m => Nat.eqb (nid m) i) ms with
  | Some (NFormal _ _ _ (Some q) _ _) => Some q
  | _ => None
  end.

(** VariableLookup.cpp:276-285 the definitions of the formals *)
Fixpoint formalDefs (ms : list node) (dd : list (bytes * nat)) (src : dsource) (m : list (bytes * nat))
  : V (list (bytes * nat)) :=
  match dd with
  | [] => vret m
  | (x, i) :: dd' =>
      match formalId ms i with
      | None => vcrash "Formal->id()"
      | Some q =>
          let? dm := dbAdd x q src false m in
          do? setToDef (nid q) (fst dm) in
          formalDefs ms dd' src (snd dm)
      end
  end.

(** VariableLookup.cpp:243-287 the definitions of a function's parameters *)
Definition lambdaDefs (arg : node) : V (list (bytes * nat)) :=
  match arg with
  | NLambdaArg _ _ ident fm =>
      let? m :=
        match ident, fm with
        | Some q, None =>
            let? dm := dbAdd (idName q) q DS_LambdaArg false [] in
            do? setToDef (nid q) (fst dm) in vret (snd dm)
        | Some q, Some (NFormals _ _ _ dd) =>
            match bfind (idName q) dd with
            | Some _ => vret []
            | None =>
                let? dm := dbAdd (idName q) q DS_LambdaWithArg_Arg false [] in
                do? setToDef (nid q) (fst dm) in vret (snd dm)
            end
        | _, _ => vret []
        end in
      match fm with
      | Some (NFormals _ _ ms dd) =>
          formalDefs ms dd (match ident with Some _ => DS_LambdaWithArg_Formal | None => DS_LambdaNoArg_Formal end) m
      | _ => vret m
      end
  | _ => vcrash "Lambda.arg()"
  end.

Definition isRec (rc : option node) : bool := match rc with Some _ => true | None => false end.

(** VariableLookup.cpp:303-354 dfsDynamicAttrs and dfsAttrs, with the traversal of a sub-node as the argument [go];
    null values do not occur (see AstModel).  The result says whether a new environment was made. *)
Definition dfsAttrs (go : node -> env -> V unit) (rc : option node)
    (st : list (bytes * attribute)) (dy : list attribute) (e : env) (syn : node) (src : dsource) : V (option frame) :=
  if isRec rc then
    let? m := attrDefs st src [] in
    let f := Frame m (Some syn) in
    do? vfor (fun p => go (a_value (snd p)) (match a_kind (snd p) with AK_Inherit => e | _ => f :: e end)) st in
    do? vfor (fun a => do? go (a_key a) (f :: e) in go (a_value a) (f :: e)) dy in
    vret (Some f)
  else
    do? vfor (fun p => go (a_value (snd p)) e) st in
    do? vfor (fun a => do? go (a_key a) e in go (a_value a) e) dy in
    vret None.

(** VariableLookup.cpp:356-372 the check after traversing an attribute set *)
Definition checkRec (rc : option node) (f : option frame) : V unit :=
  match f with
  | None => vret tt
  | Some f =>
      let? live := isLive f in
      if live then vret tt else
      match rc with
      | Some kw =>
          let? ed := vlift (mkRemoval (nrange kw)) in
          vdiag (d_tag Faded (d_fix (Fix_ (b "remove `rec` keyword") [ed]) (diag0 DK_ExtraRecursive (nrange kw))))
      | None => vcrash "NewEnv must be created for recursive attrset"
      end
  end.

(** VariableLookup.cpp:418-423 *)
Definition withStart (n kw : node) : V unit :=
  let? h := hasWithDef (nid n) in
  if h then vret tt else
  let? d := newDef (Some kw) DS_With in
  do? setToDef (nid kw) d in setWithDef (nid n) d.

(** VariableLookup.cpp:431-440 *)
Definition withEnd (n kw : node) (semi w : option node) : V unit :=
  let? i := withDef (nid n) in
  let? d := getDef i in
  match df_uses d with
  | _ :: _ => vret tt
  | [] =>
      let? e1 := vlift (mkRemoval (nrange kw)) in
      let? e2 := match semi with Some t => let? x := vlift (mkRemoval (nrange t)) in vret [x] | None => vret [] end in
      let? e3 := match w with Some t => let? x := vlift (mkRemoval (nrange t)) in vret [x] | None => vret [] end in
      vdiag (d_fix (Fix_ (b "remove `with` expression") (e1 :: e2 ++ e3)) (diag0 DK_ExtraWith (nrange kw)))
  end.

(** VariableLookup.cpp:510-553 dfs(Node), with the overloads for lambdas (237-301), sets (356-372), let (374-398),
    legacy let (400-404), with (415-441) and trivialDispatch (406-413) in place.  The overload for a legacy let calls
    the one for sets directly, so the set of a legacy let gets no entry in Envs. *)
Fixpoint dfs (n : node) (e : env) {struct n} : V unit :=
  let on o := match o with Some m => dfs m e | None => vret tt end in
  do? insEnv (nid n) e in
  match n with
  | NVar _ _ _ => lookupVar n e
  | NLambda _ _ arg body =>
      match body with
      | None => vret tt
      | Some bd =>
          match arg with
          | None => vcrash "Lambda.arg()"
          | Some a =>
              let? m := lambdaDefs a in
              let f := Frame m (Some n) in
              do? match a with
                  | NLambdaArg _ _ _ (Some (NFormals _ _ ms _)) =>
                      vfor (fun q => match q with
                                     | NFormal _ _ _ _ (Some df) _ => dfs df (f :: e)
                                     | _ => vret tt
                                     end) ms
                  | _ => vret tt
                  end in
              do? dfs bd (f :: e) in
              emitEnvLivenessWarning f
          end
      end
  | NAttrs _ _ _ rc st dy =>
      let? f := dfsAttrs (fun m e' => dfs m e') rc st dy e n DS_Rec in
      checkRec rc f
  | NLet _ _ _ _ ex attrs =>
      let? f :=
        match attrs with
        | Some (NAttrs _ _ _ rc st dy) =>
            if negb (isRec rc) then vcrash "let ... in ... attrset must be recursive" else
            do? checkLetInheritBuiltins st in
            dfsAttrs (fun m e' => dfs m e') rc st dy e n DS_Let
        | Some _ => vcrash "not an attribute set"
        | None => vret (Some (Frame [] (Some n)))
        end in
      match f with
      | Some f =>
          do? match ex with Some m => dfs m (f :: e) | None => vret tt end in
          emitEnvLivenessWarning f
      | None => vcrash "let ... in ... attrset must be recursive"
      end
  | NLegacyLet _ _ _ attrs =>
      match attrs with
      | Some ((NAttrs _ _ _ rc st dy) as a) =>
          let? f := dfsAttrs (fun m e' => dfs m e') rc st dy e a DS_Rec in
          checkRec rc f
      | Some _ => vcrash "not an attribute set"
      | None => vret tt
      end
  | NWith _ _ kw semi w ex =>
      do? withStart n kw in
      do? on w in
      do? match ex with Some m => dfs m (Frame [] (Some n) :: e) | None => vret tt end in
      withEnd n kw semi w
  | NSelect _ _ x _ p d _ =>
      do? dfs x e in do? on p in do? on d in checkBuiltins n
  | NMisc _ _ | NIdent _ _ _ | NDot _ _ _ _ | NInt _ _ _ | NFloat _ _ | NSPath _ _ _ | NOp _ _ _ => vret tt
  | NInterp _ _ x => on x
  | NParts _ _ fs => vfor (fun q => match q with inl _ => vret tt | inr m => dfs m e end) fs
  | NString _ _ p | NPath _ _ p => dfs p e
  | NParen _ _ x lp rp => do? on x in do? dfs lp e in on rp
  | NAttrName _ _ c => dfs c e
  | NAttrPath _ _ names dots => do? vfor (fun m => dfs m e) names in vfor (fun m => dfs m e) dots
  | NBinding _ _ p v q => do? dfs p e in do? on q in on v
  | NInherit _ _ names x => do? vfor (fun m => dfs m e) names in on x
  | NBinds _ _ bs => vfor (fun m => dfs m e) bs
  | NCall _ _ fn args => do? dfs fn e in vfor (fun m => dfs m e) args
  | NList _ _ els => vfor (fun m => dfs m e) els
  | NIf _ _ c t x => do? on c in do? on t in on x
  | NAssert _ _ c v => do? on c in on v
  | NBinOp _ _ op l r => do? dfs op e in do? on l in on r
  | NHasAttr _ _ _ x p => do? on x in on p
  | NUnary _ _ op x => do? dfs op e in on x
  | NFormal _ _ _ i d ell => match ell with Some _ => on ell | None => do? on i in on d end
  | NFormals _ _ ms _ => vfor (fun m => dfs m e) ms
  | NLambdaArg _ _ i f => do? on i in on f
  end.

(** VariableLookup.cpp:555-577 the basic environment *)
Definition builtinNames : list bytes :=
  map fst (filter (fun p => negb (snd p)) primops) ++ Constants ++ [b "builtins"; b "__curPos"].
Fixpoint builtinDefs (xs : list bytes) (m : list (bytes * nat)) : V (list (bytes * nat)) :=
  match xs with
  | [] => vret m
  | x :: xs' => let? dm := addSimple x None DS_Builtin m in builtinDefs xs' (snd dm)
  end.

(** VariableLookup.cpp:555-577 runOnAST *)
Definition runOnAST (root : node) : V unit :=
  let? m := builtinDefs builtinNames [] in
  dfs root [Frame m None].

Definition vst0 : vst := VS [] [] [] [] [] [] [].

(** the analysis of a tree: the final state, diagnostics newest first *)
Definition vla (root : node) : res vst :=
  match runOnAST root vst0 with Ok (_, s) => Ok s | Crash w => Crash w | OutOfFuel => OutOfFuel end.

End Vla.

(** VariableLookup.h:185-230 query, toDef, env, getWithScopes *)
Definition query (s : vst) (n : node) : option lresult := nfind (nid n) (v_res s).
Definition toDef (s : vst) (n : node) : option nat := nfind (nid n) (v_todef s).
Definition envOf (s : vst) (n : node) : option env := nfind (nid n) (v_envs s).
Definition getWithScopes (s : vst) (n : node) : list nat :=
  match nfind (nid n) (v_ws s) with Some l => l | None => [] end.
