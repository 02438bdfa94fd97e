(** Model of further requests of nixd: nixd/lib/Controller/{DocumentHighlight,DocumentLink,InlayHints,Hover,Configuration}.cpp,
    PathResolve.h, the rest of Definition.cpp, the idioms of AST.cpp, the quick fixes of CodeAction.cpp and
    CodeActions/NoogleDoc.cpp.
    An evaluator is the function from queries to its answers (None: an error); logging is left out. *)
From Verif Require Import Base Diag LexModel AstModel SemaModel NavModel VlaModel VlaBase TextModel ConnModel ActModel BindModel FeatModel
  EvalModel CompModel RefModel.

(** ** DocumentHighlight.cpp *)
Inductive hkind := HRead | HWrite.
(** DocumentHighlight.cpp:26-52 highlight; ranges stay those of the syntax tree as in RefModel *)
Definition highlight (root : node) (s : vst) (m : pmap) (n : node) : exn (list (range * hkind)) :=
  tbind (findDefinition s m n) (fun d => tbind (defAt s d) (fun y =>
  let* vs := useNodes root (df_uses y) in
  value (map (fun v => (nrange v, HRead)) vs ++ match df_syn y with Some q => [(nrange q, HWrite)] | None => [] end))).

(** ** CodeAction.cpp, quick fixes *)
(** lspserver/Protocol.h:184-187 Range::overlap *)
Definition overlap (p q : lrange) : bool :=
  negb (lpos_ltb (l_end q) (l_start p)) && negb (lpos_ltb (l_end p) (l_start q)).
Record quickfix := QuickFix { qf_title : bytes; qf_preferred : bool; qf_edits : list (lrange * bytes) }.
(** CodeAction.cpp:61-82: the action of one fix *)
Definition fixAction (src : bytes) (k : dkind) (f : fix_) : quickfix :=
  QuickFix (f_msg f) (dkind_beq k DK_UnusedDefLet) (map (fun e => (toLSPRange src (e_range e), e_text e)) (f_edits f)).
(** CodeAction.cpp:45-83 *)
Fixpoint quickFixes (src : bytes) (r : lrange) (ds : list diag) : list quickfix :=
  match ds with
  | [] => []
  | d :: ds' =>
      (if overlap r (toLSPRange src (d_range d)) then map (fixAction src (d_kind d)) (d_fixes d) else []) ++ quickFixes src r ds'
  end.

(** ** AST.cpp, idioms *)
(** exceptions that Definition.cpp tells apart: AST.h:31-76; a std::invalid_argument or std::out_of_range of std::stoi *)
Inductive thrown := NotAnIdiom | DynamicName | NotVariableSelect | NoSuchVar | BadNumber.
(** AST.h:31: the subclasses of IdiomSelectorException *)
Definition isIdiomSelector (e : thrown) : bool :=
  match e with NotAnIdiom | DynamicName | NotVariableSelect => true | NoSuchVar | BadNumber => false end.
Definition may (A : Type) := res (thrown + A).
Definition mbind {A B} (x : may A) (k : A -> may B) : may B :=
  let* r := x in match r with inl e => Ok (inl e) | inr a => k a end.

(** AST.cpp:137-167 varSelector *)
Definition varSelector (v : node) : may (list bytes) :=
  if bytes_eqb (varName v) (b "lib") then Ok (inr [b "lib"])
  else if bytes_eqb (varName v) (b "pkgs") then Ok (inr [])
  else Ok (inl NotAnIdiom).
(** AST.cpp:249-258 mkSelector of an attribute path *)
Fixpoint pathSelector (names : list node) (base : list bytes) : may (list bytes) :=
  match names with
  | [] => Ok (inr base)
  | nm :: names' => match staticName nm with Some x => pathSelector names' (base ++ [x]) | None => Ok (inl DynamicName) end
  end.
Section Idioms.
Variable s : vst.
Variable m : pmap.
(** AST.cpp:189-196, 260-271 mkSelector of a selection, with [var] for mkVarSelector *)
Definition selSelector (var : node -> may (list bytes)) (e : node) : may (list bytes) :=
  match e with
  | NSelect _ _ v _ p _ _ =>
      if nodekind_beq (kind_of v) NK_ExprVar then
        mbind (var v) (fun base => match p with Some p => pathSelector (path_names p) base | None => Ok (inr base) end)
      else Ok (inl NotVariableSelect)
  | _ => Ok (inl NotVariableSelect)
  end.
(** AST.cpp:169-185 withSelector *)
Definition withSelector (var : node -> may (list bytes)) (w : node) : may (list bytes) :=
  match w with
  | NWith _ _ _ _ (Some we) _ =>
      if nodekind_beq (kind_of we) NK_ExprVar then var we
      else if nodekind_beq (kind_of we) NK_ExprSelect then selSelector var we
      else Ok (inl NotAnIdiom)
  | _ => Ok (inl NotAnIdiom)
  end.
(** AST.cpp:198-247 mkVarSelector; the recursion through `with` is bounded by [fuel] *)
Fixpoint mkVarSelector (fuel : nat) (v : node) : may (list bytes) :=
  match fuel with
  | 0 => OutOfFuel
  | S f =>
      match VlaModel.query s v with
      | None => Ok (inl NoSuchVar)
      | Some Undefined | Some (Defined _) => varSelector v
      | Some (FromWith d) =>
          match nth_error (v_defs s) d with
          | None => Crash "dangling pointer"
          | Some y =>
              match df_syn y with
              | None => Ok (inl NotAnIdiom)
              | Some q =>
                  match pquery m q with
                  | Some ((NWith _ _ _ _ _ _) as w) =>
                      mbind (withSelector (mkVarSelector f) w) (fun p => Ok (inr (p ++ [varName v])))
                  | _ => Crash "assert: parent of kwWith should be the with expression"
                  end
              end
          end
      end
  end.
Definition mkSelector (fuel : nat) (e : node) : may (list bytes) := selSelector (mkVarSelector fuel) e.

(** AST.cpp:108-135 havePackageScope *)
Definition isPkgsFrame (f : VlaModel.frame) : bool :=
  match fr_syn f with
  | Some (NWith _ _ _ _ (Some we) _) => nodekind_beq (kind_of we) NK_ExprVar && bytes_eqb (varName we) (b "pkgs")
  | _ => false
  end.
Definition havePackageScope (n : node) : res bool :=
  let* e := upEnv s m n in Ok (match e with Some e => existsb isPkgsFrame e | None => false end).

(** ** InlayHints.cpp *)
Record hint := Hint { h_at : cursor; h_label : bytes; h_range : range }.
(** InlayHints.cpp:71-105: what one node adds.  [version]: the version in the evaluator's answer about a package, no client
    (a null pointer) being None; [limit]: the requested range, compared with PositionRange::contains (Base.pcontains) *)
Definition hintOf (version : option (bytes -> option bytes)) (limit : option prange) (n : node) : res (list hint) :=
  if nodekind_beq (kind_of n) NK_ExprVar then
    let* have := havePackageScope n in
    if have && match limit with Some r => pcontains r (prange_of (nrange n)) | None => true end then
      match version with
      | None => Crash "null pointer"
      | Some ask =>
          match ask (varName n) with
          | Some ver => Ok [Hint (rcur (nrange n)) (b ": " ++ ver) (nrange n)]
          | None => Ok []
          end
      end
    else Ok []
  else Ok [].
(** InlayHints.cpp:71-110 dfs, the recursion bounded by [fuel].  (For a variable outside the range the code returns
    without visiting the identifier below it, which has no hint.) *)
Fixpoint inlayHints (fuel : nat) version limit (n : node) : res (list hint) :=
  match fuel with
  | 0 => OutOfFuel
  | S f =>
      fold_left (fun r ch => let* l := r in
          match ch with Some c => let* l' := inlayHints f version limit c in Ok (l ++ l') | None => Ok l end)
        (children n) (hintOf version limit n)
  end.
End Idioms.
(** InlayHints.cpp:115-140 onInlayHint on a document that has a tree *)
Definition onInlayHint (s : vst) (m : pmap) version (limit : option lrange) (root : node) : res (list hint) :=
  inlayHints s m (nsize root) version (option_map toNixfRange limit) root.

(** ** PathResolve.h *)
(** The file system: std::filesystem::canonical, weakly_canonical (None: an error) and status (None: an error or no such
    file; Some true: a directory) *)
Record fsys := FSys { fs_canonical : bytes -> option bytes; fs_weakly : bytes -> option bytes; fs_status : bytes -> option bool }.
Fixpoint dropWhile (f : ascii -> bool) (l : bytes) : bytes :=
  match l with [] => [] | c :: l' => if f c then dropWhile f l' else l end.
Definition slash (c : ascii) : bool := Ascii.eqb c "/".
(** std::filesystem::path::parent_path and operator/, on POSIX *)
Definition parent_path (p : bytes) : bytes :=
  match dropWhile (fun c => negb (slash c)) (rev p) with
  | [] => []
  | r => match dropWhile slash r with [] => b "/" | r' => rev r' end
  end.
Definition path_append (p q : bytes) : bytes :=
  match q, rev p with
  | c :: _, l :: _ => if slash c then q else if slash l then p ++ q else p ++ b "/" ++ q
  | _, [] => q
  | [], _ => p
  end.
(** PathResolve.h:28-94 resolveExprPath *)
Definition resolveExprPath (fs : fsys) (base expr : bytes) : option bytes :=
  if match expr with [] => true | _ => false end || N.ltb 4096 (N.of_nat (List.length expr)) then None else
  match parent_path base with
  | [] => None
  | dir =>
      match fs_canonical fs dir with
      | None => None
      | Some dir =>
          match fs_weakly fs (path_append dir expr) with
          | None => None
          | Some p =>
              match fs_status fs p with
              | None => None
              | Some false => Some p
              | Some true =>
                  let p' := path_append p (b "default.nix") in
                  match fs_status fs p' with Some _ => Some p' | None => None end
              end
          end
      end
  end.

(** ** DocumentLink.cpp *)
(** DocumentLink.cpp:32-59 dfs, the recursion bounded by [fuel]; a link is its range and the file it leads to *)
Fixpoint documentLinks (fuel : nat) (fs : fsys) (file : bytes) (n : node) : res (list (range * bytes)) :=
  match fuel with
  | 0 => OutOfFuel
  | S f =>
      match n with
      | NPath _ r parts =>
          Ok (match parts_literal parts with
              | Some x => match resolveExprPath fs file x with Some t => [(r, t)] | None => [] end
              | None => []
              end)
      | _ =>
          fold_left (fun r ch => let* l := r in
              match ch with Some c => let* l' := documentLinks f fs file c in Ok (l ++ l') | None => Ok l end)
            (children n) (Ok [])
      end
  end.
(** DocumentLink.cpp:63-80 *)
Definition onDocumentLink (fs : fsys) (file : bytes) (root : node) : res (list (range * bytes)) :=
  documentLinks (nsize root) fs file root.

(** ** NoogleDoc.cpp *)
(** NoogleDoc.cpp:19-26 buildNoogleUrl *)
Definition buildNoogleUrl (path : list bytes) : bytes :=
  b "https://noogle.dev/f" ++ List.concat (map (fun x => b "/" ++ x) path).
(** NoogleDoc.cpp:58-64: the static names of a path *)
Fixpoint staticNames (names : list node) : option (list bytes) :=
  match names with
  | [] => Some []
  | nm :: names' =>
      match staticName nm with
      | Some x => match staticNames names' with Some l => Some (x :: l) | None => None end
      | None => None
      end
  end.
(** NoogleDoc.cpp:30-77 addNoogleDocAction: the name in the title and the address, if the action is offered *)
Definition noogleDoc (m : pmap) (n : node) : res (option (bytes * bytes)) :=
  let* up := upTo m n NK_ExprSelect in
  Ok match up with
     | Some (NSelect _ _ v _ (Some p) _ _) =>
         if nodekind_beq (kind_of v) NK_ExprVar && bytes_eqb (varName v) (b "lib") then
           match path_names p with
           | [] => None
           | names =>
               match staticNames names with
               | Some l => Some (List.last l [], buildNoogleUrl (b "lib" :: l))
               | None => None
               end
           end
         else None
     | _ => None
     end.

(** ** Hover.cpp *)
Definition line_ (s : bytes) : bytes := s ++ LF.
Definition section_ (s : bytes) : bytes := s ++ LF ++ LF.
Definition when_ {A} (o : option A) (f : A -> bytes) : bytes := match o with Some x => f x | None => [] end.
(** Hover.cpp:59-88 mkMarkdown of a package *)
Definition packageMarkdown (p : packageDescription) : bytes :=
  when_ (pk_Name p) (fun x => b "`" ++ x ++ b "`" ++ LF) ++
  when_ (pk_Homepage p) (fun x => b "[homepage](" ++ x ++ b ")" ++ LF) ++
  when_ (pk_Description p) (fun x =>
    section_ (b "## Description") ++ section_ x ++
    when_ (pk_LongDescription p) (fun y => LF ++ LF ++ section_ y)).
(** Hover.cpp:109-114: the names of the arguments *)
Fixpoint argList (l : list bytes) : bytes :=
  match l with [] => [] | [x] => b "`" ++ x ++ b "`" | x :: l' => b "`" ++ x ++ b "`, " ++ argList l' end.
(** std::ostream << int *)
Definition intText (z : Z) : bytes := b (DecimalString.NilZero.string_of_int (Z.to_int z)).
(** Hover.cpp:91-121 mkMarkdown of all that is known *)
Definition infoMarkdown (i : attrPathInfo) : bytes :=
  let os := packageMarkdown (ai_PackageDesc i) in
  os ++ when_ (ai_ValueDesc i) (fun v =>
    match os with [] => [] | _ => LF end ++
    match vd_Doc v with [] => [] | d => section_ d end ++
    (if Z.eqb (vd_Arity v) 0 then [] else b "**Arity:** " ++ intText (vd_Arity v) ++ LF) ++
    match vd_Args v with [] => [] | l => b "**Args:** " ++ argList l ++ LF end).
(** Hover.cpp:253-264: the text about an option *)
Definition optionMarkdown (d : optionDescription) : bytes :=
  match od_Type d with
  | Some t => match ot_Name t with Some x => x | None => [] end ++ b " (" ++ match ot_Description t with Some x => x | None => [] end ++ b ")"
  | None => b "? (missing type)"
  end ++ when_ (od_Description d) (fun x => LF ++ LF ++ x).
(** Hover.cpp:246-272: the answer of the first worker that knows the option *)
Fixpoint optionHover (workers : list (list bytes -> option optionDescription)) (scope : list bytes) : option bytes :=
  match workers with
  | [] => None
  | w :: ws => match w scope with Some d => Some (optionMarkdown d) | None => optionHover ws scope end
  end.
(** Hover.cpp:124-188: what is shown for a selector that may not have been found; every exception is caught *)
Definition selectorHover (nixpkgs : list bytes -> option attrPathInfo) (sel : may (list bytes)) : res (option bytes) :=
  let* r := sel in
  Ok match r with
     | inl _ => None
     | inr p => match nixpkgs p with Some i => match infoMarkdown i with [] => None | t => Some t end | None => None end
     end.
(** Hover.cpp:207-285 onHover below the node [n] under the cursor: the text and the node it is about *)
Definition onHover (s : vst) (m : pmap) (nixpkgs : option (list bytes -> option attrPathInfo))
    (workers : list (list bytes -> option optionDescription)) (n : node) : res (option (bytes * node)) :=
  let* up := upExpr m n in
  match up, nixpkgs with
  | Some e, Some ask =>
      match kind_of e with
      | NK_ExprVar => let* t := selectorHover ask (mkVarSelector s m 3 e) in Ok (option_map (fun t => (t, e)) t)
      | NK_ExprSelect => let* t := selectorHover ask (mkSelector s m 3 e) in Ok (option_map (fun t => (t, e)) t)
      | NK_ExprAttrs =>
          let* f := findAttrPathForOptions m n in
          Ok match f with FOK scope => option_map (fun t => (t, n)) (optionHover workers scope) | _ => None end
      | _ => Ok None
      end
  | _, _ => Ok None
  end.

(** ** Configuration.cpp *)
(** Configuration.h:14-35 *)
Record config := Config {
  cf_command : list bytes; cf_options : list (bytes * bytes); cf_nixpkgs : bytes; cf_suppress : list bytes }.
Definition defaultConfig : config := Config [b "nixfmt"] [] [] [].
(** Configuration.cpp:11-15, 28-38: an object with one optional field *)
Definition fieldFrom {A} (k : string) (f : json -> option A) (old : A) (j : json) : option A :=
  match getAsObject j with Some o => omapOptional k f old o | None => None end.
(** Configuration.cpp:17-26 *)
Definition formattingFromJSON (j : json) : option (list bytes) :=
  match j with JString s => Some [s] | _ => fieldFrom "command" (fromVector fromString) [b "nixfmt"] j end.
(** llvm::json::fromJSON of a std::map: the fields, in the order of their names *)
Fixpoint mapInsert {A} (x : bytes) (v : A) (l : list (bytes * A)) : list (bytes * A) :=
  match l with
  | [] => [(x, v)]
  | (y, w) :: l' => if bytes_ltb x y then (x, v) :: l else if bytes_eqb x y then (x, v) :: l' else (y, w) :: mapInsert x v l'
  end.
Fixpoint optionsOfFields (o : list (bytes * json)) : option (list (bytes * bytes)) :=
  match o with
  | [] => Some []
  | (x, j) :: o' =>
      let- e := fieldFrom "expr" fromString [] j in
      let- l := optionsOfFields o' in Some (mapInsert x e l)
  end.
Definition optionsFrom (j : json) : option (list (bytes * bytes)) :=
  match getAsObject j with Some o => optionsOfFields o | None => None end.
(** Configuration.cpp:40-48 *)
Definition configFromJSON (j : json) : option config :=
  match getAsObject j with
  | Some o =>
      let- f := omapOptional "formatting" formattingFromJSON (cf_command defaultConfig) o in
      let- p := omapOptional "options" optionsFrom [] o in
      let- n := omapOptional "nixpkgs" (fieldFrom "expr" fromString []) [] o in
      let- d := omapOptional "diagnostic" (fieldFrom "suppress" (fromVector fromString) []) [] o in
      Some (Config f p n d)
  | None => None
  end.
(** The parts of the controller that depend on the configuration: the expression last given to the nixpkgs worker, the
    workers for options with theirs (Controller.h: the map Options), and the suppressed kinds *)
Record cstate := CState {
  c_config : config; c_nixpkgs : bytes; c_workers : list (bytes * bytes); c_suppressed : list dkind }.
(** Configuration.cpp:56-89 updateConfig; workers are started at once and do not fail *)
Definition updateConfig (c : config) (st : cstate) : cstate :=
  CState c
    (match cf_nixpkgs c with [] => c_nixpkgs st | e => e end)
    (fold_left (fun w p => mapInsert (fst p) (snd p) w) (cf_options c) (c_workers st))
    (updateSuppressed (cf_suppress c)).
(** Configuration.cpp:91-124 fetchConfig, for the reply of the client (None: an error) *)
Definition configReply (reply : option json) (st : cstate) : res cstate :=
  match reply with
  | Some (JArray (j :: _)) => match configFromJSON j with Some c => Ok (updateConfig c st) | None => Ok st end
  | Some (JArray []) => Crash "front() of an empty array"
  | _ => Ok st
  end.

(** ** Definition.cpp *)
(** std::stoi: leading white space, a sign, digits; None: an exception *)
Definition isSpace (c : ascii) : bool := match c with " " | "009" | "010" | "011" | "012" | "013" => true | _ => false end%char.
Definition digitOf (c : ascii) : option Z :=
  let k := N_of_ascii c in if N.leb 48 k && N.leb k 57 then Some (Z.of_N k - 48)%Z else None.
Fixpoint digitsValue (l : bytes) (acc : Z) : Z :=
  match l with c :: l' => match digitOf c with Some d => digitsValue l' (acc * 10 + d) | None => acc end | [] => acc end%Z.
Definition stoi (s : bytes) : option Z :=
  let '(sign, s) := match dropWhile isSpace s with
                    | "-"%char :: s' => ((-1)%Z, s')
                    | "+"%char :: s' => (1%Z, s')
                    | s' => (1%Z, s')
                    end in
  match s with
  | c :: _ =>
      match digitOf c with
      | Some _ => let z := (sign * digitsValue s 0)%Z in if Z.leb (-2147483648) z && Z.leb z 2147483647 then Some z else None
      | None => None
      end
  | [] => None
  end.
(** a place: a file, and a line counted from 0 (the columns are 0), or a range of the document, or a place that the
    evaluator gave *)
Inductive place := InDocument (r : range) | InFile (file : bytes) (line : Z) | Given (l : location).
(** Definition.cpp:153-171 parseLocation *)
Fixpoint splitColon (s : bytes) : bytes * option bytes :=
  match s with
  | [] => ([], None)
  | c :: s' => if Ascii.eqb c ":" then ([], Some s') else let (f, r) := splitColon s' in (c :: f, r)
  end.
Definition parseLocation (position : bytes) : may place :=
  match splitColon position with
  | (file, None) => Ok (inr (InFile file 0))
  | (file, Some rest) => match stoi rest with Some l => Ok (inr (InFile file l)) | None => Ok (inl BadNumber) end
  end.
(** Definition.cpp:177-205, 280-293 resolveSelector, defineNixpkgsSelector; NoLocationsFoundInNixpkgsException and
    WorkerReportedException are caught at once.  No client: a null pointer *)
Definition defineNixpkgsSelector (nixpkgs : option (list bytes -> option attrPathInfo)) (sel : list bytes) : may (list place) :=
  match nixpkgs with
  | None => Crash "null pointer"
  | Some ask =>
      match ask sel with
      | None => Ok (inr [])
      | Some i =>
          match pk_Position (ai_PackageDesc i) with
          | Some p => mbind (parseLocation p) (fun l => Ok (inr [l]))
          | None => match vm_Location (ai_Meta i) with Some l => Ok (inr [Given l]) | None => Ok (inr []) end
          end
      end
  end.
Section Define.
Variable s : vst.
Variable m : pmap.
Variable nixpkgs : option (list bytes -> option attrPathInfo).
(** the workers for options: the declarations of an option *)
Variable workers : list (list bytes -> list location).
Variable fs : fsys.
Variable file : bytes.
(** Definition.cpp:296-308 defineSelect; an exception that is not caught ends the program (std::terminate) *)
Definition defineSelect (e : node) : res (list place) :=
  let* r := mbind (mkSelector s m 3 e) (defineNixpkgsSelector nixpkgs) in
  match r with
  | inr l => Ok l
  | inl t => if isIdiomSelector t then Ok [] else Crash "std::terminate"
  end.
(** Definition.cpp:310-343 defineVarStatic, defineVar; every exception is caught *)
Definition defineVar (v : node) : res (list place) :=
  let* d := findVarDefinition s v in
  match d with
  | inl _ => Ok []
  | inr d =>
      match nth_error (v_defs s) d with
      | None => Crash "dangling pointer"
      | Some y =>
          match df_syn y with
          | None => Ok []
          | Some q =>
              let* r := mbind (mkVarSelector s m 3 v) (defineNixpkgsSelector nixpkgs) in
              Ok (InDocument (nrange q) :: match r with inr l => l | inl _ => [] end)
          end
      end
  end.
(** Definition.cpp:379-421 onDefinition below the node [n] under the cursor; None: an error is replied *)
Definition onDefinition (n : node) : res (option (list place)) :=
  let* up := upExpr m n in
  match up with
  | None => Ok (Some [])
  | Some e =>
      let* iv := findInheritVar m n in
      match iv with
      | inl _ => Crash "std::terminate"
      | inr (Some v) => let* l := defineVar v in Ok (Some l)
      | inr None =>
          match e with
          | NVar _ _ _ => let* l := defineVar e in Ok (Some l)
          | NSelect _ _ _ _ _ _ _ => let* l := defineSelect e in Ok (Some l)
          | AstModel.NAttrs _ _ _ _ _ _ =>
              let* f := findAttrPathForOptions m n in
              Ok (Some match f with FOK scope => flat_map (fun w => map Given (w scope)) workers | _ => [] end)
          | NPath _ _ parts =>
              Ok (Some match parts_literal parts with
                       | Some x => match resolveExprPath fs file x with Some t => [InFile t 0] | None => [] end
                       | None => []
                       end)
          | _ => Ok None
          end
      end
  end.
End Define.
