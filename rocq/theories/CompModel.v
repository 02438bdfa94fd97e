(** Model of nixd/lib/Controller/Completion.cpp and of the attribute paths of nixd/lib/Controller/AST.cpp.
    A completion item is its label: its other fields (kind, detail, edit, documentation) are not modelled. *)
From Verif Require Import Base Diag LexModel AstModel NavModel SemaModel VlaModel TextModel ConnModel UriModel EvalModel.

(** ** Lists of items *)

(** Completion.cpp:33 *)
Definition MaxCompletionSize : nat := 30.

(** Items so far, and whether ExceedSizeError was thrown (the items stay as they were then) *)
Definition items := (list bytes * bool)%type.

(** Completion.cpp:44-49 addItem *)
Definition addItem (label : bytes) (l : list bytes) : items :=
  if Nat.leb MaxCompletionSize (List.length l) then (l, true) else (l ++ [label], false).
(** items added one after the other, until one throws *)
Fixpoint addItems (labels : list bytes) (l : list bytes) : items :=
  match labels with
  | [] => (l, false)
  | x :: labels' => match addItem x l with (l', true) => (l', true) | (l', false) => addItems labels' l' end
  end.
(** statement after statement; an exception ends the sequence *)
Definition andThen (r : items) (k : list bytes -> items) : items :=
  match r with (l, true) => (l, true) | (l, false) => k l end.

(** Completion.cpp:76-93 collectDef: the parents first.  [None] is a null environment. *)
Fixpoint collectDef (e : env) (prefix : bytes) (l : list bytes) : items :=
  match e with
  | [] => (l, false)
  | f :: e' =>
      andThen (collectDef e' prefix l) (fun l =>
        addItems (filter (fun x => negb (starts_with (b "__") x) && starts_with prefix x) (List.map fst (fr_defs f))) l)
  end.

(** AST.cpp:98-106 upEnv, the loop bounded by [fuel] *)
Fixpoint upEnvLoop (fuel : nat) (s : vst) (m : pmap) (n : node) : res (option env) :=
  match fuel with
  | 0 => OutOfFuel
  | S f =>
      match envOf s n, pquery m n with
      | None, Some p => if pis_root m n then Ok None else upEnvLoop f s m p
      | e, _ => Ok e
      end
  end.
Definition upEnv (s : vst) (m : pmap) (n : node) : res (option env) := upEnvLoop (S (List.length m)) s m n.

(** Completion.cpp:99-103 VLACompletionProvider::complete *)
Definition completeScope (s : vst) (m : pmap) (var : node) (l : list bytes) : res items :=
  let* e := upEnv s m var in
  Ok (match e with Some e => collectDef e (varName var) l | None => (l, false) end).

(** Completion.cpp:144-174 completePackages.  [scope] is the attribute set the evaluator selects (None: it reports an
    error); what it replies is AttrSetProvider.cpp:205-227. *)
Definition completePackages (scope : option (list (bytes * nval))) (prefix : bytes) (l : list bytes) : items :=
  let names := match scope with Some attrs => completeNames attrs prefix 0 | None => [] end in
  addItems (filter (starts_with prefix) names) l.

(** AttrSetProvider.cpp:387-413, the reply to an option completion: [fields] is what the attributes of the scope are
    described as, in order *)
Fixpoint optionFields (fields : list optionField) (prefix : bytes) (num : nat) : list optionField :=
  match fields with
  | [] => []
  | f :: l =>
      if starts_with prefix (of_Name f)
      then if Nat.leb MaxItems (S num) then [f] else f :: optionFields l prefix (S num)
      else optionFields l prefix num
  end.

(** Completion.cpp:253-336: the items of one field *)
Definition fieldLabels (f : optionField) : list bytes :=
  match of_Description f with
  | None => [of_Name f]
  | Some d =>
      let hasExample := match od_Example d with Some _ => true | None => false end in
      let hasDefault := match od_Default d with
                        | Some x => negb match od_Example d with Some y => bytes_eqb x y | None => false end
                        | None => false
                        end in
      let label source := if hasExample && hasDefault then of_Name f ++ b " (" ++ source ++ b ")" else of_Name f in
      let shown := (if hasExample then [label (b "example")] else []) ++ (if hasDefault then [label (b "default")] else []) in
      match shown with [] => [of_Name f] | _ => shown end
  end.
(** Completion.cpp:222-337 completeOptions; [scope] None: the evaluator reports an error *)
Definition completeOptions (scope : option (list optionField)) (prefix : bytes) (l : list bytes) : items :=
  let fields := match scope with Some fs => optionFields fs prefix 0 | None => [] end in
  addItems (flat_map fieldLabels fields) l.
(** Completion.cpp:340-354 completeAttrName, over the option sets (a dead client is one without fields) *)
Fixpoint completeAttrName (clients : list (option (list optionField))) (prefix : bytes) (l : list bytes) : items :=
  match clients with
  | [] => (l, false)
  | c :: clients' => andThen (completeOptions c prefix l) (completeAttrName clients' prefix)
  end.

(** Completion.cpp:391-420 completeVarName after upEnv: [sel] is the selector of the known idioms with what the
    evaluator has at its scope, None when there is none (an exception of idioms::mkVarSelector, or an empty one) *)
Definition completeVarName (e : option env) (name : bytes) (sel : option (option (list (bytes * nval)) * bytes))
  (l : list bytes) : items :=
  andThen (match e with Some e => collectDef e name l | None => (l, false) end) (fun l =>
    match sel with Some (scope, prefix) => completePackages scope prefix l | None => (l, false) end).

(** Completion.cpp:487-521: the reply; a thrown ExceedSizeError sets isIncomplete *)
Inductive completion_request :=
| AtVariable (e : option env) (name : bytes) (sel : option (option (list (bytes * nval)) * bytes))
| AtSelect (scope : option (list (bytes * nval))) (prefix : bytes)
| AtAttrs (clients : list (option (list optionField))) (prefix : bytes).
Record completion_list := CompletionList { cl_items : list bytes; cl_isIncomplete : bool }.
Definition onCompletion (r : completion_request) : completion_list :=
  let '(l, thrown) :=
    match r with
    | AtVariable e name sel => completeVarName e name sel []
    | AtSelect scope prefix => completePackages scope prefix []
    | AtAttrs clients prefix => completeAttrName clients prefix []
    end in
  CompletionList l thrown.

(** ** Attribute paths *)

(** The result of the functions that append to a path: [None] is AttrPathHasDynamicError. *)
Definition pathres := res (option (list bytes)).

(** AST.cpp:37-43: the names up to the node [n] *)
Fixpoint namesUpTo (names : list node) (n : node) (path : list bytes) : option (list bytes) :=
  match names with
  | [] => Some path
  | x :: names' =>
      match staticName x with
      | Some s => if Nat.eqb (nid x) (nid n) then Some (path ++ [s]) else namesUpTo names' n (path ++ [s])
      | None => None
      end
  end.
(** AST.cpp:27-44 getSelectAttrPath *)
Definition getSelectAttrPath (m : pmap) (n : node) (path : list bytes) : pathres :=
  match pquery m n with
  | None => Crash "Naked attrname!"
  | Some (NAttrPath _ _ names _) => Ok (namesUpTo names n path)
  | Some _ => Crash "Invoked in non-attrpath name! (Slipped inherit?)"
  end.

(** AST.cpp:73-83: the binding whose value is [n], and the last name of its path *)
Fixpoint bindingOf (bindings : list node) (n : node) : option node :=
  match bindings with
  | [] => None
  | NBinding i r path (Some v) eq :: l => if Nat.eqb (nid v) (nid n) then Some (NBinding i r path (Some v) eq) else bindingOf l n
  | _ :: l => bindingOf l n
  end.
Definition lastName (bnd : node) : res node :=
  match bnd with
  | NBinding _ _ (NAttrPath _ _ names _) _ _ =>
      match rev names with x :: _ => Ok x | [] => Crash "back() of an empty vector" end
  | _ => Crash "not a binding"
  end.

(** AST.cpp:47-86 getValueAttrPath, the recursion bounded by [fuel] *)
Fixpoint getValueAttrPath (fuel : nat) (m : pmap) (n : node) (path : list bytes) : pathres :=
  match fuel with
  | 0 => OutOfFuel
  | S f =>
      if pis_root m n then Ok (Some path) else
      match pquery m n with
      | None => Ok (Some path)
      | Some p =>
          let* up := upExpr m p in
          match up with
          | Some (AstModel.NAttrs i r binds kw st dy as u) =>
              let* rest := if pis_root m u then Ok (Some path) else getValueAttrPath f m u path in
              match rest with
              | None => Ok None
              | Some path =>
                  match binds with
                  | Some (NBinds _ _ bs) =>
                      match bindingOf bs n with
                      | Some bnd => let* x := lastName bnd in getSelectAttrPath m x path
                      | None => Crash "must have corresbonding value"
                      end
                  | _ => Crash "empty binds cannot nest anything!"
                  end
              end
          | _ => Ok (Some path)
          end
      end
  end.

(** AST.cpp:88-94 getNestedAttrPath *)
Definition getNestedAttrPath (m : pmap) (n : node) (path : list bytes) : pathres :=
  let* e := upExpr m n in
  let* p := match e with Some e => getValueAttrPath (S (List.length m)) m e path | None => Ok (Some path) end in
  match p with
  | None => Ok None
  | Some path => getSelectAttrPath m n path
  end.

(** AST.h FindAttrPathResult *)
Inductive fresult := FOK (path : list bytes) | FInherit | FNotAttrPath | FWithDynamic.
Definition thenEmpty (p : option (list bytes)) : fresult :=
  match p with Some path => FOK (path ++ [[]]) | None => FWithDynamic end.

(** the node an address (Dot::prev) refers to *)
Definition deref (m : pmap) (k : nat) : option node :=
  match pget k m with
  | Some p => match find (fun o => match o with Some c => Nat.eqb (nid c) k | None => false end) (children p) with
              | Some o => o
              | None => None
              end
  | None => None
  end.

(** AST.cpp:283-329 findAttrPath, with an empty path to begin with *)
Definition findAttrPath (m : pmap) (n : node) : res fresult :=
  let* inh := upTo m n NK_Inherit in
  match inh with
  | Some _ => Ok FInherit
  | None =>
      let* name := upTo m n NK_AttrName in
      match name with
      | Some x => let* p := getNestedAttrPath m x [] in Ok (match p with Some path => FOK path | None => FWithDynamic end)
      | None =>
          let* dot := upTo m n NK_Dot in
          match dot with
          | Some (NDot _ _ prev _) =>
              match deref m prev with
              | None => Crash "dangling reference"
              | Some prev =>
                  if nodekind_beq (kind_of prev) NK_AttrName
                  then let* p := getNestedAttrPath m prev [] in Ok (thenEmpty p)
                  else Ok FNotAttrPath
              end
          | Some _ => Crash "not a dot"
          | None =>
              let* e := upExpr m n in
              match e with
              | Some (AstModel.NAttrs _ _ _ _ _ _ as u) =>
                  let* p := getValueAttrPath (S (List.length m)) m u [] in Ok (thenEmpty p)
              | _ => Ok FNotAttrPath
              end
          end
      end
  end.

(** AST.cpp:331-345 findAttrPathForOptions *)
Definition findAttrPathForOptions (m : pmap) (n : node) : res fresult :=
  let* r := findAttrPath m n in
  Ok (match r with
      | FOK (x :: path) => if bytes_eqb x (b "config") then FOK path else r
      | _ => r
      end).

(** Completion.cpp:356-372 completeAttrPath up to the query: the scope and the prefix asked for *)
Definition attrPathQuery (m : pmap) (n : node) : res (option (list bytes * bytes)) :=
  let* r := findAttrPathForOptions m n in
  match r with
  | FOK path => match rev path with
                | [] => Crash "back() of an empty vector"
                | x :: scope => Ok (Some (rev scope, x))
                end
  | _ => Ok None
  end.
