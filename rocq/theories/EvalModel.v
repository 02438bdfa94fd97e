(** Model of the evaluator process and its protocol: nixd/lib/Protocol/AttrSet.cpp (with the parts of
    nixd/lspserver/src/Protocol.cpp it uses), libnixt/lib/Value.cpp and the queries of
    nixd/lib/Eval/AttrSetProvider.cpp.  JSON values are those of ConnModel; their text form (llvm::json's printer and
    parser) is not modelled. *)
From Verif Require Import Base TextModel UriModel ConnModel.

(** ** JSON *)

Definition in_range (lo hi : N) (c : ascii) : bool := N.leb lo (code c) && N.leb (code c) hi.
Definition cont (c : ascii) : bool := in_range 128 191 c.

(** llvm::json::isUTF8: isLegalUTF8String of LLVM's ConvertUTF.cpp, which accepts exactly the sequences of the Unicode
    standard's table 3-7 *)
Fixpoint isUTF8 (s : bytes) : bool :=
  match s with
  | [] => true
  | c :: r =>
      if in_range 0 127 c then isUTF8 r
      else if in_range 194 223 c then match r with d :: r => cont d && isUTF8 r | _ => false end
      else if in_range 224 239 c then
        match r with
        | d :: e :: r =>
            (if in_range 224 224 c then in_range 160 191 d
             else if in_range 237 237 c then in_range 128 159 d else cont d) && cont e && isUTF8 r
        | _ => false
        end
      else if in_range 240 244 c then
        match r with
        | d :: e :: f :: r =>
            (if in_range 240 240 c then in_range 144 191 d
             else if in_range 244 244 c then in_range 128 143 d else cont d) && cont e && cont f && isUTF8 r
        | _ => false
        end
      else false
  end.

(** llvm::json::Value(std::string): asserts that the text is UTF-8 *)
Definition jstring (s : bytes) : res json :=
  if isUTF8 s then Ok (JString s) else Crash "Invalid UTF-8 in value used as JSON".
(** llvm::json toJSON(std::optional<T>) *)
Definition joptional {A} (f : A -> res json) (o : option A) : res json :=
  match o with None => Ok JNull | Some a => f a end.
(** llvm::json::Array from a vector *)
Fixpoint jelements {A} (f : A -> res json) (l : list A) : res (list json) :=
  match l with [] => Ok [] | a :: l' => let* j := f a in let* js := jelements f l' in Ok (j :: js) end.
Definition jvector {A} (f : A -> res json) (l : list A) : res json := let* js := jelements f l in Ok (JArray js).
(** llvm::json::Object{{K, V}, ...} *)
Fixpoint jfields (l : list (string * res json)) : res (list (bytes * json)) :=
  match l with
  | [] => Ok []
  | (k, v) :: l' => let* j := v in let* js := jfields l' in Ok ((b k, j) :: js)
  end.
Definition jobject (l : list (string * res json)) : res json := let* fs := jfields l in Ok (JObject fs).

(** llvm::json fromJSON for std::string, int, int64_t, std::optional<T> and std::vector<T>; None is failure *)
Definition fromString (j : json) : option bytes := match j with JString s => Some s | _ => None end.
Definition fromInt64 (j : json) : option Z := getAsInteger j.
Definition fromInt (j : json) : option Z := option_map to_int (getAsInteger j).
Definition fromOptional {A} (f : json -> option A) (j : json) : option (option A) :=
  match j with JNull => Some None | _ => option_map Some (f j) end.
Fixpoint fromElements {A} (f : json -> option A) (l : list json) : option (list A) :=
  match l with
  | [] => Some []
  | j :: l' =>
      match f j with
      | Some a => option_map (cons a) (fromElements f l')
      | None => None
      end
  end.
Definition fromVector {A} (f : json -> option A) (j : json) : option (list A) :=
  match j with JArray l => fromElements f l | _ => None end.

(** ObjectMapper::map of a required field, of an optional field (a missing one is nullopt), and mapOptional (a missing
    one keeps what was there) *)
Definition omap {A} (k : string) (f : json -> option A) (o : list (bytes * json)) : option A :=
  match get (b k) o with Some j => f j | None => None end.
Definition omapO {A} (k : string) (f : json -> option A) (o : list (bytes * json)) : option (option A) :=
  match get (b k) o with Some j => fromOptional f j | None => Some None end.
Definition omapOptional {A} (k : string) (f : json -> option A) (old : A) (o : list (bytes * json)) : option A :=
  match get (b k) o with Some j => f j | None => Some old end.
Notation "'let-' p ':=' m 'in' k" := (match m with Some p => k | None => None end)
  (at level 200, p pattern, m at level 100, k at level 200, only parsing).

(** lspserver/src/Protocol.cpp:64-89 URIForFile: its text form; a URI that makes createFile assert crashes *)
Definition uriToJSON (path : bytes) : res json := let* u := uriOfFile path in jstring u.
Definition uriFromJSON (j : json) : option bytes :=
  match j with
  | JString s => match fileOfUri s with Ok (Some p) => Some p | _ => None end
  | _ => None
  end.
(** lspserver/src/Protocol.cpp:118-129 Position, 135-145 Range, 151-162 Location *)
Definition positionToJSON (p : lpos) : res json :=
  jobject [("line"%string, Ok (JInt (p_line p))); ("character"%string, Ok (JInt (p_char p)))].
Definition positionFromJSON (j : json) : option lpos :=
  let- o := getAsObject j in
  let- l := omap "line" fromInt64 o in let- c := omap "character" fromInt64 o in Some (LPos l c).
Record location := Location { lo_path : bytes; lo_start : lpos; lo_end : lpos }.
Definition rangeToJSON (r : lpos * lpos) : res json :=
  jobject [("start"%string, positionToJSON (fst r)); ("end"%string, positionToJSON (snd r))].
Definition rangeFromJSON (j : json) : option (lpos * lpos) :=
  let- o := getAsObject j in
  let- s := omap "start" positionFromJSON o in let- e := omap "end" positionFromJSON o in Some (s, e).
Definition locationToJSON (l : location) : res json :=
  jobject [("uri"%string, uriToJSON (lo_path l)); ("range"%string, rangeToJSON (lo_start l, lo_end l))].
Definition locationFromJSON (j : json) : option location :=
  let- o := getAsObject j in
  let- u := omap "uri" uriFromJSON o in let- r := omap "range" rangeFromJSON o in Some (Location u (fst r) (snd r)).

(** Protocol/AttrSet.h:50-58 and AttrSet.cpp:56-80 *)
Record packageDescription := PackageDescription {
  pk_Name : option bytes; pk_PName : option bytes; pk_Version : option bytes; pk_Description : option bytes;
  pk_LongDescription : option bytes; pk_Position : option bytes; pk_Homepage : option bytes }.
Definition packageToJSON (p : packageDescription) : res json :=
  let f k v := (k, joptional jstring v) in
  jobject [f "Name"%string (pk_Name p); f "PName"%string (pk_PName p); f "Version"%string (pk_Version p);
           f "Description"%string (pk_Description p); f "LongDescription"%string (pk_LongDescription p);
           f "Position"%string (pk_Position p); f "Homepage"%string (pk_Homepage p)].
Definition packageFromJSON (j : json) : option packageDescription :=
  let- o := getAsObject j in
  let- n := omapO "Name" fromString o in
  let- p := omapO "PName" fromString o in
  let- v := omapO "Version" fromString o in
  let- d := omapO "Description" fromString o in
  let- l := omapO "LongDescription" fromString o in
  let- q := omapO "Position" fromString o in
  let- h := omapO "Homepage" fromString o in
  Some (PackageDescription n p v d l q h).

(** AttrSet.h:65-76 and AttrSet.cpp:82-96 *)
Record valueMeta := ValueMeta { vm_Type : Z; vm_Location : option location }.
Definition metaToJSON (m : valueMeta) : res json :=
  jobject [("Type"%string, Ok (JInt (vm_Type m))); ("Location"%string, joptional locationToJSON (vm_Location m))].
Definition metaFromJSON (j : json) : option valueMeta :=
  let- o := getAsObject j in
  let- t := omap "Type" fromInt o in
  let- l := omapOptional "Location" (fromOptional locationFromJSON) None o in
  Some (ValueMeta t l).

(** AttrSet.h:83-87 and AttrSet.cpp:128-143 *)
Record valueDescription := ValueDescription { vd_Doc : bytes; vd_Arity : Z; vd_Args : list bytes }.
Definition valueToJSON (v : valueDescription) : res json :=
  jobject [("arity"%string, Ok (JInt (vd_Arity v))); ("doc"%string, jstring (vd_Doc v));
           ("args"%string, jvector jstring (vd_Args v))].
Definition valueFromJSON (j : json) : option valueDescription :=
  let- o := getAsObject j in
  let- a := omap "arity" fromInt64 o in
  let- d := omap "doc" fromString o in
  let- g := omap "args" (fromVector fromString) o in
  Some (ValueDescription d a g).

(** AttrSet.h:93-101 and AttrSet.cpp:98-114 *)
Record attrPathInfo := AttrPathInfo {
  ai_Meta : valueMeta; ai_PackageDesc : packageDescription; ai_ValueDesc : option valueDescription }.
Definition noPackage : packageDescription := PackageDescription None None None None None None None.
Definition infoToJSON (i : attrPathInfo) : res json :=
  jobject [("Meta"%string, metaToJSON (ai_Meta i)); ("PackageDesc"%string, packageToJSON (ai_PackageDesc i));
           ("ValueDesc"%string, joptional valueToJSON (ai_ValueDesc i))].
Definition infoFromJSON (j : json) : option attrPathInfo :=
  let- o := getAsObject j in
  let- m := omap "Meta" metaFromJSON o in
  let- p := omapOptional "PackageDesc" packageFromJSON noPackage o in
  let- v := omapOptional "ValueDesc" (fromOptional valueFromJSON) None o in
  Some (AttrPathInfo m p v).

(** AttrSet.h:107-111 and AttrSet.cpp:116-126 *)
Record completeParams := CompleteParams { cp_Scope : list bytes; cp_Prefix : bytes }.
Definition completeToJSON (c : completeParams) : res json :=
  jobject [("Scope"%string, jvector jstring (cp_Scope c)); ("Prefix"%string, jstring (cp_Prefix c))].
Definition completeFromJSON (j : json) : option completeParams :=
  let- o := getAsObject j in
  let- s := omap "Scope" (fromVector fromString) o in
  let- p := omap "Prefix" fromString o in
  Some (CompleteParams s p).

(** AttrSet.h:119-122 and AttrSet.cpp:6-18 *)
Record optionType := OptionType { ot_Description : option bytes; ot_Name : option bytes }.
Definition typeToJSON (t : optionType) : res json :=
  jobject [("Description"%string, joptional jstring (ot_Description t)); ("Name"%string, joptional jstring (ot_Name t))].
Definition typeFromJSON (j : json) : option optionType :=
  let- o := getAsObject j in
  let- d := omapOptional "Description" (fromOptional fromString) None o in
  let- n := omapOptional "Name" (fromOptional fromString) None o in
  Some (OptionType d n).

(** AttrSet.h:128-135 and AttrSet.cpp:20-40 *)
Record optionDescription := OptionDescription {
  od_Description : option bytes; od_Declarations : list location; od_Definitions : list location;
  od_Example : option bytes; od_Default : option bytes; od_Type : option optionType }.
Definition optionToJSON (d : optionDescription) : res json :=
  jobject [("Description"%string, joptional jstring (od_Description d));
           ("Declarations"%string, jvector locationToJSON (od_Declarations d));
           ("Definitions"%string, jvector locationToJSON (od_Definitions d));
           ("Example"%string, joptional jstring (od_Example d));
           ("Default"%string, joptional jstring (od_Default d));
           ("Type"%string, joptional typeToJSON (od_Type d))].
Definition optionFromJSON (j : json) : option optionDescription :=
  let- o := getAsObject j in
  let- d := omapOptional "Description" (fromOptional fromString) None o in
  let- dl := omapOptional "Declarations" (fromVector locationFromJSON) [] o in
  let- df := omapOptional "Definitions" (fromVector locationFromJSON) [] o in
  let- ex := omapOptional "Example" (fromOptional fromString) None o in
  let- de := omapOptional "Default" (fromOptional fromString) None o in
  let- ty := omapOptional "Type" (fromOptional typeFromJSON) None o in
  Some (OptionDescription d dl df ex de ty).

(** AttrSet.h:141-144 and AttrSet.cpp:42-54 *)
Record optionField := OptionField { of_Name : bytes; of_Description : option optionDescription }.
Definition fieldToJSON (f : optionField) : res json :=
  jobject [("Name"%string, jstring (of_Name f)); ("Description"%string, joptional optionToJSON (of_Description f))].
Definition fieldFromJSON (j : json) : option optionField :=
  let- o := getAsObject j in
  let- d := omapOptional "Description" (fromOptional optionFromJSON) None o in
  let- n := omapOptional "Name" fromString [] o in
  Some (OptionField n d).

(** AttrSet.h:117 and 152: the replies to the two completion requests *)
Definition namesToJSON (l : list bytes) : res json := jvector jstring l.
Definition namesFromJSON (j : json) : option (list bytes) := fromVector fromString j.
Definition optionsToJSON (l : list optionField) : res json := jvector fieldToJSON l.
Definition optionsFromJSON (j : json) : option (list optionField) := fromVector fieldFromJSON j.

(** ** Values *)

(** nix::Value after forcing, as a tree.  The attributes of a set are in lexicographic order.  A function is what it
    returns when it is called with the empty list, which is the only call made here (Value.cpp:148-153); None: the call
    throws.  [NThrow]: forcing the value throws.  Sharing of a value between two places of the tree is not modelled. *)
Inductive nval :=
| NAttrs (attrs : list (bytes * nval)) | NStr (s : bytes) | NFun (result : option nval) | NOther | NThrow.

(** the exceptions told apart at Value.cpp:125-131 *)
Inductive verr := TypeErr | NotFoundErr | EvalErr.

(** Bindings::get *)
Fixpoint aget {A} (x : bytes) (l : list (bytes * A)) : option A :=
  match l with [] => None | (y, v) :: l' => if bytes_eqb x y then Some v else aget x l' end.

(** Value.cpp:84-99 selectAttr *)
Definition selectAttr (v : nval) (x : bytes) : nval + verr :=
  match v with
  | NThrow => inr EvalErr
  | NAttrs l => match aget x l with Some w => inl w | None => inr NotFoundErr end
  | _ => inr TypeErr
  end.

(** Value.cpp:102-112 selectAttrPath, and Value.h:55-71 *)
Fixpoint selectStrings (v : nval) (p : list bytes) : nval + verr :=
  match p with
  | [] => inl v
  | x :: p' => match selectAttr v x with inl w => selectStrings w p' | inr e => inr e end
  end.

(** Value.cpp:10-21 getField: inr is an exception *)
Definition getField (v : nval) (x : bytes) : option nval + verr :=
  match v with
  | NThrow => inr EvalErr
  | NAttrs l => inl (aget x l)
  | _ => inl None
  end.
(** Value.cpp:23-34 getFieldString *)
Definition getFieldString (v : nval) (x : bytes) : option bytes + verr :=
  match getField v x with
  | inl (Some NThrow) => inr EvalErr
  | inl (Some (NStr s)) => inl (Some s)
  | inl _ => inl None
  | inr e => inr e
  end.
(** Value.cpp:36-39 checkField *)
Definition checkField (v : nval) (x p : bytes) : bool + verr :=
  match getFieldString v x with
  | inl (Some s) => inl (bytes_eqb s p)
  | inl None => inl false
  | inr e => inr e
  end.
(** Value.cpp:46-48 isOption, 117-119 isTypeSubmodule *)
Definition isOption (v : nval) : bool + verr := checkField v (b "_type") (b "option").
Definition isTypeSubmodule (t : nval) : bool + verr := checkField t (b "name") (b "submodule").

(** Value.cpp:121-133 trySelectAttr.  Its parameter S is not used: it always selects "type". *)
Definition trySelectAttr (v : nval) (S : bytes) : option nval + verr :=
  match selectAttr v (b "type") with
  | inl t => inl (Some t)
  | inr EvalErr => inr EvalErr
  | inr _ => inl None
  end.
(** Value.cpp:136-140 tryGetSubmoduleType *)
Definition tryGetSubmoduleType (v : nval) : option nval + verr :=
  match trySelectAttr v (b "type") with
  | inl (Some t) =>
      match isTypeSubmodule t with inl true => inl (Some t) | inl false => inl None | inr e => inr e end
  | inl None => inl None
  | inr e => inr e
  end.
(** Value.cpp:143-155 getSubOptions (a set with __functor is not taken for a function here) *)
Definition getSubOptions (t : nval) : nval + verr :=
  match selectAttr t (b "getSubOptions") with
  | inl (NFun (Some r)) => inl r
  | inl (NFun None) => inr EvalErr
  | inl NThrow => inr EvalErr
  | inl _ => inr TypeErr
  | inr e => inr e
  end.

(** replacing an attribute that is there *)
Fixpoint aset {A} (x : bytes) (w : A) (l : list (bytes * A)) : list (bytes * A) :=
  match l with [] => [] | (y, v) :: l' => if bytes_eqb x y then (y, w) :: l' else (y, v) :: aset x w l' end.
Definition setAttr (v : nval) (x : bytes) (w : nval) : nval :=
  match v with NAttrs l => NAttrs (aset x w l) | _ => v end.

(** Value.cpp:159-194 selectOptions: the result, and the value left at [v] (its first parameter is a reference, assigned
    at line 165; a recursive call at 193 is made on a reference into it, the one at 186 on a copy). *)
Fixpoint selectOptions (v : nval) (p : list bytes) : (nval + verr) * nval :=
  match tryGetSubmoduleType v with
  | inr e => (inr e, v)
  | inl sub =>
      match match sub with Some t => getSubOptions t | None => inl v end with
      | inr e => (inr e, v)
      | inl v =>
          match p with
          | [] => (inl v, v)
          | x :: p' =>
              let descend :=
                match selectAttr v x with
                | inr e => (inr e, v)
                | inl w => let '(r, w') := selectOptions w p' in (r, setAttr v x w')
                end in
              match isOption v with
              | inr e => (inr e, v)
              | inl false => descend
              | inl true =>
                  match selectAttr v (b "type") with
                  | inr e => (inr e, v)
                  | inl t =>
                      match checkField t (b "name") (b "attrsOf") with
                      | inr e => (inr e, v)
                      | inl false => descend
                      | inl true =>
                          match selectAttr t (b "nestedTypes") with
                          | inr e => (inr e, v)
                          | inl n =>
                              match selectAttr n (b "elemType") with
                              | inr e => (inr e, v)
                              | inl el =>
                                  match isTypeSubmodule el with
                                  | inr e => (inr e, v)
                                  | inl false => descend
                                  | inl true =>
                                      match getSubOptions el with
                                      | inr e => (inr e, v)
                                      | inl o => (fst (selectOptions o p'), v)
                                      end
                                  end
                              end
                          end
                      end
                  end
              end
          end
      end
  end.

(** ** Queries *)

(** AttrSetProvider.cpp:19-30 fillString *)
Definition fillString (v : nval) (p : list bytes) : option bytes :=
  match selectStrings v p with inl (NStr s) => Some s | _ => None end.

(** What the modelled queries ask.  Of a reply to an option query only the description text and, in a list, which entries
    are options is modelled (not declarations, types, examples and defaults). *)
Inductive query :=
| AttrPathComplete (scope : list bytes) (prefix : bytes)
| OptionInfo (path : list bytes)
| OptionComplete (scope : list bytes) (prefix : bytes).
Inductive answer :=
| Names (l : list bytes) | Described (d : option bytes) | Fields (l : list (bytes * bool)) | Failed.

Definition MaxItems : nat := 30.

(** AttrSetProvider.cpp:205-227 completeNames: Num counts before the test, so up to MaxItems + 1 names *)
Fixpoint completeNames (attrs : list (bytes * nval)) (prefix : bytes) (num : nat) : list bytes :=
  match attrs with
  | [] => []
  | (x, _) :: l =>
      if starts_with prefix x
      then if Nat.ltb MaxItems (S num) then [x] else x :: completeNames l prefix (S num)
      else completeNames l prefix num
  end.
(** AttrSetProvider.cpp:320-339 onAttrPathComplete *)
Definition onAttrPathComplete (v : nval) (scope : list bytes) (prefix : bytes) : answer :=
  match selectStrings v scope with
  | inl (NAttrs l) => Names (completeNames l prefix 0)
  | _ => Failed
  end.
(** AttrSetProvider.cpp:341-366 onOptionInfo, with 173-175 of fillOptionDescription; a value that is not a set makes
    fillOptionDeclarations (116-117) throw *)
Definition onOptionInfo (v : nval) (p : list bytes) : answer * nval :=
  match p with
  | [] => (Failed, v)
  | _ => match selectOptions v p with
         | (inl (NAttrs l), v') => (Described (fillString (NAttrs l) [b "description"]), v')
         | (_, v') => (Failed, v')
         end
  end.
(** AttrSetProvider.cpp:393-412, the loop; None: isOption throws.  The loop stops when MaxItems entries are there. *)
Fixpoint completeFields (attrs : list (bytes * nval)) (prefix : bytes) (num : nat) : option (list (bytes * bool)) :=
  match attrs with
  | [] => Some []
  | (x, w) :: l =>
      if starts_with prefix x then
        match isOption w with
        | inr _ => None
        | inl o =>
            if Nat.leb MaxItems (S num) then Some [(x, o)]
            else option_map (cons (x, o)) (completeFields l prefix (S num))
        end
      else completeFields l prefix num
  end.
(** AttrSetProvider.cpp:368-422 onOptionComplete *)
Definition onOptionComplete (v : nval) (scope : list bytes) (prefix : bytes) : answer * nval :=
  match selectOptions v scope with
  | (inl o, v') =>
      match o with
      | NAttrs l =>
          (match isOption o with
           | inl false => match completeFields l prefix 0 with Some fs => Fields fs | None => Failed end
           | _ => Failed
           end, v')
      | _ => (Failed, v')
      end
  | (inr _, v') => (Failed, v')
  end.

(** One query: its answer, and the value (AttrSetProvider::Nixpkgs) afterwards *)
Definition ask (q : query) (v : nval) : answer * nval :=
  match q with
  | AttrPathComplete s p => (onAttrPathComplete v s p, v)
  | OptionInfo p => onOptionInfo v p
  | OptionComplete s p => onOptionComplete v s p
  end.
Definition asked (qs : list query) (v : nval) : nval := fold_left (fun v q => snd (ask q v)) qs v.
