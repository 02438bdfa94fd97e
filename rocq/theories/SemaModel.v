(** Model of the semantic actions: libnixf/src/Sema/SemaActions.cpp.
    A [SemaAttrs] object is a pair (Static, Dynamic); the C++ code changes it in place, the model returns the
    changed one.  An attribute set that is merged into keeps its identity. *)
From Verif Require Import Base Diag LexModel AstModel PSupModel.

Definition smap := list (bytes * attribute).
Record sema := SA { sa_static : smap; sa_dynamic : list attribute }.
Definition sa_empty : sema := SA [] [].

(** std::map<std::string, Attribute>::find *)
Fixpoint sfind (k : bytes) (m : smap) : option attribute :=
  match m with
  | [] => None
  | (k', v) :: m' => if bytes_eqb k k' then Some v else sfind k m'
  end.
(** std::map::insert of a key that is absent, keeping the order of the keys; for a present key the value is
    replaced (used only for the in-place change of a nested set) *)
Fixpoint sinsert (k : bytes) (v : attribute) (m : smap) : smap :=
  match m with
  | [] => [(k, v)]
  | (k', v') :: m' =>
      if bytes_eqb k k' then (k, v) :: m'
      else if bytes_ltb k k' then (k, v) :: m
      else (k', v') :: sinsert k v m'
  end.

(** the set an expression node denotes, when it is an attribute set: &static_cast<ExprAttrs *>(E)->SA *)
Definition attrs_sema (n : node) : option sema :=
  match n with
  | NAttrs _ _ _ _ st dy => Some (SA st dy)
  | _ => None
  end.
(** the same node after its SA has been changed in place *)
Definition with_sema (n : node) (a : sema) : node :=
  match n with
  | NAttrs i r bd rc _ _ => NAttrs i r bd rc (sa_static a) (sa_dynamic a)
  | _ => n
  end.
Definition attrs_rec (n : node) : option node :=
  match n with NAttrs _ _ _ rc _ _ => rc | _ => None end.
Definition is_some {A} (o : option A) : bool := match o with Some _ => true | None => false end.

(** Attrs.h:223-225 fromInherit *)
Definition fromInherit (a : attribute) : bool :=
  match a_kind a with AK_Plain => false | _ => true end.

(** SemaActions.cpp:15-20 dupAttr *)
Definition dupAttr (name : bytes) (r prev : range) : P unit :=
  emit (d_note (Note_ NK_PrevDeclared prev []) (d_arg name (diag0 DK_DuplicatedAttrName r))).

Definition non_ (rc : bool) : bytes := if rc then [] else b "non-".
(** SemaActions.cpp:22-40 checkAttrRecursiveForMerge *)
Definition checkAttrRecursiveForMerge (x y : node) : P unit :=
  let xr := is_some (attrs_rec x) in
  let yr := is_some (attrs_rec y) in
  if Bool.eqb xr yr then ret tt else
  match (if xr then attrs_rec x else attrs_rec y) with
  | None => crash "null rec"
  | Some p =>
      let rng n rc := match rc with Some m => nrange m | None => nrange n end in
      emit (d_note (Note_ NK_RecConsider (rng y (attrs_rec y)) [non_ yr; non_ xr])
           (d_note (Note_ NK_ThisRecursive (rng x (attrs_rec x)) [non_ xr])
                   (diag0 DK_MergeDiffRec (nrange p))))
  end.

(** SemaActions.cpp:43-61, the loop over YAttrs.Static *)
Fixpoint mergeStatic (x : smap) (y : smap) : P smap :=
  match y with
  | [] => ret x
  | (k, v) :: y' =>
      match sfind k x with
      | Some xv => do! dupAttr k (nrange (a_key v)) (nrange (a_key xv)) in mergeStatic x y'
      | None => mergeStatic (sinsert k v x) y'
      end
  end.
(** SemaActions.cpp:42-65 mergeAttrSets *)
Definition mergeAttrSets (x y : sema) : P sema :=
  let! st := mergeStatic (sa_static x) (sa_static y) in
  ret (SA st (sa_dynamic x ++ sa_dynamic y)).

(** SemaActions.cpp:67-101 insertAttr *)
Definition insertAttr (sa : sema) (name : node) (e : option node) (k : akind) : P sema :=
  match staticName name with
  | None =>
      match e with
      | Some v => ret (SA (sa_static sa) (sa_dynamic sa ++ [(k, name, v)]))
      | None => ret sa
      end
  | Some sn =>
      match sfind sn (sa_static sa) with
      | Some v =>
          match attrs_sema (a_value v), e with
          | Some xs, Some en =>
              match attrs_sema en with
              | Some ys =>
                  do! checkAttrRecursiveForMerge (a_value v) en in
                  let! m := mergeAttrSets xs ys in
                  ret (SA (sinsert sn (a_kind v, a_key v, with_sema (a_value v) m) (sa_static sa)) (sa_dynamic sa))
              | None => do! dupAttr sn (nrange name) (nrange (a_key v)) in ret sa
              end
          | _, _ => do! dupAttr sn (nrange name) (nrange (a_key v)) in ret sa
          end
      | None =>
          match e with
          | Some v => ret (SA (sinsert sn (k, name, v) (sa_static sa)) (sa_dynamic sa))
          | None => ret sa
          end
      end
  end.

(** SemaActions.cpp:134-135, 144-145: the implicitly created nested set *)
Definition mkNested (name : node) (inner : sema) : P node :=
  let! i := fresh in ret (NAttrs i (nrange name) None None (sa_static inner) (sa_dynamic inner)).

(** SemaActions.cpp:103-168 selectOrCreate followed by addAttr: the C++ loop walks down to the innermost set and
    then inserts there; the model does the same recursively and rebuilds the sets on the way. *)
Fixpoint addAttr (sa : sema) (path : list node) (e : option node) : P sema :=
  match path with
  | [] => crash "AttrPath has at least 1 name"
  | [name] => insertAttr sa name e AK_Plain
  | name :: path' =>
      match staticName name with
      | Some sn =>
          match sfind sn (sa_static sa) with
          | Some v =>
              match fromInherit v, attrs_sema (a_value v) with
              | false, Some inner =>
                  let! inner' := addAttr inner path' e in
                  ret (SA (sinsert sn (a_kind v, a_key v, with_sema (a_value v) inner') (sa_static sa))
                          (sa_dynamic sa))
              | _, _ => do! dupAttr sn (nrange name) (nrange (a_key v)) in ret sa
              end
          | None =>
              let! inner' := addAttr sa_empty path' e in
              let! n := mkNested name inner' in
              ret (SA (sinsert sn (AK_Plain, name, n) (sa_static sa)) (sa_dynamic sa))
          end
      | None =>
          let! inner' := addAttr sa_empty path' e in
          let! n := mkNested name inner' in
          ret (SA (sa_static sa) (sa_dynamic sa ++ [(AK_Plain, name, n)]))
      end
  end.

(** SemaActions.cpp:336-350 desugarInheritExpr; Name->id() asserts that the name is an identifier (Attrs.h:64-67) *)
Definition desugarInheritExpr (name : node) (e : option node) : P (node * akind) :=
  match e with
  | None =>
      match name with
      | NAttrName _ r (NIdent i ir x) => let! v := fresh in ret (NVar v r (NIdent i ir x), AK_Inherit)
      | _ => crash "AttrName::id: not an identifier"
      end
  | Some ex =>
      let! p := fresh in
      let! i := fresh in
      ret (NSelect i (nrange name) ex None (Some (NAttrPath p (nrange name) [name] [])) None (Some (nid ex)),
           AK_InheritFrom)
  end.

(** SemaActions.cpp:282-306 lowerInheritName *)
Definition lowerInheritName (sa : sema) (name : node) (v : node) (k : akind) : P sema :=
  match staticName name with
  | None =>
      let! f := fix1 (b "remove dynamic attrname") (mkRemoval (nrange name)) in
      do! emit (d_tag Striked (d_fix f (diag0 DK_DynamicInherit (nrange name)))) in
      ret sa
  | Some sn =>
      match sfind sn (sa_static sa) with
      | Some prev => do! dupAttr sn (nrange name) (nrange (a_key prev)) in ret sa
      | None => ret (SA (sinsert sn (k, name, v) (sa_static sa)) (sa_dynamic sa))
      end
  end.

(** SemaActions.cpp:308-314 lowerInherit *)
Fixpoint lowerInherit (sa : sema) (names : list node) (e : option node) : P sema :=
  match names with
  | [] => ret sa
  | n :: names' =>
      let! (v, k) := desugarInheritExpr n e in
      let! sa' := lowerInheritName sa n v k in
      lowerInherit sa' names' e
  end.

Definition path_names (n : node) : list node :=
  match n with NAttrPath _ _ names _ => names | _ => [] end.

(** SemaActions.cpp:316-334 lowerBinds *)
Fixpoint lowerBinds (sa : sema) (bs : list node) : P sema :=
  match bs with
  | [] => ret sa
  | NInherit _ _ names e :: bs' => let! sa' := lowerInherit sa names e in lowerBinds sa' bs'
  | NBinding _ _ p v _ :: bs' => let! sa' := addAttr sa (path_names p) v in lowerBinds sa' bs'
  | _ :: _ => crash "Bind should be either Inherit or Binding"
  end.

Definition binds_list (o : option node) : list node :=
  match o with Some (NBinds _ _ bs) => bs | _ => [] end.

(** SemaActions.cpp:352-360 onExprAttrs *)
Definition onExprAttrs (r : range) (binds rc : option node) : P node :=
  let! sa := lowerBinds sa_empty (binds_list binds) in
  let! i := fresh in
  ret (NAttrs i r binds rc (sa_static sa) (sa_dynamic sa)).

(** Formal accessors, Lambda.h:30-41 *)
Definition f_comma (n : node) : option node := match n with NFormal _ _ c _ _ _ => c | _ => None end.
Definition f_id (n : node) : option node := match n with NFormal _ _ _ i _ _ => i | _ => None end.
Definition f_ell (n : node) : option node := match n with NFormal _ _ _ _ _ e => e | _ => None end.
Definition ident_name (n : node) : bytes := match n with NIdent _ _ x => x | _ => [] end.

Section WithSource.
Variable src : bytes.

(** SemaActions.cpp:215-227 checkFormalSep ([first]: It == FV.begin()) *)
Fixpoint checkFormalSep (first : bool) (fv : list node) : P unit :=
  match fv with
  | [] => ret tt
  | f :: fv' =>
      do! (if negb first && negb (is_some (f_comma f)) then
             let! x := fix1 (b "insert ,") (mkInsertion (nl f) (b ",")) in
             emit (d_fix x (diag0 DK_FormalMissingComma (nrange f)))
           else ret tt) in
      checkFormalSep false fv'
  end.

(** SemaActions.cpp:170-182 removeFormal: the edits that remove [f], which is followed by [after] *)
Definition removeFormal (first : bool) (f : node) (after : list node) : P (list tedit) :=
  let! e := lift (mkRemoval (nrange f)) in
  match first, after with
  | true, f2 :: _ =>
      match f_comma f2 with
      | Some c => let! e2 := lift (mkRemoval (nrange c)) in ret [e; e2]
      | None => ret [e]
      end
  | _, _ => ret [e]
  end.

(** SemaActions.cpp:184-213 checkFormalEllipsis ([lastF]: the last formal) *)
Fixpoint checkFormalEllipsis_f (first : bool) (lastF : node) (fv : list node) : P unit :=
  match fv with
  | [] => ret tt
  | [_] => ret tt
  | f :: fv' =>
      do! (if is_some (f_ell f) then
             if is_some (f_ell lastF) then
               let! es := removeFormal first f fv' in
               emit (d_fix (Fix_ (b "remove `...`") es) (diag0 DK_FormalExtraEllipsis (nrange f)))
             else
               let! es := removeFormal first f fv' in
               let! text := lift (nsrc src f) in
               let text' := if is_some (f_comma f) then text else b ", " ++ text in
               let! e := lift (mkInsertion (nr lastF) text') in
               emit (d_fix (Fix_ (b "move ellipsis to the tail") (es ++ [e]))
                           (diag0 DK_FormalMisplacedEllipsis (nrange f)))
           else ret tt) in
      checkFormalEllipsis_f false lastF fv'
  end.
Definition checkFormalEllipsis (fv : list node) : P unit :=
  match fv with
  | [] => ret tt
  | f :: _ => checkFormalEllipsis_f true (last fv f) fv
  end.

(** SemaActions.cpp:229-249 checkFormalEmpty *)
Fixpoint checkFormalEmpty (fv : list node) : P unit :=
  match fv with
  | [] => ret tt
  | [_] => ret tt
  | f :: fv' =>
      do! (if is_some (f_comma f) && negb (is_some (f_id f)) && negb (is_some (f_ell f)) then
             let! x := fix1 (b "remove empty formal") (mkRemoval (nrange f)) in
             emit (d_tag Faded (d_fix x (diag0 DK_EmptyFormal (nrange f))))
           else ret tt) in
      checkFormalEmpty fv'
  end.

(** SemaActions.cpp:251-270 dedupFormal.  The map of the model also keeps the member itself while it is built. *)
Fixpoint dfind {A} (k : bytes) (m : list (bytes * A)) : option A :=
  match m with
  | [] => None
  | (k', v) :: m' => if bytes_eqb k k' then Some v else dfind k m'
  end.
Fixpoint dinsert {A} (k : bytes) (v : A) (m : list (bytes * A)) : list (bytes * A) :=
  match m with
  | [] => [(k, v)]
  | (k', v') :: m' =>
      if bytes_eqb k k' then (k, v) :: m'
      else if bytes_ltb k k' then (k, v) :: m
      else (k', v') :: dinsert k v m'
  end.
Fixpoint dedupFormal (d : list (bytes * node)) (fv : list node) : P (list (bytes * node)) :=
  match fv with
  | [] => ret d
  | f :: fv' =>
      match f_id f with
      | None => dedupFormal d fv'
      | Some i =>
          match dfind (ident_name i) d with
          | Some dup =>
              match f_id dup with
              | None => crash "null identifier"
              | Some di =>
                  do! emit (d_note (Note_ NK_DuplicateFormal (nrange di) []) (diag0 DK_DuplicatedFormal (nrange i))) in
                  dedupFormal d fv'
              end
          | None => dedupFormal (dinsert (ident_name i) f d) fv'
          end
      end
  end.

(** SemaActions.cpp:272-280 onFormals *)
Definition onFormals (r : range) (fv : list node) : P node :=
  do! checkFormalSep true fv in
  do! checkFormalEllipsis fv in
  do! checkFormalEmpty fv in
  let! d := dedupFormal [] fv in
  let! i := fresh in
  ret (NFormals i r fv (map (fun kv => (fst kv, nid (snd kv))) d)).

(** F->dedup().at(name): the member of that identity *)
Definition dedup_at (f : node) (name : bytes) : option node :=
  match f with
  | NFormals _ _ ms d =>
      match dfind name d with
      | Some i => find (fun m => Nat.eqb (nid m) i) ms
      | None => None
      end
  | _ => None
  end.

(** SemaActions.cpp:362-376 onLambdaArg *)
Definition onLambdaArg (r : range) (ident formals : option node) : P node :=
  do! (match ident, formals with
       | Some i, Some f =>
           match dedup_at f (ident_name i) with
           | Some dup =>
               emit (d_note (Note_ NK_DuplicateFormal (nrange dup) []) (diag0 DK_DuplicatedFormalToArg (nrange i)))
           | None => ret tt
           end
       | _, _ => ret tt
       end) in
  let! i := fresh in
  ret (NLambdaArg i r ident formals).

End WithSource.
