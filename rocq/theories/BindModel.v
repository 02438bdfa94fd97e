(** Model of nixd/lib/Controller/CodeActions/{ConvertToInherit,InheritToBinding,FlattenAttrs,PackAttrs}.cpp.
    An action is modelled by the edit it carries (title and kind are constants); the conversion of its range to LSP
    positions is the one of TextModel. *)
From Verif Require Import Base Diag LexModel AstModel SemaModel ActModel NavModel.

(** llvm::StringRef::slice and substr: the ends are clamped to the text *)
Definition ref_slice (src : bytes) (a z : nat) : bytes := firstn (z - a) (skipn a src).

(** Attrs.h:90-113 AttrPath::names *)
Definition path_names (p : node) : list node := match p with NAttrPath _ _ ns _ => ns | _ => [] end.

(** ** ConvertToInherit.cpp *)
(** ConvertToInherit.cpp:83-90: the segments before the last one, appended to the source text *)
Fixpoint sourceText (t : bytes) (segs : list node) : option bytes :=
  match segs with
  | [] => Some t
  | s :: segs' =>
      match staticName s with
      | Some x => sourceText (t ++ b "." ++ quoteNixAttrKey x) segs'
      | None => None
      end
  end.
(** ConvertToInherit.cpp:15-103, at the level of the enclosing binding *)
Definition toInherit (src : bytes) (bind : node) : option tedit :=
  match bind with
  | NBinding _ r p (Some v) _ =>
      match path_names p with
      | [nm] =>
          match staticName nm with
          | Some x =>
              match v with
              | NVar _ _ (NIdent _ _ y) =>
                  if bytes_eqb y x then Some (TEdit r (b "inherit " ++ quoteNixAttrKey x ++ b ";")) else None
              | NSelect _ _ e _ (Some q) None _ =>
                  match rev (path_names q) with
                  | lastseg :: before =>
                      match staticName lastseg with
                      | Some y =>
                          if bytes_eqb y x then
                            match sourceText (ref_slice src (off (nl e)) (off (nr e))) (rev before) with
                            | Some t => Some (TEdit r (b "inherit (" ++ t ++ b ") " ++ quoteNixAttrKey x ++ b ";"))
                            | None => None
                            end
                          else None
                      | None => None
                      end
                  | [] => None
                  end
              | _ => None
              end
          | None => None
          end
      | _ => None
      end
  | _ => None
  end.

(** ** InheritToBinding.cpp *)
(** InheritToBinding.cpp:15-66, at the level of the enclosing inherit clause *)
Definition toBinding (src : bytes) (inh : node) : res (option tedit) :=
  match inh with
  | NInherit _ r [nm] e =>
      match staticName nm with
      | Some x =>
          let* v := match e with
                    | Some e => let* t := nsrc src e in Ok (t ++ b "." ++ x)
                    | None => Ok x
                    end in
          Ok (Some (TEdit r (x ++ b " = " ++ v ++ b ";")))
      | None => Ok None
      end
  | _ => Ok None
  end.

(** ** FlattenAttrs.cpp *)
(** FlattenAttrs.cpp:17-42 getFlattenableBinds *)
Definition flattenable (attrs : node) : option (list node) :=
  match attrs with
  | NAttrs _ _ (Some (NBinds _ _ bs)) None _ _ =>
      match bs with
      | [] => None
      | _ =>
          if forallb (fun c => match c with NBinding _ _ p _ _ => forallb isStatic (path_names p) | _ => false end) bs
          then Some bs else None
      end
  | _ => None
  end.
(** the source text of an optional value: FlattenAttrs.cpp:96-98, PackAttrs.cpp:131, 145, 251 *)
Definition value_src (src : bytes) (v : option node) : res bytes :=
  match v with Some e => nsrc src e | None => Ok [] end.
(** FlattenAttrs.cpp:85-103, the loop *)
Fixpoint flattenText (src outer : bytes) (bs : list node) : res bytes :=
  match bs with
  | [] => Ok []
  | NBinding _ _ p v _ :: bs' =>
      let* inner := nsrc src p in
      let* vt := value_src src v in
      let* rest := flattenText src outer bs' in
      Ok (outer ++ b "." ++ inner ++ b " = " ++ vt ++ b ";" ++ match bs' with [] => [] | _ => b " " end ++ rest)
  | _ :: _ => Crash "static_cast to Binding"
  end.
(** FlattenAttrs.cpp:46-109, at the level of the enclosing binding *)
Definition flattenAttrs (src : bytes) (bind : node) : res (option tedit) :=
  match bind with
  | NBinding _ r p (Some v) _ =>
      match flattenable v with
      | Some bs =>
          if forallb isStatic (path_names p) then
            let* outer := nsrc src p in
            let* t := flattenText src outer bs in
            Ok (Some (TEdit r t))
          else Ok None
      | None => Ok None
      end
  | _ => Ok None
  end.

(** ** PackAttrs.cpp *)
(** PackAttrs.cpp:19 *)
Definition MaxNestedDepth : nat := 100.
(** the nested set of the first segment: PackAttrs.cpp:33-44, 271-280 *)
Definition nested_sema (first : bytes) (attrs : node) : option sema :=
  match attrs_sema attrs with
  | Some sa => match sfind first (sa_static sa) with Some a => attrs_sema (a_value a) | None => None end
  | None => None
  end.
(** PackAttrs.cpp:24-51 getSiblingCount *)
Definition getSiblingCount (bind attrs : node) : nat :=
  match bind with
  | NBinding _ _ p _ _ =>
      match path_names p with
      | nm :: _ =>
          match staticName nm with
          | Some first =>
              match nested_sema first attrs with
              | Some sa => match sa_dynamic sa with [] => List.length (sa_static sa) | _ => 0 end
              | None => 0
              end
          | None => 0
          end
      | [] => 0
      end
  | _ => 0
  end.
(** PackAttrs.cpp:56-95 generateNestedText; [left] is the depth that is left: MaxNestedDepth + 1 - Depth *)
Fixpoint nestedText (left : nat) (src : bytes) (sa : sema) : res bytes :=
  match left with
  | 0 => Ok (b "{ /* max depth exceeded */ }")
  | S left' =>
      let entry (kv : bytes * attribute) : res bytes :=
        let (k, a) := kv in
        let* v := match attrs_sema (a_value a) with
                  | Some sa' =>
                      match sa_dynamic sa' with
                      | [] => if fromInherit a then nsrc src (a_value a) else nestedText left' src sa'
                      | _ => nsrc src (a_value a)
                      end
                  | None => nsrc src (a_value a)
                  end in
        Ok (quoteNixAttrKey k ++ b " = " ++ v ++ b ";") in
      let entries := fix entries (l : smap) : res bytes :=
        match l with
        | [] => Ok []
        | kv :: l' =>
            let* t := entry kv in
            let* rest := entries l' in
            Ok (t ++ match l' with [] => [] | _ => b " " end ++ rest)
        end in
      let* t := entries (sa_static sa) in
      Ok (b "{ " ++ t ++ b " }")
  end.
(** PackAttrs.cpp:110-120, 163-174: the bindings whose first segment is [first] *)
Definition is_sibling (first : bytes) (c : node) : bool :=
  match c with
  | NBinding _ _ p _ _ =>
      match path_names p with
      | nm :: _ => match staticName nm with Some x => bytes_eqb x first | None => false end
      | [] => false
      end
  | _ => false
  end.
(** PackAttrs.cpp:126-150, 245-253: the text of a binding without its first segment; the path is cut from the second
    name to the end of the path *)
Definition rest_text (src : bytes) (second p : node) (v : option node) : res bytes :=
  let* vt := value_src src v in
  Ok (ref_slice src (off (nl second)) (off (nr p)) ++ b " = " ++ vt).
Definition shallow_entry (src : bytes) (c : node) : res bytes :=
  match c with
  | NBinding _ _ p v _ =>
      match path_names p with
      | [nm] => let* vt := value_src src v in
                Ok (match staticName nm with Some x => quoteNixAttrKey x | None => [] end ++ b " = " ++ vt ++ b ";")
      | _ :: nm2 :: _ =>
          if Nat.leb (off (nl nm2)) (off (nr p)) then let* t := rest_text src nm2 p v in Ok (t ++ b ";")
          else Ok (b ";")
      | [] => Ok []
      end
  | _ => Ok []
  end.
(** PackAttrs.cpp:104-153 generateShallowNestedText *)
Fixpoint shallow_entries (src : bytes) (l : list node) : res bytes :=
  match l with
  | [] => Ok []
  | c :: l' =>
      let* t := shallow_entry src c in
      let* rest := shallow_entries src l' in
      Ok (t ++ match l' with [] => [] | _ => b " " end ++ rest)
  end.
Definition shallowText (src first : bytes) (bs : list node) : res bytes :=
  let* t := shallow_entries src (filter (is_sibling first) bs) in Ok (b "{ " ++ t ++ b " }").
(** PackAttrs.cpp:157-183 findSiblingBindingsRange *)
Definition siblingsRange (bind : node) (first : bytes) (bs : list node) : range :=
  fold_left (fun r c =>
      mkRange (if Nat.ltb (off (nl c)) (off (lcur r)) then nl c else lcur r)
              (if Nat.ltb (off (rcur r)) (off (nr c)) then nr c else rcur r))
    (filter (is_sibling first) bs) (nrange bind).
(** PackAttrs.cpp:228-256 GeneratePackOneText *)
Definition packOneText (src : bytes) (nm1 nm2 p : node) (v : option node) : res bytes :=
  let* first := nsrc src nm1 in
  if Nat.ltb (off (nr p)) (off (nl nm2)) then Ok [] else
  let* t := rest_text src nm2 p v in
  Ok (first ++ b " = { " ++ t ++ b "; };").

(** PackAttrs.cpp:187-321: the edits of the actions offered, at the level of the enclosing binding, the node holding
    it and the attribute set around; in the order pack one, shallow, recursive *)
Definition packAttrs (src : bytes) (bind binds attrs : node) : res (list tedit) :=
  match bind, binds, attrs with
  | NBinding _ r p v _, NBinds _ _ bs, NAttrs _ _ _ None _ _ =>
      match path_names p with
      | nm1 :: nm2 :: _ =>
          if negb (forallb isStatic (path_names p)) then Ok [] else
          match staticName nm1 with
          | None => Ok []
          | Some first =>
              match getSiblingCount bind attrs with
              | 0 => Ok []
              | n =>
                  let* one := packOneText src nm1 nm2 p v in
                  let e1 := match one with [] => [] | _ => [TEdit r one] end in
                  if Nat.eqb n 1 then Ok e1 else
                  match nested_sema first attrs with
                  | None => Ok []
                  | Some sa =>
                      let* sh := shallowText src first bs in
                      let* nt := nestedText (S MaxNestedDepth) src sa in
                      let rg := siblingsRange bind first bs in
                      Ok (e1 ++ [TEdit rg (quoteNixAttrKey first ++ b " = " ++ sh ++ b ";");
                                 TEdit rg (quoteNixAttrKey first ++ b " = " ++ nt ++ b ";")])
                  end
              end
          end
      | _ => Ok []
      end
  | _, _, _ => Ok []
  end.

(** ** From the node under the cursor *)
Section Cursor.
Variables (src : bytes) (pm : pmap).
(** ConvertToInherit.cpp:20-22 *)
Definition convertToInheritAt (n : node) : res (option tedit) :=
  let* up := upTo pm n NK_Binding in Ok (match up with Some bd => toInherit src bd | None => None end).
(** InheritToBinding.cpp:20-22 *)
Definition inheritToBindingAt (n : node) : res (option tedit) :=
  let* up := upTo pm n NK_Inherit in match up with Some bd => toBinding src bd | None => Ok None end.
(** FlattenAttrs.cpp:51-53 *)
Definition flattenAttrsAt (n : node) : res (option tedit) :=
  let* up := upTo pm n NK_Binding in match up with Some bd => flattenAttrs src bd | None => Ok None end.
(** PackAttrs.cpp:191-219: the parent of the binding, and its parent *)
Definition packAttrsAt (n : node) : res (list tedit) :=
  let* up := upTo pm n NK_Binding in
  match up with
  | Some bd =>
      match pquery pm bd with
      | Some bs => match pquery pm bs with Some a => packAttrs src bd bs a | None => Ok [] end
      | None => Ok []
      end
  | None => Ok []
  end.
End Cursor.
(** PackAttrs.cpp:187-321: [e] is the edit of one of the actions offered at the binding [m] of a document that is an
    attribute set *)
Definition packs (src : bytes) (root m : node) (e : tedit) : Prop :=
  exists i r bi br bs st dy edits, root = NAttrs i r (Some (NBinds bi br bs)) None st dy /\ In m bs /\
    packAttrs src m (NBinds bi br bs) root = Ok edits /\ In e edits.
