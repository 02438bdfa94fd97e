(** Attribute sets: what a list of bindings declares, stated over the syntax of the bindings alone. *)
From Coq Require Export Sorted.
From Verif Require Import Base Diag LexModel AstModel.

(** the attributes of a set literal, by name *)
Definition table := list (bytes * attribute).
Definition set_of (v : node) : option table := match v with NAttrs _ _ _ _ st _ => Some st | _ => None end.
(** what an attribute is: a set, another expression, a variable looked up around the set (`inherit x;`), or a selection
    (`inherit (e) x;`, with the name as written); or nothing (`a = ;`) *)
Inductive what := ASet | AValue (v : node) | AVar (x : bytes) | ASelect (e name : node) | AMissing.
Definition what_of (a : attribute) : what :=
  match a_kind a, a_value a with
  | AK_Plain, NAttrs _ _ _ _ _ _ => ASet
  | AK_Inherit, NVar _ _ (NIdent _ _ x) => AVar x
  | AK_InheritFrom, NSelect _ _ e _ (Some (NAttrPath _ _ [name] _)) None _ => ASelect e name
  | _, v => AValue v
  end.

(** [attr_at st p key k]: following the names [p] from the set [st], one attribute after the other, ends at an attribute
    written with the name node [key], with the value [k] *)
Inductive attr_at : table -> list bytes -> node -> what -> Prop :=
| at_here st x a : In (x, a) st -> attr_at st [x] (a_key a) (what_of a)
| at_inside st x a st' p key k :
    In (x, a) st -> set_of (a_value a) = Some st' -> attr_at st' p key k -> attr_at st (x :: p) key k.

(** the single declarations of a binding list, in document order; `inherit (e) a b;` declares [a] and [b] *)
Inductive item :=
| Bound (names : list node) (v : option node)
| Inherited (name : node) (from : option node).
Definition items_of (q : node) : list item :=
  match q with
  | NBinding _ _ (NAttrPath _ _ names _) v _ => [Bound names v]
  | NInherit _ _ names e => map (fun n => Inherited n e) names
  | _ => []
  end.
Definition items (bs : list node) : list item := flat_map items_of bs.

(** [path_declares names v p key k]: the binding [names = v] declares an attribute of the path [p]: [names] up to a
    proper prefix (a set), [names] itself, or [names] followed by a path in the set literal [v] *)
Inductive path_declares : list node -> option node -> list bytes -> node -> what -> Prop :=
| pd_last nm x v : staticName nm = Some x -> path_declares [nm] (Some v) [x] nm (what_of (AK_Plain, nm, v))
| pd_missing nm x : staticName nm = Some x -> path_declares [nm] None [x] nm AMissing
| pd_inside nm x v st p key k :
    staticName nm = Some x -> set_of v = Some st -> attr_at st p key k -> path_declares [nm] (Some v) (x :: p) key k
| pd_prefix nm x n2 more v : staticName nm = Some x -> path_declares (nm :: n2 :: more) v [x] nm ASet
| pd_more nm x n2 more v p key k :
    staticName nm = Some x -> path_declares (n2 :: more) v p key k ->
    path_declares (nm :: n2 :: more) v (x :: p) key k.

Definition declares_attr (it : item) (p : list bytes) (key : node) (k : what) : Prop :=
  match it with
  | Bound names v => path_declares names v p key k
  | Inherited nm from =>
      exists x, staticName nm = Some x /\ p = [x] /\ key = nm /\
        k = match from with None => AVar x | Some e => ASelect e nm end
  end.
(** the number of names written before the value *)
Definition width (it : item) : nat := match it with Bound names _ => List.length names | Inherited _ _ => 1 end.
(** a later declaration [it] of a path clashes with an earlier one unless both are sets; the sets inside its literal are
    not merged further *)
Definition clashes (it : item) (p : list bytes) (earlier later : what) : Prop :=
  width it < List.length p \/ earlier <> ASet \/ later <> ASet.

(** names are in increasing order (so each occurs once) in a set and in the sets inside it, and inherited attributes are
    not sets *)
Definition increasing (xs : list bytes) : Prop := StronglySorted (fun x y => bytes_ltb x y = true) xs.
Inductive tidy : table -> Prop :=
| tidy_intro st :
    increasing (map fst st) ->
    (forall x a, In (x, a) st -> a_kind a <> AK_Plain -> set_of (a_value a) = None) ->
    (forall x a st', In (x, a) st -> set_of (a_value a) = Some st' -> tidy st') -> tidy st.
(** the report for a duplicate *)
Definition duplicate (x : bytes) (at_ prev : node) : diag :=
  d_note (Note_ NK_PrevDeclared (nrange prev) []) (d_arg x (diag0 DK_DuplicatedAttrName (nrange at_))).

(** the bindings of a set; the sets written as values in them *)
Definition bindings (o : option node) : list node := match o with Some (NBinds _ _ bs) => bs | _ => [] end.
Definition literals_tidy (bs : list node) : Prop :=
  forall names v st, In (Bound names (Some v)) (items bs) -> set_of v = Some st -> tidy st.

(** ** dynamic names *)
(** [${e} = v] and [${e}.a.b = v]: the name node, and the value or the rest of the path with the value *)
Definition own_dynamic (it : item) : list (node * (node + list node * option node)) :=
  match it with
  | Bound (nm :: rest) v =>
      match staticName nm, rest, v with
      | Some _, _, _ => []
      | None, [], Some w => [(nm, inl w)]
      | None, [], None => []
      | None, _ :: _, _ => [(nm, inr (rest, v))]
      end
  | _ => []
  end.
Definition dynamic_of (n : node) : list attribute := match n with NAttrs _ _ _ _ _ dy => dy | _ => [] end.
(** the attribute made for such a declaration: its value, or a set that holds what the rest of the path declares *)
Definition stands_for (d : node * (node + list node * option node)) (a : attribute) : Prop :=
  a_kind a = AK_Plain /\ a_key a = fst d /\
  match snd d with
  | inl w => a_value a = w
  | inr (rest, v) => exists st, set_of (a_value a) = Some st /\
      (forall p key k, attr_at st p key k -> path_declares rest v p key k) /\
      (forall p key k, path_declares rest v p key k -> k <> AMissing ->
         exists key', attr_at st p key' k /\ (k <> ASet -> key' = key))
  end.
(** [dyn_at n p key w]: following the names [p] from the set [n] one comes to a set with the dynamic attribute [key = w] *)
Inductive dyn_at : node -> list bytes -> node -> node -> Prop :=
| dyn_here n key w : In (AK_Plain, key, w) (dynamic_of n) -> dyn_at n [] key w
| dyn_inside n st x a p key w : set_of n = Some st -> In (x, a) st -> dyn_at (a_value a) p key w -> dyn_at n (x :: p) key w.
(** the dynamic attributes that the binding [names = v] declares under static names *)
Inductive path_dyn : list node -> node -> list bytes -> node -> node -> Prop :=
| yd_last nm v : staticName nm = None -> path_dyn [nm] v [] nm v
| yd_inside nm x v p key w : staticName nm = Some x -> dyn_at v p key w -> path_dyn [nm] v (x :: p) key w
| yd_more nm x n2 more v p key w :
    staticName nm = Some x -> path_dyn (n2 :: more) v p key w -> path_dyn (nm :: n2 :: more) v (x :: p) key w.

(** ** formals *)
Definition comma_of (f : node) : option node := match f with NFormal _ _ c _ _ _ => c | _ => None end.
Definition ident_of (f : node) : option node := match f with NFormal _ _ _ i _ _ => i | _ => None end.
Definition dots_of (f : node) : option node := match f with NFormal _ _ _ _ _ e => e | _ => None end.
Definition text_of (i : node) : bytes := match i with NIdent _ _ x => x | _ => [] end.
Definition named (x : bytes) (f : node) : bool :=
  match ident_of f with Some i => bytes_eqb x (text_of i) | None => false end.

(** a formal with the ones before it and the ones after it *)
Fixpoint places (pre fv : list node) : list (list node * node * list node) :=
  match fv with [] => [] | f :: post => (pre, f, post) :: places (pre ++ [f]) post end.
(** what a report says: its kind, where it is, where its notes point, and the edits of each fix it offers *)
Definition report := (dkind * range * list range * list (list tedit))%type.
Definition brief (d : diag) : report := (d_kind d, d_range d, map n_range (d_notes d), map f_edits (d_fixes d)).
Definition insert (c : cursor) (t : bytes) : tedit := TEdit (point c) t.
Definition remove (n : node) : tedit := TEdit (nrange n) [].
(** the edits that take the formal [f] out: a formal begins with its comma, so that of the next one goes with the first *)
Definition take_out (pre : list node) (f : node) (post : list node) : list tedit :=
  remove f :: match pre, post with
              | [], f2 :: _ => match comma_of f2 with Some c => [remove c] | None => [] end
              | _, _ => []
              end.
(** the text of a node *)
Definition written (src : bytes) (n : node) : bytes := firstn (off (nr n) - off (nl n)) (skipn (off (nl n)) src).
Definition forward (fv : list node) : Prop := Forall (fun f => off (nl f) <= off (nr f)) fv.

(** the misuses of a list of formals, in document order *)
Definition no_comma (fv : list node) : list report :=
  flat_map (fun '(pre, f, post) =>
    match pre, comma_of f with
    | _ :: _, None => [(DK_FormalMissingComma, nrange f, [], [[insert (nl f) (b ",")]])]
    | _, _ => []
    end) (places [] fv).
Definition early_ellipsis (src : bytes) (fv : list node) : list report :=
  flat_map (fun '(pre, f, post) =>
    match dots_of f, post with
    | Some _, f2 :: _ =>
        let l := last post f2 in
        [match dots_of l with
         | Some _ => (DK_FormalExtraEllipsis, nrange f, [], [take_out pre f post])
         | None =>
             (DK_FormalMisplacedEllipsis, nrange f, [],
              [take_out pre f post ++
               [insert (nr l) (match comma_of f with Some _ => written src f | None => b ", " ++ written src f end)]])
         end]
    | _, _ => []
    end) (places [] fv).
Definition empty_formal (fv : list node) : list report :=
  flat_map (fun '(pre, f, post) =>
    match comma_of f, ident_of f, dots_of f, post with
    | Some _, None, None, _ :: _ => [(DK_EmptyFormal, nrange f, [], [[remove f]])]
    | _, _, _, _ => []
    end) (places [] fv).
Definition repeated_name (fv : list node) : list report :=
  flat_map (fun '(pre, f, post) =>
    match ident_of f with
    | Some i =>
        match find (named (text_of i)) pre with
        | Some g => [(DK_DuplicatedFormal, nrange i, match ident_of g with Some j => [nrange j] | None => [] end, [])]
        | None => []
        end
    | None => []
    end) (places [] fv).
(** [f] is the first formal of the name [x] *)
Definition first_named (fv : list node) (x : bytes) (f : node) : Prop :=
  exists pre post, fv = pre ++ f :: post /\ named x f = true /\ forall g, In g pre -> named x g = false.
(** the names of a formals node, each with the identity of a formal *)
Definition names_of (n : node) : list (bytes * nat) := match n with NFormals _ _ _ d => d | _ => [] end.
