(** Specification vocabulary for C40, C41 and C42. *)
From Verif Require Import Base Diag LexModel AstModel ParseSpec NavModel NavSpec SemaModel VlaModel VlaSpec TextModel ConnModel UriModel EvalModel CompModel.

(** ** C40 *)

(** [prefix] begins [x]. *)
Definition typed_so_far (prefix x : bytes) : Prop := exists rest, x = prefix ++ rest.

(** A name that may complete what was typed: of an environment (names with two underscores are internal ones), an
    attribute of the set the evaluator looks at, or an option of one of the option sets. *)
Definition may_complete (r : completion_request) (x : bytes) : Prop :=
  match r with
  | AtVariable e name sel =>
      (exists e' f d, e = Some e' /\ In f e' /\ In (x, d) (fr_defs f) /\ typed_so_far name x /\ ~ typed_so_far (b "__") x) \/
      (exists attrs v prefix, sel = Some (Some attrs, prefix) /\ In (x, v) attrs /\ typed_so_far prefix x)
  | AtSelect scope prefix => exists attrs v, scope = Some attrs /\ In (x, v) attrs /\ typed_so_far prefix x
  | AtAttrs clients prefix =>
      exists fields f, In (Some fields) clients /\ In f fields /\ of_Name f = x /\ typed_so_far prefix x
  end.
(** [x] is offered: as it is, or as an option with its example or default. *)
Definition offered (l : completion_list) (x : bytes) : Prop :=
  In x (cl_items l) \/ In (x ++ b " (example)") (cl_items l) \/ In (x ++ b " (default)") (cl_items l).
(** how many options of a set match *)
Definition matching (prefix : bytes) (fields : list optionField) : nat :=
  List.length (filter (fun f => starts_with prefix (of_Name f)) fields).

(** ** C42 *)

(** The set [s] is the value of a binding of the set [u]; [names] are the names of the binding's path. *)
Definition value_in (root s u : node) (names : list node) : Prop :=
  exists i r j q dots eq k t bs i2 r2 kw st dy,
    u = AstModel.NAttrs i2 r2 (Some (NBinds k t bs)) kw st dy /\ node_of root u /\
    In (NBinding i r (NAttrPath j q names dots) (Some s) eq) bs.
(** The attribute names from the outermost set to the set [s]. *)
Inductive path_of (root : node) : node -> list node -> Prop :=
| outermost s : (forall u names, ~ value_in root s u names) -> path_of root s []
| nested s u names p : value_in root s u names -> path_of root u p -> path_of root s (p ++ names).

(** The texts of names, when none is computed. *)
Fixpoint texts (names : list node) : option (list bytes) :=
  match names with
  | [] => Some []
  | x :: l => match staticName x, texts l with Some s, Some r => Some (s :: r) | _, _ => None end
  end.
(** What is found for the names [names] followed by [more]. *)
Definition found (names : list node) (more : list bytes) : fresult :=
  match texts names with Some p => FOK (p ++ more) | None => FWithDynamic end.

(** [s] is not written inside an attribute name or an `inherit`. *)
Definition exposed (root s : node) : Prop :=
  exists l, chain root s l /\ Forall (fun a => kind_of a <> NK_Inherit /\ kind_of a <> NK_AttrName) l.

(** the path [ap] of a binding of the set [u] *)
Definition path_in (u ap : node) : Prop :=
  exists i r v eq k t bs i2 r2 kw st dy,
    u = AstModel.NAttrs i2 r2 (Some (NBinds k t bs)) kw st dy /\ In (NBinding i r ap v eq) bs.
