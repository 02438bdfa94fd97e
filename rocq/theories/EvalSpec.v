(** Specification vocabulary for C58, C60 and C65. *)
From Verif Require Import Base TextModel TextSpec UriModel UriSpec ConnModel EvalModel.

(** ** C58 *)

(** A value comes back from its serialised form. *)
Definition survives {A} (write : A -> res json) (read : json -> option A) (a : A) : Prop :=
  exists j, write a = Ok j /\ read j = Some a.

(** Unicode text, and the other field types. *)
Definition is_text (s : bytes) : Prop := exists t, unicode t /\ s = utf8 t.
Definition if_present {A} (P : A -> Prop) (o : option A) : Prop := forall a, o = Some a -> P a.
Definition all_of {A} (P : A -> Prop) (l : list A) : Prop := forall a, In a l -> P a.
Definition is_place (l : location) : Prop := path_survives (lo_path l).
Definition is_int (z : Z) : Prop := (-2147483648 <= z < 2147483648)%Z.

Definition text_package (p : packageDescription) : Prop :=
  all_of (if_present is_text)
    [pk_Name p; pk_PName p; pk_Version p; pk_Description p; pk_LongDescription p; pk_Position p; pk_Homepage p].
Definition text_meta (m : valueMeta) : Prop := is_int (vm_Type m) /\ if_present is_place (vm_Location m).
Definition text_value (v : valueDescription) : Prop := is_text (vd_Doc v) /\ all_of is_text (vd_Args v).
Definition text_info (i : attrPathInfo) : Prop :=
  text_meta (ai_Meta i) /\ text_package (ai_PackageDesc i) /\ if_present text_value (ai_ValueDesc i).
Definition text_params (c : completeParams) : Prop := all_of is_text (cp_Scope c) /\ is_text (cp_Prefix c).
Definition text_type (t : optionType) : Prop := if_present is_text (ot_Description t) /\ if_present is_text (ot_Name t).
Definition text_option (d : optionDescription) : Prop :=
  all_of (if_present is_text) [od_Description d; od_Example d; od_Default d] /\
  all_of is_place (od_Declarations d) /\ all_of is_place (od_Definitions d) /\ if_present text_type (od_Type d).
Definition text_field (f : optionField) : Prop := is_text (of_Name f) /\ if_present text_option (of_Description f).

(** ** C60 *)

(** [v] is a set whose attribute [x] is [w]. *)
Definition has (v : nval) (x : bytes) (w : nval) : Prop :=
  exists before after, v = NAttrs (before ++ (x, w) :: after) /\ ~ In x (List.map fst before).
Definition lacks (v : nval) (x : bytes) : Prop :=
  match v with NAttrs l => ~ In x (List.map fst l) | NThrow => False | _ => True end.
(** The value [w] at path [p] of [v]. *)
Inductive at_path : nval -> list bytes -> nval -> Prop :=
| here v : at_path v [] v
| there v x w p u : has v x w -> at_path w p u -> at_path v (x :: p) u.

(** NixOS module system: an option is a set with _type = "option"; its type is a set with a name; a submodule type's
    getSubOptions, given the empty prefix, is the set of the submodule's options; attrsOf has nestedTypes.elemType. *)
Definition marked (v : nval) (x : string) (s : string) : Prop := has v (b x) (NStr (b s)).
Definition unmarked (v : nval) (x : string) (s : string) : Prop :=
  lacks v (b x) \/ exists w, has v (b x) w /\ w <> NStr (b s) /\ w <> NThrow.
Definition submodule_type (t options : nval) : Prop :=
  marked t "name" "submodule" /\ has t (b "getSubOptions") (NFun (Some options)).
Definition not_submodule (t : nval) : Prop := unmarked t "name" "submodule".
Definition submodule (v options : nval) : Prop := exists t, has v (b "type") t /\ submodule_type t options.
Definition no_submodule (v : nval) : Prop := lacks v (b "type") \/ exists t, has v (b "type") t /\ not_submodule t.
Definition attrs_of (v elem : nval) : Prop :=
  marked v "_type" "option" /\
  exists t n, has v (b "type") t /\ marked t "name" "attrsOf" /\ has t (b "nestedTypes") n /\ has n (b "elemType") elem.
(** [v] is no option, or an option of a type that is neither attrsOf a submodule. *)
Definition no_attrs_of_submodule (v : nval) : Prop :=
  unmarked v "_type" "option" \/
  (marked v "_type" "option" /\
   exists t, has v (b "type") t /\
     (unmarked t "name" "attrsOf" \/
      exists n e, marked t "name" "attrsOf" /\ has t (b "nestedTypes") n /\ has n (b "elemType") e /\ not_submodule e)).

(** The options below [v] along [p]: a submodule is entered (and stands for its options), any name may be given
    below attrsOf a submodule, and otherwise an attribute is selected. *)
Inductive opened : nval -> nval -> Prop :=
| open_submodule v o : submodule v o -> opened v o
| open_plain v : no_submodule v -> opened v v.
Inductive options_at : nval -> list bytes -> nval -> Prop :=
| opt_here v o : opened v o -> options_at v [] o
| opt_any v o x p e eo u :
    opened v o -> attrs_of o e -> submodule_type e eo -> options_at eo p u -> options_at v (x :: p) u
| opt_attr v o x p w u :
    opened v o -> no_attrs_of_submodule o -> has o x w -> options_at w p u -> options_at v (x :: p) u.

(** ** C65 *)

(** No option of type submodule in [v]. *)
Definition no_submodules (v : nval) : Prop := forall p w, at_path v p w -> ~ exists t, has w (b "type") t /\ marked t "name" "submodule".
