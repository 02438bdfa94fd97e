(** What highlights, quick fixes, hints, links, names in nixpkgs and texts are, stated over the document. *)
From Verif Require Import Base Diag LexModel AstModel SemaModel ParseSpec NavSpec VlaModel VlaSpec TextModel TextSpec FeatModel FeatSpec RefSpec ConnModel EvalModel ReqModel.

(** ** names in nixpkgs *)
(** [reads_names names xs]: the names of an attribute path, none of them computed *)
Definition reads_names (names : list node) (xs : list bytes) : Prop := Forall2 (fun n x => staticName n = Some x) names xs.
(** [meant primops root sc e p]: by convention the expression [e], in scope [sc], stands for the attribute path [p] of
    nixpkgs: `pkgs` is nixpkgs, `lib` is its attribute; a variable that only a `with` can give is an attribute of
    what the OUTERMOST `with` around it opens; a selection continues the path of its variable *)
Inductive meant primops (root : node) : scope -> node -> list bytes -> Prop :=
| meant_pkgs sc v : occurs_at primops root sc v (b "pkgs") -> ~ (unbound sc (b "pkgs") /\ withs sc <> []) -> meant primops root sc v []
| meant_lib sc v : occurs_at primops root sc v (b "lib") -> ~ (unbound sc (b "lib") /\ withs sc <> []) -> meant primops root sc v [b "lib"]
| meant_with sc v x ws i r kw semi we e t p : let w := NWith i r kw semi (Some we) e in
    occurs_at primops root sc v x -> unbound sc x -> withs sc = ws ++ [w] -> visit (prelude primops) root t w ->
    meant primops root t we p -> meant primops root sc v (p ++ [x])
| meant_select sc i r v d q df o p xs : let e := NSelect i r v d q df o in
    visit (prelude primops) root sc e -> kind_of v = NK_ExprVar -> meant primops root sc v p ->
    reads_names (match q with Some q => path_names q | None => [] end) xs -> meant primops root sc e (p ++ xs).
(** the same with the innermost `with`, where Nix looks first *)
Definition innermost (sc : scope) : option node := hd_error (withs sc).

(** [under_pkgs sc]: a `with pkgs;` is around *)
Definition under_pkgs (sc : scope) : Prop :=
  exists i r kw semi we e, In (NWith i r kw semi (Some we) e) (withs sc) /\ is_var we (b "pkgs").

(** ** links *)
(** [open_node root n]: [n] is the root or below it, and nothing above [n] is a path *)
Inductive open_node : node -> node -> Prop :=
| open_self n : open_node n n
| open_child n c m : kind_of n <> NK_ExprPath -> In c (present (children n)) -> open_node c m -> open_node n m.
(** [literal_path n r x]: a path at [r] without interpolations, reading [x] *)
Definition literal_path (n : node) (r : range) (x : bytes) : Prop := exists i parts, n = NPath i r parts /\ parts_literal parts = Some x.
Definition no_slash (x : bytes) : Prop := ~ In "/"%char x.
Definition ends_in_slash (x : bytes) : Prop := exists y, x = y ++ b "/".
(** [directory file dir]: [file] is [dir], slashes, and a name *)
Definition directory (file dir : bytes) : Prop :=
  exists top k name, file = top ++ repeat "/"%char (S k) ++ name /\ no_slash name /\ ~ ends_in_slash top /\
    dir = match top with [] => b "/" | _ => top end.
(** [joined dir x p]: the path [x] seen from the directory [dir] *)
Definition joined (dir x p : bytes) : Prop :=
  if starts_with (b "/") x then p = x else (dir = [] /\ p = x) \/ (ends_in_slash dir /\ p = dir ++ x) \/ (dir <> [] /\ ~ ends_in_slash dir /\ p = dir ++ b "/" ++ x).
(** [leads_to fs file x t]: written in [file], the path [x] leads to the file [t]: what it names seen from the file's
    directory, or `default.nix` in it if that is a directory *)
Definition leads_to (fs : fsys) (file x t : bytes) : Prop :=
  x <> [] /\ (N.of_nat (List.length x) <= 4096)%N /\
  exists dir real p p', directory file dir /\ fs_canonical fs dir = Some real /\ joined real x p /\ fs_weakly fs p = Some p' /\
    ((fs_status fs p' = Some false /\ t = p') \/
     (fs_status fs p' = Some true /\ joined p' (b "default.nix") t /\ fs_status fs t <> None)).

(** ** quick fixes *)
(** ranges that overlap or touch *)
Definition meets (p q : lrange) : Prop := lle (l_start p) (l_end q) /\ lle (l_start q) (l_end p).

(** ** the expression at a place *)
(** [nearest_expr root n e]: [e] is the innermost expression that is [n] or around it *)
Definition nearest_expr (root n e : node) : Prop := exists l, chain root n l /\ find (fun q => isExpr (kind_of q)) l = Some e.
(** [n] is not a name of an `inherit` clause without source *)
Definition not_inherited (root n : node) : Prop :=
  forall q, nearest root n NK_Inherit q -> exists i r names e, q = NInherit i r names (Some e).

(** ** places in nixpkgs *)
Definition colon_free (x : bytes) : Prop := ~ In ":"%char x.
(** [nixpkgs_places ask p l]: the places [l] that nixpkgs knows for the attribute path [p]: that of the package if it has
    a position, else that of the value, if any *)
Inductive nixpkgs_places (ask : list bytes -> option attrPathInfo) (p : list bytes) : list place -> Prop :=
| np_unknown : ask p = None -> nixpkgs_places ask p []
| np_file i file : ask p = Some i -> pk_Position (ai_PackageDesc i) = Some file -> colon_free file -> nixpkgs_places ask p [InFile file 0]
| np_line i file rest n : ask p = Some i -> pk_Position (ai_PackageDesc i) = Some (file ++ b ":" ++ rest) -> colon_free file ->
    stoi rest = Some n -> nixpkgs_places ask p [InFile file n]
| np_value i l : ask p = Some i -> pk_Position (ai_PackageDesc i) = None -> vm_Location (ai_Meta i) = Some l -> nixpkgs_places ask p [Given l]
| np_nowhere i : ask p = Some i -> pk_Position (ai_PackageDesc i) = None -> vm_Location (ai_Meta i) = None -> nixpkgs_places ask p [].
(** a position whose line is not a number *)
Definition bad_position (ask : list bytes -> option attrPathInfo) (p : list bytes) : Prop :=
  exists i file rest, ask p = Some i /\ pk_Position (ai_PackageDesc i) = Some (file ++ b ":" ++ rest) /\ colon_free file /\ stoi rest = None.

(** [elsewhere root primops ask sc e l]: the places [l] in nixpkgs for the expression [e]: none if it is not meant to be an
    attribute path of nixpkgs, or if the position of the package cannot be read *)
Definition elsewhere (root : node) primops (ask : list bytes -> option attrPathInfo) (sc : scope) (e : node) (l : list place) : Prop :=
  (exists p, meant primops root sc e p /\ (nixpkgs_places ask p l \/ (bad_position ask p /\ l = []))) \/
  ((forall p, ~ meant primops root sc e p) /\ l = []).

(** ** settings *)
(** what a client sends: an object with the settings that are given *)
Definition field (k : string) (j : option json) : list (bytes * json) := match j with Some j => [(b k, j)] | None => [] end.
Definition settings (command : option (list bytes)) (options : option (list (bytes * bytes))) (nixpkgs : option bytes)
    (suppress : option (list bytes)) : json :=
  JObject (field "formatting" (option_map (fun l => JObject [(b "command", JArray (map JString l))]) command) ++
           field "options" (option_map (fun l => JObject (map (fun p => (fst p, JObject [(b "expr", JString (snd p))])) l)) options) ++
           field "nixpkgs" (option_map (fun e => JObject [(b "expr", JString e)]) nixpkgs) ++
           field "diagnostic" (option_map (fun l => JObject [(b "suppress", JArray (map JString l))]) suppress)).
Definition given {A} (o : option A) (default : A) : A := match o with Some x => x | None => default end.

(** ** texts and addresses *)
Definition shows (text piece : bytes) : Prop := exists u w, text = u ++ piece ++ w.
(** the page about the function of `lib` with the names [xs] *)
Definition noogle_page (xs : list bytes) : bytes := b "https://noogle.dev/f/lib" ++ flat_map (fun x => b "/" ++ x) xs.
