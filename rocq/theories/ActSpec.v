(** What the code actions should preserve, stated on syntax trees. *)
From Verif Require Import Base Diag LexModel AstModel SemaModel ConnModel.
From Coq Require Export Permutation.

(** The expression is a string literal without interpolation whose value is [x].  (The parser keeps no fragment at
    all for the empty string.) *)
Definition string_value (n : node) (x : bytes) : Prop :=
  exists i r ip rp fs, n = NString i r (NParts ip rp fs) /\ (fs = [inl x] \/ fs = [] /\ x = []).

(** the integer a JSON number stands for *)
Definition number_of (v : json) (z : Z) : Prop := v = JInt z \/ v = JDouble (Some z).

(** The expression denotes the JSON value: null, true and false are the (builtin) variables; a negative number is
    the negation of a literal; an object is a non-recursive attribute set with only static attributes, which are
    exactly its fields. *)
Inductive denotes : node -> json -> Prop :=
| denotes_null i r j q : denotes (NVar i r (NIdent j q (b "null"))) JNull
| denotes_bool i r j q (x : bool) : denotes (NVar i r (NIdent j q (if x then b "true" else b "false"))) (JBool x)
| denotes_int i r n v : number_of v (Z.of_N n) -> denotes (NInt i r n) v
| denotes_neg i r j q k p n v : number_of v (- Z.of_N n) -> denotes (NUnary i r (NOp j q tok_op_negate) (Some (NInt k p n))) v
| denotes_string n x : string_value n x -> denotes n (JString x)
| denotes_list i r es l : Forall2 denotes es l -> denotes (NList i r es) (JArray l)
| denotes_set i r binds st fields o :
    Permutation st fields ->
    Forall2 (fun (f : bytes * attribute) (g : bytes * json) =>
               fst f = fst g /\ a_kind (snd f) = AK_Plain /\ denotes (a_value (snd f)) (snd g)) fields o ->
    denotes (NAttrs i r binds None st []) (JObject o).

Definition negative (v : json) : Prop := exists z, number_of v z /\ (z < 0)%Z.

(** JSON values whose conversion is claimed to be faithful: the fields of an object have distinct, non-empty names
    (the former is true of every object); integers are above the least int64; array elements are not negative
    numbers; no number is fractional. *)
Inductive tame : json -> Prop :=
| tame_null : tame JNull
| tame_bool x : tame (JBool x)
| tame_number v z : number_of v z -> (- 2 ^ 63 < z < 2 ^ 63)%Z -> tame v
| tame_string s : tame (JString s)
| tame_array l : Forall tame l -> Forall (fun v => ~ negative v) l -> tame (JArray l)
| tame_object o : Forall (fun f => tame (snd f)) o -> NoDup (map fst o) -> ~ In [] (map fst o) -> tame (JObject o).

(** replacing the text of a range, as an LSP client applies an edit *)
Definition splice (src : bytes) (r : range) (t : bytes) : bytes :=
  firstn (off (lcur r)) src ++ t ++ skipn (off (rcur r)) src.

(** the names of the static attributes of an attribute set *)
Definition static_names (n : node) : option (list bytes) :=
  match n with NAttrs _ _ _ _ st _ => Some (map fst st) | _ => None end.

(** the text of an identifier token: a letter or an underscore, then letters, digits, underscores, quotes and dashes *)
Definition ident_text (x : bytes) : Prop :=
  exists a u, x = a :: u /\ (isalpha a || Ascii.eqb a "_")%bool = true /\
    Forall (fun c => (isalpha c || isdigit c || Ascii.eqb c "_" || Ascii.eqb c "'" || Ascii.eqb c "-")%bool = true) u.

(** Every run of quotes at the end of the text, or directly before [${], has an even number of quotes. *)
Definition quotes_paired (x : bytes) : Prop :=
  forall p k rest, x = p ++ repeat "'"%char k ++ rest -> ~ (exists w, p = w ++ ["'"%char]) ->
    rest = [] \/ (exists r, rest = b "${" ++ r) -> Nat.even k = true.

(** Nix's reading of the text between the quotes of an indented string without escapes and interpolations, when that
    text is a single line that is not blank: the leading spaces are removed (nix: stripIndentation). *)
Fixpoint unindented (t : bytes) : bytes :=
  match t with
  | c :: r => if Ascii.eqb c " " then unindented r else t
  | [] => []
  end.
