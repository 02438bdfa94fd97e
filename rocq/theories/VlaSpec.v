(** Lexical scoping, stated over the syntax tree alone: what is visible where, and what a name means there. *)
From Verif Require Import Base Diag LexModel AstModel VlaModel.

(** One layer of an environment: the prelude, the names bound by a `let`, a `rec` set or a function (each with the
    node that declares it and its role), or the names of a `with`, which are unknown. *)
Inductive layer :=
| Prelude (names : list bytes)
| Binds (who : node) (names : list (bytes * (node * dsource)))
| WithOf (w : node).
(** innermost layer first *)
Definition scope := list layer.

Definition declares (l : layer) (x : bytes) : Prop :=
  match l with
  | Prelude xs => In x xs
  | Binds _ names => In x (map fst names)
  | WithOf _ => False
  end.

(** [bound s x t]: [t] is the part of [s] that begins with the innermost layer declaring [x] *)
Inductive bound : scope -> bytes -> scope -> Prop :=
| bound_here l s x : declares l x -> bound (l :: s) x (l :: s)
| bound_up l s x t : ~ declares l x -> bound s x t -> bound (l :: s) x t.
Definition unbound (s : scope) (x : bytes) : Prop := forall l, In l s -> ~ declares l x.

(** the `with` expressions of a scope, innermost first *)
Definition withs (s : scope) : list node :=
  flat_map (fun l => match l with WithOf w => [w] | _ => [] end) s.

(** a variable and its name *)
Definition is_var (n : node) (x : bytes) : Prop := kind_of n = NK_ExprVar /\ varName n = x.

Definition somes (l : list (option node)) : list node :=
  flat_map (fun o => match o with Some n => [n] | None => [] end) l.

(** the names of a function's parameters: the formals (their table gives each name its member), and the argument
    unless a formal has its name *)
Definition params (arg : node) : list (bytes * (node * dsource)) :=
  match arg with
  | NLambdaArg _ _ (Some q) None => [(idName q, (q, DS_LambdaArg))]
  | NLambdaArg _ _ id (Some (NFormals _ _ ms table)) =>
      match id with
      | Some q =>
          if existsb (fun p => bytes_eqb (idName q) (fst p)) table then []
          else [(idName q, (q, DS_LambdaWithArg_Arg))]
      | None => []
      end ++
      flat_map (fun p => match find (fun m => Nat.eqb (nid m) (snd p)) ms with
                         | Some (NFormal _ _ _ (Some q) _ _) =>
                             [(fst p, (q, match id with Some _ => DS_LambdaWithArg_Formal
                                                     | None => DS_LambdaNoArg_Formal end))]
                         | _ => []
                         end) table
  | _ => []
  end.
Definition defaults (arg : node) : list node :=
  match arg with
  | NLambdaArg _ _ _ (Some (NFormals _ _ ms _)) =>
      flat_map (fun m => match m with NFormal _ _ _ _ (Some d) _ => [d] | _ => [] end) ms
  | _ => []
  end.

(** the names of a recursive set: its static attributes *)
Definition fields_of (src : dsource) (st : list (bytes * attribute)) : list (bytes * (node * dsource)) :=
  map (fun p => (fst p, (a_key (snd p), src))) st.

(** the attributes of a set: in a recursive set they see its names, except that a plainly inherited one is looked up
    outside *)
Definition in_set (out inn : scope) (st : list (bytes * attribute)) (dy : list attribute) : list (scope * node) :=
  map (fun p => (match a_kind (snd p) with AK_Inherit => out | _ => inn end, a_value (snd p))) st
  ++ flat_map (fun a => [(inn, a_key a); (inn, a_value a)]) dy.

(** the layer that a node puts around some of its parts *)
Definition opens (n : node) : option layer :=
  match n with
  | NLambda _ _ (Some arg) (Some _) => Some (Binds n (params arg))
  | NAttrs _ _ _ (Some _) st _ => Some (Binds n (fields_of DS_Rec st))
  | NLet _ _ _ _ _ (Some (NAttrs _ _ _ _ st _)) => Some (Binds n (fields_of DS_Let st))
  | NLet _ _ _ _ _ _ => Some (Binds n [])
  | NLegacyLet _ _ _ (Some ((NAttrs _ _ _ (Some _) st _) as a)) => Some (Binds a (fields_of DS_Rec st))
  | NWith _ _ _ _ _ _ => Some (WithOf n)
  | _ => None
  end.

(** [enters s n]: the parts of [n] that contain variables, each with its scope, when [n] has scope [s] *)
Definition enters (s : scope) (n : node) : list (scope * node) :=
  match n with
  | NVar _ _ _ => []
  | NLambda _ _ (Some arg) (Some body) =>
      let s' := Binds n (params arg) :: s in map (pair s') (defaults arg) ++ [(s', body)]
  | NLambda _ _ _ _ => []
  | NAttrs _ _ _ (Some _) st dy => in_set s (Binds n (fields_of DS_Rec st) :: s) st dy
  | NAttrs _ _ _ None st dy => in_set s s st dy
  | NLet _ _ _ _ e (Some (NAttrs _ _ _ _ st dy)) =>
      let s' := Binds n (fields_of DS_Let st) :: s in in_set s s' st dy ++ map (pair s') (somes [e])
  | NLet _ _ _ _ e _ => map (pair (Binds n [] :: s)) (somes [e])
  | NLegacyLet _ _ _ (Some ((NAttrs _ _ _ (Some _) st dy) as a)) =>
      in_set s (Binds a (fields_of DS_Rec st) :: s) st dy
  | NLegacyLet _ _ _ (Some (NAttrs _ _ _ None st dy)) => in_set s s st dy
  | NLegacyLet _ _ _ _ => []
  | NWith _ _ _ _ w e => map (pair s) (somes [w]) ++ map (pair (WithOf n :: s)) (somes [e])
  | _ => map (pair s) (somes (children n))
  end.

(** [visit s n s' m]: below [n] in scope [s] there is [m] in scope [s'] *)
Inductive visit : scope -> node -> scope -> node -> Prop :=
| visit_here s n : visit s n s n
| visit_in s n s1 n1 s' m : In (s1, n1) (enters s n) -> visit s1 n1 s' m -> visit s n s' m.

(** the prelude: the builtins that need no prefix, the constants, `builtins` and `__curPos` *)
Definition prelude (primops : list (bytes * bool)) : scope :=
  [Prelude (map fst (filter (fun p => negb (snd p)) primops)
            ++ [b "true"; b "false"; b "null"; b "__currentTime"; b "__currentSystem"; b "__nixVersion";
                b "__storeDir"; b "__langVersion"; b "__importNative"; b "__traceVerbose"; b "__nixPath";
                b "derivation"; b "builtins"; b "__curPos"])].

(** [occurs_at primops root s v x]: the program [root] has an occurrence [v] of the variable [x], in scope [s] *)
Definition occurs_at primops (root : node) (s : scope) (v : node) (x : bytes) : Prop :=
  visit (prelude primops) root s v /\ is_var v x.

(** [refers s n x v]: [n] (in scope [s]) declares [x], and [v] is an occurrence of [x] below [n] that means that
    declaration *)
Definition refers (s : scope) (n : node) (x : bytes) (v : node) : Prop :=
  exists who names s', opens n = Some (Binds who names) /\ visit s n s' v /\ is_var v x /\
    bound s' x (Binds who names :: s).
(** [may_use s n v]: [v] is a variable in the body of the `with` [n], and no scope declares it *)
Definition may_use (s : scope) (n : node) (v : node) : Prop :=
  exists x s' pre, visit s n s' v /\ is_var v x /\ unbound s' x /\ s' = pre ++ WithOf n :: s.

(** the meaning of [x] in scope [s] is its meaning in scope [s'] *)
Definition same_meaning (x : bytes) (s s' : scope) : Prop :=
  (unbound s x -> unbound s' x /\ withs s' = withs s) /\
  forall h t, bound s x (h :: t) -> exists t', bound s' x (h :: t').

(** the report for a declaration of each role that nothing refers to; attributes of a `rec` set, plain function
    arguments and builtins are not reported *)
Definition unused_report (src : dsource) : option dkind :=
  match src with
  | DS_Let => Some DK_UnusedDefLet
  | DS_LambdaNoArg_Formal => Some DK_UnusedDefLambdaNoArg_Formal
  | DS_LambdaWithArg_Formal => Some DK_UnusedDefLambdaWithArg_Formal
  | DS_LambdaWithArg_Arg => Some DK_UnusedDefLambdaWithArg_Arg
  | _ => None
  end.
Definition is_unused_report (k : dkind) : Prop := exists src, unused_report src = Some k.

(** the bindings written in a let expression *)
Definition written (n : node) : list node :=
  match n with NLet _ _ _ _ _ (Some (NAttrs _ _ (Some (NBinds _ _ bs)) _ _ _)) => bs | _ => [] end.
(** [q] is a binding whose path begins with the name [nd] *)
Definition begins_with (q nd : node) : Prop :=
  exists i r j s first more dots v eq,
    q = NBinding i r (NAttrPath j s (first :: more) dots) v eq /\ nrange first = nrange nd.

(** no two different nodes of the program share an identity *)
Definition coherent primops (root : node) : Prop :=
  forall s1 n1 s2 n2, visit (prelude primops) root s1 n1 -> visit (prelude primops) root s2 n2 ->
    nid n1 = nid n2 -> s1 = s2 /\ n1 = n2.

(** a document after an edit *)
Definition apply_edit (src : bytes) (e : tedit) : bytes :=
  firstn (off (lcur (e_range e))) src ++ e_text e ++ skipn (off (rcur (e_range e))) src.

(** [reads_builtin n e dot first x]: [n] is `builtins.x`, written with a plain name: [e] is the `builtins`, [dot] the
    dot if there is one, [first] the name *)
Definition reads_builtin (n e : node) (dot : option node) (first : node) (x : bytes) : Prop :=
  exists i r i1 r1 dots dflt, n = NSelect i r e dot (Some (NAttrPath i1 r1 [first] dots)) dflt None /\
    is_var e (b "builtins") /\ staticName first = Some x.
(** [inherits_builtin n key x]: [n] is a `let` with `inherit (builtins) x`, and [key] is that x *)
Definition inherits_builtin (n key : node) (x : bytes) : Prop :=
  exists i r kl kwin body i1 r1 bd rc st dy a i2 r2 e dot path dflt ds,
    n = NLet i r kl kwin body (Some (NAttrs i1 r1 bd rc st dy)) /\ In (x, a) st /\ a_key a = key /\
    a_kind a = AK_InheritFrom /\ a_value a = NSelect i2 r2 e dot path dflt ds /\ is_var e (b "builtins").
(** a node inside the analysed part of the document, and the scope there *)
Definition reached (primops : list (bytes * bool)) (root : node) (s : scope) (n : node) : Prop :=
  visit (prelude primops) root s n.
(** a fix that deletes these nodes *)
Definition deleting (msg : bytes) (ns : list node) : fix_ := Fix_ msg (map (fun n => TEdit (nrange n) []) ns).
(** [x] is an attribute of `builtins` that is a value rather than a function: the global constants, which are there
    under their names without the leading underscores *)
Definition constant_member (x : bytes) : Prop :=
  In x [b "derivation"; b "false"; b "null"; b "true"; b "currentSystem"; b "currentTime"; b "importNative";
        b "langVersion"; b "nixPath"; b "nixVersion"; b "storeDir"; b "traceVerbose"].
