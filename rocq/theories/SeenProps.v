(** Property C94: no variable of an accepted document escapes the analysis of names. *)
From Verif Require Import Base Diag LexModel AstModel FeatProofs ParseModel ParseSpec ParseFacts GramSpec VlaModel VlaSpec VlaFacts SeenBase SeenProofs SeenFacts.


(** C94, first half.  In a document without errors in which no [inherit (e);] is empty of names, every variable that is
    written anywhere -- in a binding, in a dynamic name of a path, in the default of a formal, in a set that is merged
    with another one -- is an occurrence in some scope, so everything that is said of occurrences (C27, C28, C29, C63)
    is said of it. *)
Theorem C94_visited_partial : forall src root ds primops v x,
  parse src = Ok (Some root, ds) -> no_errors ds ->
  (forall i r e, ~ within root (NInherit i r [] (Some e))) ->
  within root v -> is_var v x -> exists sc, occurs_at primops root sc v x.
Proof. exact C94_visited_partial_proof. Qed.
Print Assumptions C94_visited_partial.

(** C94, second half: such a variable has an answer.  It is tied to a declaration, or it may come from a [with], or it is
    undefined; and if it is undefined and not a builtin, a diagnostic is at its place. *)
Theorem C94_answered_partial : forall src root ds primops s v x,
  parse src = Ok (Some root, ds) -> no_errors ds ->
  (forall i r e, ~ within root (NInherit i r [] (Some e))) ->
  vla primops root = Ok s -> within root v -> is_var v x ->
  (exists d, query s v = Some (Defined d)) \/ (exists d, query s v = Some (FromWith d)) \/
  (query s v = Some Undefined /\
   (~ In x (map fst primops) ->
    exists dg, In dg (v_diags s) /\ d_range dg = nrange v /\ In (d_kind dg) [DK_UndefinedVariable; DK_PrimOpNeedsPrefix])).
Proof. exact C94_answered_partial_proof. Qed.
Print Assumptions C94_answered_partial.

Example C94_nonvacuous :
  let src := b "let f = { a ? y, ... }: a.${y} or y; y = rec { b.c = y; b.${y}.d = y; b = { e = ""${y}""; }; inherit (y) p; }; in with y; f z" in
  (exists root ds s, parse src = Ok (Some root, ds) /\ ds = [] /\ vla table root = Ok s /\
    forallb (fun m => match m with NInherit _ _ [] (Some _) => false | _ => true end) (below 30 root) = true /\
    map (fun v => (varName v, match query s v with Some (Defined _) => 1 | Some (FromWith _) => 2 | Some Undefined => 3 | None => 4 end))
      (filter is_varb (below 30 root)) =
    [(b "y", 1); (b "f", 1); (b "z", 2); (b "y", 1); (b "a", 1); (b "y", 1); (b "y", 1); (b "y", 1); (b "y", 1); (b "y", 1);
     (b "y", 1); (b "y", 1)]).
Proof.
  do 3 eexists. split; [vm_compute; reflexivity|]. split; [reflexivity|]. split; [vm_compute; reflexivity|]. split; vm_compute; reflexivity.
Qed.

(** The full claim fails.  The expression of an [inherit (e);] without names is not looked at although the document has
    no error.  With an error, the second value of a name that is bound twice is dropped, and so are the defaults of a
    function that has no body yet. *)
Theorem C94_refuted :
  forall src, In src [b "{ inherit (x); }"; b "{ a = 1; a = x; }"; b "{ a ? x }: "] ->
  exists root ds s v, parse src = Ok (Some root, ds) /\ vla table root = Ok s /\
    within root v /\ is_var v (b "x") /\ query s v = None.
Proof. exact C94_refuted_proof. Qed.
Print Assumptions C94_refuted.
