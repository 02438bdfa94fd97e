(** For C68: no parsing function takes a diagnostic back; the semantic actions leave the tokens alone. *)
From Verif Require Import Base Diag LexModel LexSpec LexProofs AstModel PSupModel SemaModel ParseModel ParseSpec
  ParseInv GramSpec GramBase.

Create HintDb mono.
#[export] Hint Resolve mono_ret mono_crash mono_lift mono_passert mono_fresh mono_emit mono_noteMatch mono_fix1
  mono_addFix mono_lastR mono_assertLast mono_toLast mono_mkMisc mono_peek mono_peekk mono_lCur mono_consume
  mono_removeUnexpected mono_expect mono_diagNull mono_orNull : mono.
Ltac M1 :=
  match goal with
  | |- mono _ => solve [auto with mono nocore]
  | |- mono (upd_last _) => apply mono_upd; reflexivity
  | |- mono (pbind _ _) => apply mono_bind; [|intros ?]
  | |- mono (withSync _ _) => apply mono_withSync
  | |- mono (withState _ _ _) => apply mono_withState
  | |- mono (ok_ _) => apply mono_ret
  | |- mono (match ?x with _ => _ end) => destruct x
  | |- mono (let _ := _ in _) => cbv zeta
  end.
Ltac M := repeat M1.

Lemma mono_dupAttr {Qt : Quiet} n r p : mono (dupAttr n r p).
Proof. unfold dupAttr. M. Qed.
#[export] Hint Resolve mono_dupAttr : mono.
Lemma mono_checkRec {Qt : Quiet} x y : mono (checkAttrRecursiveForMerge x y).
Proof. unfold checkAttrRecursiveForMerge. M. Qed.
#[export] Hint Resolve mono_checkRec : mono.
Lemma mono_mergeStatic {Qt : Quiet} y : forall x, mono (mergeStatic x y).
Proof. induction y as [|[k v] y IH]; intros x; cbn [mergeStatic]; M; apply IH. Qed.
#[export] Hint Resolve mono_mergeStatic : mono.
Lemma mono_insertAttr {Qt : Quiet} sa n e k : mono (insertAttr sa n e k).
Proof. unfold insertAttr, mergeAttrSets. M. Qed.
#[export] Hint Resolve mono_insertAttr : mono.
Lemma mono_addAttr {Qt : Quiet} p : forall sa e, mono (addAttr sa p e).
Proof.
  induction p as [|n p IH]; intros sa e; cbn [addAttr]; [M|]. destruct p as [|n2 p]; [M|].
  pose proof IH as IH'. unfold mkNested. repeat (M1 || apply IH').
Qed.
#[export] Hint Resolve mono_addAttr : mono.
Lemma mono_lowerInherit {Qt : Quiet} ns : forall sa e, mono (lowerInherit sa ns e).
Proof.
  induction ns as [|n ns IH]; intros sa e; cbn [lowerInherit]; [M|].
  unfold desugarInheritExpr, lowerInheritName. repeat (M1 || apply IH).
Qed.
#[export] Hint Resolve mono_lowerInherit : mono.
Lemma mono_lowerBinds {Qt : Quiet} bs : forall sa, mono (lowerBinds sa bs).
Proof. induction bs as [|n bs IH]; intros sa; cbn [lowerBinds]; repeat (M1 || apply IH). Qed.
#[export] Hint Resolve mono_lowerBinds : mono.
Lemma mono_onExprAttrs {Qt : Quiet} r bs rc : mono (onExprAttrs r bs rc).
Proof. unfold onExprAttrs. M. Qed.
#[export] Hint Resolve mono_onExprAttrs : mono.
Lemma mono_sep {Qt : Quiet} l : forall f, mono (checkFormalSep f l).
Proof. induction l as [|n l IH]; intros f; cbn [checkFormalSep]; repeat (M1 || apply IH). Qed.
Lemma mono_removeFormal {Qt : Quiet} b f l : mono (removeFormal b f l).
Proof. unfold removeFormal. M. Qed.
#[export] Hint Resolve mono_removeFormal : mono.
Lemma mono_ell {Qt : Quiet} src la l : forall f, mono (checkFormalEllipsis_f src f la l).
Proof.
  induction l as [|n l IH]; intros f; cbn [checkFormalEllipsis_f]; [M|]. destruct l; [M|].
  pose proof IH as IH'. repeat (M1 || apply IH').
Qed.
Lemma mono_empty {Qt : Quiet} l : mono (checkFormalEmpty l).
Proof.
  induction l as [|n l IH]; cbn [checkFormalEmpty]; [M|]. destruct l; [M|]. pose proof IH as IH'. repeat (M1 || apply IH').
Qed.
Lemma mono_dedup {Qt : Quiet} l : forall d, mono (dedupFormal d l).
Proof. induction l as [|n l IH]; intros d; cbn [dedupFormal]; repeat (M1 || apply IH). Qed.
#[export] Hint Resolve mono_sep mono_ell mono_empty mono_dedup : mono.
Lemma mono_ellipsis {Qt : Quiet} src l : mono (checkFormalEllipsis src l).
Proof. unfold checkFormalEllipsis. M. Qed.
#[export] Hint Resolve mono_ellipsis : mono.
Lemma mono_onFormals {Qt : Quiet} src r l : mono (onFormals src r l).
Proof. unfold onFormals, checkFormalEllipsis. M. Qed.
Lemma mono_onLambdaArg {Qt : Quiet} r i f : mono (onLambdaArg r i f).
Proof. unfold onLambdaArg. M. Qed.
#[export] Hint Resolve mono_onFormals mono_onLambdaArg : mono.

(** * Every parsing function *)
Lemma mono_step {Qt : Quiet} src rec : (forall q, mono (rec q)) -> forall q, mono (step src rec q).
Proof.
  intros H q. destruct q; cbn [step].
  all: unfold parseExpr, parseExprOpBP, parseExprOpLoop, parseExprApp, parseExprAppLoop, parseExprSelect,
    parseExprSimple, parseExprParen, parseExprList, parseExprListLoop, parseString, parseStringParts, parseExprPath,
    parseExprPathLoop, parseInterpolation, parseAttrName, parseAttrPath, parseAttrPathLoop, parseBinding,
    parseInherit, parseInheritLoop, parseBinds, parseBindsLoop, parseExprAttrs, parseExprIf, parseExprAssert,
    parseExprLet, parseExprLegacyLet, parseExprWith, parseFormal, parseFormals, parseFormalsLoop, parseLambdaArg,
    parseExprLambda.
  all: repeat (apply H || M1).
Qed.
Lemma mono_run {Qt : Quiet} src fuel : forall q, mono (run src fuel q).
Proof.
  induction fuel as [|f IH]; intros q; cbn [run]; [intros s a s' E; discriminate|]. now apply mono_step.
Qed.

(** * The semantic actions *)
Ltac M2 := solve [repeat (M1 || match goal with H : _ |- _ => apply H end)].
Ltac C1 :=
  match goal with
  | |- cl (pbind _ _) _ _ => apply cl_bind; [M2|intros; M2|]
  | |- cl (ret _) _ _ => apply cl_ret
  | |- cl (ok_ _) _ _ => apply cl_ret
  | |- cl (crash _) _ _ => apply cl_crash
  | |- cl (lift _) _ _ => apply cl_lift; intros
  | |- cl fresh _ _ => apply cl_fresh; intros ?
  | |- cl (emit _) _ _ => apply cl_emit; intros
  | |- cl (fix1 _ _) _ _ => apply cl_fix1; intros ?
  | |- cl (match ?x with _ => _ end) _ _ => destruct x eqn:?
  end.
Definition quiet {Qt : Quiet} {A} (m : P A) : Prop := forall c (Q : A -> core_ -> Prop), (forall a, Q a c) -> cl m c Q.
Ltac quick := intros c Q H; repeat C1; auto.
Lemma quiet_mono {Qt : Quiet} {A} (m : P A) c (Q : A -> core_ -> Prop) : quiet m -> (forall a, Q a c) -> cl m c Q.
Proof. intros H. apply H. Qed.
Lemma q_dupAttr {Qt : Quiet} n r p : quiet (dupAttr n r p).
Proof. unfold dupAttr. quick. Qed.
Lemma q_checkRec {Qt : Quiet} x y : quiet (checkAttrRecursiveForMerge x y).
Proof. unfold checkAttrRecursiveForMerge. quick. Qed.
Lemma q_mergeStatic {Qt : Quiet} y : forall x, quiet (mergeStatic x y).
Proof.
  induction y as [|[k v] y IH]; intros x c Q H; cbn [mergeStatic]; repeat C1; auto.
  - apply q_dupAttr. intros. now apply IH.
  - now apply IH.
Qed.
Lemma q_insertAttr {Qt : Quiet} sa n e k : quiet (insertAttr sa n e k).
Proof.
  unfold insertAttr, mergeAttrSets. intros c Q H. repeat C1; auto.
  all: try (apply q_dupAttr; intros; repeat C1; auto).
  apply q_checkRec. intros. repeat C1. apply q_mergeStatic. intros. repeat C1. auto.
Qed.
Lemma q_addAttr {Qt : Quiet} p : forall sa e, quiet (addAttr sa p e).
Proof.
  induction p as [|n p IH]; intros sa e c Q H; cbn [addAttr]; [repeat C1|].
  destruct p as [|n2 p]; [now apply q_insertAttr|]. pose proof IH as IH'. unfold mkNested.
  repeat (C1 || (apply IH'; intros) || (apply q_dupAttr; intros)); auto.
Qed.
Lemma q_lowerInherit {Qt : Quiet} ns : forall sa e, quiet (lowerInherit sa ns e).
Proof.
  induction ns as [|n ns IH]; intros sa e c Q H; cbn [lowerInherit]; [repeat C1; auto|].
  unfold desugarInheritExpr, lowerInheritName.
  apply cl_bind.
  { repeat M1. } { intros [v k]. repeat (M1 || apply mono_lowerInherit). }
  repeat (C1 || (apply q_dupAttr; intros)); try (apply IH; auto).
Qed.
Lemma q_lowerBinds {Qt : Quiet} bs : forall sa, quiet (lowerBinds sa bs).
Proof.
  induction bs as [|n bs IH]; intros sa c Q H; cbn [lowerBinds]; [repeat C1; auto|].
  repeat (C1 || (apply q_lowerInherit; intros) || (apply q_addAttr; intros) || (apply IH; intros)); auto.
Qed.
Lemma cl_onExprAttrs {Qt : Quiet} r bs rc c (Q : node -> core_ -> Prop) :
  (forall i st dy, Q (NAttrs i r bs rc st dy) c) -> cl (onExprAttrs r bs rc) c Q.
Proof.
  intros H. unfold onExprAttrs. C1. apply q_lowerBinds. intros. repeat C1. auto.
Qed.
Lemma cl_onLambdaArg {Qt : Quiet} r i f c (Q : node -> core_ -> Prop) :
  (forall j, Q (NLambdaArg j r i f) c) -> cl (onLambdaArg r i f) c Q.
Proof. intros H. unfold onLambdaArg. repeat C1; auto. Qed.

(** what a clean list of formals looks like *)
Definition fullb {Qt : Quiet} (n : node) : bool := is_some (f_id n) || is_some (f_ell n).
Fixpoint formals_ok (first : bool) (l : list node) : Prop :=
  match l with
  | [] => True
  | n :: l' => (first = false -> f_comma n <> None) /\ formals_ok false l'
  end.
Fixpoint inits (l : list node) : list node :=
  match l with [] => [] | [_] => [] | n :: l' => n :: inits l' end.
Lemma cl_sep {Qt : Quiet} l : forall f c (Q : unit -> core_ -> Prop), (formals_ok f l -> Q tt c) -> cl (checkFormalSep f l) c Q.
Proof.
  induction l as [|n l IH]; intros f c Q H; cbn [checkFormalSep]; [repeat C1; apply H; exact I|].
  C1. C1.
  - C1. C1. C1. discriminate.
  - C1. apply IH. intros H1. apply H. cbn [formals_ok]. split; auto. intros ->. cbn in Heqb.
    destruct (f_comma n); [discriminate|discriminate].
Qed.
Lemma cl_ell {Qt : Quiet} src la l : forall f c (Q : unit -> core_ -> Prop),
  (Forall (fun n => f_ell n = None) (inits l) -> Q tt c) -> cl (checkFormalEllipsis_f src f la l) c Q.
Proof.
  induction l as [|n l IH]; intros f c Q H; cbn [checkFormalEllipsis_f]; [repeat C1; apply H; constructor|].
  destruct l as [|n2 l]; [repeat C1; apply H; constructor|]. C1. C1.
  - unfold removeFormal. repeat C1; discriminate.
  - C1. apply IH. intros H1. apply H. change (inits (n :: n2 :: l)) with (n :: inits (n2 :: l)). constructor; auto.
    destruct (f_ell n); [discriminate|reflexivity].
Qed.
Lemma cl_empty {Qt : Quiet} l : forall c (Q : unit -> core_ -> Prop),
  (Forall (fun n => f_comma n = None \/ f_id n <> None \/ f_ell n <> None) (inits l) -> Q tt c) ->
  cl (checkFormalEmpty l) c Q.
Proof.
  induction l as [|n l IH]; intros c Q H; cbn [checkFormalEmpty]; [repeat C1; apply H; constructor|].
  destruct l as [|n2 l]; [repeat C1; apply H; constructor|]. C1. C1.
  - repeat C1; discriminate.
  - C1. apply IH. intros H1. apply H. change (inits (n :: n2 :: l)) with (n :: inits (n2 :: l)). constructor; auto.
    destruct (f_comma n); [|auto]. destruct (f_id n); [right; left; discriminate|].
    destruct (f_ell n); [right; right; discriminate|discriminate].
Qed.
Lemma q_dedup {Qt : Quiet} l : forall d, quiet (dedupFormal d l).
Proof.
  induction l as [|n l IH]; intros d c Q H; cbn [dedupFormal]; repeat (C1 || (apply IH; intros)); auto.
Qed.
Lemma cl_onFormals {Qt : Quiet} src r l c (Q : node -> core_ -> Prop) :
  (formals_ok true l -> Forall (fun n => f_ell n = None) (inits l) ->
   Forall (fun n => f_comma n = None \/ f_id n <> None \/ f_ell n <> None) (inits l) ->
   forall i d, Q (NFormals i r l d) c) -> cl (onFormals src r l) c Q.
Proof.
  intros H. unfold onFormals. C1. apply cl_sep. intros H1. C1.
  assert (G : cl (do! checkFormalEllipsis src l in ret tt) c (fun _ c' => c' = c /\ Forall (fun n => f_ell n = None) (inits l))).
  { C1. unfold checkFormalEllipsis. destruct l as [|n l]; [repeat C1; split; auto; constructor|].
    apply cl_ell. intros. repeat C1. auto. }
  intros s a s' Ec E En Hq. assert (E' : (do! checkFormalEllipsis src l in ret tt) s = Ok (tt, s')).
  { unfold pbind. rewrite E. reflexivity. }
  destruct (G s tt s' Ec E' En Hq) as [-> H2]. C1. apply cl_empty. intros H3. C1. apply q_dedup. intros d.
  repeat C1. auto.
Qed.
