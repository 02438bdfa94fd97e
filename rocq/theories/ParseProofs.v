(** The parser as a whole: every request keeps the invariant (by induction on the fuel), and what follows for
    documents. *)
From Coq Require Import Permutation.
From Verif Require Import Base Diag LexModel LexSpec LexProofs AstModel PSupModel SemaModel ParseModel ParseSpec
  ParseInv ParseTree ParseSema ParseStep ParseFun ParseFun2 ParseFun3 ParseFun4 ParseFun5 ParseFun6 ParseFun7 ParseFun8.

Section Main.
Variable src : bytes.

Lemma step_ok fuel rec q s : RecOK src fuel rec -> Inv src s -> pre src q s -> T src q s <= fuel ->
  wp src (step src rec q) (post src q s) s.
Proof.
  intros R I Hp Ht. destruct q; cbn [step].
  - eapply fun_expr; eauto.
  - eapply fun_op; eauto.
  - eapply fun_oploop; eauto.
  - eapply fun_app; eauto.
  - eapply fun_apploop; eauto.
  - eapply fun_select; eauto.
  - eapply fun_simple; eauto.
  - eapply fun_paren; eauto.
  - eapply fun_list; eauto.
  - eapply fun_listloop; eauto.
  - eapply fun_string; eauto.
  - eapply fun_parts; eauto.
  - eapply fun_path; eauto.
  - eapply fun_pathloop; eauto.
  - eapply fun_interp; eauto.
  - eapply fun_attrname; eauto.
  - eapply fun_attrpath; eauto.
  - eapply fun_attrpathloop; eauto.
  - eapply fun_binding; eauto.
  - eapply fun_inherit; eauto.
  - eapply fun_inheritloop; eauto.
  - eapply fun_binds; eauto.
  - eapply fun_bindsloop; eauto.
  - eapply fun_attrs; eauto.
  - eapply fun_if; eauto.
  - eapply fun_assert; eauto.
  - eapply fun_let; eauto.
  - eapply fun_legacylet; eauto.
  - eapply fun_with; eauto.
  - eapply fun_formal; eauto.
  - eapply fun_formals; eauto.
  - eapply fun_formalsloop; eauto.
  - eapply fun_lambdaarg; eauto.
  - eapply fun_lambda; eauto.
Qed.

Lemma run_ok n : RecOK src n (run src n).
Proof.
  induction n as [|n IH]; intros q s I Hp Ht; [lia|]. cbn [run]. eapply step_ok; eauto. lia.
Qed.

Lemma Inv_init : Inv src (pinit src).
Proof.
  constructor; cbn.
  - exists []. split; [reflexivity|]. split; [reflexivity|]. split; [reflexivity|].
    exists [], []. repeat split; auto.
  - discriminate.
  - apply gap_refl.
  - discriminate.
  - constructor.
Qed.

(** what a clean run says about the document *)
Definition covers (o : option node) : Prop :=
  match o with
  | Some n => gap src 0 (off (nl n)) /\ gap src (off (nr n)) (List.length src)
  | None => gap src 0 (List.length src)
  end.

Lemma parse_st_ok : match parse_st src with
  | Ok (o, s) => Inv src s /\ (forall n, o = Some n -> fine src 0 (pnid s) n /\ is_expr n) /\ (nd s = 0 -> covers o)
  | Crash w => allowed src w
  | OutOfFuel => False
  end.
Proof.
  change (wp src (let! e := run src (parse_fuel src) QExpr in
   let! t := peek 0 in
   do! (if tkind_beq (tk t) tok_eof then ret tt else emit (diag0 DK_UnexpectedText (trange t))) in
   ret e) (fun o s => Inv src s /\ (forall n, o = Some n -> fine src 0 (pnid s) n /\ is_expr n) /\ (nd s = 0 -> covers o))
   (pinit src)).
  apply wp_bind. eapply wp_mono.
  { apply run_ok.
    - apply Inv_init.
    - split; [reflexivity|exact Logic.I].
    - unfold T, parse_fuel. cbn [rank]. lia. }
  intros o s (I & M & H). apply wp_bind. apply (wp_peek src 0 []); auto; [now exists (pbuf s)|].
  intros t bf s1 I1 B1 Pk Hs _. specialize (Hs eq_refl). destruct Hs as (Hst & Hb1 & Hb2).
  destruct Pk as (P1 & P2 & P3 & P4 & P5 & P6 & P7 & P8 & P9 & P10).
  assert (Hm : mode s = PS_Expr) by (rewrite (md_mode _ _ M); reflexivity).
  apply wp_bind.
  assert (Fine : forall s2, pnid s1 <= pnid s2 -> forall n, o = Some n -> fine src 0 (pnid s2) n /\ is_expr n).
  { intros s2 L n ->. split; [|exact (r_kind _ _ _ _ _ H)].
    eapply (fine_mono src 0 (pnid s)); [|lia|lia]. apply (r_fine _ _ _ _ _ H); [lia|apply idl_nil]. }
  destruct (tkind_beq (tk t) tok_eof) eqn:Ek.
  - apply tkind_beq_eq in Ek. apply wp_ret. apply wp_ret. split; [assumption|]. split; [now apply Fine|].
    intros Hn. assert (Hn0 : nd s = 0) by lia.
    assert (Gt : gap src (lastpos s) (List.length src)).
    { pose proof (i_buf _ _ I1) as Hb. rewrite B1 in Hb. cbn [app bufok] in Hb. destruct Hb as (G & Tk & _).
      rewrite P6 in G. destruct Tk as (F & Sp & He). rewrite P3, Hm in *. specialize (He eq_refl Ek).
      eapply gap_trans; [exact G|].
      assert (V : tview t = []).
      { destruct Sp as [Sp|[_ [[? _]|[? _]]]]; try congruence. rewrite Ek in Sp. inversion Sp; auto.
        exfalso. match goal with X : In _ documented |- _ => revert X end. unfold documented. simpl.
        intros X. repeat (destruct X as [X|X]; [discriminate|]). exact X. }
      pose proof (token_len src t F) as L. rewrite V in L. cbn [List.length] in L.
      destruct F as (_ & _ & Hle & _). replace (off (lcur (trange t))) with (List.length src) by lia. apply gap_refl. }
    destruct o as [n|].
    + split.
      * pose proof (r_begin _ _ _ _ _ H) as [G _]. exact G.
      * rewrite (r_clean _ _ _ _ _ H Hn0). exact Gt.
    + destruct H as [_ H]. specialize (H Hn0). unfold covers. unfold lastpos in Gt. rewrite H in Gt. exact Gt.
  - apply wp_emit; auto.
    + split; [|split; [split; [reflexivity|constructor]|constructor]]. split; [|split; constructor].
      exact (tokok_range src _ _ P10).
    + intros s2 I2 S2 Hn. apply wp_ret. split; [assumption|]. split; [|lia]. apply Fine. apply (st_nid _ _ S2).
Qed.

Lemma parse_ok : match parse src with
  | Ok (o, ds) => Forall (dok src) ds /\ (forall n, o = Some n -> (exists k, fine src 0 k n) /\ is_expr n) /\
      (ds = [] -> covers o)
  | Crash w => allowed src w
  | OutOfFuel => False
  end.
Proof.
  pose proof parse_st_ok as H. unfold parse. destruct (parse_st src) as [[o s]|w|]; auto.
  destruct H as (I & H1 & H2). split; [apply Forall_rev; apply I|]. split.
  - intros n E. destruct (H1 n E). eauto.
  - intros E. apply H2. unfold nd. rewrite <- rev_length, E. reflexivity.
Qed.
End Main.

(** * The fuel does not matter *)
Definition ref {A} (m m' : P A) : Prop := forall s, m s = OutOfFuel \/ m s = m' s.
Lemma ref_refl {A} (m : P A) : ref m m.
Proof. intros s. now right. Qed.
Lemma ref_bind {A B} (m m' : P A) (k k' : A -> P B) : ref m m' -> (forall a, ref (k a) (k' a)) -> ref (pbind m k) (pbind m' k').
Proof.
  intros H1 H2 s. unfold pbind. destruct (H1 s) as [E|E]; rewrite E; [now left|].
  destruct (m' s) as [[a s']|w|]; auto. apply H2.
Qed.
Lemma ref_withSync {A} k (m m' : P A) : ref m m' -> ref (withSync k m) (withSync k m').
Proof. intros H s. unfold withSync. destruct (H (set_sync (k :: psync s) s)) as [E|E]; rewrite E; auto. Qed.
Lemma ref_withState {A} src m (x x' : P A) : ref x x' -> ref (withState src m x) (withState src m x').
Proof.
  intros H. unfold withState. apply ref_bind; [apply ref_refl|intros]. apply ref_bind; [exact H|intros]. apply ref_refl.
Qed.

Ltac refs H := repeat first
  [ apply ref_refl | apply H | apply ref_withSync | apply ref_withState | apply ref_bind; [|intros]
  | match goal with |- ref (match ?x with _ => _ end) _ => destruct x end ].
Lemma step_ref src rec rec' q : (forall q, ref (rec q) (rec' q)) -> ref (step src rec q) (step src rec' q).
Proof.
  intros H. destruct q; cbn [step];
    unfold parseExprParen, parseExprListLoop, parseExprList, parseExprSimple, parseInterpolation, parseExprPathLoop, parseExprPath, parseStringParts, parseString, parseExprSelect, parseExprAppLoop, parseExprApp, parseExpr, parseExprIf, parseExprAssert, parseExprLet, parseExprWith, parseExprLegacyLet, parseExprOpLoop, parseExprOpBP, parseAttrName, parseAttrPathLoop, parseAttrPath, parseBinding, parseInheritLoop, parseInherit, parseBindsLoop, parseBinds, parseExprAttrs, parseFormal, parseFormalsLoop, parseFormals, parseLambdaArg, parseExprLambda;
    cbv zeta; refs H.
Qed.
Lemma run_ref src n k q : ref (run src n q) (run src (k + n) q).
Proof.
  revert q. induction n as [|n IH]; intros q; [intros s; now left|]. rewrite Nat.add_succ_r. cbn [run].
  now apply step_ref.
Qed.
Lemma run_enough src fuel s : parse_fuel src <= fuel -> s = pinit src ->
  run src fuel QExpr s <> OutOfFuel /\ run src fuel QExpr s = run src (parse_fuel src) QExpr s.
Proof.
  intros L ->. pose proof (run_ok src (parse_fuel src) QExpr (pinit src) (Inv_init src)) as H.
  unfold wp in H. destruct (run_ref src (parse_fuel src) (fuel - parse_fuel src) QExpr (pinit src)) as [E|E].
  - rewrite E in H. exfalso. apply H; [split; [reflexivity|exact Logic.I]|]. unfold T, parse_fuel. cbn [rank]. lia.
  - replace (fuel - parse_fuel src + parse_fuel src) with fuel in E by lia. rewrite E. split; [|reflexivity].
    rewrite <- E. intros E2. rewrite E2 in H. apply H; [split; [reflexivity|exact Logic.I]|].
    unfold T, parse_fuel. cbn [rank]. lia.
Qed.

(** * Trees *)
Lemma fields_in n c : In c (fields n) -> In c (proper n) \/ In c (extras n) \/
  exists i r cm d e, n = NFormal i r cm (Some c) d (Some e) \/ n = NFormal i r cm d (Some c) (Some e).
Proof.
  unfold fields. intros H. apply in_app_or in H as [H|H].
  - destruct n; try (left; exact H); cbn [children] in H; rewrite ?present_cons, ?present_nil, ?app_nil_r in H; cbn [proper extras].
    + apply in_app_or in H as [H|H]; [now left|]. right. left. apply in_or_app. now left.
    + apply in_app_or in H as [H|H]; [|now left]. right. left. exact H.
  - destruct n; try (destruct H); cbn [proper extras]; try (right; left; (exact H || (now left) || (apply in_or_app; right; exact H))).
    apply in_app_or in H as [H|H]; [right; left; exact H|].
    destruct ell as [e|].
    + right. right. apply in_app_or in H as [H|H].
      * destruct ident as [x|]; [|destruct H]. destruct H as [->|[]]. do 5 eexists. left. reflexivity.
      * destruct dflt as [x|]; [|destruct H]. destruct H as [->|[]]. do 5 eexists. right. reflexivity.
    + left. unfold proper. cbn [children]. rewrite !present_cons, present_nil, app_nil_r. exact H.
Qed.
Lemma within_sok src n m : within n m -> sok src n -> sok src m.
Proof.
  intros H. induction H as [n|n c m Hc Hw IH]; intros S; [exact S|]. apply IH.
  destruct (sok_inv src n S) as (L & P & X). rewrite Forall_forall in P, X.
  destruct (fields_in n c Hc) as [H|[H|(i & r & cm & d & e & [->| ->])]]; auto;
    destruct L as (_ & _ & (_ & _ & _ & _ & T) & _); destruct T as [? ?]; discriminate.
Qed.

Lemma child_in n c : In c (present (children n)) -> In c (proper n) \/
  (exists i r bd st dy, n = NAttrs i r bd (Some c) st dy) \/ (exists i r a, n = NLegacyLet i r c a).
Proof.
  intros H. destruct n; try (left; exact H); cbn [children] in H; rewrite ?present_cons, ?present_nil, ?app_nil_r in H; cbn [proper].
  - apply in_app_or in H as [H|H]; [now left|]. right. left. destruct rc as [x|]; [|destruct H]. destruct H as [->|[]]. repeat eexists.
  - destruct H as [->|H]; [|now left]. right. right. repeat eexists.
Qed.
Lemma misc_leaf n m : is_kind NK_Misc n -> node_of n m -> m = n.
Proof. intros K H. destruct H as [n|n c m Hc _]; [reflexivity|]. destruct n; try discriminate. destruct Hc. Qed.
Lemma keyword_misc src n c : sok src n ->
  (exists i r bd st dy, n = NAttrs i r bd (Some c) st dy) \/ (exists i r a, n = NLegacyLet i r c a) -> is_kind NK_Misc c.
Proof.
  intros S [(i & r & bd & st & dy & ->)|(i & r & a & ->)]; destruct (sok_inv src _ S) as ((_ & _ & T & _) & _ & _).
  - apply T.
  - apply T.
Qed.
Lemma node_of_shape src n m : nok src n -> node_of n m -> nok src m \/ is_kind NK_Misc m.
Proof.
  intros N H. induction H as [n|n c m Hc Hn IH]; [now left|]. destruct (child_in n c Hc) as [Hp|Hk].
  - apply IH. destruct N as [S F]. split.
    + destruct (sok_inv src n S) as (_ & P & _). rewrite Forall_forall in P. auto.
    + rewrite nodes_eq in F. apply Forall_inv_tail in F. rewrite Forall_forall in *. intros x Hx. apply F.
      apply in_flat_map. eauto.
  - right. pose proof (keyword_misc src n c (proj1 N) Hk) as K. now rewrite (misc_leaf c m K Hn).
Qed.

Lemma nested_children src n m c : nok src n -> node_of n m -> In c (present (children m)) ->
  inside (nrange c) (nrange m) \/
  (exists i r bd st dy, m = NAttrs i r bd (Some c) st dy /\ text_of src (nrange c) = b "let").
Proof.
  intros N H Hc. destruct (node_of_shape src n m N H) as [[S F]|K]; [|destruct m; try discriminate; destruct Hc].
  destruct (child_in m c Hc) as [Hp|[(i & r & bd & st & dy & ->)|(i & r & a & ->)]].
  - left. rewrite nodes_eq in F. apply Forall_inv in F. destruct F as [F _]. rewrite Forall_forall in F. auto.
  - destruct (sok_inv src _ S) as ((_ & _ & _ & L) & _ & _). destruct L as [L|L]; [now left|]. right. repeat eexists. exact L.
  - destruct (sok_inv src _ S) as ((_ & _ & _ & L) & _ & _). now left.
Qed.
Lemma apart_children src n m : nok src n -> node_of n m -> ForallOrdPairs (fun c d => apart (nrange c) (nrange d)) (proper m).
Proof.
  intros N H. destruct (node_of_shape src n m N H) as [[S F]|K]; [|destruct m; try discriminate; constructor].
  rewrite nodes_eq in F. apply Forall_inv in F. apply F.
Qed.

(** * Messages *)
Lemma holes_char c msg : ~ (c = "{"%char /\ exists msg', msg = "}"%char :: msg') -> holes (c :: msg) = holes msg.
Proof.
  intros H. cbn [holes]. destruct msg as [|c2 msg]; [reflexivity|].
  destruct (Ascii.eqb_spec c "{"); [|reflexivity]. destruct (Ascii.eqb_spec c2 "}"); [|reflexivity].
  subst. exfalso. apply H. eauto.
Qed.
Lemma format_char c msg args : ~ (c = "{"%char /\ exists msg', msg = "}"%char :: msg') ->
  simpleFormat (c :: msg) args = (let* r := simpleFormat msg args in Ok (c :: r)).
Proof.
  intros H. cbn [simpleFormat]. destruct c as [[|] [|] [|] [|] [|] [|] [|] [|]]; try reflexivity.
  destruct msg as [|c2 msg]; [reflexivity|].
  destruct c2 as [[|] [|] [|] [|] [|] [|] [|] [|]]; try reflexivity. exfalso. apply H. eauto.
Qed.
Lemma format_fills n : forall msg args, List.length msg <= n -> holes msg = List.length args ->
  exists text, simpleFormat msg args = Ok text /\ fills msg args text.
Proof.
  induction n as [|n IH]; intros msg args L E.
  - destruct msg; [|simpl in L; lia]. destruct args; [|discriminate]. exists []. split; [reflexivity|constructor].
  - destruct msg as [|c msg]; [destruct args; [|discriminate]; exists []; split; [reflexivity|constructor]|].
    destruct (ascii_dec c "{") as [->|Hc].
    2:{ assert (N : ~ (c = "{"%char /\ exists msg', msg = "}"%char :: msg')) by tauto.
        rewrite holes_char in E by exact N. destruct (IH msg args) as (text & E1 & E2); [simpl in L; lia|exact E|].
        exists (c :: text). rewrite format_char, E1 by exact N. split; [reflexivity|]. now constructor. }
    assert (D : (exists msg', msg = "}"%char :: msg') \/ ~ (exists msg', msg = "}"%char :: msg')).
    { destruct msg as [|c2 msg]; [right; intros [? ?]; discriminate|].
      destruct (ascii_dec c2 "}") as [->|]; [left; eauto|right; intros [? X]; congruence]. }
    destruct D as [[msg' ->]|D].
    + cbn [holes] in E. rewrite !Ascii.eqb_refl in E. cbn [andb] in E. destruct args as [|a args]; [discriminate|].
      destruct (IH msg' args) as (text & E1 & E2); [simpl in L; lia|simpl in E; lia|].
      exists (a ++ text). cbn [simpleFormat]. rewrite E1. split; [reflexivity|]. now apply (fills_hole msg').
    + assert (N : ~ ("{"%char = "{"%char /\ exists msg', msg = "}"%char :: msg')) by tauto.
      rewrite holes_char in E by exact N. destruct (IH msg args) as (text & E1 & E2); [simpl in L; lia|exact E|].
      exists ("{"%char :: text). rewrite format_char, E1 by exact N. split; [reflexivity|]. now constructor.
Qed.
Lemma instantiated_renders d : instantiated d ->
  (exists text, d_format d = Ok text /\ fills (dmessage (d_kind d)) (d_args d) text) /\
  Forall (fun n => exists text, n_format n = Ok text /\ fills (nmessage (n_kind n)) (n_args n) text) (d_notes d).
Proof.
  intros [H1 H2]. split; [eapply format_fills; eauto|]. eapply Forall_impl; [|exact H2].
  intros n H. eapply format_fills; eauto.
Qed.

Lemma skipn_len {A} (l : list A) : skipn (List.length l) l = [].
Proof. apply skipn_all. Qed.
Lemma covers_some src n : range_in src (nrange n) -> covers src (Some n) ->
  exists lead trail, src = lead ++ text_of src (nrange n) ++ trail /\
    trivia lead (text_of src (nrange n) ++ trail) /\ trivia trail [].
Proof.
  intros (_ & _ & R) [[L1 T1] [L2 T2]]. unfold nl, nr in *. set (i := off (lcur (nrange n))) in *. set (j := off (rcur (nrange n))) in *.
  exists (slice src 0 i), (slice src j (List.length src)).
  rewrite skipn_len in T2. split; [|split; [|exact T2]].
  - unfold text_of. fold i j. rewrite <- (slice_split src i j (List.length src)), <- (slice_split src 0 i (List.length src)) by lia.
    unfold slice. rewrite Nat.sub_0_r. cbn [skipn]. now rewrite firstn_all.
  - unfold text_of. fold i j. rewrite <- (slice_split src i j (List.length src)) by lia.
    rewrite (skipn_split src i (List.length src)), skipn_len, app_nil_r in T1 by lia. exact T1.
Qed.
Lemma covers_none src : covers src None -> trivia src [].
Proof.
  intros [_ H]. rewrite skipn_len in H. unfold slice in H. rewrite Nat.sub_0_r in H. cbn [skipn] in H. now rewrite firstn_all in H.
Qed.
Lemma nsrc_range src n : range_in src (nrange n) -> nsrc src n = Ok (text_of src (nrange n)).
Proof.
  intros (C1 & _ & R). unfold nsrc, text_of, slice, nl, nr. destruct C1 as (p & q & E & (Ho & _)).
  assert (off (lcur (nrange n)) <= List.length src) by (rewrite E, app_length; lia).
  destruct (Nat.ltb_spec (List.length src) (off (lcur (nrange n)))); [lia|].
  destruct (Nat.ltb_spec (off (rcur (nrange n))) (off (lcur (nrange n)))); [lia|]. reflexivity.
Qed.

(** deciding [occurs], for the examples *)
Fixpoint absent (w l : bytes) : bool :=
  match l with [] => negb (starts_with w []) | _ :: l' => negb (starts_with w l) && absent w l' end.
Lemma absent_ok w l : absent w l = true -> ~ occurs w l.
Proof.
  assert (A : forall q, starts_with w (w ++ q) = true) by (intros q; apply starts_with_spec; eauto).
  induction l as [|c l IH]; intros H (p & q & E).
  - destruct p; [|discriminate]. cbn [app] in E. cbn [absent] in H. rewrite E, A in H. discriminate.
  - cbn [absent] in H. apply andb_prop in H as [Ha Hb]. destruct p as [|c' p].
    + cbn [app] in E. rewrite E, A in Ha. discriminate.
    + injection E as <- E. apply (IH Hb). exists p, q. exact E.
Qed.
