(** Proofs of the theorems stated in GramProps. *)
From Verif Require Import Base Diag LexModel LexSpec LexProofs LexLongSpec AstModel PSupModel SemaModel ParseModel ParseSpec ActSpec GramSpec GramBase GramStep GramProofs GramSub OpSpec ReadOp.

Local Instance errors_only : Quiet := false.
Definition calm (ds : list diag) : bool := forallb (fun d => negb (errb d)) ds.
Lemma calm_ok ds : calm ds = true -> no_errors ds.
Proof.
  intros H d Hd. unfold calm in H. rewrite forallb_forall in H. specialize (H d Hd). unfold errb in H.
  destruct (severity_of (d_kind d)); try discriminate H; split; discriminate.
Qed.
Lemma no_errors_calm ds : no_errors ds -> calm ds = true.
Proof.
  intros H. apply forallb_forall. intros d Hd. destruct (H d Hd) as [H1 H2]. unfold errb.
  destruct (severity_of (d_kind d)); auto; congruence.
Qed.
Lemma calm_nerr s : calm (rev (diags (plex s))) = true -> nerr s = 0.
Proof.
  intros H. unfold nerr. assert (X : forall l, forallb (fun d => negb (errb d)) l = true -> filter errb l = []).
  { induction l as [|d l IH]; auto. cbn. destruct (errb d); [discriminate|]. auto. }
  rewrite X; auto. unfold calm in H. rewrite forallb_forall in *. intros d Hd. apply H. now apply in_rev in Hd.
Qed.
Lemma parse_derives src n ds : parse src = Ok (Some n, ds) -> no_errors ds ->
  exists its, layout its src /\ gram false (Expr n) its.
Proof.
  unfold parse. destruct (parse_st src) as [[r s]|w|] eqn:E; try discriminate. intros [= -> <-] H.
  eapply parse_grammar; eauto. apply calm_nerr, no_errors_calm, H.
Qed.
(** refutation helpers, generic in the document *)
Definition check (f : node -> bool) (src : bytes) : bool :=
  match parse src with Ok (Some n, ds) => calm ds && f n | _ => false end.
Lemma check_ok f src : check f src = true -> exists n ds, parse src = Ok (Some n, ds) /\ no_errors ds /\ f n = true.
Proof.
  unfold check. destruct (parse src) as [[[n|] ds]|w|]; try discriminate. intros H. apply andb_true_iff in H as [H1 H2].
  exists n, ds. auto using calm_ok.
Qed.
Ltac nops := repeat match goal with H : gram _ ?X _ |- _ =>
  lazymatch X with Expr _ => idtac | Op _ => idtac | App _ => idtac | Sel _ => idtac | Simple _ => idtac | Str _ _ => idtac end;
  inversion H; clear H; subst end.
Definition is_has_nothing (n : node) : bool := match n with NHasAttr _ _ _ _ None => true | _ => false end.
Lemma no_has_nothing n its : is_has_nothing n = true -> ~ gram true (Expr n) its.
Proof. destruct n; try discriminate. destruct path; try discriminate. intros _ H. inversion H; subst. clear H. inversion H1; subst; try discriminate. nops. Qed.
Definition is_comma_first (n : node) : bool :=
  match n with
  | NLambda _ _ (Some (NLambdaArg _ _ _ (Some (NFormals _ _ [NFormal _ _ (Some _) _ _ _] _)))) _ => true
  | _ => false
  end.
Lemma formals_some i : ~ gram true (Formals true []) i.
Proof. intros H. inversion H. now destruct ms. Qed.
Lemma no_comma_set a r j q c x d e dd i : ~ gram true (FormalSet (NFormals a r [NFormal j q (Some c) x d e] dd)) i.
Proof.
  intros H.
  assert (Y : forall ms m i0, ms ++ [m] = [NFormal j q (Some c) x d e] -> ~ gram true (Formals true ms) i0).
  { intros ms m i0 E. destruct ms as [|? [|]]; try discriminate E. apply formals_some. }
  inversion H; subst; try discriminate; try (eapply Y; eauto; fail).
  match goal with X : gram true (Formals _ _) _ |- _ => inversion X; subst; try discriminate end; eapply Y; eauto.
Qed.
Lemma no_comma_first n its : is_comma_first n = true -> ~ gram true (Expr n) its.
Proof.
  destruct n; try discriminate. cbn. destruct arg as [[]|]; try discriminate.
  destruct formals as [[]|]; try discriminate. destruct members as [|[] [|]]; try discriminate; destruct comma; try discriminate.
  intros _ H. inversion H; subst; [nops|].
  match goal with X : gram true (Arg _) _ |- _ => inversion X; subst end; eapply no_comma_set; eauto.
Qed.
Definition item_ok (i : item) : Prop := match i with It _ m k v => spelled m k v \/ (m = PS_Expr /\ odd_token k v) end.
Lemma layout_items its s : layout its s -> Forall item_ok its.
Proof. induction 1; constructor; auto. Qed.
Definition undollar (x : ascii + node) : Prop := match x with inl c => c <> "$"%char | inr _ => True end.
Lemma frag_chars v : spelled PS_Path tok_path_fragment v -> Forall (fun c => c <> "$"%char) v.
Proof.
  intros H. inversion H; subst.
  all: repeat constructor; try discriminate; try (eapply Forall_impl; [|eassumption]; intros c Hc ->; revert Hc; unfold path_char, one_of; cbv; intuition discriminate).
Qed.
Lemma frags_undollar X i : gram true X i -> Forall item_ok i ->
  match X with Frags _ fs => Forall undollar fs | _ => True end.
Proof.
  assert (T : forall v, spelled PS_Path tok_path_fragment v -> Forall undollar (map inl v)).
  { intros v Hv. apply Forall_map. eapply Forall_impl; [|apply (frag_chars _ Hv)]. auto. }
  assert (F : forall g v, item_ok (It g PS_Path tok_path_fragment v) -> spelled PS_Path tok_path_fragment v).
  { intros g v [H|[H _]]; [exact H|discriminate H]. }
  induction 1; auto; intros Hi.
  - apply T. inversion_clear Hi. eauto.
  - apply Forall_app in Hi as [Hi _]. apply Forall_app. split; auto. constructor; [exact I|constructor].
  - apply Forall_app in Hi as [Hi Hj]. inversion_clear Hj. apply Forall_app. split; eauto.
  - apply Forall_app in Hi as [Hi _]. auto.
  - discriminate.
Qed.
Definition is_dollar_path (n : node) : bool :=
  match n with
  | NPath _ _ (NParts _ _ fs) => existsb (fun x => match x with inl c => Ascii.eqb c "$" | inr _ => false end) (flatten fs)
  | _ => false
  end.
Lemma no_dollar_path n its src : is_dollar_path n = true -> layout its src -> ~ gram true (Expr n) its.
Proof.
  destruct n; try discriminate. destruct n; try discriminate. intros H L Hg.
  assert (X : gram true (Frags true (flatten frags)) its) by (nops; auto).
  apply layout_items in L. apply frags_undollar in X; [|exact L]. cbn [is_dollar_path] in H. apply existsb_exists in H as (x & Hx & Hd).
  rewrite Forall_forall in X. specialize (X x Hx). destruct x as [c|m]; [|discriminate]. apply Ascii.eqb_eq in Hd. auto.
Qed.
Lemma nestsb_complete o1 o2 : nests o1 o2 -> nestsb o1 o2 = true.
Proof.
  intros (n1 & a1 & n2 & a2 & E1 & E2 & H). unfold nestsb. rewrite E1, E2.
  destruct H as [H|(-> & -> & ->)]; apply orb_true_iff; [left; now apply Nat.ltb_lt|right]. now rewrite Nat.eqb_refl.
Qed.
Lemma closesb_complete o1 o2 : closes o1 o2 -> closesb o1 o2 = true.
Proof.
  intros (n1 & a1 & n2 & a2 & E1 & E2 & H). unfold closesb. rewrite E1, E2.
  destruct H as [H|(-> & -> & ->)]; apply orb_true_iff; [left; now apply Nat.ltb_lt|right]. now rewrite Nat.eqb_refl.
Qed.
Definition never (_ _ : opr) : Prop := False.
Definition groupedb (n : node) : bool :=
  match n with
  | NBinOp _ _ (NOp _ _ k) (Some l) (Some r) => forallb (fun o => closesb o (Bin k)) (right_edge l) && forallb (nestsb (Bin k)) (left_edge r)
  | NUnary _ _ (NOp _ _ k) (Some e) => forallb (nestsb (Pre k)) (left_edge e)
  | NHasAttr _ _ _ (Some e) _ => forallb (fun o => closesb o Has) (right_edge e)
  | _ => true
  end.
Lemma groupedb_complete n : grouped never n -> groupedb n = true.
Proof.
  assert (N : forall o l, Forall (fun o2 => nests o o2 \/ never o o2) l -> forallb (nestsb o) l = true).
  { intros o l H. apply forallb_forall. intros x Hx. rewrite Forall_forall in H. destruct (H x Hx) as [H1|[]]. now apply nestsb_complete. }
  assert (K : forall o l, Forall (fun o1 => closes o1 o \/ never o1 o) l -> forallb (fun o1 => closesb o1 o) l = true).
  { intros o l H. apply forallb_forall. intros x Hx. rewrite Forall_forall in H. destruct (H x Hx) as [H1|[]]. now apply closesb_complete. }
  unfold grouped, groupedb. destruct n; auto.
  all: repeat match goal with |- context [match ?x with _ => _ end] => is_var x; destruct x; auto end.
  intros [H1 H2]. apply andb_true_iff. auto.
Qed.
Definition badly (n : node) : bool := negb (groupedb n).
Lemma badly_ok src : check badly src = true -> exists n ds, parse src = Ok (Some n, ds) /\ no_errors ds /\ ~ grouped never n.
Proof.
  intros H. apply check_ok in H as (n & ds & E & Hn & Hb). exists n, ds. split; auto. split; auto. intros Hg.
  apply groupedb_complete in Hg. unfold badly in Hb. rewrite Hg in Hb. discriminate.
Qed.
Lemma never_nests_nonassoc o1 o2 lv : documented_op o1 = Some (lv, NonA) -> documented_op o2 = Some (lv, NonA) -> ~ closes o1 o2 /\ ~ nests o1 o2.
Proof.
  intros E1 E2. split; intros (n1 & a1 & n2 & a2 & F1 & F2 & H); rewrite E1 in F1; rewrite E2 in F2; injection F1 as <- <-; injection F2 as <- <-;
    destruct H as [H|(_ & H & _)]; try lia; discriminate.
Qed.
Lemma lay0 g m k v its more : spelled m k v \/ (m = PS_Expr /\ odd_token k v) -> longest m k v more -> layout its more ->
  layout (It g m k v :: its) (v ++ more).
Proof. intros. apply (layout_item g m k v its [] more); auto. apply trivia_nil. Qed.
Lemma quote2_longest r : longest PS_Expr tok_quote2 (b "''") (b "a" ++ r).
Proof.
  split.
  - intros k v H [q E]. split; [|discriminate]. unfold documented in H. simpl in H.
    repeat (destruct H as [H|H]; [injection H as <- <-; try (cbn; lia); try discriminate E|]). destruct H.
  - cbn. repeat split; try discriminate. intros H. repeat (destruct H as [H|H]; [discriminate|]). destruct H.
Qed.
Lemma no_quotes c : [c] = [c] -> ~ occurs (b "''") [c].
Proof. intros _ (x & y & E). apply (f_equal (@List.length _)) in E. rewrite !app_length in E. cbn in E. lia. Qed.
Lemma part_longest c r : c <> "$"%char -> c <> "'"%char -> begins (b "''") r -> longest PS_IndString tok_string_part [c] r.
Proof.
  intros Hc Hq H. split; [|discriminate]. intros _. split; [|split; [|split]]; auto.
  - intros x y E. exfalso. apply (f_equal (@List.length _)) in E. rewrite !app_length in E. cbn in E. lia.
  - intros _ [[|d x] E]; cbn in E; injection E as E; [congruence|]. destruct x; discriminate.
  - intros [|d x] y E; cbn in E; injection E as E _; [congruence|]. cbn. lia.
Qed.

Lemma C68_partial_proof : forall src n ds, parse src = Ok (Some n, ds) -> no_errors ds ->
  exists its, layout its src /\ gram false (Expr n) its.
Proof. apply parse_derives. 
Qed.

Lemma C68_refuted_proof :
  (exists n ds, parse (b "a ?") = Ok (Some n, ds) /\ no_errors ds /\ forall its, ~ gram true (Expr n) its) /\
  (exists n ds, parse (b "x@{ , a }: a") = Ok (Some n, ds) /\ no_errors ds /\ forall its, ~ gram true (Expr n) its) /\
  (exists n ds, parse (b "./a${x}${${y}") = Ok (Some n, ds) /\ no_errors ds /\
     forall its, layout its (b "./a${x}${${y}") -> ~ gram true (Expr n) its).
Proof.
  split; [|split].
  - destruct (check_ok is_has_nothing (b "a ?")) as (n & ds & E & H & K); [vm_compute; reflexivity|].
    exists n, ds. split; auto. split; auto. intros its. now apply no_has_nothing.
  - destruct (check_ok is_comma_first (b "x@{ , a }: a")) as (n & ds & E & H & K); [vm_compute; reflexivity|].
    exists n, ds. split; auto. split; auto. intros its. now apply no_comma_first.
  - destruct (check_ok is_dollar_path (b "./a${x}${${y}")) as (n & ds & E & H & K); [vm_compute; reflexivity|].
    exists n, ds. split; auto. split; auto. intros its. now apply no_dollar_path.
Qed.

Lemma C72_partial_proof : forall src n, parse src = Ok (Some n, []) ->
  exists its, layout its src /\ gram_at false (spans src) (Expr n) its /\ spans src n its.
Proof.
  unfold parse. intros src n H. destruct (parse_st src) as [[r s]|w|] eqn:E; try discriminate. injection H as -> Hd.
  apply parse_placed with (s := s); auto. apply (f_equal (@rev _)) in Hd. now rewrite rev_involutive in Hd.
Qed.

Lemma C72_bindings_partial_proof : forall src n m, parse src = Ok (Some n, []) -> within n m ->
  match m with NBinding _ _ _ _ _ | NInherit _ _ _ _ => True | _ => False end ->
  exists its, gram_at false (spans src) (Bind m) its /\ spans src m its.
Proof.
  intros src n m H W K. destruct (C72_partial_proof _ _ H) as (its & _ & Hg & _).
  destruct (expr_hasb _ _ m Hg W) as (a & i & c & _ & H1 & H2); eauto.
Qed.

Lemma C20_partial_proof : forall src n ds m, parse src = Ok (Some n, ds) -> no_errors ds -> within n m ->
  grouped misgrouped m.
Proof.
  intros src n ds m E H W. destruct (parse_derives _ _ _ E H) as (its & _ & Hg).
  destruct m; try exact I; (assert (X : has its _) by (eapply gram_has; [exact Hg|now left|exact W|now left]);
    destruct X as (? & ? & ? & _ & X); eapply run_grouped; exact X).
Qed.

Lemma C20_nonassoc_proof : forall src n ds i r io ro k k' lv j q jo qo l' r' x,
  parse src = Ok (Some n, ds) ->
  documented_op (Bin k) = Some (lv, NonA) -> documented_op (Bin k') = Some (lv, NonA) ->
  (within n (NBinOp i r (NOp io ro k) (Some (NBinOp j q (NOp jo qo k') (Some l') (Some r'))) (Some x)) \/
   within n (NBinOp i r (NOp io ro k) (Some x) (Some (NBinOp j q (NOp jo qo k') (Some l') (Some r'))))) ->
  ~ no_errors ds.
Proof.
  intros src n ds i r io ro k k' lv j q jo qo l' r' x E E1 E2 W H.
  assert (M : ~ misgrouped (Bin k) (Bin k') /\ ~ misgrouped (Bin k') (Bin k)).
  { split; intros M; inversion M; subst; cbn in *; try discriminate; repeat (match goal with X : _ \/ _ |- _ => destruct X as [<-|X] | X : False |- _ => destruct X end; try discriminate). }
  destruct M as [M1 M2]. destruct (never_nests_nonassoc _ _ _ E1 E2) as [_ N1]. destruct (never_nests_nonassoc _ _ _ E2 E1) as [N2 _].
  destruct W as [W|W]; pose proof (C20_partial_proof _ _ _ _ E H W) as [G1 G2]; cbn [right_edge left_edge] in *.
  - inversion_clear G1 as [|? ? [?|?] _]; contradiction.
  - inversion_clear G2 as [|? ? [?|?] _]; contradiction.
Qed.

Lemma C20_refuted_proof : forall src, In src
  [b "a / b / c"; b "a * b / c"; b "!a // b"; b "-a ? b"; b "a ? b ? c"; b "a |> b |> c"; b "a <| b <| c"] ->
  exists n ds, parse src = Ok (Some n, ds) /\ no_errors ds /\ ~ grouped (fun _ _ => False) n.
Proof.
  intros src H. apply badly_ok. cbn [In] in H.
  repeat (destruct H as [<-|H]; [vm_compute; reflexivity|]). destruct H.
Qed.

Lemma C20_accepts_partial_proof : forall t, by_table t -> exists n, parse (optext t) = Ok (Some n, []) /\ opshape t n.
Proof.
  intros t H. apply optree_parses, by_table_fits, H.
Qed.

Lemma C21_partial_proof : forall src n ds i r ip rp fs, parse src = Ok (Some n, ds) -> no_errors ds ->
  within n (NString i r (NParts ip rp fs)) ->
  exists before its after, layout (before ++ its ++ after) src /\
    ((exists v, its = [E tok_uri v] /\ flatten fs = map inl v) \/
     (exists v1 inside v2, its = [E tok_dquote v1] ++ inside ++ [It true PS_String tok_dquote v2] /\
        contents (fun _ _ => False) PS_String inside (flatten fs)) \/
     (exists v1 inside v2, its = [E tok_quote2 v1] ++ inside ++ [It true PS_IndString tok_quote2 v2] /\
        contents (fun _ u => u = b "'") PS_IndString inside (flatten fs))).
Proof.
  intros src n ds i r ip rp fs E H W. destruct (parse_derives _ _ _ E H) as (its & L & Hg).
  assert (X : has its (NString i r (NParts ip rp fs))) by (eapply gram_has; [exact Hg|now left|exact W|now right]).
  destruct X as (a & it & c & -> & X). exists a, it, c. split; auto.
  assert (D : forall j f, contents quote_escape PS_String j f -> contents (fun _ _ => False) PS_String j f).
  { induction 1; [apply con_nil|now apply con_text| |now apply con_interp]. apply con_escape; auto. destruct H1 as [?|[? _]]; [auto|discriminate]. }
  destruct X as [it Ho Hx|ind it Hx|v Hx].
  - destruct Ho.
  - inversion Hx; subst; right; [left|right]; eexists _, _, _; (split; [reflexivity|]).
    + apply D. match goal with X : gram _ (Parts _ _) _ |- _ => exact (parts_contents _ _ X) end.
    + match goal with X : gram _ (Parts _ _) _ |- _ => exact (parts_contents _ _ X) end.
  - inversion Hx; subst.
    + left. eexists. split; [reflexivity|]. cbn. now rewrite app_nil_r.
    + match goal with X : gram _ (Str _ _) _ |- _ => inversion X end.
Qed.

Lemma C21_refuted_proof : forall src v u, In (src, v, u) [(b "''a'''b''", b "'''", b "''"); (b "''a''$b''", b "''$", b "$"); (b "''a''\nb''", b "''\n", [lf])] ->
  let inside := [It true PS_IndString tok_string_part (b "a"); It true PS_IndString tok_string_escape v; It true PS_IndString tok_string_part (b "b")] in
  layout ([E tok_quote2 (b "''")] ++ inside ++ [It true PS_IndString tok_quote2 (b "''")]) src /\
  contents (fun _ _ => False) PS_IndString inside (map inl (b "a" ++ u ++ b "b")) /\
  exists n ds, parse src = Ok (Some n, ds) /\ no_errors ds /\ string_value n (b "a'b") /\ b "a'b" <> b "a" ++ u ++ b "b".
Proof.
  intros src v u H inside.
  assert (Hs : src = b "''a" ++ v ++ b "b''" /\ spelled PS_IndString tok_string_escape v /\ escape PS_IndString v u /\
    (exists w, v = b "''" ++ w) /\ check (fun n => match n with NString _ _ (NParts _ _ [inl x]) => bytes_eqb x (b "a'b") | _ => false end) src = true /\
    bytes_eqb (b "a'b") (b "a" ++ u ++ b "b") = false).
  { destruct H as [H|[H|[H|[]]]]; injection H as <- <- <-; (split; [reflexivity|]; split; [|split; [|split; [eexists; reflexivity|split; [vm_compute; reflexivity|reflexivity]]]]).
    - apply sp_ind_quotes. - apply esc_quotes. - apply sp_ind_dollar. - apply esc_dollar. - apply (sp_ind_any "n"). - apply (esc_indented "n"). }
  clear H. destruct Hs as (-> & Sp & Es & (w & Ew) & Hc & Hd). split; [|split].
  - unfold inside. cbn [app].
    apply (lay0 false PS_Expr tok_quote2 (b "''") _ (b "a" ++ v ++ b "b''")); [left; apply sp_fixed; unfold documented; simpl; tauto|apply quote2_longest|].
    apply (lay0 true PS_IndString tok_string_part (b "a") _ (v ++ b "b''")); [left; apply sp_ind_part; [discriminate|apply no_quotes; reflexivity]| |].
    { apply (part_longest "a"); [discriminate|discriminate|]. exists (w ++ b "b''"). rewrite Ew. now rewrite <- app_assoc. }
    apply (lay0 true PS_IndString tok_string_escape v _ (b "b''")); [left; exact Sp|split; discriminate|].
    apply (lay0 true PS_IndString tok_string_part (b "b") _ (b "''")); [left; apply sp_ind_part; [discriminate|apply no_quotes; reflexivity]| |].
    { apply (part_longest "b"); [discriminate|discriminate|]. exists []. reflexivity. }
    apply (lay0 true PS_IndString tok_quote2 (b "''") _ []); [left; apply sp_ind_quote|split; [discriminate|intros _ []]|].
    apply layout_end. apply trivia_nil.
  - unfold inside.
    replace (map inl (b "a" ++ u ++ b "b")) with ((([] ++ @map ascii (ascii + node) inl (b "a")) ++ map inl u) ++ map inl (b "b")) by (rewrite !map_app; cbn [map app]; now rewrite <- ?app_assoc).
    change [It true PS_IndString tok_string_part (b "a"); It true PS_IndString tok_string_escape v; It true PS_IndString tok_string_part (b "b")]
      with ((([] ++ [It true PS_IndString tok_string_part (b "a")]) ++ [It true PS_IndString tok_string_escape v]) ++ [It true PS_IndString tok_string_part (b "b")]).
    apply con_text. apply con_escape; [|now left]. apply con_text. apply con_nil.
  - apply check_ok in Hc as (n & ds & E & Hn & Hb). exists n, ds. split; auto. split; auto. split.
    + destruct n; try discriminate Hb. destruct n; try discriminate Hb. destruct frags as [|[x|] [|]]; try discriminate Hb.
      apply bytes_eqb_spec in Hb. subst x. exists id, r, id0, r0, [inl (b "a'b")]. auto.
    + intros X. apply bytes_eqb_spec in X. congruence.
Qed.
