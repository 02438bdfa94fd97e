(** Reading back the text written for an indented string, by the lexical rules of Nix. *)
From Verif Require Import Base Diag LexModel LexSpec LexLongSpec AstModel PSupModel GramSpec ActModel ActSpec LexProofs.

Definition q1 : ascii := "'"%char.
Definition no_escape : bytes -> bytes -> Prop := fun _ _ => False.

Lemma con_app m i1 f1 i2 f2 : contents no_escape m i1 f1 -> contents no_escape m i2 f2 -> contents no_escape m (i1 ++ i2) (f1 ++ f2).
Proof.
  intros H1 H2. induction H2 as [|i fs v H IH|i fs v u H IH X|i fs j q e v1 v2 i3 H IH G].
  - now rewrite !app_nil_r.
  - rewrite !app_assoc. now apply con_text.
  - rewrite !app_assoc. now apply con_escape.
  - rewrite (app_assoc i1), (app_assoc f1). now apply con_interp.
Qed.
Lemma con1_text m v : contents no_escape m [It true m tok_string_part v] (map inl v).
Proof. exact (con_text no_escape m [] [] v (con_nil _ _)). Qed.
Lemma con1_escape m v u : escape m v u -> contents no_escape m [It true m tok_string_escape v] (map inl u).
Proof. intros H. apply (con_escape no_escape m [] [] v u (con_nil _ _)). now left. Qed.

Lemma lay1 g m k v its more : spelled m k v -> longest m k v more -> layout its more -> layout (It g m k v :: its) (v ++ more).
Proof. intros. apply (layout_item g m k v its [] more); auto. apply trivia_nil. Qed.

Definition ends (u : bytes) (c : ascii) : Prop := exists w, u = w ++ [c].
Lemma ends_snoc u c d : ends (u ++ [c]) d -> c = d.
Proof. intros [w E]. now apply app_inj_tail in E as [_ E]. Qed.
Lemma occurs_snoc c d u e : occurs [c; d] (u ++ [e]) -> occurs [c; d] u \/ (ends u c /\ d = e).
Proof.
  intros (x & y & E). destruct y as [|z y _] using rev_ind.
  - right. rewrite app_nil_r in E. change [c; d] with ([c] ++ [d]) in E. rewrite app_assoc in E. apply app_inj_tail in E as [-> ->].
    split; [now exists x|reflexivity].
  - left. rewrite !app_assoc in E. apply app_inj_tail in E as [-> _]. exists x, y. now rewrite <- app_assoc.
Qed.

(** what a pending part [u] before the text [x] has to satisfy *)
Record pending (u x : bytes) : Prop := {
  pe_quotes : ~ occurs (b "''") u;
  pe_dollar : ~ occurs (b "${") u;
  pe_quote : ends u "'" -> x <> [] /\ ~ begins (b "'") x /\ ~ begins (b "${") x;
  pe_brace : ends u "$" -> ~ begins (b "{") x
}.

Lemma part_ok u more : u <> [] -> ~ occurs (b "''") u -> ~ occurs (b "${") u -> ~ ends u "'" -> begins (b "''") more ->
  longest PS_IndString tok_string_part u more.
Proof.
  intros N Q D E [r ->]. split; [|discriminate]. intros _. split; [|split; [|split]].
  - intros x y H. exfalso. apply D. now exists x, y.
  - intros [z Hz]. discriminate.
  - intros x y H. destruct (Nat.le_gt_cases (List.length u) (List.length x)) as [L|L]; [exact L|exfalso].
    assert (F : firstn (List.length u) (x ++ b "''" ++ y) = u) by (rewrite <- H, firstn_app, firstn_all, Nat.sub_diag; cbn; apply app_nil_r).
    rewrite firstn_app, (firstn_all2 x) in F by lia. destruct (List.length u - List.length x) as [|[|n]] eqn:En; [lia| |].
    + apply E. exists x. now rewrite <- F.
    + apply Q. exists x, (firstn n y). now rewrite <- F.
  - right. left. now exists r.
Qed.

Lemma pending_nil x : pending [] x.
Proof. constructor; try (intros [[|? w] E]; discriminate); intros (x0 & y & E); destruct x0; discriminate. Qed.
Lemma pending_brace x : pending (b "{") x.
Proof.
  constructor.
  - intros (x0 & y & E); destruct x0 as [|? [|]]; discriminate.
  - intros (x0 & y & E); destruct x0 as [|? [|]]; discriminate.
  - intros [[|? w] E]; [discriminate|]. destruct w; discriminate.
  - intros [[|? w] E]; [discriminate|]. destruct w; discriminate.
Qed.

Definition closing := It true PS_IndString tok_quote2 (b "''").
Lemma closing_lay : layout [closing] (b "''").
Proof.
  rewrite <- (app_nil_r (b "''")). apply lay1; [apply sp_ind_quote|split; [discriminate|intros _ []]|apply layout_end, trivia_nil].
Qed.

(** the pending part comes out as a token *)
Lemma flush u x its more : pending u x -> ~ ends u "'" -> begins (b "''") more -> layout its more ->
  exists i, layout (i ++ its) (u ++ more) /\ contents no_escape PS_IndString i (map inl u).
Proof.
  intros P E B L. destruct u as [|c u].
  - exists []. split; [exact L|apply con_nil].
  - exists [It true PS_IndString tok_string_part (c :: u)]. split; [|apply con1_text]. destruct P as [P1 P2 _ _].
    apply (lay1 true PS_IndString tok_string_part (c :: u)); [apply sp_ind_part; [discriminate|assumption]|apply part_ok; auto; discriminate|exact L].
Qed.

Lemma paired_tail c x : quotes_paired (c :: x) -> (c = "'"%char -> ~ begins (b "'") x) -> quotes_paired x.
Proof.
  intros H N p k rest -> E R.
  destruct p as [|d p].
  - destruct (Ascii.eqb_spec c "'") as [->|C].
    + destruct k as [|k]; [reflexivity|]. exfalso. apply (N eq_refl). eexists. reflexivity.
    + apply (H [c] k rest); auto. intros [w W]. destruct w as [|? [|]]; [|discriminate|discriminate]. injection W as W. auto.
  - apply (H (c :: d :: p) k rest); auto. intros [w W]. apply E. destruct w as [|e w]; [discriminate|]. injection W as -> W. now exists w.
Qed.
Lemma paired_quotes x : quotes_paired ("'" :: "'" :: x)%char -> quotes_paired x.
Proof.
  intros H p k rest -> E R. destruct p as [|d p].
  - specialize (H [] (S (S k)) rest eq_refl). cbn in H. apply H; auto.
  - apply (H ("'" :: "'" :: d :: p)%char k rest); auto. intros [w W]. apply E.
    destruct w as [|e [|f w]]; try discriminate. injection W as -> -> W. now exists w.
Qed.

Lemma escape_read n : forall x u, List.length x <= n -> pending u x -> quotes_paired x ->
  exists i, layout (i ++ [closing]) (u ++ escapeForIndentedString x ++ b "''") /\ contents no_escape PS_IndString i (map inl (u ++ x)).
Proof.
  induction n as [|n IH]; intros x u L P H.
  - destruct x; [|cbn in L; lia]. cbn [escapeForIndentedString app]. rewrite app_nil_r.
    apply (flush u []); auto; [|now exists []|apply closing_lay]. intros E. now destruct (pe_quote _ _ P E).
  - destruct x as [|c x].
    { apply (IH [] u); auto. cbn. lia. }
    assert (STEP : escapeForIndentedString (c :: x) = c :: escapeForIndentedString x ->
      (c = "'"%char -> ~ begins (b "'") x) -> (c = "$"%char -> ~ begins (b "{") x) ->
      exists i, layout (i ++ [closing]) (u ++ escapeForIndentedString (c :: x) ++ b "''") /\ contents no_escape PS_IndString i (map inl (u ++ c :: x))).
    { intros Ex Nq Nd. destruct (IH x (u ++ [c])) as (i & Li & Ci).
      - cbn in L. lia.
      - destruct P as [P1 P2 P3 P4]. constructor.
        + intros O. apply occurs_snoc in O as [O|[O <-]]; [auto|]. destruct (P3 O) as (_ & X & _). apply X. now exists x.
        + intros O. apply occurs_snoc in O as [O|[O <-]]; [auto|]. apply (P4 O). now exists x.
        + intros O. apply ends_snoc in O. subst c. split; [|split].
          * intros ->. specialize (H [] 1 [] eq_refl). cbn in H. discriminate H; auto. intros [[|? w] W]; discriminate.
          * auto.
          * intros B. specialize (H [] 1 x eq_refl). cbn in H. discriminate H; auto. intros [[|? w] W]; discriminate.
        + intros O. apply ends_snoc in O. auto.
      - now apply (paired_tail c).
      - exists i. rewrite Ex. rewrite <- !app_assoc in *. cbn [app] in *. auto. }
    destruct x as [|c2 x].
    { apply STEP; [reflexivity| |]; intros _ [z Z]; discriminate. }
    destruct (Ascii.eqb_spec c "'") as [->|Cq]; [destruct (Ascii.eqb_spec c2 "'") as [->|Cq2]|].
    + destruct (IH x []) as (i & Li & Ci); [cbn in L; lia|apply pending_nil|now apply paired_quotes|].
      assert (Ln : layout (It true PS_IndString tok_string_escape (b "'''") :: i ++ [closing]) (b "'''" ++ escapeForIndentedString x ++ b "''")).
      { apply lay1; [apply sp_ind_quotes|split; discriminate|exact Li]. }
      destruct (fun A B => flush u ("'" :: "'" :: x)%char _ _ P A B Ln) as (j & Lj & Cj).
      { intros E. destruct (pe_quote _ _ P E) as (_ & X & _). apply X. eexists. reflexivity. }
      { eexists. reflexivity. }
      exists (j ++ It true PS_IndString tok_string_escape (b "'''") :: i). split.
      * rewrite <- !app_assoc in *. exact Lj.
      * rewrite map_app. apply con_app; [exact Cj|].
        change (It true PS_IndString tok_string_escape (b "'''") :: i) with ([It true PS_IndString tok_string_escape (b "'''")] ++ i).
        change ("'" :: "'" :: x)%char with (b "''" ++ x). rewrite map_app. apply con_app; [|exact Ci]. apply con1_escape, esc_quotes.
    +
      assert (Ex : escapeForIndentedString ("'" :: c2 :: x)%char = ("'" :: escapeForIndentedString (c2 :: x))%char).
      { apply Ascii.eqb_neq in Cq2. cbn [escapeForIndentedString]. rewrite Cq2. reflexivity. }
      apply STEP; [exact Ex| |discriminate]. intros _ [z [= Z _]]. contradiction.
    + destruct (Ascii.eqb_spec c "$") as [->|Cd]; [destruct (Ascii.eqb_spec c2 "{") as [->|Cb]|].
      * destruct (IH x (b "{")) as (i & Li & Ci); [cbn in L; lia|apply pending_brace| |].
        { apply (paired_tail "{"); [|discriminate]. apply (paired_tail "$"); [exact H|discriminate]. }
        assert (Ln : layout (It true PS_IndString tok_string_escape (b "''$") :: i ++ [closing]) (b "''$" ++ b "{" ++ escapeForIndentedString x ++ b "''")).
        { apply lay1; [apply sp_ind_dollar|split; discriminate|exact Li]. }
        destruct (fun A B => flush u ("$" :: "{" :: x)%char _ _ P A B Ln) as (j & Lj & Cj).
        { intros E. destruct (pe_quote _ _ P E) as (_ & _ & X). apply X. eexists. reflexivity. }
        { eexists. reflexivity. }
        exists (j ++ It true PS_IndString tok_string_escape (b "''$") :: i). split.
        -- rewrite <- !app_assoc in *. exact Lj.
        -- rewrite map_app. apply con_app; [exact Cj|].
           change (It true PS_IndString tok_string_escape (b "''$") :: i) with ([It true PS_IndString tok_string_escape (b "''$")] ++ i).
           change ("$" :: "{" :: x)%char with (b "$" ++ (b "{" ++ x)). rewrite map_app. apply con_app; [|exact Ci]. apply con1_escape, esc_dollar.
      * assert (Ex : escapeForIndentedString ("$" :: c2 :: x)%char = ("$" :: escapeForIndentedString (c2 :: x))%char).
        { apply Ascii.eqb_neq in Cb. cbn [escapeForIndentedString]. rewrite Cb. reflexivity. }
        apply STEP; [exact Ex|discriminate|]. intros _ [z [= Z _]]. contradiction.
      * assert (Ex : escapeForIndentedString (c :: c2 :: x) = c :: escapeForIndentedString (c2 :: x)).
        { apply Ascii.eqb_neq in Cq, Cd. cbn [escapeForIndentedString]. rewrite Cq, Cd. reflexivity. }
        apply STEP; [exact Ex|intros ->; contradiction|intros ->; contradiction].
Qed.

Lemma quote2_opens r : longest PS_Expr tok_quote2 (b "''") r.
Proof.
  split.
  - intros k v H [q E]. split; [|discriminate]. unfold documented in H. simpl in H.
    repeat (destruct H as [H|H]; [injection H as <- <-; try (cbn; lia); try discriminate E|]). destruct H.
  - cbn. repeat split; try discriminate. intros H. repeat (destruct H as [H|H]; [discriminate|]). destruct H.
Qed.

Lemma indented_reads x : quotes_paired x ->
  exists i, layout ([E tok_quote2 (b "''")] ++ i ++ [closing]) (b "''" ++ escapeForIndentedString x ++ b "''") /\
    contents no_escape PS_IndString i (map inl x).
Proof.
  intros H. destruct (escape_read _ x [] (le_n _) (pending_nil x) H) as (i & L & C). exists i. split; [|exact C].
  apply (lay1 false PS_Expr tok_quote2 (b "''") (i ++ [closing])); [apply sp_fixed; unfold documented; simpl; tauto|apply quote2_opens|exact L].
Qed.

(** a decision procedure, for examples *)
Definition paired_test (x : bytes) : bool :=
  forallb (fun i => forallb (fun k =>
    let p := firstn i x in let m := firstn k (skipn i x) in let rest := skipn (i + k) x in
    (negb (bytes_eqb m (repeat "'"%char k)) || bytes_eqb (skipn (List.length p - 1) p) (b "'") ||
     negb (bytes_eqb rest [] || starts_with (b "${") rest) || Nat.even k)%bool) (seq 0 (S (List.length x)))) (seq 0 (S (List.length x))).
Lemma paired_test_ok x : paired_test x = true -> quotes_paired x.
Proof.
  unfold paired_test. intros H p k rest -> N R. rewrite forallb_forall in H.
  specialize (H (List.length p)). rewrite forallb_forall in H. specialize (fun A => H A k).
  assert (Lk : List.length (repeat "'"%char k) = k) by apply repeat_length.
  rewrite !app_length, Lk in H.
  assert (A : In (List.length p) (seq 0 (S (List.length p + (k + List.length rest))))) by (apply in_seq; lia).
  assert (B : In k (seq 0 (S (List.length p + (k + List.length rest))))) by (apply in_seq; lia).
  specialize (H A B). cbv zeta in H.
  rewrite firstn_app, firstn_all, Nat.sub_diag, firstn_O, app_nil_r in H.
  rewrite skipn_app, skipn_all, Nat.sub_diag, skipn_O in H. cbn [app] in H.
  rewrite firstn_app, Lk, Nat.sub_diag, firstn_O, app_nil_r in H. rewrite (firstn_all2 (repeat _ k)) in H by lia.
  replace (skipn (List.length p + k) (p ++ repeat "'"%char k ++ rest)) with rest in H.
  2:{ rewrite app_assoc, skipn_app, app_length, Lk, skipn_all2, Nat.sub_diag by (rewrite app_length; lia). reflexivity. }
  apply orb_true_iff in H as [H|H]; [|exact H].
  apply orb_true_iff in H as [H|H]; [apply orb_true_iff in H as [H|H]|].
  - apply negb_true_iff in H. rewrite (proj2 (bytes_eqb_spec _ _) eq_refl) in H. discriminate.
  - exfalso. apply N. apply bytes_eqb_spec in H. exists (firstn (List.length p - 1) p).
    rewrite <- (firstn_skipn (List.length p - 1) p) at 1. now rewrite H.
  - apply negb_true_iff, orb_false_iff in H as [H1 H2]. destruct R as [->|[r ->]]; [discriminate|]. cbn in H2. discriminate.
Qed.
