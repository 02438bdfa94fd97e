(** Putting texts of parts of a document together: what may follow the text of an expression or attribute path. *)
From Verif Require Import Base Diag LexModel LexSpec LexProofs LexLongSpec AstModel GramSpec.

(** * Shape of the items of the grammar *)
Definition plain (i : item) : bool :=
  match i with
  | It g m k _ => negb (tkind_beq k tok_eof) && (g || negb (tkind_beq k tok_path_end)) &&
                  match m with PS_Expr => negb (tkind_beq k tok_path_fragment) | _ => true end
  end.
(** a literal piece of a string is followed by the closing quotes *)
Definition closing (m : pmode) (i : item) : bool :=
  match m, i with
  | PS_String, It _ PS_String tok_dquote _ => true
  | PS_IndString, It _ PS_IndString tok_quote2 _ => true
  | PS_Expr, _ | PS_Path, _ => true
  | _, _ => false
  end.
Fixpoint settled (its : list item) : bool :=
  match its with
  | [] => true
  | It _ m tok_string_part _ :: c => existsb (closing m) c && settled c
  | _ :: c => settled c
  end.
Definition loose (its : list item) : bool := match its with It g _ _ _ :: _ => negb g | [] => true end.

Lemma settled_app a c : settled a = true -> settled c = true -> settled (a ++ c) = true.
Proof.
  induction a as [|[g m k v] a IH]; auto. cbn [settled app]. intros H Hc.
  destruct k; auto. apply andb_true_iff in H as [H1 H2]. rewrite IH by auto. now rewrite existsb_app, H1.
Qed.
Lemma settled_ins a x c : settled (a ++ c) = true -> settled (x ++ c) = true -> settled (a ++ x ++ c) = true.
Proof.
  induction a as [|[g m k v] a IH]; auto. cbn [settled app]. intros H Hc.
  destruct k; auto. apply andb_true_iff in H as [H1 H2]. rewrite IH by auto. rewrite !existsb_app in *.
  apply orb_true_iff in H1 as [->| ->]; auto. now rewrite !orb_true_r.
Qed.

Definition good (its : list item) : Prop := forallb plain its = true /\ settled its = true.
Lemma good_app a c : good a -> good c -> good (a ++ c).
Proof. intros [A1 A2] [C1 C2]. split; [rewrite forallb_app; now rewrite A1, C1|now apply settled_app]. Qed.
Lemma good_E k v : plain (E k v) = true -> k <> tok_string_part -> good [E k v].
Proof. intros H Hk. split; cbn [forallb]; [now rewrite H|]. unfold E. cbn. now destruct k. Qed.
Lemma good_It g m k v : plain (It g m k v) = true -> k <> tok_string_part -> good [It g m k v].
Proof. intros H Hk. split; cbn [forallb]; [now rewrite H|]. cbn. now destruct k. Qed.
Lemma good_cons x c : good [x] -> good c -> good (x :: c).
Proof. apply (good_app [x]). Qed.
Lemma good_nil : good [].
Proof. split; reflexivity. Qed.

Lemma loose_app a c : a <> [] -> loose (a ++ c) = loose a.
Proof. destruct a as [|[] a]; [congruence|reflexivity]. Qed.
Definition fits (X : sym) (its : list item) : Prop :=
  match X with
  | Parts m _ => forallb plain its = true /\ forall i, closing m i = true -> settled [i] = true -> settled (its ++ [i]) = true
  | _ => good its
  end.
Ltac goods := repeat match goal with
  | |- good (_ ++ _) => apply good_app
  | |- good [] => apply good_nil
  | H : good ?i |- good ?i => exact H
  | |- good [E _ _] => apply good_E; [reflexivity|discriminate]
  | |- good [It _ _ _ _] => apply good_It; [reflexivity|discriminate]
  | |- good (_ :: _ :: _) => apply good_cons
  end.
Section G.
Context {at_ : node -> list item -> Prop} {strict : bool}.
Lemma plain_op k v : In k binops \/ In k [tok_op_not; tok_op_negate] -> good [E k v].
Proof.
  intros H. unfold binops in H. simpl in H.
  repeat match goal with H : _ \/ _ |- _ => destruct H as [H|H] end; try contradiction; subst k; (apply good_E; [reflexivity|discriminate]).
Qed.
Lemma fits_parts m fs its fs' x : fits (Parts m fs) its -> forallb plain x = true ->
  (forall i, closing m i = true -> settled [i] = true -> settled (x ++ [i]) = true) -> fits (Parts m fs') (its ++ x).
Proof.
  intros [H1 H2] Hx Hs. split; [now rewrite forallb_app, H1, Hx|]. intros i Hi Hi2. rewrite <- app_assoc.
  apply settled_ins; auto.
Qed.
Lemma fits_closed a m fs i1 z : good [a] -> fits (Parts m fs) i1 -> closing m z = true -> good [z] -> good ([a] ++ i1 ++ [z]).
Proof.
  intros Ha [H1 H2] Hz Hz2. apply good_app; auto. split; [rewrite forallb_app, H1; apply Hz2|]. apply H2; [auto|apply Hz2].
Qed.
Lemma gram_good X its : gram_at strict at_ X its -> fits X its.
Proof.
  induction 1; cbn [fits] in *; try assumption.
  all: try solve [goods].
  - goods. apply plain_op; auto.
  - goods. apply plain_op; auto.
  - apply (fits_closed _ PS_String (flatten fs)); try reflexivity; try assumption; goods.
  - apply (fits_closed _ PS_IndString (flatten fs)); try reflexivity; try assumption; goods.
  - split; auto.
  - apply (fits_parts m fs i1 fs); [assumption|now destruct m|]. intros i Hi Hi2. cbn [app settled existsb].
    destruct m; cbn [closing] in *; rewrite ?Hi; auto.
  - apply (fits_parts m fs i1 fs); [assumption|now destruct m|]. intros i Hi Hi2. exact Hi2.
  - apply (fits_parts PS_IndString fs i1 fs); auto.
  - apply (fits_parts m fs i1 fs); [assumption|apply IHgram_at2|]. intros i Hi Hi2. apply settled_app; [apply IHgram_at2|auto].
  - goods. apply good_It; [now destruct g, m|discriminate].
Qed.

Definition heads (X : sym) (its : list item) : Prop :=
  match X with
  | Expr _ | Op _ | App _ | Sel _ | Simple _ | Str _ _ | Name _ | AttrPath _ | Bind _ | FormalSet _ | Arg _ | Frags _ _
  | Interp false _ _ => its <> [] /\ loose its = true
  | Sels _ | Names _ | Binds _ | BindsO _ => loose its = true
  | _ => True
  end.
Lemma heads_app a c : a <> [] /\ loose a = true -> a ++ c <> [] /\ loose (a ++ c) = true.
Proof. intros [H1 H2]. split; [now destruct a|now rewrite loose_app]. Qed.
Lemma loose_both a c : loose a = true -> c <> [] /\ loose c = true -> loose (a ++ c) = true.
Proof. destruct a as [|[] a]; [now intros _ []|auto]. Qed.
Lemma gram_heads X its : gram_at strict at_ X its -> heads X its.
Proof.
  induction 1; cbn [heads] in *; try assumption; try exact I.
  all: try solve [split; [discriminate|reflexivity]].
  all: try solve [apply heads_app; assumption].
  all: try solve [apply loose_both; assumption].
  all: try reflexivity.
  all: try solve [apply IHgram_at].
  - destruct g; [exact I|split; [discriminate|reflexivity]].
Qed.
End G.

(** * Texts *)
Lemma begins_within p t u : begins p (t ++ u) -> List.length p <= List.length t -> forall more, begins p (t ++ more).
Proof.
  intros [r H] L more. exists (skipn (List.length p) t ++ more). rewrite app_assoc. f_equal.
  apply (f_equal (firstn (List.length p))) in H. rewrite firstn_app in H.
  replace (List.length p - List.length t) with 0 in H by lia. rewrite firstn_O, app_nil_r in H.
  rewrite firstn_app, Nat.sub_diag, firstn_O, app_nil_r, firstn_all in H. rewrite <- H at 1. symmetry. apply firstn_skipn.
Qed.
Definition follows (m : pmode) (k : tkind) (c0 : ascii) : Prop :=
  match m with
  | PS_Expr => (In k word_kinds -> ~ id_char c0) /\ (k = tok_int -> ~ (digit c0 \/ c0 = "."%char)) /\
               (k = tok_float -> ~ digit c0) /\ (k = tok_uri -> ~ uri_char c0)
  | PS_String => True
  | PS_IndString => k = tok_quote2 -> ~ In c0 (b "$'\")
  | PS_Path => ~ (path_char c0 \/ c0 = "/"%char) /\ c0 <> "$"%char
  end.
Lemma next_cons (Q : ascii -> Prop) c t u u' : next Q (c :: t ++ u) -> next Q ((c :: t) ++ u').
Proof. auto. Qed.
Lemma longest_far g m k v t more c0 r' :
  longest m k v (t ++ more) -> plain (It g m k v) = true ->
  (k = tok_string_part -> m = PS_String -> In """"%char t) ->
  (k = tok_string_part -> m = PS_IndString -> 2 <= List.length t) ->
  (m = PS_Expr -> forall k' v', In (k', v') documented -> begins v' (v ++ t ++ c0 :: r') -> List.length v' <= List.length (v ++ t)) ->
  (t = [] -> follows m k c0) -> c0 <> "{"%char -> longest m k v (t ++ c0 :: r').
Proof.
  intros H Hp H1 H2 HD HF Hc.
  assert (Hnext : forall Q : ascii -> Prop, ~ next Q (t ++ more) -> (t = [] -> ~ Q c0) -> ~ next Q (t ++ c0 :: r')).
  { intros Q Ho Hn. destruct t as [|c t]; [cbn; auto|exact Ho]. }
  assert (Hdollar : 1 <= List.length t -> (forall x, t = [x] -> x <> "$"%char \/ c0 <> "{"%char) ->
     begins (b "${") (t ++ c0 :: r') -> begins (b "${") (t ++ more)).
  { intros L Ho Hb. destruct t as [|a [|c t]]; [cbn in L; lia| |].
    - destruct Hb as [r Hb]. injection Hb as -> -> _. congruence.
    - eapply begins_within; [exact Hb|cbn; lia]. }
  destruct m; cbn [longest] in *.
  - destruct H as (A1 & A2 & A3 & A4 & A5 & A6). split; [|split; [|split; [|split; [|split]]]].
    + intros k' v' Hin Hb. apply (A1 k' v' Hin). rewrite app_assoc. pose proof (HD eq_refl k' v' Hin Hb) as L.
      rewrite app_assoc in Hb. eapply begins_within; [exact Hb|exact L].
    + intros Hk. apply Hnext; auto. intros ->. now apply HF.
    + intros Hk. apply Hnext; auto. intros Ht. destruct (HF Ht) as (_ & F & _). now apply F.
    + intros Hk. apply Hnext; auto. intros Ht. destruct (HF Ht) as (_ & _ & F & _). now apply F.
    + intros Hk. apply Hnext; auto. intros Ht. destruct (HF Ht) as (_ & _ & _ & F). now apply F.
    + intros ->. destruct g; discriminate Hp.
  - intros Hk. destruct (H Hk) as (A1 & A2 & A3). specialize (H1 Hk eq_refl).
    assert (Hd : begins (b "${") (t ++ c0 :: r') -> begins (b "${") (t ++ more)).
    { apply Hdollar; [destruct t; [destruct H1|cbn; lia]|]. intros x ->. right. exact Hc. }
    split; [exact A1|]. split; [intros Hb; apply A2; auto|].
    destruct t as [|c t]; [destruct H1|]. destruct A3 as [A3|[A3|[A3|A3]]].
    + discriminate A3.
    + right; left. eapply (begins_within _ (c :: t)); [exact A3|cbn; lia].
    + right; right; left. eapply (begins_within _ (c :: t)); [exact A3|cbn; lia].
    + right; right; right. destruct t as [|c2 t].
      * destruct A3 as [r A3]. injection A3 as -> _. destruct H1 as [H1|[]]. discriminate H1.
      * eapply (begins_within _ (c :: c2 :: t)); [exact A3|cbn; lia].
  - destruct H as [A B]. split.
    + intros Hk. destruct (A Hk) as (A1 & A2 & A3 & A4). specialize (H2 Hk eq_refl).
      assert (Hin : forall p, List.length p = 2 -> begins p (t ++ more) -> begins p (t ++ c0 :: r')).
      { intros p Lp Hb. eapply begins_within; [exact Hb|lia]. }
      split; [exact A1|]. split; [|split].
      * intros Hb. apply A2. eapply begins_within; [exact Hb|cbn; lia].
      * intros x y E. destruct (Nat.le_gt_cases (List.length x + 2) (List.length (v ++ t))) as [L|L].
        -- assert (Hb : begins (x ++ b "''") ((v ++ t) ++ c0 :: r')) by (exists y; rewrite <- app_assoc, E, <- app_assoc; reflexivity).
           destruct (begins_within _ _ _ Hb ltac:(rewrite app_length; cbn; lia) more) as [y' E'].
           apply (A3 x y'). rewrite app_assoc, E', <- app_assoc. reflexivity.
        -- rewrite app_length in L. lia.
      * destruct A4 as [A4|[A4|A4]].
        -- destruct t; [cbn in H2; lia|discriminate A4].
        -- right; left; auto.
        -- right; right; auto.
    + intros Hk. apply Hnext; auto. intros Ht. now apply (HF Ht).
  - destruct H as [A B]. split.
    + intros Hk. apply Hnext; auto. intros Ht. now apply (HF Ht).
    + intros Hk Hb. apply (B Hk). destruct t as [|c t].
      * destruct Hb as [r Hb]. injection Hb as Hb _. destruct (HF eq_refl) as [_ F]. congruence.
      * apply Hdollar; [cbn; lia| |exact Hb]. intros x _. now right.
Qed.

(** what may follow *)
Definition ends : bytes := [" "; ";"; ")"]%char.
Definition ends_dot (u : bytes) : Prop := exists x, u = x ++ ["."%char].
Fixpoint tailok (c0 : ascii) (its : list item) : Prop :=
  match its with
  | [] => True
  | It g m k v :: c => (Forall (fun i => match i with It _ _ _ v => v = [] end) c -> follows m k c0) /\ tailok c0 c
  end.
Lemma ends_documented c0 : In c0 ends -> forall k v, In (k, v) documented -> forall a u, v = a ++ c0 :: u -> a = [].
Proof.
  intros Hc k v Hin a u E.
  assert (X : forallb (fun kv => match snd kv with [] => true | _ :: tl => negb (existsb (fun c => existsb (Ascii.eqb c) ends) tl) end) documented = true)
    by (vm_compute; reflexivity).
  rewrite forallb_forall in X. specialize (X _ Hin). cbn [snd] in X. destruct a as [|x a]; auto. subst v. cbn [app] in X.
  rewrite existsb_app in X. cbn [existsb] in X.
  assert (Y : existsb (Ascii.eqb c0) ends = true) by (apply existsb_exists; exists c0; split; [auto|apply Ascii.eqb_refl]).
  rewrite Y, orb_true_r in X. discriminate X.
Qed.
Lemma dot_documented k v : In (k, v) documented -> forall a u, v = a ++ "."%char :: u -> a = [] \/ ends_dot a.
Proof.
  intros Hin a u E.
  assert (X : forallb (fun kv => match snd kv with [] => true | c :: tl => Ascii.eqb c "." || negb (existsb (Ascii.eqb ".") tl) end) documented = true)
    by (vm_compute; reflexivity).
  assert (X2 : forallb (fun kv => match snd kv with c :: tl => negb (Ascii.eqb c ".") || forallb (Ascii.eqb ".") tl | [] => true end) documented = true)
    by (vm_compute; reflexivity).
  rewrite forallb_forall in X, X2. specialize (X _ Hin). specialize (X2 _ Hin). cbn [snd] in X, X2.
  destruct a as [|x a]; [now left|right]. subst v. cbn [app] in X, X2.
  destruct (Ascii.eqb x ".") eqn:Ex; cbn [orb negb] in *.
  - apply Ascii.eqb_eq in Ex. subst x. rewrite forallb_app in X2. apply andb_true_iff in X2 as [X2 _].
    destruct (rev a) as [|z l] eqn:Er.
    + apply (f_equal (@rev _)) in Er. rewrite rev_involutive in Er. subst a. now exists [].
    + apply (f_equal (@rev _)) in Er. rewrite rev_involutive in Er. cbn [rev] in Er. subst a.
      exists ("."%char :: rev l). rewrite forallb_app in X2. apply andb_true_iff in X2 as [_ X2]. cbn [forallb] in X2.
      apply andb_true_iff in X2 as [X2 _]. apply Ascii.eqb_eq in X2. now subst z.
  - rewrite existsb_app in X. cbn [existsb] in X. rewrite Ascii.eqb_refl, orb_true_r in X. discriminate X.
Qed.
Lemma begins_past p u c r : begins p (u ++ c :: r) -> List.length u < List.length p -> exists y, p = u ++ c :: y.
Proof.
  intros [q H]. revert p H. induction u as [|a u IH]; intros p H L.
  - destruct p as [|x p]; [cbn in L; lia|]. injection H as -> _. now exists p.
  - destruct p as [|x p]; [cbn in L; lia|]. injection H as -> H. destruct (IH p H ltac:(cbn in L; lia)) as [y ->]. now exists y.
Qed.

(** * Changing what follows *)
Lemma documented_ne k v : In (k, v) documented -> v <> [].
Proof.
  intros H.
  assert (X : forallb (fun kv => match snd kv with [] => false | _ => true end) documented = true) by (vm_compute; reflexivity).
  rewrite forallb_forall in X. specialize (X _ H). now destruct v.
Qed.
Lemma spelled_ne k v : k <> tok_eof -> spelled PS_Expr k v \/ (PS_Expr = PS_Expr /\ odd_token k v) -> v <> [].
Proof.
  intros Hk [H|[_ [[_ ->]|[_ H]]]]; try discriminate.
  - inversion H; subst; try discriminate; try congruence.
    + eapply documented_ne; eauto.
    + destruct w; discriminate.
  - intros ->. unfold odd_spath in H. destruct H as (? & ? & ? & _ & _ & _ & H). discriminate H.
Qed.
Lemma free_ne m k v : plain (It false m k v) = true -> spelled m k v \/ (m = PS_Expr /\ odd_token k v) -> v <> [].
Proof.
  intros Hp H. cbn [plain orb] in Hp. apply andb_true_iff in Hp as [Hp _]. apply andb_true_iff in Hp as [H1 H2].
  destruct H as [H|[-> H]].
  - inversion H; subst; try discriminate; try assumption; try (eapply documented_ne; eassumption).
    destruct w; discriminate.
  - eapply spelled_ne; [|right; eauto]. intros ->. discriminate H1.
Qed.
Lemma laid_dquote tg c t more : laid tg c t more -> existsb (closing PS_String) c = true -> In """"%char t.
Proof.
  induction 1 as [|tg g m k v its w t more Ht Hw Hs Hl Hr IH]; [discriminate|]. cbn [existsb]. intros H.
  apply orb_true_iff in H as [H|H].
  - cbn [closing] in H. destruct m; try discriminate. destruct k; try discriminate.
    destruct Hs as [Hs|[Hs _]]; [|discriminate Hs]. inversion Hs; subst. apply in_app_iff. right. now left.
  - apply in_app_iff. right. apply in_app_iff. right. auto.
Qed.
Lemma laid_quote2 tg c t more : laid tg c t more -> existsb (closing PS_IndString) c = true -> 2 <= List.length t.
Proof.
  induction 1 as [|tg g m k v its w t more Ht Hw Hs Hl Hr IH]; [discriminate|]. cbn [existsb]. intros H.
  rewrite !app_length. apply orb_true_iff in H as [H|H].
  - cbn [closing] in H. destruct m; try discriminate. destruct k; try discriminate.
    destruct Hs as [Hs|[Hs _]]; [|discriminate Hs]. inversion Hs; subst. cbn. lia.
  - specialize (IH H). lia.
Qed.
Lemma laid_texts tg c t more : laid tg c t more -> t = [] -> Forall (fun i => match i with It _ _ _ v => v = [] end) c.
Proof.
  induction 1 as [|tg g m k v its w t more Ht Hw Hs Hl Hr IH]; intros E; [constructor|].
  apply app_eq_nil in E as [-> E]. apply app_eq_nil in E as [-> ->]. constructor; auto.
Qed.
Lemma trivia_more w a a' : trivia w a -> a <> [] -> trivia w a'.
Proof. induction 1; intros Hn; try (constructor; auto; fail); congruence. Qed.
Lemma ends_dot_app a c : ends_dot c -> ends_dot (a ++ c).
Proof. intros [x ->]. exists (a ++ x). now rewrite app_assoc. Qed.
Lemma laid_ctx c0 r' tg its t more : laid tg its t more -> forallb plain its = true -> settled its = true ->
  tailok c0 its -> (In c0 ends \/ (c0 = "."%char /\ ~ ends_dot t)) -> laid tg its t (c0 :: r').
Proof.
  induction 1 as [|tg g m k v its w t more Ht Hw Hs Hl Hr IH]; intros Hp Hset Htl Hc; [constructor|].
  cbn [forallb] in Hp. apply andb_true_iff in Hp as [Hp Hp']. 
  assert (Hset' : settled its = true) by (revert Hset; cbn [settled]; destruct k; auto; intros X; now apply andb_true_iff in X).
  cbn [tailok] in Htl. destruct Htl as [Htl Htl'].
  assert (Hc' : In c0 ends \/ c0 = "."%char /\ ~ ends_dot t).
  { destruct Hc as [?|[E Hn]]; [now left|right]. split; auto. intros Hd. apply Hn. now apply ends_dot_app, ends_dot_app. }
  assert (Hne : m = PS_Expr -> v <> []).
  { intros ->. eapply spelled_ne; [|exact Hs]. intros ->. discriminate Hp. }
  apply laid_item; auto.
  - destruct w as [|x w]; [constructor|]. eapply trivia_more; [exact Ht|].
    destruct g; [discriminate (Hw (or_introl eq_refl))|]. intros E. apply app_eq_nil in E as [E _]. now apply (free_ne m k v).
  - eapply longest_far; eauto.
    + intros -> ->. cbn [settled] in Hset. apply andb_true_iff in Hset as [Hx _]. eapply laid_dquote; eauto.
    + intros -> ->. cbn [settled] in Hset. apply andb_true_iff in Hset as [Hx _]. eapply laid_quote2; eauto.
    + intros Em k' v' Hin Hb. specialize (Hne Em).
      destruct (Nat.le_gt_cases (List.length v') (List.length (v ++ t))) as [L|L]; [exact L|exfalso].
      rewrite app_assoc in Hb. destruct (begins_past _ _ _ _ Hb L) as [y E].
      assert (Hn : v ++ t <> []) by (destruct v; [congruence|discriminate]).
      destruct Hc as [Hc|[-> Hd]].
      * apply Hn. eapply ends_documented; eauto.
      * destruct (dot_documented _ _ Hin _ _ E) as [E'|E']; [now apply Hn|]. apply Hd. now apply ends_dot_app.
    + intros ->. apply Htl. eapply laid_texts; eauto.
    + intros ->. destruct Hc as [Hc|[Hc _]]; [|discriminate Hc]. repeat (destruct Hc as [Hc|Hc]; [discriminate Hc|]). destruct Hc.
Qed.
