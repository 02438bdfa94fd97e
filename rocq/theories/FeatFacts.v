(** Proofs of the theorems stated in FeatProps. *)
From Verif Require Import Base Diag LexModel LexSpec AstModel PSupModel SemaModel VlaModel ParseModel ParseSpec NavSpec TextModel TextSpec FeatModel FeatSpec ParseInv ParseTree ParseSema ParseProofs FeatProofs.
From Coq Require Import Permutation Sorted.

Definition doc (src : bytes) : node :=
  match parse src with Ok (Some n, _) => n | _ => NMisc 0 (point (mkCur 0 0 0)) end.
Definition clean_doc (src : bytes) : bool := match parse src with Ok (Some _, []) => true | _ => false end.
Lemma doc_parse src : clean_doc src = true -> exists ds, parse src = Ok (Some (doc src), ds).
Proof.
  unfold clean_doc, doc. destruct (parse src) as [[[n|] ds]|w|]; try discriminate. destruct ds; [|discriminate]. eauto.
Qed.
(** the characters of an ASCII literal *)
Definition txt (s : string) : text := map N_of_ascii (b s).
Lemma root_nok src n ds : parse src = Ok (Some n, ds) -> nok src n.
Proof.
  intros H. pose proof (parse_ok src) as P. rewrite H in P. destruct P as (_ & P & _).
  destruct (P n eq_refl) as [(k & F & _) _]. exact F.
Qed.
Definition no_lone_crb (d : text) : bool := forallb (fun x => negb (N.eqb x 13)) d.
Lemma no_lone_cr_test d : no_lone_crb d = true -> no_lone_cr d.
Proof.
  intros H bef aft E. unfold no_lone_crb in H. rewrite forallb_forall in H.
  specialize (H 13%N). rewrite E in H. discriminate H. apply in_app_iff. right. now left.
Qed.
Definition unicodeb (d : text) : bool := forallb (fun x => N.ltb x 0xD800) d.
Lemma unicode_test d : unicodeb d = true -> unicode d.
Proof.
  unfold unicodeb. rewrite forallb_forall. intros H. apply Forall_forall. intros x I. apply H in I. left. now apply N.ltb_lt.
Qed.
Definition asciib (d : text) : bool := forallb (fun x => N.ltb x 128) d.
Lemma ascii_test d : asciib d = true -> ascii_text d.
Proof.
  unfold asciib. rewrite forallb_forall. intros H. apply Forall_forall. intros x I. apply H in I. now apply N.ltb_lt.
Qed.
(** the node reached by taking children by number *)
Definition child (k : nat) (n : node) : node := nth k (present (children n)) n.
Definition childb (k : nat) (n : node) : bool := Nat.ltb k (List.length (present (children n))).
Lemma child_in k n : childb k n = true -> In (child k n) (present (children n)).
Proof. intros H. apply Nat.ltb_lt in H. now apply nth_In. Qed.
Fixpoint walk (ks : list nat) (n : node) : node := match ks with [] => n | k :: ks => walk ks (child k n) end.
Fixpoint walkb (ks : list nat) (n : node) : bool := match ks with [] => true | k :: ks => childb k n && walkb ks (child k n) end.
Lemma walk_chain ks : forall n m l, chain n m l -> walkb ks m = true ->
  exists l', chain n (walk ks m) l' /\ List.length l' = List.length ks + List.length l.
Proof.
  induction ks as [|k ks IH]; intros n m l C H; [eauto|]. cbn [walkb] in H. apply andb_prop in H as [H1 H2].
  destruct (IH n (child k m) (child k m :: l)) as (l' & C' & E).
  - eapply chain_up; [apply child_in; exact H1|exact C].
  - exact H2.
  - exists l'. split; [exact C'|]. rewrite E. simpl. lia.
Qed.
Lemma chain_node_of n m l : chain n m l -> node_of n m.
Proof. exact (NavProofs.chain_node n m l). Qed.
Lemma folding_eq : foldingRanges = fun src n => collectFoldingRanges src MaxRecursionDepth n.
Proof. reflexivity. Qed.

Lemma C36_refuted_proof : exists bef aft n ds m,
  unicode (bef ++ aft) /\ no_lone_cr (bef ++ aft) /\ parse (utf8 (bef ++ aft)) = Ok (Some n, ds) /\
  nodeAtPosition n (position bef aft) = Ok (Some m) /\ kind_of m = NK_ExprString /\
  ~ touches m (List.length (utf8 bef)).
Proof.
  exists ([91; 34; 233; 34; 32]%N), (txt "a b]").
  destruct (doc_parse (utf8 ([91; 34; 233; 34; 32]%N ++ txt "a b]"))) as [ds E]; [vm_compute; reflexivity|].
  exists (doc (utf8 ([91; 34; 233; 34; 32]%N ++ txt "a b]"))), ds.
  assert (T : match nodeAtPosition (doc (utf8 ([91; 34; 233; 34; 32]%N ++ txt "a b]"))) (position [91; 34; 233; 34; 32]%N (txt "a b]")) with
              | Ok (Some m) => match kind_of m with NK_ExprString => Nat.ltb (off (nr m)) (List.length (utf8 [91; 34; 233; 34; 32]%N)) | _ => false end
              | _ => false end = true) by (vm_compute; reflexivity).
  destruct (nodeAtPosition _ _) as [[m|]|w|] in T |- *; try discriminate T. exists m.
  split; [apply unicode_test; reflexivity|]. split; [apply no_lone_cr_test; reflexivity|]. split; [exact E|].
  split; [reflexivity|]. destruct (kind_of m); try discriminate T. split; [reflexivity|]. apply Nat.ltb_lt in T. unfold touches. lia.
Qed.

Lemma C36_partial_proof : forall bef aft ln n ds,
  unicode (bef ++ aft) -> no_lone_cr (bef ++ aft) -> line_before bef ln -> ascii_text ln ->
  parse (utf8 (bef ++ aft)) = Ok (Some n, ds) ->
  exists o, nodeAtPosition n (position bef aft) = Ok o /\
    match o with
    | Some m => node_of n m /\ touches m (List.length (utf8 bef)) /\
                forall c, In c (present (children m)) -> ~ touches c (List.length (utf8 bef))
    | None => ~ touches n (List.length (utf8 bef))
    end.
Proof.
  exact node_at.
Qed.

Lemma C36_exact_proof : forall bef aft ln c,
  unicode (bef ++ aft) -> no_lone_cr (bef ++ aft) -> line_before bef ln -> cursor_after (utf8 bef) c ->
  (toNixfPosition (position bef aft) = pos_of c <-> ascii_text ln).
Proof.
  exact position_agrees.
Qed.

Lemma C37_decodes_proof : forall s src n ds, (Z.of_nat (List.length src) < 2147483648)%Z -> parse src = Ok (Some n, ds) ->
  exists out, semanticTokens s src n = Ok out /\
    Permutation (decode 0 0 out) (map abs_of (tokens s src n)) /\ StronglySorted abs_le (decode 0 0 out).
Proof.
  intros s src n ds H E. apply semanticTokens_ok; [exact H|]. exact (proj1 (root_nok _ _ _ E)).
Qed.

Lemma C37_classified_proof : forall s src n ds out a, (Z.of_nat (List.length src) < 2147483648)%Z ->
  parse src = Ok (Some n, ds) -> semanticTokens s src n = Ok out -> In a (decode 0 0 out) ->
  exists m, within n m /\ marks s (ab_type a) (ab_mods a) m /\ line (nl m) = line (nr m) /\
    Z.of_nat (ab_line a) = p_line (offsetToPosition src (off (nl m))) /\
    Z.of_nat (ab_start a) = p_char (offsetToPosition src (off (nl m))) /\
    ab_len a = List.length (text_of src (nrange m)).
Proof.
  intros s src n ds out a H E O I. pose proof (root_nok _ _ _ E) as N.
  destruct (semanticTokens_ok s src n H (proj1 N)) as (out' & E' & P & _). rewrite E' in O. injection O as ->.
  eapply Permutation_in in I; [|exact P]. apply in_map_iff in I as (t & <- & I).
  destruct (tokens_end _ _ _ _ (proj1 N) I) as (m & W & M & L & Pt & Le). exists m.
  split; [exact W|]. split; [exact M|]. split; [exact L|]. unfold abs_of. cbn [ab_line ab_start ab_len]. rewrite Pt.
  unfold offsetToPosition. cbn [p_line p_char]. rewrite !Nat2Z.id. split; [reflexivity|]. split; [reflexivity|].
  rewrite Le. pose proof (sok_range src m (within_sok _ _ _ W (proj1 N))) as ((p1 & q1 & E1 & O1 & _) & (p2 & q2 & E2 & O2 & _) & R).
  assert (off (rcur (nrange m)) <= List.length src) by (rewrite E2, app_length, O2; lia).
  unfold text_of, slice, nl, nr in *. rewrite firstn_length, skipn_length. lia.
Qed.

Lemma C37_refuted_proof : exists d s n ds out a,
  unicode d /\ parse (utf8 d) = Ok (Some n, ds) /\ nrange n = mkRange (mkCur 0 0 0) (mkCur 0 4 4) /\
  semanticTokens s (utf8 d) n = Ok out /\
  decode 0 0 out = [a] /\ List.length (utf8 d) = 4 /\ ab_len a <> u16len d.
Proof.
  exists [34; 233; 34]%N, vst0. destruct (doc_parse (utf8 [34; 233; 34]%N)) as [ds E]; [vm_compute; reflexivity|].
  exists (doc (utf8 [34; 233; 34]%N)), ds. eexists. eexists. split; [apply unicode_test; reflexivity|]. split; [exact E|].
  split; [vm_compute; reflexivity|].
  split; [vm_compute; reflexivity|]. split; [reflexivity|]. split; [reflexivity|]. discriminate.
Qed.

Lemma C37_partial_proof : forall s src n ds out a, (Z.of_nat (List.length src) < 2147483648)%Z ->
  parse src = Ok (Some n, ds) -> semanticTokens s src n = Ok out -> In a (decode 0 0 out) ->
  exists m, within n m /\ marks s (ab_type a) (ab_mods a) m /\
    Z.of_nat (ab_line a) = p_line (offsetToPosition src (off (nl m))) /\
    Z.of_nat (ab_start a) = p_char (offsetToPosition src (off (nl m))) /\
    forall w, unicode w -> text_of src (nrange m) = utf8 w -> (ab_len a = u16len w <-> ascii_text w).
Proof.
  intros s src n ds out a H E O I. destruct (C37_classified_proof s src n ds out a H E O I) as (m & W & M & _ & P1 & P2 & L).
  exists m. repeat (split; [assumption|]). intros w U T. rewrite L, T. split.
  - intros X. apply bytes_ascii. congruence.
  - intros A. now apply ascii_bytes.
Qed.

Lemma C38_selection_proof : forall s src n ds, parse src = Ok (Some n, ds) ->
  exists l, collect s src n = Ok l /\ forall x y, In x l -> symbol_of x y -> linside (s_sel y) (s_full y).
Proof.
  intros s src n ds H. destruct (collect_ok s src n ds H) as (l & E & F). exists l. split; [exact E|]. intros x y I S. exact (proj1 (F x y I S)).
Qed.

Lemma C38_variables_proof : forall s src n ds, parse src = Ok (Some n, ds) ->
  exists l, collect s src n = Ok l /\ forall x y, In x l -> symbol_of x y -> shows s src y.
Proof.
  intros s src n ds H. destruct (collect_ok s src n ds H) as (l & E & F). exists l. split; [exact E|]. intros x y I S. exact (proj2 (F x y I S)).
Qed.

Lemma C38_refuted_proof : exists src n ds l x y, parse src = Ok (Some n, ds) /\ collect vst0 src n = Ok l /\
  In x l /\ In y (s_kids x) /\ ~ linside (s_full y) (s_full x) /\ ~ linside (s_sel y) (s_full x).
Proof.
  exists (b "{ a.b = 1; }"). destruct (doc_parse (b "{ a.b = 1; }")) as [ds E]; [vm_compute; reflexivity|].
  exists (doc (b "{ a.b = 1; }")), ds. eexists. eexists. eexists. split; [exact E|]. split; [vm_compute; reflexivity|].
  split; [left; reflexivity|]. split; [left; reflexivity|].
  split; unfold linside, lle; simpl; lia.
Qed.

Lemma C39_sound_proof : forall src n ds r, parse src = Ok (Some n, ds) -> In r (foldingRanges src n) ->
  (p_line (l_start r) < p_line (l_end r))%Z /\
  exists m, node_of n m /\ foldable m /\ multi_line m /\ range_in src (nrange m) /\
    lsp_range src (off (nl m)) (off (nr m)) r.
Proof.
  intros src n ds r E H. rewrite folding_eq in H. destruct (fold_sound src MaxRecursionDepth n r H) as (m & N & F & -> & M). pose proof (root_nok _ _ _ E) as K.
  split; [unfold isMultiLine in M; now apply Z.ltb_lt in M|]. exists m. split; [exact N|]. split; [exact F|].
  assert (R : range_in src (nrange m)).
  { destruct (node_of_shape _ _ _ K N) as [X|X]; [exact (nok_range _ _ X)|]. unfold foldable in F. now rewrite X in F. }
  split; [now apply (multi_line_ok _ _ R)|]. split; [exact R|]. split; reflexivity.
Qed.

Lemma C39_refuted_proof : exists src n ds m, parse src = Ok (Some n, ds) /\ node_of n m /\ foldable m /\ multi_line m /\
  kind_of m = NK_ExprList /\
  exists l, chain n m l /\ List.length l = 5 /\ forall r, In r (foldingRanges src n) -> p_line (l_start r) <> Z.of_nat (line (nl m)).
Proof.
  set (src := b "{ 
a ? [
] }: a").
  destruct (doc_parse src) as [ds E]; [vm_compute; reflexivity|].
  destruct (walk_chain [0; 0; 0; 1] (doc src) (doc src) [doc src] (chain_root _)) as (l & C & L); [vm_compute; reflexivity|].
  assert (T : (let n := doc src in let m := walk [0; 0; 0; 1] n in
    match kind_of m with NK_ExprList => Nat.ltb (line (nl m)) (line (nr m)) | _ => false end &&
    forallb (fun r => negb (p_line (l_start r) =? Z.of_nat (line (nl m)))%Z) (foldingRanges src n)) = true)
    by (vm_compute; reflexivity).
  revert E C T. generalize (doc src). clearbody src. intros n E C T. cbv zeta in T. set (m := walk _ n) in *. clearbody m.
  exists src, n, ds, m. apply andb_prop in T as [T1 T2]. destruct (kind_of m) eqn:Km; try discriminate T1. split; [exact E|].
  split; [exact (chain_node_of _ _ _ C)|]. split; [unfold foldable; rewrite Km; exact Logic.I|].
  split; [now apply Nat.ltb_lt|]. split; [reflexivity|]. exists l. split; [exact C|]. split; [exact L|].
  intros r Ir. rewrite forallb_forall in T2. apply T2 in Ir. now apply negb_true_iff, Z.eqb_neq in Ir.
Qed.

Lemma C39_partial_proof : forall src n ds m l, parse src = Ok (Some n, ds) -> chain n m l ->
  (forall p, In p (tl l) -> kind_of p <> NK_ExprString /\ kind_of p <> NK_LambdaArg) -> List.length l <= 256 ->
  foldable m -> multi_line m ->
  exists r, In r (foldingRanges src n) /\ lsp_range src (off (nl m)) (off (nr m)) r.
Proof.
  intros src n ds m l E C O L F M. exists (toLSPRange src (nrange m)). split; [|split; reflexivity].
  eapply fold_complete; eauto; [exact (root_nok _ _ _ E)|]. apply Forall_forall. exact O.
Qed.

Lemma C55_published_proof : forall names src n ds, parse src = Ok (n, ds) ->
  exists blocks, publishDiagnostics (updateSuppressed names) src ds = Ok (List.concat blocks) /\
    Forall2 (entries src) (unsuppressed names ds) blocks.
Proof.
  intros names src n ds E. apply publish_ok. pose proof (parse_ok src) as P. rewrite E in P. destruct P as (P & _).
  eapply Forall_impl; [|exact P]. intros d D. apply D.
Qed.

Lemma C55_published_any_proof : forall names src ds, Forall instantiated ds ->
  exists blocks, publishDiagnostics (updateSuppressed names) src ds = Ok (List.concat blocks) /\
    Forall2 (entries src) (unsuppressed names ds) blocks.
Proof.
  exact publish_ok.
Qed.

Lemma C55_unknown_proof : forall names name src ds, (forall k, sname_of k <> name) ->
  publishDiagnostics (updateSuppressed (name :: names)) src ds = publishDiagnostics (updateSuppressed names) src ds.
Proof.
  intros names name src ds H.
  assert (K : forall k, isSuppressed (updateSuppressed (name :: names)) k = isSuppressed (updateSuppressed names) k).
  { intros k. rewrite !suppressed_names. cbn [existsb].
    destruct (bytes_eqb (sname_of k) name) eqn:E; [apply bytes_eqb_eq in E; now elim (H k)|reflexivity]. }
  induction ds as [|d ds IH]; [reflexivity|]. cbn [publishDiagnostics]. rewrite K, IH. reflexivity.
Qed.
