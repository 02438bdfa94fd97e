(** Proofs of the theorems stated in ShownProps. *)
From Verif Require Import Base TextModel Diag LexModel AstModel ParseModel ParseSpec ParseFacts FeatModel FeatSpec FeatProofs FeatFacts GramSpec VlaModel VlaSpec VlaFacts SeenFacts ShownSpec ShownProofs.

From Coq Require Import Permutation.
Lemma view_within n m : in_view n m -> GramSpec.within n m.
Proof. induction 1; [constructor|eapply within_part; eauto]. Qed.
Fixpoint sight (k : nat) (n : node) : list node :=
  match k with 0 => [n] | S k' => n :: if dim n then [] else flat_map (sight k') (parts_of n) end.
Lemma sight_view k : forall n m, In m (sight k n) -> in_view n m.
Proof.
  induction k as [|k IH]; intros n m; cbn [sight].
  - intros [<-|[]]. constructor.
  - intros [<-|I]; [constructor|]. destruct (dim n) eqn:D; [destruct I|]. apply in_flat_map in I as (c & I & J). eapply view_part; eauto.
Qed.
Definition at_place (src : bytes) (v : node) (a : abstok) : bool :=
  (Z.of_nat (ab_line a) =? p_line (offsetToPosition src (off (nl v))))%Z && (Z.of_nat (ab_start a) =? p_char (offsetToPosition src (off (nl v))))%Z.
Definition dark (src : bytes) (x : bytes) : bool :=
  match parse src with
  | Ok (Some root, []) =>
      match vla table root with
      | Ok s =>
          match semanticTokens s src root with
          | Ok out => existsb (fun v => is_varb v && bytes_eqb (varName v) x && Nat.eqb (line (nl v)) (line (nr v)) &&
                        negb (existsb (at_place src v) (decode 0 0 out))) (SeenFacts.below 30 root)
          | _ => false
          end
      | _ => false
      end
  | _ => false
  end.
Lemma dark_sound src x : dark src x = true -> exists root s out v, parse src = Ok (Some root, []) /\ vla table root = Ok s /\
  semanticTokens s src root = Ok out /\ GramSpec.within root v /\ is_var v x /\ line (nl v) = line (nr v) /\
  forall a, In a (decode 0 0 out) -> ~ (Z.of_nat (ab_line a) = p_line (offsetToPosition src (off (nl v))) /\
    Z.of_nat (ab_start a) = p_char (offsetToPosition src (off (nl v)))).
Proof.
  unfold dark. destruct (parse src) as [[[root|] [|? ?]]|w|]; [|intros F; discriminate F|intros F; discriminate F|intros F; discriminate F|intros F; discriminate F|intros F; discriminate F].
  destruct (vla table root) as [s|w|] eqn:V; [|intros F; discriminate F|intros F; discriminate F].
  destruct (semanticTokens s src root) as [out|w|] eqn:S; [|intros F; discriminate F|intros F; discriminate F].
  intros H. apply existsb_exists in H as (v & I & H). apply andb_prop in H as [H H4]. apply andb_prop in H as [H H3]. apply andb_prop in H as [H1 H2].
  exists root, s, out, v. split; [reflexivity|]. split; [exact V|]. split; [exact S|]. split; [eapply below_within; eauto|]. split; [|split; [now apply Nat.eqb_eq|]].
  - split; [destruct v; try discriminate H1; reflexivity|now apply bytes_eqb_eq].
  - intros a Ia [A1 A2]. apply negb_true_iff in H4. assert (existsb (at_place src v) (decode 0 0 out) = true); [|congruence].
    apply existsb_exists. exists a. split; [exact Ia|]. unfold at_place. rewrite A1, A2, !Z.eqb_refl. reflexivity.
Qed.

Lemma C95_coloured_partial_proof : forall s src root ds out v x, (Z.of_nat (List.length src) < 2147483648)%Z ->
  parse src = Ok (Some root, ds) -> no_errors ds -> semanticTokens s src root = Ok out ->
  in_view root v -> is_var v x -> line (nl v) = line (nr v) ->
  exists a, In a (decode 0 0 out) /\ marks s (ab_type a) (ab_mods a) v /\
    Z.of_nat (ab_line a) = p_line (offsetToPosition src (off (nl v))) /\
    Z.of_nat (ab_start a) = p_char (offsetToPosition src (off (nl v))) /\
    ab_len a = off (nr v) - off (nl v).
Proof.
  intros s src root ds out v x H HP HE HO V [K Ex] L.
  destruct (semanticTokens_ok s src root H (proj1 (root_nok _ _ _ HP))) as (out' & E' & P & _). rewrite E' in HO. injection HO as ->.
  destruct (tokVar_one s src v L) as (t & T). pose proof (every_coloured _ _ _ s _ HP HE V K _ T) as I.
  destruct (tokVar_in _ _ _ _ K T) as (M & _ & Pt & Le). exists (abs_of t). split.
  - eapply Permutation_in; [apply Permutation_sym, P|]. now apply in_map.
  - unfold abs_of. cbn [ab_line ab_start ab_len ab_type ab_mods]. rewrite Pt. unfold offsetToPosition. cbn [p_line p_char].
    rewrite !Nat2Z.id. auto.
Qed.

Lemma C95_refuted_proof :
  forall src, In src [b "x: ""${x}"""; b "x: { a ? x }: a"; b "x: { inherit (x) a; }"; b "x: { ${x} = 1; }"; b "x: x.${x}"] ->
  exists root s out v, parse src = Ok (Some root, []) /\ vla table root = Ok s /\ semanticTokens s src root = Ok out /\
    GramSpec.within root v /\ is_var v (b "x") /\ line (nl v) = line (nr v) /\
    forall a, In a (decode 0 0 out) -> ~ (Z.of_nat (ab_line a) = p_line (offsetToPosition src (off (nl v))) /\
      Z.of_nat (ab_start a) = p_char (offsetToPosition src (off (nl v)))).
Proof.
  intros src I. apply dark_sound. destruct I as [<-|[<-|[<-|[<-|[<-|[]]]]]]; vm_compute; reflexivity.
Qed.
