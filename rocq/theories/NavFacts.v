(** Proofs of the theorems stated in NavProps. *)
From Verif Require Import Base Diag LexModel AstModel PSupModel SemaModel ParseModel ParseSpec NavModel NavSpec NavProofs IdSpec IdProofs.

Definition doc (src : bytes) : node :=
  match parse src with Ok (Some n, _) => n | _ => NMisc 0 (point (mkCur 0 0 0)) end.
Fixpoint all_nodes (k : nat) (n : node) : list node :=
  match k with 0 => [] | S k => n :: flat_map (all_nodes k) (present (children n)) end.
Lemma all_nodes_sound k : forall n m, In m (all_nodes k n) -> node_of n m.
Proof.
  induction k as [|k IH]; simpl; intros n m H; [contradiction|].
  destruct H as [<-|H]; [constructor|]. apply in_flat_map in H as (c & I & J). econstructor; eauto.
Qed.
Lemma all_nodes_complete k : forall n m, nsize n <= k -> node_of n m -> In m (all_nodes k n).
Proof.
  induction k as [|k IH]; intros n m H N; [pose proof (nsize_pos n); lia|]. simpl. inversion N; subst; [now left|right].
  apply in_flat_map. exists c. split; auto. apply IH; auto. match goal with I : In c _ |- _ => apply present_in, child_size in I end. lia.
Qed.
(** the identities are distinct once the shared `let' keyword is counted once *)
Fixpoint uniq (l : list nat) : bool :=
  match l with [] => true | x :: l' => negb (existsb (Nat.eqb x) l') && uniq l' end.
Lemma identified_test root : uniq (map nid (all_nodes (nsize root) root)) = true -> identified root.
Proof.
  intros H x y X Y E. apply (all_nodes_complete (nsize root)) in X; auto. apply (all_nodes_complete (nsize root)) in Y; auto.
  revert H X Y E. generalize (all_nodes (nsize root) root). intros l. induction l as [|z l IH]; simpl; [contradiction|].
  intros H X Y E. apply andb_prop in H as [H1 H2]. apply Bool.negb_true_iff in H1.
  assert (Q : forall w, In w l -> nid w = nid z -> False).
  { intros w I Ew. assert (existsb (Nat.eqb (nid z)) (map nid l) = true); [|congruence].
    apply existsb_exists. exists (nid z). split; [rewrite <- Ew; now apply in_map|apply Nat.eqb_refl]. }
  destruct X as [<-|X], Y as [<-|Y]; auto; [symmetry in E|]; now elim (Q _ ltac:(eassumption) E).
Qed.

Lemma C32_total_proof : forall root, exists m, parents root = Ok m.
Proof.
  intros root. destruct (parents_ok root) as (m & E & _). now exists m.
Qed.

Lemma C32_parent_any : forall root m n, identified root -> parents root = Ok m -> node_of root n ->
  exists p, pquery m n = Some p /\
    ((n = root /\ p = root) \/ (n <> root /\ node_of root p /\ In n (present (children p)))).
Proof.
  intros root m n I E N. destruct (parent_some _ _ _ E N) as [p P]. exists p. split; auto. exact (parent_ok _ _ _ _ I E N P).
Qed.

Lemma C32_parent_proof : forall src ds root m n,
  parse src = Ok (Some root, ds) -> parents root = Ok m -> node_of root n ->
  exists p, pquery m n = Some p /\
    ((n = root /\ p = root) \/ (n <> root /\ node_of root p /\ In n (present (children p)))).
Proof.
  intros *. intros HP. pose proof (parse_identified _ _ _ HP).
  intros. eapply C32_parent_any; eauto.
Qed.

Lemma C32_nearest_any : forall root m n k, identified root -> parents root = Ok m -> node_of root n ->
  exists l, chain root n l /\ upTo m n k = Ok (find (fun p => nodekind_beq (kind_of p) k) l).
Proof.
  intros root m n k I E N. exact (up_ok root m (fun k' => nodekind_beq k' k) n I E N).
Qed.

Lemma C32_nearest_proof : forall src ds root m n k,
  parse src = Ok (Some root, ds) -> parents root = Ok m -> node_of root n ->
  exists l, chain root n l /\ upTo m n k = Ok (find (fun p => nodekind_beq (kind_of p) k) l).
Proof.
  intros *. intros HP. pose proof (parse_identified _ _ _ HP).
  intros. eapply C32_nearest_any; eauto.
Qed.

Lemma C32_nearest_expression_any : forall root m n, identified root -> parents root = Ok m -> node_of root n ->
  exists l, chain root n l /\ upExpr m n = Ok (find (fun p => isExpr (kind_of p)) l).
Proof.
  intros root m n I E N. exact (up_ok root m isExpr n I E N).
Qed.

Lemma C32_nearest_expression_proof : forall src ds root m n,
  parse src = Ok (Some root, ds) -> parents root = Ok m -> node_of root n ->
  exists l, chain root n l /\ upExpr m n = Ok (find (fun p => isExpr (kind_of p)) l).
Proof.
  intros *. intros HP. pose proof (parse_identified _ _ _ HP).
  intros. eapply C32_nearest_expression_any; eauto.
Qed.

Lemma C32_one_way_up_proof : forall src ds root n l l', parse src = Ok (Some root, ds) ->
  (forall p q, node_of root p -> ~ let_keyword p q n) -> chain root n l -> chain root n l' -> l = l'.
Proof.
  intros src ds root n l l' H. exact (parse_one_way src root ds n l l' H).
Qed.

Lemma C32_root_any : forall root m n, identified root -> parents root = Ok m -> node_of root n ->
  (pis_root m n = true <-> n = root).
Proof.
  intros root m n I E N. unfold pis_root. destruct (parent_some _ _ _ E N) as [p P]. rewrite P.
  destruct (parent_ok _ _ _ _ I E N P) as [[-> ->]|(Ne & Np & Ch)].
  - rewrite Nat.eqb_refl. tauto.
  - split; [|congruence]. intros K. apply Nat.eqb_eq in K. exfalso. apply present_in, child_size in Ch.
    rewrite (I p n Np N K) in Ch. lia.
Qed.

Lemma C32_root_proof : forall src ds root m n,
  parse src = Ok (Some root, ds) -> parents root = Ok m -> node_of root n ->
  (pis_root m n = true <-> n = root).
Proof.
  intros *. intros HP. pose proof (parse_identified _ _ _ HP).
  intros. eapply C32_root_any; eauto.
Qed.

Lemma C32_two_ways_up_proof : exists src root n l l',
  parse src = Ok (Some root, []) /\ chain root n l /\ chain root n l' /\ l <> l'.
Proof.
  exists (b "let a = 1; in a"). do 4 eexists. split; [vm_compute; reflexivity|]. split; [|split].
  - eapply chain_up; [|apply chain_root]. vm_compute. left. reflexivity.
  - eapply chain_up; [|eapply chain_up; [|apply chain_root]].
    2: { vm_compute. right. left. reflexivity. }
    vm_compute. right. left. reflexivity.
  - discriminate.
Qed.

Lemma C33_descend_proof : forall root q, exists o, descend root q = Ok o /\
  match o with
  | Some n => reached root q n /\ forall c, In c (present (children n)) -> ~ contains (prange_of (nrange c)) q
  | None => ~ contains (prange_of (nrange root)) q
  end.
Proof.
  intros root q. destruct (descend_ok root q) as (o & E & H). exists o. split; auto. destruct o; tauto.
Qed.
