(** Proofs of the theorems stated in SeenProps. *)
From Verif Require Import Base Diag LexModel AstModel FeatProofs ParseModel ParseSpec ParseFacts GramSpec VlaModel VlaSpec VlaFacts SeenBase SeenProofs.

Fixpoint below (k : nat) (n : node) : list node :=
  match k with 0 => [n] | S k' => n :: flat_map (below k') (parts_of n) end.
Lemma below_within k : forall n m, In m (below k n) -> within n m.
Proof.
  induction k as [|k IH]; intros n m; cbn [below].
  - intros [<-|[]]. constructor.
  - intros [<-|I]; [constructor|]. apply in_flat_map in I as (c & I & J). eapply within_part; eauto.
Qed.
Definition is_varb (v : node) : bool := match v with NVar _ _ _ => true | _ => false end.
Definition missed (src : bytes) (x : bytes) : bool :=
  match parse src with
  | Ok (Some root, ds) =>
      match vla table root with
      | Ok s => existsb (fun v => is_varb v && bytes_eqb (varName v) x && match query s v with None => true | Some _ => false end) (below 30 root)
      | _ => false
      end
  | _ => false
  end.
Lemma missed_sound src x : missed src x = true -> exists root ds s v, parse src = Ok (Some root, ds) /\ vla table root = Ok s /\
  within root v /\ is_var v x /\ query s v = None.
Proof.
  unfold missed. destruct (parse src) as [[[root|] ds]|w|]; [|intros F; discriminate F|intros F; discriminate F|intros F; discriminate F].
  destruct (vla table root) as [s|w|] eqn:V; [|intros F; discriminate F|intros F; discriminate F].
  intros H. apply existsb_exists in H as (v & I & H). apply andb_prop in H as [H H3]. apply andb_prop in H as [H1 H2].
  exists root, ds, s, v. split; [reflexivity|]. split; [exact V|]. split; [eapply below_within; eauto|]. split.
  - split; [destruct v; try discriminate H1; reflexivity|now apply bytes_eqb_eq].
  - destruct (query s v); [discriminate H3|reflexivity].
Qed.
Lemma bound_or_not s x : (exists t, bound s x t) \/ unbound s x.
Proof.
  induction s as [|l s IH]; [right; intros l []|].
  assert (D : declares l x \/ ~ declares l x).
  { destruct l as [ns|who ns|w]; cbn [declares]; [| |now right];
      match goal with |- In ?y ?l \/ _ => destruct (in_dec (list_eq_dec Ascii.ascii_dec) y l); auto end. }
  destruct D as [D|D]; [left; eexists; now constructor|]. destruct IH as [(t & B)|U]; [left; eexists; now apply bound_up; eauto|right].
  intros l' [<-|I]; auto.
Qed.
Lemma bound_head s x t : bound s x t -> exists l t', t = l :: t' /\ declares l x.
Proof. induction 1; eauto. Qed.

Lemma C94_visited_partial_proof : forall src root ds primops v x,
  parse src = Ok (Some root, ds) -> no_errors ds ->
  (forall i r e, ~ within root (NInherit i r [] (Some e))) ->
  within root v -> is_var v x -> exists sc, occurs_at primops root sc v x.
Proof.
  exact every_variable.
Qed.

Lemma C94_answered_partial_proof : forall src root ds primops s v x,
  parse src = Ok (Some root, ds) -> no_errors ds ->
  (forall i r e, ~ within root (NInherit i r [] (Some e))) ->
  vla primops root = Ok s -> within root v -> is_var v x ->
  (exists d, query s v = Some (Defined d)) \/ (exists d, query s v = Some (FromWith d)) \/
  (query s v = Some Undefined /\
   (~ In x (map fst primops) ->
    exists dg, In dg (v_diags s) /\ d_range dg = nrange v /\ In (d_kind dg) [DK_UndefinedVariable; DK_PrimOpNeedsPrefix])).
Proof.
  intros src root ds primops s v x HP HE HI HV W K. destruct (every_variable _ _ _ primops _ _ HP HE HI W K) as (sc & O).
  destruct (bound_or_not sc x) as [(t & B)|U].
  - left. destruct (bound_head _ _ _ B) as ([ns|who ns|w] & t' & -> & D).
    + destruct (C27_prelude_proof _ _ _ _ _ _ _ _ _ _ HP HV O B) as (d & y & H & _). eauto.
    + destruct (C27_bound_proof _ _ _ _ _ _ _ _ _ _ _ HP HV O B) as (d & y & nd & H & _). eauto.
    + destruct D.
  - right. destruct (withs sc) as [|w ws] eqn:Ws.
    + right. split; [eapply C27_undefined_proof; eauto|]. intros N.
      destruct (in_dec (list_eq_dec Ascii.ascii_dec) (b "__" ++ x) (map fst primops)) as [Y|Y].
      * exists (d_fix (Fix_ (b "use `builtins.` prefix") [TEdit (point (nl v)) (b "builtins.")]) (diag0 DK_PrimOpNeedsPrefix (nrange v))).
        split; [|split; [reflexivity|right; left; reflexivity]].
        refine (proj2 (C28_missing_prefix_partial_proof primops root s _ HV _) _); [reflexivity|]. exists sc, v, x.
        split; [exact O|]. split; [exact U|]. split; [exact Ws|]. split; [exact N|]. split; [exact Y|reflexivity].
      * exists (d_arg x (diag0 DK_UndefinedVariable (nrange v))). split; [|split; [reflexivity|left; reflexivity]].
        refine (proj2 (C28_undefined_partial_proof primops root s _ HV _) _); [reflexivity|]. exists sc, v, x.
        split; [exact O|]. split; [exact U|]. split; [exact Ws|]. split; [exact N|]. split; [exact Y|reflexivity].
    + left. eapply C27_with_proof; eauto. rewrite Ws. discriminate.
Qed.

Lemma C94_refuted_proof :
  forall src, In src [b "{ inherit (x); }"; b "{ a = 1; a = x; }"; b "{ a ? x }: "] ->
  exists root ds s v, parse src = Ok (Some root, ds) /\ vla table root = Ok s /\
    within root v /\ is_var v (b "x") /\ query s v = None.
Proof.
  intros src I. apply missed_sound. destruct I as [<-|[<-|[<-|[]]]]; vm_compute; reflexivity.
Qed.
