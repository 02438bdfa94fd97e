(** Proofs of the theorems stated in EvalProps. *)
From Verif Require Import Base TextModel TextSpec UriModel UriSpec UriProofs ConnModel EvalModel EvalSpec EvalProofs.

Fixpoint no_type (v : nval) : bool :=
  match v with
  | NAttrs l => forallb (fun a => negb (bytes_eqb (fst a) (b "type")) && no_type (snd a)) l
  | _ => true
  end.
Lemma no_type_has v x w : no_type v = true -> has v x w -> x <> b "type" /\ no_type w = true.
Proof.
  intros H (b1 & a1 & -> & _). cbn [no_type] in H.
  rewrite forallb_forall in H. specialize (H (x, w)). cbn [fst snd] in H.
  assert (I : In (x, w) (b1 ++ (x, w) :: a1)) by (apply in_or_app; right; left; reflexivity).
  apply H in I. apply andb_prop in I. destruct I as [I1 I2]. split; [|exact I2].
  intros ->. now rewrite beq_refl in I1.
Qed.
Lemma no_type_sub v : no_type v = true -> no_submodules v.
Proof.
  intros H p w P. revert H. induction P as [v|v x w p u Hx _ IH]; intro H.
  - intros (t & Ht & _). now destruct (no_type_has v _ _ H Ht).
  - apply IH. now apply (no_type_has v x w).
Qed.

Lemma C58_refuted_proof :
  (exists d why, optionToJSON d = Crash why) /\
  (exists d j, optionToJSON d = Ok j /\ optionFromJSON j = None).
Proof.
  split.
  - exists (OptionDescription (Some [ascii_of_N 233]) [] [] None None None).
    eexists. vm_compute. reflexivity.
  - exists (OptionDescription (Some (b "text")) [Location [] (LPos 0 0) (LPos 0 0)] [] None None None).
    eexists. split; [vm_compute; reflexivity|vm_compute; reflexivity].
Qed.

Lemma C58_partial_proof :
  (forall c, text_params c -> survives completeToJSON completeFromJSON c) /\
  (forall l, all_of is_text l -> survives namesToJSON namesFromJSON l) /\
  (forall i, text_info i -> survives infoToJSON infoFromJSON i) /\
  (forall d, text_option d -> survives optionToJSON optionFromJSON d) /\
  (forall l, all_of text_field l -> survives optionsToJSON optionsFromJSON l).
Proof.
  split; [intros c H; apply rt_survives, rt_params, H|].
  split; [intros c H; apply rt_survives, rt_names, H|].
  split; [intros c H; apply rt_survives, rt_info, H|].
  split; [intros c H; apply rt_survives, rt_option, H|].
  intros c H; apply rt_survives, rt_options, H.
Qed.

Lemma C58_texts_proof :
  forall l, (all_of is_text l -> survives namesToJSON namesFromJSON l) /\
            (~ all_of is_text l -> exists why, namesToJSON l = Crash why).
Proof.
  intro l. split; [intro H; apply rt_survives, rt_names, H|].
  unfold namesToJSON, jvector. induction l as [|s l IH]; intro H.
  - destruct H. intros a [].
  - cbn [jelements]. unfold jstring at 1. destruct (isUTF8 s) eqn:E; [|eexists; reflexivity].
    cbn [bind]. destruct IH as [why W].
    + intro G. apply H. intros a [<-|Ha]; [now apply isUTF8_inv|auto].
    + exists why. destruct (jelements jstring l); cbn [bind] in *; try discriminate. exact W.
Qed.

Lemma C60_attributes_proof :
  forall v p u, selectStrings v p = inl u <-> at_path v p u.
Proof. intros v p u. symmetry. apply path_spec. 
Qed.

Lemma C60_options_proof :
  forall v p u, fst (selectOptions v p) = inl u <-> options_at v p u.
Proof. intros v p u. symmetry. apply options_spec. 
Qed.

Lemma C60_missing_proof :
  (forall v p, (forall u, ~ at_path v p u) -> exists e, selectStrings v p = inr e) /\
  (forall v p, (forall u, ~ options_at v p u) -> exists e, fst (selectOptions v p) = inr e) /\
  (forall v p u u', at_path v p u -> at_path v p u' -> u = u') /\
  (forall v p u u', options_at v p u -> options_at v p u' -> u = u').
Proof.
  split; [|split; [|split]].
  - intros v p H. destruct (selectStrings v p) as [u|e] eqn:E; [|eauto]. destruct (H u). now apply path_spec.
  - intros v p H. destruct (fst (selectOptions v p)) as [u|e] eqn:E; [|eauto]. destruct (H u). now apply options_spec.
  - intros v p u u' H H'. apply path_spec in H, H'. congruence.
  - intros v p u u' H H'. apply options_spec in H, H'. congruence.
Qed.

Lemma C60_described_proof : forall v p d,
  fst (ask (OptionInfo p) v) = Described d <->
  p <> [] /\ exists l, options_at v p (NAttrs l) /\
    forall t, d = Some t <-> has (NAttrs l) (b "description") (NStr t).
Proof.
  intros v p d. cbn [ask]. unfold onOptionInfo.
  assert (F : forall l t, fillString (NAttrs l) [b "description"] = Some t <-> has (NAttrs l) (b "description") (NStr t)).
  { intros l t. unfold fillString. split.
    - destruct (selectStrings (NAttrs l) [b "description"]) as [u|] eqn:E; [|discriminate].
      destruct u; try discriminate. intros H. injection H as ->. apply path_spec in E.
      inversion E as [|? ? ? ? ? Hs Hp]; subst. inversion Hp; subst. exact Hs.
    - intros H. assert (E : selectStrings (NAttrs l) [b "description"] = inl (NStr t)).
      { apply path_spec. econstructor; [exact H|constructor]. }
      now rewrite E. }
  destruct p as [|x p]; [split; [discriminate|intros [Q _]; now elim Q]|].
  assert (O : forall u, options_at v (x :: p) u <-> fst (selectOptions v (x :: p)) = inl u) by (intros; apply options_spec). destruct (selectOptions v (x :: p)) as [[u|e] v'] eqn:E; cbn [fst] in O.
  - assert (U : options_at v (x :: p) u) by (apply O; reflexivity).
    split.
    + intros H. split; [discriminate|]. destruct u as [l| | | |]; try discriminate. injection H as <-. exists l. split; auto.
    + intros (_ & l & Ol & Q). apply O in Ol. injection Ol as ->. cbn [fst]. f_equal.
      destruct d as [t|].
      * apply F. now apply Q.
      * destruct (fillString (NAttrs l) [b "description"]) as [t|] eqn:G; [|reflexivity].
        apply F in G. apply Q in G. discriminate.
  - split; [destruct e; discriminate|]. intros (_ & l & Ol & _). apply O in Ol. discriminate.
Qed.

Lemma C60_refuted_proof :
  exists v p o d, at_path v p o /\ marked o "_type" "option" /\ has o (b "description") (NStr d) /\
    fst (ask (OptionInfo p) v) = Described None.
Proof.
  set (t := NAttrs [(b "getSubOptions", NFun (Some (NAttrs [(b "enable", NAttrs [(b "_type", NStr (b "option"))])])));
                    (b "name", NStr (b "submodule"))]).
  set (o := NAttrs [(b "_type", NStr (b "option")); (b "description", NStr (b "Settings.")); (b "type", t)]).
  exists (NAttrs [(b "nixvim", o)]), [b "nixvim"], o, (b "Settings.").
  split; [|split; [|split]]; [apply path_spec|apply marked_check|apply has_select|]; vm_compute; reflexivity.
Qed.

Lemma C65_refuted_proof :
  exists v q q', fst (ask q (asked [q'] v)) <> fst (ask q v).
Proof.
  set (t := NAttrs [(b "getSubOptions", NFun (Some (NAttrs [(b "enable", NAttrs [(b "_type", NStr (b "option"))])])));
                    (b "name", NStr (b "submodule"))]).
  set (o := NAttrs [(b "_type", NStr (b "option")); (b "description", NStr (b "Settings.")); (b "type", t)]).
  exists (NAttrs [(b "nixvim", o)]), (OptionComplete [] []), (OptionInfo [b "nixvim"; b "enable"]).
  vm_compute. discriminate.
Qed.

Lemma C65_partial_proof :
  forall v, no_submodules v -> forall q qs, fst (ask q (asked qs v)) = fst (ask q v).
Proof. intros v H q qs. now rewrite asked_unchanged. 
Qed.
