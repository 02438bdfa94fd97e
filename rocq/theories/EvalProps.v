(** Properties C58, C60 and C65 of the evaluator process. *)
From Verif Require Import Base TextModel TextSpec UriModel UriSpec UriProofs ConnModel EvalModel EvalSpec EvalProofs EvalFacts.


(** ** C58: protocol messages survive serialisation.
    A path read from the evaluated program, or a place without a file, need not: a string that is not UTF-8 stops
    the evaluator, and a declaration whose file is not a string (AttrSetProvider.cpp:86 leaves the path empty) makes
    the whole description of the option unreadable. *)
Theorem C58_refuted :
  (exists d why, optionToJSON d = Crash why) /\
  (exists d j, optionToJSON d = Ok j /\ optionFromJSON j = None).
Proof. exact C58_refuted_proof. Qed.
Print Assumptions C58_refuted.

(** Every other value survives: each request and reply whose strings are Unicode texts and whose places are in files
    with a path that survives the trip through URIs (C11 says which). *)
Theorem C58_partial :
  (forall c, text_params c -> survives completeToJSON completeFromJSON c) /\
  (forall l, all_of is_text l -> survives namesToJSON namesFromJSON l) /\
  (forall i, text_info i -> survives infoToJSON infoFromJSON i) /\
  (forall d, text_option d -> survives optionToJSON optionFromJSON d) /\
  (forall l, all_of text_field l -> survives optionsToJSON optionsFromJSON l).
Proof. exact C58_partial_proof. Qed.
Print Assumptions C58_partial.

(** Exactly the lists of Unicode texts can be sent (attribute paths and completion replies). *)
Theorem C58_texts :
  forall l, (all_of is_text l -> survives namesToJSON namesFromJSON l) /\
            (~ all_of is_text l -> exists why, namesToJSON l = Crash why).
Proof. exact C58_texts_proof. Qed.
Print Assumptions C58_texts.

Example C58_nonvacuous :
  let d := OptionDescription (Some (utf8 [0x48; 0xE9; 0x1F600]%N))
             [Location (b "/nix/store/x y.nix") (LPos 11 2) (LPos 11 2)] [] None (Some (b "{ }"))
             (Some (OptionType None (Some (b "bool")))) in
  text_option d /\ all_of text_field [OptionField (b "enable") (Some d); OptionField [] None] /\
  ~ all_of is_text [b "ok"; [ascii_of_N 255]].
Proof.
  assert (T : forall s, isUTF8 s = true -> is_text s) by apply isUTF8_inv.
  intro d. assert (D : text_option d).
  { split; [|split; [|split]].
    - intros o Ho a E. simpl in Ho. destruct Ho as [<-|[<-|[<-|[]]]]; inversion E; apply T; vm_compute; reflexivity.
    - intros l [<-|[]]. eexists. split; [vm_compute; reflexivity|vm_compute; reflexivity].
    - intros l [].
    - intros t E. inversion E; subst. split; intros a Ea; inversion Ea. apply T. vm_compute. reflexivity. }
  split; [exact D|]. split.
  - intros f [<-|[<-|[]]].
    + split; [apply T; reflexivity|]. intros x E. inversion E; subst. exact D.
    + split; [apply T; reflexivity|]. intros x E. inversion E.
  - intro H. specialize (H [ascii_of_N 255] ltac:(simpl; tauto)). apply isUTF8_text in H. vm_compute in H. discriminate.
Qed.

(** ** C60: attribute and option selection follows the path. *)
Theorem C60_attributes :
  forall v p u, selectStrings v p = inl u <-> at_path v p u.
Proof. exact C60_attributes_proof. Qed.
Print Assumptions C60_attributes.

Theorem C60_options :
  forall v p u, fst (selectOptions v p) = inl u <-> options_at v p u.
Proof. exact C60_options_proof. Qed.
Print Assumptions C60_options.

(** A missing step gives an error, and there is no second answer. *)
Theorem C60_missing :
  (forall v p, (forall u, ~ at_path v p u) -> exists e, selectStrings v p = inr e) /\
  (forall v p, (forall u, ~ options_at v p u) -> exists e, fst (selectOptions v p) = inr e) /\
  (forall v p u u', at_path v p u -> at_path v p u' -> u = u') /\
  (forall v p u u', options_at v p u -> options_at v p u' -> u = u').
Proof. exact C60_missing_proof. Qed.
Print Assumptions C60_missing.

(** What is shown for an option is the text of the `description` of what the path leads to, if it is text. *)
Theorem C60_described : forall v p d,
  fst (ask (OptionInfo p) v) = Described d <->
  p <> [] /\ exists l, options_at v p (NAttrs l) /\
    forall t, d = Some t <-> has (NAttrs l) (b "description") (NStr t).
Proof. exact C60_described_proof. Qed.
Print Assumptions C60_described.

(** The description of an option is not found at its path when the option's type is a submodule: what is described is
    the set of the options below it. *)
Theorem C60_refuted :
  exists v p o d, at_path v p o /\ marked o "_type" "option" /\ has o (b "description") (NStr d) /\
    fst (ask (OptionInfo p) v) = Described None.
Proof. exact C60_refuted_proof. Qed.
Print Assumptions C60_refuted.

Example C60_nonvacuous :
  let leaf := NAttrs [(b "_type", NStr (b "option")); (b "description", NStr (b "The home."))] in
  let sub := NAttrs [(b "getSubOptions", NFun (Some (NAttrs [(b "home", leaf)]))); (b "name", NStr (b "submodule"))] in
  let users := NAttrs [(b "_type", NStr (b "option"));
                 (b "type", NAttrs [(b "name", NStr (b "attrsOf")); (b "nestedTypes", NAttrs [(b "elemType", sub)])])] in
  let v := NAttrs [(b "users", NAttrs [(b "users", users)])] in
  options_at v [b "users"; b "users"; b "alice"; b "home"] leaf /\
  (forall u, ~ options_at v [b "users"; b "users"; b "alice"; b "hime"] u) /\
  fst (ask (OptionInfo [b "users"; b "users"; b "alice"; b "home"]) v) = Described (Some (b "The home.")).
Proof.
  split; [|split].
  - apply options_spec. vm_compute. reflexivity.
  - intros u H. apply options_spec in H. vm_compute in H. discriminate.
  - vm_compute. reflexivity.
Qed.

(** ** C65: an answer does not depend on the queries asked before.
    After a question about an option below a submodule, the submodule is no longer listed as an option: selectOptions
    overwrites it with its sub-options (Value.cpp:165). *)
Theorem C65_refuted :
  exists v q q', fst (ask q (asked [q'] v)) <> fst (ask q v).
Proof. exact C65_refuted_proof. Qed.
Print Assumptions C65_refuted.

(** Without options of type submodule, no history of queries changes any answer. *)
Theorem C65_partial :
  forall v, no_submodules v -> forall q qs, fst (ask q (asked qs v)) = fst (ask q v).
Proof. exact C65_partial_proof. Qed.
Print Assumptions C65_partial.

Example C65_nonvacuous :
  let v := NAttrs [(b "a", NAttrs [(b "_type", NStr (b "option"))]); (b "b", NOther)] in
  no_submodules v /\ fst (ask (OptionComplete [] []) v) = Fields [(b "a", true); (b "b", false)].
Proof. split; [apply no_type_sub; vm_compute; reflexivity|vm_compute; reflexivity]. Qed.
