(** Proofs about EvalModel. *)
From Verif Require Import Base TextModel TextSpec UriModel UriSpec ConnModel EvalModel EvalSpec.

(** ** UTF-8 *)
Lemma code_of n : (n < 256)%N -> code (ascii_of_N n) = n.
Proof. apply N_ascii_embedding. Qed.

Lemma in_range_spec lo hi n : (n < 256)%N -> in_range lo hi (ascii_of_N n) = (N.leb lo n && N.leb n hi).
Proof. intro H. unfold in_range. rewrite code_of; auto. Qed.

Lemma isUTF8_char x s : scalar x -> isUTF8 (utf8_char x ++ s) = isUTF8 s.
Proof.
  intro Hs. unfold utf8_char.
  pose proof (N.div_mod x 64 ltac:(lia)). pose proof (N.mod_lt x 64 ltac:(lia)).
  pose proof (N.div_mod (x / 64) 64 ltac:(lia)). pose proof (N.mod_lt (x / 64) 64 ltac:(lia)).
  assert (E1 : (x / 4096 = x / 64 / 64)%N) by (rewrite N.div_div by lia; reflexivity).
  assert (E2 : (x / 262144 = x / 64 / 64 / 64)%N) by (rewrite !N.div_div by lia; reflexivity).
  rewrite E1, E2.
  set (q1 := (x / 64)%N) in *. set (m1 := (x mod 64)%N) in *.
  set (q2 := (q1 / 64)%N) in *. set (m2 := (q1 mod 64)%N) in *.
  pose proof (N.div_mod q2 64 ltac:(lia)). pose proof (N.mod_lt q2 64 ltac:(lia)).
  set (q3 := (q2 / 64)%N) in *. set (m3 := (q2 mod 64)%N) in *.
  clearbody q1 m1 q2 m2 q3 m3. unfold scalar in Hs.
  destruct (N.ltb_spec x 128); [|destruct (N.ltb_spec x 2048); [|destruct (N.ltb_spec x 65536)]];
    cbn [map app isUTF8]; unfold cont; rewrite ?in_range_spec by lia;
    repeat match goal with |- context [N.leb ?a ?c] => destruct (N.leb_spec a c); cbn [andb]; try lia end; reflexivity.
Qed.

Lemma isUTF8_text s : is_text s -> isUTF8 s = true.
Proof.
  intros (t & Ht & ->). induction Ht as [|x t Hx Ht IH]; [reflexivity|].
  change (utf8 (x :: t)) with (utf8_char x ++ utf8 t). rewrite isUTF8_char; auto.
Qed.

(** the converse, so that the crash condition is exact *)
Lemma ascii_code c : ascii_of_N (code c) = c.
Proof. apply ascii_N_embedding. Qed.
Lemma code_lt c : (code c < 256)%N.
Proof. apply N_ascii_bounded. Qed.

Lemma in_range_true lo hi c : in_range lo hi c = true -> (lo <= code c /\ code c <= hi)%N.
Proof. unfold in_range. intro H. apply andb_prop in H. destruct H. split; now apply N.leb_le. Qed.
Lemma in_range_false lo hi c : in_range lo hi c = false -> (code c < lo \/ hi < code c)%N.
Proof.
  unfold in_range. intro H. apply andb_false_iff in H.
  destruct H as [H|H]; apply N.leb_gt in H; [now left|now right].
Qed.

Ltac ranges :=
  repeat match goal with
  | H : andb _ _ = true |- _ => apply andb_prop in H; destruct H
  | H : cont _ = true |- _ => unfold cont in H
  | H : in_range _ _ _ = true |- _ => apply in_range_true in H
  | H : in_range _ _ _ = false |- _ => apply in_range_false in H
  end.

Lemma isUTF8_inv s : isUTF8 s = true -> is_text s.
Proof.
  cut (forall n s, List.length s < n -> isUTF8 s = true -> is_text s).
  { intros H. apply (H (S (List.length s))). lia. }
  clear s. induction n as [|n IH]; intros s Hl H; [lia|].
  destruct s as [|c s]; [exists []; split; [constructor|reflexivity]|].
  cbn [isUTF8] in H. cbn [List.length] in Hl.
  assert (add : forall x r, scalar x -> List.length r < n -> isUTF8 r = true -> is_text (utf8_char x ++ r)).
  { intros x r Hx Hr Hu. destruct (IH r Hr Hu) as (t & Ht & ->). exists (x :: t). split; [now constructor|reflexivity]. }
  pose proof (code_lt c) as Hc.
  destruct (in_range 0 127 c) eqn:E1.
  { replace (c :: s) with (utf8_char (code c) ++ s); [apply add; auto; [|lia]|].
    - ranges. left. lia.
    - unfold utf8_char. ranges. destruct (N.ltb_spec (code c) 128); [|lia]. cbn. now rewrite ascii_code. }
  destruct (in_range 194 223 c) eqn:E2.
  { destruct s as [|d r]; [discriminate|]. cbn [List.length] in Hl. ranges.
    replace (c :: d :: r) with (utf8_char ((code c - 192) * 64 + (code d - 128)) ++ r); [apply add; auto; [|lia]|].
    - left. lia.
    - unfold utf8_char.
      destruct (N.ltb_spec ((code c - 192) * 64 + (code d - 128)) 128); [lia|].
      destruct (N.ltb_spec ((code c - 192) * 64 + (code d - 128)) 2048); [|lia].
      rewrite N.div_add_l by lia. rewrite N.div_small by lia.
      rewrite N.add_comm with (n := ((code c - 192) * 64)%N). rewrite N.mod_add by lia. rewrite N.mod_small by lia.
      cbn [map app]. rewrite <- (ascii_code c) at 2. rewrite <- (ascii_code d) at 2.
      do 3 f_equal; lia. }
  destruct (in_range 224 239 c) eqn:E3.
  { destruct s as [|d [|e r]]; try discriminate. cbn [List.length] in Hl.
    assert (Hd : (128 <= code d <= 191 /\ (code c = 224 -> 160 <= code d) /\ (code c = 237 -> code d <= 159))%N).
    { destruct (in_range 224 224 c) eqn:F1; [ranges; lia|].
      destruct (in_range 237 237 c) eqn:F2; ranges; lia. }
    ranges.
    set (u := (code c - 224)%N). set (v := (code d - 128)%N). set (w := (code e - 128)%N).
    assert (Eq : ((u * 64 + v) * 64 + w = u * 4096 + v * 64 + w)%N) by lia.
    replace (c :: d :: e :: r) with (utf8_char ((u * 64 + v) * 64 + w) ++ r); [apply add; auto; [|lia]|].
    - unfold scalar. subst u v w. lia.
    - unfold utf8_char.
      destruct (N.ltb_spec ((u * 64 + v) * 64 + w) 128); [subst u v w; lia|].
      destruct (N.ltb_spec ((u * 64 + v) * 64 + w) 2048); [subst u v w; lia|].
      destruct (N.ltb_spec ((u * 64 + v) * 64 + w) 65536); [|subst u v w; lia].
      replace (((u * 64 + v) * 64 + w) / 4096)%N with (((u * 64 + v) * 64 + w) / 64 / 64)%N by (rewrite N.div_div by lia; reflexivity).
      rewrite N.div_add_l by lia. rewrite (N.div_small w) by (subst w; lia). rewrite N.add_0_r.
      rewrite N.div_add_l by lia. rewrite (N.div_small v) by (subst v; lia). rewrite N.add_0_r.
      rewrite (N.add_comm (u * 64)), (N.add_comm _ w). rewrite !N.mod_add by lia. rewrite !N.mod_small by (subst v w; lia).
      cbn [map app]. rewrite <- (ascii_code c) at 1. rewrite <- (ascii_code d) at 1. rewrite <- (ascii_code e) at 1.
      subst u v w. repeat f_equal; lia. }
  destruct (in_range 240 244 c) eqn:E4; [|discriminate].
  destruct s as [|d [|e [|f r]]]; try discriminate. cbn [List.length] in Hl.
  assert (Hd : (128 <= code d <= 191 /\ (code c = 240 -> 144 <= code d) /\ (code c = 244 -> code d <= 143))%N).
  { destruct (in_range 240 240 c) eqn:F1; [ranges; lia|].
    destruct (in_range 244 244 c) eqn:F2; ranges; lia. }
  ranges.
  set (u := (code c - 240)%N). set (v := (code d - 128)%N). set (w := (code e - 128)%N). set (z := (code f - 128)%N).
  replace (c :: d :: e :: f :: r) with (utf8_char (((u * 64 + v) * 64 + w) * 64 + z) ++ r); [apply add; auto; [|lia]|].
  - unfold scalar. subst u v w z. lia.
  - unfold utf8_char. set (x := (((u * 64 + v) * 64 + w) * 64 + z)%N).
    assert (65536 <= x)%N by (subst x u v w z; lia).
    destruct (N.ltb_spec x 128); [lia|]. destruct (N.ltb_spec x 2048); [lia|]. destruct (N.ltb_spec x 65536); [lia|].
    replace (x / 262144)%N with (x / 64 / 64 / 64)%N by (rewrite !N.div_div by lia; reflexivity).
    replace (x / 4096)%N with (x / 64 / 64)%N by (rewrite N.div_div by lia; reflexivity).
    subst x.
    rewrite N.div_add_l by lia. rewrite (N.div_small z) by (subst z; lia). rewrite N.add_0_r.
    rewrite N.div_add_l by lia. rewrite (N.div_small w) by (subst w; lia). rewrite N.add_0_r.
    rewrite N.div_add_l by lia. rewrite (N.div_small v) by (subst v; lia). rewrite N.add_0_r.
    rewrite (N.add_comm (u * 64)), (N.add_comm _ w), (N.add_comm _ z).
    rewrite !N.mod_add by lia. rewrite !N.mod_small by (subst v w z; lia).
    cbn [map app]. rewrite <- (ascii_code c) at 1. rewrite <- (ascii_code d) at 1. rewrite <- (ascii_code e) at 1.
    rewrite <- (ascii_code f) at 1. subst u v w z. repeat f_equal; lia.
Qed.

(** ** C58 *)
From Verif Require Import UriProofs.

Definition low (s : bytes) : Prop := Forall (fun c => (code c < 128)%N) s.
Lemma low_utf8 s : low s -> isUTF8 s = true.
Proof.
  induction 1 as [|c s Hc _ IH]; [reflexivity|]. cbn [isUTF8].
  replace (in_range 0 127 c) with true; [exact IH|].
  unfold in_range. symmetry. apply andb_true_intro. split; apply N.leb_le; lia.
Qed.
Lemma low_test s : forallb (fun c => N.ltb (code c) 128) s = true -> low s.
Proof. intro H. apply Forall_forall. intros c Hc. rewrite forallb_forall in H. apply N.ltb_lt. auto. Qed.
Lemma low_in c s : low s -> In c s -> (code c < 128)%N.
Proof. unfold low. rewrite Forall_forall. auto. Qed.
Lemma encoded_low s : encoded s -> low s.
Proof.
  assert (Hs : low safe_chars) by (apply low_test; vm_compute; reflexivity).
  assert (Hh : low (b "0123456789ABCDEF")) by (apply low_test; vm_compute; reflexivity).
  induction 1 as [|c s Hc _ IH|h l s Hh1 Hl _ IH]; [constructor|constructor; auto|].
  - exact (low_in _ _ Hs Hc).
  - constructor; [vm_compute; reflexivity|]. constructor; [exact (low_in _ _ Hh Hh1)|].
    constructor; [exact (low_in _ _ Hh Hl)|exact IH].
Qed.
Lemma toString_low u : low (toString u).
Proof.
  assert (E : forall s, low (percentEncode s)) by (intro s; apply encoded_low, encode_encoded).
  assert (C : low (b ":")) by (apply low_test; reflexivity).
  assert (D : low (b "//")) by (apply low_test; reflexivity).
  unfold toString, low in *.
  assert (B : forall (x : bool) a body,
    Forall (fun c => (code c < 128)%N) ((if x then b "//" ++ percentEncode a else []) ++ percentEncode body)).
  { intros x a body. apply Forall_app; split; auto. destruct x; [|constructor]. apply Forall_app; split; auto. }
  apply Forall_app; split; auto. apply Forall_app; split; auto.
  destruct (u_authority u), (u_body u); [exact (Forall_nil _)|apply (B _ [])|apply (B true)|apply (B true)].
Qed.

(** round trips, with a value that is not null *)
Definition rt {A} (w : A -> res json) (r : json -> option A) (a : A) : Prop :=
  exists j, w a = Ok j /\ j <> JNull /\ r j = Some a.
Lemma rt_survives {A} (w : A -> res json) r a : rt w r a -> survives w r a.
Proof. intros (j & H & _ & H'). exists j. auto. Qed.

Lemma rt_string s : is_text s -> rt jstring fromString s.
Proof.
  intro H. exists (JString s). unfold jstring. rewrite (isUTF8_text s H). repeat split. discriminate.
Qed.
Lemma rt_optional {A} (w : A -> res json) r o :
  if_present (rt w r) o -> exists j, joptional w o = Ok j /\ fromOptional r j = Some o.
Proof.
  intro H. destruct o as [a|]; [|exists JNull; split; reflexivity].
  destruct (H a eq_refl) as (j & E & N & R). exists j. split; [exact E|].
  unfold fromOptional. rewrite R. destruct j; try reflexivity. now destruct N.
Qed.
Lemma rt_vector {A} (w : A -> res json) r l : all_of (rt w r) l -> rt (jvector w) (fromVector r) l.
Proof.
  intro H. assert (G : exists js, jelements w l = Ok js /\ fromElements r js = Some l).
  { induction l as [|a l IH]; [exists []; split; reflexivity|].
    destruct (H a (or_introl eq_refl)) as (j & E & _ & R).
    destruct IH as (js & E' & R'); [intros x Hx; apply H; now right|].
    exists (j :: js). cbn [jelements fromElements]. rewrite E. cbn [bind]. rewrite E'. cbn [bind].
    rewrite R, R'. split; reflexivity. }
  destruct G as (js & E & R). exists (JArray js). unfold jvector. rewrite E. cbn [bind].
  repeat split; [discriminate|exact R].
Qed.

Lemma present_weaken {A} (P Q : A -> Prop) o : (forall a, P a -> Q a) -> if_present P o -> if_present Q o.
Proof. intros H G a E. auto. Qed.
Lemma all_weaken {A} (P Q : A -> Prop) l : (forall a, P a -> Q a) -> all_of P l -> all_of Q l.
Proof. intros H G a E. auto. Qed.

Ltac opts :=
  repeat match goal with
  | H : if_present is_text ?o |- context [joptional jstring ?o] =>
      let j := fresh "j" in let E := fresh "E" in let R := fresh "R" in
      destruct (rt_optional jstring fromString o (present_weaken _ _ o rt_string H)) as (j & E & R); rewrite E; clear E
  end.

Lemma rt_type t : text_type t -> rt typeToJSON typeFromJSON t.
Proof.
  destruct t as [d n]. intros [Hd Hn]. cbn [ot_Description ot_Name] in *.
  unfold rt, typeToJSON, jobject. cbn [jfields ot_Description ot_Name]. opts. cbn [bind].
  eexists. split; [reflexivity|]. split; [discriminate|].
  unfold typeFromJSON. cbn [getAsObject omapOptional get]. unfold omapOptional. cbn. rewrite R, R0. reflexivity.
Qed.

Lemma rt_position p : rt positionToJSON positionFromJSON p.
Proof. destruct p as [l c]. eexists. split; [reflexivity|]. split; [discriminate|reflexivity]. Qed.
Lemma rt_range r : rt rangeToJSON rangeFromJSON r.
Proof. destruct r as [[l c] [l' c']]. eexists. split; [reflexivity|]. split; [discriminate|reflexivity]. Qed.
Lemma rt_uri p : path_survives p -> rt uriToJSON uriFromJSON p.
Proof.
  intros (u & E & R). exists (JString u). unfold uriToJSON. rewrite E. cbn [bind]. unfold jstring.
  rewrite low_utf8.
  - repeat split; [discriminate|]. unfold uriFromJSON. now rewrite R.
  - unfold uriOfFile in E. destruct (createFile p) as [x| |]; cbn [bind] in E; try discriminate. inversion E. apply toString_low.
Qed.
Lemma rt_location l : is_place l -> rt locationToJSON locationFromJSON l.
Proof.
  destruct l as [p s e]. unfold is_place. cbn [lo_path]. intro H.
  destruct (rt_uri p H) as (ju & Eu & Nu & Ru). destruct (rt_range (s, e)) as (jr & Er & Nr & Rr).
  unfold rt, locationToJSON, jobject. cbn [jfields lo_path lo_start lo_end]. rewrite Eu, Er. cbn [bind].
  eexists. split; [reflexivity|]. split; [discriminate|].
  unfold locationFromJSON, getAsObject, omap. cbn [get]. 
  replace (bytes_eqb (b "uri") (b "uri")) with true by reflexivity.
  replace (bytes_eqb (b "range") (b "uri")) with false by reflexivity.
  replace (bytes_eqb (b "range") (b "range")) with true by reflexivity.
  rewrite Ru, Rr. reflexivity.
Qed.

Ltac vecs w r lem :=
  repeat match goal with
  | H : all_of _ ?o |- context [jvector w ?o] =>
      let j := fresh "jv" in let E := fresh "EV" in let R := fresh "RV" in
      destruct (rt_vector w r o (all_weaken _ _ o lem H)) as (j & E & ? & R); rewrite E; clear E
  end.

Lemma rt_option d : text_option d -> rt optionToJSON optionFromJSON d.
Proof.
  destruct d as [d dl df ex de ty]. intros (Hs & Hdl & Hdf & Hty).
  cbn [od_Description od_Declarations od_Definitions od_Example od_Default od_Type] in *.
  assert (H1 := Hs d ltac:(simpl; tauto)). assert (H2 := Hs ex ltac:(simpl; tauto)). assert (H3 := Hs de ltac:(simpl; tauto)).
  unfold rt, optionToJSON, jobject.
  cbn [jfields od_Description od_Declarations od_Definitions od_Example od_Default od_Type].
  destruct (rt_optional jstring fromString d (present_weaken _ _ d rt_string H1)) as (jd & Ed & Rd).
  destruct (rt_optional jstring fromString ex (present_weaken _ _ ex rt_string H2)) as (jx & Ex & Rx).
  destruct (rt_optional jstring fromString de (present_weaken _ _ de rt_string H3)) as (je & Ee & Re).
  destruct (rt_optional typeToJSON typeFromJSON ty (present_weaken _ _ ty rt_type Hty)) as (jt & Et & Rt).
  destruct (rt_vector locationToJSON locationFromJSON dl (all_weaken _ _ dl rt_location Hdl)) as (j1 & E1 & _ & R1).
  destruct (rt_vector locationToJSON locationFromJSON df (all_weaken _ _ df rt_location Hdf)) as (j2 & E2 & _ & R2).
  rewrite Ed, Ex, Ee, Et, E1, E2. cbn [bind].
  eexists. split; [reflexivity|]. split; [discriminate|].
  unfold optionFromJSON, omapOptional. cbn -[fromOptional fromVector locationFromJSON fromString typeFromJSON].
  rewrite Rd, R1, R2, Rx, Re, Rt. reflexivity.
Qed.

Lemma rt_field f : text_field f -> rt fieldToJSON fieldFromJSON f.
Proof.
  destruct f as [n d]. intros [Hn Hd]. cbn [of_Name of_Description] in *.
  destruct (rt_optional optionToJSON optionFromJSON d (present_weaken _ _ d rt_option Hd)) as (jd & Ed & Rd).
  destruct (rt_string n Hn) as (jn & En & Nn & Rn).
  unfold rt, fieldToJSON, jobject. cbn [jfields of_Name of_Description]. rewrite Ed, En. cbn [bind].
  eexists. split; [reflexivity|]. split; [discriminate|].
  unfold fieldFromJSON, omapOptional. cbn -[fromOptional optionFromJSON fromString]. rewrite Rd, Rn. reflexivity.
Qed.

Lemma rt_package p : text_package p -> rt packageToJSON packageFromJSON p.
Proof.
  destruct p as [n pn v d l q h]. unfold text_package.
  cbn [pk_Name pk_PName pk_Version pk_Description pk_LongDescription pk_Position pk_Homepage]. intro H.
  assert (G : forall o, In o [n; pn; v; d; l; q; h] -> exists j, joptional jstring o = Ok j /\ fromOptional fromString j = Some o).
  { intros o Ho. exact (rt_optional jstring fromString o (present_weaken _ _ o rt_string (H o Ho))). }
  destruct (G n) as (j1 & E1 & R1); [simpl; tauto|]. destruct (G pn) as (j2 & E2 & R2); [simpl; tauto|].
  destruct (G v) as (j3 & E3 & R3); [simpl; tauto|]. destruct (G d) as (j4 & E4 & R4); [simpl; tauto|].
  destruct (G l) as (j5 & E5 & R5); [simpl; tauto|]. destruct (G q) as (j6 & E6 & R6); [simpl; tauto|].
  destruct (G h) as (j7 & E7 & R7); [simpl; tauto|].
  unfold rt, packageToJSON, jobject.
  cbn [jfields pk_Name pk_PName pk_Version pk_Description pk_LongDescription pk_Position pk_Homepage].
  rewrite E1, E2, E3, E4, E5, E6, E7. cbn [bind].
  eexists. split; [reflexivity|]. split; [discriminate|].
  unfold packageFromJSON, omapO. cbn -[fromOptional fromString].
  rewrite R1, R2, R3, R4, R5, R6, R7. reflexivity.
Qed.

Lemma to_int_id z : is_int z -> to_int z = z.
Proof. unfold is_int, to_int. intro H. rewrite Z.mod_small by lia. lia. Qed.

Lemma rt_meta m : text_meta m -> rt metaToJSON metaFromJSON m.
Proof.
  destruct m as [t l]. intros [Ht Hl]. cbn [vm_Type vm_Location] in *.
  destruct (rt_optional locationToJSON locationFromJSON l (present_weaken _ _ l rt_location Hl)) as (jl & El & Rl).
  unfold rt, metaToJSON, jobject. cbn [jfields vm_Type vm_Location]. rewrite El. cbn [bind].
  eexists. split; [reflexivity|]. split; [discriminate|].
  unfold metaFromJSON, omapOptional, omap. cbn -[fromOptional fromInt locationFromJSON].
  rewrite Rl. unfold fromInt. cbn [getAsInteger option_map]. now rewrite to_int_id.
Qed.

Lemma rt_value v : text_value v -> rt valueToJSON valueFromJSON v.
Proof.
  destruct v as [d a g]. intros [Hd Hg]. cbn [vd_Doc vd_Args] in *.
  destruct (rt_string d Hd) as (jd & Ed & _ & Rd).
  destruct (rt_vector jstring fromString g (all_weaken _ _ g rt_string Hg)) as (jg & Eg & _ & Rg).
  unfold rt, valueToJSON, jobject. cbn [jfields vd_Doc vd_Arity vd_Args]. rewrite Ed, Eg. cbn [bind].
  eexists. split; [reflexivity|]. split; [discriminate|].
  unfold valueFromJSON, omap. cbn -[fromVector fromString]. rewrite Rd, Rg. reflexivity.
Qed.

Lemma rt_info i : text_info i -> rt infoToJSON infoFromJSON i.
Proof.
  destruct i as [m p v]. intros (Hm & Hp & Hv). cbn [ai_Meta ai_PackageDesc ai_ValueDesc] in *.
  destruct (rt_meta m Hm) as (jm & Em & _ & Rm). destruct (rt_package p Hp) as (jp & Ep & _ & Rp).
  destruct (rt_optional valueToJSON valueFromJSON v (present_weaken _ _ v rt_value Hv)) as (jv & Ev & Rv).
  unfold rt, infoToJSON, jobject. cbn [jfields ai_Meta ai_PackageDesc ai_ValueDesc]. rewrite Em, Ep, Ev. cbn [bind].
  eexists. split; [reflexivity|]. split; [discriminate|].
  unfold infoFromJSON, omapOptional, omap. cbn -[fromOptional metaFromJSON packageFromJSON valueFromJSON].
  rewrite Rm, Rp, Rv. reflexivity.
Qed.

Lemma rt_params c : text_params c -> rt completeToJSON completeFromJSON c.
Proof.
  destruct c as [s p]. intros [Hs Hp]. cbn [cp_Scope cp_Prefix] in *.
  destruct (rt_string p Hp) as (jp & Ep & _ & Rp).
  destruct (rt_vector jstring fromString s (all_weaken _ _ s rt_string Hs)) as (js & Es & _ & Rs).
  unfold rt, completeToJSON, jobject. cbn [jfields cp_Scope cp_Prefix]. rewrite Ep, Es. cbn [bind].
  eexists. split; [reflexivity|]. split; [discriminate|].
  unfold completeFromJSON, omap. cbn -[fromVector fromString]. rewrite Rp, Rs. reflexivity.
Qed.

Lemma rt_names l : all_of is_text l -> rt namesToJSON namesFromJSON l.
Proof. intro H. exact (rt_vector jstring fromString l (all_weaken _ _ l rt_string H)). Qed.
Lemma rt_options l : all_of text_field l -> rt optionsToJSON optionsFromJSON l.
Proof. intro H. exact (rt_vector fieldToJSON fieldFromJSON l (all_weaken _ _ l rt_field H)). Qed.

(** ** C60 *)
Lemma beq_eq x y : bytes_eqb x y = true <-> x = y.
Proof.
  revert y. induction x as [|c x IH]; intros [|d y]; cbn [bytes_eqb]; try (split; [discriminate|congruence]); [tauto|].
  rewrite andb_true_iff, Ascii.eqb_eq, IH. split; [intros [-> ->]; reflexivity|intro H; inversion H; auto].
Qed.
Lemma beq_refl x : bytes_eqb x x = true.
Proof. now apply beq_eq. Qed.
Lemma beq_neq x y : bytes_eqb x y = false <-> x <> y.
Proof. rewrite <- beq_eq. destruct (bytes_eqb x y); split; congruence. Qed.

Lemma aget_some {A} x (l : list (bytes * A)) w :
  aget x l = Some w <-> exists before after, l = before ++ (x, w) :: after /\ ~ In x (List.map fst before).
Proof.
  split.
  - induction l as [|[y v] l IH]; cbn [aget]; [discriminate|].
    destruct (bytes_eqb x y) eqn:E.
    + apply beq_eq in E. subst y. intro H. inversion H; subst. exists [], l. split; [reflexivity|intros []].
    + intro H. destruct (IH H) as (b1 & a1 & -> & N). exists ((y, v) :: b1), a1. split; [reflexivity|].
      apply beq_neq in E. intros [G|G]; [apply E; symmetry; exact G|auto].
  - intros (b1 & a1 & -> & N). induction b1 as [|[y v] b1 IH]; cbn [app aget]; [now rewrite beq_refl|].
    cbn [map fst] in N. replace (bytes_eqb x y) with false; [apply IH; intro; apply N; now right|].
    symmetry. apply beq_neq. intros ->. apply N. now left.
Qed.
Lemma aget_none {A} x (l : list (bytes * A)) : aget x l = None <-> ~ In x (List.map fst l).
Proof.
  induction l as [|[y v] l IH]; cbn [aget map fst In]; [tauto|].
  destruct (bytes_eqb x y) eqn:E.
  - apply beq_eq in E. subst. split; [discriminate|]. intro H. exfalso. auto.
  - apply beq_neq in E. rewrite IH. split; [intros H [G|G]; [apply E; symmetry; exact G|auto]|tauto].
Qed.

Lemma has_aget v x w : has v x w <-> exists l, v = NAttrs l /\ aget x l = Some w.
Proof.
  split.
  - intros (b1 & a1 & -> & N). eexists. split; [reflexivity|]. apply aget_some. eauto.
  - intros (l & -> & H). apply aget_some in H. destruct H as (b1 & a1 & -> & N). exists b1, a1. auto.
Qed.
Lemma has_select v x w : has v x w <-> selectAttr v x = inl w.
Proof.
  rewrite has_aget. split.
  - intros (l & -> & H). cbn [selectAttr]. now rewrite H.
  - destruct v; cbn [selectAttr]; try discriminate. destruct (aget x attrs) eqn:E; [|discriminate].
    intro H. inversion H; subst. eauto.
Qed.
Lemma has_fun v x w w' : has v x w -> has v x w' -> w = w'.
Proof. rewrite !has_select. congruence. Qed.
Lemma lacks_has v x w : lacks v x -> has v x w -> False.
Proof.
  rewrite has_aget. intros H (l & -> & E). cbn [lacks] in H. apply aget_none in H. congruence.
Qed.
Lemma lacks_select v x : lacks v x <-> exists e, selectAttr v x = inr e /\ e <> EvalErr.
Proof.
  destruct v; cbn [lacks selectAttr]; try (split; [intros _; eexists; split; [reflexivity|discriminate]|auto]).
  - destruct (aget x attrs) eqn:E.
    + split; [|intros (e & H & _); discriminate]. intro H. apply aget_none in H. congruence.
    + split; [intros _; eexists; split; [reflexivity|discriminate]|]. intros _. now apply aget_none.
  - split; [intros []|]. intros (e & H & N). congruence.
Qed.

Lemma marked_check v x s : marked v x s <-> checkField v (b x) (b s) = inl true.
Proof.
  unfold marked, checkField, getFieldString, getField. rewrite has_aget. split.
  - intros (l & -> & H). rewrite H. now rewrite beq_refl.
  - destruct v; try discriminate. destruct (aget (b x) attrs) as [w|] eqn:E; [|discriminate].
    destruct w; try discriminate. intro H. inversion H as [H']. apply beq_eq in H'. subst. eauto.
Qed.
Lemma unmarked_check v x s : unmarked v x s <-> checkField v (b x) (b s) = inl false.
Proof.
  unfold unmarked, checkField, getFieldString, getField. split.
  - intros [H|(w & H & N & T)].
    + destruct v; cbn [lacks] in H; try reflexivity; [|destruct H]. apply aget_none in H. now rewrite H.
    + apply has_aget in H. destruct H as (l & -> & E). rewrite E. destruct w; try reflexivity; [|now destruct T].
      replace (bytes_eqb s0 (b s)) with false; [reflexivity|]. symmetry. apply beq_neq. congruence.
  - destruct v; try (intros _; left; exact I); try discriminate.
    destruct (aget (b x) attrs) as [w|] eqn:E.
    + intro H. right. exists w. split; [apply has_aget; eauto|]. destruct w; try (split; discriminate).
      inversion H as [H']. apply beq_neq in H'. split; congruence.
    + intros _. left. now apply aget_none.
Qed.

Lemma has_lacks v x w P : has v x w -> (lacks v x \/ exists t, has v x t /\ P t) -> P w.
Proof.
  intros H [L|(t & G & Q)]; [destruct (lacks_has _ _ _ L H)|]. now rewrite (has_fun _ _ _ _ H G).
Qed.

(** getting the sub-options *)
Definition open (v : nval) : nval + verr :=
  match tryGetSubmoduleType v with
  | inr e => inr e
  | inl sub => match sub with Some t => getSubOptions t | None => inl v end
  end.

Lemma subopts_spec t o : has t (b "getSubOptions") (NFun (Some o)) <-> getSubOptions t = inl o.
Proof.
  unfold getSubOptions. rewrite has_select. split; [intros ->; reflexivity|].
  destruct (selectAttr t (b "getSubOptions")) as [w|e]; [|discriminate].
  destruct w; try discriminate. destruct result; [|discriminate]. congruence.
Qed.

Lemma opened_open v o : opened v o <-> open v = inl o.
Proof.
  unfold open, tryGetSubmoduleType, trySelectAttr. split.
  - intros [v' o' (t & Ht & Hm & Hs)|v' H].
    + apply has_select in Ht. rewrite Ht. unfold isTypeSubmodule. apply marked_check in Hm. rewrite Hm.
      now apply subopts_spec.
    + destruct H as [H|(t & Ht & Hn)].
      * apply lacks_select in H. destruct H as (e & E & N). rewrite E. destruct e; congruence.
      * apply has_select in Ht. rewrite Ht. unfold isTypeSubmodule. apply unmarked_check in Hn. now rewrite Hn.
  - destruct (selectAttr v (b "type")) as [t|e] eqn:E.
    + unfold isTypeSubmodule. destruct (checkField t (b "name") (b "submodule")) as [[|]|e] eqn:C; [| |discriminate].
      * intro H. apply open_submodule. exists t. split; [now apply has_select|]. split; [now apply marked_check|now apply subopts_spec].
      * intro H. inversion H; subst. apply open_plain. right. exists t. split; [now apply has_select|now apply unmarked_check].
    + destruct e; intro H; inversion H; subst; apply open_plain; left; apply lacks_select; eexists; split; eauto; discriminate.
Qed.

(** one step of selectOptions, after opening *)
Inductive step_kind := SAny (o : nval) | SAttr | SErr (e : verr).
Definition step (v : nval) : step_kind :=
  match isOption v with
  | inr e => SErr e
  | inl false => SAttr
  | inl true =>
      match selectAttr v (b "type") with
      | inr e => SErr e
      | inl t =>
          match checkField t (b "name") (b "attrsOf") with
          | inr e => SErr e
          | inl false => SAttr
          | inl true =>
              match selectAttr t (b "nestedTypes") with
              | inr e => SErr e
              | inl n =>
                  match selectAttr n (b "elemType") with
                  | inr e => SErr e
                  | inl el =>
                      match isTypeSubmodule el with
                      | inr e => SErr e
                      | inl false => SAttr
                      | inl true => match getSubOptions el with inr e => SErr e | inl o => SAny o end
                      end
                  end
              end
          end
      end
  end.

Lemma selectOptions_eq v p :
  selectOptions v p =
  match open v with
  | inr e => (inr e, v)
  | inl o =>
      match p with
      | [] => (inl o, o)
      | x :: p' =>
          match step o with
          | SErr e => (inr e, o)
          | SAny eo => (fst (selectOptions eo p'), o)
          | SAttr =>
              match selectAttr o x with
              | inr e => (inr e, o)
              | inl w => let '(r, w') := selectOptions w p' in (r, setAttr o x w')
              end
          end
      end
  end.
Proof.
  destruct p as [|x p]; cbn [selectOptions]; unfold open; destruct (tryGetSubmoduleType v) as [sub|e]; try reflexivity.
  destruct (match sub with Some t => getSubOptions t | None => inl v end) as [o|e]; [|reflexivity].
  unfold step.
  destruct (isOption o) as [[|]|e]; try reflexivity.
  destruct (selectAttr o (b "type")) as [t|e]; try reflexivity.
  destruct (checkField t (b "name") (b "attrsOf")) as [[|]|e]; try reflexivity.
  destruct (selectAttr t (b "nestedTypes")) as [n|e]; try reflexivity.
  destruct (selectAttr n (b "elemType")) as [el|e]; try reflexivity.
  destruct (isTypeSubmodule el) as [[|]|e]; try reflexivity.
  destruct (getSubOptions el); reflexivity.
Qed.

Lemma step_any o eo : step o = SAny eo <-> exists e, attrs_of o e /\ submodule_type e eo.
Proof.
  unfold step, isOption, isTypeSubmodule. split.
  - destruct (checkField o (b "_type") (b "option")) as [[|]|e] eqn:E1; try discriminate.
    destruct (selectAttr o (b "type")) as [t|e] eqn:E2; try discriminate.
    destruct (checkField t (b "name") (b "attrsOf")) as [[|]|e] eqn:E3; try discriminate.
    destruct (selectAttr t (b "nestedTypes")) as [n|e] eqn:E4; try discriminate.
    destruct (selectAttr n (b "elemType")) as [el|e] eqn:E5; try discriminate.
    destruct (checkField el (b "name") (b "submodule")) as [[|]|e] eqn:E6; try discriminate.
    destruct (getSubOptions el) as [o'|e] eqn:E7; try discriminate.
    intro H. inversion H; subst. exists el. split; [split; [now apply marked_check|]|].
    + exists t, n. rewrite !has_select, marked_check. auto.
    + split; [now apply marked_check|now apply subopts_spec].
  - intros (e & (M & t & n & Ht & Mt & Hn & He) & Ms & Hs).
    apply marked_check in M, Mt, Ms. apply has_select in Ht, Hn, He. apply subopts_spec in Hs.
    rewrite M, Ht, Mt, Hn, He, Ms, Hs. reflexivity.
Qed.
Lemma step_attr o : step o = SAttr <-> no_attrs_of_submodule o.
Proof.
  unfold step, isOption, isTypeSubmodule, no_attrs_of_submodule. split.
  - destruct (checkField o (b "_type") (b "option")) as [[|]|e] eqn:E1; try discriminate;
      [|left; now apply unmarked_check].
    destruct (selectAttr o (b "type")) as [t|e] eqn:E2; try discriminate.
    intro H. right. split; [now apply marked_check|]. exists t. split; [now apply has_select|]. revert H.
    destruct (checkField t (b "name") (b "attrsOf")) as [[|]|e] eqn:E3; try discriminate;
      [|left; now apply unmarked_check].
    destruct (selectAttr t (b "nestedTypes")) as [n|e] eqn:E4; try discriminate.
    destruct (selectAttr n (b "elemType")) as [el|e] eqn:E5; try discriminate.
    destruct (checkField el (b "name") (b "submodule")) as [[|]|e] eqn:E6; try discriminate.
    + destruct (getSubOptions el); discriminate.
    + intros _. right. exists n, el. rewrite marked_check, !has_select. repeat split; auto. now apply unmarked_check.
  - intros [H|(M & t & Ht & H)].
    + apply unmarked_check in H. now rewrite H.
    + apply marked_check in M. apply has_select in Ht. rewrite M, Ht.
      destruct H as [H|(n & e & Mt & Hn & He & H)].
      * apply unmarked_check in H. now rewrite H.
      * apply marked_check in Mt. apply has_select in Hn, He. apply unmarked_check in H. now rewrite Mt, Hn, He, H.
Qed.

Lemma options_spec p : forall v u, options_at v p u <-> fst (selectOptions v p) = inl u.
Proof.
  induction p as [|x p IH]; intros v u; rewrite selectOptions_eq.
  - split.
    + inversion 1; subst. apply opened_open in H0. now rewrite H0.
    + destruct (open v) as [o|e] eqn:E; [|discriminate]. cbn [fst]. intro H. inversion H; subst.
      constructor. now apply opened_open.
  - split.
    + inversion 1; subst.
      * match goal with O : opened _ _ |- _ => apply opened_open in O; rewrite O end.
        assert (S1 : step o = SAny eo) by (apply step_any; eauto). rewrite S1. cbn [fst]. now apply IH.
      * match goal with O : opened _ _ |- _ => apply opened_open in O; rewrite O end.
        match goal with O : no_attrs_of_submodule _ |- _ => apply step_attr in O; rewrite O end.
        match goal with O : has _ _ _ |- _ => apply has_select in O; rewrite O end.
        match goal with O : options_at _ _ _ |- _ => apply IH in O end.
        destruct (selectOptions w p) as [r w']. exact H7.
    + destruct (open v) as [o|e] eqn:E; [|discriminate]. apply opened_open in E.
      destruct (step o) as [eo| |e] eqn:S1; [| |discriminate].
      * cbn [fst]. intro H. apply step_any in S1. destruct S1 as (el & A1 & A2).
        eapply opt_any; eauto. now apply IH.
      * apply step_attr in S1. destruct (selectAttr o x) as [w|e] eqn:E2; [|discriminate].
        intro H. apply (opt_attr v o x p w u E S1); [now apply has_select|]. apply IH.
        destruct (selectOptions w p); exact H.
Qed.

Lemma path_spec p : forall v u, at_path v p u <-> selectStrings v p = inl u.
Proof.
  induction p as [|x p IH]; intros v u; cbn [selectStrings].
  - split; [inversion 1; reflexivity|]. intro H. inversion H. constructor.
  - split.
    + inversion 1; subst. match goal with O : has _ _ _ |- _ => apply has_select in O; rewrite O end. now apply IH.
    + destruct (selectAttr v x) as [w|] eqn:E; [|discriminate]. intro H. apply (there v x w p u); [now apply has_select|now apply IH].
Qed.

(** ** C65 *)
Lemma aset_same {A} x (w : A) l : aget x l = Some w -> aset x w l = l.
Proof.
  induction l as [|[y v] l IH]; cbn [aget aset]; [discriminate|].
  destruct (bytes_eqb x y); [congruence|]. intro H. now rewrite (IH H).
Qed.
Lemma setAttr_same v x w : selectAttr v x = inl w -> setAttr v x w = v.
Proof.
  intro H. apply has_select, has_aget in H. destruct H as (l & -> & E). cbn [setAttr]. now rewrite aset_same.
Qed.

Lemma no_submodules_child v x w : no_submodules v -> has v x w -> no_submodules w.
Proof. intros H G p u P. apply (H (x :: p)). econstructor; eauto. Qed.

Lemma open_plain_same v o : no_submodules v -> open v = inl o -> o = v.
Proof.
  intros H E. apply opened_open in E. inversion E as [? ? (t & Ht & Hm & _)|]; subst; [|reflexivity].
  exfalso. apply (H [] v (here v)). eauto.
Qed.

Lemma unchanged p : forall v, no_submodules v -> snd (selectOptions v p) = v.
Proof.
  induction p as [|x p IH]; intros v H; rewrite selectOptions_eq; destruct (open v) as [o|e] eqn:E; try reflexivity;
    apply open_plain_same in E; auto; subst o; try reflexivity.
  destruct (step v) as [eo| |e]; try reflexivity.
  destruct (selectAttr v x) as [w|e] eqn:E2; [|reflexivity].
  pose proof (IH w (no_submodules_child v x w H (proj2 (has_select v x w) E2))) as IHw.
  destruct (selectOptions w p) as [r w']. cbn [snd] in *. subst w'. now apply setAttr_same.
Qed.

Lemma ask_unchanged q v : no_submodules v -> snd (ask q v) = v.
Proof.
  intro H. destruct q as [s p|p|s p]; cbn [ask snd]; [reflexivity| |].
  - unfold onOptionInfo. pose proof (unchanged p v H) as U. destruct p as [|x p]; [reflexivity|].
    destruct (selectOptions v (x :: p)) as [[o|e] v']; cbn [snd] in *; [|exact U]. destruct o; exact U.
  - unfold onOptionComplete. pose proof (unchanged s v H) as U.
    destruct (selectOptions v s) as [[o|e] v']; cbn [snd] in *; [|exact U]. destruct o; exact U.
Qed.
Lemma asked_unchanged qs : forall v, no_submodules v -> asked qs v = v.
Proof.
  induction qs as [|q qs IH]; intros v H; [reflexivity|]. unfold asked in *. cbn [fold_left].
  rewrite ask_unchanged by exact H. apply IH, H.
Qed.
