(** Proofs of the theorems stated in BindProps. *)
From Verif Require Import Base Diag LexModel LexSpec LexProofs LexLongSpec AstModel SemaModel PSupModel ParseModel ActModel ActSpec NavModel ConnModel ReadTools GramSpec GramProofs GramFacts BindModel BindSpec BindLaid BindText BindKey BindProofs.

Lemma C47_partial_proof : forall src root m e, parse src = Ok (Some root, []) -> within root m ->
  flattenAttrs src m = Ok (Some e) ->
  e_range e = nrange m /\ exists bs, reads (e_text e) bs /\ tree bs = leaves m.
Proof.
  intros src root m e P W F.
  assert (B : match m with NBinding _ _ _ _ _ | NInherit _ _ _ _ => True | _ => False end) by (destruct m; try discriminate F; exact I).
  destruct (C72_bindings_partial_proof _ _ _ P W B) as (its & Hg & _). eapply flatten_ok; eauto.
Qed.

Definition document (src : bytes) : option node := match parse src with Ok (Some n, []) => Some n | _ => None end.
Lemma document_parse src n : document src = Some n -> parse src = Ok (Some n, []).
Proof. unfold document. destruct (parse src) as [[[r|] [|]]| |]; try discriminate. now intros [= ->]. Qed.
Lemma top_within root m : In m (top root) -> within root m.
Proof.
  unfold top. destruct root; try contradiction. destruct body as [[]|]; try contradiction. intros H.
  eapply within_part; [left; reflexivity|]. eapply within_part; [exact H|constructor].
Qed.
Definition nth_binding (k : nat) (src : bytes) : option node :=
  match document src with Some r => nth_error (top r) k | None => None end.
Lemma nth_binding_in k src m : nth_binding k src = Some m -> exists root, parse src = Ok (Some root, []) /\ In m (top root).
Proof.
  unfold nth_binding. destruct (document src) as [r|] eqn:E; [|discriminate]. intros H. exists r.
  split; [now apply document_parse|]. eapply nth_error_In; eauto.
Qed.
Definition flat_text (k : nat) (src : bytes) : option bytes :=
  match nth_binding k src with Some m => match flattenAttrs src m with Ok (Some e) => Some (e_text e) | _ => None end | None => None end.
Lemma flat_text_ok k src t : flat_text k src = Some t -> exists root m e, parse src = Ok (Some root, []) /\ within root m /\
  flattenAttrs src m = Ok (Some e) /\ e_text e = t.
Proof.
  unfold flat_text. destruct (nth_binding k src) as [m|] eqn:E; [|discriminate].
  destruct (flattenAttrs src m) as [[e|]| |] eqn:Ef; try discriminate. intros [= <-].
  destruct (nth_binding_in _ _ _ E) as (root & P & I). exists root, m, e. auto using top_within.
Qed.

Definition pack_edit (src : bytes) (k j : nat) : option tedit :=
  match document src with
  | Some (NAttrs i r (Some (NBinds bi br bs)) None st dy) =>
      match nth_error bs k with
      | Some m => match packAttrs src m (NBinds bi br bs) (NAttrs i r (Some (NBinds bi br bs)) None st dy) with Ok l => nth_error l j | _ => None end
      | None => None
      end
  | _ => None
  end.
Lemma pack_edit_ok src k j e : pack_edit src k j = Some e ->
  exists root m, parse src = Ok (Some root, []) /\ packs src root m e.
Proof.
  unfold pack_edit. destruct (document src) as [root|] eqn:E; [|discriminate]. destruct root; try discriminate.
  destruct body as [[]|]; try discriminate. destruct rc; try discriminate. destruct (nth_error bs k) as [m|] eqn:En; [|discriminate].
  destruct (packAttrs _ _ _ _) as [l| |] eqn:Ep; try discriminate. intros Hj. eexists _, m. split; [apply document_parse; exact E|].
  do 8 eexists. split; [reflexivity|]. split; [eapply nth_error_In; eauto|]. split; [exact Ep|]. eapply nth_error_In; eauto.
Qed.
Definition path_eqb (p q : list (option bytes)) : bool :=
  (fix go p q := match p, q with
   | [], [] => true
   | Some x :: p, Some y :: q => bytes_eqb x y && go p q
   | None :: p, None :: q => go p q
   | _, _ => false
   end) p q.
Lemma path_eqb_refl p : path_eqb p p = true.
Proof. induction p as [|[x|] p IH]; cbn; auto. rewrite (proj2 (bytes_eqb_spec x x) eq_refl). exact IH. Qed.
(** the path [p] is in the first document and not in the second *)
Definition gone (p : list (option bytes)) (src src' : bytes) : bool :=
  match document src, document src' with
  | Some r, Some r' => existsb (path_eqb p) (paths (tree (top r))) && negb (existsb (path_eqb p) (paths (tree (top r'))))
  | _, _ => false
  end.
Lemma path_eqb_true p : forall q, path_eqb p q = true -> p = q.
Proof.
  induction p as [|[x|] p IH]; intros [|[y|] q]; cbn; try discriminate; auto.
  - intros H. apply andb_true_iff in H as [H1 H2]. apply bytes_eqb_spec in H1. now rewrite (IH _ H2), H1.
  - intros H. now rewrite (IH _ H).
Qed.
Lemma gone_ok p src src' : gone p src src' = true -> exists r r', parse src = Ok (Some r, []) /\ parse src' = Ok (Some r', []) /\
  In p (paths (tree (top r))) /\ ~ In p (paths (tree (top r'))).
Proof.
  unfold gone. destruct (document src) as [r|] eqn:E; [|discriminate]. destruct (document src') as [r'|] eqn:E'; [|discriminate].
  intros H. apply andb_true_iff in H as [H1 H2]. exists r, r'. split; [now apply document_parse|]. split; [now apply document_parse|]. split.
  - apply existsb_exists in H1 as (q & Hq & He). apply path_eqb_true in He. now subst q.
  - intros Hi. apply negb_true_iff in H2. assert (X : existsb (path_eqb p) (paths (tree (top r'))) = true); [|congruence].
    apply existsb_exists. exists p. split; auto. apply path_eqb_refl.
Qed.
Definition pack_test (src : bytes) (k j : nat) (P : tedit -> bool) : bool := match pack_edit src k j with Some e => P e | None => false end.
Lemma pack_gone src k j p : pack_test src k j (fun e => gone p src (splice src (e_range e) (e_text e))) = true ->
  exists root m e root', parse src = Ok (Some root, []) /\ packs src root m e /\
    parse (splice src (e_range e) (e_text e)) = Ok (Some root', []) /\ In p (paths (tree (top root))) /\ ~ In p (paths (tree (top root'))).
Proof.
  unfold pack_test. destruct (pack_edit src k j) as [e|] eqn:E; [|discriminate]. intros H.
  destruct (pack_edit_ok _ _ _ _ E) as (root & m & P & Hp). destruct (gone_ok _ _ _ H) as (r & r' & Pr & Pr' & H1 & H2).
  rewrite P in Pr. injection Pr as <-. exists root, m, e, r'. auto.
Qed.
Lemma pack_appears src k j p : pack_test src k j (fun e => gone p (splice src (e_range e) (e_text e)) src) = true ->
  exists root m e root', parse src = Ok (Some root, []) /\ packs src root m e /\
    parse (splice src (e_range e) (e_text e)) = Ok (Some root', []) /\ In p (paths (tree (top root'))) /\ ~ In p (paths (tree (top root))).
Proof.
  unfold pack_test. destruct (pack_edit src k j) as [e|] eqn:E; [|discriminate]. intros H.
  destruct (pack_edit_ok _ _ _ _ E) as (root & m & P & Hp). destruct (gone_ok _ _ _ H) as (r & r' & Pr & Pr' & H1 & H2).
  rewrite P in Pr'. injection Pr' as <-. exists root, m, e, r. auto.
Qed.
Lemma pack_becomes src k j t : pack_test src k j (fun e => bytes_eqb (splice src (e_range e) (e_text e)) t) = true ->
  exists root m e, parse src = Ok (Some root, []) /\ packs src root m e /\ splice src (e_range e) (e_text e) = t.
Proof.
  unfold pack_test. destruct (pack_edit src k j) as [e|] eqn:E; [|discriminate]. intros H. apply bytes_eqb_spec in H.
  destruct (pack_edit_ok _ _ _ _ E) as (root & m & P & Hp). exists root, m, e. auto.
Qed.

Lemma C48_refuted_proof : exists src root m e root', parse src = Ok (Some root, []) /\ packs src root m e /\
  parse (splice src (e_range e) (e_text e)) = Ok (Some root', []) /\
  In [Some (b "x")] (paths (tree (top root))) /\ ~ In [Some (b "x")] (paths (tree (top root'))).
Proof.
  exists (b "{ a.b = 1; x = 2; a.c = 3; }"). apply (pack_gone _ 0 1). vm_compute. reflexivity.
Qed.

Lemma C48_itself_refuted_proof : exists src root m e root', parse src = Ok (Some root, []) /\ packs src root m e /\
  parse (splice src (e_range e) (e_text e)) = Ok (Some root', []) /\
  In [Some (b "a"); Some (b "a"); Some (b "x")] (paths (tree (top root'))) /\
  ~ In [Some (b "a"); Some (b "a"); Some (b "x")] (paths (tree (top root))).
Proof.
  exists (b "{ a = { x = 1; }; a.b.c = 2; }"). apply (pack_appears _ 1 1). vm_compute. reflexivity.
Qed.

Lemma C48_rec_refuted_proof : exists src root m e, parse src = Ok (Some root, []) /\ packs src root m e /\
  src = b "{ a.b = rec { x = 1; y = x; }; a.c = 2; }" /\
  splice src (e_range e) (e_text e) = b "{ a = { b = { x = 1; y = x; }; c = 2; }; }".
Proof.
  exists (b "{ a.b = rec { x = 1; y = x; }; a.c = 2; }").
  destruct (pack_becomes (b "{ a.b = rec { x = 1; y = x; }; a.c = 2; }") 0 2 (b "{ a = { b = { x = 1; y = x; }; c = 2; }; }")) as (r & m & e & H1 & H2 & H3).
  { vm_compute. reflexivity. }
  exists r, m, e. auto.
Qed.

Lemma C48_inherit_refuted_proof : exists src root m e, parse src = Ok (Some root, []) /\ packs src root m e /\
  src = b "{ a.b = { inherit (s) x; }; a.c = 2; }" /\
  splice src (e_range e) (e_text e) = b "{ a = { b = { x = x; }; c = 2; }; }".
Proof.
  exists (b "{ a.b = { inherit (s) x; }; a.c = 2; }").
  destruct (pack_becomes (b "{ a.b = { inherit (s) x; }; a.c = 2; }") 0 2 (b "{ a = { b = { x = x; }; c = 2; }; }")) as (r & m & e & H1 & H2 & H3).
  { vm_compute. reflexivity. }
  exists r, m, e. auto.
Qed.

Lemma C50_partial_proof : forall src root m e recursive, parse src = Ok (Some root, []) -> within root m ->
  toInherit src m = Some e ->
  (recursive = true -> match m with NBinding _ _ _ (Some (NVar _ _ _)) _ => False | _ => True end) ->
  match m with
  | NBinding _ _ _ (Some (NSelect _ _ from _ (Some (NAttrPath _ _ names _)) _ _)) _ => List.length names > 1 -> dottable from = true
  | _ => True
  end ->
  e_range e = nrange m /\ exists n, reads (e_text e) [n] /\ bound recursive n = bound recursive m.
Proof.
  intros src root m e rc P W F Hr Hb.
  assert (B : match m with NBinding _ _ _ _ _ | NInherit _ _ _ _ => True | _ => False end) by (destruct m; try discriminate F; exact I).
  destruct (C72_bindings_partial_proof _ _ _ P W B) as (its & Hg & _). eapply toInherit_ok; eauto.
Qed.

Definition inherit_edit (k : nat) (src : bytes) : option (node * tedit) :=
  match nth_binding k src with Some m => match toInherit src m with Some e => Some (m, e) | None => None end | None => None end.
Lemma inherit_edit_ok k src m e : inherit_edit k src = Some (m, e) ->
  exists root, parse src = Ok (Some root, []) /\ In m (top root) /\ toInherit src m = Some e.
Proof.
  unfold inherit_edit. destruct (nth_binding k src) as [m'|] eqn:E; [|discriminate].
  destruct (toInherit src m') as [e'|] eqn:Et; [|discriminate]. intros [= -> ->].
  destruct (nth_binding_in _ _ _ E) as (root & P & I). exists root. auto.
Qed.
Definition binding_edit (k : nat) (src : bytes) : option (node * tedit) :=
  match nth_binding k src with Some m => match toBinding src m with Ok (Some e) => Some (m, e) | _ => None end | None => None end.
Lemma binding_edit_ok k src m e : binding_edit k src = Some (m, e) ->
  exists root, parse src = Ok (Some root, []) /\ In m (top root) /\ toBinding src m = Ok (Some e).
Proof.
  unfold binding_edit. destruct (nth_binding k src) as [m'|] eqn:E; [|discriminate].
  destruct (toBinding src m') as [[e'|]| |] eqn:Et; try discriminate. intros [= -> ->].
  destruct (nth_binding_in _ _ _ E) as (root & P & I). exists root. auto.
Qed.
Definition scope_eqb (a c : scope) : bool := match a, c with Around, Around | Inside, Inside => true | _, _ => false end.
Definition obytes_eqb (a c : option bytes) : bool := match a, c with Some x, Some y => bytes_eqb x y | None, None => true | _, _ => false end.
Definition one_eqb (a c : list (option bytes) * scope * option bytes * list (option bytes)) : bool :=
  match a, c with (p, s, o, ks), (p', s', o', ks') => path_eqb p p' && scope_eqb s s' && obytes_eqb o o' && path_eqb ks ks' end.
Lemma one_eqb_refl a : one_eqb a a = true.
Proof.
  destruct a as [[[p s] o] ks]. cbn. rewrite !path_eqb_refl. destruct s, o as [x|]; cbn; auto; now rewrite (proj2 (bytes_eqb_spec x x) eq_refl).
Qed.
Fixpoint meaning_eqb (l l' : list (list (option bytes) * scope * option bytes * list (option bytes))) : bool :=
  match l, l' with [], [] => true | a :: l, c :: l' => one_eqb a c && meaning_eqb l l' | _, _ => false end.
Lemma meaning_eqb_refl l : meaning_eqb l l = true.
Proof. induction l as [|a l IH]; cbn; auto. now rewrite one_eqb_refl, IH. Qed.
Definition differs (src src' : bytes) : bool :=
  match document src, document src' with Some r, Some r' => negb (meaning_eqb (meaning r) (meaning r')) | _, _ => false end.
Lemma differs_ok src src' r : differs src src' = true -> parse src = Ok (Some r, []) -> exists r', parse src' = Ok (Some r', []) /\ meaning r <> meaning r'.
Proof.
  unfold differs. destruct (document src) as [r1|] eqn:E; [|discriminate]. destruct (document src') as [r'|] eqn:E'; [|discriminate].
  intros H P. rewrite (document_parse _ _ E) in P. injection P as <-. exists r'. split; [now apply document_parse|].
  intros X. rewrite X, meaning_eqb_refl in H. discriminate.
Qed.
Definition test_edit (o : option (node * tedit)) (P : tedit -> bool) : bool := match o with Some (_, e) => P e | None => false end.
Lemma inherit_differs k src : test_edit (inherit_edit k src) (fun e => differs src (splice src (e_range e) (e_text e))) = true ->
  exists root m e root', parse src = Ok (Some root, []) /\ In m (top root) /\ toInherit src m = Some e /\
    parse (splice src (e_range e) (e_text e)) = Ok (Some root', []) /\ meaning root <> meaning root'.
Proof.
  unfold test_edit. destruct (inherit_edit k src) as [[m e]|] eqn:E; [|discriminate]. intros H.
  destruct (inherit_edit_ok _ _ _ _ E) as (root & P & I & T). destruct (differs_ok _ _ _ H P) as (root' & P' & D). exists root, m, e, root'. auto 6.
Qed.
Lemma binding_differs k src : test_edit (binding_edit k src) (fun e => differs src (splice src (e_range e) (e_text e))) = true ->
  exists root m e root', parse src = Ok (Some root, []) /\ In m (top root) /\ toBinding src m = Ok (Some e) /\
    parse (splice src (e_range e) (e_text e)) = Ok (Some root', []) /\ meaning root <> meaning root'.
Proof.
  unfold test_edit. destruct (binding_edit k src) as [[m e]|] eqn:E; [|discriminate]. intros H.
  destruct (binding_edit_ok _ _ _ _ E) as (root & P & I & T). destruct (differs_ok _ _ _ H P) as (root' & P' & D). exists root, m, e, root'. auto 6.
Qed.
Definition crashes (src : bytes) : bool := match parse src with Crash _ => true | _ => false end.
Lemma inherit_crashes k src : test_edit (inherit_edit k src) (fun e => crashes (splice src (e_range e) (e_text e))) = true ->
  exists root m e why, parse src = Ok (Some root, []) /\ In m (top root) /\ toInherit src m = Some e /\
    parse (splice src (e_range e) (e_text e)) = Crash why.
Proof.
  unfold test_edit. destruct (inherit_edit k src) as [[m e]|] eqn:E; [|discriminate]. unfold crashes.
  destruct (parse _) as [|w|] eqn:Ep; try discriminate. intros _.
  destruct (inherit_edit_ok _ _ _ _ E) as (root & P & I & T). exists root, m, e, w. auto.
Qed.
Definition text_edit (o : option (node * tedit)) : option bytes := match o with Some (_, e) => Some (e_text e) | None => None end.

Lemma C50_refuted_proof : exists src root m e root', parse src = Ok (Some root, []) /\ In m (top root) /\ toInherit src m = Some e /\
  parse (splice src (e_range e) (e_text e)) = Ok (Some root', []) /\ meaning root <> meaning root'.
Proof. exists (b "rec { x = x; }"). apply (inherit_differs 0). vm_compute. reflexivity. 
Qed.

Lemma C50_path_refuted_proof : exists src root m e root', parse src = Ok (Some root, []) /\ In m (top root) /\ toInherit src m = Some e /\
  parse (splice src (e_range e) (e_text e)) = Ok (Some root', []) /\ meaning root <> meaning root'.
Proof. exists (b "{ a = ./foo .b.a; }"). apply (inherit_differs 0). vm_compute. reflexivity. 
Qed.

Lemma C50_crash_refuted_proof : exists src root m e why, parse src = Ok (Some root, []) /\ In m (top root) /\ toInherit src m = Some e /\
  parse (splice src (e_range e) (e_text e)) = Crash why.
Proof. exists (b "{ true = true; }"). apply (inherit_crashes 0). vm_compute. reflexivity. 
Qed.

Lemma C51_partial_proof : forall src root m e recursive x, parse src = Ok (Some root, []) -> within root m ->
  toBinding src m = Ok (Some e) ->
  spelled PS_Expr tok_id x ->
  match m with
  | NInherit _ _ names None => map key_of names = [inl x] /\ recursive = false
  | NInherit _ _ names (Some from) => map key_of names = [inl x] /\
      match from with NSelect _ _ _ _ _ None _ => True | _ => dottable from = true end
  | _ => False
  end ->
  e_range e = nrange m /\ exists n, reads (e_text e) [n] /\ bound recursive n = bound recursive m.
Proof.
  intros src root m e rc x P W F Hx Hm.
  assert (B : match m with NBinding _ _ _ _ _ | NInherit _ _ _ _ => True | _ => False end) by (destruct m; try discriminate F; exact I).
  destruct (C72_bindings_partial_proof _ _ _ P W B) as (its & Hg & _). eapply toBinding_ok; eauto.
  destruct m; try contradiction. destruct e0 as [f|]; [|exact Hm]. destruct Hm as [H1 H2]. split; auto.
  destruct f; try exact H2. destruct dflt; [exact H2|reflexivity].
Qed.

Lemma C51_refuted_proof : exists src root m e root', parse src = Ok (Some root, []) /\ In m (top root) /\ toBinding src m = Ok (Some e) /\
  parse (splice src (e_range e) (e_text e)) = Ok (Some root', []) /\ meaning root <> meaning root'.
Proof. exists (b "{ inherit (a // b) x; }"). apply (binding_differs 0). vm_compute. reflexivity. 
Qed.

Lemma C51_call_refuted_proof : exists src root m e root', parse src = Ok (Some root, []) /\ In m (top root) /\ toBinding src m = Ok (Some e) /\
  parse (splice src (e_range e) (e_text e)) = Ok (Some root', []) /\ meaning root <> meaning root'.
Proof. exists (b "{ inherit (import ./foo.nix) bar; }"). apply (binding_differs 0). vm_compute. reflexivity. 
Qed.

Lemma C51_rec_refuted_proof : exists src root m e root', parse src = Ok (Some root, []) /\ In m (top root) /\ toBinding src m = Ok (Some e) /\
  parse (splice src (e_range e) (e_text e)) = Ok (Some root', []) /\ meaning root <> meaning root'.
Proof. exists (b "rec { inherit x; }"). apply (binding_differs 0). vm_compute. reflexivity. 
Qed.

Lemma C51_name_refuted_proof : exists src root m e root', parse src = Ok (Some root, []) /\ In m (top root) /\ toBinding src m = Ok (Some e) /\
  parse (splice src (e_range e) (e_text e)) = Ok (Some root', []) /\ meaning root <> meaning root'.
Proof. exists (b "{ inherit (s) ""a.b""; }"). apply (binding_differs 0). vm_compute. reflexivity. 
Qed.
