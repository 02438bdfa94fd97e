(** Proofs of the theorems stated in RefProps. *)
From Verif Require Import Base Diag LexModel AstModel PSupModel SemaModel SemaSpec ParseModel ParseSpec NavModel NavSpec NavProofs NavFacts VlaModel VlaSpec VlaPost VlaBase VlaThms ActModel RefModel RefSpec RefProofs RefWith RefFree IdSpec IdProofs.

Definition table : list (bytes * bool) := [(b "map", false); (b "__add", false)].
(** the analysis and the parents of a document's nodes *)
Definition analysed (src : bytes) : vst := match vla table (doc src) with Ok s => s | _ => VS [] [] [] [] [] [] [] end.
Definition ups (src : bytes) : pmap := match parents (doc src) with Ok m => m | _ => [] end.
(** the node number [i] of a document *)
Definition node_no (src : bytes) (i : nat) : node := nth i (all_nodes (nsize (doc src)) (doc src)) (doc src).
Lemma node_no_in src i : i < List.length (all_nodes (nsize (doc src)) (doc src)) -> node_of (doc src) (node_no src i).
Proof. intros H. apply (all_nodes_sound (nsize (doc src))). now apply nth_In. Qed.
Definition spots (src : bytes) (x : bytes) : list (scope * node) :=
  filter (fun p => nodekind_beq (kind_of (snd p)) NK_ExprVar && bytes_eqb (varName (snd p)) x)
    (visits (S (vsize (doc src))) (prelude table) (doc src)).
Lemma spots_in src x sc v : occurs_at table (doc src) sc v x -> In (sc, v) (spots src x).
Proof.
  intros [V [K N]]. apply filter_In. split; [apply visits_all; auto; lia|]. simpl. rewrite K, N. simpl. now apply bytes_eqb_eq.
Qed.
Lemma spots_some src x p ps : spots src x = p :: ps -> occurs_at table (doc src) (fst p) (snd p) x.
Proof.
  intros E. assert (I : In p (spots src x)) by (rewrite E; now left). unfold spots in I. apply filter_In in I as [I T].
  apply andb_prop in T as [T1 T2]. split.
  - destruct p as [sc v]. simpl. clear - I. set (k := S (vsize (doc src))) in I. clearbody k. revert I. generalize (prelude table) (doc src).
    induction k as [|k IH]; simpl; intros s n H; [contradiction|].
    destruct H as [H|H]; [injection H as <- <-; constructor|].
    apply in_flat_map in H as ([s1 n1] & I & J). simpl in J. econstructor; eauto.
  - split; [now apply internal_nodekind_dec_bl|now apply bytes_eqb_eq].
Qed.
Definition declaredb (x : bytes) (l : layer) : bool :=
  match l with Prelude xs => existsb (bytes_eqb x) xs | Binds _ ns => existsb (bytes_eqb x) (map fst ns) | WithOf _ => false end.
Lemma declaredb_iff l x : declaredb x l = true <-> declares l x.
Proof.
  assert (Q : forall xs, existsb (bytes_eqb x) xs = true <-> In x xs).
  { intros xs. rewrite existsb_exists. split; [intros (y & I & E); apply bytes_eqb_eq in E; now subst|intros I; exists x; split; auto; now apply bytes_eqb_eq]. }
  destruct l; simpl; [apply Q|apply Q|]. split; [discriminate|tauto].
Qed.
Lemma unbound_all src x : forallb (fun p => forallb (fun l => negb (declaredb x l)) (fst p)) (spots src x) = true ->
  forall sc v, occurs_at table (doc src) sc v x -> unbound sc x.
Proof.
  intros H sc v O l I D. apply spots_in in O. rewrite forallb_forall in H. specialize (H _ O). rewrite forallb_forall in H.
  specialize (H _ I). apply declaredb_iff in D. now rewrite D in H.
Qed.
Lemma bound_all src x : forallb (fun p => existsb (declaredb x) (fst p)) (spots src x) = true ->
  forall sc v, occurs_at table (doc src) sc v x -> ~ unbound sc x.
Proof.
  intros H sc v O U. apply spots_in in O. rewrite forallb_forall in H. specialize (H _ O). apply existsb_exists in H as (l & I & D).
  apply declaredb_iff in D. elim (U l I D).
Qed.
Lemma withs_all src x k : forallb (fun p => Nat.eqb (List.length (withs (fst p))) k) (spots src x) = true ->
  forall sc v, occurs_at table (doc src) sc v x -> List.length (withs sc) = k.
Proof. intros H sc v O. apply spots_in in O. rewrite forallb_forall in H. specialize (H _ O). now apply Nat.eqb_eq. Qed.
(** one `with` *)
Definition is_with (n : node) : bool := nodekind_beq (kind_of n) NK_ExprWith.
Definition names_differ (root : node) (k : nat) : bool :=
  forallb (fun p => match opens (snd p) with
                    | Some (Binds _ names) => forallb (fun q => negb (Nat.eqb (nid (fst (snd q))) k)) names
                    | _ => true
                    end) (visits (S (vsize root)) (prelude table) root).
Lemma marked_one root i r kw semi we e : filter is_with (all_nodes (nsize root) root) = [NWith i r kw semi we e] ->
  map snd (filter (fun p => is_with (snd p)) (visits (S (vsize root)) (prelude table) root)) = [NWith i r kw semi we e] ->
  names_differ root (nid kw) = true -> marked table root.
Proof.
  intros A V D i1 r1 kw1 semi1 we1 e1 N.
  assert (E1 : NWith i1 r1 kw1 semi1 we1 e1 = NWith i r kw semi we e).
  { assert (I : In (NWith i1 r1 kw1 semi1 we1 e1) (filter is_with (all_nodes (nsize root) root))) by
      (apply filter_In; split; [apply all_nodes_complete; auto|reflexivity]).
    rewrite A in I. destruct I as [I|[]]. now symmetry. }
  rewrite E1. injection E1 as -> -> -> -> -> ->. split.
  - intros sc' i2 r2 kw2 semi2 we2 e2 V2 _.
    assert (I : In (NWith i2 r2 kw2 semi2 we2 e2) (map snd (filter (fun p => is_with (snd p)) (visits (S (vsize root)) (prelude table) root)))).
    { apply in_map_iff. exists (sc', NWith i2 r2 kw2 semi2 we2 e2). split; auto. apply filter_In. split; [apply visits_all; auto; lia|reflexivity]. }
    rewrite V in I. destruct I as [I|[]]. now symmetry.
  - intros sc' o x nd (Vo & who & names & role & O & I) E. unfold names_differ in D. rewrite forallb_forall in D.
    apply (visits_all (S (vsize root))) in Vo; [|lia]. specialize (D _ Vo). simpl in D. rewrite O in D. rewrite forallb_forall in D.
    specialize (D _ I). simpl in D. rewrite E, Nat.eqb_refl in D. discriminate.
Qed.
Definition nodup_edits (es : list tedit) : bool :=
  match es with
  | e1 :: e2 :: _ => cur_eqb (lcur (e_range e1)) (lcur (e_range e2)) && cur_eqb (rcur (e_range e1)) (rcur (e_range e2))
  | _ => false
  end.
Definition renames (src : bytes) (i : nat) (new : bytes) : exn (list tedit) := rename (doc src) (analysed src) (ups src) (node_no src i) new.
Definition set_names (n : node) : list bytes := match n with NAttrs _ _ _ _ st _ => map fst st | NLet _ _ _ _ (Some (NAttrs _ _ _ _ st _)) _ => map fst st | _ => [] end.
Definition clean (src : bytes) : bool := match parse src with Ok (Some _, []) => true | _ => false end.
Lemma clean_doc src : clean src = true -> parse src = Ok (Some (doc src), []).
Proof. unfold clean, doc. destruct (parse src) as [[[n|] [|d ds]]|w|]; try discriminate. reflexivity. Qed.
Definition sound (src : bytes) : bool := match vla table (doc src), parents (doc src) with Ok _, Ok _ => true | _, _ => false end.
Lemma sound_ok src : sound src = true -> vla table (doc src) = Ok (analysed src) /\ parents (doc src) = Ok (ups src).
Proof. unfold sound, analysed, ups. destruct (vla table (doc src)); try discriminate. destruct (parents (doc src)); try discriminate. auto. Qed.
Lemma renames_any root s m n new edits : rename root s m n [] = value edits -> exists edits', rename root s m n new = value edits'.
Proof.
  unfold rename. intros H. apply tbind_value in H as (d & F & H). rewrite F. cbn [tbind bind value]. unfold tbind at 1. cbn [bind].
  apply tbind_value in H as (y & Y & H). unfold tbind. rewrite Y. cbn [bind value].
  destruct (dsource_beq (df_src y) DS_With); [discriminate|]. destruct (dsource_beq (df_src y) DS_Builtin); [discriminate|].
  destruct (useNodes root (df_uses y)) as [vs| |]; try discriminate. cbn [bind] in *. destruct (df_syn y); [|discriminate]. eexists. reflexivity.
Qed.

Lemma C35_partial_any : forall primops root s m n new edits,
  vla primops root = Ok s -> coherent primops root -> identified root -> parents root = Ok m -> node_of root n ->
  rename root s m n new = value edits ->
  exists sc o x nd, declaration primops root sc o x nd /\
    ((exists v v', on_variable root n v /\ refers sc o x v' /\ nid v' = nid v) \/ on_name root n nd) /\
    forall e, In e edits <-> e = TEdit (nrange nd) new \/ exists v, refers sc o x v /\ e = TEdit (nrange v) new.
Proof.
  exact rename_sound.
Qed.

Lemma C35_partial_proof : forall src ds primops root s m n new edits,
  parse src = Ok (Some root, ds) ->
  vla primops root = Ok s -> parents root = Ok m -> node_of root n ->
  rename root s m n new = value edits ->
  exists sc o x nd, declaration primops root sc o x nd /\
    ((exists v v', on_variable root n v /\ refers sc o x v' /\ nid v' = nid v) \/ on_name root n nd) /\
    forall e, In e edits <-> e = TEdit (nrange nd) new \/ exists v, refers sc o x v /\ e = TEdit (nrange v) new.
Proof.
  intros *. intros HP. pose proof (parse_coherent _ _ _ primops HP). pose proof (parse_identified _ _ _ HP).
  intros. eapply C35_partial_any; eauto.
Qed.

Lemma C35_offered_any : forall primops root s m n v i r j q x sc who names t new,
  vla primops root = Ok s -> coherent primops root -> identified root -> parents root = Ok m ->
  node_of root v -> v = NVar i r (NIdent j q x) -> in_var root n v ->
  visit (prelude primops) root sc v -> bound sc x (Binds who names :: t) ->
  exists edits o nd, rename root s m n new = value edits /\ declaration primops root t o x nd /\ refers t o x v /\
    forall e, In e edits <-> e = TEdit (nrange nd) new \/ exists v, refers t o x v /\ e = TEdit (nrange v) new.
Proof.
  exact rename_var.
Qed.

Lemma C35_offered_proof : forall src ds primops root s m n v i r j q x sc who names t new,
  parse src = Ok (Some root, ds) ->
  vla primops root = Ok s -> parents root = Ok m ->
  node_of root v -> v = NVar i r (NIdent j q x) -> in_var root n v ->
  visit (prelude primops) root sc v -> bound sc x (Binds who names :: t) ->
  exists edits o nd, rename root s m n new = value edits /\ declaration primops root t o x nd /\ refers t o x v /\
    forall e, In e edits <-> e = TEdit (nrange nd) new \/ exists v, refers t o x v /\ e = TEdit (nrange v) new.
Proof.
  intros *. intros HP. pose proof (parse_coherent _ _ _ primops HP). pose proof (parse_identified _ _ _ HP).
  intros. eapply C35_offered_any; eauto.
Qed.

Lemma C35_prepare_proof : forall root s m n r, prepareRename root s m n = value r ->
  r = nrange n /\ forall new, exists edits, rename root s m n new = value edits.
Proof.
  intros root s m n r H. unfold prepareRename in H. apply tbind_value in H as (es & H & R). injection R as <-. split; auto.
  intros new. eapply renames_any; eauto.
Qed.

Lemma C35_fresh_proof : forall pre who names sc x y, let l := Binds who names in let l' := renamed_layer x y l in
  declares l x -> unbound pre y ->
  (bound (pre ++ l :: sc) x (l :: sc) -> bound (pre ++ l' :: sc) y (l' :: sc)) /\
  forall z, z <> y ->
    (unbound (pre ++ l :: sc) z -> unbound (pre ++ l' :: sc) z /\ withs (pre ++ l' :: sc) = withs (pre ++ l :: sc)) /\
    (bound (pre ++ l :: sc) z (l :: sc) -> z <> x -> bound (pre ++ l' :: sc) z (l' :: sc)) /\
    forall h t, bound (pre ++ l :: sc) z (h :: t) -> ~ bound (pre ++ l :: sc) z (l :: sc) ->
      exists t', bound (pre ++ l' :: sc) z (h :: t').
Proof.
  intros pre who names sc x y l l' D U. split; [intros _; now apply rename_here|]. intros z N.
  destruct (rename_other pre who names sc x y z N) as (A & B & C). split; [exact A|]. split; [|exact C].
  intros Hb Hx. apply B; auto.
Qed.

Lemma C35_refuted_proof :
  (exists src root s m n e1 e2 rest, parse src = Ok (Some root, []) /\ vla table root = Ok s /\ parents root = Ok m /\ node_of root n /\
     rename root s m n (b "yy") = value (e1 :: e2 :: rest) /\ lcur (e_range e1) = lcur (e_range e2) /\ rcur (e_range e1) = rcur (e_range e2)) /\
  (exists src root s m n edits root', parse src = Ok (Some root, []) /\ vla table root = Ok s /\ parents root = Ok m /\ node_of root n /\
     rename root s m n (b "y") = value edits /\ parse (apply_edits src edits) = Ok (Some root', []) /\
     set_names root = [b "x"] /\ set_names root' = [b "y"]) /\
  (exists src root s m n w ds, parse src = Ok (Some root, ds) /\ vla table root = Ok s /\ parents root = Ok m /\ node_of root n /\
     rename root s m n (b "y") = Crash w).
Proof.
  split; [|split].
  - set (src := b "let e = {}; inherit (e) a b; in a + b"). destruct (sound_ok src) as [A B]; [vm_compute; reflexivity|].
    exists src, (doc src), (analysed src), (ups src), (node_no src 6).
    do 3 eexists. split; [apply clean_doc; vm_compute; reflexivity|]. split; [exact A|]. split; [exact B|].
    split; [apply node_no_in; apply Nat.ltb_lt; vm_compute; reflexivity|]. split; [vm_compute; reflexivity|]. split; reflexivity.
  - set (src := b "let x = 1; in { inherit x; }"). destruct (sound_ok src) as [A B]; [vm_compute; reflexivity|].
    set (src' := b "let y = 1; in { inherit y; }").
    exists src, (doc src), (analysed src), (ups src), (node_no src 6). do 1 eexists. exists (doc src').
    split; [apply clean_doc; vm_compute; reflexivity|]. split; [exact A|]. split; [exact B|].
    split; [apply node_no_in; apply Nat.ltb_lt; vm_compute; reflexivity|]. split; [vm_compute; reflexivity|].
    split; [match goal with |- parse ?t = _ => replace t with src' by (vm_compute; reflexivity) end; apply clean_doc; vm_compute; reflexivity|].
    split; vm_compute; reflexivity.
  - set (src := b "{ a = 1; inherit a; }"). destruct (sound_ok src) as [A B]; [vm_compute; reflexivity|].
    exists src, (doc src), (analysed src), (ups src), (node_no src 10). do 2 eexists.
    split; [vm_compute; reflexivity|]. split; [exact A|]. split; [exact B|].
    split; [apply node_no_in; apply Nat.ltb_lt; vm_compute; reflexivity|]. vm_compute. reflexivity.
Qed.

Lemma C70_any : forall primops root s m n rs,
  vla primops root = Ok s -> coherent primops root -> identified root -> parents root = Ok m -> node_of root n ->
  findReferences root s m n = value rs ->
  exists vs, rs = map nrange vs /\
  ((exists sc o x nd, declaration primops root sc o x nd /\
      ((exists v v', on_variable root n v /\ refers sc o x v' /\ nid v' = nid v) \/ on_name root n nd) /\
      forall v, In v vs <-> refers sc o x v) \/
   (exists sc i r kw semi we e, let w := NWith i r kw semi we e in visit (prelude primops) root sc w /\
      ((exists v v' sc' x ws, on_variable root n v /\ occurs_at primops root sc' v' x /\ nid v' = nid v /\ unbound sc' x /\
          withs sc' = ws ++ [w]) \/ on_name root n kw) /\
      forall v, In v vs <-> may_use sc w v) \/
   (exists x v v' sc', on_variable root n v /\ occurs_at primops root sc' v' x /\ nid v' = nid v /\
      bound sc' x (prelude primops) /\
      forall v, In v vs <-> exists sc, occurs_at primops root sc v x /\ bound sc x (prelude primops))).
Proof.
  exact references_ok.
Qed.

Lemma C70_proof : forall src ds primops root s m n rs,
  parse src = Ok (Some root, ds) ->
  vla primops root = Ok s -> parents root = Ok m -> node_of root n ->
  findReferences root s m n = value rs ->
  exists vs, rs = map nrange vs /\
  ((exists sc o x nd, declaration primops root sc o x nd /\
      ((exists v v', on_variable root n v /\ refers sc o x v' /\ nid v' = nid v) \/ on_name root n nd) /\
      forall v, In v vs <-> refers sc o x v) \/
   (exists sc i r kw semi we e, let w := NWith i r kw semi we e in visit (prelude primops) root sc w /\
      ((exists v v' sc' x ws, on_variable root n v /\ occurs_at primops root sc' v' x /\ nid v' = nid v /\ unbound sc' x /\
          withs sc' = ws ++ [w]) \/ on_name root n kw) /\
      forall v, In v vs <-> may_use sc w v) \/
   (exists x v v' sc', on_variable root n v /\ occurs_at primops root sc' v' x /\ nid v' = nid v /\
      bound sc' x (prelude primops) /\
      forall v, In v vs <-> exists sc, occurs_at primops root sc v x /\ bound sc x (prelude primops))).
Proof.
  intros *. intros HP. pose proof (parse_coherent _ _ _ primops HP). pose proof (parse_identified _ _ _ HP).
  intros. eapply C70_any; eauto.
Qed.

Lemma C70_once_refuted_proof : exists src root s m n r1 r2, parse src = Ok (Some root, []) /\ vla table root = Ok s /\
  parents root = Ok m /\ node_of root n /\ findReferences root s m n = value [r1; r2] /\ lcur r1 = lcur r2 /\ rcur r1 = rcur r2.
Proof.
  set (src := b "let e = {}; inherit (e) a b; in a + b"). destruct (sound_ok src) as [A B]; [vm_compute; reflexivity|].
  exists src, (doc src), (analysed src), (ups src), (node_no src 6).
  do 2 eexists. split; [apply clean_doc; vm_compute; reflexivity|]. split; [exact A|]. split; [exact B|].
  split; [apply node_no_in; apply Nat.ltb_lt; vm_compute; reflexivity|]. split; [vm_compute; reflexivity|]. split; reflexivity.
Qed.

Lemma C52_partial_any : forall primops root s m src n ed,
  vla primops root = Ok s -> coherent primops root -> identified root -> marked primops root -> parents root = Ok m -> node_of root n ->
  withToLet root s m src n = Ok (Some ed) ->
  exists i r kw semi we e sc names t1 t2, let w := NWith i r kw semi (Some we) (Some e) in
    nearest root n NK_ExprWith w /\ visit (prelude primops) root sc w /\ names <> [] /\ increasing names /\
    (forall x, In x names <-> exists v, may_use sc w v /\ is_var v x) /\
    nsrc src we = Ok t1 /\ nsrc src e = Ok t2 /\
    ed = TEdit r (b "let inherit (" ++ t1 ++ b ")" ++ List.concat (map (fun x => b " " ++ x) names) ++ b "; in " ++ t2) /\
    forall new, binds_names new names ->
      (forall v x pre, visit (WithOf w :: sc) e (pre ++ WithOf w :: sc) v -> is_var v x ->
         (forall h t, bound (pre ++ WithOf w :: sc) x (h :: t) -> exists t', bound (pre ++ new :: sc) x (h :: t')) /\
         (unbound (pre ++ WithOf w :: sc) x -> withs pre = [] /\ bound (pre ++ new :: sc) x (new :: sc))) /\
      (forall v x pre, visit sc we (pre ++ sc) v -> is_var v x ->
         (forall h t, bound (pre ++ sc) x (h :: t) -> exists t', bound (pre ++ new :: sc) x (h :: t')) /\
         (~ In x names -> unbound (pre ++ sc) x -> unbound (pre ++ new :: sc) x /\ withs (pre ++ new :: sc) = withs (pre ++ sc))).
Proof.
  intros primops root s m src n ed H C Id M E N W.
  destruct (withToLet_ok _ _ _ _ _ _ _ H C Id M E N W) as (i & r & kw & semi & we & e & sc & names & t1 & t2 & Ne & V & Nn & Inc & Nm & Inner & T1 & T2 & Ed).
  exists i, r, kw, semi, we, e, sc, names, t1, t2. cbv zeta. set (w := NWith i r kw semi (Some we) (Some e)) in *.
  repeat (split; [assumption|]). intros new Bn.
  assert (Us : forall y, In y names -> unbound sc y).
  { intros y I. apply Nm in I as (v & (x & s' & pre & Vv & [_ Ix] & Ub & ->) & [_ Iy]). rewrite Ix in Iy. subst y.
    intros l I. apply Ub. apply in_app_iff. right. now right. }
  split.
  - intros v x pre Vv Iv.
    assert (Vw : visit sc w (pre ++ WithOf w :: sc) v).
    { econstructor; [|exact Vv]. simpl. right. now left. }
    assert (Un : unbound (pre ++ WithOf w :: sc) x -> In x names).
    { intros U. apply Nm. exists v. split; auto. exists x, (pre ++ WithOf w :: sc), pre. auto. }
    destruct (let_body sc w names new pre x Bn Us Un) as [L1 L2]. split; [exact L2|]. intros U. split; [exact (Inner v x pre Vw Iv U)|auto].
  - intros v x pre Vv Iv. exact (let_source sc names new pre x Bn Us).
Qed.

Lemma C52_partial_proof : forall ds primops root s m src n ed,
  parse src = Ok (Some root, ds) ->
  vla primops root = Ok s -> parents root = Ok m -> node_of root n ->
  withToLet root s m src n = Ok (Some ed) ->
  exists i r kw semi we e sc names t1 t2, let w := NWith i r kw semi (Some we) (Some e) in
    nearest root n NK_ExprWith w /\ visit (prelude primops) root sc w /\ names <> [] /\ increasing names /\
    (forall x, In x names <-> exists v, may_use sc w v /\ is_var v x) /\
    nsrc src we = Ok t1 /\ nsrc src e = Ok t2 /\
    ed = TEdit r (b "let inherit (" ++ t1 ++ b ")" ++ List.concat (map (fun x => b " " ++ x) names) ++ b "; in " ++ t2) /\
    forall new, binds_names new names ->
      (forall v x pre, visit (WithOf w :: sc) e (pre ++ WithOf w :: sc) v -> is_var v x ->
         (forall h t, bound (pre ++ WithOf w :: sc) x (h :: t) -> exists t', bound (pre ++ new :: sc) x (h :: t')) /\
         (unbound (pre ++ WithOf w :: sc) x -> withs pre = [] /\ bound (pre ++ new :: sc) x (new :: sc))) /\
      (forall v x pre, visit sc we (pre ++ sc) v -> is_var v x ->
         (forall h t, bound (pre ++ sc) x (h :: t) -> exists t', bound (pre ++ new :: sc) x (h :: t')) /\
         (~ In x names -> unbound (pre ++ sc) x -> unbound (pre ++ new :: sc) x /\ withs (pre ++ new :: sc) = withs (pre ++ sc))).
Proof.
  intros *. intros HP. pose proof (parse_coherent _ _ _ primops HP). pose proof (parse_identified _ _ _ HP). pose proof (parse_marked _ _ _ primops HP).
  intros. eapply C52_partial_any; eauto.
Qed.

Lemma C52_refuted_proof :
  (exists src s m n ed, parse src = Ok (Some (doc src), []) /\ vla table (doc src) = Ok s /\ parents (doc src) = Ok m /\ node_of (doc src) n /\
     withToLet (doc src) s m src n = Ok (Some ed) /\ apply_edit src ed = b "a: with a; let inherit (x) x; in x" /\
     parse (apply_edit src ed) = Ok (Some (doc (apply_edit src ed)), []) /\
     (forall sc v, occurs_at table (doc src) sc v (b "x") -> unbound sc (b "x")) /\
     (forall sc v, occurs_at table (doc (apply_edit src ed)) sc v (b "x") -> ~ unbound sc (b "x"))) /\
  (exists src s m n ed, parse src = Ok (Some (doc src), []) /\ vla table (doc src) = Ok s /\ parents (doc src) = Ok m /\ node_of (doc src) n /\
     withToLet (doc src) s m src n = Ok (Some ed) /\ apply_edit src ed = b "with {a=1;}; let inherit ({b=2;}) a; in a" /\
     parse (apply_edit src ed) = Ok (Some (doc (apply_edit src ed)), []) /\
     (forall sc v, occurs_at table (doc src) sc v (b "a") -> unbound sc (b "a") /\ List.length (withs sc) = 2) /\
     (forall sc v, occurs_at table (doc (apply_edit src ed)) sc v (b "a") -> ~ unbound sc (b "a"))).
Proof.
  split.
  - set (src := b "a: with a; with x; x"). destruct (sound_ok src) as [A B]; [vm_compute; reflexivity|].
    exists src, (analysed src), (ups src), (node_no src 8). eexists.
    split; [apply clean_doc; vm_compute; reflexivity|]. split; [exact A|]. split; [exact B|].
    split; [apply node_no_in; apply Nat.ltb_lt; vm_compute; reflexivity|]. split; [vm_compute; reflexivity|].
    match goal with |- apply_edit _ ?ed = ?t /\ _ => assert (Q : apply_edit src ed = t) by (vm_compute; reflexivity); rewrite Q end.
    split; [reflexivity|]. split; [apply clean_doc; vm_compute; reflexivity|].
    split; [apply unbound_all; vm_compute; reflexivity|apply bound_all; vm_compute; reflexivity].
  - set (src := b "with {a=1;}; with {b=2;}; a"). destruct (sound_ok src) as [A B]; [vm_compute; reflexivity|].
    exists src, (analysed src), (ups src), (node_no src 11). eexists.
    split; [apply clean_doc; vm_compute; reflexivity|]. split; [exact A|]. split; [exact B|].
    split; [apply node_no_in; apply Nat.ltb_lt; vm_compute; reflexivity|]. split; [vm_compute; reflexivity|].
    match goal with |- apply_edit _ ?ed = ?t /\ _ => assert (Q : apply_edit src ed = t) by (vm_compute; reflexivity); rewrite Q end.
    split; [reflexivity|]. split; [apply clean_doc; vm_compute; reflexivity|].
    split; [intros sc v O; split; [revert sc v O; apply unbound_all; vm_compute; reflexivity|revert sc v O; apply withs_all; vm_compute; reflexivity]
           |apply bound_all; vm_compute; reflexivity].
Qed.

Lemma C53_partial_any : forall primops root s m src file n text ed,
  vla primops root = Ok s -> coherent primops root -> extractToFile s m src file n = Ok (Some (text, ed)) ->
  exists top body names, isExtractable top = true /\ nsrc src top = Ok body /\ body <> [] /\ increasing names /\
    text = match names with [] => [] | _ => b "{ " ++ commas names ++ b " }:" ++ LF end ++ body ++ LF /\
    ed = TEdit (nrange top) (b "import ./" ++ file ++
           match names with [] => [] | _ => b " { inherit" ++ List.concat (map (fun x => b " " ++ x) names) ++ b "; }" end) /\
    (forall x, In x names -> exists v sc v' x', node_of top v /\ varName v = x /\ occurs_at primops root sc v' x' /\ nid v' = nid v /\ outside top sc x') /\
    (forall v sc x, node_of top v -> occurs_at primops root sc v x -> outside top sc x -> In x names).
Proof.
  intros primops root s m src file n text ed H C X. unfold extractToFile in X.
  destruct (findExtractableExpr m n) as [top|] eqn:F; [|discriminate].
  destruct (nsrc src top) as [body| |] eqn:T; try discriminate. cbn [bind] in X. destruct body as [|c body]; [discriminate|].
  destruct (freeVariables s top) as [[names flag]| |] eqn:Fv; try discriminate. cbn [bind fst] in X. injection X as <- <-.
  apply freeVars_ok in Fv as (A1 & A2 & _). cbn [fst snd] in *.
  exists top, (c :: body), names. split.
  { unfold findExtractableExpr in F. destruct (isExtractable n) eqn:I; [congruence|].
    destruct (nodekind_beq (kind_of n) NK_Identifier || nodekind_beq (kind_of n) NK_AttrName)%bool; [|discriminate].
    destruct (pquery m n) as [p|]; [|discriminate]. destruct (nodekind_beq (kind_of p) NK_AttrPath); [|discriminate].
    destruct (pquery m p) as [q|]; [|discriminate]. destruct q; try discriminate.
    match type of F with match ?z with _ => _ end = _ => destruct z as [val|]; [|discriminate] end.
    destruct (isExtractable val) eqn:I'; [congruence|discriminate]. }
  split; [exact T|]. split; [discriminate|]. split; [apply A2; constructor|]. split; [reflexivity|]. split; [reflexivity|]. split.
  - intros x I. apply A1 in I as [[]|(v & N & Cv & E)]. destruct (captured_outside _ _ _ _ _ H Cv) as (sc & v' & x' & O & Ei & Q).
    exists v, sc, v', x'. auto.
  - intros v sc x N O Q. apply A1. right. exists v. split; auto. split; [eapply outside_captured; eauto|apply O].
Qed.

Lemma C53_partial_proof : forall ds primops root s m src file n text ed,
  parse src = Ok (Some root, ds) ->
  vla primops root = Ok s -> extractToFile s m src file n = Ok (Some (text, ed)) ->
  exists top body names, isExtractable top = true /\ nsrc src top = Ok body /\ body <> [] /\ increasing names /\
    text = match names with [] => [] | _ => b "{ " ++ commas names ++ b " }:" ++ LF end ++ body ++ LF /\
    ed = TEdit (nrange top) (b "import ./" ++ file ++
           match names with [] => [] | _ => b " { inherit" ++ List.concat (map (fun x => b " " ++ x) names) ++ b "; }" end) /\
    (forall x, In x names -> exists v sc v' x', node_of top v /\ varName v = x /\ occurs_at primops root sc v' x' /\ nid v' = nid v /\ outside top sc x') /\
    (forall v sc x, node_of top v -> occurs_at primops root sc v x -> outside top sc x -> In x names).
Proof.
  intros *. intros HP. pose proof (parse_coherent _ _ _ primops HP).
  intros. eapply C53_partial_any; eauto.
Qed.

Lemma C53_refuted_proof : exists src s m n text ed, parse src = Ok (Some (doc src), []) /\ vla table (doc src) = Ok s /\ parents (doc src) = Ok m /\
  node_of (doc src) n /\ extractToFile s m src (b "f.nix") n = Ok (Some (text, ed)) /\ text = b "{ inherit x; }" ++ LF /\
  (forall sc v, occurs_at table (doc src) sc v (b "x") -> ~ unbound sc (b "x")) /\
  (exists sc v, occurs_at table (doc text) sc v (b "x") /\ unbound sc (b "x") /\ withs sc = []).
Proof.
  set (src := b "x: { inherit x; }"). destruct (sound_ok src) as [A B]; [vm_compute; reflexivity|].
  exists src, (analysed src), (ups src), (node_no src 3). set (text := b "{ inherit x; }" ++ LF). exists text. eexists.
  split; [apply clean_doc; vm_compute; reflexivity|]. split; [exact A|]. split; [exact B|].
  split; [apply node_no_in; apply Nat.ltb_lt; vm_compute; reflexivity|]. split; [vm_compute; reflexivity|].
  split; [reflexivity|]. split; [apply bound_all; vm_compute; reflexivity|].
  assert (E : exists p ps, spots text (b "x") = p :: ps /\ forallb (fun l => negb (declaredb (b "x") l)) (fst p) = true /\ withs (fst p) = []).
  { do 2 eexists. split; [vm_compute; reflexivity|]. split; vm_compute; reflexivity. }
  destruct E as (p & ps & E & U & W). exists (fst p), (snd p). split; [eapply spots_some; eauto|]. split; auto.
  intros l I D. rewrite forallb_forall in U. specialize (U _ I). apply declaredb_iff in D. now rewrite D in U.
Qed.

Lemma C54_partial_any : forall primops root s m n pos text,
  vla primops root = Ok s -> identified root -> parents root = Ok m -> node_of root n ->
  addToFormals s m n = Ok (Some (pos, text)) ->
  exists v i r j q id k fr ms formals body sc v' x,
    nearest root n NK_ExprVar v /\ nearest root n NK_ExprLambda (NLambda i r (Some (NLambdaArg j q id (Some (NFormals k fr ms formals)))) body) /\
    occurs_at primops root sc v' x /\ nid v' = nid v /\ unbound sc x /\ withs sc = [] /\ ~ In (varName v) (map fst formals) /\
    ((ms = [] /\ pos = S (off (lcur fr)) /\ text = b " " ++ quoteNixAttrKey (varName v) ++ b " ") \/
     (exists last, ms = [last] /\ isEllipsis last = true /\ pos = off (nl last) /\ text = quoteNixAttrKey (varName v) ++ b ", ") \/
     (exists before f dots last, ms = before ++ f :: dots ++ [last] /\ isEllipsis last = true /\ isEllipsis f = false /\
        forallb isEllipsis dots = true /\ pos = off (nr f) /\ text = b ", " ++ quoteNixAttrKey (varName v)) \/
     (exists before last, ms = before ++ [last] /\ isEllipsis last = false /\ pos = off (nr last) /\ text = b ", " ++ quoteNixAttrKey (varName v))) /\
    forall pre who names t, sc = pre ++ Binds who names :: t -> forall new, declares new x -> bound (pre ++ new :: t) x (new :: t).
Proof.
  intros primops root s m n pos text H Id E N A.
  destruct (addToFormals_ok _ _ _ _ _ _ _ H Id E N A) as (v & i & r & j & q & id & k & fr & ms & fs & body & sc & v' & x & Nv & Nl & O & Ei & Ub & Ws & Nt & F).
  exists v, i, r, j, q, id, k, fr, ms, fs, body, sc, v', x. repeat (split; [assumption|]). split.
  - unfold formalsInsertion in F. destruct (rev ms) as [|last before] eqn:R.
    + left. apply (f_equal (@rev _)) in R. rewrite rev_involutive in R. injection F as <- <-. auto.
    + apply (f_equal (@rev _)) in R. rewrite rev_involutive in R. simpl in R. right. destruct (isEllipsis last) eqn:L.
      * destruct before as [|f0 before'] eqn:Eb; [left; exists last; injection F as <- <-; auto|right; left].
        rewrite <- Eb in *. destruct (find (fun f => negb (isEllipsis f)) before) as [f|] eqn:Ff; [|discriminate]. injection F as <- <-.
        assert (Sp : exists dots bef, before = dots ++ f :: bef /\ forallb isEllipsis dots = true /\ isEllipsis f = false).
        { clear - Ff. induction before as [|g l IH]; [discriminate|]. simpl in Ff. destruct (isEllipsis g) eqn:G; simpl in Ff.
          - destruct (IH Ff) as (dots & bef & -> & D & I). exists (g :: dots), bef. simpl. rewrite G. auto.
          - injection Ff as <-. exists [], l. auto. }
        destruct Sp as (dots & bef & Ebf & D & I). exists (rev bef), f, (rev dots), last.
        split; [rewrite R, Ebf, rev_app_distr; simpl; now rewrite <- !app_assoc|]. split; auto. split; auto. split; auto.
        apply forallb_forall. intros z Iz. apply in_rev in Iz. rewrite forallb_forall in D. auto.
      * right; right. injection F as <- <-. exists (rev before), last. auto.
  - intros pre who names t -> new D. apply bound_app; auto. intros l I. apply Ub. apply in_app_iff. auto.
Qed.

Lemma C54_partial_proof : forall src ds primops root s m n pos text,
  parse src = Ok (Some root, ds) ->
  vla primops root = Ok s -> parents root = Ok m -> node_of root n ->
  addToFormals s m n = Ok (Some (pos, text)) ->
  exists v i r j q id k fr ms formals body sc v' x,
    nearest root n NK_ExprVar v /\ nearest root n NK_ExprLambda (NLambda i r (Some (NLambdaArg j q id (Some (NFormals k fr ms formals)))) body) /\
    occurs_at primops root sc v' x /\ nid v' = nid v /\ unbound sc x /\ withs sc = [] /\ ~ In (varName v) (map fst formals) /\
    ((ms = [] /\ pos = S (off (lcur fr)) /\ text = b " " ++ quoteNixAttrKey (varName v) ++ b " ") \/
     (exists last, ms = [last] /\ isEllipsis last = true /\ pos = off (nl last) /\ text = quoteNixAttrKey (varName v) ++ b ", ") \/
     (exists before f dots last, ms = before ++ f :: dots ++ [last] /\ isEllipsis last = true /\ isEllipsis f = false /\
        forallb isEllipsis dots = true /\ pos = off (nr f) /\ text = b ", " ++ quoteNixAttrKey (varName v)) \/
     (exists before last, ms = before ++ [last] /\ isEllipsis last = false /\ pos = off (nr last) /\ text = b ", " ++ quoteNixAttrKey (varName v))) /\
    forall pre who names t, sc = pre ++ Binds who names :: t -> forall new, declares new x -> bound (pre ++ new :: t) x (new :: t).
Proof.
  intros *. intros HP. pose proof (parse_identified _ _ _ HP).
  intros. eapply C54_partial_any; eauto.
Qed.

Lemma C54_refuted_proof : exists src s m n pos text, parse src = Ok (Some (doc src), []) /\ vla table (doc src) = Ok s /\ parents (doc src) = Ok m /\
  node_of (doc src) n /\ addToFormals s m n = Ok (Some (pos, text)) /\
  firstn pos src ++ text ++ skipn pos src = b "{ a,, x }: x" /\
  exists root' d ds, parse (firstn pos src ++ text ++ skipn pos src) = Ok (Some root', d :: ds).
Proof.
  set (src := b "{ a, }: x"). destruct (sound_ok src) as [A B]; [vm_compute; reflexivity|].
  exists src, (analysed src), (ups src), (node_no src 6), 4, (b ", x").
  split; [apply clean_doc; vm_compute; reflexivity|]. split; [exact A|]. split; [exact B|].
  split; [apply node_no_in; apply Nat.ltb_lt; vm_compute; reflexivity|]. split; [vm_compute; reflexivity|].
  split; [vm_compute; reflexivity|]. do 3 eexists. vm_compute. reflexivity.
Qed.
