(** The traversal, node by node. *)
From Verif Require Import Base Diag LexModel AstModel SemaModel VlaModel VlaSpec VlaPost VlaBase VlaProofs.

Section A.
Variable primops : list (bytes * bool).
Variable s0 : scope.
Variable root : node.
Notation R := (R s0 root).
Notation cohw := (cohw s0 root).
Notation post := (post cohw).
Notation hist := (hist s0 root).
Notation diagonly := (diagonly s0 root).
Notation lookup := (lookupGlobalPrimOpInfo primops).
Notation emits := (emits primops).
Notation DV := (DV primops).
Notation DC := (DC primops).
Notation okdfs := (okdfs primops s0 root).
Notation runs := (runs primops).

Lemma diagonly_un d s s' r : watched (d_kind d) = false -> vdiag d s = Ok (r, s') -> diagonly none1 s s'.
Proof.
  intros Kd H. injection H as _ <-. dsplit. simpl. unfold none1. intros dg K _. split; [|tauto].
  intros [<-|]; [congruence|auto].
Qed.

(** ** checks that only report *)
Lemma checkBuiltins_ok n s r s' : kind_of n = NK_ExprSelect -> checkBuiltins primops n s = Ok (r, s') ->
  diagonly (hints primops n) s s'.
Proof.
  assert (No : forall n, (forall d, ~ hints primops n d) -> forall s, diagonly (hints primops n) s s).
  { clear. intros n Q s. eapply diagonly_ext; [|apply diagonly_refl]. unfold none1. intros d. split; [tauto|apply Q]. }
  intros K H. destruct n as [| | | | | | | | | | | | | | | | | |i0 rg n dot path dflt desugared| | | | | | | | | | | | | | |]; try discriminate K.
  clear K. cbn [checkBuiltins] in H.
  destruct path as [p|]; [destruct p|]; try (vinv H; apply No; intros d Q; destruct Q; discriminate).
  destruct names as [|first [|]]; try (vinv H; apply No; intros d Q; destruct Q; discriminate).
  destruct desugared; try (vinv H; apply No; intros d Q; destruct Q; discriminate).
  destruct (kind_of n) eqn:Kn; try (assert (s' = s) by (destruct n; try discriminate Kn; vinv H; auto); subst s';
    apply No; intros d Q; destruct Q as [? ? ? ? ? ? ? ? ? ? E [V _]|? ? ? ? ? ? ? ? ? ? E [V _]|]; try discriminate;
    injection E as; subst; congruence).
  assert (H' : (if negb (bytes_eqb (varName n) (b "builtins")) then vret tt else
          match staticName first with
          | None => vret tt
          | Some x =>
              match lookup x with
              | Found =>
                  let? e1 := vlift (mkRemoval (nrange n)) in
                  let? es := match dot with
                             | Some dt => let? e2 := vlift (mkRemoval (nrange dt)) in vret [e1; e2]
                             | None => vret [e1]
                             end in
                  vdiag (d_fix (Fix_ (b "remove `builtins.` prefix") es)
                               (diag0 DK_PrimOpRemovablePrefix (nrange n)))
              | PrefixedFound => vret tt
              | NotFound =>
                  if isBuiltinConstant x then vret tt
                  else vdiag (d_arg x (diag0 DK_PrimOpUnknown (nrange first)))
              end
          end) s = Ok (r, s')) by (destruct n; try discriminate Kn; exact H).
  clear H. rename H' into H.
  destruct (bytes_eqb (varName n) (b "builtins")) eqn:Vn; cbn [negb] in H.
  2:{ vinv H. apply No. intros d Q. destruct Q as [? ? ? ? ? ? ? ? ? ? E [_ V]|? ? ? ? ? ? ? ? ? ? E [_ V]|]; try discriminate;
      injection E as; subst; rewrite (proj2 (bytes_eqb_eq _ _) V) in Vn; discriminate. }
  apply bytes_eqb_eq in Vn.
  destruct (staticName first) as [x|] eqn:Sn.
  2:{ vinv H. apply No. intros d Q. destruct Q as [? ? ? ? ? ? ? ? ? ? E V S|? ? ? ? ? ? ? ? ? ? E V S|]; try discriminate;
      injection E as; subst; congruence. }
  destruct (lookup x) eqn:L.
  - vinv H. apply vlift_ok in H0 as [Q1 ->]. apply mkEdit_ok in Q1. subst a. vinv H.
    assert (s1 = s /\ a = removals [Some n; dot]) as [-> ->].
    { destruct dot; [vinv H0; apply vlift_ok in H1 as [Q2 ->]; apply mkEdit_ok in Q2; subst|]; vinv H0; auto. }
    eapply diagonly_ext; [|eapply vdiag_only; exact H]. intros d. split.
    + intros ->. eapply hi_prefix; eauto. split; auto.
    + intros Q. destruct Q as [? ? ? ? ? ? ? ? ? ? E V S|? ? ? ? ? ? ? ? ? ? E V S|]; try discriminate; injection E as; subst; auto; congruence.
  - vinv H. apply No. intros d Q. destruct Q as [? ? ? ? ? ? ? ? ? ? E V S|? ? ? ? ? ? ? ? ? ? E V S|]; try discriminate; injection E as; subst; congruence.
  - destruct (isBuiltinConstant x) eqn:Bc.
    + vinv H. apply No. intros d Q. destruct Q as [? ? ? ? ? ? ? ? ? ? E V S|? ? ? ? ? ? ? ? ? ? E V S|]; try discriminate; injection E as; subst; congruence.
    + eapply diagonly_ext; [|eapply vdiag_only; exact H]. intros d. split.
      * intros ->. eapply hi_unknown; eauto. split; auto.
      * intros Q. destruct Q as [? ? ? ? ? ? ? ? ? ? E V S|? ? ? ? ? ? ? ? ? ? E V S|]; try discriminate; injection E as; subst; congruence.
Qed.
Lemma checkLet_ok i r0 kl kwin body i1 r1 bd rc st dy s r s' : checkLetInheritBuiltins primops st s = Ok (r, s') ->
  diagonly (hints primops (NLet i r0 kl kwin body (Some (NAttrs i1 r1 bd rc st dy)))) s s'.
Proof.
  intros H. eapply diagonly_ext; [|eapply (vfor_diag s0 root _ (fun p dg => checkInheritedFromBuiltin (snd p) = Ok true /\ lookup (fst p) = Found /\
    dg = d_fix (Fix_ (b "remove unnecessary inherit") [TEdit (nrange (a_key (snd p))) []])
                   (diag0 DK_PrimOpRemovablePrefix (nrange (a_key (snd p))))) s); [|reflexivity|reflexivity|exact H]].
  - intros d. split.
    + intros ([x a] & I & C & L & ->). eapply hi_inherit; eauto.
    + intros Q. destruct Q; try discriminate. injection H0 as; subst. exists (x, a). auto.
  - clear. intros p s1 r s' _ _ H. vinv H. apply vlift_ok in H0 as [C ->].
    destruct a; cbn [negb] in H.
    2:{ vinv H. eapply diagonly_ext; [|apply diagonly_refl]. unfold none1. intros d. split; [tauto|]. intros (Q & _). congruence. }
    destruct (lookup (fst p)) eqn:L; try (vinv H; eapply diagonly_ext; [|apply diagonly_refl]; unfold none1; intros d; split; [tauto|]; intros (_ & Q & _); discriminate).
    vinv H. apply vlift_ok in H0 as [Q ->]. apply mkEdit_ok in Q. subst a.
    eapply diagonly_ext; [|eapply vdiag_only; exact H]. intros d. tauto.
Qed.

Lemma getDef_ok d s y s' : getDef d s = Ok (y, s') -> s' = s /\ defn s d y.
Proof. unfold getDef, defn. destruct (nth_error (v_defs s) d); intros H; [|discriminate]. injection H as <- <-. auto. Qed.

Definition unusedIn (who : node) (m : list (bytes * nat)) (s : vst) : diag -> Prop := fun dg =>
  exists p, In p m /\ exists y nd k, defn s (snd p) y /\ df_syn y = Some nd /\ df_uses y = [] /\
    unusedKind (df_src y) = Ok k /\ dg = unusedDiag who (fst p) nd (df_src y) k.
Lemma emit_ok m who s r s' : emitEnvLivenessWarning (Frame m (Some who)) s = Ok (r, s') ->
  diagonly (unusedIn who m s) s s'.
Proof.
  intros H. eapply (vfor_diag s0 root _ (fun p dg => exists y nd k, defn s (snd p) y /\ df_syn y = Some nd /\ df_uses y = [] /\
    unusedKind (df_src y) = Ok k /\ dg = unusedDiag who (fst p) nd (df_src y) k) s); [|reflexivity|reflexivity|exact H].
  clear H. intros p s1 r1 s1' E1 _ H. vinv H. apply getDef_ok in H0 as [-> Y].
  assert (Y' : defn s (snd p) a) by (unfold defn in *; now rewrite <- E1). clear Y.
  assert (Nil : (forall dg, ~ exists y nd k, defn s (snd p) y /\ df_syn y = Some nd /\ df_uses y = [] /\
    unusedKind (df_src y) = Ok k /\ dg = unusedDiag who (fst p) nd (df_src y) k) -> s1' = s1 ->
    diagonly (fun dg => exists y nd k, defn s (snd p) y /\ df_syn y = Some nd /\ df_uses y = [] /\
    unusedKind (df_src y) = Ok k /\ dg = unusedDiag who (fst p) nd (df_src y) k) s1 s1').
  { intros N ->. eapply diagonly_ext; [|apply diagonly_refl]. unfold none1. intros d. split; [tauto|apply N]. }
  destruct (dsource_beq (df_src a) DS_LambdaArg) eqn:Es.
  { vinv H. apply Nil; auto. intros dg (y & nd & k & Y & _ & _ & U & _). rewrite (defn_fun _ _ _ _ Y Y') in U.
    destruct (df_src a); try discriminate Es. discriminate U. }
  destruct (df_syn a) as [syn|] eqn:Ey.
  2:{ vinv H. apply Nil; auto. intros dg (y & nd & k & Y & Q & _). rewrite (defn_fun _ _ _ _ Y Y') in Q. congruence. }
  destruct (df_uses a) eqn:Eu.
  2:{ vinv H. apply Nil; auto. intros dg (y & nd & k & Y & _ & Q & _). rewrite (defn_fun _ _ _ _ Y Y') in Q. congruence. }
  vinv H. apply vlift_ok in H0 as [Ek ->].
  assert (Em : forall dg, dg = unusedDiag who (fst p) syn (df_src a) a0 <-> exists y nd k, defn s (snd p) y /\ df_syn y = Some nd /\ df_uses y = [] /\
    unusedKind (df_src y) = Ok k /\ dg = unusedDiag who (fst p) nd (df_src y) k).
  { intros dg. split; [intros ->; exists a, syn, a0; auto|].
    intros (y & nd & k & Y & Q1 & _ & Q2 & ->). rewrite (defn_fun _ _ _ _ Y Y') in *. congruence. }
  eapply diagonly_ext; [exact Em|].
  unfold unusedDiag. simpl in H. destruct (df_src a); try (eapply vdiag_only; exact H).
  destruct (bindingAt (nrange syn) (letBindings who)) as [q|]; [|eapply vdiag_only; exact H].
  vinv H. apply vlift_ok in H0 as [He ->]. apply mkEdit_ok in He. subst. eapply vdiag_only; exact H.
Qed.

Definition recIn (kw : node) (m : list (bytes * nat)) (s : vst) : diag -> Prop := fun dg =>
  (forall x d y, In (x, d) m -> defn s d y -> df_uses y = []) /\ dg = recDiag kw.
Lemma checkRec_ok kw m syn s r s' : checkRec (Some kw) (Some (Frame m syn)) s = Ok (r, s') ->
  (forall x d, In (x, d) m -> exists y, defn s d y) ->
  diagonly (recIn kw m s) s s'.
Proof.
  intros H Hm. unfold checkRec in H. vinv H. injection H0 as <- <-. cbn [fr_defs] in H.
  match type of H with (if ?c then _ else _) _ = _ => destruct c eqn:L end.
  - vinv H. eapply diagonly_ext; [|apply diagonly_refl]. unfold none1, recIn. intros d. split; [tauto|]. intros [N _].
    apply existsb_exists in L as ([x i] & I & Q). simpl in Q. destruct (Hm _ _ I) as [y Y].
    pose proof (N _ _ _ I Y) as E. unfold defn in Y. rewrite Y, E in Q. discriminate.
  - vinv H. apply vlift_ok in H0 as [He ->]. apply mkEdit_ok in He. subst.
    eapply diagonly_ext; [|eapply vdiag_only; exact H]. intros d. unfold recIn. split; [intros ->; split; auto|intros [_ Q]; exact Q].
    intros x i y I Y. destruct (df_uses y) eqn:E; auto. exfalso.
    assert (existsb (fun p => match nth_error (v_defs s) (snd p) with
                        | Some d => match df_uses d with [] => false | _ => true end
                        | None => false
                        end) m = true); [|congruence].
    apply existsb_exists. exists (x, i). split; auto. simpl. unfold defn in Y. now rewrite Y, E.
Qed.

Definition withIn (n kw : node) (semi w : option node) (s : vst) : diag -> Prop := fun dg =>
  (exists d y, nfind (nid n) (v_with s) = Some d /\ defn s d y /\ df_uses y = []) /\ dg = withDiag kw semi w.
Lemma withEnd_ok n kw semi w s r s' : withEnd n kw semi w s = Ok (r, s') ->
  diagonly (withIn n kw semi w s) s s'.
Proof.
  intros H. unfold withEnd in H. vinv H. unfold withDef in H0. destruct (nfind (nid n) (v_with s)) as [d|] eqn:F; [|discriminate].
  injection H0 as <- <-. vinv H. apply getDef_ok in H0 as [-> Y].
  destruct (df_uses a) eqn:Eu.
  - vinv H. apply vlift_ok in H0 as [He ->]. apply mkEdit_ok in He. subst. vinv H.
    assert (s1 = s /\ a0 = removals [semi]) as [-> ->].
    { destruct semi; [vinv H0; apply vlift_ok in H1 as [He ->]; apply mkEdit_ok in He; subst|]; vinv H0; auto. }
    vinv H.
    assert (s1 = s /\ a0 = removals [w]) as [-> ->].
    { destruct w; [vinv H1; apply vlift_ok in H2 as [He ->]; apply mkEdit_ok in He; subst|]; vinv H1; auto. }
    eapply diagonly_ext; [|eapply vdiag_only; exact H]. intros dg. unfold withIn.
    assert ((TEdit (nrange kw) [] :: removals [semi] ++ removals [w]) = removals [Some kw; semi; w]) as E.
    { unfold removals, somes. simpl. destruct semi, w; reflexivity. }
    unfold withDiag. rewrite <- E. split; [intros ->; split; eauto|intros [_ ->]; reflexivity].
  - vinv H. eapply diagonly_ext; [|apply diagonly_refl]. unfold none1, withIn. intros dg. split; [tauto|].
    intros [(d' & y & F' & Y' & E) _]. assert (d' = d) by congruence. subst. rewrite (defn_fun _ _ _ _ Y' Y) in E. congruence.
Qed.

(** ** allocation *)
Lemma dbAdd_adds x q src ib m s r s1 r2 s2 : dbAdd primops x q src ib m s = Ok (r, s1) ->
  setToDef (nid q) (fst r) s1 = Ok (r2, s2) -> adds [(x, (q, src))] m s (snd r) s2.
Proof.
  intros H H2. unfold dbAdd in H. vinv H. vinv H.
  assert (v_defs s3 = v_defs s /\ v_with s3 = v_with s /\ v_todef s3 = v_todef s /\ v_envs s3 = v_envs s /\
          v_res s3 = v_res s /\ v_ws s3 = v_ws s /\ forall dg, watched (d_kind dg) = true -> In dg (v_diags s3) <-> In dg (v_diags s)) as D1.
  { destruct (lookup x); try (vinv H0; tauto). destruct ib; [vinv H0; tauto|].
    injection H0 as _ <-. simpl. dsplit. intros dg Kd. split; [intros [<-|]; [discriminate Kd|auto]|auto]. }
  assert (v_defs s4 = v_defs s3 /\ v_with s4 = v_with s3 /\ v_todef s4 = v_todef s3 /\ v_envs s4 = v_envs s3 /\
          v_res s4 = v_res s3 /\ v_ws s4 = v_ws s3 /\ forall dg, watched (d_kind dg) = true -> In dg (v_diags s4) <-> In dg (v_diags s3)) as D2.
  { destruct (isConstant x); [|vinv H1; tauto].
    injection H1 as _ <-. simpl. dsplit. intros dg Kd. split; [intros [<-|]; [discriminate Kd|auto]|auto]. }
  destruct D1 as (A1 & A2 & A3 & A4 & A5 & A6 & A7), D2 as (B1 & B2 & B3 & B4 & B5 & B6 & B7).
  unfold addSimple in H. destruct (bfind x m) eqn:B; [discriminate|]. vinv H. injection H3 as <- <-. vinv H.
  injection H2 as <- <-. simpl.
  replace (List.length (v_defs s4)) with (total s) by (unfold total; now rewrite B1, A1).
  econstructor; [exact B|..|constructor]; simpl; rewrite ?B1, ?B2, ?B3, ?B4, ?B5, ?B6, ?A1, ?A2, ?A3, ?A4, ?A5, ?A6; auto.
  intros dg Kd. now rewrite B7, A7.
Qed.
Lemma attrDefs_adds src st : forall m s m' s', attrDefs primops st src m s = Ok (m', s') ->
  adds (fields_of src st) m s m' s'.
Proof.
  induction st as [|[x a] st IH]; intros m s m' s' H; simpl in H; [vinv H; constructor|].
  vinv H. apply vlift_ok in H0 as [_ ->]. vinv H. vinv H.
  change (fields_of src ((x, a) :: st)) with ([(x, (a_key a, src))] ++ fields_of src st).
  eapply adds_app; [eapply dbAdd_adds; eauto|]. eauto.
Qed.
Definition formalNames (ms : list node) (src : dsource) (dd : list (bytes * nat)) : list (bytes * (node * dsource)) :=
  flat_map (fun p => match find (fun m => Nat.eqb (nid m) (snd p)) ms with
                     | Some (NFormal _ _ _ (Some q) _ _) => [(fst p, (q, src))]
                     | _ => []
                     end) dd.
Lemma formalDefs_adds ms src dd : forall m s m' s', formalDefs primops ms dd src m s = Ok (m', s') ->
  adds (formalNames ms src dd) m s m' s'.
Proof.
  induction dd as [|[x i] dd IH]; intros m s m' s' H; simpl in H; [vinv H; constructor|].
  unfold formalNames. simpl. unfold formalId in H.
  destruct (find (fun m => Nat.eqb (nid m) i) ms) as [f|]; [|vinv H].
  destruct f; try (vinv H; fail). destruct ident; [|vinv H]. vinv H. vinv H.
  eapply adds_app; [eapply dbAdd_adds; eauto|]. eauto.
Qed.
Lemma existsb_bfind {A} x (l : list (bytes * A)) : existsb (fun p => bytes_eqb x (fst p)) l = match bfind x l with Some _ => true | None => false end.
Proof. induction l as [|[y v] l IH]; simpl; auto. destruct (bytes_eqb x y); simpl; auto. Qed.
Lemma lambdaDefs_adds a s m s' : lambdaDefs primops a s = Ok (m, s') -> adds (params a) [] s m s'.
Proof.
  intros H. unfold lambdaDefs in H. destruct a; try discriminate. vinv H.
  destruct formals as [f|].
  - destruct f; try (destruct ident; vinv H0; vinv H; constructor).
    destruct ident as [q|].
    + unfold params. rewrite existsb_bfind. eapply adds_app; [|apply formalDefs_adds in H; exact H].
      destruct (bfind (idName q) dedup); [vinv H0; constructor|]. vinv H0. vinv H0. vinv H0. eapply dbAdd_adds; eauto.
    + vinv H0. apply formalDefs_adds in H; exact H.
  - destruct ident as [q|]; [|vinv H0; vinv H; constructor]. vinv H0. vinv H0. vinv H0. vinv H. simpl.
    eapply dbAdd_adds; eauto.
Qed.

(** ** the parts of a set *)
Definition triples (e fe : env) (sc fs : scope) (st : list (bytes * attribute)) (dy : list attribute) : list (env * scope * node) :=
  map (fun p => match a_kind (snd p) with AK_Inherit => (e, sc, a_value (snd p)) | _ => (fe, fs, a_value (snd p)) end) st
  ++ flat_map (fun a => [(fe, fs, a_key a); (fe, fs, a_value a)]) dy.
Definition unenv (t : env * scope * node) : scope * node := (snd (fst t), snd t).
Lemma triples_unenv e fe sc fs st dy : map unenv (triples e fe sc fs st dy) = in_set sc fs st dy.
Proof.
  unfold triples, in_set. rewrite map_app, map_map. f_equal.
  - apply map_ext. intros p. destruct (a_kind (snd p)); reflexivity.
  - induction dy as [|a dy IH]; simpl; auto. now rewrite IH.
Qed.
Lemma triples_in e fe sc fs st dy t : In t (triples e fe sc fs st dy) -> fst t = (e, sc) \/ fst t = (fe, fs).
Proof.
  unfold triples. intros H. apply in_app_iff in H as [H|H].
  - apply in_map_iff in H as (p & <- & _). destruct (a_kind (snd p)); auto.
  - apply in_flat_map in H as (a & _ & [<-|[<-|[]]]); auto.
Qed.
Lemma map_flat_map {A B C} (f : B -> C) (g : A -> list B) l : map f (flat_map g l) = flat_map (fun x => map f (g x)) l.
Proof. induction l; simpl; auto. now rewrite map_app, IHl. Qed.
Lemma flat_map_single {A B} (f : A -> B) l : flat_map (fun x => [f x]) l = map f l.
Proof. induction l as [|x l IH]; simpl; [reflexivity|]. now rewrite <- IH. Qed.
Lemma set_runs e fe sc fs st dy s r1 s1 r2 s2 :
  vfor (fun p => dfs primops (a_value (snd p)) (match a_kind (snd p) with AK_Inherit => e | _ => fe end)) st s = Ok (r1, s1) ->
  vfor (fun a => do? dfs primops (a_key a) fe in dfs primops (a_value a) fe) dy s1 = Ok (r2, s2) ->
  runs (map (@strip) (triples e fe sc fs st dy)) s s2.
Proof.
  intros H1 H2. unfold triples. rewrite map_app, map_map, map_flat_map. eapply runs_app.
  - rewrite <- flat_map_single. eapply vfor_runs; [|exact H1]. intros p s3 r s4 H. unfold strip. cbv beta in H.
    destruct (a_kind (snd p)); simpl; eapply runs_one; exact H.
  - eapply vfor_runs; [|exact H2]. intros a s3 r s4 H. vinv H. simpl. unfold strip. simpl.
    destruct a0, r. econstructor; [eauto|]. econstructor; [eauto|constructor].
Qed.
Lemma set_runs_plain e sc st dy s r1 s1 r2 s2 :
  vfor (fun p => dfs primops (a_value (snd p)) e) st s = Ok (r1, s1) ->
  vfor (fun a => do? dfs primops (a_key a) e in dfs primops (a_value a) e) dy s1 = Ok (r2, s2) ->
  runs (map (@strip) (triples e e sc sc st dy)) s s2.
Proof.
  intros H1 H2. unfold triples. rewrite map_app, map_map, map_flat_map. eapply runs_app.
  - rewrite <- flat_map_single. eapply vfor_runs; [|exact H1]. intros p s3 r s4 H. unfold strip. cbv beta in H.
    destruct (a_kind (snd p)); simpl; eapply runs_one; exact H.
  - eapply vfor_runs; [|exact H2]. intros a s3 r s4 H. vinv H. simpl. unfold strip. simpl.
    destruct a0, r. econstructor; [eauto|]. econstructor; [eauto|constructor].
Qed.

(** ** from the parts to the node *)
Lemma params_src a x nd src : In (x, (nd, src)) (params a) -> src <> DS_With.
Proof.
  unfold params. intros H. destruct a; try contradiction. destruct formals as [f|].
  - destruct f; try (destruct ident; contradiction).
    assert (In (x, (nd, src)) (match ident with
      | Some q => if existsb (fun p => bytes_eqb (idName q) (fst p)) dedup then [] else [(idName q, (q, DS_LambdaWithArg_Arg))]
      | None => [] end ++ flat_map (fun p => match find (fun m => Nat.eqb (nid m) (snd p)) members with
                         | Some (NFormal _ _ _ (Some q) _ _) =>
                             [(fst p, (q, match ident with Some _ => DS_LambdaWithArg_Formal | None => DS_LambdaNoArg_Formal end))]
                         | _ => []
                         end) dedup)) as H' by (destruct ident; exact H).
    clear H. apply in_app_iff in H' as [H|H].
    + destruct ident; [|contradiction]. destruct (existsb _ _); [contradiction|]. destruct H as [H|[]]. injection H as _ _ <-. discriminate.
    + apply in_flat_map in H as (p & _ & H). destruct (find _ _) as [q|]; [|contradiction]. destruct q; try contradiction.
      destruct ident0; [|contradiction]. destruct H as [H|[]]. injection H as _ _ <-. destruct ident; discriminate.
  - destruct ident; [|contradiction]. destruct H as [H|[]]. injection H as _ _ <-. discriminate.
Qed.
Lemma fields_src src0 st x nd src : In (x, (nd, src)) (fields_of src0 st) -> src = src0.
Proof. unfold fields_of. intros H. apply in_map_iff in H as (p & E & _). congruence. Qed.
Lemma opens_src n who names : opens n = Some (Binds who names) ->
  kind_of who <> NK_ExprWith /\ kind_of n <> NK_ExprVar /\ kind_of n <> NK_ExprWith /\
  (forall x nd src, In (x, (nd, src)) names -> src <> DS_With) /\
  ((who = n /\ (forall i r bd rc st dy, who <> NAttrs i r bd rc st dy)) \/
   ((exists i r bd kw st dy, who = NAttrs i r bd (Some kw) st dy) /\ forall x nd src, In (x, (nd, src)) names -> src = DS_Rec)).
Proof.
  intros H. destruct n; try discriminate H; simpl in H.
  - destruct rc; [|discriminate]. injection H as <- <-. repeat (split; [discriminate|]). split.
    + intros x nd src I. apply fields_src in I. subst. discriminate.
    + right. split; [repeat eexists|]. intros x nd src I. now apply fields_src in I.
  - assert (exists st, who = NLet id r n kwin e attrs /\ names = fields_of DS_Let st) as (st & -> & ->).
    { destruct attrs as [a|]; [destruct a|]; injection H as <- <-; try (now exists []); eauto. }
    repeat (split; [discriminate|]). split; [|left; split; [reflexivity|discriminate]].
    intros x nd src I. apply fields_src in I. subst. discriminate.
  - destruct attrs as [a|]; [|discriminate]. destruct a; try discriminate. destruct rc; [|discriminate]. injection H as <- <-.
    repeat (split; [discriminate|]). split.
    + intros x nd src I. apply fields_src in I. subst. discriminate.
    + right. split; [repeat eexists|]. intros x nd src I. now apply fields_src in I.
  - destruct arg as [a|]; [|discriminate]. destruct body; [|discriminate]. injection H as <- <-.
    repeat (split; [discriminate|]). split; [intros x nd src I; eapply params_src; eauto|].
    left. split; [reflexivity|discriminate].
Qed.

Lemma visit_enters sc n s' m : visit sc n s' m <->
  only sc n s' m \/ exists s1 n1, In (s1, n1) (enters sc n) /\ visit s1 n1 s' m.
Proof.
  split.
  - intros H. destruct H; [left; now split|right; eauto].
  - intros [[-> ->]|(s1 & n1 & I & V)]; [constructor|econstructor; eauto].
Qed.
Lemma unenv_in l sc n s1 n1 : map unenv l = enters sc n -> (In (s1, n1) (enters sc n) <-> exists e, In (e, s1, n1) l).
Proof.
  intros <-. rewrite in_map_iff. split.
  - intros ([[e s] m] & E & I). unfold unenv in E. simpl in E. injection E as <- <-. eauto.
  - intros [e I]. exists (e, s1, n1). auto.
Qed.
Lemma W3_enters l sc n s' m : map unenv l = enters sc n ->
  W3 l s' m <-> exists s1 n1, In (s1, n1) (enters sc n) /\ visit s1 n1 s' m.
Proof.
  intros E. unfold W3. split.
  - intros (e & s1 & n1 & I & V). exists s1, n1. split; auto. apply (unenv_in _ _ _ _ _ E). eauto.
  - intros (s1 & n1 & I & V). apply (unenv_in _ _ _ _ _ E) in I as [e I]. eauto.
Qed.
Lemma D3_enters l sc n dg : map unenv l = enters sc n -> (DC sc n dg <-> emits sc n dg \/ D3 primops l dg).
Proof.
  intros E. unfold DC, VlaProofs.DC, D3. split.
  - intros [Em|(s1 & n1 & I & D)]; [now left|right]. apply (unenv_in _ _ _ _ _ E) in I as [e I]. eauto 6.
  - intros [Em|(e & s1 & n1 & I & D)]; [now left|right]. exists s1, n1. split; auto. apply (unenv_in _ _ _ _ _ E). eauto.
Qed.

Lemma walk_cons_with y n e : fst (walk y (Frame [] (Some n) :: e)) = fst (walk y e).
Proof. simpl. destruct (walk y e). reflexivity. Qed.
Lemma walk_cons y m who e : fst (walk y (Frame m who :: e)) = match bfind y m with Some d => Some d | None => fst (walk y e) end.
Proof. simpl. destruct (bfind y m); [reflexivity|]. destruct (walk y e). reflexivity. Qed.
Lemma app_tail {A} (p q : list A) l t : p ++ t = q ++ l :: t -> p = q ++ [l].
Proof. intros H. replace (q ++ l :: t) with ((q ++ [l]) ++ t) in H by (rewrite <- app_assoc; reflexivity). now apply app_inv_tail in H. Qed.
Lemma cons_neq {A} (l : A) t : t <> l :: t.
Proof. intros H. apply (f_equal (@List.length A)) in H. simpl in H. lia. Qed.

Lemma UE_plain n e sc l d u : kind_of n <> NK_ExprVar -> map unenv l = enters sc n ->
  (forall t, In t l -> fst t = (e, sc)) -> (U3 l d u <-> UE e sc (visit sc n) d u).
Proof.
  intros K E A. unfold U3, UE. split.
  - intros (e1 & s1 & n1 & I & s' & v & y & pre & V & Iv & Eu & Es & Ub & Wk).
    pose proof (A _ I) as Q. injection Q as -> ->. exists s', v, y, pre. split; auto.
    econstructor; [apply (unenv_in _ _ _ _ _ E); eauto|exact V].
  - intros (s' & v & y & pre & V & Iv & Eu & Es & Ub & Wk).
    apply visit_enters in V as [[-> ->]|(s1 & n1 & I & V)]; [destruct Iv; contradiction|].
    apply (unenv_in _ _ _ _ _ E) in I as [e1 I]. pose proof (A _ I) as Q. injection Q as -> ->.
    exists e, sc, n1. split; auto. exists s', v, y, pre. auto 6.
Qed.
Lemma emits_plain sc n dg : kind_of n <> NK_ExprVar -> kind_of n <> NK_ExprWith -> opens n = None -> ~ emits sc n dg.
Proof.
  intros K1 K2 O H. destruct H; try (destruct H; congruence); try congruence. subst. now apply K2.
Qed.
Lemma plain_ok n e sc s l s2 : kind_of n <> NK_ExprVar -> kind_of n <> NK_ExprWith -> opens n = None ->
  R sc n -> good s -> hist s -> rep s sc e ->
  map unenv l = enters sc n -> (forall t, In t l -> fst t = (e, sc)) ->
  (forall s1 n1, In (s1, n1) (enters sc n) -> okdfs n1) ->
  runs (map strip l) (entered n e s) s2 ->
  post (UE e sc (visit sc n)) (visit sc n) (DC sc n) s s2 /\ good s2.
Proof.
  intros K1 K2 O Hr G Hh Rp E A IH Rn.
  pose proof (post_entered s0 root n e sc s K1 K2 O Rp) as P1.
  assert (G1 : good (entered n e s)) by exact G.
  destruct (runs_ok primops s0 root l) with (s := entered n e s) (s' := s2) as [P2 G2]; auto.
  { intros e1 s1 n1 I. assert (I' : In (s1, n1) (enters sc n)) by (apply (unenv_in _ _ _ _ _ E); exists e1; exact I). split; [eapply IH; eauto|].
    eapply visit_trans; [exact Hr|]. econstructor; [exact I'|constructor]. }
  { intros e1 s1 n1 I. pose proof (A _ I) as Q. injection Q as -> ->. exact Rp. }
  split; auto. eapply post_ext; [..|eapply post_seq; [exact G1| |exact P1|exact P2]].
  - intros d u. unfold or2, none2. rewrite <- (UE_plain n e sc l d u K1 E A). tauto.
  - intros a c. unfold or2. rewrite (W3_enters l sc n a c E). symmetry. apply visit_enters.
  - intros dg. unfold or1, none1. rewrite (D3_enters l sc n dg E).
    pose proof (emits_plain sc n dg K1 K2 O). tauto.
  - intros d u Q. apply (UE_plain n e sc l d u K1 E A) in Q. eapply UE_lt; eauto.
Qed.

Lemma open_ok n e sc s who names m s1 l s2 :
  opens n = Some (Binds who names) -> R sc n -> good s -> hist s -> rep s sc e ->
  adds names [] (entered n e s) m s1 ->
  map unenv l = enters sc n ->
  (forall t, In t l -> fst t = (e, sc) \/ fst t = (Frame m (Some who) :: e, Binds who names :: sc)) ->
  (forall s1 n1, In (s1, n1) (enters sc n) -> okdfs n1) ->
  runs (map strip l) s1 s2 ->
  (forall x d, In (x, d) m <-> exists i nd src, d = total s + i /\ nth_error names i = Some (x, (nd, src))) /\
  (forall i x nd src, nth_error names i = Some (x, (nd, src)) -> exists y, defn s2 (total s + i) y /\
     df_syn y = Some nd /\ df_src y = src /\ forall u, In u (df_uses y) <-> used sc n (Binds who names) x u) /\
  (forall s3, diagonly (emits sc n) s2 s3 -> post (UE e sc (visit sc n)) (visit sc n) (DC sc n) s s3 /\ good s3).
Proof.
  intros O Hr G Hh Rp Ad E A IH Rn.
  destruct (opens_src _ _ _ O) as (Kw & K1 & K2 & Hs & _).
  destruct (adds_facts _ _ _ _ _ Ad) as (F1 & F2 & F3 & F4 & F5 & F6 & F7 & F8 & F9 & F10).
  change (total (entered n e s)) with (total s) in *. change (v_defs (entered n e s)) with (v_defs s) in *.
  change (v_with (entered n e s)) with (v_with s) in *.
  set (L := Binds who names) in *. set (f := Frame m (Some who)) in *.
  assert (Hdef : forall d x, defn s d x -> defn s1 d x).
  { unfold defn. rewrite F1. intros d x Q. rewrite nth_error_app1; auto. apply nth_error_Some. congruence. }
  assert (Hmono : forall d x, defn s d x -> exists us, defn s1 d (VDef (df_syn x) (df_src x) us)).
  { intros d x Q. exists (df_uses x). apply Hdef. now destruct x. }
  assert (Hnew : forall i x nd src, nth_error names i = Some (x, (nd, src)) -> defn s1 (total s + i) (VDef (Some nd) src [])).
  { intros i x nd src Q. unfold defn, total. rewrite F1, nth_error_app2 by lia.
    replace (List.length (v_defs s) + i - List.length (v_defs s)) with i by lia.
    rewrite (map_nth_error _ _ _ Q). reflexivity. }
  assert (M9 : forall x d, bfind x m = Some d <-> exists i nd src, d = total s + i /\ nth_error names i = Some (x, (nd, src))).
  { intros x d. rewrite F9. simpl. split; [intros [Q|Q]; [discriminate|exact Q]|auto]. }
  assert (M8 : forall x, bfind x m = None <-> ~ In x (map fst names)).
  { intros x. rewrite F8. simpl. tauto. }
  assert (Rp1 : rep s1 sc e) by (eapply rep_mono'; [exact Hmono|now rewrite F2|exact Rp]).
  assert (Lr : lrep s1 L f).
  { simpl. split; [auto|split; [auto|split; [exact M8|]]]. intros x d Q. apply M9 in Q as (i & nd & src & -> & Q).
    exists (VDef (Some nd) src []), nd. split; [eauto|]. split; [reflexivity|]. apply nth_error_In in Q.
    split; [simpl; eapply Hs; eauto|exact Q]. }
  assert (G1 : good s1).
  { destruct G as [Ga Gb]. split.
    - intros k d Q. rewrite F2 in Q. destruct (Ga _ _ Q) as (y & Y & Z). eauto.
    - intros k k' d. rewrite F2. apply Gb. }
  assert (H1 : hist s1).
  { intros k d x u Q X I. rewrite F2 in Q. destruct (proj1 G _ _ Q) as (y & Y & _).
    rewrite (defn_fun _ _ _ _ X (Hdef _ _ Y)) in I. eapply Hh; eauto. }
  destruct (runs_ok primops s0 root l) with (s := s1) (s' := s2) as [P2 G2]; auto.
  { intros e1 sc1 n1 I. assert (I' : In (sc1, n1) (enters sc n)) by (apply (unenv_in _ _ _ _ _ E); exists e1; exact I). split; [eapply IH; eauto|].
    eapply visit_trans; [exact Hr|]. econstructor; [exact I'|constructor]. }
  { intros e1 sc1 n1 I. destruct (A _ I) as [Q|Q]; injection Q as -> ->; [exact Rp1|]. constructor; auto. }
  assert (HU : forall i x nd src, nth_error names i = Some (x, (nd, src)) -> forall u, U3 l (total s + i) u <-> used sc n L x u).
  { intros i x nd src Q u. unfold U3, UE, used. split.
    - intros (e1 & sc1 & n1 & I & s' & v & y & pre & V & Iv & Eu & Es & Ub & Wk).
      assert (I' : In (sc1, n1) (enters sc n)) by (apply (unenv_in _ _ _ _ _ E); exists e1; exact I).
      destruct (A _ I) as [Z|Z]; injection Z as -> ->.
      + destruct (rep_lt _ _ _ _ _ Rp Wk). lia.
      + unfold f in Wk. rewrite walk_cons in Wk. destruct (bfind y m) as [d|] eqn:B.
        * injection Wk as ->. apply M9 in B as (i' & nd' & src' & Ei & B). assert (i' = i) by lia. subst i'.
          rewrite Q in B. injection B as -> -> ->. exists n1, s', v, pre. auto 8.
        * destruct (rep_lt _ _ _ _ _ Rp Wk). lia.
    - intros (n1 & s' & v & pre & I & V & Iv & Eu & Es & Ub). apply (unenv_in _ _ _ _ _ E) in I as [e1 I].
      destruct (A _ I) as [Z|Z]; [apply (f_equal snd) in Z; cbn [fst snd] in Z; symmetry in Z; now apply cons_neq in Z|].
      apply (f_equal fst) in Z; cbn [fst snd] in Z; subst e1.
      exists (f :: e), (L :: sc), n1. split; auto. exists s', v, x, pre. split; auto. split; auto. split; auto. split; auto. split; auto.
      unfold f. rewrite walk_cons. destruct (M9 x (total s + i)) as [_ ->]; [reflexivity|]. exists i, nd, src. auto. }
  pose proof (post_open s0 root n e sc s who names m s1 _ _ _ s2 K1 K2 Rp G O Ad P2 HU) as P.
  split; [|split].
  - intros x d. rewrite <- M9. apply bfind_nodup. apply F10. constructor.
  - intros i x nd src Q. pose proof (Hnew _ _ _ _ Q) as X. destruct (po_def _ _ _ _ _ _ P2 _ _ X) as [us X'].
    exists (VDef (Some nd) src us). split; [exact X'|]. split; [reflexivity|]. split; [reflexivity|].
    intros u. simpl. rewrite <- (HU i x nd src Q u).
    assert (Hsrc : src <> DS_With) by (eapply Hs; eapply nth_error_In; eauto).
    pose proof (po_uses _ _ _ _ _ _ P2 _ _ _ X Hsrc X' u) as Z. simpl in Z. rewrite Z. tauto.
  - intros s3 Dn. split; [|eapply diagonly_good; eauto].
    eapply post_ext; [..|eapply post_seq; [exact G2| |exact P|eapply diagonly_post; exact Dn]].
    + intros d u. unfold or2, none2, U3, UE. split.
      * intros [[Lt (e1 & sc1 & n1 & I & s' & v & y & pre & V & Iv & Eu & Es & Ub & Wk)]|[]].
        assert (I' : In (sc1, n1) (enters sc n)) by (apply (unenv_in _ _ _ _ _ E); exists e1; exact I).
        assert (V' : visit sc n s' v) by (econstructor; eauto).
        destruct (A _ I) as [Z|Z]; injection Z as -> ->.
        -- exists s', v, y, pre. auto 6.
        -- unfold f in Wk. rewrite walk_cons in Wk. destruct (bfind y m) as [d'|] eqn:B.
           ++ injection Wk as ->. apply M9 in B as (i' & nd' & src' & Ei & B). lia.
           ++ exists s', v, y, (pre ++ [L]). split; auto. split; auto. split; auto. split.
              { rewrite <- app_assoc. exact Es. }
              split; [|exact Wk]. apply unbound_app. split; auto. apply unbound_cons. split; [|intros q []].
              simpl. now apply M8.
      * intros (s' & v & y & pre & V & Iv & Eu & Es & Ub & Wk). left.
        split; [now destruct (rep_lt _ _ _ _ _ Rp Wk)|].
        apply visit_enters in V as [[-> ->]|(sc1 & n1 & I & V)]; [destruct Iv; contradiction|].
        apply (unenv_in _ _ _ _ _ E) in I as [e1 I]. exists e1, sc1, n1. split; auto.
        destruct (A _ I) as [Z|Z]; injection Z as -> ->.
        -- exists s', v, y, pre. auto 6.
        -- destruct (visit_grow _ _ _ _ V) as [pre' Es']. rewrite Es in Es'. apply app_tail in Es' as ->.
           apply unbound_app in Ub as [Ub1 Ub2]. apply unbound_cons in Ub2 as [Ub2 _].
           exists s', v, y, pre'. split; auto. split; auto. split; auto. split.
           { rewrite Es, <- app_assoc. reflexivity. }
           split; auto. unfold f. rewrite walk_cons. destruct (M8 y) as [_ ->]; auto.
    + intros a c. unfold or2, none2. rewrite (W3_enters l sc n a c E). rewrite (visit_enters sc n a c). tauto.
    + intros dg. unfold or1. rewrite (D3_enters l sc n dg E). tauto.
    + intros d u []. 
Qed.
End A.
