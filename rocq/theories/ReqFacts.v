(** Proofs of the theorems stated in ReqProps. *)
From Verif Require Import Base Diag LexModel AstModel PSupModel SemaModel ParseModel ParseSpec ParseFacts NavModel NavSpec NavProofs NavFacts VlaModel VlaSpec VlaPost VlaBase VlaThms TextModel ActModel ConnModel FeatModel FeatSpec FeatProofs EvalModel RefModel RefSpec RefFacts IdSpec IdProofs IdFacts ReqModel ReqSpec ReqProofs ReqLinks ReqMore.

Lemma up_nearest src ds n e : parse src = Ok (Some (doc src), ds) -> parents (doc src) = Ok (ups src) -> node_of (doc src) n ->
  upExpr (ups src) n = Ok (Some e) -> nearest_expr (doc src) n e.
Proof.
  intros HP HM N U. destruct (up_ok _ _ isExpr n (parse_identified _ _ _ HP) HM N) as (l & C & E). exists l. split; [exact C|].
  unfold upExpr in U. rewrite E in U. now injection U.
Qed.
(** the visits of nodes of a kind *)
Definition seen (src : bytes) (k : nodekind) : list (scope * node) :=
  filter (fun p => nodekind_beq (kind_of (snd p)) k) (visits (S (vsize (doc src))) (prelude table) (doc src)).
Lemma seen_some src k p ps : seen src k = p :: ps -> visit (prelude table) (doc src) (fst p) (snd p) /\ kind_of (snd p) = k.
Proof.
  intros E. assert (I : In p (seen src k)) by (rewrite E; now left). unfold seen in I. apply filter_In in I as [I T]. split.
  - destruct p as [sc v]. simpl. clear - I. set (j := S (vsize (doc src))) in I. clearbody j. revert I. generalize (prelude table) (doc src).
    induction j as [|j IH]; simpl; intros s n H; [contradiction|].
    destruct H as [H|H]; [injection H as <- <-; constructor|].
    apply in_flat_map in H as ([s1 n1] & I & J). simpl in J. econstructor; eauto.
  - now apply internal_nodekind_dec_bl.
Qed.
Definition spot (src x : bytes) : scope * node := List.hd ([], doc src) (spots src x).
Lemma spot_at src x : (match spots src x with [] => false | _ => true end) = true -> occurs_at table (doc src) (fst (spot src x)) (snd (spot src x)) x.
Proof. unfold spot. destruct (spots src x) as [|p ps] eqn:E; [discriminate|]. intros _. simpl. eapply spots_some; eauto. Qed.
Definition sight (src : bytes) (k : nodekind) : scope * node := List.hd ([], doc src) (seen src k).
Lemma sight_at src k : (match seen src k with [] => false | _ => true end) = true ->
  visit (prelude table) (doc src) (fst (sight src k)) (snd (sight src k)) /\ kind_of (snd (sight src k)) = k.
Proof. unfold sight. destruct (seen src k) as [|p ps] eqn:E; [discriminate|]. intros _. simpl. eapply seen_some; eauto. Qed.

Lemma C77_partial_proof : forall src root ds primops s m n hs,
  parse src = Ok (Some root, ds) -> vla primops root = Ok s -> parents root = Ok m -> node_of root n ->
  highlight root s m n = value hs ->
  exists vs decl, hs = map (fun v => (nrange v, HRead)) vs ++ map (fun q => (nrange q, HWrite)) decl /\
  ((exists sc o x nd, declaration primops root sc o x nd /\ decl = [nd] /\
      ((exists v v', on_variable root n v /\ refers sc o x v' /\ nid v' = nid v) \/ on_name root n nd) /\
      forall v, In v vs <-> refers sc o x v) \/
   (exists sc i r kw semi we e, let w := NWith i r kw semi we e in visit (prelude primops) root sc w /\ decl = [kw] /\
      ((exists v v' sc' x ws, on_variable root n v /\ occurs_at primops root sc' v' x /\ nid v' = nid v /\ unbound sc' x /\
          withs sc' = ws ++ [w]) \/ on_name root n kw) /\
      forall v, In v vs <-> may_use sc w v) \/
   (exists x v v' sc', on_variable root n v /\ occurs_at primops root sc' v' x /\ nid v' = nid v /\
      bound sc' x (prelude primops) /\ decl = [] /\
      forall v, In v vs <-> exists sc, occurs_at primops root sc v x /\ bound sc x (prelude primops))).
Proof.
  intros src root ds primops s m n hs HP HV HM N H.
  exact (highlight_ok _ _ _ _ _ _ HV (parse_coherent _ _ _ primops HP) (parse_identified _ _ _ HP) HM N H).
Qed.

Lemma C77_refuted_proof : exists src root ds s m n why, parse src = Ok (Some root, ds) /\ vla table root = Ok s /\
  parents root = Ok m /\ node_of root n /\ highlight root s m n = Crash why.
Proof.
  set (src := b "{ a = 1; inherit a; }"). destruct (sound_ok src) as [A B]; [vm_compute; reflexivity|].
  assert (P : exists ds, parse src = Ok (Some (doc src), ds)) by (eexists; vm_compute; reflexivity). destruct P as [ds P].
  exists src, (doc src), ds, (analysed src), (ups src), (node_no src 10). eexists. split; [exact P|]. split; [exact A|]. split; [exact B|].
  split; [apply node_no_in; apply Nat.ltb_lt; vm_compute; reflexivity|]. vm_compute. reflexivity.
Qed.

Lemma C78_partial_proof : forall src root ds primops s r a,
  parse src = Ok (Some root, ds) -> vla primops root = Ok s ->
  (In a (quickFixes src r (ds ++ v_diags s)) <->
   exists d f preferred, (In d ds \/ In d (v_diags s)) /\ In f (d_fixes d) /\ meets r (toLSPRange src (d_range d)) /\
     (preferred = true <-> d_kind d = DK_UnusedDefLet) /\ fix_clean src f /\
     a = QuickFix (f_msg f) preferred (map (fun e => (toLSPRange src (e_range e), e_text e)) (f_edits f))).
Proof.
  intros src root ds primops s r a HP HV. rewrite fixes_in.
  assert (G : forall d f, In d (ds ++ v_diags s) -> In f (d_fixes d) -> fix_clean src f).
  { pose proof (C22_parsing_proof _ _ _ HP) as F1. pose proof (C22_analysis_proof _ _ _ _ _ HP HV) as F2. rewrite Forall_forall in F1, F2.
    intros d f I J. assert (D : diag_clean src d) by (apply in_app_iff in I as [I|I]; auto). destruct D as (_ & _ & D).
    rewrite Forall_forall in D. auto. }
  assert (B : forall k, dkind_beq k DK_UnusedDefLet = true <-> k = DK_UnusedDefLet).
  { intros k. split; [apply internal_dkind_dec_bl|apply internal_dkind_dec_lb]. }
  split.
  - intros (d & f & I & J & M & ->). exists d, f, (dkind_beq (d_kind d) DK_UnusedDefLet). split; [now apply in_app_iff in I|]. split; auto. split; auto.
    split; [apply B|]. split; [eauto|reflexivity].
  - intros (d & f & pr & I & J & M & Pr & _ & ->). exists d, f. split; [now apply in_app_iff|]. split; auto. split; auto.
    unfold fixAction. f_equal. destruct pr, (dkind_beq (d_kind d) DK_UnusedDefLet) eqn:E; auto.
    + pose proof (proj1 Pr eq_refl) as Z. apply B in Z. congruence.
    + apply B, Pr in E. discriminate.
Qed.

Lemma C78_suppressed_refuted_proof : exists src root d f names r, parse src = Ok (Some root, [d]) /\
  d_fixes d = [f] /\ isSuppressed (updateSuppressed names) (d_kind d) = true /\
  exists a, In a (quickFixes src r [d]) /\ qf_title a = f_msg f.
Proof.
  set (src := b "{ a = 1 }").
  assert (X : exists d f, parse src = Ok (Some (doc src), [d]) /\ d_fixes d = [f] /\ isSuppressed (updateSuppressed [b "parse-expected"]) (d_kind d) = true).
  { do 2 eexists. split; [vm_compute; reflexivity|]. split; [reflexivity|]. vm_compute. reflexivity. }
  destruct X as (d & f & P & F & Su). exists src, (doc src), d, f, [b "parse-expected"], (toLSPRange src (d_range d)).
  split; [exact P|]. split; [exact F|]. split; [exact Su|]. exists (fixAction src (d_kind d) f). split; [|reflexivity].
  apply fixes_in. exists d, f. split; [now left|]. split; [rewrite F; now left|]. split; [|reflexivity].
  pose proof (C22_parsing_proof _ _ _ P) as D. inversion D as [|? ? [R _] _]; subst.
  apply overlap_meets. clear - P. 
  assert (E : forall d', parse src = Ok (Some (doc src), [d']) -> overlap (toLSPRange src (d_range d')) (toLSPRange src (d_range d')) = true).
  { assert (Z : match parse src with Ok (_, [d']) => overlap (toLSPRange src (d_range d')) (toLSPRange src (d_range d')) | _ => false end = true) by (vm_compute; reflexivity).
    intros d' E. rewrite E in Z. exact Z. }
  now apply E.
Qed.

Lemma C79_variable_proof : forall src root ds primops s m sc v x,
  parse src = Ok (Some root, ds) -> vla primops root = Ok s -> parents root = Ok m -> occurs_at primops root sc v x ->
  exists r, mkVarSelector s m 3 v = Ok r /\ forall p, r = inr p <-> meant primops root sc v p.
Proof.
  intros src root ds primops s m sc v x HP HV HM O. exact (right_var _ _ _ _ _ _ HP HV HM 1 _ _ _ O).
Qed.

Lemma C79_selection_proof : forall src root ds primops s m sc e,
  parse src = Ok (Some root, ds) -> vla primops root = Ok s -> parents root = Ok m ->
  visit (prelude primops) root sc e -> kind_of e = NK_ExprSelect ->
  exists r, mkSelector s m 3 e = Ok r /\ forall p, r = inr p <-> meant primops root sc e p.
Proof.
  intros src root ds primops s m sc e HP HV HM V K. exact (right_sel _ _ _ _ _ _ HP HV HM 1 _ _ V K).
Qed.

Lemma C79_shadow_refuted_proof : exists src root s m sc v, parse src = Ok (Some root, []) /\ vla table root = Ok s /\ parents root = Ok m /\
  occurs_at table root sc v (b "pkgs") /\ ~ unbound sc (b "pkgs") /\ mkVarSelector s m 3 v = Ok (inr []).
Proof.
  set (src := b "let pkgs = 1; in pkgs"). destruct (sound_ok src) as [A B]; [vm_compute; reflexivity|].
  exists src, (doc src), (analysed src), (ups src), (fst (spot src (b "pkgs"))), (snd (spot src (b "pkgs"))).
  assert (O : occurs_at table (doc src) (fst (spot src (b "pkgs"))) (snd (spot src (b "pkgs"))) (b "pkgs")) by (apply spot_at; vm_compute; reflexivity).
  split; [apply clean_doc; vm_compute; reflexivity|]. split; [exact A|]. split; [exact B|]. split; [exact O|].
  split; [|vm_compute; reflexivity]. eapply bound_all; [|exact O]. vm_compute. reflexivity.
Qed.

Lemma C79_with_refuted_proof : exists src root s m sc v i r kw semi we e, parse src = Ok (Some root, []) /\ vla table root = Ok s /\ parents root = Ok m /\
  occurs_at table root sc v (b "x") /\ unbound sc (b "x") /\ innermost sc = Some (NWith i r kw semi (Some we) e) /\ is_var we (b "lib") /\
  mkVarSelector s m 3 v = Ok (inr [b "x"]).
Proof.
  set (src := b "with pkgs; with lib; x"). destruct (sound_ok src) as [A B]; [vm_compute; reflexivity|].
  assert (O : occurs_at table (doc src) (fst (spot src (b "x"))) (snd (spot src (b "x"))) (b "x")) by (apply spot_at; vm_compute; reflexivity).
  exists src, (doc src), (analysed src), (ups src), (fst (spot src (b "x"))), (snd (spot src (b "x"))). do 6 eexists.
  split; [apply clean_doc; vm_compute; reflexivity|]. split; [exact A|]. split; [exact B|]. split; [exact O|].
  split; [eapply unbound_all; [|exact O]; vm_compute; reflexivity|]. split; [vm_compute; reflexivity|]. split; [split; reflexivity|]. vm_compute. reflexivity.
Qed.

Lemma C80_partial_proof : forall src root ds primops s m ask limit,
  parse src = Ok (Some root, ds) -> vla primops root = Ok s -> parents root = Ok m ->
  exists l, onInlayHint s m (Some ask) limit root = Ok l /\
  (forall h, In h l -> exists v ver, node_of root v /\ kind_of v = NK_ExprVar /\
     (forall r, limit = Some r -> contains (toNixfRange r) (prange_of (nrange v))) /\ ask (varName v) = Some ver /\
     h = Hint (rcur (nrange v)) (b ": " ++ ver) (nrange v) /\
     forall sc, visit (prelude primops) root sc v -> under_pkgs sc) /\
  (forall sc v x ver, node_of root v -> occurs_at primops root sc v x -> under_pkgs sc ->
     (forall r, limit = Some r -> contains (toNixfRange r) (prange_of (nrange v))) -> ask x = Some ver ->
     In (Hint (rcur (nrange v)) (b ": " ++ ver) (nrange v)) l).
Proof.
  intros src root ds primops s m ask limit HP HV HM.
  destruct (hints_ok _ _ _ primops _ _ HP HV HM ask (option_map toNixfRange limit) (nsize root) root) as (l & E & H); [constructor|lia|].
  assert (W : forall v, within_limit (option_map toNixfRange limit) v <-> forall r, limit = Some r -> contains (toNixfRange r) (prange_of (nrange v))).
  { intros v. unfold within_limit. destruct limit as [r|]; simpl; split; intros G r0 E0; try discriminate; injection E0 as <-; auto. }
  exists l. split; [exact E|]. split.
  - intros h I. apply H in I as (v & ver & N & K & Hv & L & A & ->). exists v, ver. split; auto. split; auto. split; [now apply W|]. split; auto. split; auto.
    intros sc V. destruct (have_ok _ _ _ primops _ m HP HV sc v V) as (r & E' & R). rewrite Hv in E'. injection E' as <-. now apply R.
  - intros sc v x ver N [V [K X]] U L A. apply H. exists v, ver. split; auto. split; auto.
    destruct (have_ok _ _ _ primops _ m HP HV sc v V) as (r & E' & R). split; [rewrite E'; f_equal; now apply R|]. split; [now apply W|]. split; [now rewrite X|reflexivity].
Qed.

Lemma C80_refuted_proof : exists src root s m sc v ask h, parse src = Ok (Some root, []) /\ vla table root = Ok s /\ parents root = Ok m /\
  occurs_at table root sc v (b "x") /\ ~ unbound sc (b "x") /\ onInlayHint s m (Some ask) None root = Ok [h] /\ h_range h = nrange v.
Proof.
  set (src := b "x: with pkgs; x"). destruct (sound_ok src) as [A B]; [vm_compute; reflexivity|].
  assert (O : occurs_at table (doc src) (fst (spot src (b "x"))) (snd (spot src (b "x"))) (b "x")) by (apply spot_at; vm_compute; reflexivity).
  exists src, (doc src), (analysed src), (ups src), (fst (spot src (b "x"))), (snd (spot src (b "x"))), (fun x => if bytes_eqb x (b "x") then Some (b "1.0") else None). eexists.
  split; [apply clean_doc; vm_compute; reflexivity|]. split; [exact A|]. split; [exact B|]. split; [exact O|].
  split; [eapply bound_all; [|exact O]; vm_compute; reflexivity|]. split; vm_compute; reflexivity.
Qed.

Lemma C80_client_refuted_proof : exists src root s m, parse src = Ok (Some root, []) /\ vla table root = Ok s /\ parents root = Ok m /\
  onInlayHint s m None None root = Crash "null pointer".
Proof.
  set (src := b "with pkgs; hello"). destruct (sound_ok src) as [A B]; [vm_compute; reflexivity|].
  exists src, (doc src), (analysed src), (ups src). split; [apply clean_doc; vm_compute; reflexivity|]. split; [exact A|]. split; [exact B|]. vm_compute. reflexivity.
Qed.

Lemma C81_partial_proof : forall fs file root, exists l, onDocumentLink fs file root = Ok l /\
  forall r t, In (r, t) l <-> exists p x, open_node root p /\ literal_path p r x /\ leads_to fs file x t.
Proof.
  intros fs file root. destruct (links_ok fs file (nsize root) root) as (l & E & H); [lia|]. exists l. split; [exact E|]. intros r t. rewrite H. split.
  - intros (p & x & O & L & R). exists p, x. split; auto. split; auto. now apply resolve_ok.
  - intros (p & x & O & L & R). exists p, x. split; auto. split; auto. now apply resolve_ok.
Qed.

(** files /d/f.nix, /d/a, /d/~/x and the directory /d/e with /d/e/default.nix *)
Definition disk : fsys := FSys (fun d => if bytes_eqb d (b "/d") then Some d else None) (fun p => Some p)
  (fun p => if existsb (bytes_eqb p) [b "/d/./a"; b "/d/~/x"; b "/d/./e/default.nix"] then Some false else if bytes_eqb p (b "/d/./e") then Some true else None).

Lemma C81_refuted_proof : exists fs file src root p r x t, parse src = Ok (Some root, []) /\ node_of root p /\ literal_path p r x /\ leads_to fs file x t /\
  onDocumentLink fs file root = Ok [].
Proof.
  set (src := b "./${./a}"). exists disk, (b "/d/f.nix"), src, (doc src), (node_no src 3). do 2 eexists. exists (b "/d/./a").
  split; [apply clean_doc; vm_compute; reflexivity|]. split; [apply node_no_in; apply Nat.ltb_lt; vm_compute; reflexivity|].
  split; [do 2 eexists; split; [vm_compute; reflexivity|vm_compute; reflexivity]|]. split; [apply resolve_ok; vm_compute; reflexivity|]. vm_compute. reflexivity.
Qed.

Lemma C81_home_refuted_proof : exists fs file src root r, parse src = Ok (Some root, []) /\ src = b "~/x" /\ file = b "/d/f.nix" /\
  onDocumentLink fs file root = Ok [(r, b "/d/~/x")].
Proof.
  set (src := b "~/x"). exists disk, (b "/d/f.nix"), src, (doc src). eexists. split; [apply clean_doc; vm_compute; reflexivity|].
  split; [reflexivity|]. split; [reflexivity|]. vm_compute. reflexivity.
Qed.

Lemma C82_offered_proof : forall src root ds m n,
  parse src = Ok (Some root, ds) -> parents root = Ok m -> node_of root n -> kind_of n <> NK_Misc ->
  exists o, noogleDoc m n = Ok o /\
  forall t u, o = Some (t, u) <-> exists i q v d p df or_ xs, nearest root n NK_ExprSelect (NSelect i q v d (Some p) df or_) /\
    is_var v (b "lib") /\ reads_names (path_names p) (xs ++ [t]) /\ u = noogle_page (xs ++ [t]).
Proof.
  intros src root ds m n HP HM N K. exact (noogle_ok _ _ _ _ HP HM n N K).
Qed.

Lemma C82_address_partial_proof : forall xs ys, Forall no_slash xs -> Forall no_slash ys -> noogle_page xs = noogle_page ys -> xs = ys.
Proof.
  intros xs ys X Y E. unfold noogle_page in E. apply app_inv_head in E. rewrite !flat_map_concat_map in E. now apply cut_names.
Qed.

Lemma C82_refuted_proof : exists src1 src2 m1 m2 n1 n2 t1 t2 u, parse src1 = Ok (Some (doc src1), []) /\ parse src2 = Ok (Some (doc src2), []) /\
  parents (doc src1) = Ok m1 /\ parents (doc src2) = Ok m2 /\ node_of (doc src1) n1 /\ node_of (doc src2) n2 /\
  noogleDoc m1 n1 = Ok (Some (t1, u)) /\ noogleDoc m2 n2 = Ok (Some (t2, u)) /\ t1 <> t2.
Proof.
  set (src1 := b "lib.""a/b"""). set (src2 := b "lib.a.b"). exists src1, src2, (ups src1), (ups src2), (node_no src1 4), (node_no src2 4), (b "a/b"), (b "b"). eexists.
  split; [apply clean_doc; vm_compute; reflexivity|]. split; [apply clean_doc; vm_compute; reflexivity|].
  split; [apply sound_ok; vm_compute; reflexivity|]. split; [apply sound_ok; vm_compute; reflexivity|].
  split; [apply node_no_in; apply Nat.ltb_lt; vm_compute; reflexivity|]. split; [apply node_no_in; apply Nat.ltb_lt; vm_compute; reflexivity|].
  split; [vm_compute; reflexivity|]. split; [vm_compute; reflexivity|]. intros Z. apply (f_equal (@List.length _)) in Z. discriminate Z.
Qed.

Lemma C83_partial_proof : forall command options nixpkgs suppress rest st, NoDup (map fst (given options [])) ->
  exists st', configReply (Some (JArray (settings command options nixpkgs suppress :: rest))) st = Ok st' /\
  cf_command (c_config st') = given command [b "nixfmt"] /\
  (forall k, isSuppressed (c_suppressed st') k = true <-> In (sname_of k) (given suppress [])) /\
  (forall x, aget x (c_workers st') = match aget x (given options []) with Some e => Some e | None => aget x (c_workers st) end) /\
  (forall e, nixpkgs = Some e -> e <> [] -> c_nixpkgs st' = e).
Proof.
  intros a o n d rest st N. destruct (settings_read a o n d N) as (o' & E & G & N'). cbn [configReply]. rewrite E.
  eexists. split; [reflexivity|]. split; [reflexivity|]. unfold updateConfig. cbn [c_suppressed c_workers c_nixpkgs cf_suppress cf_options cf_nixpkgs].
  split; [|split].
  - intros k. rewrite suppressed_names, existsb_exists. split.
    + intros (y & I & Q). apply bytes_eqb_eq in Q. now rewrite Q.
    + intros I. exists (sname_of k). split; auto. now apply bytes_eqb_eq.
  - intros x. rewrite workers_ok by exact N'. now rewrite G.
  - intros e -> Ne. cbn [given]. destruct e; [congruence|reflexivity].
Qed.

Lemma C83_bad_reply_proof : forall reply st,
  match reply with
  | Some (JArray (JObject o :: _)) => exists k j, In k [b "options"; b "nixpkgs"; b "diagnostic"] /\ ConnModel.get k o = Some j /\ forall f, j <> JObject f
  | Some (JArray (_ :: _)) => True
  | Some (JArray []) => False
  | _ => True
  end -> configReply reply st = Ok st.
Proof.
  intros reply st H. destruct reply as [[]|]; try reflexivity. destruct l as [|j l]; [contradiction|]. cbn [configReply].
  destruct j as [| | | | | |o]; try reflexivity. destruct H as (k & j & I & G & Nj).
  assert (Z : configFromJSON (JObject o) = None); [|now rewrite Z]. unfold configFromJSON. cbn [getAsObject].
  assert (Na : getAsObject j = None) by (destruct j; auto; elim (Nj _ eq_refl)).
  destruct (omapOptional "formatting" _ _ o); [|reflexivity].
  destruct I as [<-|[<-|[<-|[]]]].
  - assert (E : omapOptional "options" optionsFrom [] o = None) by (unfold omapOptional; rewrite G; unfold optionsFrom; now rewrite Na). now rewrite E.
  - destruct (omapOptional "options" _ _ o); [|reflexivity].
    assert (E : omapOptional "nixpkgs" (fieldFrom "expr" fromString []) [] o = None) by (unfold omapOptional; rewrite G; unfold fieldFrom; now rewrite Na). now rewrite E.
  - destruct (omapOptional "options" _ _ o); [|reflexivity]. destruct (omapOptional "nixpkgs" _ _ o); [|reflexivity].
    assert (E : omapOptional "diagnostic" (fieldFrom "suppress" (fromVector fromString) []) [] o = None) by (unfold omapOptional; rewrite G; unfold fieldFrom; now rewrite Na). now rewrite E.
Qed.

Lemma C83_empty_refuted_proof : exists st why, configReply (Some (JArray [])) st = Crash why.
Proof.
  exists (CState defaultConfig [] [] []). eexists. reflexivity.
Qed.

Lemma C83_removed_refuted_proof : exists st1 st2 st3 x e,
  configReply (Some (JArray [settings None (Some [(x, e)]) (Some e) None])) st1 = Ok st2 /\
  configReply (Some (JArray [settings None (Some []) (Some []) None])) st2 = Ok st3 /\
  cf_options (c_config st3) = [] /\ cf_nixpkgs (c_config st3) = [] /\
  aget x (c_workers st3) = Some e /\ c_nixpkgs st3 = e.
Proof.
  exists (CState defaultConfig [] [] []). do 2 eexists. exists (b "nixos"), (b "(e)"). split; [reflexivity|]. split; [reflexivity|].
  repeat split; reflexivity.
Qed.

Lemma C84_shown_proof : forall src root ds primops s m ask workers sc n e,
  parse src = Ok (Some root, ds) -> vla primops root = Ok s -> parents root = Ok m ->
  nearest_expr root n e -> kind_of n <> NK_Misc -> visit (prelude primops) root sc e ->
  (kind_of e = NK_ExprVar \/ kind_of e = NK_ExprSelect) ->
  exists r, onHover s m (Some ask) workers n = Ok r /\
  forall text q, r = Some (text, q) <-> q = e /\ exists p i, meant primops root sc e p /\ ask p = Some i /\ text = infoMarkdown i /\ text <> [].
Proof.
  intros src root ds primops s m ask workers sc n e HP HV HM Ne K V Ke. exact (hover_ok _ _ _ _ _ _ HP HV HM ask workers sc n e Ne K V Ke).
Qed.

Lemma C84_text_partial_proof : forall i, let text := infoMarkdown i in let p := ai_PackageDesc i in
  (forall x, pk_Name p = Some x -> shows text (b "`" ++ x ++ b "`")) /\
  (forall x, pk_Homepage p = Some x -> shows text (b "[homepage](" ++ x ++ b ")")) /\
  (forall x, pk_Description p = Some x -> shows text x) /\
  (forall x y, pk_Description p = Some x -> pk_LongDescription p = Some y -> shows text y) /\
  (forall v, ai_ValueDesc i = Some v -> shows text (vd_Doc v) /\
     (vd_Arity v <> 0%Z -> shows text (b "**Arity:** " ++ intText (vd_Arity v))) /\
     forall x, In x (vd_Args v) -> shows text (b "`" ++ x ++ b "`")).
Proof.
  intros i text p. destruct (package_shown (ai_PackageDesc i)) as (A & B & C & D). subst text p.
  assert (L : forall z, shows (packageMarkdown (ai_PackageDesc i)) z -> shows (infoMarkdown i) z) by (intros z Z; unfold infoMarkdown; now apply shows_r).
  split; [auto|]. split; [auto|]. split; [auto|]. split; [eauto|]. intros v E. now apply value_shown.
Qed.

Lemma C84_long_refuted_proof : exists i y, pk_LongDescription (ai_PackageDesc i) = Some y /\ y <> [] /\ infoMarkdown i = [].
Proof.
  exists (AttrPathInfo (ValueMeta 0 None) (PackageDescription None None None None (Some (b "long")) None None) None), (b "long").
  split; [reflexivity|]. split; [discriminate|reflexivity].
Qed.

Lemma C84_option_refuted_proof : exists src root s m n w t, parse src = Ok (Some root, []) /\ vla table root = Ok s /\ parents root = Ok m /\ node_of root n /\
  onHover s m (Some (fun _ => None)) [w] n = Ok (Some t) /\ onHover s m None [w] n = Ok None.
Proof.
  set (src := b "{ a = 1; }"). destruct (sound_ok src) as [A B]; [vm_compute; reflexivity|].
  exists src, (doc src), (analysed src), (ups src), (node_no src 5), (fun _ => Some (OptionDescription (Some (b "d")) [] [] None None None)). eexists.
  split; [apply clean_doc; vm_compute; reflexivity|]. split; [exact A|]. split; [exact B|].
  split; [apply node_no_in; apply Nat.ltb_lt; vm_compute; reflexivity|]. split; vm_compute; reflexivity.
Qed.

Definition hello : attrPathInfo :=
  AttrPathInfo (ValueMeta 0 None) (PackageDescription (Some (b "hello-2")) None None (Some (b "A greeting")) None (Some (b "/n/hello.nix:12")) None) None.
Definition asks (p : list bytes) : option attrPathInfo := match p with [x] => if bytes_eqb x (b "hello") then Some hello else None | _ => None end.

Lemma C85_variable_proof : forall src root ds primops s m ask workers fs file sc n e x,
  parse src = Ok (Some root, ds) -> vla primops root = Ok s -> parents root = Ok m ->
  nearest_expr root n e -> kind_of n <> NK_Misc -> not_inherited root n -> occurs_at primops root sc e x ->
  exists l, onDefinition s m (Some ask) workers fs file n = Ok (Some l) /\
  ((exists who names t nd role rest, bound sc x (Binds who names :: t) /\ In (x, (nd, role)) names /\
      l = InDocument (nrange nd) :: rest /\ elsewhere root primops ask sc e rest) \/
   (exists ws i r kw semi we body rest, unbound sc x /\ withs sc = ws ++ [NWith i r kw semi we body] /\
      l = InDocument (nrange kw) :: rest /\ elsewhere root primops ask sc e rest) \/
   (exists xs t, bound sc x (Prelude xs :: t) /\ l = []) \/
   (unbound sc x /\ withs sc = [] /\ l = [])).
Proof.
  intros src root ds primops s m ask workers fs file sc n e x HP HV HM Ne K Ni O. destruct (expr_here _ _ _ _ _ _ HP HM K Ne) as [N U].
  destruct (defineVar_ok _ _ _ _ _ _ HP HV HM ask _ _ _ O) as (l & E & L). exists l. split; [|exact L].
  unfold onDefinition. rewrite U. cbn [bind]. rewrite (no_inherit _ _ _ _ _ HP HM N Ni). unfold value. cbn [bind].
  destruct O as (_ & Ke & _). assert (X : exists i r d, e = NVar i r d) by (destruct e; try discriminate Ke; eauto). destruct X as (i & r & d & ->).
  rewrite E. reflexivity.
Qed.

Lemma C85_selection_partial_proof : forall src root ds primops s m ask workers fs file sc n e,
  parse src = Ok (Some root, ds) -> vla primops root = Ok s -> parents root = Ok m ->
  nearest_expr root n e -> kind_of n <> NK_Misc -> not_inherited root n -> visit (prelude primops) root sc e -> kind_of e = NK_ExprSelect ->
  (forall p, meant primops root sc e p -> ~ bad_position ask p) ->
  exists l, onDefinition s m (Some ask) workers fs file n = Ok (Some l) /\
  ((exists p, meant primops root sc e p /\ nixpkgs_places ask p l) \/ ((forall p, ~ meant primops root sc e p) /\ l = [])).
Proof.
  intros src root ds primops s m ask workers fs file sc n e HP HV HM Ne K Ni V Ke Bp. destruct (expr_here _ _ _ _ _ _ HP HM K Ne) as [N U].
  destruct (defineSelect_ok _ _ _ _ _ _ HP HV HM ask _ _ V Ke Bp) as (l & E & L). exists l. split; [|exact L].
  unfold onDefinition. rewrite U. cbn [bind]. rewrite (no_inherit _ _ _ _ _ HP HM N Ni). unfold value. cbn [bind].
  assert (X : exists i r v d q df o, e = NSelect i r v d q df o) by (destruct e; try discriminate Ke; eauto 10). destruct X as (i & r & v & d & q & df & o & ->).
  rewrite E. reflexivity.
Qed.

Lemma C85_path_proof : forall src root ds s m nixpkgs workers fs file n e r x,
  parse src = Ok (Some root, ds) -> parents root = Ok m ->
  nearest_expr root n e -> kind_of n <> NK_Misc -> not_inherited root n -> literal_path e r x ->
  exists l, onDefinition s m nixpkgs workers fs file n = Ok (Some l) /\
  forall q, In q l <-> exists t, leads_to fs file x t /\ q = InFile t 0.
Proof.
  intros src root ds s m nixpkgs workers fs file n e r x HP HM Ne K Ni (i & parts & -> & Lp). destruct (expr_here _ _ _ _ _ _ HP HM K Ne) as [N U].
  unfold onDefinition. rewrite U. cbn [bind]. rewrite (no_inherit _ _ _ _ _ HP HM N Ni). unfold value. cbn [bind]. rewrite Lp.
  eexists. split; [reflexivity|]. intros q. destruct (resolveExprPath fs file x) as [t|] eqn:R.
  - split; [intros [<-|[]]; exists t; split; [now apply resolve_ok|reflexivity]|]. intros (t' & L & ->). apply resolve_ok in L. left. congruence.
  - split; [intros []|]. intros (t' & L & ->). apply resolve_ok in L. congruence.
Qed.

Lemma C85_duplicate_refuted_proof : exists src root ds s m n, parse src = Ok (Some root, ds) /\ vla table root = Ok s /\ parents root = Ok m /\ node_of root n /\
  onDefinition s m (Some (fun _ => None)) [] disk [] n = Crash "std::terminate".
Proof.
  set (src := b "{ a = 1; a = lib.x; }"). destruct (sound_ok src) as [A B]; [vm_compute; reflexivity|].
  assert (P : exists ds, parse src = Ok (Some (doc src), ds)) by (eexists; vm_compute; reflexivity). destruct P as [ds P].
  exists src, (doc src), ds, (analysed src), (ups src), (node_no src 18). split; [exact P|]. split; [exact A|]. split; [exact B|].
  split; [apply node_no_in; apply Nat.ltb_lt; vm_compute; reflexivity|]. vm_compute. reflexivity.
Qed.

Lemma C85_position_refuted_proof : exists src root s m ask n, parse src = Ok (Some root, []) /\ vla table root = Ok s /\ parents root = Ok m /\ node_of root n /\
  onDefinition s m (Some ask) [] disk [] n = Crash "std::terminate".
Proof.
  set (src := b "pkgs.hello"). destruct (sound_ok src) as [A B]; [vm_compute; reflexivity|].
  exists src, (doc src), (analysed src), (ups src),
    (fun _ => Some (AttrPathInfo (ValueMeta 0 None) (PackageDescription None None None None None (Some (b "C:/x")) None) None)), (node_no src 5).
  split; [apply clean_doc; vm_compute; reflexivity|]. split; [exact A|]. split; [exact B|].
  split; [apply node_no_in; apply Nat.ltb_lt; vm_compute; reflexivity|]. vm_compute. reflexivity.
Qed.

Lemma C85_client_refuted_proof : exists src root s m n, parse src = Ok (Some root, []) /\ vla table root = Ok s /\ parents root = Ok m /\ node_of root n /\
  onDefinition s m None [] disk [] n = Crash "null pointer".
Proof.
  set (src := b "pkgs.hello"). destruct (sound_ok src) as [A B]; [vm_compute; reflexivity|].
  exists src, (doc src), (analysed src), (ups src), (node_no src 5).
  split; [apply clean_doc; vm_compute; reflexivity|]. split; [exact A|]. split; [exact B|].
  split; [apply node_no_in; apply Nat.ltb_lt; vm_compute; reflexivity|]. vm_compute. reflexivity.
Qed.

Lemma C85_line_refuted_proof : exists src root s m n, parse src = Ok (Some root, []) /\ vla table root = Ok s /\ parents root = Ok m /\ node_of root n /\
  pk_Position (ai_PackageDesc hello) = Some (b "/n/hello.nix:12") /\
  onDefinition s m (Some asks) [] disk [] n = Ok (Some [InFile (b "/n/hello.nix") 12]).
Proof.
  set (src := b "pkgs.hello"). destruct (sound_ok src) as [A B]; [vm_compute; reflexivity|].
  exists src, (doc src), (analysed src), (ups src), (node_no src 5).
  split; [apply clean_doc; vm_compute; reflexivity|]. split; [exact A|]. split; [exact B|].
  split; [apply node_no_in; apply Nat.ltb_lt; vm_compute; reflexivity|]. split; [reflexivity|]. vm_compute. reflexivity.
Qed.
