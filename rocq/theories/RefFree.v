(** Lemmas for extracting an expression and for adding a formal. *)
From Verif Require Import Base Diag LexModel AstModel SemaModel SemaSpec ParseSpec NavModel NavSpec NavProofs VlaModel VlaSpec VlaPost VlaBase
  VlaProofs VlaDfs VlaMain VlaThms ActModel RefModel RefSpec RefProofs RefWith SemaProofs.

(** ** what is collected *)
Definition captured (s : vst) (top v : node) : Prop :=
  kind_of v = NK_ExprVar /\
  ((exists d y q, query s v = Some (Defined d) /\ nth_error (v_defs s) d = Some y /\ df_src y <> DS_Builtin /\
      df_syn y = Some q /\ isInsideNode q top = false) \/
   exists d, query s v = Some (FromWith d)).
Definition from_with (s : vst) (v : node) : Prop := kind_of v = NK_ExprVar /\ exists d, query s v = Some (FromWith d).

Lemma freeVar_ok s top n acc acc' : freeVar s top n acc = Ok acc' ->
  (forall x, In x (fst acc') <-> In x (fst acc) \/ (captured s top n /\ varName n = x)) /\
  (increasing (fst acc) -> increasing (fst acc')) /\
  (snd acc' = true <-> snd acc = true \/ from_with s n).
Proof.
  unfold freeVar, captured, from_with. destruct acc as [names flag]. intros H.
  destruct (nodekind_beq (kind_of n) NK_ExprVar) eqn:K.
  2:{ injection H as <-. assert (kind_of n <> NK_ExprVar) by (intros Z; rewrite Z in K; discriminate). simpl. intuition. }
  apply internal_nodekind_dec_bl in K.
  destruct (query s n) as [[|d|d]|] eqn:Q.
  - injection H as <-. simpl. split; [|split; [auto|]]; [intros x|]; split; auto;
      (intros [I|I]; [exact I|exfalso]); [destruct I as ((_ & [(d & y & q & Z & _)|(d & Z)]) & _); discriminate|destruct I as (_ & d & Z); discriminate].
  - injection H as <-. simpl. split; [|split; [apply setAdd_sorted|]].
    + intros x. rewrite setAdd_in. split; [intros [->|I]; [right; split; eauto|auto]|intros [I|[_ <-]]; auto].
    + split; auto. intros _. right. eauto.
  - destruct (nth_error (v_defs s) d) as [y|] eqn:Y; [|discriminate].
    destruct (dsource_beq (df_src y) DS_Builtin) eqn:B.
    + apply internal_dsource_dec_bl in B. injection H as <-. simpl. split; [|split; [auto|]].
      * intros x. split; auto. intros [I|((_ & [(d' & y' & q & Z & Y' & Nb & _)|(d' & Z)]) & _)]; [exact I| |discriminate].
        injection Z as <-. congruence.
      * split; auto. intros [I|(_ & d' & Z)]; [exact I|discriminate].
    + apply dsource_neq in B. destruct (df_syn y) as [q|] eqn:Sy.
      * destruct (isInsideNode q top) eqn:Is; injection H as <-; simpl.
        -- split; [|split; [auto|]].
           ++ intros x. split; auto. intros [I|((_ & [(d' & y' & q' & Z & Y' & Nb & Sy' & F)|(d' & Z)]) & _)]; [exact I| |discriminate].
              injection Z as <-. congruence.
           ++ split; auto. intros [I|(_ & d' & Z)]; [exact I|discriminate].
        -- split; [|split; [apply setAdd_sorted|]].
           ++ intros x. rewrite setAdd_in. split; [intros [->|I]; [right; split; auto; split; auto; left; exists d, y, q; auto|auto]|intros [I|[_ <-]]; auto].
           ++ split; auto. intros [I|(_ & d' & Z)]; [exact I|discriminate].
      * injection H as <-. simpl. split; [|split; [auto|]].
        -- intros x. split; auto. intros [I|((_ & [(d' & y' & q' & Z & Y' & Nb & Sy' & F)|(d' & Z)]) & _)]; [exact I| |discriminate].
           injection Z as <-. congruence.
        -- split; auto. intros [I|(_ & d' & Z)]; [exact I|discriminate].
  - injection H as <-. simpl. split; [|split; [auto|]]; [intros x|]; split; auto;
      (intros [I|I]; [exact I|exfalso]); [destruct I as ((_ & [(d & y & q & Z & _)|(d & Z)]) & _); discriminate|destruct I as (_ & d & Z); discriminate].
Qed.

Definition adds (s : vst) (top : node) (Q : node -> Prop) (acc acc' : list bytes * bool) : Prop :=
  (forall x, In x (fst acc') <-> In x (fst acc) \/ exists v, Q v /\ captured s top v /\ varName v = x) /\
  (increasing (fst acc) -> increasing (fst acc')) /\
  (snd acc' = true <-> snd acc = true \/ exists v, Q v /\ from_with s v).
Lemma freeVars_ok s top k : forall n acc acc', freeVars s k top n acc = Ok acc' -> adds s top (node_of n) acc acc'.
Proof.
  induction k as [|k IH]; intros n acc acc' H; [discriminate|]. cbn [freeVars] in H.
  set (f := fun (r : res (list bytes * bool)) ch => bind r (fun a => match ch with Some c => freeVars s k top c a | None => Ok a end)) in *.
  assert (L : forall cs r out, fold_left f cs r = Ok out -> exists a, r = Ok a /\
     adds s top (fun v => exists c, In c (present cs) /\ node_of c v) a out).
  { induction cs as [|c cs IHc]; intros r out F; simpl in F.
    - exists out. split; auto. unfold adds. simpl. split; [|split; [auto|]]; [intros x|]; split; auto;
        intros [I|(v & (c & [] & _) & _)]; exact I.
    - apply IHc in F as (a & F & (A1 & A2 & A3)). unfold f in F at 1. destruct r as [a0| |]; try discriminate. simpl in F.
      exists a0. split; auto. destruct c as [c|]; simpl.
      + apply IH in F as (B1 & B2 & B3). split; [|split; [auto|]].
        * intros x. rewrite A1, B1. split.
          -- intros [[I|(v & N & Cv & E)]|(v & (c' & I & N) & Cv & E)]; [auto|right; exists v; split; [exists c; auto|auto]|right; exists v; split; [exists c'; auto|auto]].
          -- intros [I|(v & (c' & [<-|I] & N) & Cv & E)]; [auto|left; right; eauto|right; eauto 8].
        * rewrite A3, B3. split.
          -- intros [[I|(v & N & Cv)]|(v & (c' & I & N) & Cv)]; [auto|right; exists v; split; [exists c; auto|auto]|right; exists v; split; [exists c'; auto|auto]].
          -- intros [I|(v & (c' & [<-|I] & N) & Cv)]; [auto|left; right; eauto|right; eauto 8].
      + injection F as ->. exact (conj A1 (conj A2 A3)). }
  apply L in H as (a & F & (A1 & A2 & A3)). apply freeVar_ok in F as (B1 & B2 & B3). split; [|split; [auto|]].
  - intros x. rewrite A1, B1. split.
    + intros [[I|[Cv E]]|(v & (c & I & N) & Cv & E)]; [auto|right; exists n; split; [constructor|auto]|right; exists v; split; [econstructor; eauto|auto]].
    + intros [I|(v & N & Cv & E)]; [auto|]. inversion N; subst; [left; right; auto|]. right. exists v. split; [eauto|auto].
  - rewrite A3, B3. split.
    + intros [[I|Cv]|(v & (c & I & N) & Cv)]; [auto|right; exists n; split; [constructor|auto]|right; exists v; split; [econstructor; eauto|auto]].
    + intros [I|(v & N & Cv)]; [auto|]. inversion N; subst; [left; right; auto|]. right. exists v. split; [eauto|auto].
Qed.

(** ** in terms of scopes *)
Lemma captured_outside primops root s top v : vla primops root = Ok s -> captured s top v ->
  exists sc v' x, occurs_at primops root sc v' x /\ nid v' = nid v /\ outside top sc x.
Proof.
  intros H [K [(d & y & q & Q & Y & Nb & Sy & Is)|(d & Q)]].
  - apply vla_start in H as (s1 & e & _ & _ & _ & _ & Er & _ & _ & _ & P & _).
    destruct (po_res _ _ _ _ _ _ P _ _ Q) as [Z|(sc & v' & x & V & Iv & Ei & R)]; [rewrite Er in Z; discriminate|].
    exists sc, v', x. split; [split; auto|]. split; auto. left. simpl in R.
    destruct R as (l & t & B & y' & Y' & R). rewrite (defn_fun _ _ _ _ Y' Y) in *. destruct l as [xs|who names|w]; [destruct R; congruence| |destruct R].
    destruct R as (nd & Sy' & I). rewrite Sy in Sy'. injection Sy' as <-. exists who, names, t, q, (df_src y). split; auto. split; auto.
    unfold isInsideNode in Is. intros [W1 W2]. apply Nat.leb_le in W1, W2. rewrite W1, W2 in Is. discriminate.
  - apply vla_start in H as (s1 & e & _ & _ & _ & _ & Er & _ & _ & _ & P & _).
    destruct (po_res _ _ _ _ _ _ P _ _ Q) as [Z|(sc & v' & x & V & Iv & Ei & R)]; [rewrite Er in Z; discriminate|].
    exists sc, v', x. split; [split; auto|]. split; auto. right. simpl in R. destruct R as (Ub & ws & w & E & _). split; auto.
    rewrite E. destruct ws; discriminate.
Qed.
Lemma nodup_fst {A} (l : list (bytes * A)) x a c : NoDup (map fst l) -> In (x, a) l -> In (x, c) l -> a = c.
Proof.
  induction l as [|[z e] l IH]; simpl; intros N I J; [contradiction|]. inversion N; subst.
  destruct I as [I|I], J as [J|J].
  - congruence.
  - injection I as -> ->. elim H1. apply in_map_iff. exists (x, c). auto.
  - injection J as -> ->. elim H1. apply in_map_iff. exists (x, a). auto.
  - auto.
Qed.
Lemma outside_captured primops root s top v sc x : vla primops root = Ok s -> coherent primops root ->
  occurs_at primops root sc v x -> outside top sc x -> captured s top v.
Proof.
  intros H C Oc O. destruct (query_res _ _ _ _ _ _ H C Oc) as (r & Q & R). split; [apply Oc|].
  destruct O as [(who & names & t & nd & role & B & I & Ns)|[Ub Ws]].
  - destruct r as [|d|d]; simpl in R.
    + destruct R as [U _]. exfalso. destruct (bound_split _ _ _ B) as (p & l & t' & -> & _ & _ & D). apply (U l); auto. apply in_app_iff. right. now left.
    + destruct R as [U _]. exfalso. destruct (bound_split _ _ _ B) as (p & l & t' & -> & _ & _ & D). apply (U l); auto. apply in_app_iff. right. now left.
    + destruct R as (l & t' & B' & y & Y & R). pose proof (bound_fun _ _ _ _ B B') as Z. injection Z as <- <-.
      destruct R as (nd' & Sy & I'). left. exists d, y, nd'. split; auto. split; [exact Y|].
      assert (Er : nd' = nd /\ df_src y = role).
      { pose proof (proj1 Oc) as V. destruct (bound_split _ _ _ B) as (pre & l & t' & -> & Et & _). injection Et as <- <-.
        destruct (visit_grow _ _ _ _ V) as [p0 Ep].
        assert (Z : exists p1, Binds who names :: t = p1 ++ prelude primops).
        { destruct (exists_last (l := Binds who names :: t)) as (q & z & Ez); [discriminate|]. exists q. rewrite Ez in *.
          unfold prelude in *. rewrite app_assoc in Ep. apply app_inj_tail in Ep as [_ ->]. reflexivity. }
        destruct Z as [p1 Z].
        destruct (visit_layer _ _ _ _ V (Binds who names) t pre p1 eq_refl Z) as [Z0|(o & n1 & Vo & Oo & _)]; [subst p1; discriminate Z|].
        pose proof H as H0. apply vla_start in H0 as (s1 & e & _ & _ & _ & _ & _ & _ & _ & _ & P & _).
        pose proof (po_names _ _ _ _ _ _ P _ _ _ _ Vo Oo) as Nd.
        pose proof (nodup_fst _ _ _ _ Nd I I') as Eq. injection Eq as -> ->. auto. }
      destruct Er as [-> Er]. split; [|split; auto].
      * destruct (visit_layer_names _ _ _ _ _ _ _ _ _ _ (proj1 Oc) B I') as [Nb _]. exact Nb.
      * unfold isInsideNode. apply Bool.not_true_is_false. intros Z. apply Bool.andb_true_iff in Z as [Z1 Z2].
        apply Nat.leb_le in Z1, Z2. apply Ns. now split.
  - right. destruct r as [|d|d]; simpl in R.
    + destruct R; contradiction.
    + eauto.
    + destruct R as (l & t' & B' & _). exfalso. destruct (bound_split _ _ _ B') as (p & l' & t0 & -> & _ & _ & D).
      apply (Ub l'); auto. apply in_app_iff. right. now left.
Qed.

(** ** adding a formal *)
Lemma addToFormals_ok primops root s m n pos text : vla primops root = Ok s -> identified root -> parents root = Ok m ->
  node_of root n -> addToFormals s m n = Ok (Some (pos, text)) ->
  exists v i r j q id k fr ms table body sc v' x,
    nearest root n NK_ExprVar v /\ nearest root n NK_ExprLambda (NLambda i r (Some (NLambdaArg j q id (Some (NFormals k fr ms table)))) body) /\
    occurs_at primops root sc v' x /\ nid v' = nid v /\ unbound sc x /\ withs sc = [] /\ ~ In (varName v) (map fst table) /\
    formalsInsertion (NFormals k fr ms table) ms (varName v) = Some (pos, text).
Proof.
  intros H Id E N A. unfold addToFormals in A. destruct (upTo m n NK_ExprVar) as [[v|]| |] eqn:Uv; try discriminate. cbn [bind] in A.
  destruct (query s v) as [[|d|d]|] eqn:Q; try discriminate.
  destruct (upTo m n NK_ExprLambda) as [[l|]| |] eqn:Ul; try discriminate. cbn [bind] in A.
  destruct l; try discriminate. match type of A with match ?z with _ => _ end = _ => destruct z as [la|]; [|discriminate] end.
  destruct la; try discriminate. match type of A with match ?z with _ => _ end = _ => destruct z as [lf|]; [|discriminate] end.
  destruct lf; try discriminate.
  match type of A with match bfind ?x ?l with _ => _ end = _ => destruct (bfind x l) eqn:B; [discriminate|] end.
  injection A as A.
  apply vla_start in H as (s1 & e & _ & _ & _ & _ & Er & _ & _ & _ & P & _).
  destruct (po_res _ _ _ _ _ _ P _ _ Q) as [Z|(sc & v' & x & V & Iv & Ei & R)]; [rewrite Er in Z; discriminate|].
  destruct R as [Ub Ws].
  do 11 eexists. exists sc, v', x. split; [eapply upTo_nearest; eauto|]. split; [eapply upTo_nearest; eauto|].
  split; [split; auto|]. split; auto. split; auto. split; auto. split; [|exact A].
  intros I. apply in_map_iff in I as ((z & w) & Ez & I). simpl in Ez. subst z. clear - B I.
  revert B. match goal with |- bfind _ ?l = None -> _ => induction l as [|[z c] l IH] end; simpl; [contradiction|].
  destruct (bytes_eqb (varName v) z) eqn:Ez; [discriminate|]. intros B. destruct I as [I|I]; auto. injection I as -> ->.
  rewrite (proj2 (bytes_eqb_eq _ _) eq_refl) in Ez. discriminate.
Qed.
