(** For C20, C21: every part of an accepted tree is derived from a part of the text. *)
From Verif Require Import Base Diag LexModel LexSpec LexProofs AstModel PSupModel SemaModel ParseModel ParseSpec
  ParseInv GramSpec GramBase GramStep.

Section Sub.
Context {at_ : node -> list item -> Prop}.
Notation G := (gram_at false at_).
Definition is_op (n : node) : Prop :=
  match n with NBinOp _ _ _ _ _ | NUnary _ _ _ _ | NHasAttr _ _ _ _ _ => True | _ => False end.
Definition is_str (n : node) : Prop := match n with NString _ _ _ => True | _ => False end.
Inductive run_of (n : node) : list item -> Prop :=
| ro_op its : is_op n -> G (Op n) its -> run_of n its
| ro_str ind its : G (Str ind n) its -> run_of n its
| ro_uri v : G (Simple n) [E tok_uri v] -> run_of n [E tok_uri v].
Definition has (its : list item) (m : node) : Prop := exists a i c, its = a ++ i ++ c /\ run_of m i.
Lemma has_self its m : run_of m its -> has its m.
Proof. intros H. exists [], its, []. now rewrite app_nil_r. Qed.
Lemma has_l i1 i2 m : has i1 m -> has (i1 ++ i2) m.
Proof. intros (a & i & c & -> & H). exists a, i, (c ++ i2). split; auto. now rewrite <- !app_assoc. Qed.
Lemma has_r i1 i2 m : has i2 m -> has (i1 ++ i2) m.
Proof. intros (a & i & c & -> & H). exists (i1 ++ a), i, c. split; auto. now rewrite <- !app_assoc. Qed.

Lemma has_c x i m : has i m -> has (x :: i) m.
Proof. apply (has_r [x]). Qed.

Definition inrs (fs : list (ascii + node)) : list node := flat_map (fun f => match f with inl _ => [] | inr n => [n] end) fs.
Lemma inrs_app a c : inrs (a ++ c) = inrs a ++ inrs c.
Proof. unfold inrs. apply flat_map_app. Qed.
Lemma inrs_text v : inrs (map inl v) = [].
Proof. induction v; auto. Qed.
Lemma inrs_flatten fs : inrs (flatten fs) = interps fs.
Proof.
  induction fs as [|[v|n] fs IH]; auto.
  - change (flatten (inl v :: fs)) with (map inl v ++ flatten fs). now rewrite inrs_app, inrs_text, IH.
  - change (flatten (inr n :: fs)) with ([inr n] ++ flatten fs). rewrite inrs_app, IH. reflexivity.
Qed.

Definition roots (X : sym) : list node :=
  match X with
  | Expr n | Op n | App n | Sel n | Simple n | Str _ n | Interp _ _ n | Name n | Bind n | FormalSet n | Arg n => [n]
  | Sels ns | Names ns | AttrPath ns | Binds ns | Formals _ ns => ns
  | Parts _ fs | Frags _ fs => inrs fs
  | BindsO o | Default o => opt_list o
  end.
Definition interest (m : node) : Prop := is_op m \/ is_str m.
Lemma within_inv n m : within n m -> n = m \/ exists c, In c (parts_of n) /\ within c m.
Proof. intros [?|? c ? H1 H2]; [now left|right; eauto]. Qed.
Lemma within_leaf n m : parts_of n = [] -> within n m -> n = m.
Proof. intros E H. apply within_inv in H as [H|(c & H & _)]; auto. rewrite E in H. destruct H. Qed.


Ltac byih := match goal with IH : forall n m, _ -> _ -> _ -> has ?i m |- has ?i ?m => eapply IH; [|eassumption|eassumption] end.
Ltac member := cbn [roots opt_list In]; rewrite ?inrs_app, ?inrs_text, ?inrs_flatten;
  first [eassumption | solve [left; reflexivity] | solve [simpl; auto] | solve [repeat (apply in_or_app; auto; left)]].
Ltac findh n := solve [byih; member] ||
  (lazymatch n with S ?n => first [solve [apply has_c; findh n] | solve [apply has_l; findh n] | solve [apply has_r; findh n]] end).
Ltac unpack := repeat match goal with
  | H : In _ [] |- _ => destruct H
  | H : False |- _ => destruct H
  | H : In _ [_] |- _ => destruct H as [<-|[]]
  | H : In _ (_ :: _) |- _ => destruct H as [<-|H]
  | H : In _ (_ ++ _) |- _ => apply in_app_iff in H as [H|H]
  | H : In _ (inrs _) |- _ => progress rewrite ?inrs_app, ?inrs_text, ?inrs_flatten in H
  end.
Ltac self Hi := solve [destruct Hi as [Hi|Hi]; destruct Hi] || (apply has_self).
Ltac peel := unpack; try (findh 8);
  try match goal with
  | Hw : within ?n ?m, Hi : interest ?m |- has _ ?m =>
      tryif is_var n then fail else idtac; apply within_inv in Hw as [<-|(? & ? & Hw)]; [self Hi|cbn [parts_of opt_list app] in *; peel]
  end.
Lemma gram_has X its : G X its -> forall n m, In n (roots X) -> within n m -> interest m -> has its m.
Proof.
  induction 1; intros q_ m_ Hq Hw Hi; cbn [roots opt_list] in *.
  all: peel.
  - apply ro_op; [exact I|]. apply g_unary; auto. now left.
  - apply ro_op; [exact I|]. apply g_unary; auto. right. now left.
  - apply ro_op; [exact I|]. now apply g_binary.
  - apply ro_op; [exact I|]. now apply g_has.
  - apply ro_op; [exact I|]. now apply g_has_nothing.
  - apply ro_uri. apply g_uri.
  - cbn in H. destruct H.
  - eapply ro_str. now apply g_dquoted.
  - eapply ro_str. now apply g_indented.
  - cbn in Hq. destruct Hq.
Qed.

Ltac nope := match goal with H : gram_at _ _ ?X _ |- _ =>
  lazymatch X with App _ => idtac | Sel _ => idtac | Simple _ => idtac | Str _ _ => idtac end; inversion H; clear H; subst end.
Lemma op_grouped n its : G (Op n) its -> grouped misgrouped n.
Proof.
  intros H. inversion H; subst; cbn [grouped].
  - clear H. destruct n; cbn [grouped]; auto; repeat nope.
  - eapply Forall_impl; [|eassumption]. intros o [?|[_ ?]]; auto.
  - split; (eapply Forall_impl; [|eassumption]); intros o [?|[_ ?]]; auto.
  - eapply Forall_impl; [|eassumption]. intros o [?|[_ ?]]; auto.
  - eapply Forall_impl; [|eassumption]. intros o [?|[_ ?]]; auto.
Qed.
Lemma run_grouped n its : run_of n its -> grouped misgrouped n.
Proof.
  intros [i Ho H|ind i H|v H].
  - eapply op_grouped; eauto.
  - inversion H; subst; exact I.
  - inversion H; subst; try exact I. nope; exact I.
Qed.


(** * Bindings *)
Definition is_bind (n : node) : Prop := match n with NBinding _ _ _ _ _ | NInherit _ _ _ _ => True | _ => False end.
Definition hasb (its : list item) (m : node) : Prop := exists a i c, its = a ++ i ++ c /\ G (Bind m) i /\ at_ m i.
Lemma hasb_l i1 i2 m : hasb i1 m -> hasb (i1 ++ i2) m.
Proof. intros (a & i & c & -> & H). exists a, i, (c ++ i2). split; auto. now rewrite <- !app_assoc. Qed.
Lemma hasb_r i1 i2 m : hasb i2 m -> hasb (i1 ++ i2) m.
Proof. intros (a & i & c & -> & H). exists (i1 ++ a), i, c. split; auto. now rewrite <- !app_assoc. Qed.
Lemma hasb_c x i m : hasb i m -> hasb (x :: i) m.
Proof. apply (hasb_r [x]). Qed.
Ltac byihb := match goal with IH : forall n m, _ -> _ -> _ -> hasb ?i m |- hasb ?i ?m => eapply IH; [|eassumption|eassumption] end.
Ltac findb n := solve [byihb; member] ||
  (lazymatch n with S ?n => first [solve [apply hasb_c; findb n] | solve [apply hasb_l; findb n] | solve [apply hasb_r; findb n]] end).
Ltac selfb Hi := solve [destruct Hi] || idtac.
Ltac peelb := unpack; try (findb 8);
  try match goal with
  | Hw : within ?n ?m, Hi : is_bind ?m |- hasb _ ?m =>
      tryif is_var n then fail else idtac; apply within_inv in Hw as [<-|(? & ? & Hw)]; [selfb Hi|cbn [parts_of opt_list app] in *; peelb]
  end.
Ltac plain_ihs := repeat match goal with
  | IH : forall n m, In n (roots ?X) -> within n m -> is_bind m -> ?X = Bind m \/ hasb ?i m |- _ =>
      let H := fresh "IHp" in
      assert (H : forall n m, In n (roots X) -> within n m -> is_bind m -> hasb i m)
        by (let E := fresh in let A := fresh in let B := fresh in let D := fresh in
            intros ? ? A B D; destruct (IH _ _ A B D) as [E|E]; [discriminate E|exact E]);
      clear IH; cbn [roots opt_list] in H
  end.
Lemma gram_hasb X its : G X its -> forall n m, In n (roots X) -> within n m -> is_bind m -> X = Bind m \/ hasb its m.
Proof.
  induction 1; intros q_ m_ Hq Hw Hi; plain_ihs.
  all: cbn [roots opt_list] in Hq.
  all: try solve [right; peelb].
  - destruct Hq as [<-|[]]. repeat (apply within_inv in Hw as [<-|(? & Hq & Hw)]; [destruct Hi|cbn [parts_of interps flat_map opt_list app] in Hq]; unpack).
  - destruct Hq.
  - destruct Hq as [<-|[]]. apply within_inv in Hw as [<-|(? & Hq & Hw)]; [now left|right]. cbn [parts_of opt_list] in Hq. peelb.
  - destruct Hq as [<-|[]]. apply within_inv in Hw as [<-|(? & Hq & Hw)]; [now left|right]. cbn [parts_of opt_list] in Hq. peelb.
  - destruct Hq as [<-|[]]. apply within_inv in Hw as [<-|(? & Hq & Hw)]; [now left|right]. cbn [parts_of opt_list] in Hq. peelb.
  - right. apply in_app_iff in Hq as [Hq|[<-|[]]]; [findb 2|].
    destruct (IHgram_at2 n m_ (or_introl eq_refl) Hw Hi) as [[= ->]|Hb]; [|now apply hasb_r].
    exists i1, i2, []. rewrite app_nil_r. auto.
Qed.
Lemma expr_hasb n its m : G (Expr n) its -> within n m -> is_bind m -> hasb its m.
Proof. intros H Hw Hi. destruct (gram_hasb _ _ H n m (or_introl eq_refl) Hw Hi) as [?|?]; [discriminate|auto]. Qed.
End Sub.

Definition quote_escape (v u : bytes) : Prop := u = b "'".
Lemma parts_contents X i : gram false X i -> match X with Parts m fs => contents quote_escape m i fs | _ => True end.
Proof.
  induction 1; auto.
  - apply con_nil.
  - now apply con_text.
  - apply con_escape; auto.
  - apply con_escape; auto. right. split; reflexivity.
  - inversion H0; subst. now apply con_interp.
Qed.
