(** Lemmas about formatting and about calls to evaluators. *)
From Verif Require Import Base TextModel TextSpec ConnModel ProcModel ProcSpec.

Lemma steps_trans {A} (R : A -> A -> Prop) x y z : steps R x y -> steps R y z -> steps R x z.
Proof. induction 1; [auto|]. intro. econstructor; eauto. Qed.
Lemma steps_last {A} (R : A -> A -> Prop) x y z : steps R x y -> R y z -> steps R x z.
Proof. intros. eapply steps_trans; [eassumption|]. econstructor; [eassumption|constructor]. Qed.
Lemma steps_inv {A} (R : A -> A -> Prop) (P : A -> Prop) : (forall x y, P x -> R x y -> P y) ->
  forall x y, steps R x y -> P x -> P y.
Proof. intros H x y S. induction S; eauto. Qed.

(** a program that ends has a run *)
Lemma ends_does F s input : ends F s input -> exists o e st un, does F s input o e st un.
Proof.
  unfold ends. intro A. remember (s, input) as p eqn:E. revert s input E. induction A as [p _ IH]. intros s input ->.
  assert (Go : forall o e s' i', moves F s input o e s' i' -> exists o e st un, does F s input o e st un).
  { intros o e s' i' M. destruct (IH (s', i')) with (s := s') (input := i') as (o2 & e2 & st & un & D); [cbn; eauto|reflexivity|].
    do 4 eexists. econstructor; eassumption. }
  destruct (pnext F s) as [n k|x s'|s'|s'|st] eqn:N.
  - destruct input as [|c i]; [eapply Go; eapply moves_end; exact N|].
    eapply Go. eapply (moves_read F s n k [c] i); [exact N|discriminate|simpl; lia].
  - eapply Go. eapply moves_out. exact N.
  - eapply Go. eapply moves_err. exact N.
  - eapply Go. eapply moves_work. exact N.
  - do 4 eexists. apply does_end. exact N.
Qed.
Lemma ends_moves F s input o e s' i' : ends F s input -> moves F s input o e s' i' -> ends F s' i'.
Proof. intros A M. inversion A as [H]. apply (H (s', i')). cbn. eauto. Qed.

(** ** One request *)
Section One.
Variable F : program.
Variable K : capacities.
Variable code : bytes.
Variable inh : list (nat * pipe_end).
Notation free := (fun _ : pipe_end => false).
Notation R := (jstep F K free inh).
Notation job := (job (pstate F)).

Definition todo (t : thread) : bytes :=
  match t with Forked => code | Writing r => r | _ => [] end.
Definition started (t : thread) : Prop := match t with Forked | Writing _ | Waiting => True | _ => False end.

Definition Inv (J : job) : Prop :=
  j_code J = code /\
  match j_child J with
  | NotStarted => (j_thread J = Ready \/ j_thread J = Piped) /\ j_in J = [] /\ j_out J = [] /\ j_err J = 0
  | Running s => started (j_thread J) /\ ends F s (j_in J ++ todo (j_thread J)) /\
      forall o e st un, does F s (j_in J ++ todo (j_thread J)) o e st un -> does F (pinit F) code (j_out J ++ o) (j_err J + e) st un
  | Ended st =>
      match j_thread J with
      | Ready | Piped => False
      | Killed => exists o e un, does F (pinit F) code o e st un /\ un <> []
      | Reading got => st = 0%N /\ does F (pinit F) code (got ++ j_out J) (j_err J) st (j_in J)
      | Answered a => exists o e un, does F (pinit F) code o e st un /\
            (st <> 0%N /\ a = CommandFailed st \/ st = 0%N /\ a = answer_of code o)
      | _ => does F (pinit F) code (j_out J) (j_err J) st (j_in J ++ todo (j_thread J))
      end
  end.

Lemma Inv_start : Inv (request F code).
Proof. repeat split; auto. Qed.

Lemma cut (l : bytes) n : l = firstn n l ++ skipn n l.
Proof. symmetry. apply firstn_skipn. Qed.

Lemma chunk_ok (l : bytes) n : l <> [] -> firstn (S n) l <> [].
Proof. destruct l; [congruence|discriminate]. Qed.

Lemma Inv_step J J' : ends F (pinit F) code -> Inv J -> R J J' -> Inv J'.
Proof.
  intros En I S. destruct S; unfold Inv in *; cbn [j_code j_child j_thread j_in j_out j_err todo started] in *; destruct I as [-> I].
  - (* pipe *) split; [reflexivity|]. destruct c; [intuition|destruct I as [[] _]|contradiction].
  - (* fork *) destruct c; [|destruct I as [[] _]|contradiction]. destruct I as (_ & -> & -> & ->). split; [reflexivity|]. split; [exact Logic.I|].
    cbn [app todo j_thread j_code]. split; [exact En|]. intros; cbn; auto.
  - (* close *) split; [reflexivity|]. destruct c; [destruct I as [[|] _]; discriminate| |]; exact I.
  - (* write *) split; [reflexivity|]. destruct c; [destruct I as [[|] _]; discriminate| |]; cbn [todo j_thread] in *;
      rewrite <- app_assoc; cbn [app]; exact I.
  - (* epipe *) split; [reflexivity|]. destruct c; [destruct I as [[|] _]; discriminate|discriminate|].
    cbn [todo j_thread] in I. do 3 eexists. split; [exact I|]. destruct i; discriminate.
  - (* close in *) split; [reflexivity|]. destruct c; [destruct I as [[|] _]; discriminate| |]; exact I.
  - (* wait *) split; [reflexivity|]. cbn [todo j_thread] in I. rewrite app_nil_r in I. destruct (N.eqb_spec status 0) as [->|Ne].
    + split; [reflexivity|]. exact I.
    + do 3 eexists. split; [exact I|]. left. auto.
  - (* read *) split; [reflexivity|]. destruct c; [destruct I as [[|] _]; discriminate|destruct I as [[] _]|].
    rewrite <- app_assoc, firstn_skipn. exact I.
  - (* eof *) split; [reflexivity|]. destruct c; [destruct I as [[|] _]; discriminate|discriminate|]. destruct I as [-> D].
    rewrite app_nil_r in D. do 3 eexists. split; [exact D|]. right. auto.
  - (* child reads *) split; [reflexivity|]. destruct I as (St & E & D).
    assert (M : moves F s (i ++ todo t) [] 0 (k (firstn (S n) i)) (skipn (S n) i ++ todo t)).
    { rewrite (cut i (S n)) at 1. rewrite <- app_assoc. eapply moves_read; [eassumption|now apply chunk_ok|]. rewrite firstn_length. lia. }
    cbn [todo j_thread j_code] in *. split; [exact St|]. split; [eapply ends_moves; eassumption|].
    intros o' e' st un D'. apply D. change o' with ([] ++ o'). change e' with (0 + e'). econstructor; eassumption.
  - split; [reflexivity|]. destruct I as (St & E & D). rewrite orb_false_r in H0.
    assert (T : todo t = []) by (destruct t; try contradiction; try discriminate; reflexivity).
    cbn [todo j_thread j_code app] in *. rewrite T in *.
    assert (M : moves F s [] [] 0 (k []) []) by (eapply moves_end; eassumption).
    split; [exact St|]. split; [eapply ends_moves; eassumption|].
    intros o' e' st un D'. apply D. change o' with ([] ++ o'). change e' with (0 + e'). econstructor; eassumption.
  - split; [reflexivity|]. destruct I as (St & E & D). cbn [todo j_thread j_code] in *. split; [exact St|].
    split; [eapply ends_moves; [eassumption|eapply moves_out; eassumption]|].
    intros o' e' st un D'. rewrite <- app_assoc. apply D. change e' with (0 + e'). econstructor; [eapply moves_out; eassumption|exact D'].
  - split; [reflexivity|]. destruct I as (St & E & D). cbn [todo j_thread j_code] in *. split; [exact St|].
    split; [eapply ends_moves; [eassumption|eapply moves_err; eassumption]|].
    intros o' e' st un D'. replace (S e + e') with (e + (1 + e')) by lia. apply D. change o' with ([] ++ o'). econstructor; [eapply moves_err; eassumption|exact D'].
  - split; [reflexivity|]. destruct I as (St & E & D). cbn [todo j_thread j_code] in *. split; [exact St|].
    split; [eapply ends_moves; [eassumption|eapply moves_work; eassumption]|].
    intros o' e' st un D'. apply D. change o' with ([] ++ o'). change e' with (0 + e'). econstructor; [eapply moves_work; eassumption|exact D'].
  - split; [reflexivity|]. destruct I as (St & E & D). cbn [todo j_thread j_code] in *.
    assert (Q : does F (pinit F) code (o ++ []) (e + 0) status (i ++ todo t)).
    { apply D. now apply does_end. }
    rewrite app_nil_r, Nat.add_0_r in Q. destruct t; try contradiction; exact Q.
Qed.

(** it cannot go on forever *)
Definition left (J : job) : nat :=
  List.length (j_out J) +
  match j_thread J with
  | Ready => 7 + List.length (j_code J) | Piped => 6 + List.length (j_code J) | Forked => 5 + List.length (j_code J)
  | Writing r => 4 + List.length r | Waiting => 3 | Reading _ => 2 | Answered _ | Killed => 1
  end.
Notation acc := (Acc (fun y x => R x y)).

Lemma skip_less (o : bytes) : o <> [] -> List.length (skipn 1024 o) < List.length o.
Proof. intro H. rewrite skipn_length. destruct o; [congruence|]. cbn [List.length]. lia. Qed.
Lemma left_pos J : 1 <= left J.
Proof. unfold left. destruct (j_thread J); lia. Qed.

(** a step of the thread brings it on *)
Lemma thread_step J J' : Inv J -> R J J' ->
  (j_thread J = Piped /\ j_child J' = Running (pinit F)) \/
  (j_child J' = j_child J /\ left J' < left J /\ (forall s, j_child J = Running s -> j_in J' ++ todo (j_thread J') = j_in J ++ todo (j_thread J))) \/
  exists s, j_child J = Running s /\
    ((exists st, j_child J' = Ended st) \/
     exists s' o e, j_child J' = Running s' /\ moves F s (j_in J ++ todo (j_thread J)) o e s' (j_in J' ++ todo (j_thread J'))).
Proof.
  intros I S. unfold left. destruct S; unfold Inv in *; cbn [j_child j_thread j_code j_in j_out j_err] in *; destruct I as [-> I].
  1,3,4,5,6,7,8,9: right; left.
  - split; [reflexivity|]. split; [lia|]. reflexivity.
  - split; [reflexivity|]. split; [lia|]. reflexivity.
  - split; [reflexivity|]. split; [cbn [List.length]; lia|]. intros s _. cbn [todo]. now rewrite <- app_assoc.
  - split; [reflexivity|]. split; [cbn [List.length]; lia|]. intros s ->. discriminate.
  - split; [reflexivity|]. split; [cbn [List.length]; lia|]. reflexivity.
  - split; [reflexivity|]. split; [destruct (N.eqb status 0); lia|]. discriminate.
  - split; [reflexivity|]. split; [pose proof (skip_less o H); lia|]. reflexivity.
  - split; [reflexivity|]. split; [cbn [List.length]; lia|]. reflexivity.
  - left. auto.
  - right. right. exists s. split; [reflexivity|]. right. do 3 eexists. split; [reflexivity|].
    rewrite (cut i (S n)) at 1. rewrite <- app_assoc. eapply moves_read; [eassumption|now apply chunk_ok|]. rewrite firstn_length. lia.
  - right. right. exists s. split; [reflexivity|]. right. do 3 eexists. split; [reflexivity|]. rewrite orb_false_r in H0.
    assert (T : todo t = []) by (destruct I as [St _]; destruct t; try contradiction; try discriminate; reflexivity).
    rewrite T. eapply moves_end; eassumption.
  - right. right. exists s. split; [reflexivity|]. right. do 3 eexists. split; [reflexivity|]. eapply moves_out; eassumption.
  - right. right. exists s. split; [reflexivity|]. right. do 3 eexists. split; [reflexivity|]. eapply moves_err; eassumption.
  - right. right. exists s. split; [reflexivity|]. right. do 3 eexists. split; [reflexivity|]. eapply moves_work; eassumption.
  - right. right. exists s. split; [reflexivity|]. left. eauto.
Qed.

Lemma acc_ended : ends F (pinit F) code -> forall m J st, j_child J = Ended st -> Inv J -> left J <= m -> acc J.
Proof.
  intro En. induction m as [|m IH]; intros J st C I L; [pose proof (left_pos J); lia|].
  constructor. intros J' S. pose proof (Inv_step _ _ En I S) as I'.
  destruct (thread_step _ _ I S) as [[T _]|[(C' & L' & _)|(s & C' & _)]].
  - destruct I as [_ I]. rewrite C, T in I. contradiction.
  - apply (IH J' st); auto; [congruence|lia].
  - congruence.
Qed.

Lemma acc_running : ends F (pinit F) code -> forall p, Acc (fun q p => exists o e, moves F (fst p) (snd p) o e (fst q) (snd q)) p ->
  forall m J, Inv J -> j_child J = Running (fst p) -> j_in J ++ todo (j_thread J) = snd p -> left J <= m -> acc J.
Proof.
  intros En p A. induction A as [[s rem] _ IHp]. cbn [fst snd] in *. induction m as [|m IH]; intros J I C T L; [pose proof (left_pos J); lia|].
  constructor. intros J' S. pose proof (Inv_step _ _ En I S) as I'.
  destruct (thread_step _ _ I S) as [[Tp _]|[(C' & L' & T')|(s0 & C' & [[st E]|(s' & o & e & C2 & M)])]].
  - destruct I as [_ I]. rewrite C, Tp in I. destruct I as [[] _].
  - apply IH; auto; [congruence| |lia]. rewrite (T' s C). exact T.
  - exact (acc_ended En (left J') J' st E I' (le_n _)).
  - rewrite C in C'. injection C' as <-. apply (IHp (s', j_in J' ++ todo (j_thread J'))) with (m := left J'); auto. cbn. rewrite <- T. eauto.
Qed.

Lemma acc_all : ends F (pinit F) code -> forall J, Inv J -> acc J.
Proof.
  intros En. assert (Go : forall m J, Inv J -> left J <= m -> acc J).
  { induction m as [|m IH]; intros J I L; [pose proof (left_pos J); lia|]. destruct (j_child J) as [|s|st] eqn:C.
    - constructor. intros J' S. pose proof (Inv_step _ _ En I S) as I'.
      destruct (thread_step _ _ I S) as [[Tp Cr]|[(C' & L' & _)|(s & C' & _)]]; [|apply IH; auto; lia|congruence].
      pose proof I' as [_ I2]. rewrite Cr in I2. destruct I2 as (_ & E & _). eapply (acc_running En _ E); eauto.
    - pose proof I as [_ I2]. rewrite C in I2. destruct I2 as (_ & E & _). eapply (acc_running En _ E); eauto.
    - exact (acc_ended En _ _ _ C I (le_n _)). }
  intros J I. exact (Go _ J I (le_n _)).
Qed.

(** it cannot get stuck *)
Lemma progress J : 0 < cap_in K ->
  (forall o e st un, does F (pinit F) code o e st un -> List.length o <= cap_out K /\ e <= cap_err K /\ un = []) ->
  Inv J -> (exists J', R J J') \/
  exists a o e st, j_thread J = Answered a /\ does F (pinit F) code o e st [] /\
    (st <> 0%N /\ a = CommandFailed st \/ st = 0%N /\ a = answer_of code o).
Proof.
  intros Ci Fit [Hc I]. destruct J as [c t ch i o e l]. cbn [j_code j_thread j_child j_in j_out j_err] in *. subst c. destruct ch as [|s|st].
  - left. destruct I as [[->| ->] _]; eexists; constructor.
  - left. destruct I as (St & E & D).
    (* the program can go on, unless it waits for input that is still to come *)
    assert (Run : (i <> [] \/ owned InW t = false) -> exists J', R (Job code t (Running s) i o e l) J').
    { intro In. destruct (ends_does _ _ _ E) as (o' & e' & st & un & D0). pose proof (Fit _ _ _ _ (D _ _ _ _ D0)) as (Lo & Le & _).
      rewrite app_length in Lo. inversion D0; subst.
      - eexists. apply c_exit. eassumption.
      - rewrite app_length in Lo. inversion H; subst.
        + destruct i as [|x i']; [|eexists; eapply c_read; [eassumption|discriminate]].
          destruct In as [In|In]; [congruence|]. eexists. eapply c_eof; [eassumption|]. rewrite In. reflexivity.
        + match goal with H : [] = _ ++ _ |- _ => symmetry in H; apply app_eq_nil in H as [-> _] | H : _ ++ _ = [] |- _ => apply app_eq_nil in H as [-> _] end. destruct In as [In|In]; [congruence|]. eexists. eapply c_eof; [eassumption|]. rewrite In. reflexivity.
        + eexists. eapply c_out; [eassumption|]. cbn [List.length] in Lo. lia.
        + eexists. eapply c_err; [eassumption|]. lia.
        + eexists. eapply c_work. eassumption. }
    destruct t; try contradiction.
    + eexists. constructor.
    + destruct rest as [|x rest]; [eexists; constructor|]. destruct (Nat.ltb_spec (List.length i) (cap_in K)).
      * eexists. apply j_write; auto.
      * apply Run. left. destruct i; [cbn in *; lia|discriminate].
    + apply Run. auto.
  - destruct t; try contradiction.
    + left. eexists. constructor.
    + left. destruct rest as [|x rest]; [eexists; constructor|]. exfalso. apply Fit in I as (_ & _ & N). cbn in N. destruct i; discriminate.
    + left. eexists. constructor.
    + left. destruct o as [|x o]; eexists; [apply j_eof; reflexivity|apply j_read; discriminate].
    + right. destruct I as (o' & e' & un & D & A). destruct (Fit _ _ _ _ D) as (_ & _ & ->). do 4 eexists. eauto.
    + exfalso. destruct I as (o' & e' & un & D & A). destruct (Fit _ _ _ _ D) as (_ & _ & ->). congruence.
Qed.

(** too much output: no answer *)
Lemma bounded J J' : R J J' -> List.length (j_out J) <= cap_out K /\ j_err J <= cap_err K -> List.length (j_out J') <= cap_out K /\ j_err J' <= cap_err K.
Proof.
  intros S [A B]. destruct S; cbn [j_out j_err] in *; split; auto.
  - rewrite skipn_length. lia.
  - rewrite app_length. cbn. lia.
Qed.
Lemma silent J : ends F (pinit F) code ->
  (forall o e st un, does F (pinit F) code o e st un -> cap_out K < List.length o \/ cap_err K < e) ->
  steps R (request F code) J -> forall a, j_thread J <> Answered a.
Proof.
  intros En Big S.
  assert (Q : Inv J /\ (List.length (j_out J) <= cap_out K /\ j_err J <= cap_err K) /\ forall st, j_child J <> Ended st).
  { refine (steps_inv R (fun J => Inv J /\ (List.length (j_out J) <= cap_out K /\ j_err J <= cap_err K) /\ forall st, j_child J <> Ended st) _ _ _ S _).
    - intros x y (I & B & N) T. pose proof (Inv_step _ _ En I T) as I'. pose proof (bounded _ _ T B) as B'. split; [exact I'|]. split; [exact B'|].
      intros st C. destruct (thread_step _ _ I T) as [[_ Cr]|[(C' & _)|(s & C' & [[st' E]|(s' & o & e & C2 & M)])]]; try congruence; try (now apply (N st); congruence).
      destruct T; cbn in *; try congruence; unfold Inv in I; cbn in I; destruct I as [-> I]; destruct I as (St & _ & D);
        match goal with H : pnext F _ = AExit _ |- _ => apply (does_end F _ _ (i ++ todo t)) in H; apply D, Big in H end;
        rewrite app_nil_r in *; lia.
    - split; [apply Inv_start|]. cbn. split; [lia|]. congruence. }
  intros a T. destruct Q as ((_ & I) & _ & N). destruct (j_child J) as [|s|st] eqn:C; [destruct I as [[I|I] _]; congruence| |exact (N st eq_refl)].
  rewrite T in I. destruct I as [[] _].
Qed.
End One.

(** ** The world with one request *)
Section World1.
Variable F : program.
Variable K : capacities.

Lemma clean_evaluators ws j e : before_requests ws -> existsb (has_end j e) ws = false.
Proof. induction 1 as [|x l -> _ IH]; cbn; [reflexivity|exact IH]. Qed.
Lemma others_none J : filter (fun p : nat * pipe_end => negb (Nat.eqb (fst p) 0)) (map (pair 0) (own_ends J) ++ []) = [].
Proof. rewrite app_nil_r. destruct J; reflexivity. Qed.

Definition alone (ws : list (list (nat * pipe_end))) (J : job (pstate F)) : world F := World [J] ws.

Lemma held_none ws J : before_requests ws -> j_others J = [] ->
  forall e, held_by_others F (alone ws J) 0 e = false.
Proof.
  intros B O e. unfold held_by_others, alone. cbn [w_jobs w_evaluators existsb]. rewrite O, clean_evaluators by exact B.
  cbn. now rewrite andb_false_r.
Qed.
(** only the values of [held] matter *)
Lemma jstep_ext h h' inh J J' : (forall e, h e = h' e) -> jstep F K h inh J J' -> jstep F K h' inh J J'.
Proof. intros E S. destruct S; try (constructor; rewrite <- ?E; assumption); econstructor; rewrite <- ?E; eassumption. Qed.
Lemma others_step h inh J J' : jstep F K h inh J J' -> j_others J = [] -> inh = [] -> j_others J' = [].
Proof. intros S O I. destruct S; cbn in *; auto. Qed.

Lemma wstep_alone ws J w : before_requests ws -> j_others J = [] -> wstep F K (alone ws J) w ->
  exists J', w = alone ws J' /\ j_others J' = [] /\ jstep F K (fun _ => false) [] J J'.
Proof.
  intros B O S. inversion S as [w0 j J0 J' N T]; subst. unfold alone in N. cbn [w_jobs] in N.
  destruct j as [|j]; [|cbn in N; destruct j; discriminate]. injection N as <-. exists J'. split; [reflexivity|].
  assert (T' : jstep F K (fun _ => false) [] J J').
  { replace (@nil (nat * pipe_end)) with (other_ends F 0 (alone ws J)) by (unfold other_ends, alone; cbn [w_jobs open_ends]; apply others_none).
    eapply jstep_ext; [|exact T]. intro e. now apply held_none. }
  split; [|exact T']. exact (others_step _ _ _ _ T' O eq_refl).
Qed.
Lemma alone_wstep ws J J' : before_requests ws -> j_others J = [] -> jstep F K (fun _ => false) [] J J' -> wstep F K (alone ws J) (alone ws J').
Proof.
  intros B O T. apply (w_job F K (alone ws J) 0 J J'); [reflexivity|].
  replace (other_ends F 0 (alone ws J)) with (@nil (nat * pipe_end)) by (symmetry; unfold other_ends, alone; cbn [w_jobs open_ends]; apply others_none).
  eapply jstep_ext; [|exact T]. intro e. symmetry. now apply held_none.
Qed.
Lemma steps_alone ws w0 w : before_requests ws -> steps (wstep F K) w0 w -> forall J0, w0 = alone ws J0 -> j_others J0 = [] ->
  exists J, w = alone ws J /\ j_others J = [] /\ steps (jstep F K (fun _ => false) []) J0 J.
Proof.
  intros B S. induction S as [w|w1 w2 w3 T S IH]; intros J0 -> O; [exists J0; repeat split; auto; constructor|].
  destruct (wstep_alone _ _ _ B O T) as (J1 & -> & O1 & T1). destruct (IH J1 eq_refl O1) as (J & -> & O2 & S2).
  exists J. repeat split; auto. econstructor; eassumption.
Qed.
Lemma acc_alone ws J : before_requests ws -> Acc (fun y x => jstep F K (fun _ => false) [] x y) J -> j_others J = [] ->
  Acc (fun y x => wstep F K x y) (alone ws J).
Proof.
  intros B A. induction A as [J _ IH]. intro O. constructor. intros w S. destruct (wstep_alone _ _ _ B O S) as (J' & -> & O' & T). now apply IH.
Qed.
Lemma invariant code J : ends F (pinit F) code -> steps (jstep F K (fun _ => false) []) (request F code) J -> Inv F code J.
Proof. intros En S. refine (steps_inv _ (Inv F code) _ _ _ S (Inv_start F code)). intros x y I T. exact (Inv_step F K code [] x y En I T). Qed.
End World1.

(** ** The edit *)
Lemma position_from_le after : forall before l c l' c', position_from before after l c = (l', c') -> 
  l' + c' <= l + c + List.length (utf8 before).
Proof.
  induction before as [|x before IH]; intros l c l' c' H; cbn [position_from] in H; [injection H as <- <-; cbn; lia|].
  cbn [utf8 flat_map]. rewrite app_length. fold (utf8 before).
  assert (U : u16 x <= List.length (utf8_char x) /\ 1 <= List.length (utf8_char x)).
  { unfold u16, utf8_char. rewrite map_length. destruct (N.ltb_spec x 0x80); [destruct (N.ltb_spec x 0x10000); [cbn; lia|lia]|].
    destruct (N.ltb_spec x 0x800); [destruct (N.ltb_spec x 0x10000); [cbn; lia|lia]|]. destruct (N.ltb_spec x 0x10000); cbn; lia. }
  destruct (ends_line x (hd_error (before ++ after))); apply IH in H; lia.
Qed.
Lemma bytes_eqb_true : forall x y : bytes, bytes_eqb x y = true <-> x = y.
Proof.
  induction x as [|c x IH]; intros [|d y]; cbn; split; intro H; try discriminate; try reflexivity.
  - apply andb_true_iff in H as [A B]. apply Ascii.eqb_eq in A. apply IH in B. congruence.
  - injection H as -> ->. rewrite Ascii.eqb_refl. now apply IH.
Qed.
Lemma answer_right code o st a : (st <> 0%N /\ a = CommandFailed st \/ st = 0%N /\ a = answer_of code o) -> right_answer code o st a.
Proof.
  intros [[N ->]|[-> ->]]; [left; auto|right]. unfold answer_of. destruct (bytes_eqb o code) eqn:E.
  - apply bytes_eqb_true in E. left. auto.
  - right. split; [reflexivity|]. split; [intros ->; rewrite (proj2 (bytes_eqb_true code code) eq_refl) in E; discriminate|].
    do 2 eexists. split; [reflexivity|]. intros d U -> L. split; [reflexivity|]. unfold position, not_after.
    destruct (position_from d [] 0 0) as [l c] eqn:P. apply position_from_le in P. cbn [p_line p_char]. unfold INT_MAX. lia.
Qed.

(** ** Programs *)
Lemma cat_does s input o e st un : does cat s input o e st un ->
  e = 0 /\ st = 0%N /\ match s with Some l => o = l ++ input /\ un = [] | None => o = [] /\ un = input end.
Proof.
  induction 1 as [s st input N|s input o1 e1 s' input' o2 e2 st un M D IH].
  - destruct s as [[|x l]|]; cbn in N; try discriminate. injection N as <-. auto.
  - destruct IH as (-> & -> & IH). inversion M; subst; match goal with H : pnext cat _ = _ |- _ => rename H into N end; destruct s as [[|x0 l]|]; cbn in N; try discriminate.
    + injection N as <- <-. destruct chunk as [|c chunk]; [congruence|]. destruct IH as [-> ->]. auto.
    + injection N as <- <-. destruct IH as [-> ->]. auto.
    + injection N as <- <-. destruct IH as [-> ->]. auto.
Qed.
Lemma cat_ends code : ends cat (pinit cat) code.
Proof.
  unfold ends. set (m := fun p : option bytes * bytes => 2 * List.length (snd p) + match fst p with Some l => S (List.length l) | None => 0 end).
  assert (G : forall n p, m p < n -> Acc (fun q p => exists o e, moves cat (fst p) (snd p) o e (fst q) (snd q)) p).
  { induction n as [|n IH]; intros p L; [lia|]. constructor. intros [s' i'] (o & e & M). apply IH. destruct p as [s i]. cbn [fst snd] in M.
    assert (m (s', i') < m (s, i)); [|lia]. unfold m. cbn [fst snd].
    inversion M; subst; match goal with H : pnext cat _ = _ |- _ => rename H into N end; destruct s as [[|x0 l]|]; cbn in N; try discriminate.
    - injection N as <- <-. destruct chunk as [|c chunk]; [congruence|]. rewrite app_length. cbn [List.length]. lia.
    - injection N as <- <-. cbn [List.length]. lia.
    - injection N as <- <-. cbn [List.length]. lia. }
  exact (G _ _ (Nat.lt_succ_diag_r _)).
Qed.
Lemma true1_ends code : ends true1 (pinit true1) code.
Proof. constructor. intros [s i] (o & e & M). inversion M; discriminate. Qed.
Lemma true1_does s input o e st un : does true1 s input o e st un -> o = [] /\ e = 0 /\ st = 0%N /\ un = input.
Proof. intro D. inversion D; subst; [match goal with H : pnext true1 _ = _ |- _ => injection H as <- end; auto|]. match goal with H : moves _ _ _ _ _ _ _ |- _ => inversion H; discriminate end. Qed.

(** ** Schedules that go wrong *)
Ltac go j rule :=
  eapply steps_more; [eapply (w_job _ _ _ j); [reflexivity|eapply rule; first [reflexivity|assumption|discriminate|cbn; lia]]|];
  cbn [update w_jobs w_evaluators app].
Ltac go0 j rule :=
  eapply steps_more; [eapply (w_job _ _ _ j); [reflexivity|eapply rule]|];
  cbn [update w_jobs w_evaluators app other_ends filter open_ends own_ends map j_thread fst negb Nat.eqb pinit cat true1].

Lemma two_requests K x : 0 < cap_in K -> 0 < cap_out K ->
  exists w, steps (wstep cat K) (World [request cat [x]; request cat [x]] []) w /\ ~ answered w /\ forall w', ~ wstep cat K w w'.
Proof.
  intros Ci Co.
  exists (@World cat [Job [x] Waiting (Running (Some [])) [] [x] 0 [(1, InR); (1, InW); (1, OutR); (1, OutW); (1, ErrR); (1, ErrW)];
                 Job [x] Waiting (Running (Some [])) [] [x] 0 [(0, InR); (0, InW); (0, OutR); (0, OutW); (0, ErrR); (0, ErrW)]] []).
  split; [|split].
  - unfold request. go0 0 j_pipe. go0 1 j_pipe. go0 0 j_fork. go0 1 j_fork. go0 0 j_close. go0 1 j_close.
    go 0 j_write. go 1 j_write. go0 0 j_close_in. go0 1 j_close_in. go 0 c_read. go 1 c_read. cbn [firstn skipn]. go 0 c_out. go 1 c_out. constructor.
  - intros (J & a & [<-|[<-|[]]] & T); discriminate.
  - intros w' S. inversion S as [w0 j J J' N T]; subst. destruct j as [|[|j]]; cbn in N; [| |destruct j; discriminate]; injection N as <-;
      inversion T; subst; try discriminate; try congruence.
Qed.
Lemma early_exit K x : exists w, steps (wstep true1 K) (World [request true1 [x]] []) w /\
  exists J, w_jobs w = [J] /\ j_thread J = Killed.
Proof.
  eexists. split.
  - unfold request. go0 0 j_pipe. go0 0 j_fork. go 0 c_exit. go0 0 j_close. go 0 j_epipe. constructor.
  - eexists. split; reflexivity.
Qed.
Lemma evaluator_holds K x : 0 < cap_in K -> 0 < cap_out K ->
  exists w, steps (fun a c => wstep cat K a c \/ estep cat a c) (World [request cat [x]] []) w /\
    forall w', steps (fun a c => wstep cat K a c \/ estep cat a c) w w' -> ~ answered w'.
Proof.
  intros Ci Co. set (J := Job [x] Waiting (Running (Some [])) [] [x] 0 [] : job (pstate cat)).
  exists (@World cat [J] [[(0, InW); (0, OutR); (0, ErrR)]]). split.
  - assert (L : forall a c d, wstep cat K a c -> steps (fun a c => wstep cat K a c \/ estep cat a c) c d -> steps (fun a c => wstep cat K a c \/ estep cat a c) a d).
    { intros. econstructor; [left; eassumption|assumption]. }
    unfold request. 
    eapply L; [eapply (w_job _ _ _ 0); [reflexivity|eapply j_pipe]|]. cbn [update w_jobs w_evaluators].
    eapply L; [eapply (w_job _ _ _ 0); [reflexivity|eapply j_fork]|]. cbn [update w_jobs w_evaluators other_ends filter open_ends own_ends map j_thread fst negb Nat.eqb pinit cat app].
    eapply L; [eapply (w_job _ _ _ 0); [reflexivity|eapply j_close]|]. cbn [update w_jobs w_evaluators].
    eapply steps_more; [right; constructor|]. cbn [w_jobs w_evaluators open_ends own_ends map j_thread app].
    eapply L; [eapply (w_job _ _ _ 0); [reflexivity|eapply j_write; [reflexivity|assumption]]|]. cbn [update w_jobs w_evaluators app].
    eapply L; [eapply (w_job _ _ _ 0); [reflexivity|eapply j_close_in]|]. cbn [update w_jobs w_evaluators].
    eapply L; [eapply (w_job _ _ _ 0); [reflexivity|eapply c_read; [reflexivity|discriminate]]|]. cbn [update w_jobs w_evaluators firstn skipn].
    eapply L; [eapply (w_job _ _ _ 0); [reflexivity|eapply c_out; [reflexivity|assumption]]|]. cbn [update w_jobs w_evaluators app].
    constructor.
  - intros w' S.
    assert (Q : w_jobs w' = [J] /\ existsb (has_end 0 InW) (w_evaluators w') = true).
    { refine (steps_inv _ (fun w' => w_jobs w' = [J] /\ existsb (has_end 0 InW) (w_evaluators w') = true) _ _ _ S _); [|split; reflexivity].
      intros a c [A B] [T|T]; [exfalso|].
      - inversion T as [w0 j J0 J' N T']; subst. rewrite A in N. destruct j as [|j]; [|destruct j; discriminate]. injection N as <-.
        assert (H : held_by_others cat a 0 InW = true) by (unfold held_by_others; rewrite B; apply orb_true_r).
        unfold J in T'. inversion T'; subst; try discriminate; try congruence. rewrite H in *. discriminate.
      - inversion T; subst. cbn [w_jobs w_evaluators existsb]. split; [exact A|]. rewrite B. apply orb_true_r. }
    destruct Q as [Q _]. intros (J' & a & I & T). rewrite Q in I. destruct I as [<-|[]]. discriminate.
Qed.

(** ** Descriptors *)
Section Leak.
Variable K : capacities.
Notation cjob := (job (pstate cat)).
Lemma update_mid {A} (pre : list A) x y post : update (List.length pre) y (pre ++ x :: post) = pre ++ y :: post.
Proof. induction pre as [|z pre IH]; cbn; [reflexivity|now rewrite IH]. Qed.
Lemma nth_mid {A} (pre : list A) x post : nth_error (pre ++ x :: post) (List.length pre) = Some x.
Proof. induction pre; cbn; auto. Qed.
Definition idle (J : cjob) : Prop := is_running (F := cat) (j_child J) = false.
Lemma idle_none j e (l : list cjob) : Forall idle l -> existsb (fun J => is_running (F := cat) (j_child J) && has_end j e (j_others J)) l = false.
Proof. induction 1 as [|J l I _ IH]; [reflexivity|]. cbn [existsb]. unfold idle in I. rewrite I, IH. reflexivity. Qed.
Lemma filter_none j e (l : list (nat * pipe_end)) : has_end j e (filter (fun p => negb (Nat.eqb (fst p) j)) l) = false.
Proof.
  induction l as [|[i f] l IH]; cbn; [reflexivity|]. destruct (Nat.eqb i j) eqn:E; cbn; [exact IH|]. unfold has_end in IH. rewrite IH, E. reflexivity.
Qed.
Lemma mid_step pre post J J' : Forall idle pre -> Forall idle post -> (forall e, has_end (List.length pre) e (j_others J) = false) ->
  jstep cat K (fun _ => false) (other_ends cat (List.length pre) (World (pre ++ J :: post) [])) J J' ->
  wstep cat K (World (pre ++ J :: post) []) (World (pre ++ J' :: post) []).
Proof.
  intros P Q O S. rewrite <- (update_mid pre J J' post).
  apply (w_job cat K (World (pre ++ J :: post) []) (List.length pre) J J'); [apply nth_mid|].
  eapply jstep_ext; [|exact S]. intro e. unfold held_by_others. cbn [w_jobs w_evaluators existsb].
  rewrite existsb_app, idle_none by exact P. cbn [existsb]. rewrite idle_none, O by exact Q. now rewrite andb_false_r.
Qed.
Lemma run_one pre post : Forall idle pre -> Forall idle post ->
  exists inh, steps (wstep cat K) (World (pre ++ request cat [] :: post) []) (World (pre ++ Job [] (Answered (Edits [])) (Ended 0) [] [] 0 inh :: post) []).
Proof.
  intros P Q. unfold request.
  exists (other_ends cat (List.length pre) (World (pre ++ Job [] Piped NotStarted [] [] 0 [] :: post) [])).
  eapply steps_more; [eapply mid_step; [exact P|exact Q|intro; reflexivity|apply j_pipe]|].
  eapply steps_more; [eapply mid_step; [exact P|exact Q|intro; reflexivity|apply j_fork]|].
  set (inh := other_ends cat _ _). assert (O : forall e, has_end (List.length pre) e inh = false) by (intro e; apply filter_none). clearbody inh.
  eapply steps_more; [eapply mid_step; [exact P|exact Q|exact O|apply j_close]|].
  eapply steps_more; [eapply mid_step; [exact P|exact Q|exact O|apply j_close_in]|].
  eapply steps_more; [eapply mid_step; [exact P|exact Q|exact O|eapply c_eof; reflexivity]|].
  eapply steps_more; [eapply mid_step; [exact P|exact Q|exact O|eapply c_exit; reflexivity]|].
  eapply steps_more; [eapply mid_step; [exact P|exact Q|exact O|apply j_wait]|]. cbn [N.eqb].
  eapply steps_more; [eapply mid_step; [exact P|exact Q|exact O|apply j_eof; reflexivity]|]. constructor.
Qed.
Lemma repeat_snoc {A} (x : A) n : repeat x (S n) = repeat x n ++ [x].
Proof. induction n as [|n IH]; [reflexivity|]. cbn [repeat app] in *. now rewrite <- IH. Qed.
Definition finished (J : cjob) : Prop := exists inh, J = Job [] (Answered (Edits [])) (Ended 0) [] [] 0 inh.
Lemma run_all n : forall pre, Forall finished pre ->
  exists jobs, steps (wstep cat K) (World (pre ++ repeat (request cat []) n) []) (World (pre ++ jobs) []) /\ Forall finished jobs /\ List.length jobs = n.
Proof.
  induction n as [|n IH]; intros pre P; [exists []; repeat split; constructor|]. cbn [repeat].
  assert (P' : Forall idle pre) by (eapply Forall_impl; [|exact P]; intros J [inh ->]; reflexivity).
  assert (Q : Forall idle (repeat (request cat []) n)) by (clear; induction n; cbn; constructor; [reflexivity|assumption]).
  destruct (run_one pre _ P' Q) as [inh S].
  destruct (IH (pre ++ [Job [] (Answered (Edits [])) (Ended 0) [] [] 0 inh])) as (jobs & S2 & Fj & L).
  { apply Forall_app. split; [exact P|]. constructor; [eexists; reflexivity|constructor]. }
  rewrite <- app_assoc in S2. cbn [app] in S2. rewrite <- app_assoc in S2. cbn [app] in S2.
  eexists. split; [eapply steps_trans; [exact S|exact S2]|]. split; [constructor; [eexists; reflexivity|exact Fj]|]. cbn [List.length]. exact (f_equal Datatypes.S L).
Qed.
Lemma ends_finished (l : list cjob) : Forall finished l -> forall i, List.length (open_ends (F := cat) i l) = 2 * List.length l.
Proof.
  induction 1 as [|J l [inh ->] _ IH]; intro i; cbn [open_ends]; [reflexivity|]. rewrite app_length, IH. cbn. lia.
Qed.
End Leak.

(** ** Calls to an evaluator *)
Section Calls.
Local Open Scope Z_scope.
Lemma minsert_last id cb m : Forall (fun p => fst p < id) m -> minsert id cb m = m ++ [(id, cb)].
Proof.
  induction 1 as [|[i c] m H _ IH]; cbn in *; [reflexivity|]. destruct (Z.ltb_spec id i); [lia|]. destruct (Z.eqb_spec id i); [lia|]. now rewrite IH.
Qed.
Lemma to_int_id z : 1 <= z <= INT_MAX -> to_int z = z.
Proof. unfold INT_MAX, to_int. intro. rewrite Z.mod_small; lia. Qed.
Lemma mfind_in id m cb : mfind id m = Some cb -> In (id, cb) m.
Proof. induction m as [|[i c] m IH]; cbn; [discriminate|]. destruct (Z.eqb_spec id i) as [->|]; [intro H; injection H as ->; auto|auto]. Qed.
Lemma mfind_key id m cb : In (id, cb) m -> mfind id m <> None.
Proof. induction m as [|[i c] m IH]; cbn; [contradiction|]. intros [H|H]; [injection H as -> ->; rewrite Z.eqb_refl; discriminate|]. destruct (id =? i); [discriminate|auto]. Qed.
Lemma nodup_fst {A B} (m : list (A * B)) k x y : NoDup (map fst m) -> In (k, x) m -> In (k, y) m -> x = y.
Proof.
  induction m as [|[i c] m IH]; cbn; [contradiction|]. intros N [H|H] [H'|H']; inversion N; subst.
  - congruence.
  - injection H as -> ->. exfalso. apply H2. apply (in_map fst) in H'. exact H'.
  - injection H' as -> ->. exfalso. apply H2. apply (in_map fst) in H. exact H.
  - auto.
Qed.
Lemma nodup_snoc {A} (l : list A) x : NoDup l -> ~ In x l -> NoDup (l ++ [x]).
Proof. induction 1 as [|y l N D IH]; intro I; cbn; constructor; [now intros []|constructor| |apply IH; intro; apply I; now right]. rewrite in_app_iff. intros [H|[->|[]]]; [auto|]. apply I. now left. Qed.

Definition flying (c : client) : list Z := cl_requests c ++ map fst (cl_replies c).
Definition CInv (asked : list callback) (c : client) : Prop :=
  cl_alive c = true /\ cl_listening c = true /\ cl_killed c = false /\
  1 <= topID (cl_server c) <= INT_MAX /\
  Forall (fun p => 1 <= fst p < topID (cl_server c)) (pending (cl_server c)) /\
  NoDup (map fst (pending (cl_server c))) /\
  Forall (fun id => 1 <= id < topID (cl_server c)) (flying c) /\
  (forall p, In p (pending (cl_server c)) -> In (fst p) (flying c)) /\
  (forall cb, In cb asked -> (exists id, In (id, cb) (pending (cl_server c))) \/ exists o, In (cb, o) (cl_ran c)).
Definition asks (es : list client_event) : list callback := flat_map (fun e => match e with Ask cb => [cb] | _ => [] end) es.

Lemma CInv_step es c e c' : CInv (asks es) c -> e <> Die -> clstep c e c' -> CInv (asks (es ++ [e])) c'.
Proof.
  intros (A & Li & Ki & Top & Keys & Nd & Fl & Pe & As) D S. unfold asks in *. rewrite flat_map_app. cbn [flat_map].
  destruct S; cbn [cl_alive cl_listening cl_killed cl_server cl_requests cl_replies cl_ran] in *; try discriminate; try congruence.
  - (* ask *) unfold bindReply in H. destruct (Z.eqb_spec (topID s) INT_MAX); [discriminate|].
    rewrite minsert_last in H by (eapply Forall_impl; [|exact Keys]; cbn; lia).
    assert (G : forall m old1, m ++ [] = m -> (forall p, In p m -> In p (pending s ++ [(topID s, cb)])) -> NoDup (map fst m) ->
      (forall p, In p (pending s ++ [(topID s, cb)]) -> In p m \/ In (snd p, Error) old1) ->
      CInv (flat_map (fun e => match e with Ask cb => [cb] | _ => [] end) es ++ [cb]) (Client (Server m (topID s + 1)) (rq ++ [topID s]) true rp ls (ran ++ old1) false)).
    { intros m old1 _ Sub Nm Sup. unfold CInv, flying. cbn [cl_alive cl_listening cl_killed cl_server cl_requests cl_replies cl_ran pending topID] in *.
      split; [reflexivity|]. split; [exact Li|]. split; [reflexivity|]. split; [lia|]. split; [|split; [exact Nm|split; [|split]]].
      - apply Forall_forall. intros p I. apply Sub in I. apply in_app_iff in I as [I|[<-|[]]]; [|cbn; lia]. rewrite Forall_forall in Keys. apply Keys in I. lia.
      - apply Forall_forall. intros id1 I. rewrite <- app_assoc, in_app_iff in I. unfold flying in Fl. rewrite Forall_forall in Fl. cbn in Fl, I.
        destruct I as [I|[<-|I]]; [|lia|]; (assert (1 <= id1 < topID s) by (apply Fl, in_app_iff; auto); lia).
      - intros p I. apply Sub in I. rewrite <- app_assoc, in_app_iff. cbn. apply in_app_iff in I as [I|[<-|[]]]; [|auto].
        apply Pe in I. unfold flying in I. cbn in I. apply in_app_iff in I as [I|I]; auto.
      - intros cb' I. apply in_app_iff in I as [I|[<-|[]]].
        + apply As in I as [[id1 I]|[o I]]; [|right; exists o; apply in_app_iff; auto].
          destruct (Sup (id1, cb')) as [X|X]; [apply in_app_iff; auto|left; eauto|right; exists Error; apply in_app_iff; auto].
        + destruct (Sup (topID s, cb)) as [X|X]; [apply in_app_iff; right; now left|left; eauto|right; exists Error; apply in_app_iff; auto]. }
    assert (Nm : NoDup (map fst (pending s ++ [(topID s, cb)]))).
    { rewrite map_app. cbn. apply nodup_snoc; [exact Nd|]. intro I. apply in_map_iff in I as (p & E & I). rewrite Forall_forall in Keys. apply Keys in I. lia. }
    destruct (Nat.ltb MaxPendingCalls _).
    + destruct (pending s ++ [(topID s, cb)]) as [|[i oldest] m] eqn:M; [discriminate|]. injection H as <- <- <-. cbn [List.app]. apply G.
      * apply app_nil_r.
      * intros p I. now right.
      * now inversion Nm.
      * intros p [<-|I]; [right; now left|auto].
    + injection H as <- <- <-. apply G; auto. apply app_nil_r.
  - (* evaluate *) rewrite app_nil_r. unfold CInv, flying in *. cbn [cl_alive cl_listening cl_killed cl_server cl_requests cl_replies cl_ran] in *.
    assert (P : forall id', In id' (rq ++ map fst (rp ++ [(id, o)])) <-> In id' ((id :: rq) ++ map fst rp)).
    { intro id'. rewrite map_app, !in_app_iff. cbn. tauto. }
    repeat (split; [assumption|]). split; [|split; [|exact As]].
    + apply Forall_forall. intros id' I. rewrite Forall_forall in Fl. apply Fl. now apply P.
    + intros p I. apply P. auto.
  - (* receive *) rewrite app_nil_r. unfold onReply in H. cbn [getAsInteger] in H.
    assert (Bd : 1 <= id < topID s) by (rewrite Forall_forall in Fl; apply Fl; unfold flying; cbn; apply in_app_iff; right; now left).
    destruct (Z.ltb_spec INT_MAX id); [lia|]. rewrite to_int_id in H by lia.
    destruct (mfind id (pending s)) as [cb|] eqn:M; injection H as <- <-; unfold CInv, flying in *;
      cbn [cl_alive cl_listening cl_killed cl_server cl_requests cl_replies cl_ran pending topID map fst] in *.
    + assert (E : forall p, In p (merase id (pending s)) <-> In p (pending s) /\ fst p <> id).
      { intro p. unfold merase. rewrite filter_In. destruct (Z.eqb_spec (fst p) id); cbn; intuition congruence. }
      apply mfind_in in M. repeat (split; [first [assumption|reflexivity]|]). split; [|split; [|split; [|split]]].
      * apply Forall_forall. intros p I. apply E in I as [I _]. rewrite Forall_forall in Keys. auto.
      * clear -Nd. unfold merase. induction (pending s) as [|[i c] m IH]; cbn in *; [constructor|]. inversion Nd; subst.
        destruct (negb (i =? id)); [|auto]. cbn. constructor; [|auto]. intro I. apply H1. apply in_map_iff in I as (p & <- & I). apply filter_In in I as [I _]. now apply in_map.
      * apply Forall_forall. intros id' I. rewrite Forall_forall in Fl. apply Fl. rewrite in_app_iff in *. cbn. tauto.
      * intros p I. apply E in I as [I Ne]. apply Pe in I. rewrite in_app_iff in *. cbn in I. destruct I as [I|[I|I]]; [auto|congruence|auto].
      * intros cb' I. apply As in I as [[id' I]|[o' I]]; [|right; exists o'; apply in_app_iff; auto].
        destruct (Z.eq_dec id' id) as [->|Ne]; [|left; exists id'; apply E; auto].
        rewrite (nodup_fst _ _ _ _ Nd I M). right. exists o. apply in_app_iff. right. now left.
    + repeat (split; [first [assumption|reflexivity]|]). split; [|split].
      * apply Forall_forall. intros id' I. rewrite Forall_forall in Fl. apply Fl. rewrite in_app_iff in *. cbn. tauto.
      * intros p I. pose proof (Pe _ I) as Q. rewrite in_app_iff in *. cbn in Q. destruct Q as [Q|[Q|Q]]; [auto| |auto].
        exfalso. destruct p as [i c]. cbn in Q. subst i. exact (mfind_key _ _ _ I M).
      * intros cb' I. rewrite app_nil_r. auto.
Qed.
Lemma CInv_run c0 es c : clrun c0 es c -> c0 = client_start -> ~ In Die es -> CInv (asks es) c.
Proof.
  induction 1 as [c|c es c1 e c2 R IH S]; intros -> N.
  - unfold CInv, flying, client_start. cbn. unfold INT_MAX. repeat split; try constructor; try lia; contradiction.
  - eapply CInv_step; [apply IH; [reflexivity|]| |exact S]; intro; subst; apply N, in_app_iff; [auto|right; now left].
Qed.

Lemma asks_in cb es : In (Ask cb) es -> In cb (asks es).
Proof. intro I. apply in_flat_map. exists (Ask cb). split; [exact I|now left]. Qed.
Lemma clrun_app a es b es' c : clrun a es b -> clrun b es' c -> clrun a (es ++ es') c.
Proof. intros R R'. induction R'; [now rewrite app_nil_r|]. rewrite app_assoc. econstructor; eauto. Qed.
Lemma drains : forall n es c, (2 * List.length (cl_requests c) + List.length (cl_replies c) <= n)%nat -> CInv (asks es) c ->
  exists es' c', clrun c es' c' /\ Forall (fun e => e = Evaluate \/ e = Receive) es' /\ CInv (asks (es ++ es')) c' /\ flying c' = [].
Proof.
  induction n as [|n IH]; intros es c L I.
  - exists [], c. rewrite app_nil_r. repeat split; auto; [constructor|apply I..|]. unfold flying. destruct (cl_requests c), (cl_replies c); cbn in L; try lia. reflexivity.
  - destruct c as [s rq al rp ls ran k]. pose proof I as (A & Li & Ki & Top & _ & _ & Fl & _). cbn [cl_alive cl_listening cl_killed cl_server cl_requests cl_replies] in *. subst.
    assert (Go : forall e c', (e = Evaluate \/ e = Receive) -> clstep (Client s rq true rp true ran false) e c' ->
      (2 * List.length (cl_requests c') + List.length (cl_replies c') <= n)%nat ->
      exists es' c', clrun (Client s rq true rp true ran false) es' c' /\ Forall (fun e => e = Evaluate \/ e = Receive) es' /\ CInv (asks (es ++ es')) c' /\ flying c' = []).
    { intros e c' E S L'. assert (D : e <> Die) by (intros ->; destruct E; discriminate). pose proof (CInv_step _ _ _ _ I D S) as I'.
      destruct (IH _ _ L' I') as (es' & c2 & R & Fe & I2 & Q). exists ([e] ++ es'), c2. split; [|split; [constructor; auto|split; [|exact Q]]].
      - eapply clrun_app; [|exact R]. eapply (clrun_snoc _ [] _ e _); [constructor|exact S].
      - rewrite app_assoc. exact I2. }
    destruct rp as [|[id o] rp].
    + destruct rq as [|id rq].
      * exists [], (Client s [] true [] true ran false). rewrite app_nil_r. repeat split; auto; [constructor|apply I..].
      * eapply (Go Evaluate); [auto|apply (cl_evaluate s id rq [] true ran Error)|]. cbn in *. lia.
    + assert (Bd : 1 <= id < topID s) by (rewrite Forall_forall in Fl; apply Fl; unfold flying; cbn; apply in_app_iff; right; now left).
      destruct (onReply (JInt id) o s) as [[s' new]| |] eqn:R.
      * eapply (Go Receive); [auto|apply (cl_receive s rq id o rp ran s' new R)|]. cbn in *. lia.
      * unfold onReply in R. cbn [getAsInteger] in R. destruct (Z.ltb_spec INT_MAX id); [lia|]. destruct (mfind _ _); discriminate.
      * unfold onReply in R. cbn [getAsInteger] in R. destruct (Z.ltb_spec INT_MAX id); [lia|]. destruct (mfind _ _); discriminate.
Qed.

(** once the loop has ended only a further call can happen, and it is the last thing that does *)
Lemma after_hangup c0 es c : clrun c0 es c -> cl_alive c0 = false -> cl_listening c0 = false ->
  cl_killed c0 = false -> (es = [] /\ c = c0) \/ (exists cb, es = [Ask cb]) /\ cl_killed c = true.
Proof.
  intros R A L K. induction R as [c|c es c1 e c2 R IH S]; [auto|]. right. destruct IH as [[-> ->]|[[cb ->] K1]]; auto.
  - destruct S; cbn in *; try discriminate. split; [eauto|reflexivity].
  - destruct S; cbn in *; discriminate.
Qed.
End Calls.
