(** Proofs of the theorems stated in ProcProps. *)
From Verif Require Import Base TextModel TextSpec TextProofs TextFacts ConnModel ProcModel ProcSpec ProcProofs.

Lemma C56_partial_proof : forall F K code evaluators, before_requests evaluators -> 0 < cap_in K ->
  ends F (pinit F) code ->
  (forall out err status unread, does F (pinit F) code out err status unread ->
     List.length out <= cap_out K /\ err <= cap_err K /\ unread = []) ->
  Acc (fun after before => wstep F K before after) (World [request F code] evaluators) /\
  forall w, steps (wstep F K) (World [request F code] evaluators) w ->
    (exists w', wstep F K w w') \/
    exists J a out err status, w_jobs w = [J] /\ j_thread J = Answered a /\
      does F (pinit F) code out err status [] /\ right_answer code out status a.
Proof.
  intros F K code ws B Ci En Fit. split.
  - apply (acc_alone F K ws (request F code) B); [|reflexivity]. exact (acc_all F K code [] En _ (Inv_start F code)).
  - intros w S. destruct (steps_alone F K ws _ _ B S (request F code) eq_refl eq_refl) as (J & -> & O & SJ).
    pose proof (invariant F K code J En SJ) as I. destruct (progress F K code [] J Ci Fit I) as [[J' T]|(a & o & e & st & T & D & A)].
    + left. exists (alone F ws J'). now apply alone_wstep.
    + right. exists J, a, o, e, st. repeat (split; [first [reflexivity|assumption]|]). now apply answer_right.
Qed.

Lemma C56_no_answer_proof : forall F K code evaluators w, before_requests evaluators -> ends F (pinit F) code ->
  (forall out err status unread, does F (pinit F) code out err status unread ->
     cap_out K < List.length out \/ cap_err K < err) ->
  steps (wstep F K) (World [request F code] evaluators) w -> ~ answered w.
Proof.
  intros F K code ws w B En Big S (J & a & I & T). destruct (steps_alone F K ws _ _ B S (request F code) eq_refl eq_refl) as (J0 & -> & O & SJ).
  destruct I as [<-|[]]. exact (silent F K code [] J0 En Big SJ a T).
Qed.

Lemma C56_refuted_proof : forall K, exists F code, ends F (pinit F) code /\
  (forall out err status unread, does F (pinit F) code out err status unread -> out = code /\ err = 0 /\ status = 0%N /\ unread = []) /\
  forall w, steps (wstep F K) (World [request F code] []) w -> ~ answered w.
Proof.
  intro K. exists cat, (repeat " "%char (S (cap_out K))). split; [apply cat_ends|]. split.
  - intros o e st un D. apply cat_does in D as (-> & -> & -> & ->). auto.
  - intros w. apply C56_no_answer_proof; [constructor|apply cat_ends|]. intros o e st un D. apply cat_does in D as (_ & _ & -> & _).
    left. cbn [app]. rewrite repeat_length. lia.
Qed.

Lemma C56_two_requests_refuted_proof : forall K x, 0 < cap_in K -> 0 < cap_out K ->
  exists w, steps (wstep cat K) (World [request cat [x]; request cat [x]] []) w /\ ~ answered w /\ forall w', ~ wstep cat K w w'.
Proof.
  intros K x. apply two_requests.
Qed.

Lemma C56_evaluator_refuted_proof : forall K x, 0 < cap_in K -> 0 < cap_out K ->
  exists w, steps (fun v v' => wstep cat K v v' \/ estep cat v v') (World [request cat [x]] []) w /\
    forall w', steps (fun v v' => wstep cat K v v' \/ estep cat v v') w w' -> ~ answered w'.
Proof.
  intros K x. apply evaluator_holds.
Qed.

Lemma C56_unread_refuted_proof : forall K x, ends true1 (pinit true1) [x] /\
  exists w J, steps (wstep true1 K) (World [request true1 [x]] []) w /\ w_jobs w = [J] /\ j_thread J = Killed.
Proof.
  intros K x. split; [apply true1_ends|]. destruct (early_exit K x) as (w & S & J & A & T). exists w, J. auto.
Qed.

Lemma C71_refuted_proof : forall K n, exists w, steps (wstep cat K) (World (repeat (request cat []) n) []) w /\
  List.length (w_jobs w) = n /\ (forall J, In J (w_jobs w) -> exists a, j_thread J = Answered a) /\
  List.length (open_ends 0 (repeat (request cat []) n)) = 0 /\ List.length (open_ends 0 (w_jobs w)) = 2 * n.
Proof.
  intros K n. destruct (run_all K n [] (Forall_nil _)) as (jobs & S & Fj & L). exists (World jobs []). split; [exact S|]. split; [exact L|].
  split; [|split].
  - intros J I. rewrite Forall_forall in Fj. destruct (Fj J I) as [inh ->]. eexists. reflexivity.
  - generalize 0 at 1. clear. induction n as [|n IH]; intro i; [reflexivity|apply IH].
  - cbn [w_jobs]. rewrite (ends_finished jobs Fj 0). exact (f_equal (fun k => 2 * k) L).
Qed.

Lemma C57_partial_proof : forall es c, clrun client_start es c -> ~ In Die es ->
  (cl_requests c = [] -> cl_replies c = [] -> forall cb, In (Ask cb) es -> exists o, In (cb, o) (cl_ran c)) /\
  exists es' c', clrun c es' c' /\ Forall (fun e => e = Evaluate \/ e = Receive) es' /\
    cl_requests c' = [] /\ cl_replies c' = [].
Proof.
  intros es c R N. pose proof (CInv_run _ _ _ R eq_refl N) as I. split.
  - intros Rq Rp cb A. destruct I as (_ & _ & _ & _ & _ & _ & _ & Pe & As). destruct (As cb (asks_in _ _ A)) as [[id P]|Q]; [|exact Q].
    apply Pe in P. unfold flying in P. rewrite Rq, Rp in P. destruct P.
  - destruct (drains _ es c (le_n _) I) as (es' & c' & R' & Fe & _ & Q). exists es', c'. unfold flying in Q. apply app_eq_nil in Q as [Q1 Q2].
    repeat split; auto. destruct (cl_replies c'); [reflexivity|discriminate].
Qed.

Lemma C57_stuck_proof : forall es c, clrun client_start es c -> cl_alive c = false -> cl_listening c = false ->
  cl_killed c = false -> forall es' c', clrun c es' c' ->
  (es' = [] /\ c' = c) \/ ((exists cb, es' = [Ask cb]) /\ cl_killed c' = true).
Proof.
  intros es c _ A L K es' c' R. exact (after_hangup _ _ _ R A L K).
Qed.

Lemma C57_refuted_proof : exists es c, clrun client_start es c /\ es = [Ask 7; Evaluate; Die; HangUp] /\
  forall es' c', clrun c es' c' -> cl_killed c' = true \/ forall o, ~ In (7, o) (cl_ran c').
Proof.
  exists [Ask 7; Evaluate; Die; HangUp].
  assert (R : clrun client_start [Ask 7; Evaluate; Die; HangUp] (Client (Server [(1%Z, 7)] 2) [] false [(1%Z, Error)] false [] false)).
  { change [Ask 7; Evaluate; Die; HangUp] with (((([] ++ [Ask 7]) ++ [Evaluate]) ++ [Die]) ++ [HangUp]).
    eapply clrun_snoc; [eapply clrun_snoc; [eapply clrun_snoc; [eapply clrun_snoc; [constructor|]|]|]|].
    - eapply cl_ask. reflexivity.
    - apply (cl_evaluate _ _ _ _ _ _ Error).
    - apply cl_die.
    - apply cl_hangup. }
  eexists. split; [exact R|]. split; [reflexivity|]. intros es' c' R'.
  destruct (after_hangup _ _ _ R' eq_refl eq_refl eq_refl) as [[_ ->]|[_ K]]; [right; intros o []|left; exact K].
Qed.

Lemma C59_format_refuted_proof : forall (A : Type) (analyse : bytes -> A), exists es es' f text sp sp',
  mexec A analyse (cinit A, Idle A) es sp /\ formatSource (drafts A (fst sp)) f = Ok text /\
  mexec A analyse sp es' sp' /\ has_owner sp' f = false.
Proof.
  intros A analyse.
  exists [Start A (DidOpen (b "f") None (b "abc")); Advance A; Advance A], [Start A (DidClose (b "f")); Advance A], (b "f"), (b "abc").
  do 2 eexists. split; [|split; [|split]].
  - eapply (mexec_snoc _ _ _ [_;_]); [eapply (mexec_snoc _ _ _ [_]); [eapply (mexec_snoc _ _ _ []); [apply mexec_nil|]|]|].
    + apply m_open.
    + apply m_analyse. reflexivity.
    + apply m_insert.
  - reflexivity.
  - eapply (mexec_snoc _ _ _ [_]); [eapply (mexec_snoc _ _ _ []); [apply mexec_nil|]|].
    + apply m_close.
    + apply m_erase.
  - reflexivity.
Qed.

Lemma C59_format_unopened_refuted_proof : exists f, match formatSource [] f with Crash _ => True | _ => False end.
Proof.
  exists (b "f"). exact I.
Qed.
