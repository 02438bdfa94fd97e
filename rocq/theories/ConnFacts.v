(** Proofs of the theorems stated in ConnProps. *)
From Verif Require Import Base LexModel LexProofs ConnModel ConnSpec ConnProofs.

Lemma C13_refuted_proof :
  exists ms evs1 evs2,
    (* hang-up after the whole stream has arrived *)
    (ms <> [] /\ evs1 = [Hangup] /\ readAll 5 evs1 (stream ms) = ([], true)) /\
    (* one interrupted read, all bytes delivered *)
    (Forall (fun e => undisturbed e \/ e = Intr) evs2 /\
     exists m', readAll 1 evs2 (stream ms) = ([m'], false) /\ ~ initial_part [m'] ms).
Proof.
  exists [b "{}"; b "[]"], [Hangup], (repeat (Data 1) 22 ++ [Intr] ++ repeat (Data 1) 2).
  split.
  - split; [discriminate|]. split; [reflexivity|]. vm_compute. reflexivity.
  - split.
    + apply Forall_app. split; [|apply Forall_app; split].
      * apply Forall_forall. intros e E. apply repeat_spec in E. subst. left. exact I.
      * constructor; [now right|constructor].
      * apply Forall_forall. intros e E. apply repeat_spec in E. subst. left. exact I.
    + eexists. split; [vm_compute; reflexivity|]. intros [z E]. discriminate.
Qed.

Lemma C13_no_spurious_partial_proof :
  forall fuel evs left lost ms,
    Forall fits ms -> Forall (fun e => e <> Intr) evs -> left ++ lost = stream ms ->
    initial_part (fst (readAll fuel evs left)) ms.
Proof.
  exact readAll_part.
Qed.

Lemma C13_complete_partial_proof :
  forall ms fuel evs,
    Forall fits ms -> Forall undisturbed evs ->
    List.length (stream ms) <= List.length (filter is_data evs) -> List.length ms <= fuel ->
    fst (readAll fuel evs (stream ms)) = ms.
Proof.
  exact readAll_full.
Qed.

Lemma C14_refuted_proof :
  forall methods decodes answer m, ~ In m methods ->
  exists msg bad, is_request msg (JInt 1) m JNull /\
    let s := drun methods decodes answer [Message msg] in
    sent s = [] /\ tasks s = [] /\ running s = false /\
    (is_notification bad (b "exit") -> False) /\ running (drun methods decodes answer [Message bad]) = false.
Proof.
  intros methods decodes answer m N.
  exists (JObject [(b "jsonrpc", JString (b "2.0")); (b "id", JInt 1); (b "method", JString m)]), (JObject []).
  assert (R : is_request (JObject [(b "jsonrpc", JString (b "2.0")); (b "id", JInt 1); (b "method", JString m)]) (JInt 1) m JNull).
  { eexists. split; [split; reflexivity|]. repeat split. }
  split; [exact R|]. unfold drun. cbn [fold_left dstep running dinit].
  rewrite (dispatch_request methods decodes _ _ _ _ _ R).
  destruct (method_known methods m) eqn:K; [apply method_known_spec in K; contradiction|].
  cbn [sent tasks running dinit]. repeat split. intros (o & (E & J) & _). injection E as <-. discriminate.
Qed.

Lemma C14_at_most_once_proof :
  forall methods decodes answer es rs, requests decodes answer es rs ->
    exists unanswered, Permutation (sent (drun methods decodes answer es) ++ unanswered) rs.
Proof.
  intros methods decodes answer es rs R. destruct (drun_at_most methods decodes answer es rs R) as [_ [rest P]].
  unfold due in P. rewrite <- app_assoc in P. eauto.
Qed.

Lemma C14_partial_proof :
  forall methods decodes answer es rs,
    Forall (conforming_event methods) es -> requests decodes answer es rs ->
    running (drun methods decodes answer es) = true /\
    (tasks (drun methods decodes answer es) = [] -> Permutation (sent (drun methods decodes answer es)) rs) /\
    (* the handlers can always finish, and then everything is answered *)
    exists n, tasks (drun methods decodes answer (es ++ repeat (Finish 0) n)) = [] /\
      Permutation (sent (drun methods decodes answer (es ++ repeat (Finish 0) n))) rs.
Proof.
  intros methods decodes answer es rs C R.
  destruct (drun_exactly methods decodes answer es rs C R) as (A & D & P). split; auto. split.
  - intros T. unfold due in P. now rewrite T, app_nil_r in P.
  - exists (List.length (tasks (drun methods decodes answer es))).
    destruct (finish_all methods decodes answer _ _ D eq_refl) as (T & S & _).
    unfold drun in *. rewrite fold_left_app. split; auto. etransitivity; [exact S|exact P].
Qed.

Lemma C14_requests_defined_proof :
  forall decodes answer es, exists rs, requests decodes answer es rs /\
    forall rs', requests decodes answer es rs' -> rs' = rs.
Proof.
  intros decodes answer es. destruct (requests_total decodes answer es) as [rs R]. exists rs. split; auto.
  intros rs' R'. exact (requests_det decodes answer es rs' rs R' R).
Qed.

Lemma C15_ids_proof :
  forall ops s t, NoDup (calls ops) -> op_run ops server_init = Ok (s, t) ->
    NoDup (issued t) /\ List.length (issued t) = List.length (calls ops).
Proof.
  intros ops s t N E. destruct (op_run_init ops s t N E) as (H & _ & Nm & _). split.
  - rewrite (ti_issued _ (si_t _ _ H)). apply FinFun.Injective_map_NoDup; [|apply seq_NoDup].
    intros x y X. lia.
  - rewrite <- Nm. clear. induction t as [|[] t IH]; cbn [issued names flat_map app List.length] in *; auto.
Qed.

Lemma C15_delivered_proof :
  forall methods decodes answer es rs, Forall (conforming_event methods) es -> responses es rs ->
    replies_in (drun methods decodes answer es) = rs.
Proof.
  intros methods decodes answer es rs C R. unfold drun. now rewrite (drun_responses methods decodes answer es rs C R).
Qed.

Lemma C15_bounded_proof :
  forall ops s t, NoDup (calls ops) -> op_run ops server_init = Ok (s, t) ->
    (forall l, NoDup l -> (forall i cb, In (i, cb) l -> waiting t cb i) -> List.length l <= 100) /\
    (forall t1 t2 l, t = t1 ++ t2 -> NoDup l -> (forall i cb, In (i, cb) l -> waiting t1 cb i) -> List.length l <= 101).
Proof.
  intros ops s t N E. destruct (op_run_init ops s t N E) as (H & O & _). split.
  - apply waiting_count; [apply (si_t _ _ H)|apply (si_len _ _ H)].
  - intros t1 t2 l ->. pose proof (tinv_part t1 t2 O (si_t _ _ H)) as T. apply waiting_count; auto.
    destruct t2 as [|x t2].
    + pose proof (si_len _ _ H) as L. rewrite app_nil_r in L. lia.
    + apply (O t1 x t2 eq_refl).
Qed.

Lemma C15_once_proof :
  forall ops s t cb, NoDup (calls ops) -> op_run ops server_init = Ok (s, t) -> runs_of cb t <= 1.
Proof.
  intros ops s t cb N E. destruct (op_run_init ops s t N E) as (H & _). apply (ti_once _ (si_t _ _ H)).
Qed.

Lemma C15_right_reply_partial_proof :
  forall ops s t t1 t2 cb z r, NoDup (calls ops) -> op_run ops server_init = Ok (s, t) ->
    t = t1 ++ Ran cb (Some z) r :: t2 -> int32 z ->
    waiting t1 cb z /\ exists id, In (Reply id r) ops /\ getAsInteger id = Some z.
Proof.
  intros ops s t t1 t2 cb z r N E -> I. destruct (op_run_init ops s _ N E) as (_ & O & _ & R). split.
  - destruct (O t1 _ t2 eq_refl) as [_ W]. cbn in W. now rewrite to_int_id in W.
  - apply (R cb z r). apply in_or_app. right. now left.
Qed.

Lemma C15_evicted_proof :
  forall ops s t t1 t2 cb r, NoDup (calls ops) -> op_run ops server_init = Ok (s, t) ->
    t = t1 ++ Ran cb None r :: t2 ->
    r = Error /\ exists i, waiting t1 cb i /\ (forall cb' i', waiting t1 cb' i' -> cb' <> cb -> (i < i')%Z) /\
    exists l, NoDup l /\ List.length l = 101 /\ forall j c, In (j, c) l -> waiting t1 c j.
Proof.
  intros ops s t t1 t2 cb r N E ->. destruct (op_run_init ops s _ N E) as (H & O & _ & _).
  pose proof (tinv_part t1 _ O (si_t _ _ H)) as T.
  destruct (O t1 _ t2 eq_refl) as (_ & R & L & i & W & M). split; auto. exists i. split; auto. split; auto.
  exists (pend t1). split; [apply sorted_nodup, (ti_sorted _ T)|]. split; auto. intros j c. apply (ti_wait _ T).
Qed.

Lemma C15_completed_proof :
  forall ops s t cb i r, NoDup (calls ops) -> op_run ops server_init = Ok (s, t) -> waiting t cb i ->
    exists s', op_step (Reply (JInt i) r) s = Ok (s', [Ran cb (Some i) r]).
Proof.
  intros ops s t cb i r N E W. destruct (op_run_init ops s _ N E) as (H & _).
  pose proof (si_t _ _ H) as T. apply (ti_wait _ T) in W. pose proof (pend_bound _ _ _ T W) as B.
  pose proof (si_max _ _ H) as M. rewrite (si_top _ _ H) in M. unfold INT_MAX in M.
  cbn [op_step]. unfold onReply. cbn [getAsInteger].
  destruct (Z.ltb_spec INT_MAX i) as [L|L]; [unfold INT_MAX in L; lia|].
  rewrite to_int_id by (unfold int32; lia). rewrite (si_pend _ _ H), (mfind_some _ _ _ W (ti_sorted _ T)).
  cbn [bind List.map fst snd]. eauto.
Qed.

Lemma C15_safe_proof :
  forall ops, NoDup (calls ops) -> (Z.of_nat (List.length (calls ops)) < 2147483647)%Z ->
    (forall id r, In (Reply id r) ops -> exists z, getAsInteger id = Some z /\ (z <= 2147483647)%Z) ->
    exists s t, op_run ops server_init = Ok (s, t).
Proof.
  intros ops N L G. apply (op_run_ok ops server_init [] sinv_init N); [cbn [topID server_init]; unfold INT_MAX; lia|exact G].
Qed.

Lemma C15_refuted_proof :
  exists ops s t cb z r, NoDup (calls ops) /\ op_run ops server_init = Ok (s, t) /\
    In (Ran cb (Some z) r) t /\ forall i, In (Issued cb i) t -> i <> z.
Proof.
  exists [Call 7; Reply (JInt (-4294967295)) (Result JNull)].
  do 5 eexists. split; [repeat constructor; tauto|]. split; [vm_compute; reflexivity|].
  split; [right; left; reflexivity|]. intros i [E|[E|[]]]; [injection E as <-; discriminate|discriminate].
Qed.

Lemma C16_refuted_proof :
  (exists w1 w2 w3, onReply (JString (b "1")) Error server_init = Crash w1 /\
     onReply JNull Error server_init = Crash w2 /\ onReply (JInt 2147483648) Error server_init = Crash w3) /\
  exists s z cb, mfind z (pending s) = None /\ exists s' r, onReply (JInt z) r s = Ok (s', [(cb, r)]).
Proof.
  split; [do 3 eexists; repeat split|].
  exists (Server [(1%Z, 3)] 2), (-4294967295)%Z, 3. split; [reflexivity|]. exists (Server [] 2), Error.
  vm_compute. reflexivity.
Qed.

Lemma C16_partial_proof :
  forall id r s,
    ((exists w, onReply id r s = Crash w) <->
       match getAsInteger id with Some z => (2147483647 < z)%Z | None => True end) /\
    (forall z, getAsInteger id = Some z -> int32 z -> (forall cb, ~ In (z, cb) (pending s)) -> onReply id r s = Ok (s, [])).
Proof.
  intros id r s. unfold onReply. split.
  - destruct (getAsInteger id) as [z|]; [|split; eauto].
    destruct (Z.ltb_spec INT_MAX z) as [L|L]; unfold INT_MAX in L.
    + split; eauto.
    + split; [|lia]. intros [w E]. destruct (mfind _ _); discriminate.
  - intros z -> I N. destruct (Z.ltb_spec INT_MAX z) as [L|L]; [unfold int32, INT_MAX in *; lia|].
    rewrite to_int_id by auto. destruct (mfind z (pending s)) as [cb|] eqn:F; auto.
    apply mfind_in in F. now apply N in F.
Qed.
