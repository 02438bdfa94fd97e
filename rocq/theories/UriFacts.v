(** Proofs of the theorems stated in UriProps. *)
From Verif Require Import Base UriModel UriSpec UriProofs.

Lemma C11_refuted_proof :
  exists p1 p2 p3,
    (starts_with (b "/") p1 = true /\ exists u, uriOfFile p1 = Ok u /\ fileOfUri u = Ok (Some (b "c:/x.nix"))
       /\ p1 <> b "c:/x.nix") /\
    (starts_with (b "/") p2 = true /\ exists u, uriOfFile p2 = Ok u /\ fileOfUri u = Ok (Some (b "/a/b.nix"))
       /\ p2 <> b "/a/b.nix") /\
    (starts_with (b "/") p3 = true /\ exists why, uriOfFile p3 = Crash why).
Proof.
  exists (b "/c:/x.nix"), (b "/a\b.nix"), (b "//a").
  split; [|split]; (split; [reflexivity|]).
  - eexists. split; [vm_compute; reflexivity|]. split; [vm_compute; reflexivity|discriminate].
  - eexists. split; [vm_compute; reflexivity|]. split; [vm_compute; reflexivity|discriminate].
  - eexists. vm_compute. reflexivity.
Qed.

Lemma C11_partial_proof :
  forall p, starts_with (b "/") p = true ->
    (path_survives p <-> ~ In "\"%char p /\ ~ drive_like p /\ ~ net_only p).
Proof.
  exact survives_iff.
Qed.

Lemma C12_lossless_proof : forall s, percentDecode (percentEncode s) = Ok s.
Proof.
  intros s. rewrite percentDecode_dec, dec_encode. reflexivity.
Qed.

Lemma C12_safe_proof : forall s, encoded (percentEncode s).
Proof.
  exact encode_encoded.
Qed.

Lemma C12_total_proof : forall s, exists r, percentDecode s = Ok r /\ decodes s r.
Proof.
  intros s. exists (dec s). split; [apply percentDecode_dec|apply dec_decodes].
Qed.

Lemma C64_refuted_proof :
  exists s why, openUri s = Crash why.
Proof.
  exists (b "file:///c:/x.nix"), "the path is relative"%string. vm_compute. reflexivity.
Qed.

Lemma C64_partial_proof :
  forall s, exists f, fileOfUri s = Ok f /\
    match f with
    | None => openUri s = Ok None
    | Some p => starts_with (b "/") p = true -> ~ net_only p -> exists u, openUri s = Ok (Some u)
    end.
Proof.
  intros s. destruct (fileOfUri_total s) as [f E]. exists f. split; auto. destruct f as [p|].
  - intros Hp Hn. now apply (openUri_ok s p).
  - unfold openUri. rewrite E. reflexivity.
Qed.

Lemma C64_absolute_proof :
  forall s p, fileOfUri s = Ok (Some p) ->
    (exists r, p = "/"%char :: r) \/ (exists c r, In c letters /\ p = c :: ":"%char :: r).
Proof.
  intros s p. unfold fileOfUri. destruct (parseUri s) as [[u|]| |]; cbn [bind]; try discriminate.
  destruct (bytes_eqb (u_scheme u) (b "file")); [|discriminate]. unfold getAbsolutePath.
  destruct (starts_with (b "/") (u_body u)) eqn:E; cbn [negb]; [|discriminate].
  assert (exists q, u_body u = "/"%char :: q) as [q E'].
  { destruct (u_body u) as [|c q]; [discriminate|]. exists q. f_equal.
    change (starts_with (b "/") (c :: q)) with (Ascii.eqb "/" c && true)%bool in E.
    apply andb_true_iff in E as [E _]. now apply Ascii.eqb_eq in E. }
  clear E. rewrite E'. cbn [skipn]. intros [= <-]. destruct (u_authority u) as [|a au].
  - destruct (isWindowsPath q) eqn:W.
    + right. apply drive_windows in W as (c & r & Hc & ->). exists c, (native r). split; [exact Hc|].
      unfold native. cbn [List.map]. change (Ascii.eqb ":" "\") with false. destruct (Ascii.eqb_spec c "\") as [->|]; [|reflexivity].
      exfalso. revert Hc. vm_compute. intuition discriminate.
    + left. exists (native q). reflexivity.
  - left. eexists. reflexivity.
Qed.
