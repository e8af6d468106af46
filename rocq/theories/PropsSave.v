(** Property theorems about saving a field (C31-C40, C48, C49, C53).

    Reading guide.  [with_path s p fuel r e] saves the field [r] is at, with builder settings [s],
    destination path [p] and environment [e] (file system, scheduled errors and short writes); [fuel]
    bounds the loop iterations ([SFuel]: not finished; see C38).  [rem r] is the part of the body not
    consumed yet. *)

From Verif Require Import Bytes BytesProofs Spec Io Boundary BoundaryProofs Utf8 Utf8Proofs Httparse Field FieldProofs
  ContentProofs DataProofs ShortProofs EntryProofs ReaderProofs Drive DriveProofs ReachProofs Toy PropsReader Rand Fs Save SaveProofs
  PhaseProofs SaveFacts TextProofs.

Definition no_failures (f : fs) : env := mkEnv f [] [] [].

(** A body with one field. *)
Definition one_field (data : bytes) : bytes := toy_part (bs "a") data ++ toy_end.

(** The state after [read_entry] returned the first field. *)
Definition first_field (t : transport) : breader := snd (read_entry toy true (with_body t (bs "b"))).

Ltac first_field :=
  match goal with |- at_field _ _ ?t _ _ _ => exists [], [], (with_body t (bs "b")); split; vm_compute; reflexivity end.

(** ** C31: what is written is what was consumed *)
Theorem C31_write_to : forall ML trim t b r s fuel sched x w r',
  reached ML trim t b r ->
  write_to write_dest s fuel (mkDest [] sched) r = (x, w, r') ->
  rem r = d_out w ++ rem r' /\
  match x with
  | Full n | Part n _ => n = N.of_nat (length (d_out w))
  | SErr _ => d_out w = []
  | SPanic => False
  | SFuel => True
  end.
Proof.
  intros ML trim t b r s fuel sched x w r' Hr H. pose proof (reached_inv _ _ _ _ _ Hr) as (I1 & _).
  pose proof (write_to_spec _ _ _ _ _ _ _ _ _ writes_dest dest_copies dest_all I1 H) as (d & M & Hd & Np & _ & X).
  unfold dest_took in Hd. simpl in Hd. pose proof (moved_spec _ _ _ M I1) as (_ & R & _).
  rewrite Hd. split; auto. destruct x; tauto.
Qed.

(** The bytes kept by a save that stays in memory are exactly those consumed. *)
Theorem C31_memory : forall ML trim t b r s p fuel e x r' e',
  reached ML trim t b r -> with_path s p fuel r e = (x, r', e') ->
  match x with
  | Full (SText w) | Full (SBytes w) | Part (SText w) _ | Part (SBytes w) _ => rem r = w ++ rem r'
  | SPanic => False
  | _ => True
  end.
Proof.
  intros ML trim t b r s p fuel e x r' e' Hr H. pose proof (reached_inv _ _ _ _ _ Hr) as (I1 & _).
  apply with_path_cases in H as [(-> & d & M & _ & X)|(ob & r1 & b0 & M & _ & _ & _ & _ & _ & H)]; auto.
  - pose proof (moved_spec _ _ _ M I1) as (_ & R & _).
    destruct x as [[w|w|]|[w|w|] ?| | |]; simpl in X; auto; destruct X as [-> _]; exact R.
  - pose proof (moved_spec _ _ _ M I1) as (J1 & _).
    apply save_disk_spec in H as (d & _ & N & _ & _ & [(_ & (k & ->) & _)|(w & _ & X)]); auto.
    destruct x as [[| |]|[| |] ?| | |]; auto.
    + destruct X as (_ & X & _). discriminate.
    + destruct X as (_ & X & _). discriminate.
    + destruct X as [(_ & X & _)|(_ & _ & _ & X & _)]; discriminate.
    + destruct X as [(_ & X & _)|(_ & _ & _ & X & _)]; discriminate.
Qed.

(** The file written by a save with the default options contains exactly the bytes consumed; if writing
    failed, [lost] were consumed but not written. *)
Theorem C31_file : forall ML trim t b r s p fuel e x r' e' q n,
  reached ML trim t b r -> s_opts s = default_opts -> with_path s p fuel r e = (x, r', e') ->
  (x = Full (SFile q n) -> exists w, e_fs e' p = Some (NFile w) /\ q = p /\ rem r = w ++ rem r' /\ n = N.min (N.of_nat (length w)) (2 ^ 64 - 1)) /\
  (forall why, x = Part (SFile q n) why -> exists w lost, e_fs e' p = Some (NFile w) /\ q = p /\ rem r = w ++ lost ++ rem r' /\
     ((lost = [] /\ n = N.min (N.of_nat (length w)) (2 ^ 64 - 1)) \/ (n = N.of_nat (length w) /\ exists k, why = RIo (XDst k)))).
Proof. change (2 ^ 64 - 1)%N with U64MAX.
  intros ML trim t b r s p fuel e x r' e' q n Hr Ho H. pose proof (reached_inv _ _ _ _ _ Hr) as (I1 & _).
  apply with_path_cases in H as [(-> & d & M & _ & X)|(ob & r1 & b0 & M & _ & _ & _ & _ & _ & H)]; auto.
  { destruct x as [[w|w|]|[w|w|] ?| | |]; simpl in X; try tauto; split; intros; discriminate. }
  pose proof (moved_spec _ _ _ M I1) as (J1 & R0 & _).
  apply save_disk_spec in H as (d & M1 & N & _ & _ & [(_ & (k & ->) & _)|(w & (base & Ob & St) & X)]); auto.
  { split; intros; discriminate. }
  rewrite Ho in Ob, St. destruct Ob as [(_ & _ & ->)|(c & _ & Ob & _)]; [|discriminate].
  cbn [o_append default_opts] in St. unfold put in St. rewrite firstn_O, skipn_nil, app_nil_r in St. cbn [app] in St.
  pose proof (moved_spec _ _ _ M1 J1) as (_ & R1 & _).
  split.
  - intros ->. destruct X as (-> & X & _). injection X as -> ->. exists (ob ++ d). split; auto. split; auto.
    rewrite R0, R1, <- app_assoc. split; auto. unfold sat_add. rewrite app_length. f_equal. lia.
  - intros why ->. destruct X as [(-> & X & _)|(-> & -> & (lost & _ & ->) & X & K)].
    + injection X as -> ->. exists (ob ++ d), []. split; auto. split; auto. rewrite R0, R1, <- !app_assoc. split; auto.
      left. split; auto. unfold sat_add. rewrite app_length. f_equal. lia.
    + injection X as -> ->. exists w, lost. split; auto. split; auto. rewrite R0, <- !app_assoc. split; auto.
Qed.

(** A write to a destination that takes two bytes, is interrupted, takes one byte and then fails. *)
Example C31_example :
  write_to write_dest saver_new 100 (mkDest [] [WAccept 2; WFail KInterrupted; WAccept 1; WFail (KOther 5)])
    (first_field [Chunk (one_field (bs "hello"))]) =
  (Part 3%N (RIo (XDst (KOther 5))), mkDest (bs "hel") [],
   consume 3 (snd (read_to_boundary (first_field [Chunk (one_field (bs "hello"))])))).
Proof. vm_compute. reflexivity. Qed.

(** A save that spills to disk: 3000 bytes, threshold 1500. *)
Definition big_chunks : transport :=
  [Chunk (bs "--b" ++ CRLF ++ toy_head (bs "a") ++ repeat 120%N 1000); Chunk (repeat 121%N 1000);
   Chunk (repeat 122%N 1000 ++ CRLF ++ toy_end)].
Definition big_saver : saver := mkSaver 5000 256 1500 TTry default_opts.

Example C31_example_file :
  let '(x, r', e') := with_path big_saver [bs "tmp"; bs "f"] 100 (first_field big_chunks) (no_failures (fun _ => None)) in
  x = Full (SFile [bs "tmp"; bs "f"] 3000) /\
  e_fs e' [bs "tmp"; bs "f"] = Some (NFile (repeat 120%N 1000 ++ repeat 121%N 1000 ++ repeat 122%N 1000)) /\
  e_fs e' [bs "tmp"] = Some NDir.
Proof. vm_compute. repeat split; reflexivity. Qed.

(** ** C32: Full means complete *)

(** What is stored by a full save that used the default options, and that the end of the field was seen. *)
Lemma full_ended s p fuel r e v r' e' : inv r -> s_opts s = default_opts -> with_path s p fuel r e = (Full v, r', e') ->
  exists w, readable v (e_fs e') = Some w /\ ended r w r' /\
            ((N.of_nat (length w) <= U64MAX)%N -> saved_size v = N.of_nat (length w)).
Proof.
  intros I1 Ho H.
  apply with_path_cases in H as [(-> & d & M & _ & X)|(ob & r1 & b0 & M & _ & _ & _ & _ & _ & H)]; auto.
  { destruct v as [w|w|]; simpl in X; try tauto; exists w; destruct X as [-> X]; simpl; tauto. }
  pose proof (moved_spec _ _ _ M I1) as (J1 & R0 & _).
  apply save_disk_spec in H as (d & M1 & N & _ & _ & [(_ & (k & X) & _)|(w & (base & Ob & St) & X)]); auto; [discriminate|].
  rewrite Ho in Ob, St. destruct Ob as [(_ & _ & ->)|(c & _ & Ob & _)]; [|discriminate].
  cbn [o_append default_opts] in St. unfold put in St. rewrite firstn_O, skipn_nil, app_nil_r in St. cbn [app] in St.
  destruct X as (-> & -> & X). exists (ob ++ d). cbn [readable saved_size]. rewrite St. split; auto.
  split; [eapply pending_app; eauto|]. unfold sat_add. rewrite app_length. lia.
Qed.

(** False of the code: a body cut off in the middle of a field is saved as Full (witness: the transport
    ends after "hello wor", there is no delimiter). *)
Definition cut_chunks : transport := [Chunk (bs "--b" ++ CRLF ++ toy_head (bs "a") ++ bs "hello wor")].

Theorem C32_refuted : exists t h r v r' e',
  at_field toy true t (bs "b") h r /\ live t /\ quiet t /\ absent (delimiter (bs "b")) (rem r) /\
  with_path saver_new [bs "f"] 100 r (no_failures (fun _ => None)) = (Full v, r', e').
Proof.
  exists cut_chunks, (mkFH toy (bs "a") None None), (first_field cut_chunks), (SText (bs "hello wor")).
  do 2 eexists.
  split; [first_field|]. split; [intros [H|[]]; discriminate|]. split; [intros k [H|[]]; discriminate|].
  split; [|vm_compute; reflexivity].
  pose proof (find_first_split (delimiter (bs "b")) (rem (first_field cut_chunks)) ltac:(discriminate)) as F. exact F.
Qed.

(** The part that holds: a field that is terminated by a delimiter is saved completely if the result is
    Full, in memory or on disk, whatever errors, interruptions and short writes occurred on the way. *)
Theorem C32_terminated_partial : forall ML trim t b h r s p fuel e v r' e' c,
  at_field ML trim t b h r -> live t -> exact_chunks (delimiter b) t [c] -> s_opts s = default_opts ->
  content (delimiter b) (rem r) c ->
  with_path s p fuel r e = (Full v, r', e') -> readable v (e_fs e') = Some c.
Proof.
  intros ML trim t b h r s p fuel e v r' e' c Hf Hl Hns Ho Hc H.
  pose proof (at_field_inv _ _ _ _ _ _ Hf) as I1.
  apply full_ended in H as (w & Hw & En & _); auto.
  now rewrite <- (ended_content _ _ _ _ _ _ _ _ _ Hf Hl Hns En Hc).
Qed.

(** Without the condition on the chunking (C03) there can be one surplus CRLF, nothing else. *)
Theorem C32_any_chunking_partial : forall ML trim t b h r s p fuel e v r' e' pre post,
  at_field ML trim t b h r -> live t -> s_opts s = default_opts ->
  first_split (delimiter b) (rem r) pre post ->
  with_path s p fuel r e = (Full v, r', e') ->
  exists w, readable v (e_fs e') = Some w /\ (pre = w \/ pre = w ++ CRLF).
Proof.
  intros ML trim t b h r s p fuel e v r' e' pre post Hf Hl Ho FS H.
  pose proof (at_field_inv _ _ _ _ _ _ Hf) as I1.
  apply full_ended in H as (w & Hw & En & _); auto.
  exists w. split; auto. eapply ended_pre; eauto.
Qed.

Example C32_example :
  at_field toy true [Chunk (one_field (bs "hello"))] (bs "b") (mkFH toy (bs "a") None None)
    (first_field [Chunk (one_field (bs "hello"))]) /\
  content (delimiter (bs "b")) (rem (first_field [Chunk (one_field (bs "hello"))])) (bs "hello") /\
  fst (fst (with_path saver_new [bs "f"] 100 (first_field [Chunk (one_field (bs "hello"))]) (no_failures (fun _ => None))))
    = Full (SText (bs "hello")).
Proof.
  split; [first_field|]. split; [|vm_compute; reflexivity].
  exists (bs "hello" ++ CRLF), (DASHES ++ CRLF). split; [|left; reflexivity].
  apply find_split; vm_compute; reflexivity.
Qed.

(** ** C33: the size limit *)

(** False of the code: the limit is applied once to the bytes read into memory and once more to the bytes
    written after that.  Here 2424 bytes are saved with a limit of 1500. *)
Definition limit_chunks : transport :=
  [Chunk (bs "--b" ++ CRLF ++ toy_head (bs "a") ++ repeat 120%N 1024); Chunk (repeat 121%N 1400 ++ CRLF ++ toy_end)].

Theorem C33_refuted : exists t h r s p e q n r' e',
  at_field toy true t (bs "b") h r /\
  with_path s p 100 r e = (Full (SFile q n), r', e') /\ (s_size_limit s < n)%N /\
  (exists c, e_fs e' q = Some (NFile c) /\ N.of_nat (length c) = n).
Proof.
  exists limit_chunks, (mkFH toy (bs "a") None None), (first_field limit_chunks),
    (mkSaver 1500 256 1030 TTry default_opts), [bs "f"], (no_failures (fun _ => None)), [bs "f"], 2424%N.
  do 2 eexists. split; [first_field|]. split; [vm_compute; reflexivity|]. split; [reflexivity|].
  eexists. split; vm_compute; reflexivity.
Qed.

(** What holds: the limit bounds [write_to] and everything kept in memory; a file has at most
    [size_limit + min(size_limit, memory_threshold)] bytes. *)
Theorem C33_write_to_partial : forall ML trim t b r s fuel sched x w r',
  reached ML trim t b r -> (s_size_limit s < U64MAX)%N ->
  write_to write_dest s fuel (mkDest [] sched) r = (x, w, r') ->
  (N.of_nat (length (d_out w)) <= s_size_limit s)%N.
Proof.
  intros ML trim t b r s fuel sched x w r' Hr L H. pose proof (reached_inv _ _ _ _ _ Hr) as (I1 & _).
  pose proof (write_to_spec _ _ _ _ _ _ _ _ _ writes_dest dest_copies dest_all I1 H) as (d & M & Hd & Np & B & X).
  unfold dest_took in Hd. simpl in Hd. rewrite Hd. auto.
Qed.

Theorem C33_path_partial : forall ML trim t b r s p fuel e x r' e',
  reached ML trim t b r -> (s_size_limit s < U64MAX)%N -> s_opts s = default_opts ->
  with_path s p fuel r e = (x, r', e') ->
  forall v, (x = Full v \/ exists why, x = Part v why) ->
  (is_memory v = true -> (saved_size v <= s_size_limit s)%N) /\
  (is_memory v = false -> exists c, e_fs e' p = Some (NFile c) /\
     (N.of_nat (length c) <= s_size_limit s + N.min (s_size_limit s) (s_threshold s))%N).
Proof.
  intros ML trim t b r s p fuel e x r' e' Hr L Ho H v Hv. pose proof (reached_inv _ _ _ _ _ Hr) as (I1 & _).
  assert (Lm : (mem_min s < U64MAX)%N) by (unfold mem_min; lia).
  apply with_path_cases in H as [(-> & d & M & B & X)|(ob & r1 & b0 & M & _ & _ & _ & _ & B & H)]; auto.
  { specialize (B Lm). assert (E : saved_size v = N.of_nat (length d) /\ is_memory v = true).
    { destruct Hv as [->|[why ->]]; destruct v; simpl in *; try tauto; destruct X as [-> _]; auto. }
    destruct E as [-> ->]. split; [|discriminate]. unfold mem_min in B. lia. }
  specialize (B Lm). pose proof (moved_spec _ _ _ M I1) as (J1 & R0 & _).
  apply save_disk_spec in H as (d & M1 & N & Bd & _ & [(_ & (k & ->) & _)|(w & (base & Ob & St) & X)]); auto.
  { destruct Hv as [Hv|[why Hv]]; discriminate. }
  specialize (Bd L).
  rewrite Ho in Ob, St. destruct Ob as [(_ & _ & ->)|(c & _ & Ob & _)]; [|discriminate].
  cbn [o_append default_opts] in St. unfold put in St. rewrite firstn_O, skipn_nil, app_nil_r in St. cbn [app] in St.
  assert (E : is_memory v = false /\ (N.of_nat (length w) <= N.of_nat (length ob) + N.of_nat (length d))%N).
  { destruct Hv as [->|[why ->]].
    - destruct X as (-> & -> & _). split; auto. rewrite app_length. lia.
    - destruct X as [(-> & -> & _)|(-> & _ & (l & _ & ->) & -> & _)]; split; auto; rewrite app_length; lia. }
  destruct E as [-> E]. split; [discriminate|]. intros _. exists w. split; auto. unfold mem_min in B. lia.
Qed.

(** ** C34: small limits never touch the disk *)

(** False of the code: with [size_limit = 10 <= memory_threshold] and a first buffer of 20 bytes an empty
    file is created. *)
Theorem C34_refuted : exists t h r s p e x r' e',
  at_field toy true t (bs "b") h r /\ (s_size_limit s <= s_threshold s)%N /\
  with_path s p 100 r e = (x, r', e') /\ e_fs e p = None /\ e_fs e' p = Some (NFile []).
Proof.
  exists [Chunk (one_field (repeat 120%N 20))], (mkFH toy (bs "a") None None), (first_field [Chunk (one_field (repeat 120%N 20))]),
    (mkSaver 10 256 10240 TTry default_opts), [bs "f"], (no_failures (fun _ => None)).
  do 3 eexists. split; [first_field|]. split; [vm_compute; discriminate|]. split; [vm_compute; reflexivity|].
  split; vm_compute; reflexivity.
Qed.

(** The part that holds is below ([C35_fits_partial]): a field that fits never touches the disk. *)

(** ** C35: the memory threshold *)
Theorem C35_bound : forall ML trim t b r s p fuel e x r' e' v,
  reached ML trim t b r -> (N.min (s_size_limit s) (s_threshold s) < U64MAX)%N ->
  with_path s p fuel r e = (x, r', e') -> (x = Full v \/ exists why, x = Part v why) ->
  is_memory v = true -> (saved_size v <= N.min (s_size_limit s) (s_threshold s))%N.
Proof.
  intros ML trim t b r s p fuel e x r' e' v Hr L H Hv Hm. pose proof (reached_inv _ _ _ _ _ Hr) as (I1 & _).
  apply with_path_cases in H as [(-> & d & M & B & X)|(ob & r1 & b0 & M & _ & _ & _ & _ & B & H)]; auto.
  { specialize (B L). 
    destruct Hv as [->|[why ->]]; destruct v; simpl in *; try discriminate; destruct X as [-> _]; exact B. }
  exfalso. pose proof (moved_spec _ _ _ M I1) as (J1 & R0 & _).
  apply save_disk_spec in H as (d & M1 & N & Bd & _ & [(_ & (k & ->) & _)|(w & _ & X)]); auto.
  { destruct Hv as [Hv|[why Hv]]; discriminate. }
  destruct Hv as [->|[why ->]].
  - destruct X as (_ & -> & _). discriminate.
  - destruct X as [(_ & -> & _)|(_ & _ & _ & -> & _)]; discriminate.
Qed.

(** The second half of C35 ("a field that fits does not touch the disk", for all chunkings) is false of the
    code: with the chunks of C03 a field of exactly [memory_threshold] bytes is written to a file. *)
Theorem C35_refuted : exists t h r s p e c v r' e',
  at_field toy true t (bs "b") h r /\ live t /\ quiet t /\ content (delimiter (bs "b")) (rem r) c /\
  (N.of_nat (length c) <= N.min (s_size_limit s) (s_threshold s))%N /\
  with_path s p 2000 r e = (Full v, r', e') /\ e_fs e p = None /\ e_fs e' p = Some (NFile (c ++ CRLF)).
Proof.
  exists C03_t1, (mkFH toy (bs "a") None None), (first_field C03_t1), (mkSaver 5000 256 1023 TTry default_opts),
    [bs "f"], (no_failures (fun _ => None)), (repeat 120%N 1023).
  do 3 eexists. split; [first_field|].
  split; [intros [H|[H|[]]]; discriminate|]. split; [intros k [H|[H|[]]]; discriminate|].
  split.
  { exists (repeat 120%N 1023 ++ CRLF), (DASHES ++ CRLF). split; [|left; reflexivity].
    apply find_split; vm_compute; reflexivity. }
  split; [vm_compute; discriminate|]. split; [vm_compute; reflexivity|]. split; vm_compute; reflexivity.
Qed.

(** What is common to the two theorems below: [n] bounds whatever the reader can hand out. *)
Lemma fits_gen r s p fuel e x r' e' n : inv r ->
  (forall d r2, moved r d r2 -> length d <= n) ->
  (N.of_nat n <= N.min (s_size_limit s) (s_threshold s))%N ->
  with_path s p fuel r e = (x, r', e') ->
  e' = e /\ (forall v, x = Full v -> is_memory v = true) /\ (forall v why, x = Part v why -> is_memory v = true /\ why <> RSize).
Proof.
  intros I1 Hn L H.
  assert (Pn : forall d r2 b0, pending r d r2 b0 -> b0 <> [] -> (N.of_nat (length d) < N.of_nat n)%N /\
     (N.of_nat (length d) + N.of_nat (length b0) <= N.of_nat n)%N).
  { intros d r2 b0 P Nb. apply pending_moved in P; auto. apply Hn in P. rewrite app_length in P.
    destruct b0; simpl in *; [congruence|lia]. }
  apply with_path_cases in H as [(-> & d & M & _ & X)|(ob & r1 & b0 & M & P & Nb & Lt & _)]; auto.
  - split; auto. split.
    + intros v ->. destruct v; simpl in X; try tauto; reflexivity.
    + intros v why ->. destruct v as [w|w|]; simpl in X; try tauto; (split; [reflexivity|]); intros ->.
      * destruct X as (_ & _ & _ & [(_ & Le & b0 & Nb & P)|[(Q & _)|(? & Q & _)]]); try discriminate.
        destruct (Pn _ _ _ P Nb). lia.
      * destruct X as (_ & [(_ & Le & b0 & Nb & P)|(? & Q & _)]); try discriminate.
        destruct (Pn _ _ _ P Nb). lia.
  - exfalso. destruct (Pn _ _ _ P Nb). unfold mem_min in Lt. lia.
Qed.

(** The part that holds: a field that fits is not written to disk, the file system is not touched at all. *)
Theorem C35_fits_partial : forall ML trim t b h r s p fuel e x r' e' c,
  at_field ML trim t b h r -> exact_chunks (delimiter b) t [c] -> content (delimiter b) (rem r) c ->
  (N.of_nat (length c) <= N.min (s_size_limit s) (s_threshold s))%N ->
  with_path s p fuel r e = (x, r', e') ->
  e' = e /\ (forall v, x = Full v -> is_memory v = true) /\ (forall v why, x = Part v why -> is_memory v = true /\ why <> RSize).
Proof.
  intros ML trim t b h r s p fuel e x r' e' c Hf Hns Hc L H.
  eapply fits_gen; [eapply at_field_inv; exact Hf| |exact L|exact H].
  intros d r2 M. destruct (moved_content _ _ _ _ _ _ _ _ _ Hf Hns M Hc) as (c' & -> & _). rewrite app_length. lia.
Qed.

(** For every chunking, if the field together with the CRLF of its delimiter fits. *)
Theorem C35_fits_any_chunking_partial : forall ML trim t b h r s p fuel e x r' e' pre post,
  at_field ML trim t b h r -> first_split (delimiter b) (rem r) pre post ->
  (N.of_nat (length pre) <= N.min (s_size_limit s) (s_threshold s))%N ->
  with_path s p fuel r e = (x, r', e') ->
  e' = e /\ (forall v, x = Full v -> is_memory v = true) /\ (forall v why, x = Part v why -> is_memory v = true /\ why <> RSize).
Proof.
  intros ML trim t b h r s p fuel e x r' e' pre post Hf FS L H.
  eapply fits_gen; [eapply at_field_inv; exact Hf| |exact L|exact H].
  intros d r2 M. destruct (moved_prefix _ _ _ _ _ _ _ _ _ _ Hf M FS) as (c' & -> & _). rewrite app_length. lia.
Qed.

Example C35_example :
  let r := first_field [Chunk (one_field (bs "hello"))] in
  first_split (delimiter (bs "b")) (rem r) (bs "hello" ++ CRLF) (DASHES ++ CRLF) /\
  fst (fst (with_path (mkSaver 7 256 7 TTry default_opts) [bs "f"] 100 r (no_failures (fun _ => None)))) = Full (SText (bs "hello")).
Proof. split; [apply find_split; vm_compute; reflexivity|vm_compute; reflexivity]. Qed.

(** Whatever the chunking: if even the whole unread body fits. *)
Theorem C35_small_body : forall ML trim t b r s p fuel e x r' e',
  reached ML trim t b r -> (N.of_nat (length (rem r)) <= N.min (s_size_limit s) (s_threshold s))%N ->
  with_path s p fuel r e = (x, r', e') -> e' = e.
Proof.
  intros ML trim t b r s p fuel e x r' e' Hr L H. pose proof (reached_inv _ _ _ _ _ Hr) as (I1 & _).
  apply with_path_cases in H as [(-> & _)|(ob & r1 & b0 & M & P & Nb & Lt & _)]; auto. exfalso.
  apply pending_moved in P; auto. pose proof (moved_spec _ _ _ P I1) as (_ & R0 & _).
  rewrite R0, !app_length in L. unfold mem_min in Lt. lia.
Qed.

(** ** C36: text is valid UTF-8 and is the data *)
Theorem C36_text : forall ML trim t b r s p fuel e x r' e' w,
  reached ML trim t b r -> with_path s p fuel r e = (x, r', e') ->
  (x = Full (SText w) \/ exists why, x = Part (SText w) why) ->
  utf8_string w /\ rem r = w ++ rem r' /\ e' = e.
Proof.
  intros ML trim t b r s p fuel e x r' e' w Hr H Hv. pose proof (reached_inv _ _ _ _ _ Hr) as (I1 & _).
  apply with_path_cases in H as [(-> & d & M & B & X)|(ob & r1 & b0 & M & _ & _ & _ & _ & B & H)]; auto.
  - pose proof (moved_spec _ _ _ M I1) as (_ & R0 & _).
    destruct Hv as [->|[why ->]]; simpl in X; destruct X as (-> & U & _); auto.
  - exfalso. pose proof (moved_spec _ _ _ M I1) as (J1 & R0 & _).
    apply save_disk_spec in H as (d & M1 & N & Bd & _ & [(_ & (k & ->) & _)|(w' & _ & X)]); auto.
    { destruct Hv as [Hv|[why Hv]]; discriminate. }
    destruct Hv as [->|[why ->]].
    + destruct X as (_ & X & _). discriminate.
    + destruct X as [(_ & X & _)|(_ & _ & _ & X & _)]; discriminate.
Qed.

(** Full text is the whole content. *)
Theorem C36_whole : forall ML trim t b h r s p fuel e w r' e' c,
  at_field ML trim t b h r -> live t -> exact_chunks (delimiter b) t [c] -> s_opts s = default_opts ->
  content (delimiter b) (rem r) c -> with_path s p fuel r e = (Full (SText w), r', e') -> w = c.
Proof.
  intros ML trim t b h r s p fuel e w r' e' c Hf Hl Hns Ho Hc H.
  pose proof (C32_terminated_partial _ _ _ _ _ _ _ _ _ _ _ _ _ _ Hf Hl Hns Ho Hc H) as R. simpl in R. congruence.
Qed.

(** A two-byte character split by a buffer border: the part before it is 1023 bytes long. *)
Definition split_char : transport :=
  [Chunk (bs "--b" ++ CRLF ++ toy_head (bs "a") ++ repeat 120%N 1023 ++ [195%N]); Chunk ([169%N] ++ CRLF ++ toy_end)].

Example C36_example :
  fst (fst (with_path saver_new [bs "f"] 100 (first_field split_char) (no_failures (fun _ => None))))
    = Full (SText (repeat 120%N 1023 ++ [195%N; 169%N])).
Proof. vm_compute. reflexivity. Qed.

(** ** C37: force_text and invalid UTF-8 *)

(** False of the code: four bytes that are not UTF-8 are accepted, as [Bytes], without an error. *)
Theorem C37_refuted : exists t h r s c r' e',
  at_field toy true t (bs "b") h r /\ s_policy s = TForce /\ content (delimiter (bs "b")) (rem r) c /\
  ~ utf8_string c /\ (N.of_nat (length c) <= N.min (s_size_limit s) (s_threshold s))%N /\
  with_path s [bs "f"] 3000 r (no_failures (fun _ => None)) = (Full (SBytes c), r', e').
Proof.
  exists [Chunk (one_field [255; 255; 255; 255]%N)], (mkFH toy (bs "a") None None),
    (first_field [Chunk (one_field [255; 255; 255; 255]%N)]),
    (mkSaver (8 * 1024 * 1024) 256 (10 * 1024) TForce default_opts), [255; 255; 255; 255]%N.
  do 2 eexists. split; [first_field|]. split; [reflexivity|]. split.
  { exists ([255; 255; 255; 255]%N ++ CRLF), (DASHES ++ CRLF). split; [|left; reflexivity].
    apply find_split; vm_compute; reflexivity. }
  split; [|split; [vm_compute; discriminate|vm_compute; reflexivity]].
  intros U. apply valid_utf8_iff in U. vm_compute in U. discriminate.
Qed.

(** What holds: it is never accepted as text. *)
Theorem C37_never_text_partial : forall ML trim t b h r s p fuel e v r' e' c,
  at_field ML trim t b h r -> live t -> exact_chunks (delimiter b) t [c] -> s_opts s = default_opts ->
  content (delimiter b) (rem r) c -> ~ utf8_string c ->
  with_path s p fuel r e = (Full v, r', e') -> forall w, v <> SText w.
Proof.
  intros ML trim t b h r s p fuel e v r' e' c Hf Hl Hns Ho Hc Nu H w ->.
  pose proof (C36_whole _ _ _ _ _ _ _ _ _ _ _ _ _ _ Hf Hl Hns Ho Hc H) as ->.
  destruct (at_field_reached _ _ _ _ _ _ Hf) as (R1 & _).
  apply Nu. eapply C36_text; eauto.
Qed.

Ltac run_by E :=
  match goal with |- context [try_read_buf ?a ?b ?c ?d ?e] => rewrite (E : try_read_buf a b c d e = _) end.

(** What holds with [force_text]: a field of at most three bytes that is not UTF-8 is reported. *)
Theorem C37_short_partial : forall ML trim t b h r s p fuel e c,
  at_field ML trim t b h r -> live t -> steady t -> exact_chunks (delimiter b) t [c] ->
  content (delimiter b) (rem r) c -> ~ utf8_string c -> length c < 4 ->
  s_policy s = TForce -> (N.of_nat (length c) <= N.min (s_size_limit s) (s_threshold s))%N -> length t < fuel ->
  exists r', with_path s p fuel r e = (Part (SText []) RUtf8, r', e) /\ rem r' = rem r.
Proof.
  intros ML trim t b h r s p fuel e c Hf Hl Hq Hns Hc Nu L4 Ps Le Fu.
  pose proof (at_field_inv _ _ _ _ _ _ Hf) as I.
  destruct (moved_field ML _ _ _ _ _ _ _ Hf (mv_refl r)) as (_ & _ & _ & _ & L0 & _).
  assert (Fu' : length (src r) < fuel) by (destruct L0 as [u ->]; rewrite app_length in Fu; lia). clear Fu L0.
  unfold with_path, save_text, try_copy_limited. rewrite Ps. unfold mem_limit.
  assert (K : exists r' n, try_read_buf (limited (N.min (s_size_limit s) (s_threshold s) - 0) text_buf) fuel 0%N (0%N, []) r
    = (Part 0%N RUtf8, (n, []), r') /\ rem r' = rem r).
  2: { destruct K as (r' & n & K & R). exists r'. run_by K. auto. }
  assert (G : forall fuel q, moved r [] q -> length (src q) < fuel -> exists r' n,
    try_read_buf (limited (N.min (s_size_limit s) (s_threshold s) - 0) text_buf) fuel 0%N (0%N, []) q
    = (Part 0%N RUtf8, (n, []), r') /\ rem r' = rem r).
  2: { apply G; auto. apply mv_refl. }
  clear fuel Fu'. induction fuel as [|fuel IH]; intros q Mq Fq; [lia|].
  cbn [try_read_buf]. destruct (read_to_boundary q) as [y r1] eqn:E.
  destruct (moved_field ML _ _ _ _ _ _ _ Hf Mq) as (I0 & _ & S & B & L & Mb & _ & Rq & Mn).
  simpl in Rq.
  pose proof (read_to_boundary_spec _ _ _ I0 E) as (I1 & R1 & B1 & M1 & L1 & _ & K1 & K2 & X).
  destruct y as [x|x| |]; try tauto.
  2: { destruct (steady_fill _ _ _ I0 (steady_later _ _ L Hq) E) as [-> Lr].
       apply IH; [eapply mv_fill; eauto|lia]. }
  destruct (fill_content ML _ _ _ _ _ [] _ _ _ _ Hf Hl Hns Hc Mq E) as (c' & -> & Lx).
  rewrite app_length in L4. destruct Lx as [->|Lx]; [|lia]. rewrite app_nil_r in *. clear X.
  destruct x as [|x0 x].
  { exfalso. apply Nu. apply utf8_string_nil. }
  remember (x0 :: x) as y eqn:Ey.
  assert (V : valid_utf8 y = false).
  { destruct (valid_utf8 y) eqn:V; auto. apply valid_utf8_iff in V. tauto. }
  assert (W : limited (N.min (s_size_limit s) (s_threshold s) - 0) text_buf (0%N, []) y
              = (Part 0 RUtf8, (N.of_nat (length y), []))).
  { unfold limited. simpl in L4. rewrite Nat.add_0_r in L4.
    replace (sat_add 0 (N.of_nat (length y))) with (N.of_nat (length y)) by (unfold sat_add, U64MAX; lia).
    destruct (_ <? _)%N eqn:Q; [apply N.ltb_lt in Q; lia|]. unfold text_buf. rewrite V.
    apply Nat.ltb_lt in L4. now rewrite L4. }
  rewrite Ey in W |- *.
  match goal with |- context [limited ?l ?f ?s0 (x0 :: x)] => replace (limited l f s0 (x0 :: x)) with
    (@Part nat nat 0 RUtf8, (N.of_nat (length (x0 :: x)), @nil N)) by (symmetry; exact W) end.
  rewrite consume_0. do 2 eexists. split; [reflexivity|congruence].
Qed.

(** The rest phase keeps everything in memory if there is room. *)
Lemma rest_in_memory ML trim t b h r s p fuel e u v r1 :
  at_field ML trim t b h r -> live t -> steady t -> exact_chunks (delimiter b) t [u ++ v] ->
  content (delimiter b) (rem r) (u ++ v) -> moved r u r1 -> (N.of_nat (length (u ++ v)) <= mem_min s)%N ->
  enough r <= fuel -> exists r', save_rest s p fuel u r1 e = (Full (SBytes (u ++ v)), r', e).
Proof.
  intros Hf Hl Hq Hns Hc M Le Fu. pose proof (at_field_inv _ _ _ _ _ _ Hf) as I.
  pose proof (moved_spec _ _ _ M I) as (I1 & _). pose proof (enough_moved _ _ _ I M) as Le1.
  unfold save_rest. destruct (save_mem s fuel u r1) as [x r2] eqn:E.
  pose proof (save_mem_ends _ _ _ _ _ _ I1 (Nat.le_trans _ _ _ Le1 Fu) E) as Ns.
  apply save_mem_spec in E as (d & D1 & D2 & _ & D4); auto.
  assert (Br : forall d r2 y, broke r d r2 y -> False).
  { intros d0 r3 y (r0 & M0 & E0 & Nk).
    destruct (moved_field ML _ _ _ _ _ _ _ Hf M0) as (I0 & _ & _ & _ & L0 & _).
    apply read_to_boundary_spec in E0 as (_ & _ & _ & _ & _ & _ & _ & _ & k & -> & Hk & _); auto.
    exact (Nk (steady_later _ _ L0 Hq _ Hk)). }
  assert (Br' : forall d r2 y, broke r1 d r2 y -> False).
  { intros d0 r3 y (r0 & M0 & E0). apply (Br (u ++ d0) r3 y). exists r0. split; auto. eapply moved_trans; eauto. }
  destruct x as [w|w why|y| |]; try congruence.
  - destruct D4 as [-> D4]. exists r2. do 3 f_equal.
    assert (En : ended r (u ++ d) r2) by (eapply pending_app; eauto).
    exact (f_equal SBytes (ended_content _ _ _ _ _ _ _ _ _ Hf Hl Hns En Hc)).
  - exfalso. destruct D4 as [_ [(_ & b0 & _ & P & Lt)|(y & _ & Bk & _)]]; [|eauto].
    apply (pending_app _ _ _ _ _ _ M) in P. apply pending_moved in P; auto.
    destruct (moved_content _ _ _ _ _ _ _ _ _ Hf Hns P Hc) as (c' & Ec & _).
    apply (f_equal (@length N)) in Ec. rewrite !app_length in Ec. rewrite app_length in Le.
    unfold mem_limit in Lt. fold (mem_min s) in Lt. lia.
  - exfalso. destruct D4 as (_ & _ & y' & _ & Bk). eauto.
Qed.

(** Exactly what happens to a content that is not UTF-8 and for which there is room (as in C57, and three
    bytes more), [u] being as much of it as is valid.  With [force_text] the error is reported if and only if
    fewer than four bytes follow [u]; the bytes not saved are left in the field.  Otherwise, and always with
    the default policy, everything is kept as [Bytes]. *)
Theorem C37_exact_partial : forall ML trim t b h r s p fuel e u v,
  at_field ML trim t b h r -> live t -> steady t -> exact_chunks (delimiter b) t [u ++ v] ->
  content (delimiter b) (rem r) (u ++ v) -> v <> [] ->
  utf8_string u -> (forall p q, u ++ v = p ++ q -> utf8_string p -> length p <= length u) ->
  s_policy s <> TIgnore ->
  (N.of_nat (length (u ++ v) + 3 * (length (u ++ v) / 497) + 3) <= N.min (s_size_limit s) (s_threshold s))%N ->
  (N.min (s_size_limit s) (s_threshold s) < U64MAX)%N ->
  length (rem r) + length t + N.to_nat (N.min (s_size_limit s) (s_threshold s)) + 2 <= fuel ->
  (s_policy s = TForce -> length v < 4 ->
     exists r' w q, with_path s p fuel r e = (Part (SText w) RUtf8, r', e) /\
       u = w ++ q /\ length (q ++ v) < 4 /\ content (delimiter b) (rem r') (q ++ v)) /\
  (s_policy s = TTry \/ 4 <= length v ->
     exists r', with_path s p fuel r e = (Full (SBytes (u ++ v)), r', e)).
Proof.
  intros ML trim t b h r s p fuel e u v Hf Hl Hq Hns Hc Nv U Um Ps Le Lm Fu.
  destruct (moved_field ML _ _ _ _ _ _ _ Hf (mv_refl r)) as (_ & _ & _ & _ & L & _).
  assert (Lt : length (src r) <= length t) by (destruct L as [z ->]; rewrite app_length; lia).
  assert (Lv : 0 < length v) by (destruct v; [congruence|simpl; lia]).
  destruct (text_bad ML _ _ _ _ _ (mem_limit s 0) Hf Hl Hq ltac:(unfold mem_limit; lia) fuel 0%N 0%N [] r u v Hns Hc (mv_refl r))
    as (tot & cp & r' & w & q & E & M & _ & Eu & Q); auto.
  { split; auto. }
  { right. unfold mem_limit, shown_at_most. lia. }
  { unfold mem_limit. lia. }
  assert (Lm' : (N.of_nat (length (u ++ v)) <= mem_min s)%N) by (unfold mem_min; lia).
  assert (Em : enough r <= fuel) by (unfold enough; lia).
  rewrite !app_nil_l in *.
  assert (Rest : exists r2, save_rest s p fuel w r' e = (Full (SBytes (u ++ v)), r2, e)).
  { rewrite Eu, <- app_assoc in *. exact (rest_in_memory _ _ _ _ _ _ _ _ _ _ _ _ _ Hf Hl Hq Hns Hc M Lm' Em). }
  unfold with_path, save_text, try_copy_limited. run_by E.
  split.
  - intros -> V4. apply Nat.ltb_lt in V4. rewrite V4 in *. exists r', w, q. repeat split; auto.
    rewrite Eu, <- app_assoc in Hc, Hns.
    destruct (moved_content _ _ _ _ _ _ _ _ _ Hf Hns M Hc) as (c' & Ec & Hc'). apply app_inv_head in Ec. now subst c'.
  - intros H. destruct (length v <? 4) eqn:V4.
    + apply Nat.ltb_lt in V4. destruct H as [->|H]; [exact Rest|lia].
    + destruct (s_policy s); try congruence;
        (destruct (cmp_size_limit s (length w)) eqn:C; [|exact Rest]); exfalso; unfold cmp_size_limit in C; apply N.leb_le in C;
        subst q; rewrite app_nil_r in Eu; subst w; rewrite app_length in Le; lia.
Qed.

Example C37_example :
  let t := [Chunk (one_field [255; 254]%N)] in
  fst (fst (with_path (mkSaver 100 256 100 TForce default_opts) [bs "f"] 1 (first_field t) (no_failures (fun _ => None))))
  = Part (SText []) RUtf8.
Proof. vm_compute. reflexivity. Qed.

(** Four letters and then one, or four, bytes that are not UTF-8. *)
Example C37_exact_example :
  let t n := [Chunk (one_field (bs "abcd" ++ repeat 255%N n))] in
  let run n := fst (fst (with_path (mkSaver 100 256 100 TForce default_opts) [bs "f"] 200 (first_field (t n)) (no_failures (fun _ => None)))) in
  longest_text (bs "abcd") [255%N] /\ longest_text (bs "abcd") (repeat 255%N 4) /\
  run 1 = Part (SText (bs "abcd")) RUtf8 /\ run 4 = Full (SBytes (bs "abcd" ++ repeat 255%N 4)).
Proof.
  split; [|split; [|split; vm_compute; reflexivity]]; (split; [apply valid_utf8_iff; reflexivity|]); intros p q E Hp;
    exact (valid_up_to_longest _ p q E Hp).
Qed.

(** ** C57: text that fits is saved as text *)

(** False of the code in general: bytes after a character cut by the end of the buffer are counted twice.
    1025 bytes of valid UTF-8 with a threshold of 1025 are saved as [Bytes]. *)
Theorem C57_refuted : exists t h r s c r' e',
  at_field toy true t (bs "b") h r /\ live t /\ quiet t /\ content (delimiter (bs "b")) (rem r) c /\ utf8_string c /\
  (N.of_nat (length c) <= N.min (s_size_limit s) (s_threshold s))%N /\ s_policy s = TTry /\
  with_path s [bs "f"] 3000 r (no_failures (fun _ => None)) = (Full (SBytes c), r', e').
Proof.
  exists split_char, (mkFH toy (bs "a") None None), (first_field split_char), (mkSaver 5000 256 1025 TTry default_opts),
    (repeat 120%N 1023 ++ [195; 169]%N).
  do 2 eexists. split; [first_field|].
  split; [intros [H|[H|[]]]; discriminate|]. split; [intros k [H|[H|[]]]; discriminate|].
  split.
  { exists ((repeat 120%N 1023 ++ [195; 169]%N) ++ CRLF), (DASHES ++ CRLF). split; [|left; reflexivity].
    apply find_split; vm_compute; reflexivity. }
  split; [apply valid_utf8_iff; vm_compute; reflexivity|].
  split; [vm_compute; discriminate|]. split; [reflexivity|]. vm_compute. reflexivity.
Qed.

(** What holds: room for the content and for three more bytes per 497 is enough; for a content shorter than
    that, the limits are exact. *)
Theorem C57_text_partial : forall ML trim t b h r s p fuel e c,
  at_field ML trim t b h r -> live t -> steady t -> exact_chunks (delimiter b) t [c] ->
  content (delimiter b) (rem r) c -> utf8_string c -> s_policy s <> TIgnore ->
  (N.of_nat (length c + 3 * (length c / 497)) <= N.min (s_size_limit s) (s_threshold s))%N -> length c + length t < fuel ->
  exists r', with_path s p fuel r e = (Full (SText c), r', e).
Proof.
  intros ML trim t b h r s p fuel e c Hf Hl Hq Hns Hc U Ps Le Fu.
  destruct (moved_field ML _ _ _ _ _ _ _ Hf (mv_refl r)) as (_ & _ & _ & _ & L & _).
  destruct (text_full ML _ _ _ _ _ (mem_limit s 0) Hf Hl Hq fuel 0%N 0%N [] r c Hns Hc (mv_refl r) U) as (cp & r' & E); auto.
  { unfold mem_limit, shown_at_most. lia. }
  { destruct L as [u ->]. rewrite app_length in Fu. lia. }
  exists r'. unfold with_path, save_text, try_copy_limited. run_by E.
  destruct (s_policy s); [reflexivity|reflexivity|congruence].
Qed.

Example C57_example :
  at_field toy true split_char (bs "b") (mkFH toy (bs "a") None None) (first_field split_char) /\
  live split_char /\ quiet split_char /\ exact_chunks (delimiter (bs "b")) split_char [repeat 120%N 1023 ++ [195; 169]%N] /\
  content (delimiter (bs "b")) (rem (first_field split_char)) (repeat 120%N 1023 ++ [195; 169]%N) /\
  utf8_string (repeat 120%N 1023 ++ [195; 169]%N).
Proof.
  split; [first_field|].
  split; [intros [H|[H|[]]]; discriminate|]. split; [intros k [H|[H|[]]]; discriminate|].
  split; [|split].
  - left. intros t1 c t2 H. destruct t1 as [|e1 [|e2 t1]].
    + injection H as H _. apply (f_equal (fun l => List.last l 0%N)) in H. rewrite last_last in H. vm_compute in H. discriminate.
    + injection H as _ H _. apply (f_equal (fun l => List.last l 0%N)) in H. rewrite last_last in H. vm_compute in H. discriminate.
    + destruct t1; discriminate.
  - exists ((repeat 120%N 1023 ++ [195; 169]%N) ++ CRLF), (DASHES ++ CRLF). split; [|left; reflexivity].
    apply find_split; vm_compute; reflexivity.
  - apply valid_utf8_iff; vm_compute; reflexivity.
Qed.

(** ** C38: termination *)

(** False of the code: with both limits at u64::MAX and at least four bytes that are not UTF-8, the text
    phase reads the same bytes again and again. *)
Definition stuck_chunks : transport := [Chunk (one_field [255; 255; 255; 255]%N)].
Definition stuck_saver : saver := mkSaver U64MAX 256 U64MAX TTry default_opts.
Definition stuck : breader := snd (read_to_boundary (first_field stuck_chunks)).

Lemma stuck_loop fuel : forall total copied w,
  exists w', try_read_buf (limited U64MAX text_buf) fuel total (copied, w) stuck = (SFuel, w', stuck).
Proof.
  induction fuel as [|fuel IH]; intros total copied w; cbn [try_read_buf]; [eauto|].
  assert (E : read_to_boundary stuck = (Ok [255; 255; 255; 255]%N, stuck)) by (vm_compute; reflexivity).
  rewrite E. unfold limited at 1.
  destruct (U64MAX <? sat_add copied (N.of_nat (length [255; 255; 255; 255]%N)))%N eqn:L.
  { apply N.ltb_lt in L. unfold sat_add in L. lia. }
  assert (Tb : text_buf w [255; 255; 255; 255]%N = (Full 0, w ++ [])) by (unfold text_buf; vm_compute; reflexivity).
  rewrite Tb, consume_0. apply IH.
Qed.

Theorem C38_refuted : exists t h r s p e,
  at_field toy true t (bs "b") h r /\ live t /\ quiet t /\
  forall fuel, fst (fst (with_path s p fuel r e)) = SFuel.
Proof.
  exists stuck_chunks, (mkFH toy (bs "a") None None), (first_field stuck_chunks), stuck_saver, [bs "f"],
    (no_failures (fun _ => None)).
  split; [first_field|]. split; [intros [H|[]]; discriminate|]. split; [intros k [H|[]]; discriminate|].
  intros fuel. destruct fuel as [|fuel]; [reflexivity|].
  unfold with_path, save_text, try_copy_limited. cbn [s_policy stuck_saver try_read_buf].
  assert (E : read_to_boundary (first_field stuck_chunks) = (Ok [255; 255; 255; 255]%N, stuck)) by (vm_compute; reflexivity).
  rewrite E. change (mem_limit stuck_saver 0) with U64MAX.
  destruct (stuck_loop fuel 0 (sat_add 0 4) []) as [w' L].
  assert (Tb : limited U64MAX text_buf (0%N, []) [255; 255; 255; 255]%N = (Full 0, (sat_add 0 4, []))) by (vm_compute; reflexivity).
  match goal with |- context [limited ?a ?b ?c ?d] => rewrite (Tb : limited a b c d = _) end.
  rewrite consume_0. cbn [N.of_nat N.add]. run_by L. destruct w'. reflexivity.
Qed.

(** What holds: [write_to] always terminates, and so does [with_path] unless both limits are u64::MAX. *)
Theorem C38_write_to_partial : forall ML trim t b r s sched,
  reached ML trim t b r -> exists fuel, fst (fst (write_to write_dest s fuel (mkDest [] sched) r)) <> SFuel.
Proof.
  intros ML trim t b r s sched Hr. pose proof (reached_inv _ _ _ _ _ Hr) as (I & _).
  exists (enough r). destruct (write_to write_dest s (enough r) (mkDest [] sched) r) as [[x w] r'] eqn:E.
  simpl. exact (write_to_ends _ _ _ _ _ _ _ _ _ writes_dest dest_copies dest_all I (Nat.le_refl _) E).
Qed.

Theorem C38_path_partial : forall ML trim t b r s p e,
  reached ML trim t b r -> (s_policy s = TIgnore \/ (N.min (s_size_limit s) (s_threshold s) < U64MAX)%N) ->
  exists fuel0, forall fuel, fuel0 <= fuel -> fst (fst (with_path s p fuel r e)) <> SFuel.
Proof.
  intros ML trim t b r s p e Hr Hp. pose proof (reached_inv _ _ _ _ _ Hr) as (I & _).
  exists (enough r + N.to_nat (mem_min s) + 1). intros fuel Hf.
  destruct (with_path s p fuel r e) as [[x r'] e'] eqn:E.
  simpl. eapply with_path_ends; eauto.
Qed.

(** The same invalid field with the default limits: the text phase gives up after 10 KiB have been counted. *)
Example C38_example :
  fst (fst (with_path saver_new [bs "f"] 2562 (first_field stuck_chunks) (no_failures (fun _ => None))))
  = Full (SBytes [255; 255; 255; 255]%N).
Proof. vm_compute. reflexivity. Qed.

(** ** C39: Error means that nothing was done *)

(** False of the code: the first write to a new file fails.  The file exists, 1024 bytes are consumed and
    stored nowhere. *)
Theorem C39_refuted : exists t h r s p e k r' e' lost,
  at_field toy true t (bs "b") h r /\ s_opts s = default_opts /\
  with_path s p 100 r e = (SErr (XDst k), r', e') /\
  e_fs e p = None /\ e_fs e' p = Some (NFile []) /\ rem r = lost ++ rem r' /\ length lost = 1024.
Proof.
  exists limit_chunks, (mkFH toy (bs "a") None None), (first_field limit_chunks),
    (mkSaver 5000 256 1030 TTry default_opts), [bs "f"],
    (mkEnv (fun _ => None) [WFail (KOther 28)] [] []), (KOther 28).
  do 2 eexists. exists (repeat 120%N 1024). split; [first_field|]. split; [reflexivity|].
  split; [vm_compute; reflexivity|]. split; [reflexivity|]. split; [vm_compute; reflexivity|].
  split; vm_compute; reflexivity.
Qed.

(** It is true of [write_to] and of fields that fit into memory. *)
Theorem C39_write_to_partial : forall ML trim t b r s fuel sched x w r',
  reached ML trim t b r -> write_to write_dest s fuel (mkDest [] sched) r = (SErr x, w, r') ->
  d_out w = [] /\ rem r' = rem r.
Proof.
  intros ML trim t b r s fuel sched x w r' Hr H.
  destruct (C31_write_to _ _ _ _ _ _ _ _ _ _ _ Hr H) as [R E]. rewrite E in R. auto.
Qed.

Theorem C39_memory_partial : forall ML trim t b h r s p fuel e x r' e' c,
  at_field ML trim t b h r -> exact_chunks (delimiter b) t [c] -> content (delimiter b) (rem r) c ->
  (N.of_nat (length c) <= N.min (s_size_limit s) (s_threshold s))%N ->
  with_path s p fuel r e = (SErr x, r', e') -> e' = e /\ rem r' = rem r /\ exists k, x = XSrc (ETransport k) /\ In (Fail k) t.
Proof.
  intros ML trim t b h r s p fuel e x r' e' c Hf Hns Hc L H.
  pose proof (at_field_inv _ _ _ _ _ _ Hf) as I.
  destruct (C35_fits_partial _ _ _ _ _ _ _ _ _ _ _ _ _ _ Hf Hns Hc L H) as [-> _]. split; auto.
  apply with_path_cases in H as [(_ & d & M & _ & X)|(ob & r1 & b0 & M & P & Nb & Lt & _)]; auto.
  - simpl in X. destruct X as (-> & y & -> & r0 & M0 & E & _). pose proof (moved_spec _ _ _ M I) as (_ & R & _).
    split; auto.
    destruct (moved_field ML _ _ _ _ _ _ _ Hf M0) as (I0 & _ & _ & _ & L0 & _).
    apply read_to_boundary_spec in E as (_ & _ & _ & _ & _ & _ & _ & _ & k & -> & Hk & _); auto.
    exists k. split; auto. destruct L0 as [u ->]. apply in_or_app. auto.
  - exfalso. apply pending_moved in P; auto.
    destruct (moved_content _ _ _ _ _ _ _ _ _ Hf Hns P Hc) as (c' & -> & _). rewrite !app_length in L.
    unfold mem_min in Lt. lia.
Qed.

(** The file system: an error of the save leaves at most an empty destination file or one holding what was
    read so far. *)
Theorem C39_file_partial : forall ML trim t b r s p fuel e x r' e',
  reached ML trim t b r -> s_opts s = default_opts -> with_path s p fuel r e = (SErr x, r', e') ->
  exists d, rem r = d ++ rem r' /\
    (e_fs e' p = e_fs e p \/ e_fs e' p = Some (NFile []) \/ e_fs e' p = Some (NFile d)).
Proof.
  intros ML trim t b r s p fuel e x r' e' Hr Ho H. pose proof (reached_inv _ _ _ _ _ Hr) as (I & _).
  apply with_path_cases in H as [(-> & d & M & _ & X)|(ob & r1 & b0 & M & _ & _ & _ & _ & _ & H)]; auto.
  { exists d. pose proof (moved_spec _ _ _ M I) as (_ & R & _). auto. }
  pose proof (moved_spec _ _ _ M I) as (J1 & R0 & _).
  apply save_disk_spec in H as (d & M1 & N & _ & _ & [(E & _ & -> & ->)|(w & (base & Ob & St) & X)]); auto.
  { exists ob. auto. }
  rewrite Ho in Ob, St. destruct Ob as [(_ & _ & ->)|(c & _ & Ob & _)]; [|discriminate].
  cbn [o_append default_opts] in St. unfold put in St. rewrite firstn_O, skipn_nil, app_nil_r in St. cbn [app] in St.
  pose proof (moved_spec _ _ _ M1 J1) as (_ & R1 & _).
  destruct X as (-> & X). exists ob. split; [now rewrite R0, R1|].
  destruct X as [(-> & _)|(-> & _)]; auto.
Qed.

(** ** C40: the default options never overwrite *)
Theorem C40_no_overwrite : forall ML trim t b r s p fuel e x r' e',
  reached ML trim t b r -> s_opts s = default_opts -> with_path s p fuel r e = (x, r', e') ->
  forall q, e_fs e' q = e_fs e q \/
    (e_fs e q = None /\ (q = p \/ (e_fs e' q = Some NDir /\ q <> [] /\ exists a c, p = q ++ a ++ [c]))).
Proof.
  intros ML trim t b r s p fuel e x r' e' Hr Ho H q. pose proof (reached_inv _ _ _ _ _ Hr) as (I & _).
  apply with_path_cases in H as [(-> & _)|(ob & r1 & b0 & M & _ & _ & _ & _ & _ & H)]; auto.
  pose proof (moved_spec _ _ _ M I) as (J1 & R0 & _).
  apply save_disk_spec in H as (d & M1 & N & _ & (f1 & Md & Fp & Fo) & X); auto.
  destruct (path_eq_dec q p) as [->|Nq].
  - destruct X as [(-> & _)|(w & (base & Ob & _) & _)]; auto. rewrite Ho in Ob.
    destruct Ob as [(Fn & _)|(c & _ & Ob & _)]; [auto|discriminate].
  - rewrite (Fo _ Nq). destruct (Md q) as [->|(Q1 & Q2 & a & c & Q3 & Q4)]; auto.
    right. split; auto. right. split; auto. split; auto. eauto.
Qed.

(** Every file that existed before is as before. *)
Theorem C40_files_kept : forall ML trim t b r s p fuel e x r' e' q c,
  reached ML trim t b r -> s_opts s = default_opts -> with_path s p fuel r e = (x, r', e') ->
  e_fs e q = Some (NFile c) -> e_fs e' q = Some (NFile c).
Proof.
  intros ML trim t b r s p fuel e x r' e' q c Hr Ho H F.
  destruct (C40_no_overwrite _ _ _ _ _ _ _ _ _ _ _ _ Hr Ho H q) as [->|[Q _]]; auto. congruence.
Qed.

(** The destination exists: the save fails and leaves it alone. *)
Example C40_example :
  let e := no_failures (fun q => if path_eq_dec q [bs "f"] then Some (NFile (bs "old")) else None) in
  let '(x, _, e') := with_path big_saver [bs "f"] 100 (first_field big_chunks) e in
  x = SErr (XDst KAlreadyExists) /\ e_fs e' [bs "f"] = Some (NFile (bs "old")).
Proof. vm_compute. split; reflexivity. Qed.

(** ** C48: [into_result_strict] *)

(** False of the code: a save stopped by the size limit is [Ok] also for [into_result_strict]. *)
Theorem C48_refuted : exists t h r s v r' e',
  at_field toy true t (bs "b") h r /\
  with_path s [bs "f"] 100 r (no_failures (fun _ => None)) = (Part v RSize, r', e') /\
  into_result_strict (fun x => x) (Part v RSize) = Ok v.
Proof.
  exists big_chunks, (mkFH toy (bs "a") None None), (first_field big_chunks), (mkSaver 1000 256 1500 TTry default_opts).
  do 3 eexists. split; [first_field|]. split; vm_compute; reflexivity.
Qed.

(** What holds: errors of the input, of the destination and of reading an entry are never hidden.  ([Ok]
    means Full, or stopped by a limit or by [force_text].) *)
Theorem C48_errors_partial : forall (S P : Type) (into : P -> S) (x : sres S P) s,
  into_result_strict into x = Ok s ->
  x = Full s \/ exists p why, x = Part p why /\ s = into p /\ (why = RCount \/ why = RSize \/ why = RUtf8).
Proof.
  intros S P into x s. destruct x as [y|y why|e| |]; simpl; try discriminate.
  - intros H; injection H as ->. auto.
  - destruct why; try discriminate; intros H; injection H as <-; right; do 2 eexists; eauto.
Qed.

(** ** C49: [with_filename] *)

(** False of the code: the last component of the temporary directory is replaced. *)
Theorem C49_refuted : exists t h r s tmp f r' e' n,
  at_field toy true t (bs "b") h r /\
  with_filename s tmp f 100 r (no_failures (fun q => if path_eq_dec q tmp then Some NDir else None)) = (Full (SFile [f] n), r', e') /\
  tmp <> [] /\ e_fs e' (tmp ++ [f]) = None /\ exists c, e_fs e' [f] = Some (NFile c).
Proof.
  exists big_chunks, (mkFH toy (bs "a") None None), (first_field big_chunks), big_saver, [bs "tmp"], (bs "f").
  do 3 eexists. split; [first_field|]. split; [vm_compute; reflexivity|]. split; [discriminate|].
  split; [vm_compute; reflexivity|]. eexists. vm_compute. reflexivity.
Qed.

(** What holds: the file goes next to the temporary directory, into its parent. *)
Theorem C49_parent_partial : forall ML trim t b r s tmp f fuel e x r' e' q n,
  reached ML trim t b r -> with_filename s tmp f fuel r e = (x, r', e') ->
  (x = Full (SFile q n) \/ exists why, x = Part (SFile q n) why) -> q = removelast tmp ++ [f].
Proof.
  intros ML trim t b r s tmp f fuel e x r' e' q n Hr H Hv. unfold with_filename, set_file_name in H.
  pose proof (reached_inv _ _ _ _ _ Hr) as (I & _).
  apply with_path_cases in H as [(-> & d & M & _ & X)|(ob & r1 & b0 & M & _ & _ & _ & _ & _ & H)]; auto.
  { destruct Hv as [->|[why ->]]; simpl in X; tauto. }
  pose proof (moved_spec _ _ _ M I) as (J1 & R0 & _).
  apply save_disk_spec in H as (d & M1 & N & _ & _ & [(_ & (k & ->) & _)|(w & _ & X)]); auto.
  { destruct Hv as [Hv|[why Hv]]; discriminate. }
  destruct Hv as [->|[why ->]].
  - destruct X as (_ & X & _). now injection X.
  - destruct X as [(_ & X & _)|(_ & _ & _ & X & _)]; now injection X.
Qed.

(** ** C53: saved data reads back *)

(** With the default options, for full and for partial saves. *)
Theorem C53_readable : forall ML trim t b r s p fuel e x r' e' v,
  reached ML trim t b r -> s_opts s = default_opts -> (N.of_nat (length (rem r)) <= U64MAX)%N ->
  with_path s p fuel r e = (x, r', e') -> (x = Full v \/ exists why, x = Part v why) ->
  exists w lost, readable v (e_fs e') = Some w /\ saved_size v = N.of_nat (length w) /\ rem r = w ++ lost ++ rem r' /\
    (x = Full v -> lost = []).
Proof.
  intros ML trim t b r s p fuel e x r' e' v Hr Ho L H Hv.
  pose proof (C31_memory _ _ _ _ _ _ _ _ _ _ _ _ Hr H) as Mem.
  destruct v as [w|w|q n].
  - exists w, []. destruct Hv as [->|[why ->]]; simpl in *; auto.
  - exists w, []. destruct Hv as [->|[why ->]]; simpl in *; auto.
  - destruct (C31_file _ _ _ _ _ _ _ _ _ _ _ _ q n Hr Ho H) as [F P]. change (2 ^ 64 - 1)%N with U64MAX in F, P. cbn [readable saved_size].
    assert (Mn : forall w y, rem r = w ++ y -> N.min (N.of_nat (length w)) U64MAX = N.of_nat (length w)).
    { intros w y E. rewrite E, app_length in L. lia. }
    destruct Hv as [->|[why ->]].
    + destruct (F eq_refl) as (w & Ew & -> & R & ->). exists w, []. rewrite Ew. rewrite (Mn _ _ R). auto.
    + destruct (P _ eq_refl) as (w & lost & Ew & -> & R & [[-> ->]|[-> _]]).
      * exists w, []. rewrite Ew, (Mn _ _ R). split; auto. 
      * exists w, lost. rewrite Ew. split; auto. split; auto. split; auto. discriminate.
Qed.

(** With options set by [mod_open_opts] that reuse a file without truncating it, this is false: the old
    end of the file reads back as well. *)
Theorem C53_refuted : exists t h r s p e v r' e' w,
  at_field toy true t (bs "b") h r /\ with_path s p 100 r e = (Full v, r', e') /\
  readable v (e_fs e') = Some w /\ saved_size v <> N.of_nat (length w).
Proof.
  exists big_chunks, (mkFH toy (bs "a") None None), (first_field big_chunks),
    (mkSaver 5000 256 1500 TTry (mkOpts false true false false)), [bs "f"],
    (no_failures (fun q => if path_eq_dec q [bs "f"] then Some (NFile (repeat 65%N 3001)) else None)), (SFile [bs "f"] 3000).
  do 3 eexists. split; [first_field|]. split; [vm_compute; reflexivity|]. split; [vm_compute; reflexivity|].
  vm_compute. discriminate.
Qed.
