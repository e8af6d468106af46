(** Short fields (C77): contents below 1023 bytes are exact whatever the chunking. *)

From Verif Require Import Bytes BytesProofs Spec Io Boundary BoundaryProofs Utf8 Utf8Proofs Httparse Field FieldProofs
  ContentProofs DataProofs ShortProofs EntryProofs ReaderProofs Drive DriveProofs ReachProofs Rand Fs Save SaveProofs PhaseProofs SaveFacts
  TextProofs Toy PropsReader PropsSave EntriesProofs CompleteProofs PropsEntries HeaderSpec HeaderProofs WireSpec Client ClientProofs WireProofs
  PropsClient Lazy LazyProofs PropsLazy Mock PropsMock Requests PropsRequests PropsUpload.

(** ** C77: forms of short fields *)

(** All fields have fewer than 1023 bytes (their headers do not count). *)
Definition short_fields {ML} (l : list (field_headers ML * bytes)) : Prop := Forall (fun hc => length (snd hc : bytes) < 1023) l.

Lemma short_fields_exact {ML} D t (l : list (field_headers ML * bytes)) : live t -> short_fields l -> exact_chunks D t (map snd l).
Proof.
  intros Hl Hs. apply short_exact; auto. apply Forall_map. unfold short_fields in Hs. rewrite Forall_forall in *. intros hc H. specialize (Hs hc H).
  change (length (A := N) (@snd (field_headers ML) bytes hc) < 1023) in Hs. unfold MIN_BUF_SIZE. lia.
Qed.

(** Reading: whatever the chunks and the read sizes, all fields with exactly their contents. *)
Theorem C77_reads : forall ML trim t b sz l,
  live t -> quiet t -> (forall k, 0 < sz k) -> short_fields l ->
  parts (head_block ML trim (delimiter b)) (delimiter b) (stream t) l ->
  exists r, read_all ML trim (S (length l)) sz (with_body t b) = (Ok l, r).
Proof. intros ML trim t b sz l Hl Hq Hsz Sh P. apply C03_whole_body_partial; auto. left. now apply short_fields_exact. Qed.

(** So two chunkings of the same bytes are read alike, with any two sequences of read sizes. *)
Theorem C77_same : forall ML trim t t' b sz sz' l,
  live t -> quiet t -> live t' -> quiet t' -> stream t = stream t' -> (forall k, 0 < sz k) -> (forall k, 0 < sz' k) -> short_fields l ->
  parts (head_block ML trim (delimiter b)) (delimiter b) (stream t) l ->
  fst (read_all ML trim (S (length l)) sz (with_body t b)) = fst (read_all ML trim (S (length l)) sz' (with_body t' b)).
Proof.
  intros ML trim t t' b sz sz' l Hl Hq Hl' Hq' E Hsz Hsz' Sh P.
  destruct (C77_reads ML trim t b sz l Hl Hq Hsz Sh P) as (r & ->). rewrite E in P.
  destruct (C77_reads ML trim t' b sz' l Hl' Hq' Hsz' Sh P) as (r' & ->). reflexivity.
Qed.

(** The bound is sharp: with one field of 1023 bytes the two chunkings differ. *)
Theorem C77_longer_refuted : exists t t' b l l1 l2 r1 r2,
  live t /\ quiet t /\ live t' /\ quiet t' /\ stream t = stream t' /\ Forall (fun hc : field_headers toy * bytes => length (snd hc) <= 1023) l /\
  parts (head_block toy true (delimiter b)) (delimiter b) (stream t) l /\
  read_all toy true (S (length l)) (fun _ => 4096) (with_body t b) = (Ok l1, r1) /\
  read_all toy true (S (length l)) (fun _ => 4096) (with_body t' b) = (Ok l2, r2) /\ l2 = l /\ l1 <> l.
Proof.
  exists C03_t1, C03_t2, (bs "b"), [(mkFH toy (bs "a") None None, repeat 120%N 1023)].
  set (p1 := read_all toy true 2 (fun _ => 4096) (with_body C03_t1 (bs "b"))).
  set (p2 := read_all toy true 2 (fun _ => 4096) (with_body C03_t2 (bs "b"))).
  exists (match fst p1 with Ok l => l | _ => [] end), (match fst p2 with Ok l => l | _ => [] end), (snd p1), (snd p2).
  do 4 (split; [first [intros [H|[H|[]]]; discriminate | intros k [H|[H|[]]]; discriminate]|]).
  split; [vm_compute; reflexivity|]. split; [repeat constructor; rewrite repeat_length; lia|].
  split.
  { apply parts_field with (pre := []) (x := toy_head (bs "a")) (rest := repeat 120%N 1023 ++ CRLF ++ toy_end).
    - apply find_split; vm_compute; reflexivity.
    - split; [|apply Nat.leb_le; vm_compute; reflexivity].
      eexists. split; [intros y; vm_compute; reflexivity|]. split; vm_compute; reflexivity.
    - exists (toy_head (bs "a") ++ repeat 120%N 1023 ++ CRLF), (DASHES ++ CRLF). split; [|left; reflexivity].
      apply find_split; vm_compute; reflexivity.
    - eapply parts_end with (pre := repeat 120%N 1023 ++ CRLF) (q := CRLF). apply find_split; vm_compute; reflexivity. }
  split; [vm_compute; reflexivity|]. split; [vm_compute; reflexivity|]. split; [vm_compute; reflexivity|].
  intros E. apply (f_equal (map (fun hc : field_headers toy * bytes => length (snd hc)))) in E. vm_compute in E. discriminate.
Qed.

(** One short field among any others, saved in full. *)
Theorem C77_field : forall ML trim t b h r s p fuel e v r' e' c,
  at_field ML trim t b h r -> live t -> s_opts s = default_opts -> content (delimiter b) (rem r) c -> length c < 1023 ->
  with_path s p fuel r e = (Full v, r', e') -> readable v (e_fs e') = Some c.
Proof.
  intros ML trim t b h r s p fuel e v r' e' c Hf Hl Ho Hc Lc H. eapply C32_terminated_partial; eauto.
  apply short_exact; auto. constructor; [unfold MIN_BUF_SIZE; lia|constructor].
Qed.

(** Saving a request. *)
Theorem C77_saved : forall ML trim t b s dir temp g e l,
  live t -> quiet t -> short_fields l -> suffices s e dir g l ->
  parts (head_block ML trim (delimiter b)) (delimiter b) (stream t) l ->
  exists fuel0, forall fuel, fuel0 <= fuel -> exists x g' r' e',
    with_entries ML trim s fuel (entries_new ML dir temp) g (with_body t b) e = (x, g', r', e') /\ saved_form l x e'.
Proof. intros ML trim t b s dir temp g e l Hl Hq Sh Hs P. apply saved_parts; auto. now apply short_fields_exact. Qed.

(** From the client: a form of short fields is read and saved as it was sent, whatever the chunking. *)
Theorem C77_client : forall ML octet guess trim gc q fs q' t,
  client ML octet guess gc q fs = (None, q') -> written (q_log q) = [] ->
  Forall (fun f => sendable ML (boundary_of gc) (describe ML octet guess f) /\
    forall c, sent_ctype octet guess f = Some c -> mime_parse ML (mime_show ML c) = Some c) fs ->
  short_fields (map (@expected ML octet guess) fs) ->
  stream t = written (q_log q') -> live t -> quiet t ->
  (forall sz, (forall k, 0 < sz k) ->
     exists r, read_all ML trim (S (length fs)) sz (with_body t (boundary_of gc)) = (Ok (map (expected octet guess) fs), r)) /\
  (forall s dir temp g e, suffices s e dir g (map (expected octet guess) fs) ->
   exists fuel0, forall fuel, fuel0 <= fuel -> exists x g' r' e',
     with_entries ML trim s fuel (entries_new ML dir temp) g (with_body t (boundary_of gc)) e = (x, g', r', e') /\
     saved_form (map (expected octet guess) fs) x e').
Proof.
  intros ML octet guess trim gc q fs q' t H W0 F Sh St Hl Hq.
  pose proof (short_fields_exact (delimiter (boundary_of gc)) t _ Hl Sh) as X. split.
  - intros sz Hsz. eapply C28_round_trip; eauto.
  - intros s dir temp g e Hs. eapply C69_client_partial; eauto.
Qed.

Theorem C77_lazy : forall ML guess trim gc q fs q' fs' t,
  lazy_send ML guess gc fs q = (Ok tt, q', fs') -> written (q_log q) = [] ->
  Forall (fun f => kinds (fun k => k <> KInterrupted) (l_source ML f)) fs ->
  Forall (fun f => sendable ML (boundary_of gc) (describe_lazy ML guess f) /\ typed guess f) fs ->
  short_fields (map (lazy_expected guess) fs) ->
  stream t = written (q_log q') -> live t -> quiet t ->
  (forall sz, (forall k, 0 < sz k) ->
     exists r, read_all ML trim (S (length fs)) sz (with_body t (boundary_of gc)) =
       (Ok (map (lazy_expected guess) (lazy_order ML fs)), r)) /\
  (forall s dir temp g e, suffices s e dir g (map (lazy_expected guess) (lazy_order ML fs)) ->
   exists fuel0, forall fuel, fuel0 <= fuel -> exists x g' r' e',
     with_entries ML trim s fuel (entries_new ML dir temp) g (with_body t (boundary_of gc)) e = (x, g', r', e') /\
     saved_form (map (lazy_expected guess) (lazy_order ML fs)) x e').
Proof.
  intros ML guess trim gc q fs q' fs' t H W0 K F Sh St Hl Hq.
  assert (So : short_fields (map (lazy_expected guess) (lazy_order ML fs))).
  { unfold short_fields in *. rewrite Forall_map in *. rewrite Forall_forall in *. intros f Hf. apply Sh. now apply (proj1 (order_in ML _ _)). }
  pose proof (short_fields_exact (delimiter (boundary_of gc)) t _ Hl So) as X. split.
  - intros sz Hsz. eapply C29_round_trip; eauto.
  - intros s dir temp g e Hs. eapply C69_lazy_partial; eauto.
Qed.

(** Through the mock request and the mock server, for all the sizes their random generators choose. *)
Theorem C77_mock : forall ML octet guess trim g gbuf gsrv c fs h rooms bl q' sz,
  ~ Exists (fails ML) fs ->
  Forall (fun f => sendable ML (boundary_of g) (describe ML octet guess f) /\
    forall m, sent_ctype octet guess f = Some m -> mime_parse ML (mime_show ML m) = Some m) fs ->
  short_fields (map (@expected ML octet guess) fs) ->
  mock_client ML octet guess g gbuf c fs = Ok h ->
  sreq_reads rooms (for_server h gsrv) = (bl, q') -> sr_data q' = [] -> Forall (fun b => b <> []) bl ->
  (forall k, 0 < sz k) ->
  exists r, read_all ML trim (S (length fs)) sz (with_body (map Chunk bl) (boundary_of g)) = (Ok (map (expected octet guess) fs), r).
Proof.
  intros ML octet guess trim g gbuf gsrv c fs h rooms bl q' sz Hs F Sh H R Rd Nb Hsz.
  refine (proj2 (C62_round_trip ML octet guess trim g gbuf gsrv c fs h rooms bl q' sz Hs F H R Rd Nb Hsz (or_introl _))).
  apply short_fields_exact; auto.
  intros K. apply in_map_iff in K as (b & K & Hb). injection K as ->. rewrite Forall_forall in Nb. apply Nb in Hb. congruence.
Qed.

(** Two fields, of 1022 bytes and 6 bytes; both line ends before a delimiter are cut in two by a chunk border. *)
Definition cut_list : list (field_headers toy * bytes) :=
  [(mkFH toy (bs "a") None None, repeat 120%N 1022); (mkFH toy (bs "b") None None, bs "second")].
Definition cut_chunks : transport :=
  [Chunk (bs "--b" ++ CRLF ++ toy_head (bs "a") ++ repeat 120%N 1022 ++ [CR]);
   Chunk ([LF] ++ bs "--b" ++ CRLF ++ toy_head (bs "b") ++ bs "second" ++ [CR]); Chunk ([LF] ++ toy_end)].

Example C77_example :
  live cut_chunks /\ quiet cut_chunks /\ short_fields cut_list /\ ~ no_split_crlf (delimiter (bs "b")) cut_chunks /\
  parts (head_block toy true (delimiter (bs "b"))) (delimiter (bs "b")) (stream cut_chunks) cut_list /\
  suffices tiny (no_failures (fun q => if path_eq_dec q [bs "d"] then Some NDir else None)) [bs "d"] (repeat 7%N 12 ++ repeat 8%N 12) cut_list.
Proof.
  split; [intros [H|[H|[H|[]]]]; discriminate|]. split; [intros k [H|[H|[H|[]]]]; discriminate|].
  split; [repeat constructor; vm_compute; repeat constructor|].
  split.
  { intros H. specialize (H [] (bs "--b" ++ CRLF ++ toy_head (bs "a") ++ repeat 120%N 1022) (tl cut_chunks)).
    enough (true = false) by discriminate. refine (eq_trans _ (H _)); vm_compute; reflexivity. }
  split.
  - apply parts_field with (pre := []) (x := toy_head (bs "a")) (rest := repeat 120%N 1022 ++ CRLF ++ toy_part (bs "b") (bs "second") ++ toy_end).
    + apply find_split; vm_compute; reflexivity.
    + split; [|apply Nat.leb_le; vm_compute; reflexivity].
      eexists. split; [intros y; vm_compute; reflexivity|]. split; vm_compute; reflexivity.
    + exists (toy_head (bs "a") ++ repeat 120%N 1022 ++ CRLF), (CRLF ++ toy_head (bs "b") ++ bs "second" ++ CRLF ++ toy_end).
      split; [|left; reflexivity]. apply find_split; vm_compute; reflexivity.
    + apply parts_field with (pre := repeat 120%N 1022 ++ CRLF) (x := toy_head (bs "b")) (rest := bs "second" ++ CRLF ++ toy_end).
      * apply find_split; vm_compute; reflexivity.
      * split; [|apply Nat.leb_le; vm_compute; reflexivity].
        eexists. split; [intros y; vm_compute; reflexivity|]. split; vm_compute; reflexivity.
      * exists (toy_head (bs "b") ++ bs "second" ++ CRLF), (DASHES ++ CRLF). split; [|left; reflexivity].
        apply find_split; vm_compute; reflexivity.
      * eapply parts_end with (pre := bs "second" ++ CRLF) (q := CRLF). apply find_split; vm_compute; reflexivity.
  - destruct C43_example as (_ & _ & _ & _ & _ & G & Fn).
    split; [reflexivity|]. split; [discriminate|]. split; [vm_compute; reflexivity|]. split; [vm_compute; reflexivity|].
    split; [repeat constructor; vm_compute; discriminate|]. right. split; [exact G|exact Fn].
Qed.
