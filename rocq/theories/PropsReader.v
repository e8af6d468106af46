(** Property theorems about the server-side reader (C01-C13, C55).

    Reading guide.  [with_body t b] is a fresh [Multipart] over transport [t] with boundary [b]; [run]
    performs a list of API calls; [at_field ... h r] says that [read_entry] has just returned entry [h];
    [rem r] is the part of the body not handed out yet; [delivered] is the data handed to the user. *)

From Verif Require Import Bytes BytesProofs Spec Io Boundary BoundaryProofs Utf8 Httparse HttparseProofs Field
  FieldProofs ContentProofs DataProofs ShortProofs EntryProofs ReaderProofs Drive DriveProofs ReachProofs Toy.

(** ** C01: no panic, for any transport and any calls (in particular no debug assertion fails) *)
Theorem C01_no_panic : forall ML trim t b os,
  Forall (fun x => match x with
                   | BRead _ y | BFill _ y => y <> Panic
                   | BNext _ y => y <> Panic
                   | _ => True
                   end) (fst (run ML trim os (with_body t b))).
Proof.
  intros ML trim t b os. destruct (run ML trim os (with_body t b)) as [ob r] eqn:E.
  apply run_inv in E as (_ & _ & _ & F); [|apply inv_from_reader].
  eapply Forall_impl; [|exact F]. intros [x|x|d| |x]; simpl; tauto.
Qed.

(** ** C02: field data is an in-order prefix of what precedes the delimiter *)
Theorem C02_prefix : forall ML trim t b h r os ob r' pre post,
  at_field ML trim t b h r -> Forall data_op os -> run ML trim os r = (ob, r') ->
  first_split (delimiter b) (rem r) pre post ->
  exists rest, pre = delivered ML ob ++ rest /\ first_split (delimiter b) (rem r') rest post.
Proof.
  intros ML trim t b h r os ob r' pre post Hf Hd H FS.
  destruct (at_field_reached _ _ _ _ _ _ Hf) as (R1 & S1 & _).
  pose proof (reached_inv _ _ _ _ _ R1) as (I1 & _ & B1 & _).
  pose proof (run_data ML _ _ _ _ _ I1 Hd H) as (_ & K & _). destruct (K S1) as [K1 _].
  rewrite B1 in K1. destruct (skipped_split_inv _ _ _ _ _ _ K1 FS) as (rest & E & FS'). eauto.
Qed.

(** An end-of-file [read] on a terminated field means that nothing but at most a CRLF is left. *)
Theorem C02_end : forall ML trim t b h r os n ob r' pre post,
  at_field ML trim t b h r -> live t -> Forall data_op os -> 0 < n ->
  run ML trim (os ++ [ORead n]) r = (ob ++ [BRead ML (Ok [])], r') ->
  first_split (delimiter b) (rem r) pre post ->
  pre = delivered ML ob \/ pre = delivered ML ob ++ CRLF.
Proof.
  intros ML trim t b h r os n ob r' pre post Hf Hl Hd Hn H FS.
  apply run_app in H as (bs1 & r1 & bs2 & H1 & H2 & E).
  cbn [run step] in H2. destruct (read n r1) as [x r2] eqn:F. injection H2 as <- <-.
  apply app_inj_tail in E as [-> E]. injection E as <-.
  destruct (C02_prefix _ _ _ _ _ _ _ _ _ _ _ Hf Hd H1 FS) as (rest & -> & FS').
  pose proof (field_state _ _ _ _ _ _ _ _ _ Hf Hd H1) as (I1 & _ & S1 & B1 & L1 & M1 & _).
  pose proof (read_empty _ _ _ I1 S1 Hn F (live_later _ _ L1 Hl) M1) as (Z & _).
  rewrite B1 in Z. destruct (Z _ _ FS') as [-> | ->]; [left; now rewrite app_nil_r|right; reflexivity].
Qed.

(** What [rem] at the start of a field is: the suffix of the body after the header block. *)
Theorem C02_where : forall ML trim t b h r,
  at_field ML trim t b h r ->
  exists used x hs,
    stream t = used ++ delimiter b ++ CRLF ++ x ++ rem r /\
    parse_headers trim HEADER_LEN (x ++ rem r) = HDone hs (rem r) /\ parse_field_headers ML hs = Ok h.
Proof.
  intros ML trim t b h r (os & ob & r0 & H & E).
  assert (R0 : reached ML trim t b r0) by (exists os, ob; auto).
  pose proof (reached_inv _ _ _ _ _ R0) as (I0 & _ & B0 & _ & used & U).
  destruct (read_entry_some_state ML _ _ _ _ I0 E) as [S0 _].
  destruct (read_entry_sound ML _ _ _ _ I0 S0 E) as (pre & q & hs & [FS _] & P & _ & Ph).
  destruct (parse_headers_done _ _ _ _ _ P) as (x & -> & _ & _).
  exists (used ++ pre), x, hs. rewrite U, FS, B0. split; [now rewrite <- !app_assoc|auto].
Qed.

(** A concrete case meeting the hypotheses of the C02 theorems: a field read in three uneven pieces from
    a body delivered in two chunks. *)
Definition ex_chunks : transport := [Chunk (toy_part (bs "a") (bs "hello")); Chunk toy_end].

Example C02_example :
  exists h r ob r' pre post,
    at_field toy true ex_chunks (bs "b") h r /\ live ex_chunks /\
    run toy true ([ORead 2; OFill; OConsume 1; ORead 9] ++ [ORead 5]) r = (ob ++ [BRead toy (Ok [])], r') /\
    delivered toy ob = bs "hello" /\
    first_split (delimiter (bs "b")) (rem r) pre post /\ pre = bs "hello" ++ CRLF.
Proof.
  set (r0 := snd (read_entry toy true (with_body ex_chunks (bs "b")))).
  exists (mkFH toy (bs "a") None None), r0.
  exists (fst (run toy true [ORead 2; OFill; OConsume 1; ORead 9] r0)),
         (snd (run toy true [ORead 2; OFill; OConsume 1; ORead 9; ORead 5] r0)),
         (bs "hello" ++ CRLF), (DASHES ++ CRLF).
  split; [exists [], [], (with_body ex_chunks (bs "b")); split; vm_compute; reflexivity|].
  split; [intros [H|[H|[]]]; discriminate|].
  split; [vm_compute; reflexivity|]. split; [vm_compute; reflexivity|]. split; [|reflexivity].
  apply find_split; vm_compute; reflexivity.
Qed.

(** ** C03: exact content, whatever the chunking *)

(** The full claim: two chunkings of the same body give the same data.  False of the code: *)
Definition C03_t1 : transport :=
  [Chunk (bs "--b" ++ CRLF ++ toy_head (bs "a") ++ repeat 120%N 1023 ++ [CR]);
   Chunk ([LF] ++ bs "--b--" ++ CRLF)].
Definition C03_t2 : transport :=
  [Chunk (bs "--b" ++ CRLF ++ toy_head (bs "a") ++ repeat 120%N 1023);
   Chunk (CRLF ++ bs "--b--" ++ CRLF)].

Theorem C03_refuted : exists t1 t2 b l1 l2 r1 r2,
  stream t1 = stream t2 /\ live t1 /\ quiet t1 /\ live t2 /\ quiet t2 /\
  read_all toy true 10 (fun _ => 4096) (with_body t1 b) = (Ok l1, r1) /\
  read_all toy true 10 (fun _ => 4096) (with_body t2 b) = (Ok l2, r2) /\
  map snd l1 = [repeat 120%N 1023 ++ CRLF] /\ map snd l2 = [repeat 120%N 1023].
Proof.
  exists C03_t1, C03_t2, (bs "b").
  set (p1 := read_all toy true 10 (fun _ => 4096) (with_body C03_t1 (bs "b"))).
  set (p2 := read_all toy true 10 (fun _ => 4096) (with_body C03_t2 (bs "b"))).
  exists (match fst p1 with Ok l => l | _ => [] end), (match fst p2 with Ok l => l | _ => [] end), (snd p1), (snd p2).
  split; [vm_compute; reflexivity|].
  do 4 (split; [first [intros [H|[H|[]]]; discriminate | intros k [H|[H|[]]]; discriminate]|]).
  do 3 (split; [vm_compute; reflexivity|]). vm_compute; reflexivity.
Qed.

Lemma exact_end ML trim t b h r os n ob r' c :
  at_field ML trim t b h r -> live t -> exact_ops ML (delimiter b) t os ob c ->
  Forall data_op os -> 0 < n ->
  run ML trim (os ++ [ORead n]) r = (ob ++ [BRead ML (Ok [])], r') ->
  content (delimiter b) (rem r) c -> delivered ML ob = c.
Proof.
  intros Hf Hl Hns Hd Hn H Hc.
  apply run_app in H as (bs1 & r1 & bs2 & H1 & H2 & E).
  cbn [run step] in H2. destruct (read n r1) as [x r2] eqn:F. injection H2 as <- <-.
  apply app_inj_tail in E as [-> E]. injection E as <-.
  destruct (field_exact ML _ _ _ _ _ _ _ _ _ Hf Hns Hd H1 Hc) as (c' & -> & Hc').
  pose proof (field_state _ _ _ _ _ _ _ _ _ Hf Hd H1) as (I2 & _ & S2 & B2 & L2 & M2 & _).
  pose proof (read_empty _ _ _ I2 S2 Hn F (live_later _ _ L2 Hl) M2) as (Z & _).
  rewrite <- B2 in Hc'. rewrite (content_end _ _ _ Hc' Z). now rewrite app_nil_r.
Qed.

(** Part that holds (1): if no chunk border falls between the CR and the LF of a delimiter, the data read
    until [Ok(0)] is exactly the content, for every mix of reads, fills, consumes and errors. *)
Theorem C03_unsplit_partial : forall ML trim t b h r os n ob r' c,
  at_field ML trim t b h r -> live t -> no_split_crlf (delimiter b) t ->
  Forall data_op os -> 0 < n ->
  run ML trim (os ++ [ORead n]) r = (ob ++ [BRead ML (Ok [])], r') ->
  content (delimiter b) (rem r) c -> delivered ML ob = c.
Proof. intros ML trim t b h r os n ob r' c Hf Hl Hns. apply exact_end with (t := t) (b := b) (h := h); auto. left. auto. Qed.

(** The same for every chunking if the content is shorter than 1023 bytes, as long as the minimum buffer size is not
    lowered and consume() is called only on data obtained from a successful fill or after a successful read, as the
    contract of BufRead demands ([lawful]). The content of [C03_refuted] has 1023 bytes. *)
Theorem C03_short_partial : forall ML trim t b h r os n ob r' c,
  at_field ML trim t b h r -> live t -> length c < 1023 ->
  Forall data_op os -> Forall keeps_min os -> lawful ML false ob -> 0 < n ->
  run ML trim (os ++ [ORead n]) r = (ob ++ [BRead ML (Ok [])], r') ->
  content (delimiter b) (rem r) c -> delivered ML ob = c.
Proof.
  intros ML trim t b h r os n ob r' c Hf Hl Hc Hd Hk Hw. apply exact_end with (t := t) (b := b) (h := h); auto.
  right. split; auto. apply short_exact; auto. constructor; [unfold MIN_BUF_SIZE; lia|constructor].
Qed.

(** Part that holds (2): with read buffers smaller than 1024 bytes, for every chunking. *)
Theorem C03_small_reads_partial : forall ML trim t b h r os n ob r' c,
  at_field ML trim t b h r -> live t ->
  Forall (small_read MIN_BUF_SIZE) os -> 0 < n ->
  run ML trim (os ++ [ORead n]) r = (ob ++ [BRead ML (Ok [])], r') ->
  content (delimiter b) (rem r) c -> delivered ML ob = c.
Proof.
  intros ML trim t b h r os n ob r' c Hf Hl Hd Hn H Hc.
  apply run_app in H as (bs1 & r1 & bs2 & H1 & H2 & E).
  cbn [run step] in H2. destruct (read n r1) as [x r2] eqn:F. injection H2 as <- <-.
  apply app_inj_tail in E as [-> E]. injection E as <-.
  destruct (at_field_reached _ _ _ _ _ _ Hf) as (R1 & S1 & M1).
  pose proof (reached_inv _ _ _ _ _ R1) as (I1 & N1 & B1 & L1 & _).
  rewrite <- B1 in Hc.
  assert (Hd1 : Forall (small_read (minb r)) os).
  { eapply Forall_impl; [|exact Hd]. intros [k| |k|k|]; simpl; auto. rewrite M1. lia. }
  assert (Hd2 : Forall data_op os).
  { eapply Forall_impl; [|exact Hd]. intros [k| |k|k|]; simpl; auto. }
  destruct (run_content_small ML _ _ _ _ _ _ I1 N1 (live_later _ _ L1 Hl) S1 Hd1 H1 Hc) as (c' & -> & Hc').
  pose proof (field_state _ _ _ _ _ _ _ _ _ Hf Hd2 H1) as (I2 & _ & S2 & B2 & L2 & M2 & _).
  pose proof (read_empty _ _ _ I2 S2 Hn F (live_later _ _ L2 Hl) M2) as (Z & _).
  rewrite B1, <- B2 in Hc'. rewrite (content_end _ _ _ Hc' Z). now rewrite app_nil_r.
Qed.

(** In every case the surplus is at most the CRLF: [C02_end]. *)

(** The chunking of [C02_example] meets [no_split_crlf]; one that cuts inside the CRLF is still fine
    with small reads. *)
Example C03_example_unsplit : no_split_crlf (delimiter (bs "b")) ex_chunks.
Proof.
  intros t1 c t2 H. destruct t1 as [|e1 [|e2 t1]].
  - injection H as H _. apply (f_equal (fun l => List.last l 0%N)) in H. rewrite last_last in H. vm_compute in H. discriminate.
  - injection H as _ H _. apply (f_equal (fun l => List.last l 0%N)) in H. rewrite last_last in H. vm_compute in H. discriminate.
  - destruct t1; discriminate.
Qed.

Example C03_example_small :
  exists h r os ob r', at_field toy true C03_t1 (bs "b") h r /\ Forall (small_read MIN_BUF_SIZE) os /\
    run toy true (os ++ [ORead 1000]) r = (ob ++ [BRead toy (Ok [])], r') /\
    delivered toy ob = repeat 120%N 1023.
Proof.
  set (r0 := snd (read_entry toy true (with_body C03_t1 (bs "b")))).
  exists (mkFH toy (bs "a") None None), r0, [ORead 1000; ORead 1000].
  exists (fst (run toy true [ORead 1000; ORead 1000] r0)), (snd (run toy true [ORead 1000; ORead 1000; ORead 1000] r0)).
  split; [exists [], [], (with_body C03_t1 (bs "b")); split; vm_compute; reflexivity|].
  split; [repeat constructor; unfold small_read, MIN_BUF_SIZE; lia|].
  split; vm_compute; reflexivity.
Qed.

(** ** C04: no spurious end of field; at most |boundary|+3 bytes are withheld *)
Theorem C04_no_spurious_end : forall ML trim t b h r os ob r1 r2,
  at_field ML trim t b h r -> live t -> Forall data_op os -> run ML trim os r = (ob, r1) ->
  read_to_boundary r1 = (Ok [], r2) ->
  (exists post, first_split (delimiter b) (rem r1) [] post) \/
  (exists post, first_split (delimiter b) (rem r1) CRLF post) \/
  (absent (delimiter b) (rem r1) /\ src r2 = [] /\ length (rem r1) <= length b + 3).
Proof.
  intros ML trim t b h r os ob r1 r2 Hf Hl Hd H1 F.
  pose proof (field_state _ _ _ _ _ _ _ _ _ Hf Hd H1) as (I2 & _ & S2 & B2 & L2 & M2 & _).
  assert (F' : read 1 r1 = (Ok [], consume 0 r2)) by (unfold read; rewrite F; reflexivity).
  pose proof (read_empty _ _ _ I2 S2 (Nat.lt_0_succ 0) F' (live_later _ _ L2 Hl) M2) as (Z1 & Z2 & _).
  rewrite B2 in *.
  destruct (split_or_absent (delimiter b) (rem r1)) as [(pre & post & FS)|Ha]; [discriminate| |].
  - destruct (Z1 _ _ FS) as [-> | ->]; eauto.
  - right; right. split; auto. destruct (Z2 Ha) as [Z3 Z4]. split; [exact Z3|].
    unfold delimiter in Z4. rewrite app_length in Z4. simpl in Z4. lia.
Qed.

(** When the delimiter is not in the buffer, all but |boundary|+3 buffered bytes are handed out; when it
    is, everything up to (at most the CRLF before) it. *)
Theorem C04_withheld : forall ML trim t b h r os ob r1 x r2,
  at_field ML trim t b h r -> Forall data_op os -> run ML trim os r = (ob, r1) ->
  read_to_boundary r1 = (Ok x, r2) ->
  length (buf r2) <= length x + (length b + 3) \/
  exists pre post, first_split (delimiter b) (rem r1) pre post /\ (pre = x \/ pre = x ++ CRLF).
Proof.
  intros ML trim t b h r os ob r1 x r2 Hf Hd H1 F.
  pose proof (field_state _ _ _ _ _ _ _ _ _ Hf Hd H1) as (I2 & _ & S2 & B2 & L2 & M2 & _).
  pose proof (read_to_boundary_spec _ _ _ I2 F) as (I3 & R3 & B3 & _ & _ & _ & K1 & K2 & X & _ & X2).
  destruct (fill_prefix _ _ _ I2 F) as [_ Lx].
  destruct (st r2) eqn:S3.
  - left. destruct (X2 eq_refl) as [X3 _]. rewrite Lx. rewrite B2 in X3.
    unfold delimiter in X3. rewrite app_length in X3. simpl in X3. lia.
  - right. destruct I3 as (HD & I3 & I4). rewrite S3 in I4. destruct I4 as (p & Hp & Hfirst).
    rewrite B3, B2 in *. rewrite R3 in Hfirst.
    assert (ER : rem r1 = buf r2 ++ stream (src r2)) by (rewrite <- R3; reflexivity).
    assert (HD0 : delimiter b <> []) by discriminate.
    destruct (found_split _ _ _ _ _ _ HD0 ER Hp Hfirst) as [FS FL].
    do 2 eexists. split; [exact FS|]. rewrite X.
    destruct Hp as (P1 & P2 & [P3|[P3 P4]]).
    + left. rewrite P3. reflexivity.
    + right. rewrite P3. rewrite <- (firstn_skipn (idx r2) (firstn (idx r2 + 2) (buf r2))).
      rewrite firstn_firstn. replace (Nat.min (idx r2) (idx r2 + 2)) with (idx r2) by lia. f_equal.
      rewrite <- (firstn_sw _ _ 2 P4); auto. now rewrite firstn_skipn_comm.
  - exfalso. destruct (st r1) eqn:S1; [apply K2; auto|destruct K1 as [K1 _]; congruence|congruence].
Qed.

(** A concrete case: [fill_buf] returns an empty slice because the field is exhausted. *)
Example C04_example :
  exists h r ob r1 r2, at_field toy true ex_chunks (bs "b") h r /\ live ex_chunks /\
    run toy true [ORead 5] r = (ob, r1) /\ read_to_boundary r1 = (Ok [], r2).
Proof.
  set (r0 := snd (read_entry toy true (with_body ex_chunks (bs "b")))).
  exists (mkFH toy (bs "a") None None), r0, (fst (run toy true [ORead 5] r0)), (snd (run toy true [ORead 5] r0)).
  eexists. split; [exists [], [], (with_body ex_chunks (bs "b")); split; vm_compute; reflexivity|].
  split; [intros [H|[H|[]]]; discriminate|]. split; vm_compute; reflexivity.
Qed.

(** ** C05: [fill_buf] is stable *)
Theorem C05_fill_stable : forall ML trim t b r x r1,
  reached ML trim t b r -> live t ->
  read_to_boundary r = (Ok x, r1) -> read_to_boundary r1 = (Ok x, r1).
Proof.
  intros ML trim t b r x r1 H Hl E. pose proof (reached_inv _ _ _ _ _ H) as (I1 & _ & _ & L1 & _).
  eapply fill_again; eauto using live_later.
Qed.

(** A transport that reports a transient end of file is excluded ([live]); for such a transport the slice can
    change, and even shrink: the CR is handed out before the rest of the delimiter has been seen. *)
Theorem C05_transient_refuted : exists t b r x r1 y r2,
  reached toy true t b r /\ read_to_boundary r = (Ok x, r1) /\ read_to_boundary r1 = (Ok y, r2) /\
  x = bs "abc" ++ [CR] /\ y = bs "abc".
Proof.
  set (t := [Chunk (bs "--b" ++ CRLF ++ toy_head (bs "a") ++ bs "abc" ++ [CR]); Chunk []; Chunk []; Chunk []; Chunk []; Chunk ([LF] ++ bs "--b--" ++ CRLF)]).
  exists t, (bs "b"). do 5 eexists. split; [exists [ONext]; eexists; vm_compute; reflexivity|].
  split; [vm_compute; reflexivity|]. split; [vm_compute; reflexivity|]. split; vm_compute; reflexivity.
Qed.

(** The case of issue #93: the buffer ends in the middle of a line break that may or may not start a
    delimiter. *)
Example C05_example :
  exists r x r1, reached toy true [Chunk (bs "--b" ++ CRLF ++ toy_head (bs "a") ++ bs "abc" ++ CRLF ++ bs "-")] (bs "b") r /\
    read_to_boundary r = (Ok x, r1) /\ x = bs "abc" /\ read_to_boundary r1 = (Ok x, r1).
Proof.
  do 3 eexists. split; [exists [ONext]; eexists; vm_compute; reflexivity|].
  split; [vm_compute; reflexivity|]. split; [reflexivity|]. vm_compute; reflexivity.
Qed.

(** ** C06: classification of what follows the delimiter *)

(** No entry was read yet, or the current field was read until [Ok(0)]. *)
Definition at_delimiter (ML : mime_lib) (trim : bool) (t : transport) (b : bytes) (r : breader) : Prop :=
  r = with_body t b \/
  exists h r1 os n ob, at_field ML trim t b h r1 /\ Forall data_op os /\ 0 < n /\
    run ML trim (os ++ [ORead n]) r1 = (ob ++ [BRead ML (Ok [])], r).

Lemma at_delimiter_state ML trim t b r : at_delimiter ML trim t b r -> live t ->
  inv r /\ near r /\ st r <> AtEnd /\ bnd r = delimiter b /\ later (src r) t /\ idx r = 0.
Proof.
  intros [-> | (h & r1 & os & n & ob & Hf & Hd & Hn & H)] Hl.
  - split; [apply inv_from_reader|]. split; [apply near_from_reader|]. split; [discriminate|].
    split; [reflexivity|]. split; [apply later_refl|reflexivity].
  - assert (Hd' : Forall data_op (os ++ [ORead n])) by (apply Forall_app; split; auto; repeat constructor).
    pose proof (field_state _ _ _ _ _ _ _ _ _ Hf Hd' H) as (I2 & N2 & S2 & B2 & L2 & _).
    do 5 (split; [assumption|]).
    apply run_app in H as (ob1 & r2 & ob2 & H1 & H2 & E).
    cbn [run step] in H2. destruct (read n r2) as [x r3] eqn:F. injection H2 as <- <-.
    apply app_inj_tail in E as [_ E]. injection E as <-.
    pose proof (field_state _ _ _ _ _ _ _ _ _ Hf Hd H1) as (I1 & _ & S1 & B1 & L1 & M1 & _).
    apply (read_empty _ _ _ I1 S1 Hn F (live_later _ _ L1 Hl) M1).
Qed.

Theorem C06_classification : forall ML trim t b r x r',
  at_delimiter ML trim t b r -> live t -> quiet t -> read_entry ML trim r = (x, r') ->
  exists v, judges (delimiter b) (rem r) v /\
    match v with
    | VField q => (exists h, x = Ok (Some h)) \/ (exists e, x = Err (EHdr e))
    | VEnd _ => x = Ok None
    | VBad u w => x = Err (EBnd (EBadBoundary u w)) /\ eerr_kind (EBnd (EBadBoundary u w)) = KInvalidData
    | VShort | VMissing => exists e, x = Err e /\ eerr_kind e = KUnexpectedEof
    end.
Proof.
  intros ML trim t b r x r' Hr Hl Hq H.
  destruct (at_delimiter_state _ _ _ _ _ Hr Hl) as (I1 & N1 & S1 & B1 & L1 & Z1).
  unfold read_entry in H.
  destruct (consume_boundary (set_min_buf_size MIN_BUF_SIZE r)) as [y r1] eqn:E.
  pose proof (min_after (bnd r) (dashed_length _ (proj1 I1))) as HM.
  assert (Hc : st r = Searching \/ idx r + length (bnd r) + 4 <= Nat.max (length (bnd r) * 2) MIN_BUF_SIZE)
    by (right; lia).
  pose proof (consume_boundary_verdict _ _ _ I1 S1 (live_later _ _ L1 Hl) (quiet_later _ _ L1 Hq) Hc E) as V.
  pose proof (consume_boundary_spec _ _ _ (inv_set_min MIN_BUF_SIZE r I1) E) as (J1 & _).
  rewrite B1 in V.
  destruct y as [[|]|[k| | |u w]| |]; try tauto.
  - destruct V as (V & V1 & _). exists (VField (rem r1)). split; auto.
    destruct (read_headers ML trim r1) as [z r2] eqn:F.
    apply read_headers_spec in F as (_ & _ & _ & _ & _ & _ & Z2 & Z3); auto; [|congruence].
    destruct z as [h|e| |]; try congruence; injection H as <- _; eauto.
  - destruct V as [V _]. exists (VEnd (rem r1)). split; auto. injection H as <- _. auto.
  - exists VMissing. split; auto. injection H as <- _. eexists; split; reflexivity.
  - exists VShort. split; auto. injection H as <- _. eexists; split; reflexivity.
  - exists (VBad u w). split; auto. injection H as <- _. split; reflexivity.
Qed.

(** The verdict is a function of the body. *)
Theorem C06_unique : forall b R v w, judges (delimiter b) R v -> judges (delimiter b) R w -> v = w.
Proof. intros b R v w. apply judges_fun. discriminate. Qed.

Example C06_examples :
  fst (read_entry toy true (with_body [Chunk (bs "--b--")] (bs "b"))) = Ok None /\
  fst (read_entry toy true (with_body [Chunk (bs "--bxy")] (bs "b"))) = Err (EBnd (EBadBoundary 120 121)) /\
  fst (read_entry toy true (with_body [Chunk (bs "--b-")] (bs "b"))) = Err (EBnd EShortBoundary) /\
  fst (read_entry toy true (with_body [Chunk (bs "--c--")] (bs "b"))) = Err (EBnd EEndOfBody) /\
  fst (read_entry toy true (with_body [Chunk (toy_part (bs "a") []); Chunk toy_end] (bs "b")))
    = Ok (Some (mkFH toy (bs "a") None None)).
Proof. repeat split; vm_compute; reflexivity. Qed.

(** ** C07: the end is final *)
Theorem C07_end_final : forall ML trim t b r r1 os ob r2,
  reached ML trim t b r -> read_entry ML trim r = (Ok None, r1) -> run ML trim os r1 = (ob, r2) ->
  Forall (fun x => match x with
                   | BNext _ y => y = Ok None
                   | BRead _ (Ok d) | BFill _ (Ok d) | BConsumed _ d => d = []
                   | BRead _ y | BFill _ y => exists k, y = Err (ETransport k)
                   | BUnit _ => True
                   end) ob.
Proof.
  intros ML trim t b r r1 os ob r2 Hr E H.
  pose proof (reached_inv _ _ _ _ _ Hr) as (I1 & _).
  pose proof (read_entry_inv ML _ _ _ _ I1 E) as (I2 & _).
  assert (S2 : st r1 = AtEnd).
  { destruct (bstate_eqb (st r) AtEnd) eqn:S.
    - assert (st r = AtEnd) by (destruct (st r); auto; discriminate).
      assert (G : step ML trim ONext r = (BNext ML (Ok None), r1)) by (cbn [step]; now rewrite E).
      apply step_at_end in G; tauto.
    - apply read_entry_end in E; auto; [|intros HH; rewrite HH in S; discriminate].
      destruct E as (? & ? & _ & _ & ?). auto. }
  apply run_at_end in H as [_ F]; auto.
  eapply Forall_impl; [|exact F]. intros [[d|[k| | |]| |]|[d|[k| | |]| |]|d| |y]; simpl; try tauto; eauto.
Qed.

Example C07_example :
  fst (run toy true [ONext; ONext; ORead 10; OFill; ONext]
         (with_body [Chunk (bs "--b--" ++ CRLF ++ toy_part (bs "a") (bs "x") ++ toy_end)] (bs "b")))
  = [BNext toy (Ok None); BNext toy (Ok None); BRead toy (Ok []); BFill toy (Ok []); BNext toy (Ok None)].
Proof. vm_compute. reflexivity. Qed.

(** ** C08: the end is reported only for a closing delimiter *)
Theorem C08_end_means_closed : forall ML trim t b os,
  In (BNext ML (Ok None)) (fst (run ML trim os (with_body t b))) ->
  exists i, occurs_at (delimiter b ++ DASHES) (stream t) i.
Proof.
  intros ML trim t b os H. destruct (run ML trim os (with_body t b)) as [ob r] eqn:E.
  eapply (run_end_occurs ML trim os (with_body t b)); eauto; [apply inv_from_reader|discriminate].
Qed.

(** So a loop over the entries of a body without a closing delimiter ends with an error. *)
Theorem C08_truncated_is_error : forall ML trim f t b,
  absent (delimiter b ++ DASHES) (stream t) ->
  exists e l r, foreach_entry ML trim f (S (length (stream t))) 0 (with_body t b) = (Err e, l, r).
Proof.
  intros ML trim f t b Ha.
  assert (G : forall fuel n r x l r', reached ML trim t b r -> foreach_entry ML trim f fuel n r = (x, l, r') ->
              x <> Ok tt).
  { induction fuel as [|fuel IH]; intros n r x l r' Hr H; cbn [foreach_entry] in H; [injection H as <- _ _; discriminate|].
    destruct (read_entry ML trim r) as [y r1] eqn:E.
    assert (Hr1 : reached ML trim t b r1).
    { eapply (reached_step _ _ _ _ _ ONext); eauto. cbn [step]. now rewrite E. }
    destruct y as [[h|]|e| |]; try (injection H as <- _ _; discriminate).
    - destruct (run ML trim (f n h) r1) as [ob r2] eqn:F.
      destruct (foreach_entry ML trim f fuel (S n) r2) as [[x' l'] r3] eqn:K. injection H as <- _ _.
      exact (IH _ _ _ _ _ (reached_run _ _ _ _ _ _ _ _ Hr1 F) K).
    - exfalso. destruct Hr as (os & ob & Ho).
      destruct (C08_end_means_closed ML trim t b (os ++ [ONext])) as [i Hi].
      { assert (R : run ML trim (os ++ [ONext]) (with_body t b) = (ob ++ [BNext ML (Ok None)], r1)).
        { revert Ho. generalize (with_body t b). revert ob. induction os as [|o os IHos]; intros ob q; cbn [run app step].
          - intros Q; injection Q as <- <-. now rewrite E.
          - destruct (step ML trim o q) as [z q1]. destruct (run ML trim os q1) as [ob1 q2] eqn:Q.
            intros P; injection P as <- <-. rewrite (IHos _ _ Q). reflexivity. }
        rewrite R. simpl. apply in_or_app. right. left. reflexivity. }
      exact (Ha i Hi). }
  destruct (foreach_entry ML trim f (S (length (stream t))) 0 (with_body t b)) as [[x l] r] eqn:E.
  pose proof (foreach_total ML trim f _ _ _ _ _ _ (inv_from_reader t b) E (Nat.lt_succ_diag_r _)) as [N1 N2].
  assert (R0 : reached ML trim t b (with_body t b)) by (exists [], []; reflexivity).
  pose proof (G _ _ _ _ _ _ R0 E) as N3.
  destruct x as [[]|e| |]; try congruence. eauto.
Qed.

Example C08_example : absent (delimiter (bs "b") ++ DASHES) (stream [Chunk (toy_part (bs "a") (bs "hello")); Chunk (bs "--b-")]).
Proof.
  pose proof (find_first_split (delimiter (bs "b") ++ DASHES)
    (stream [Chunk (toy_part (bs "a") (bs "hello")); Chunk (bs "--b-")]) ltac:(discriminate)) as F.
  exact F.
Qed.

(** ** C09: skipping the rest of a field *)

(** Reading the field to its end finds the second field; skipping it reports a spurious error, for ever. *)
Definition C09_t : transport :=
  [Chunk (bs "--b" ++ CRLF ++ toy_head (bs "a") ++ repeat 120%N 1100 ++ CRLF ++ bs "--b");
   Chunk (CRLF ++ toy_head (bs "c") ++ bs "y" ++ CRLF ++ toy_end)].

Theorem C09_refuted : exists t b h, live t /\ quiet t /\
  nth_error (fst (run toy true [ONext; ORead 4096; ORead 4096; ONext] (with_body t b))) 3 = Some (BNext toy (Ok (Some h))) /\
  nth_error (fst (run toy true [ONext; ORead 1; ONext; ONext] (with_body t b))) 2 = Some (BNext toy (Err (EBnd EShortBoundary))) /\
  nth_error (fst (run toy true [ONext; ORead 1; ONext; ONext] (with_body t b))) 3 = Some (BNext toy (Err (EBnd EShortBoundary))).
Proof.
  exists C09_t, (bs "b"), (mkFH toy (bs "c") None None).
  split; [intros [H|[H|[]]]; discriminate|]. split; [intros k [H|[H|[]]]; discriminate|].
  repeat split; vm_compute; reflexivity.
Qed.

(** Part that holds: whatever is left unread ([pre] below), [read_entry] returns the next entry, provided
    that either the delimiter was not seen yet, or the unread bytes before it, still in the buffer, number
    at most 1024 - |boundary| - 6. *)
Theorem C09_skip_partial : forall ML trim t b h r os ob r1,
  at_field ML trim t b h r -> live t -> quiet t -> Forall data_op os -> run ML trim os r = (ob, r1) ->
  st r1 = Searching \/ idx r1 + length b + 6 <= MIN_BUF_SIZE ->
  (forall pre x rest c h2,
     first_split (delimiter b) (rem r1) pre (CRLF ++ x ++ rest) ->
     head_block ML trim (delimiter b) x h2 -> content (delimiter b) (x ++ rest) (x ++ c) ->
     exists r2, read_entry ML trim r1 = (Ok (Some h2), r2) /\ rem r2 = rest) /\
  (forall pre q, first_split (delimiter b) (rem r1) pre (DASHES ++ q) ->
     exists r2, read_entry ML trim r1 = (Ok None, r2)).
Proof.
  intros ML trim t b h r os ob r1 Hf Hl Hq Hd H Hi.
  pose proof (field_state _ _ _ _ _ _ _ _ _ Hf Hd H) as (I1 & N1 & S1 & B1 & L1 & M1 & _).
  assert (Hi' : st r1 = Searching \/ idx r1 + length (bnd r1) + 4 <= Nat.max (length (bnd r1) * 2) MIN_BUF_SIZE).
  { destruct Hi as [Hi|Hi]; auto. right. rewrite B1. unfold delimiter. rewrite app_length. change (length DASHES) with 2. lia. }
  rewrite <- B1. split.
  - intros pre x rest c h2 FS ((hs & Hp & Hc & Hh) & Hm) Hcont.
    destruct (read_entry_field ML trim r1 pre x rest (x ++ c) hs) as (r2 & E & R2); eauto using live_later, quiet_later.
    + rewrite app_length. lia.
    + rewrite Hh in E. eauto.
  - intros pre q FS. eapply read_entry_last; eauto using live_later, quiet_later.
Qed.

(** Skipping a whole field of 1000 bytes after reading one byte of it. *)
Example C09_example : exists h r ob r1,
  let t := [Chunk (toy_part (bs "a") (repeat 120%N 1000) ++ toy_part (bs "c") (bs "y") ++ toy_end)] in
  at_field toy true t (bs "b") h r /\ run toy true [ORead 1] r = (ob, r1) /\
  idx r1 + length (bs "b") + 6 <= MIN_BUF_SIZE /\ st r1 = BoundaryRead /\
  fst (read_entry toy true r1) = Ok (Some (mkFH toy (bs "c") None None)).
Proof.
  set (t := [Chunk (toy_part (bs "a") (repeat 120%N 1000) ++ toy_part (bs "c") (bs "y") ++ toy_end)]).
  set (r0 := snd (read_entry toy true (with_body t (bs "b")))).
  exists (mkFH toy (bs "a") None None), r0, (fst (run toy true [ORead 1] r0)), (snd (run toy true [ORead 1] r0)).
  split; [exists [], [], (with_body t (bs "b")); split; vm_compute; reflexivity|].
  split; [vm_compute; reflexivity|]. split; [apply Nat.leb_le; vm_compute; reflexivity|].
  split; vm_compute; reflexivity.
Qed.

(** ** C10: transient errors in field data lose nothing *)

(** An application that repeats every call that failed sees exactly what it would have seen over the same
    transport without the failures. *)
Theorem C10_retry : forall ML trim t b h r os ob r',
  at_field ML trim t b h r -> Forall data_op os -> retry ML trim os r ob r' ->
  run ML trim os (calm_r r) = (ob, calm_r r').
Proof.
  intros ML trim t b h r os ob r' Hf Hd H.
  destruct (at_field_reached _ _ _ _ _ _ Hf) as (R1 & _).
  pose proof (reached_inv _ _ _ _ _ R1) as (I1 & _).
  apply retry_calm; auto.
  clear - H Hd. induction H as [r|o os r b r1 bs r2 Hs Hf Hr IH|o os r b r1 bs r2 Hs Hf Hr IH]; auto.
  inversion Hd as [|? ? Ho Hos]; subst. constructor; auto.
  destruct o as [n| |n|n|]; cbn [step] in Hs; [| | | |destruct Ho].
  - destruct (read n r). injection Hs as <- _. simpl. tauto.
  - destruct (read_to_boundary r). injection Hs as <- _. simpl. tauto.
  - injection Hs as <- _. simpl. tauto.
  - injection Hs as <- _. simpl. tauto.
Qed.

(** The retry loop always ends. *)
Theorem C10_retry_ends : forall ML trim t b r os, reached ML trim t b r -> exists ob r', retry ML trim os r ob r'.
Proof. intros ML trim t b r os H. apply retry_exists. apply (reached_inv _ _ _ _ _ H). Qed.

(** A failing call reports the transport's error and hands out nothing; over all calls, failing or not,
    nothing is lost or duplicated. *)
Theorem C10_lossless : forall ML trim t b h r os ob r',
  at_field ML trim t b h r -> Forall data_op os -> run ML trim os r = (ob, r') ->
  rem r = delivered ML ob ++ rem r' /\
  forall x, In x ob -> match x with
                       | BRead _ (Err e) | BFill _ (Err e) => exists k, e = ETransport k /\ In (Fail k) t
                       | _ => True
                       end.
Proof.
  intros ML trim t b h r os ob r' Hf Hd H.
  destruct (at_field_reached _ _ _ _ _ _ Hf) as (R1 & S1 & _).
  pose proof (reached_inv _ _ _ _ _ R1) as (I1 & _ & _ & L1 & _).
  split; [exact (proj1 (run_data ML _ _ _ _ _ I1 Hd H))|].
  clear Hf R1 S1. revert r ob I1 L1 H. induction os as [|o os IH]; intros r ob I1 L1 H; cbn [run] in H.
  - injection H as <- <-. intros x Hx. destruct Hx.
  - inversion Hd as [|? ? Ho Hos]; subst.
    destruct (step ML trim o r) as [y r1] eqn:E. destruct (run ML trim os r1) as [ob1 r2] eqn:F.
    injection H as <- <-. pose proof (step_inv ML _ _ _ _ _ I1 E) as (I2 & _ & L2 & _).
    intros x [<-|Hx].
    2: { eapply (IH Hos r1); eauto. eapply later_trans; eauto. }
    destruct L1 as [u ->]. destruct o as [n| |n|n|]; cbn [step] in E; [| | | |destruct Ho].
    + destruct (read n r) as [z r3] eqn:G. injection E as <- <-. apply read_spec in G as (_ & _ & _ & _ & G); auto.
      destruct z as [d|e| |]; auto. destruct G as (k & -> & G & _). exists k. split; auto. apply in_or_app; auto.
    + destruct (read_to_boundary r) as [z r3] eqn:G. injection E as <- <-.
      apply read_to_boundary_spec in G as (_ & _ & _ & _ & _ & _ & _ & _ & G); auto.
      destruct z as [d|e| |]; auto. destruct G as (k & -> & G & _). exists k. split; auto. apply in_or_app; auto.
    + injection E as <- <-. exact I.
    + injection E as <- <-. exact I.
Qed.

(** A read that fails in the middle of a field. *)
Definition C10_t : transport :=
  [Chunk (bs "--b" ++ CRLF ++ toy_head (bs "a") ++ repeat 120%N 1000);
   Fail KInterrupted; Chunk (repeat 121%N 500); Fail (KOther 7); Chunk (CRLF ++ toy_end)].

Example C10_example : exists h r ob r',
  at_field toy true C10_t (bs "b") h r /\
  run toy true [ORead 4096; ORead 4096; ORead 4096; ORead 4096; ORead 10] r = (ob, r') /\
  ob = [BRead toy (Err (ETransport KInterrupted)); BRead toy (Ok (repeat 120%N 1000 ++ repeat 121%N 500));
        BRead toy (Err (ETransport (KOther 7))); BRead toy (Ok []); BRead toy (Ok [])].
Proof.
  set (r0 := snd (read_entry toy true (with_body C10_t (bs "b")))).
  exists (mkFH toy (bs "a") None None), r0.
  eexists _, (snd (run toy true [ORead 4096; ORead 4096; ORead 4096; ORead 4096; ORead 10] r0)).
  split; [exists [], [], (with_body C10_t (bs "b")); split; vm_compute; reflexivity|].
  split; [|reflexivity]. vm_compute; reflexivity.
Qed.

(** ** C11: transient errors between fields *)

(** False of the code: a failure while the headers are read is reported as [InvalidData], and calling
    again skips the field. *)
Definition C11_t : transport :=
  [Chunk (bs "--b" ++ CRLF ++ toy_head (bs "a") ++ repeat 120%N 977);
   Fail KInterrupted;
   Chunk (CRLF ++ toy_part (bs "c") (bs "y") ++ toy_end)].

Theorem C11_refuted : exists t b e,
  fst (run toy true [ONext] (with_body (calm t) b)) = [BNext toy (Ok (Some (mkFH toy (bs "a") None None)))] /\
  fst (run toy true [ONext; ONext] (with_body t b)) =
    [BNext toy (Err e); BNext toy (Ok (Some (mkFH toy (bs "c") None None)))] /\
  eerr_kind e = KInvalidData.
Proof. exists C11_t, (bs "b"). eexists. repeat split; vm_compute; reflexivity. Qed.

(** Part that holds: as long as no failure hits the header phase (all other failures are reported with
    their own kind), repeating the failed calls gives exactly the run without failures. *)
Theorem C11_retry_partial : forall ML trim t b os ob r',
  retry ML trim os (with_body t b) ob r' ->
  Forall (fun x => ~ header_failed ML x) ob ->
  run ML trim os (with_body (calm t) b) = (ob, calm_r r').
Proof.
  intros ML trim t b os ob r' H Hh. apply (retry_calm ML trim os (with_body t b)); auto. apply inv_from_reader.
Qed.

Example C11_example :
  exists ob r', retry toy true [ONext; ORead 100; ORead 100; ONext]
    (with_body [Fail KInterrupted; Chunk (toy_part (bs "a") (bs "x")); Fail (KOther 1); Chunk toy_end] (bs "b")) ob r' /\
    Forall (fun x => ~ header_failed toy x) ob /\
    ob = [BNext toy (Ok (Some (mkFH toy (bs "a") None None))); BRead toy (Ok (bs "x")); BRead toy (Ok []); BNext toy (Ok None)].
Proof.
  do 2 eexists. split; [|split; [|reflexivity]].
  - eapply retry_again; [vm_compute; reflexivity|exact I|].
    eapply retry_again; [vm_compute; reflexivity|exact I|].
    eapply retry_ok; [vm_compute; reflexivity|intros []|].
    eapply retry_ok; [vm_compute; reflexivity|intros []|].
    eapply retry_ok; [vm_compute; reflexivity|intros []|].
    eapply retry_ok; [vm_compute; reflexivity|intros []|].
    apply retry_nil.
  - repeat constructor; intros [].
Qed.

(** ** C12: termination *)

(** Every call returns: no loop of the model runs out of its bound, which depends on the body only. *)
Theorem C12_calls_return : forall ML trim t b os,
  Forall (fun x => match x with
                   | BRead _ y | BFill _ y => y <> OutOfFuel
                   | BNext _ y => y <> OutOfFuel
                   | _ => True
                   end) (fst (run ML trim os (with_body t b))).
Proof.
  intros ML trim t b os. destruct (run ML trim os (with_body t b)) as [ob r] eqn:E.
  apply run_inv in E as (_ & _ & _ & F); [|apply inv_from_reader].
  eapply Forall_impl; [|exact F]. intros [x|x|d| |x]; simpl; tauto.
Qed.

(** [foreach_entry] returns after at most |body|+1 calls of [read_entry], whatever the callback does. *)
Theorem C12_foreach_returns : forall ML trim f t b,
  exists x l r, foreach_entry ML trim f (S (length (stream t))) 0 (with_body t b) = (x, l, r) /\
    x <> OutOfFuel /\ x <> Panic.
Proof.
  intros ML trim f t b.
  destruct (foreach_entry ML trim f (S (length (stream t))) 0 (with_body t b)) as [[x l] r] eqn:E.
  exists x, l, r. split; auto.
  exact (foreach_total ML trim f _ _ _ _ _ _ (inv_from_reader t b) E (Nat.lt_succ_diag_r _)).
Qed.

(** The bound is the number of fields that fit: every entry uses up more than |boundary|+4 bytes. *)
Theorem C12_progress : forall ML trim t b r h r1,
  reached ML trim t b r -> read_entry ML trim r = (Ok (Some h), r1) ->
  length (rem r1) + length b + 4 < length (rem r).
Proof.
  intros ML trim t b r h r1 Hr E. pose proof (reached_inv _ _ _ _ _ Hr) as (I1 & _ & B1 & _).
  apply read_entry_shrinks in E; auto. rewrite B1 in E. unfold delimiter in E. rewrite app_length in E. simpl in E. lia.
Qed.

Example C12_example :
  let '(x, l, _) := foreach_entry toy true (fun _ _ => [ORead 1; OFill])
                      (S (length (stream ex_chunks))) 0 (with_body ex_chunks (bs "b")) in
  x = Ok tt /\ map fst l = [mkFH toy (bs "a") None None].
Proof. vm_compute. split; reflexivity. Qed.

(** ** C13: headers do not depend on the chunking *)

(** Whatever the chunking and the failures, an entry that is returned has the headers of the complete
    header block. *)
Theorem C13_sound : forall ML trim t b r h r1,
  reached ML trim t b r -> read_entry ML trim r = (Ok (Some h), r1) ->
  exists pre q hs, first_split (delimiter b) (rem r) pre (CRLF ++ q) /\
    parse_headers trim HEADER_LEN q = HDone hs (rem r1) /\ copy_headers hs = true /\ parse_field_headers ML hs = Ok h.
Proof.
  intros ML trim t b r h r1 Hr E. pose proof (reached_inv _ _ _ _ _ Hr) as (I1 & _ & B1 & _).
  destruct (read_entry_some_state ML _ _ _ _ I1 E) as [S1 _].
  destruct (read_entry_sound ML _ _ _ _ I1 S1 E) as (pre & q & hs & H). rewrite B1 in H. exists pre, q, hs. exact H.
Qed.

(** The full claim is false of the code for header blocks of more than about 1 KiB: one chunking is
    accepted, the other gives an error. *)
Definition C13_head : bytes :=
  bs "Content-Disposition: form-data; name=""" ++ repeat 97%N 1200 ++ bs """" ++ CRLF ++ CRLF.
Definition C13_body : bytes := bs "--b" ++ CRLF ++ C13_head ++ bs "x" ++ CRLF ++ toy_end.
Definition C13_t1 : transport := [Chunk C13_body].
Definition C13_t2 : transport := [Chunk (firstn 1100 C13_body); Chunk (skipn 1100 C13_body)].

Theorem C13_refuted : exists t1 t2 b h e,
  stream t1 = stream t2 /\ live t1 /\ quiet t1 /\ live t2 /\ quiet t2 /\
  fst (run toy true [ONext] (with_body t1 b)) = [BNext toy (Ok (Some h))] /\
  fst (run toy true [ONext] (with_body t2 b)) = [BNext toy (Err (EHdr e))].
Proof.
  exists C13_t1, C13_t2, (bs "b"). do 2 eexists.
  split; [vm_compute; reflexivity|].
  do 4 (split; [first [intros [H|[H|[]]]; discriminate | intros [H|[]]; discriminate
                      | intros k [H|[H|[]]]; discriminate | intros k [H|[]]; discriminate]|]).
  split; vm_compute; reflexivity.
Qed.

(** Part that holds: a header block of [1024 - |boundary| - 3] bytes or less is read the same for every
    chunking of the body (the field must be terminated). *)
Theorem C13_complete_partial : forall ML trim t b r pre x rest c hs,
  at_delimiter ML trim t b r -> live t -> quiet t ->
  first_split (delimiter b) (rem r) pre (CRLF ++ x ++ rest) ->
  content (delimiter b) (x ++ rest) (x ++ c) ->
  parse_headers trim HEADER_LEN (x ++ rest) = HDone hs rest -> copy_headers hs = true ->
  length x + length b + 3 <= MIN_BUF_SIZE ->
  exists r', read_entry ML trim r = (match parse_field_headers ML hs with
                                     | Ok h => Ok (Some h)
                                     | Err e => Err (EHdr e)
                                     | Panic => Panic
                                     | OutOfFuel => OutOfFuel
                                     end, r') /\ rem r' = rest.
Proof.
  intros ML trim t b r pre x rest c hs Hr Hl Hq FS Hc Hp Hcp Hx.
  destruct (at_delimiter_state _ _ _ _ _ Hr Hl) as (I1 & N1 & S1 & B1 & L1 & Z1).
  pose proof (min_after (bnd r) (dashed_length _ (proj1 I1))) as HM.
  rewrite <- B1 in *.
  apply (read_entry_field ML trim r pre x rest (x ++ c) hs); eauto using live_later, quiet_later.
  - right. lia.
  - rewrite app_length. lia.
  - rewrite B1. unfold delimiter. rewrite app_length. change (length DASHES) with 2. lia.
Qed.

Example C13_example : exists pre x rest c hs,
  let r := with_body [Chunk (bs "--b"); Chunk [CR]; Chunk ([LF] ++ toy_head (bs "a") ++ bs "x" ++ CRLF); Chunk toy_end] (bs "b") in
  first_split (delimiter (bs "b")) (rem r) pre (CRLF ++ x ++ rest) /\
  content (delimiter (bs "b")) (x ++ rest) (x ++ c) /\
  parse_headers true HEADER_LEN (x ++ rest) = HDone hs rest /\ copy_headers hs = true /\
  length x + length (bs "b") + 3 <= MIN_BUF_SIZE.
Proof.
  exists [], (toy_head (bs "a")), (bs "x" ++ CRLF ++ toy_end), (bs "x").
  eexists. cbv zeta. split; [apply find_split; vm_compute; reflexivity|].
  split; [exists (toy_head (bs "a") ++ bs "x" ++ CRLF), (DASHES ++ CRLF); split;
          [apply find_split; vm_compute; reflexivity|left; reflexivity]|].
  split; [vm_compute; reflexivity|]. split; [vm_compute; reflexivity|]. apply Nat.leb_le; vm_compute; reflexivity.
Qed.

(** ** A whole well-formed body, and C55: preamble and epilogue *)

(** Reading all the fields of a well-formed body gives exactly these fields, for every chunking that does
    not split the CRLF of a delimiter after a content of 1023 bytes or more, or for every chunking with read
    buffers below 1 KiB. *)
Theorem C03_whole_body_partial : forall ML trim t b sz l,
  live t -> quiet t -> (forall k, 0 < sz k) ->
  exact_chunks (delimiter b) t (map snd l) \/ (forall k, sz k < MIN_BUF_SIZE) ->
  parts (head_block ML trim (delimiter b)) (delimiter b) (stream t) l ->
  exists r, read_all ML trim (S (length l)) sz (with_body t b) = (Ok l, r).
Proof.
  intros ML trim t b sz l Hl Hq Hsz Hex P.
  apply (read_all_exact ML trim sz l (S (length l)) (with_body t b)); auto; try discriminate.
  - split; [apply inv_from_reader|]. split; [apply near_from_reader|]. split; [exact Hl|]. split; [exact Hq|].
    exact Hsz.
  - destruct Hex as [[Hex|[_ Hex]]|Hex]; [left; left|right|left; right; exact Hex].
    + split; [apply unsplit_from_reader; exact Hex|apply strict_from_reader].
    + intros c t1 t2 a. exact (Hex c t1 t2 a).
Qed.

(** The full claim of C55 ("no influence on the entries, for all chunkings") is false: a preamble moves the
    chunk borders, and with them the fault of C03.  The transport here hands out pieces of [k] bytes. *)
Fixpoint pieces (fuel k : nat) (s : bytes) : transport :=
  match fuel with
  | 0 => []
  | S fuel' => match s with [] => [] | _ => Chunk (firstn k s) :: pieces fuel' k (skipn k s) end
  end.

Theorem C55_refuted : exists k b P M l1 l2 r1 r2,
  (forall i, occurs_at (delimiter b) (P ++ delimiter b ++ M) i -> length P <= i) /\
  (let t1 := pieces 10 k (delimiter b ++ M) in let t2 := pieces 10 k (P ++ delimiter b ++ M) in
   stream t1 = delimiter b ++ M /\ stream t2 = P ++ delimiter b ++ M /\
   live t1 /\ quiet t1 /\ live t2 /\ quiet t2 /\
   read_all toy true 10 (fun _ => 4096) (with_body t1 b) = (Ok l1, r1) /\
   read_all toy true 10 (fun _ => 4096) (with_body t2 b) = (Ok l2, r2)) /\
  map snd l1 = [repeat 120%N 1023] /\ map snd l2 = [repeat 120%N 1023 ++ CRLF].
Proof.
  set (M := CRLF ++ toy_head (bs "a") ++ repeat 120%N 1023 ++ CRLF ++ toy_end).
  set (P := bs "preamble" ++ CRLF).
  set (k := length (P ++ delimiter (bs "b") ++ CRLF ++ toy_head (bs "a")) + 1024).
  set (p1 := read_all toy true 10 (fun _ => 4096) (with_body (pieces 10 k (delimiter (bs "b") ++ M)) (bs "b"))).
  set (p2 := read_all toy true 10 (fun _ => 4096) (with_body (pieces 10 k (P ++ delimiter (bs "b") ++ M)) (bs "b"))).
  exists k, (bs "b"), P, M, (match fst p1 with Ok l => l | _ => [] end), (match fst p2 with Ok l => l | _ => [] end), (snd p1), (snd p2).
  split.
  - match goal with |- forall i, occurs_at ?d ?r i -> _ =>
      apply (proj2 (find_split d r P M ltac:(vm_compute; reflexivity) ltac:(vm_compute; reflexivity))) end.
  - split; [|split; vm_compute; reflexivity]. cbv zeta.
    split; [vm_compute; reflexivity|]. split; [vm_compute; reflexivity|].
    split; [vm_compute; intros H; repeat (destruct H as [H|H]; [discriminate|]); destruct H|].
    split; [intros e; vm_compute; intros H; repeat (destruct H as [H|H]; [discriminate|]); destruct H|].
    split; [vm_compute; intros H; repeat (destruct H as [H|H]; [discriminate|]); destruct H|].
    split; [intros e; vm_compute; intros H; repeat (destruct H as [H|H]; [discriminate|]); destruct H|].
    split; vm_compute; reflexivity.
Qed.

(** The part that holds, with the side condition of C03: [M] is any body that starts with a delimiter and
    has the fields [l]; a preamble [P] in which no delimiter starts, and any epilogue [E], change nothing. *)
Theorem C55_preamble_epilogue_partial : forall ML trim t b sz P M E l,
  live t -> quiet t -> (forall k, 0 < sz k) ->
  exact_chunks (delimiter b) t (map snd l) \/ (forall k, sz k < MIN_BUF_SIZE) ->
  parts (head_block ML trim (delimiter b)) (delimiter b) (delimiter b ++ M) l ->
  (forall i, occurs_at (delimiter b) (P ++ delimiter b ++ M) i -> length P <= i) ->
  stream t = P ++ delimiter b ++ M ++ E ->
  exists r, read_all ML trim (S (length l)) sz (with_body t b) = (Ok l, r).
Proof.
  intros ML trim t b sz P M E l Hl Hq Hsz Hex Hp HP Hs.
  apply C03_whole_body_partial; auto. rewrite Hs.
  replace (P ++ delimiter b ++ M ++ E) with ((P ++ delimiter b ++ M) ++ E) by (now rewrite <- !app_assoc).
  apply parts_epilogue, parts_preamble; auto; [split; auto|discriminate].
Qed.

Example C55_example : exists M,
  parts (head_block toy true (delimiter (bs "b"))) (delimiter (bs "b")) (delimiter (bs "b") ++ M)
    [(mkFH toy (bs "a") None None, bs "x")] /\
  (forall i, occurs_at (delimiter (bs "b")) (bs "preamble --" ++ CRLF ++ delimiter (bs "b") ++ M) i ->
     length (bs "preamble --" ++ CRLF) <= i).
Proof.
  exists (CRLF ++ toy_head (bs "a") ++ bs "x" ++ CRLF ++ toy_end). split.
  - apply parts_field with (pre := []) (x := toy_head (bs "a")) (rest := bs "x" ++ CRLF ++ toy_end).
    + apply find_split; vm_compute; reflexivity.
    + split; [|apply Nat.leb_le; vm_compute; reflexivity].
      eexists. split; [intros y; vm_compute; reflexivity|]. split; vm_compute; reflexivity.
    + exists (toy_head (bs "a") ++ bs "x" ++ CRLF), (DASHES ++ CRLF). split; [|left; reflexivity].
      apply find_split; vm_compute; reflexivity.
    + apply parts_end with (pre := bs "x" ++ CRLF) (q := CRLF). apply find_split; vm_compute; reflexivity.
  - match goal with |- forall i, occurs_at ?d ?r i -> _ =>
      apply (proj2 (find_split d r (bs "preamble --" ++ CRLF) (CRLF ++ toy_head (bs "a") ++ bs "x" ++ CRLF ++ toy_end)
             ltac:(vm_compute; reflexivity) ltac:(vm_compute; reflexivity))) end.
Qed.
