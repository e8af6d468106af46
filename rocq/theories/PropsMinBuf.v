(** C94: the minimum buffer size that a user sets while reading a field.

    src/server/field.rs:305-310 says of [set_min_buf_size]: "Set the minimum buffer size that
    [BufRead::fill_buf(self)] will return until the end of the stream is reached.  Set this as small as
    you can tolerate to minimize [read()] calls ([read()] won't be called again until the buffer is
    smaller than this).  This value is reset between fields." *)

From Verif Require Import Bytes BytesProofs Spec Io Boundary BoundaryProofs Utf8 Httparse HttparseProofs Field
  FieldProofs ContentProofs DataProofs ShortProofs EntryProofs ReaderProofs Drive DriveProofs ReachProofs Toy PropsReader PropsForeach.

(** ** Specification *)

(** No call of [set_min_buf_size] among the calls. *)
Definition leaves_min (o : op) : Prop := match o with OSetMin _ | ONext => False | _ => True end.

(** Every call of [set_min_buf_size] asks for at least [M]. *)
Definition at_least (M : nat) (o : op) : Prop := match o with OSetMin n => M <= n | _ => True end.

(** The minimum in force after [set_min_buf_size n]: never less than two delimiters. *)
Definition effective (D : bytes) (n : nat) : nat := Nat.max (2 * length D) n.

(** ** Proofs about one call *)

Lemma fill_reads min b t e b' t' : fill_buf min b t = (e, b', t') ->
  exists used, t = used ++ t' /\ b' = b ++ stream used /\
    forall l x, used = l ++ [x] -> length (b ++ stream l) < min.
Proof.
  revert b; induction t as [|ev t IH]; intros b; cbn [fill_buf]; destruct (min <=? length b) eqn:E.
  1-3: intros H; injection H as <- <- <-; exists []; split; [reflexivity|]; split; [cbn [stream]; now rewrite app_nil_r|];
    intros l x H; symmetry in H; now apply app_eq_nil in H as [_ H].
  apply Nat.leb_gt in E.
  assert (One : forall l x, [ev] = l ++ [x] -> length (b ++ stream l) < min).
  { intros [|y l] x H; [cbn [stream]; now rewrite app_nil_r|]. injection H as _ H. symmetry in H. now apply app_eq_nil in H as [_ H]. }
  destruct ev as [[|x c]|k].
  - intros H; injection H as <- <- <-. exists [Chunk []]. split; [reflexivity|]. split; [cbn; now rewrite app_nil_r|]. exact One.
  - intros H. destruct (IH _ H) as (used & -> & -> & L). exists (Chunk (x :: c) :: used).
    split; [reflexivity|]. split; [cbn [stream]; now rewrite app_assoc|].
    intros [|y l] z Z; [cbn [stream]; now rewrite app_nil_r|]. injection Z as <- Z. cbn [stream]. rewrite app_assoc. eauto.
  - intros H; injection H as <- <- <-. exists [Fail k]. split; [reflexivity|]. split; [cbn; now rewrite app_nil_r|]. exact One.
Qed.

Lemma boundary_src r x r' : read_to_boundary r = (x, r') ->
  exists e, fill_buf (minb r) (buf r) (src r) = (e, buf r', src r').
Proof.
  unfold read_to_boundary. destruct (fill_buf (minb r) (buf r) (src r)) as [[e bb] t]. intros H. exists e.
  destruct e as [k|].
  - injection H as <- <-. reflexivity.
  - destruct (st r); [destruct (search_step _ _ _) as [[? ?]|]|destruct (_ <? _)|destruct (_ <? _)];
      injection H as <- <-; reflexivity.
Qed.

(** How far below the minimum a slice can be. *)
Lemma fill_min r d r' : inv r -> st r <> AtEnd -> live (src r) -> read_to_boundary r = (Ok d, r') ->
  exists w, rem r' = d ++ w /\ (minb r <= length d + length (bnd r) + 1 \/ prefix_of (bnd r) w \/ prefix_of (CRLF ++ bnd r) w \/ length w <= length (bnd r) + 1).
Proof.
  intros I1 S1 Hl F.
  pose proof (read_to_boundary_spec _ _ _ I1 F) as (I2 & R2 & B2 & M2 & L2 & _ & K1 & K2 & -> & Fl & Se).
  exists (skipn (idx r') (buf r') ++ stream (src r')). split; [unfold rem; now rewrite app_assoc, firstn_skipn|].
  destruct I2 as (Dd & Ix & Is). rewrite firstn_length_le by exact Ix.
  destruct (st r') eqn:Sq.
  - destruct (Se eq_refl) as [Se1 _]. destruct Fl as [Fl|[Fl|Fl]].
    + left. lia.
    + right. right. right. rewrite Fl, app_length, skipn_length. cbn [stream length]. lia.
    + elim Hl. exact Fl.
  - destruct Is as (p & (P1 & P2 & P3) & _). rewrite B2 in *.
    apply sw_iff in P2 as [z Z]. destruct P3 as [->|[-> P3]].
    + right. left. exists (z ++ stream (src r')). now rewrite Z, <- app_assoc.
    + right. right. left. apply sw_iff in P3 as [y Y].
      exists (z ++ stream (src r')). rewrite <- skipn_skipn' in Z. rewrite Y in Z |- *. cbn [skipn app CRLF] in Z. subst y. now rewrite <- !app_assoc.
  - exfalso. destruct (st r) eqn:S0; [now apply K2|destruct (K1 ltac:(discriminate)); congruence|congruence].
Qed.

Section WithMime.
Context (ML : mime_lib).

(** Reads, fills and consumes leave the minimum alone. *)
Lemma leaves_minb trim os : forall r ob r', inv r -> Forall leaves_min os -> run ML trim os r = (ob, r') -> minb r' = minb r.
Proof.
  induction os as [|o os IH]; intros r ob r' Hi F; cbn [run]; [intros H; now injection H as _ <-|].
  inversion F as [|? ? Fo Fs]; subst. destruct (step ML trim o r) as [x q] eqn:E.
  destruct (run ML trim os q) as [ob' q'] eqn:R. intros H; injection H as _ <-.
  pose proof (step_inv ML _ _ _ _ _ Hi E) as (Hq & _).
  rewrite (IH _ _ _ Hq Fs R). destruct o as [n| |n|n|]; cbn [step] in E; try destruct Fo.
  - unfold read in E. destruct (read_to_boundary r) as [y w] eqn:Q.
    pose proof (read_to_boundary_spec _ _ _ Hi Q) as (_ & _ & _ & M & _).
    destruct y; injection E as _ <-; exact M.
  - destruct (read_to_boundary r) as [y w] eqn:Q.
    pose proof (read_to_boundary_spec _ _ _ Hi Q) as (_ & _ & _ & M & _). injection E as _ <-. exact M.
  - injection E as _ <-. reflexivity.
Qed.

End WithMime.

(** The state in which a call is made after the minimum was set. *)
Lemma min_state ML trim t b h r n os1 os2 ob r1 :
  at_field ML trim t b h r -> Forall data_op os1 -> Forall leaves_min os2 ->
  run ML trim (os1 ++ [OSetMin n] ++ os2) r = (ob, r1) ->
  inv r1 /\ st r1 <> AtEnd /\ bnd r1 = delimiter b /\ later (src r1) t /\ minb r1 = effective (delimiter b) n.
Proof.
  intros Hf D1 D2 H.
  assert (D : Forall data_op (os1 ++ [OSetMin n] ++ os2)).
  { apply Forall_app. split; auto. constructor; [exact I|]. eapply Forall_impl; [|exact D2]. intros [| | | |]; simpl; tauto. }
  pose proof (field_state _ _ _ _ _ _ _ _ _ Hf D H) as (I1 & _ & S1 & B1 & L1 & _).
  split; auto. split; auto. split; auto. split; auto.
  apply run_app in H as (ob1 & q & ob2 & H1 & H2 & _). cbn [app run step] in H2.
  destruct (run ML trim os2 (set_min_buf_size n q)) as [ob3 q3] eqn:R. injection H2 as _ <-.
  pose proof (field_state _ _ _ _ _ _ _ _ _ Hf D1 H1) as (I2 & _ & _ & B2 & _).
  rewrite (leaves_minb ML _ _ _ _ _ (inv_set_min n q I2) D2 R). cbn [minb set_min_buf_size]. rewrite B2. unfold effective. lia.
Qed.

(** ** C94 (1): [fill_buf] returns at least the minimum *)

(** The full claim, "until the end of the field or of the stream", is false: what may be the start of the
    delimiter is kept back, and asking again does not help. *)
Definition C94_t : transport :=
  [Chunk (bs "--b" ++ CRLF ++ toy_head (bs "a") ++ repeat 120%N 1000); Chunk (repeat 121%N 8 ++ bs "--");
   Chunk (repeat 122%N 8 ++ CRLF ++ bs "--b--" ++ CRLF)].

Theorem C94_min_refuted : exists ML trim t b h r n d more os ob r',
  at_field ML trim t b h r /\ live t /\ quiet t /\ Forall data_op os /\
  run ML trim (os ++ [OSetMin n; OFill; OFill]) r = (ob ++ [BUnit ML; BFill ML (Ok d); BFill ML (Ok d)], r') /\
  length d < n /\ content (delimiter b) (rem r') (d ++ more) /\ n < length (d ++ more) /\ src r' <> [].
Proof.
  set (r0 := snd (read_entry toy true (with_body C94_t (bs "b")))).
  set (os := [OSetMin 10; ORead 1000]).
  exists toy, true, C94_t, (bs "b"), (mkFH toy (bs "a") None None), r0, 10, (repeat 121%N 8), (bs "--" ++ repeat 122%N 8).
  exists os, (fst (run toy true os r0)), (snd (run toy true (os ++ [OSetMin 10; OFill; OFill]) r0)).
  split; [exists [], [], (with_body C94_t (bs "b")); split; vm_compute; reflexivity|].
  split; [intros [H|[H|[H|[]]]]; discriminate|]. split; [intros k [H|[H|[H|[]]]]; discriminate|].
  split; [repeat constructor|]. split; [vm_compute; reflexivity|]. split; [vm_compute; lia|].
  split; [|split; [vm_compute; lia|vm_compute; discriminate]].
  exists (repeat 121%N 8 ++ bs "--" ++ repeat 122%N 8 ++ CRLF), (DASHES ++ CRLF).
  split; [|left; vm_compute; reflexivity]. apply find_split; vm_compute; reflexivity.
Qed.

(** Part that holds: at most the delimiter and one byte more are missing from the minimum, unless the
    delimiter follows what was returned (after a CRLF or not), or what is left of the body is not longer
    than that. *)
Theorem C94_min_partial : forall ML trim t b h r n os1 os2 ob d r',
  at_field ML trim t b h r -> live t -> Forall data_op os1 -> Forall leaves_min os2 ->
  run ML trim (os1 ++ [OSetMin n] ++ os2 ++ [OFill]) r = (ob ++ [BFill ML (Ok d)], r') ->
  exists w : bytes, rem r' = d ++ w /\
    (effective (delimiter b) n <= length d + length (delimiter b) + 1 \/
     prefix_of (delimiter b) w \/ prefix_of (CRLF ++ delimiter b) w \/
     length w <= length (delimiter b) + 1).
Proof.
  intros ML trim t b h r n os1 os2 ob d r' Hf Hl D1 D2 H.
  replace (os1 ++ [OSetMin n] ++ os2 ++ [OFill]) with ((os1 ++ [OSetMin n] ++ os2) ++ [OFill]) in H by now rewrite <- !app_assoc.
  apply run_app in H as (ob1 & r1 & ob2 & H1 & H2 & E).
  destruct (min_state _ _ _ _ _ _ _ _ _ _ _ Hf D1 D2 H1) as (I1 & S1 & B1 & L1 & M1).
  cbn [run step] in H2. destruct (read_to_boundary r1) as [x q] eqn:F. injection H2 as <- <-.
  apply app_inj_tail in E as [_ E]. injection E as <-.
  pose proof (fill_min _ _ _ I1 S1 (live_later _ _ L1 Hl) F) as K. now rewrite B1, M1 in K.
Qed.

(** ** C94 (2): the transport is only read while less than the minimum is buffered *)
Theorem C94_reads : forall ML trim t b h r n os1 os2 ob1 r1 o x r2,
  at_field ML trim t b h r -> Forall data_op os1 -> Forall leaves_min os2 ->
  run ML trim (os1 ++ [OSetMin n] ++ os2) r = (ob1, r1) -> leaves_min o -> step ML trim o r1 = (x, r2) ->
  exists used, src r1 = used ++ src r2 /\
    forall l e, used = l ++ [e] -> length (buf r1 ++ stream l) < effective (delimiter b) n.
Proof.
  intros ML trim t b h r n os1 os2 ob1 r1 o x r2 Hf D1 D2 H1 Ho H.
  destruct (min_state _ _ _ _ _ _ _ _ _ _ _ Hf D1 D2 H1) as (I1 & S1 & B1 & L1 & M1). rewrite <- M1.
  assert (Rd : forall y q, read_to_boundary r1 = (y, q) ->
    exists used, src r1 = used ++ src q /\ forall l e, used = l ++ [e] -> length (buf r1 ++ stream l) < minb r1).
  { intros y q Q. destruct (boundary_src _ _ _ Q) as [e Q'].
    destruct (fill_reads _ _ _ _ _ _ Q') as (used & E & _ & L). eauto. }
  destruct o as [k| |k|k|]; cbn [step] in H; try destruct Ho.
  - unfold read in H. destruct (read_to_boundary r1) as [y q] eqn:Q.
    destruct y; injection H as _ <-; exact (Rd _ _ eq_refl).
  - destruct (read_to_boundary r1) as [y q] eqn:Q. injection H as _ <-. exact (Rd _ _ eq_refl).
  - injection H as _ <-. exists []. split; [reflexivity|]. intros l e Z. symmetry in Z. now apply app_eq_nil in Z as [_ Z].
Qed.

(** So no call reads while a slice as long as the minimum is unconsumed. *)
Theorem C94_quiet : forall ML trim t b h r n os1 os2 ob d r1 o x r2,
  at_field ML trim t b h r -> Forall data_op os1 -> Forall leaves_min os2 ->
  run ML trim (os1 ++ [OSetMin n] ++ os2 ++ [OFill]) r = (ob ++ [BFill ML (Ok d)], r1) ->
  effective (delimiter b) n <= length d -> leaves_min o -> step ML trim o r1 = (x, r2) -> src r2 = src r1.
Proof.
  intros ML trim t b h r n os1 os2 ob d r1 o x r2 Hf D1 D2 H Hd Ho H2.
  assert (D2' : Forall leaves_min (os2 ++ [OFill])) by (apply Forall_app; split; auto; constructor; [exact I|constructor]).
  destruct (C94_reads _ _ _ _ _ _ _ _ _ _ _ _ _ _ Hf D1 D2' H Ho H2) as (used & E & L).
  destruct used as [|e used _] using rev_ind; [now rewrite E|].
  exfalso. specialize (L _ _ eq_refl). rewrite app_length in L.
  replace (os1 ++ [OSetMin n] ++ os2 ++ [OFill]) with ((os1 ++ [OSetMin n] ++ os2) ++ [OFill]) in H by now rewrite <- !app_assoc.
  apply run_app in H as (ob1 & q & ob2 & G1 & G2 & G).
  destruct (min_state _ _ _ _ _ _ _ _ _ _ _ Hf D1 D2 G1) as (I1 & _).
  cbn [run step] in G2. destruct (read_to_boundary q) as [y q1] eqn:F. injection G2 as <- <-.
  apply app_inj_tail in G as [_ G]. injection G as <-.
  pose proof (read_to_boundary_spec _ _ _ I1 F) as (_ & _ & _ & _ & _ & _ & _ & _ & -> & _).
  rewrite firstn_length in Hd. lia.
Qed.

(** With the minimum that was asked for, instead of the one in force, this is false. *)
Theorem C94_quiet_refuted : exists ML trim t b h r n k os ob d r1 x r2,
  at_field ML trim t b h r /\ live t /\ quiet t /\ Forall data_op os /\
  run ML trim (os ++ [OSetMin n; OFill; OConsume k]) r = (ob ++ [BUnit ML; BFill ML (Ok d); BConsumed ML (firstn k d)], r1) /\
  n <= length (skipn k d) /\ step ML trim OFill r1 = (x, r2) /\ src r2 <> src r1.
Proof.
  set (r0 := snd (read_entry toy true (with_body C94_t (bs "b")))).
  set (r1 := snd (run toy true [OSetMin 4; OFill; OConsume 995] r0)).
  exists toy, true, C94_t, (bs "b"), (mkFH toy (bs "a") None None), r0, 4, 995, [], [], (repeat 120%N 1000), r1.
  exists (fst (step toy true OFill r1)), (snd (step toy true OFill r1)).
  split; [exists [], [], (with_body C94_t (bs "b")); split; vm_compute; reflexivity|].
  split; [intros [H|[H|[H|[]]]]; discriminate|]. split; [intros k [H|[H|[H|[]]]]; discriminate|].
  split; [constructor|]. split; [vm_compute; reflexivity|]. split; [vm_compute; lia|].
  split; [vm_compute; reflexivity|vm_compute; discriminate].
Qed.

(** ** C94 (3): the minimum is reset between fields *)

(** Whatever was set for earlier fields, 1024 bytes (or two delimiters) are in force for a new field. *)
Theorem C94_reset : forall ML trim t b h r os ob1 r1 o x r2,
  at_field ML trim t b h r -> live t -> Forall leaves_min os -> run ML trim os r = (ob1, r1) ->
  leaves_min o -> step ML trim o r1 = (x, r2) ->
  (exists used, src r1 = used ++ src r2 /\
     forall l e, used = l ++ [e] -> length (buf r1 ++ stream l) < effective (delimiter b) 1024) /\
  (forall d, x = BFill ML (Ok d) ->
   exists w, rem r2 = d ++ w /\
     (effective (delimiter b) 1024 <= length d + length (delimiter b) + 1 \/
      prefix_of (delimiter b) w \/ prefix_of (CRLF ++ delimiter b) w \/ length w <= length (delimiter b) + 1)).
Proof.
  intros ML trim t b h r os ob1 r1 o x r2 Hf Hl D H1 Ho H2.
  assert (E : run ML trim ([] ++ [OSetMin 1024] ++ os) r = (BUnit ML :: ob1, r1)).
  { cbn [app run step]. destruct (at_field_reached _ _ _ _ _ _ Hf) as (_ & _ & M).
    replace (set_min_buf_size 1024 r) with r; [now rewrite H1|].
    unfold set_min_buf_size. change 1024 with MIN_BUF_SIZE. rewrite <- M. now destruct r. }
  split; [exact (C94_reads _ _ _ _ _ _ _ _ _ _ _ _ _ _ Hf (Forall_nil _) D E Ho H2)|].
  intros d ->. destruct o; cbn [step] in H2; try destruct Ho.
  - destruct (read n r1); discriminate.
  - apply (C94_min_partial ML trim t b h r 1024 [] os (BUnit ML :: ob1) d r2 Hf Hl (Forall_nil _) D).
    exact (run_snoc ML trim ([] ++ [OSetMin 1024] ++ os) OFill r _ _ _ _ E H2).
  - discriminate.
Qed.

(** ** C94 (4): what the minimum does to the data *)

(** Lowering the minimum changes the data: a field of 1010 bytes, which is read exactly for every chunking
    with the minimum that is in force at first (C03), gets a CRLF too many. *)
Definition C94_t2 : transport :=
  [Chunk (bs "--b" ++ CRLF ++ toy_head (bs "a") ++ repeat 120%N 990); Chunk (repeat 121%N 20 ++ [CR]);
   Chunk ([LF] ++ bs "--b--" ++ CRLF)].

Theorem C94_data_refuted : exists ML trim t b h r n k c ob1 r1 ob2 r2,
  at_field ML trim t b h r /\ live t /\ quiet t /\ 0 < k /\ content (delimiter b) (rem r) c /\
  run ML trim [ORead k; ORead k; ORead k] r = (ob1 ++ [BRead ML (Ok [])], r1) /\ delivered ML ob1 = c /\
  run ML trim [OSetMin n; ORead k; ORead k; ORead k; ORead k] r = (ob2 ++ [BRead ML (Ok [])], r2) /\
  delivered ML ob2 = c ++ CRLF.
Proof.
  set (r0 := snd (read_entry toy true (with_body C94_t2 (bs "b")))).
  set (os1 := [ORead 4096; ORead 4096]). set (os2 := [OSetMin 1; ORead 4096; ORead 4096; ORead 4096]).
  exists toy, true, C94_t2, (bs "b"), (mkFH toy (bs "a") None None), r0, 1, 4096, (repeat 120%N 990 ++ repeat 121%N 20).
  exists (fst (run toy true os1 r0)), (snd (run toy true (os1 ++ [ORead 4096]) r0)).
  exists (fst (run toy true os2 r0)), (snd (run toy true (os2 ++ [ORead 4096]) r0)).
  split; [exists [], [], (with_body C94_t2 (bs "b")); split; vm_compute; reflexivity|].
  split; [intros [H|[H|[H|[]]]]; discriminate|]. split; [intros k [H|[H|[H|[]]]]; discriminate|].
  split; [apply Nat.ltb_lt; reflexivity|].
  split; [exists ((repeat 120%N 990 ++ repeat 121%N 20) ++ CRLF), (DASHES ++ CRLF); split;
          [apply find_split; vm_compute; reflexivity|left; reflexivity]|].
  split; [vm_compute; reflexivity|]. split; [vm_compute; reflexivity|]. split; vm_compute; reflexivity.
Qed.

(** After a successful fill with a minimum above the length of the content the cursor is before the CRLF. *)
Lemma strict_fill_min M r b r' c : inv r -> near r -> live (src r) -> M <= minb r -> st r <> AtEnd ->
  content (bnd r) (rem r) c -> length c + 1 < M -> read_to_boundary r = (Ok b, r') -> strict r'.
Proof.
  intros Hinv Hn Hl Hm Hst Hc Hs H.
  pose proof (read_to_boundary_spec _ _ _ Hinv H) as (I1 & R1 & B1 & M1 & L1 & _ & _ & _ & _ & Fl & _).
  intros Hst' c0 post FS. rewrite B1, R1 in FS.
  destruct (fill_between _ _ _ _ _ Hinv Hn H Hst FS) as [G|(_ & G1 & G2 & [b0 G3] & G4)]; auto. exfalso.
  assert (c0 = c) as ->.
  { destruct Hc as (pre & post' & FS' & Hf). destruct (first_split_fun _ _ _ _ _ _ FS FS') as [<- _].
    destruct Hf as [Hf|[Ec Hf]]; [now apply app_inv_tail in Hf|]. exfalso. apply (Hf c0). congruence. }
  destruct Fl as [Fl|[Fl|Fl]]; [lia| |auto]. rewrite Fl in G4. discriminate.
Qed.

Section WithMime2.
Context (ML : mime_lib).

Lemma run_content_min M trim os : forall f r ob r' c,
  inv r -> near r -> live (src r) -> M <= minb r -> st r <> AtEnd -> (f = true -> strict r) -> length c + 1 < M ->
  Forall data_op os ->
  Forall (fun o => match o with OSetMin n => M <= effective (bnd r) n | _ => True end) os ->
  run ML trim os r = (ob, r') -> lawful ML f ob -> content (bnd r) (rem r) c ->
  exists c', c = delivered ML ob ++ c' /\ content (bnd r) (rem r') c'.
Proof.
  induction os as [|o os IH]; intros f r ob r' c Hinv Hn Hl Hm Hst Hf Hs Hd Hk; cbn [run].
  - intros H _ Hc; injection H as <- <-. exists c. auto.
  - inversion Hd as [|? ? Ho Hos]; inversion Hk as [|? ? Ko Kos]; subst.
    destruct (step ML trim o r) as [b r1] eqn:E. destruct (run ML trim os r1) as [bs1 r2] eqn:F.
    intros H La Hc; injection H as <- <-.
    pose proof (step_inv ML _ _ _ _ _ Hinv E) as (J1 & J2 & J3 & _).
    pose proof (step_steps ML _ _ _ _ _ Hinv E) as St.
    pose proof (step_data ML _ _ _ _ _ Hinv Ho E) as (R1 & K & _). destruct (K Hst) as [K1 K2].
    assert (Next : forall f', (f' = true -> strict r1) -> lawful ML f' bs1 -> M <= minb r1 ->
      (forall c0 post, first_split (bnd r) (rem r) (c0 ++ CRLF) post -> length (delivered1 ML b) <= length c0) ->
      exists c', c = delivered ML (b :: bs1) ++ c' /\ content (bnd r) (rem r2) c').
    { intros f' Hf' La' Hm' Hc0.
      destruct (content_skip _ _ _ _ _ K1 Hc Hc0) as (c1 & -> & Hc1). rewrite <- J2 in Hc1.
      destruct (IH f' r1 bs1 r2 c1) as (c2 & -> & Hc2); auto; try (eapply live_later; eassumption).
      - eapply steps_near; eauto.
      - rewrite app_length in Hs. lia.
      - now rewrite J2.
      - exists c2. rewrite <- J2. split; auto. cbn [delivered flat_map]. now rewrite app_assoc. }
    destruct o as [n| |n|n|]; cbn [step] in E; [| | | |destruct Ho].
    + destruct (read n r) as [x r1'] eqn:G. injection E as <- <-. unfold read in G.
      destruct (read_to_boundary r) as [y q] eqn:Q.
      pose proof (read_to_boundary_spec _ _ _ Hinv Q) as (I1 & Rq & Bq & Mq & Lq & _ & KK & K2' & X).
      destruct y as [y|e| |]; injection G as <- <-; cbn [lawful] in La.
      2-4: apply (Next f); [intros Ht; refine (fill_error_strict _ _ _ Hinv _ (Hf Ht) Q); intros; discriminate|exact La|lia|cbn; lia].
      pose proof (strict_fill_min M _ _ _ _ Hinv Hn Hl Hm Hst Hc Hs Q) as Hs'.
      apply (Next true); auto; [intros _; now apply strict_consume|pose proof (consume_spec (length (firstn n y)) q I1); lia|].
      intros c0 post FS. cbn [delivered1].
      assert (Hq : st q <> AtEnd).
      { destruct (st r) eqn:S0; [auto|destruct KK as [KK _]; congruence|congruence]. }
      specialize (Hs' Hq c0 post). rewrite Bq, Rq in Hs'. specialize (Hs' FS).
      destruct X as [-> _]. rewrite !firstn_length. lia.
    + destruct (read_to_boundary r) as [y q] eqn:Q. injection E as <- <-.
      pose proof (read_to_boundary_spec _ _ _ Hinv Q) as (I1 & Rq & Bq & Mq & Lq & _).
      destruct y as [y|e| |]; cbn [lawful] in La.
      2-4: apply (Next f); [intros Ht; refine (fill_error_strict _ _ _ Hinv _ (Hf Ht) Q); intros; discriminate|exact La|lia|cbn; lia].
      apply (Next true); auto; [|lia|cbn; lia]. intros _. exact (strict_fill_min M _ _ _ _ Hinv Hn Hl Hm Hst Hc Hs Q).
    + injection E as <- <-. cbn [lawful] in La. destruct La as [-> La]. specialize (Hf eq_refl).
      apply (Next true); auto; [intros _; now apply strict_consume|].
      intros c0 post FS. cbn. rewrite firstn_length. specialize (Hf Hst c0 post FS). lia.
    + injection E as <- <-. cbn [lawful] in La. simpl in Ko. unfold effective in Ko. apply (Next f); auto; [simpl; lia|cbn; lia].
Qed.

End WithMime2.

(** Part that holds: with a minimum of at least two more than the length of the content, set when the field starts
    and not lowered, the data is exact for every chunking; [consume] is used as its contract says. *)
Theorem C94_data_partial : forall ML trim t b h r M os n ob r' c,
  at_field ML trim t b h r -> live t -> Forall data_op os -> Forall (at_least M) os -> lawful ML false ob -> 0 < n ->
  run ML trim (OSetMin M :: os ++ [ORead n]) r = (BUnit ML :: ob ++ [BRead ML (Ok [])], r') ->
  content (delimiter b) (rem r) c -> length c + 1 < effective (delimiter b) M -> delivered ML ob = c.
Proof.
  intros ML trim t b h r M os n ob r' c Hf Hl Hd Hk La Hn H Hc Hs.
  change (OSetMin M :: os ++ [ORead n]) with ((OSetMin M :: os) ++ [ORead n]) in H.
  apply run_app in H as (ob1 & r1 & ob2 & H1 & H2 & E).
  assert (Hd' : Forall data_op (OSetMin M :: os)) by (constructor; [exact I|exact Hd]).
  pose proof (field_state _ _ _ _ _ _ _ _ _ Hf Hd' H1) as (I2 & _ & S2 & B2 & L2 & M2 & _).
  cbn [run step] in H1, H2. destruct (read n r1) as [x r2] eqn:F. injection H2 as <- <-.
  destruct (run ML trim os (set_min_buf_size M r)) as [ob' q] eqn:R. injection H1 as <- <-.
  cbn [app] in E. injection E as E. apply app_inj_tail in E as [-> E]. injection E as <-.
  destruct (at_field_reached _ _ _ _ _ _ Hf) as (R1 & S1 & _).
  pose proof (reached_inv _ _ _ _ _ R1) as (I1 & N1 & B1 & L1 & _).
  destruct (run_content_min ML (effective (delimiter b) M) trim os false (set_min_buf_size M r) ob' q c) as (c' & -> & Hc').
  - now apply inv_set_min.
  - exact N1.
  - exact (live_later _ _ L1 Hl).
  - cbn [minb set_min_buf_size]. rewrite B1. unfold effective. lia.
  - exact S1.
  - discriminate.
  - exact Hs.
  - exact Hd.
  - cbn [bnd set_min_buf_size]. rewrite B1. eapply Forall_impl; [|exact Hk].
    intros [k| |k|k|]; cbn [at_least]; auto. unfold effective. lia.
  - exact R.
  - exact La.
  - cbn [bnd set_min_buf_size]. rewrite B1. exact Hc.
  - pose proof (read_empty _ _ _ I2 S2 Hn F (live_later _ _ L2 Hl) M2) as (Z & _).
    cbn [bnd set_min_buf_size] in Hc'. rewrite B1, <- B2 in Hc'. rewrite (content_end _ _ _ Hc' Z). now rewrite app_nil_r.
Qed.

(** The body of [C03_t1], whose CRLF is split after 1023 bytes: with a minimum of 1030 the data is exact, and
    the transport is read to the end before the first bytes are handed out; with the initial minimum it is not. *)
Example C94_example : exists h r os ob r' c,
  at_field toy true C03_t1 (bs "b") h r /\ live C03_t1 /\ Forall data_op os /\ Forall (at_least 1030) os /\
  lawful toy false ob /\
  run toy true (OSetMin 1030 :: os ++ [ORead 4096]) r = (BUnit toy :: ob ++ [BRead toy (Ok [])], r') /\
  content (delimiter (bs "b")) (rem r) c /\ length c + 1 < effective (delimiter (bs "b")) 1030 /\
  delivered toy ob = c /\ c = repeat 120%N 1023 /\
  delivered toy (fst (run toy true (os ++ [ORead 4096]) r)) = c ++ CRLF.
Proof.
  set (r0 := snd (read_entry toy true (with_body C03_t1 (bs "b")))).
  set (os := [OFill; ORead 4096; OConsume 10; ORead 4096]).
  exists (mkFH toy (bs "a") None None), r0, os, (fst (run toy true os (set_min_buf_size 1030 r0))).
  exists (snd (run toy true (OSetMin 1030 :: os ++ [ORead 4096]) r0)), (repeat 120%N 1023).
  split; [exists [], [], (with_body C03_t1 (bs "b")); split; vm_compute; reflexivity|].
  split; [intros [H|[H|[]]]; discriminate|]. split; [repeat constructor|]. split; [repeat constructor|].
  split; [vm_compute; auto|]. split; [vm_compute; reflexivity|].
  split; [exists (repeat 120%N 1023 ++ CRLF), (DASHES ++ CRLF); split; [apply find_split; vm_compute; reflexivity|left; reflexivity]|].
  split; [apply Nat.ltb_lt; vm_compute; reflexivity|]. split; [vm_compute; reflexivity|]. split; [reflexivity|vm_compute; reflexivity].
Qed.

(** A minimum of 20 set after 1000 bytes: the call after it reads one chunk, and a slice of 24 bytes comes back. *)
Definition C94_t3 : transport :=
  [Chunk (bs "--b" ++ CRLF ++ toy_head (bs "a") ++ repeat 120%N 1000); Chunk (repeat 121%N 24);
   Chunk (repeat 122%N 8); Chunk (CRLF ++ bs "--b--" ++ CRLF)].

Example C94_example_reads : exists h r ob d r1 x r2,
  at_field toy true C94_t3 (bs "b") h r /\ live C94_t3 /\
  run toy true ([] ++ [OSetMin 20] ++ [ORead 1000] ++ [OFill]) r = (ob ++ [BFill toy (Ok d)], r1) /\
  effective (delimiter (bs "b")) 20 <= length d /\ d = repeat 121%N 24 /\
  src r1 = [Chunk (repeat 122%N 8); Chunk (CRLF ++ bs "--b--" ++ CRLF)] /\
  step toy true (ORead 4) r1 = (x, r2) /\ x = BRead toy (Ok (repeat 121%N 4)) /\ src r2 = src r1 /\
  src (snd (step toy true OFill (snd (step toy true (ORead 1) r2)))) = [Chunk (CRLF ++ bs "--b--" ++ CRLF)].
Proof.
  set (r0 := snd (read_entry toy true (with_body C94_t3 (bs "b")))).
  set (r1 := snd (run toy true [OSetMin 20; ORead 1000; OFill] r0)).
  exists (mkFH toy (bs "a") None None), r0, (fst (run toy true [OSetMin 20; ORead 1000] r0)), (repeat 121%N 24), r1.
  exists (fst (step toy true (ORead 4) r1)), (snd (step toy true (ORead 4) r1)).
  split; [exists [], [], (with_body C94_t3 (bs "b")); split; vm_compute; reflexivity|].
  split; [intros [H|[H|[H|[H|[]]]]]; discriminate|]. split; [vm_compute; reflexivity|].
  split; [apply Nat.leb_le; vm_compute; reflexivity|]. split; [reflexivity|]. split; [vm_compute; reflexivity|].
  split; [vm_compute; reflexivity|]. split; [vm_compute; reflexivity|]. split; vm_compute; reflexivity.
Qed.
