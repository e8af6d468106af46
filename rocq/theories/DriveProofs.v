(** Reading a whole well-formed body. *)

From Verif Require Import Bytes BytesProofs Spec Io Boundary BoundaryProofs Utf8 Httparse HttparseProofs Field
  FieldProofs ContentProofs DataProofs ShortProofs EntryProofs Drive.

Section WithMime.
Context (ML : mime_lib).

(** States in which reads are exact: no chunk border falls inside the CRLF of a delimiter, or the user reads
    with small buffers. *)
Definition exact_reads (sz : nat -> nat) (r : breader) : Prop :=
  (unsplit r /\ strict r) \/ (forall k, sz k < MIN_BUF_SIZE).

(** Or such borders fall only after short contents among [l]. *)
Definition short_ends (r : breader) (l : list bytes) : Prop :=
  forall (c : bytes) t1 t2 (a : bytes), In c l -> src r = t1 ++ t2 -> buf r ++ stream t1 = a ++ c ++ [CR] ->
  starts_with (stream t2) (LF :: bnd r) = true -> length c + 1 < MIN_BUF_SIZE.

Lemma short_ends_later r r' u l : short_ends r l -> later (src r') (src r) -> rem r = u ++ rem r' -> bnd r' = bnd r -> short_ends r' l.
Proof.
  intros H [used E] Hr B c t1 t2 a Hc E' Hb Hw. rewrite B in Hw.
  pose proof (rem_used _ _ _ _ E Hr) as Eu.
  apply (H c (used ++ t1) t2 (u ++ a)); auto.
  - now rewrite E, E', app_assoc.
  - now rewrite stream_app, app_assoc, Eu, <- app_assoc, Hb, app_assoc.
Qed.

Lemma short_ends_one r c l : short_ends r l -> In c l -> short_end r c.
Proof. intros H Hc t1 t2 E Hb Hw. apply (H c t1 t2 []); auto. Qed.

Definition ready (sz : nat -> nat) (r : breader) : Prop :=
  inv r /\ near r /\ live (src r) /\ quiet (src r) /\ (forall k, 0 < sz k).

Lemma ready_steps sz r r' : ready sz r -> steps r r' -> later (src r') (src r) -> ready sz r'.
Proof.
  intros (H1 & H2 & H3 & H4 & H5) S L.
  split; [eapply steps_inv; eauto|]. split; [eapply steps_near; eauto|].
  split; [eapply live_later; eauto|]. split; [eapply quiet_later; eauto|auto].
Qed.

Lemma exact_reads_steps sz r r' : inv r -> exact_reads sz r -> steps r r' -> exact_reads sz r'.
Proof. intros I [[U T]|H] S; [left|right; auto]. split; eauto using steps_unsplit, steps_strict. Qed.

Lemma drain_exact fuel sz k r c :
  ready sz r -> exact_reads sz r \/ short_end r c -> st r <> AtEnd -> MIN_BUF_SIZE <= minb r -> length (bnd r) + 2 <= minb r ->
  content (bnd r) (rem r) c -> length (rem r) < fuel ->
  exists r', drain fuel sz k r = (Ok c, r') /\ ready sz r' /\ (exact_reads sz r -> exact_reads sz r') /\ later (src r') (src r) /\ skipped (bnd r) (rem r) c (rem r') /\
    st r' <> AtEnd /\ idx r' = 0 /\ bnd r' = bnd r /\ content (bnd r) (rem r') [].
Proof.
  revert k r c; induction fuel as [|fuel IH]; intros k r c HR Hx Hst Hm Hd Hc Hf; [lia|].
  cbn [drain]. destruct (read (sz k) r) as [x r1] eqn:E.
  pose proof HR as (Hinv & Hn & Hl & Hq & Hsz).
  pose proof (read_spec _ _ _ _ Hinv E) as (I1 & B1 & M1 & L1 & X).
  assert (Sx : steps r r1).
  { apply (step_steps ML true (ORead (sz k)) r (BRead ML x) r1 Hinv). cbn [step]. now rewrite E. }
  destruct x as [out|e| |]; try tauto.
  2: { destruct X as (kk & _ & X & _). exfalso. eapply Hq; eauto. }
  destruct X as (Rr & Hlen & Hs & _). destruct (Hs Hst) as [K1 K2].
  assert (Hst' : exists c', c = out ++ c' /\ content (bnd r) (rem r1) c').
  { destruct Hx as [[[U T]|Hex]|Hs'].
    - apply (step_content ML true (ORead (sz k)) r (BRead ML (Ok out)) r1 c); simpl; auto. now rewrite E.
    - apply (step_content_small ML true (ORead (sz k)) r (BRead ML (Ok out)) r1 c); simpl; auto.
      + specialize (Hex k). lia.
      + now rewrite E.
    - destruct (run_content_short ML true [ORead (sz k)] false r [BRead ML (Ok out)] r1 c) as (c' & Ec & Hc'); auto.
      + discriminate.
      + repeat constructor.
      + repeat constructor.
      + cbn [run step]. now rewrite E.
      + exact I.
      + exists c'. cbn [delivered flat_map delivered1] in Ec. rewrite app_nil_r in Ec. auto. }
  destruct Hst' as (c' & -> & Hc').
  assert (Hx1 : exact_reads sz r1 \/ short_end r1 c').
  { destruct Hx as [Hx|Hx]; [left; exact (exact_reads_steps sz r r1 Hinv Hx Sx)|right; apply (short_end_later r r1 out c' Hx L1 Rr B1)]. }
  assert (HR1 : ready sz r1) by (eapply ready_steps; eauto).
  destruct out as [|o out].
  - pose proof (read_empty _ _ _ Hinv Hst (Hsz k) E Hl Hd) as (Z1 & _ & Z2 & Z3).
    assert (c' = []) as ->.
    { apply (content_end _ _ _ Hc'). rewrite Z3. exact Z1. }
    exists r1. rewrite Z3 in *. split; [reflexivity|]. split; [exact HR1|]. split; [intros Hx2; exact (exact_reads_steps sz r r1 Hinv Hx2 Sx)|].
    split; [exact L1|]. auto 10.
  - destruct (IH (S k) r1 c') as (r2 & D2 & R2 & X2 & L2 & S2 & T2 & Z2 & B2 & C2); auto; try congruence.
    + rewrite Rr in Hf. rewrite app_length in Hf. simpl in Hf. lia.
    + rewrite D2. exists r2. rewrite B1 in *. split; [reflexivity|]. split; [exact R2|].
      split; [intros Hx2; apply X2; exact (exact_reads_steps sz r r1 Hinv Hx2 Sx)|]. split; [eapply later_trans; eauto|].
      split; [eapply (skipped_trans _ _ _ _ _ _ K1 S2)|]. auto.
Qed.

(** The header block [x] parses to [h] whatever follows, and is of moderate size. *)
Definition head_block (trim : bool) (D : bytes) (x : bytes) (h : field_headers ML) : Prop :=
  (exists hs, (forall y, parse_headers trim HEADER_LEN (x ++ y) = HDone hs y) /\ copy_headers hs = true /\
              parse_field_headers ML hs = Ok h) /\
  length x + length D + 1 <= Nat.max (length D * 2) MIN_BUF_SIZE.

Lemma content_strip D x rest c :
  content D (x ++ rest) (x ++ c) -> content D rest c.
Proof.
  intros (pre & post & FS & Hf).
  assert (Hp : exists p, pre = x ++ p /\ field_content p c).
  { destruct Hf as [->|[<- Hno]].
    - exists (c ++ CRLF). rewrite <- app_assoc. split; auto. left; auto.
    - exists c. split; auto. right. split; auto. intros c' ->. apply (Hno (x ++ c')). now rewrite app_assoc. }
  destruct Hp as (p & -> & Hp). exists p, post. split; auto.
  destruct FS as [E FS]. rewrite <- app_assoc in E. apply app_inv_head in E. split; auto.
  intros i (a & b & Eab & La). specialize (FS (length x + i)). rewrite app_length in FS.
  cut (length x + length p <= length x + i); [lia|]. apply FS.
  exists (x ++ a), b. rewrite Eab, app_length, <- app_assoc. split; auto.
Qed.

Lemma parts_skipped {H} (head : bytes -> H -> Prop) D R c R' l :
  D <> [] -> skipped D R c R' -> parts head D R l -> parts head D R' l.
Proof.
  intros HD K P. destruct P as [R pre q FS|R pre x rest h d l FS Hh Hc P].
  - destruct (skipped_split_inv _ _ _ _ _ _ K FS) as (pre' & _ & FS'). eapply parts_end; eauto.
  - destruct (skipped_split_inv _ _ _ _ _ _ K FS) as (pre' & _ & FS'). eapply parts_field; eauto.
Qed.

Lemma read_all_exact trim sz l : forall fuel r,
  ready sz r -> exact_reads sz r \/ short_ends r (map snd l) -> st r <> AtEnd ->
  (st r = Searching \/ idx r = 0) ->
  parts (head_block trim (bnd r)) (bnd r) (rem r) l -> length l < fuel ->
  exists r', read_all ML trim fuel sz r = (Ok l, r').
Proof.
  induction l as [|[h c] l IH]; intros fuel r HR Hx Hst Hi P Hf; destruct fuel as [|fuel]; try (simpl in Hf; lia);
    cbn [read_all]; pose proof HR as (Hinv & Hn & Hl & Hq & Hsz).
  - assert (Hi' : st r = Searching \/ idx r + length (bnd r) + 4 <= Nat.max (length (bnd r) * 2) MIN_BUF_SIZE).
    { destruct Hi as [Hi|Hi]; auto. right. rewrite Hi.
      pose proof (min_after (bnd r) (dashed_length _ (proj1 Hinv))). lia. }
    inversion P as [R pre q FS|]; subst.
    destruct (read_entry_last ML trim r pre q) as (r' & ->); auto. eauto.
  - assert (Hi' : st r = Searching \/ idx r + length (bnd r) + 4 <= Nat.max (length (bnd r) * 2) MIN_BUF_SIZE).
    { destruct Hi as [Hi|Hi]; auto. right. rewrite Hi.
      pose proof (min_after (bnd r) (dashed_length _ (proj1 Hinv))). lia. }
    inversion P as [|R pre x rest h' c' l' FS ((hs & Hp & Hcp & Hph) & Hm) Hc Hrest]; subst.
    destruct (read_entry_field ML trim r pre x rest (x ++ c) hs) as (r1 & E1 & R1); auto.
    { rewrite app_length. lia. }
    rewrite E1, Hph. rewrite Hph in E1.
    pose proof (read_entry_inv ML trim r _ _ Hinv E1) as (I1 & B1 & M1 & L1 & _).
    pose proof (read_entry_steps ML trim r _ _ Hinv E1) as S1.
    assert (HR1 : ready sz r1) by (eapply ready_steps; eauto).
    destruct (steps_suffix _ _ S1 Hinv) as [u1 U1].
    assert (Hx1 : exact_reads sz r1 \/ short_ends r1 (map snd ((h, c) :: l))).
    { destruct Hx as [Hx|Hx]; [left; exact (exact_reads_steps sz r r1 Hinv Hx S1)|right; exact (short_ends_later r r1 u1 _ Hx L1 U1 B1)]. }
    assert (St1 : st r1 <> AtEnd).
    { unfold read_entry in E1.
      destruct (consume_boundary (set_min_buf_size MIN_BUF_SIZE r)) as [y q1] eqn:E.
      pose proof (consume_boundary_spec _ _ _ (inv_set_min MIN_BUF_SIZE r Hinv) E) as (J1 & _ & _ & _ & _ & N).
      cbn [st set_min_buf_size] in N. specialize (N Hst).
      destruct y as [[|]|e| |]; try discriminate.
      destruct N as (pre' & q' & _ & _ & Nst & _).
      destruct (read_headers ML trim q1) as [z q2] eqn:F.
      apply read_headers_spec in F; auto; [|congruence].
      destruct z; try discriminate. injection E1 as _ <-. tauto. }
    pose proof (min_after (bnd r) (dashed_length _ (proj1 Hinv))) as HM.
    destruct (drain_exact (S (length (buf r1) + length (stream (src r1)))) sz 0 r1 c)
      as (r2 & D2 & R2 & X2 & L2 & S2 & T2 & Z2 & B2 & C2); auto.
    + destruct Hx1 as [Hx1|Hx1]; [left; auto|right]. eapply short_ends_one; eauto. now left.
    + rewrite M1. lia.
    + rewrite M1, B1. lia.
    + rewrite B1, R1. eapply content_strip; eauto.
    + unfold rem. rewrite app_length. lia.
    + rewrite D2. destruct (IH fuel r2) as (r3 & E3); auto.
      * destruct Hx1 as [Hx1|Hx1]; [left; auto|right].
        assert (Hr : rem r1 = c ++ rem r2) by (destruct S2 as [S2 _]; exact S2).
        apply (short_ends_later r1 r2 c); auto. intros c0 t1 t2 a Hc0. apply Hx1. now right.
      * rewrite B2, B1. eapply parts_skipped; eauto.
        -- apply (dashed_nonnil _ (proj1 Hinv)).
        -- rewrite B1, R1 in S2. exact S2.
      * simpl in Hf. lia.
      * rewrite E3. eauto.
Qed.

End WithMime.
