(** A body that breaks off is indistinguishable from one that only stalls: every call behaves as on a transport that
    returns [Ok(0)] for a while and then goes on. *)

From Verif Require Import Bytes BytesProofs Spec Io Boundary BoundaryProofs Utf8 Httparse Field FieldProofs ContentProofs DataProofs
  ShortProofs EntryProofs Drive DriveProofs ReaderProofs Fs Rand Save.

(** The reader whose transport goes on with [n] stalls and then [X]. *)
Definition ext (n : nat) (X : transport) (r : breader) : breader :=
  mkBR (buf r) (src r ++ repeat (Chunk []) n ++ X) (minb r) (bnd r) (idx r) (st r).

Lemma stream_ext t n X : stream (t ++ repeat (Chunk []) n ++ X) = stream t ++ stream X.
Proof. rewrite !stream_app. f_equal. induction n; cbn; auto. Qed.

Lemma rem_ext n X r : rem (ext n X r) = rem r ++ stream X.
Proof. unfold rem, ext. cbn [buf src]. now rewrite stream_ext, app_assoc. Qed.

Lemma ext_with_body n X t b : ext n X (with_body t b) = with_body (t ++ repeat (Chunk []) n ++ X) b.
Proof. reflexivity. Qed.

Lemma fill_ext min : forall t b e b' t', fill_buf min b t = (e, b', t') ->
  exists k, forall n X, fill_buf min b (t ++ repeat (Chunk []) (k + n) ++ X) = (e, b', t' ++ repeat (Chunk []) n ++ X).
Proof.
  induction t as [|ev t IH]; intros b e b' t'; cbn [fill_buf].
  - destruct (min <=? length b) eqn:L; intros H; injection H as <- <- <-.
    + exists 0. intros n X. cbn [Nat.add]. destruct (([] ++ repeat (Chunk []) n ++ X) : transport) eqn:E; cbn [fill_buf]; rewrite L; reflexivity.
    + exists 1. intros n X. cbn [Nat.add repeat app fill_buf]. now rewrite L.
  - destruct (min <=? length b) eqn:L; [intros H; injection H as <- <- <-; exists 0; intros n X; cbn [app fill_buf]; now rewrite L|].
    destruct ev as [[|c0 c]|k].
    + intros H; injection H as <- <- <-. exists 0. intros n X. cbn [app fill_buf]. now rewrite L.
    + intros H. apply IH in H as (k & H). exists k. intros n X. cbn [app fill_buf]. now rewrite L, H.
    + intros H; injection H as <- <- <-. exists 0. intros n X. cbn [app fill_buf]. now rewrite L.
Qed.

(** [f] from [r] ends in [(x, r')], and behaves the same if the body goes on. *)
Definition stalls {A} (f : breader -> A * breader) (r : breader) : Prop :=
  exists k, forall n X, f (ext (k + n) X r) = (fst (f r), ext n X (snd (f r))).

Lemma rtb_ext r : stalls read_to_boundary r.
Proof.
  destruct r as [bf sr mb bd ix s0]. unfold stalls, read_to_boundary, ext. cbn [buf src minb st idx bnd].
  destruct (fill_buf mb bf sr) as [[e b] t] eqn:E.
  apply fill_ext in E as (k & E). exists k. intros n X. rewrite E.
  destruct e as [e|]; [reflexivity|]. destruct s0; try (destruct (length b <? ix); reflexivity).
  destruct (search_step b bd ix) as [[i s]|]; reflexivity.
Qed.

Lemma consume_ext n X m r : consume m (ext n X r) = ext n X (consume m r).
Proof. reflexivity. Qed.

Lemma read_ext m r : stalls (read m) r.
Proof.
  destruct (rtb_ext r) as (k & E). exists k. intros n X. unfold read. rewrite E.
  destruct (read_to_boundary r) as [[x|e| |] r1]; reflexivity.
Qed.

Lemma skip_ext fuel : forall r x r', skip_to_boundary fuel r = (x, r') -> x <> OutOfFuel ->
  exists k, forall n X fuel2, fuel <= fuel2 -> skip_to_boundary fuel2 (ext (k + n) X r) = (x, ext n X r').
Proof.
  induction fuel as [|fuel IH]; intros r x r'; cbn [skip_to_boundary].
  - destruct (st r) eqn:S; intros H; injection H as <- <-; try congruence; intros _; exists 0; intros n X [|f2] _; cbn [skip_to_boundary st ext];
      rewrite S; reflexivity.
  - destruct (st r) eqn:S.
    2-3: intros H; injection H as <- <-; intros _; exists 0; intros n X [|f2] _; cbn [skip_to_boundary st ext]; rewrite S; reflexivity.
    destruct (rtb_ext r) as (k & E). destruct (read_to_boundary r) as [y r1]. cbn [fst snd] in E.
    destruct y as [b|e| |].
    2-4: intros H Hx; injection H as <- <-; try congruence; exists k; intros n X [|f2] L; try lia; cbn [skip_to_boundary]; cbn [st ext]; rewrite S, E; reflexivity.
    destruct ((length b =? 0) && bstate_eqb (st r1) Searching) eqn:B.
    + intros H Hx; injection H as <- <-. exists k. intros n X [|f2] L; [lia|]. cbn [skip_to_boundary st ext]. rewrite S, E. cbn [st ext]. now rewrite B.
    + intros H Hx. apply IH in H as (k2 & H); auto. exists (k + k2). intros n X [|f2] L; [lia|]. cbn [skip_to_boundary st ext]. rewrite S.
      rewrite <- Nat.add_assoc, E. cbn [st ext]. rewrite B, consume_ext. apply H. lia.
Qed.

Lemma verify_ext r : stalls verify_boundary r.
Proof.
  destruct r as [bf sr mb bd ix s0]. unfold stalls, verify_boundary, ext. cbn [buf src minb st idx bnd].
  destruct (fill_buf mb bf sr) as [[e b] t] eqn:E.
  apply fill_ext in E as (k & E). exists k. intros n X. rewrite E.
  destruct e as [e|]; [reflexivity|]. cbv zeta.
  destruct (length b <? ix); [reflexivity|].
  destruct (length (skipn ix b) <? _); [reflexivity|].
  destruct (negb (beq bd _)); [reflexivity|].
  destruct (length b <? _); [reflexivity|].
  destruct (slice _ _ b) as [|x [|y [|z u]]]; try reflexivity.
  destruct (if N.eqb x CR && N.eqb y LF then Some Searching else if N.eqb x DASH && N.eqb y DASH then Some AtEnd else None); reflexivity.
Qed.

Lemma consume_boundary_ext r : fst (consume_boundary r) <> OutOfFuel -> stalls consume_boundary r.
Proof.
  unfold stalls, consume_boundary. intros Nf. destruct (st r) eqn:S; [| |exists 0; intros n X; cbn [st ext]; rewrite S; reflexivity].
  all: destruct (skip_to_boundary (length (buf r) + length (stream (src r)) + 2) r) as [x r1] eqn:E;
    assert (Nx : x <> OutOfFuel) by (intros ->; now elim Nf);
    apply skip_ext in E as (k & E); auto;
    (assert (E' : forall n X, skip_to_boundary (length (buf (ext (k + n) X r)) + length (stream (src (ext (k + n) X r))) + 2) (ext (k + n) X r) = (x, ext n X r1))
      by (intros n X; apply E; cbn [buf src ext]; rewrite stream_ext, app_length; lia));
    destruct x as [[]|e| |]; try congruence.
  1,4: destruct (verify_ext r1) as (k2 & V); exists (k + k2); intros n X; specialize (E' (k2 + n) X); rewrite Nat.add_assoc in E'; rewrite E';
    cbn [st ext]; rewrite S; apply V.
  all: exists k; intros n X; rewrite E'; cbn [st ext]; rewrite S; reflexivity.
Qed.

Lemma with_headers_ext trim fuel : forall l r x r', with_headers trim fuel l r = (x, r') -> x <> OutOfFuel ->
  exists k, forall n X fuel2, fuel <= fuel2 -> with_headers trim fuel2 l (ext (k + n) X r) = (x, ext n X r').
Proof.
  induction fuel as [|fuel IH]; intros l r x r'; cbn [with_headers]; [intros H; injection H as <- <-; congruence|].
  destruct (rtb_ext r) as (k & E). destruct (read_to_boundary r) as [y r1]. cbn [fst snd] in E.
  destruct y as [b|e| |].
  2-4: intros H Hx; injection H as <- <-; try congruence; exists k; intros n X [|f2] L; try lia; cbn [with_headers]; rewrite E; reflexivity.
  destruct (length b =? l) eqn:B.
  { intros H Hx; injection H as <- <-. exists k. intros n X [|f2] L; [lia|]. cbn [with_headers]. now rewrite E, B. }
  destruct (parse_headers trim HEADER_LEN b) as [|e|hs rest] eqn:P; intros H Hx.
  - apply IH in H as (k2 & H); auto. exists (k + k2). intros n X [|f2] L; [lia|]. cbn [with_headers].
    rewrite <- Nat.add_assoc, E, B, P. apply H. lia.
  - injection H as <- <-; exists k; intros n X [|f2] L; [lia|]; cbn [with_headers]; now rewrite E, B, P.
  - destruct (copy_headers hs) eqn:C; injection H as <- <-; exists k; intros n X [|f2] L; try lia; cbn [with_headers]; rewrite E, B, P, C; reflexivity.
Qed.

Section WithMime.
Context (ML : mime_lib).

Lemma read_entry_ext trim r : inv r -> stalls (read_entry ML trim) r.
Proof.
  intros I. destruct (read_entry ML trim r) as [y r2] eqn:R.
  pose proof (read_entry_inv ML _ _ _ _ I R) as (_ & _ & _ & _ & _ & Ny).
  revert R. unfold stalls, read_entry. destruct (consume_boundary (set_min_buf_size MIN_BUF_SIZE r)) as [x r1] eqn:E.
  assert (Nx : fst (consume_boundary (set_min_buf_size MIN_BUF_SIZE r)) <> OutOfFuel -> exists k, forall n X,
    consume_boundary (set_min_buf_size MIN_BUF_SIZE (ext (k + n) X r)) = (x, ext n X r1)).
  { intros N. destruct (consume_boundary_ext _ N) as (k & K). exists k. intros n X. rewrite E in K. exact (K n X). }
  rewrite E in Nx. cbn [fst] in Nx.
  destruct x as [[|]|e| |].
  2-5: intros R; injection R as <- <-; try congruence; (destruct Nx as (k & K); [discriminate|exists k; intros n X; now rewrite K]).
  destruct Nx as (k & K); [discriminate|]. unfold read_headers.
  destruct (with_headers trim (length (src r1) + 3) 0 r1) as [z r3] eqn:W. intros R.
  assert (Nz : z <> OutOfFuel) by (intros ->; injection R as <- <-; congruence).
  apply with_headers_ext in W as (k2 & W); auto. exists (k + k2). intros n X. rewrite <- Nat.add_assoc, K.
  assert (W' : with_headers trim (length (src (ext (k2 + n) X r1)) + 3) 0 (ext (k2 + n) X r1) = (z, ext n X r3)).
  { apply W. cbn [src ext]. rewrite !app_length. lia. }
  rewrite W'. destruct z as [hs|e| |]; try congruence; [|reflexivity..].
  destruct (parse_field_headers ML hs); reflexivity.
Qed.

Lemma step_ext trim o r : inv r -> stalls (step ML trim o) r.
Proof.
  intros I. destruct o as [m| |m|m|]; unfold stalls; cbn [step].
  - destruct (read_ext m r) as (k & E). exists k. intros n X. rewrite E. destruct (read m r); reflexivity.
  - destruct (rtb_ext r) as (k & E). exists k. intros n X. rewrite E. destruct (read_to_boundary r); reflexivity.
  - exists 0. intros n X. reflexivity.
  - exists 0. intros n X. reflexivity.
  - destruct (read_entry_ext trim r I) as (k & E). exists k. intros n X. rewrite E. destruct (read_entry ML trim r); reflexivity.
Qed.

Lemma run_ext trim os : forall r, inv r -> stalls (run ML trim os) r.
Proof.
  induction os as [|o os IH]; intros r I; unfold stalls; cbn [run]; [exists 0; reflexivity|].
  destruct (step_ext trim o r I) as (k & E). destruct (step ML trim o r) as [b r1] eqn:F. cbn [fst snd] in E.
  pose proof (step_inv ML _ _ _ _ _ I F) as (I1 & _). destruct (IH r1 I1) as (k2 & E2).
  exists (k + k2). intros n X. rewrite <- Nat.add_assoc, E, E2. destruct (run ML trim os r1); reflexivity.
Qed.

Lemma foreach_ext trim f fuel : forall m r, inv r -> exists k, forall n X,
  foreach_entry ML trim f fuel m (ext (k + n) X r) = (let '(x, l, r') := foreach_entry ML trim f fuel m r in (x, l, ext n X r')).
Proof.
  induction fuel as [|fuel IH]; intros m r I; cbn [foreach_entry]; [exists 0; reflexivity|].
  destruct (read_entry_ext trim r I) as (k & E). destruct (read_entry ML trim r) as [y r1] eqn:R. cbn [fst snd] in E.
  destruct y as [[h|]|e| |]; try (exists k; intros n X; rewrite E; reflexivity).
  pose proof (read_entry_inv ML _ _ _ _ I R) as (I1 & _).
  destruct (run_ext trim (f m h) r1 I1) as (k2 & E2). destruct (run ML trim (f m h) r1) as [ob r2] eqn:F. cbn [fst snd] in E2.
  pose proof (run_inv ML _ _ _ _ _ I1 F) as (I2 & _). destruct (IH (S m) r2 I2) as (k3 & E3).
  exists (k + (k2 + k3)). intros n X. rewrite <- !Nat.add_assoc, E, E2, E3. destruct (foreach_entry ML trim f fuel (S m) r2) as [[x l] r3]. reflexivity.
Qed.

End WithMime.
