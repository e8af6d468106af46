(** Facts about whole call sequences: termination, finality of the end, transient errors. *)

From Verif Require Import Bytes BytesProofs Spec Io Boundary BoundaryProofs Utf8 Httparse HttparseProofs Field
  FieldProofs ContentProofs DataProofs ShortProofs EntryProofs.

(** * The transport without its failures *)

Definition calm (t : transport) : transport :=
  filter (fun e => match e with Chunk _ => true | Fail _ => false end) t.

Definition calm_r (r : breader) : breader :=
  mkBR (buf r) (calm (src r)) (minb r) (bnd r) (idx r) (st r).

Lemma calm_stream t : stream (calm t) = stream t.
Proof. induction t as [|[c|k] t IH]; simpl; congruence. Qed.

Lemma calm_rem r : rem (calm_r r) = rem r.
Proof. unfold rem. simpl. now rewrite calm_stream. Qed.

Lemma calm_inv r : inv r -> inv (calm_r r).
Proof. unfold inv. rewrite calm_rem. auto. Qed.

Lemma fill_full min b t : min <= length b -> fill_buf min b t = (None, b, t).
Proof. intros H. destruct t; cbn [fill_buf]; destruct (min <=? length b) eqn:E; auto; lia. Qed.

Lemma fill_calm min t : forall b e b' t', fill_buf min b t = (e, b', t') ->
  match e with
  | None => fill_buf min b (calm t) = (None, b', calm t')
  | Some _ => fill_buf min b (calm t) = fill_buf min b' (calm t')
  end.
Proof.
  induction t as [|[c|k] t IH]; intros b e b' t'.
  - cbn [fill_buf]. destruct (min <=? length b) eqn:E; intros H; injection H as <- <- <-; simpl; now rewrite E.
  - cbn [fill_buf]. destruct (min <=? length b) eqn:E.
    + intros H; injection H as <- <- <-. apply fill_full. lia.
    + destruct c as [|c0 c].
      * intros H; injection H as <- <- <-. simpl. now rewrite E.
      * intros H. apply IH in H. change (calm (Chunk (c0 :: c) :: t)) with (Chunk (c0 :: c) :: calm t).
        cbn [fill_buf]. rewrite E. exact H.
  - cbn [fill_buf]. destruct (min <=? length b) eqn:E.
    + intros H; injection H as <- <- <-. apply fill_full. lia.
    + intros H; injection H as <- <- <-. reflexivity.
Qed.

Lemma fill_boundary_calm r x r1 :
  read_to_boundary r = (x, r1) ->
  match x with
  | Err _ => read_to_boundary (calm_r r) = read_to_boundary (calm_r r1)
  | _ => read_to_boundary (calm_r r) = (x, calm_r r1)
  end.
Proof.
  unfold read_to_boundary. cbn [buf src minb st idx bnd calm_r].
  destruct (fill_buf (minb r) (buf r) (src r)) as [[e b] t] eqn:E. apply fill_calm in E.
  destruct e as [k|].
  - intros H; injection H as <- <-. cbn [buf src minb st idx bnd calm_r set_source]. rewrite E. reflexivity.
  - rewrite E. destruct (st r) eqn:S.
    + destruct (search_step b (bnd r) (idx r)) as [[i s]|]; intros H; injection H as <- <-; reflexivity.
    + destruct (length b <? idx r); intros H; injection H as <- <-; unfold calm_r, set_source; simpl; now rewrite S.
    + destruct (length b <? idx r); intros H; injection H as <- <-; unfold calm_r, set_source; simpl; now rewrite S.
Qed.

Lemma verify_calm r x r1 :
  verify_boundary r = (x, r1) ->
  match x with
  | Err (ETransport _) => verify_boundary (calm_r r) = verify_boundary (calm_r r1)
  | _ => verify_boundary (calm_r r) = (x, calm_r r1)
  end.
Proof.
  intros H.
  assert (G : (exists k, x = Err (ETransport k) /\ verify_boundary (calm_r r) = verify_boundary (calm_r r1)) \/
              ((forall k, x <> Err (ETransport k)) /\ verify_boundary (calm_r r) = (x, calm_r r1))).
  2: { destruct G as [(k & -> & G)|[N G]]; auto.
       destruct x as [y|[k| | |]| |]; auto. exfalso. eapply N. reflexivity. }
  revert H. unfold verify_boundary. cbn [buf src minb st idx bnd calm_r].
  destruct (fill_buf (minb r) (buf r) (src r)) as [[e b] t] eqn:E. apply fill_calm in E.
  destruct e as [k|].
  - intros H; injection H as <- <-. left. exists k. split; auto.
    cbn [buf src minb st idx bnd calm_r set_source]. rewrite E. reflexivity.
  - rewrite E. intros H. right. revert H. cbv zeta. cbn [bnd minb set_source].
    repeat match goal with
    | |- context [if ?c then _ else _] => destruct c
    | |- context [match ?c with _ => _ end] => destruct c
    end; intros H; injection H as <- <-; split; try discriminate; reflexivity.
Qed.

(** * Fuel is immaterial *)

Lemma skip_fuel_le f : forall f' r x r',
  skip_to_boundary f r = (x, r') -> x <> OutOfFuel -> f <= f' -> skip_to_boundary f' r = (x, r').
Proof.
  induction f as [|f IH]; intros f' r x r' H Hx Hf.
  - destruct f'; cbn [skip_to_boundary] in *; destruct (st r); auto; injection H as <- <-; congruence.
  - destruct f' as [|f']; [lia|]. cbn [skip_to_boundary] in *. destruct (st r); auto.
    destruct (read_to_boundary r) as [[b|e| |] r1]; auto.
    destruct ((length b =? 0) && bstate_eqb (st r1) Searching); auto. apply IH; auto. lia.
Qed.

Lemma skip_fuel_any f f' r x r' y r'' :
  skip_to_boundary f r = (x, r') -> x <> OutOfFuel ->
  skip_to_boundary f' r = (y, r'') -> y <> OutOfFuel -> (x, r') = (y, r'').
Proof.
  intros H1 N1 H2 N2. destruct (Nat.le_ge_cases f f').
  - apply (skip_fuel_le _ f') in H1; congruence.
  - apply (skip_fuel_le _ f) in H2; congruence.
Qed.

Lemma with_headers_fuel_le trim f : forall f' last r x r',
  with_headers trim f last r = (x, r') -> x <> OutOfFuel -> f <= f' -> with_headers trim f' last r = (x, r').
Proof.
  induction f as [|f IH]; intros f' last r x r' H Hx Hf.
  - cbn [with_headers] in H. injection H as <- <-. congruence.
  - destruct f' as [|f']; [lia|]. cbn [with_headers] in *.
    destruct (read_to_boundary r) as [[b|e| |] r1]; auto.
    destruct (length b =? last); auto. destruct (parse_headers trim HEADER_LEN b); auto. apply IH; auto. lia.
Qed.

Lemma with_headers_fuel_any trim f f' last r x r' y r'' :
  with_headers trim f last r = (x, r') -> x <> OutOfFuel ->
  with_headers trim f' last r = (y, r'') -> y <> OutOfFuel -> (x, r') = (y, r'').
Proof.
  intros H1 N1 H2 N2. destruct (Nat.le_ge_cases f f').
  - apply (with_headers_fuel_le _ _ f') in H1; congruence.
  - apply (with_headers_fuel_le _ _ f) in H2; congruence.
Qed.

(** * Calls on the transport without failures *)

Lemma skip_calm f : forall r x r', skip_to_boundary f r = (x, r') ->
  match x with
  | Err (ETransport _) => exists f', skip_to_boundary f (calm_r r) = skip_to_boundary f' (calm_r r')
  | Err EEndOfBody | Ok _ => skip_to_boundary f (calm_r r) = (x, calm_r r')
  | _ => True
  end.
Proof.
  induction f as [|f IH]; intros r x r'; cbn [skip_to_boundary]; cbn [st calm_r]; destruct (st r) eqn:Sr;
    try (intros H; injection H as <- <-; reflexivity); try (intros H; injection H as <- <-; exact I).
  destruct (read_to_boundary r) as [y r1] eqn:E. pose proof (fill_boundary_calm _ _ _ E) as C.
  destruct y as [b|e| |]; try (intros H; injection H as <- <-; exact I).
  - rewrite C. cbn [st calm_r]. destruct ((length b =? 0) && bstate_eqb (st r1) Searching).
    + intros H; injection H as <- <-. reflexivity.
    + intros H. apply IH in H. exact H.
  - intros H; injection H as <- <-.
    assert (S1 : st r1 = Searching /\ exists k, e = ETransport k).
    { unfold read_to_boundary in E. destruct (fill_buf (minb r) (buf r) (src r)) as [[[k|] b] t].
      - injection E as <- <-. simpl. eauto.
      - rewrite Sr in E. destruct (search_step b (bnd r) (idx r)) as [[i s]|]; discriminate. }
    destruct S1 as [S1 [k ->]].
    exists (S f). cbn [skip_to_boundary]. cbn [st calm_r]. rewrite S1, C. reflexivity.
Qed.

Lemma consume_boundary_unfold r : st r <> AtEnd ->
  consume_boundary r =
      match skip_to_boundary (length (buf r) + length (stream (src r)) + 2) r with
      | (Ok _, r1) => verify_boundary r1
      | (Err e, r1) => (Err e, r1)
      | (Panic, r1) => (Panic, r1)
      | (OutOfFuel, r1) => (OutOfFuel, r1)
      end.
Proof. unfold consume_boundary. destruct (st r); congruence. Qed.

Lemma skip_total r : inv r -> st r <> AtEnd ->
  exists x r', skip_to_boundary (length (buf r) + length (stream (src r)) + 2) r = (x, r') /\ x <> OutOfFuel.
Proof.
  intros Hinv Hst. destruct (skip_to_boundary _ r) as [x r'] eqn:E. exists x, r'. split; auto.
  apply skip_to_boundary_spec in E; auto.
  - destruct E as (_ & _ & _ & _ & _ & E). destruct x; try discriminate. tauto.
  - unfold rem. rewrite app_length. lia.
Qed.

Lemma consume_boundary_calm r x r' :
  inv r -> consume_boundary r = (x, r') ->
  match x with
  | Err (ETransport _) => consume_boundary (calm_r r) = consume_boundary (calm_r r')
  | _ => consume_boundary (calm_r r) = (x, calm_r r')
  end.
Proof.
  intros Hinv. destruct (bstate_eqb (st r) AtEnd) eqn:S.
  { assert (S' : st r = AtEnd) by (destruct (st r); auto; discriminate).
    unfold consume_boundary. cbn [st calm_r]. rewrite S'. intros H; injection H as <- <-. reflexivity. }
  assert (Hst : st r <> AtEnd) by (intros HH; rewrite HH in S; discriminate). clear S.
  intros H. pose proof (consume_boundary_spec _ _ _ Hinv H) as (Hinv' & _ & _ & _ & _ & N). specialize (N Hst).
  rewrite (consume_boundary_unfold r) in H by auto.
  rewrite (consume_boundary_unfold (calm_r r)) by auto.
  cbn [buf src calm_r]. rewrite calm_stream.
  destruct (skip_to_boundary (length (buf r) + length (stream (src r)) + 2) r) as [y r1] eqn:E.
  pose proof (skip_calm _ _ _ _ E) as C.
  apply skip_to_boundary_spec in E; auto.
  2: { unfold rem. rewrite app_length. lia. }
  destruct E as (I1 & B1 & M1 & L1 & _ & X1).
  destruct y as [u|e| |]; try tauto.
  - destruct X1 as [X1 _]. fold (calm_r r). rewrite C. pose proof (verify_calm _ _ _ H) as V.
    destruct x as [a|[k| | |a b]| |]; auto.
    assert (S' : st r' = BoundaryRead).
    { pose proof (verify_boundary_spec _ _ _ I1 X1 H) as (_ & _ & _ & _ & pre & post & _ & _ & V').
      tauto. }
    rewrite (consume_boundary_unfold (calm_r r')) by (simpl; congruence).
    destruct (length (buf (calm_r r')) + length (stream (src (calm_r r'))) + 2); cbn [skip_to_boundary];
      cbn [st calm_r]; rewrite S'; exact V.
  - injection H as <- <-. fold (calm_r r). destruct e as [k| | |a b]; try tauto.
    + destruct C as [f' C]. rewrite C. rewrite (consume_boundary_unfold (calm_r r1)).
      2: { simpl. destruct N as (_ & N & _). auto. }
      assert (E1 : skip_to_boundary f' (calm_r r1)
                   = skip_to_boundary (length (buf (calm_r r1)) + length (stream (src (calm_r r1))) + 2) (calm_r r1)).
      { destruct (skip_total (calm_r r)) as (y & q & Y1 & Y2); [now apply calm_inv|auto|].
        cbn [buf src calm_r] in Y1. rewrite calm_stream in Y1. fold (calm_r r) in Y1. rewrite C in Y1.
        destruct (skip_total (calm_r r1)) as (z & q' & Z1 & Z2); [now apply calm_inv|simpl; destruct N as (_ & N & _); auto|].
        rewrite Y1, Z1. eapply skip_fuel_any; eauto. }
      rewrite E1. reflexivity.
    + rewrite C. reflexivity.
Qed.

Lemma with_headers_calm trim f : forall last r x r', with_headers trim f last r = (x, r') ->
  (forall e, x <> Err (PIo e)) -> with_headers trim f last (calm_r r) = (x, calm_r r').
Proof.
  induction f as [|f IH]; intros last r x r'; cbn [with_headers].
  { intros H; injection H as <- <-. reflexivity. }
  destruct (read_to_boundary r) as [y r1] eqn:E. pose proof (fill_boundary_calm _ _ _ E) as C.
  destruct y as [b|e| |]; intros H Hx.
  - rewrite C. destruct (length b =? last); [injection H as <- <-; reflexivity|].
    destruct (parse_headers trim HEADER_LEN b) as [|e|hs rest].
    + now apply IH.
    + injection H as <- <-. reflexivity.
    + destruct (copy_headers hs); injection H as <- <-; reflexivity.
  - injection H as <- <-. exfalso. eapply Hx. reflexivity.
  - rewrite C. injection H as <- <-. reflexivity.
  - rewrite C. injection H as <- <-. reflexivity.
Qed.

Lemma set_min_again n r : set_min_buf_size n (set_min_buf_size n r) = set_min_buf_size n r.
Proof. reflexivity. Qed.

Section WithMime.
Context (ML : mime_lib).

Lemma read_headers_calm trim r x r' :
  inv r -> st r <> AtEnd -> read_headers ML trim r = (x, r') -> (forall e, x <> Err (PIo e)) ->
  read_headers ML trim (calm_r r) = (x, calm_r r').
Proof.
  intros Hinv Hst. unfold read_headers.
  destruct (with_headers trim (length (src r) + 3) 0 r) as [y r1] eqn:E.
  assert (Hf : y <> OutOfFuel).
  { intros ->. eapply with_headers_fuel in E; auto. left. lia. }
  intros H Hx.
  assert (Hy : forall e, y <> Err (PIo e)).
  { intros e ->. injection H as <- <-. eapply Hx. reflexivity. }
  pose proof (with_headers_calm _ _ _ _ _ _ E Hy) as C.
  destruct (with_headers trim (length (src (calm_r r)) + 3) 0 (calm_r r)) as [z r2] eqn:F.
  assert (Hz : z <> OutOfFuel).
  { intros ->. eapply with_headers_fuel in F; auto using calm_inv. left. lia. }
  pose proof (with_headers_fuel_any _ _ _ _ _ _ _ _ _ C Hf F Hz) as Q. injection Q as <- <-.
  destruct y; injection H as <- <-; reflexivity.
Qed.

Lemma read_entry_calm trim r x r' :
  inv r -> read_entry ML trim r = (x, r') -> (forall e, x <> Err (EHdr (PIo e))) ->
  match x with
  | Err (EBnd (ETransport _)) => read_entry ML trim (calm_r r) = read_entry ML trim (calm_r r')
  | _ => read_entry ML trim (calm_r r) = (x, calm_r r')
  end.
Proof.
  intros Hinv H Hx.
  pose proof (read_entry_inv ML _ _ _ _ Hinv H) as (I' & B' & M' & _).
  unfold read_entry in H.
  destruct (consume_boundary (set_min_buf_size MIN_BUF_SIZE r)) as [y r1] eqn:E.
  pose proof (consume_boundary_calm _ _ _ (inv_set_min MIN_BUF_SIZE r Hinv) E) as C.
  pose proof (consume_boundary_spec _ _ _ (inv_set_min MIN_BUF_SIZE r Hinv) E) as (I1 & B1 & M1 & L1 & N0 & N).
  cbn [st set_min_buf_size bnd minb] in *.
  assert (EC : consume_boundary (set_min_buf_size MIN_BUF_SIZE (calm_r r))
               = consume_boundary (calm_r (set_min_buf_size MIN_BUF_SIZE r))) by reflexivity.
  destruct y as [[|]|e| |].
  - assert (Hst : st r <> AtEnd).
    { intros HH. destruct (N0 HH). discriminate. }
    destruct (N Hst) as (pre & q & _ & _ & Nst & _).
    destruct (read_headers ML trim r1) as [z r2] eqn:F.
    assert (Hz : forall e, z <> Err (PIo e)).
    { intros e ->. injection H as <- <-. eapply Hx. reflexivity. }
    apply read_headers_calm in F; auto; [|congruence].
    assert (G : read_entry ML trim (calm_r r) = (x, calm_r r')).
    { unfold read_entry. rewrite EC, C, F. destruct z; injection H as <- <-; reflexivity. }
    destruct x as [a|[e|e]| |]; auto. destruct z; discriminate.
  - injection H as <- <-. unfold read_entry. rewrite EC, C. reflexivity.
  - injection H as <- <-. destruct e as [k| | |a b]; try (unfold read_entry; rewrite EC, C; reflexivity).
    assert (Es : set_min_buf_size MIN_BUF_SIZE (calm_r r1) = calm_r r1).
    { unfold set_min_buf_size, calm_r. simpl. now rewrite B1, M1. }
    unfold read_entry. rewrite EC, C, Es. reflexivity.
  - injection H as <- <-. unfold read_entry. rewrite EC, C. reflexivity.
  - injection H as <- <-. unfold read_entry. rewrite EC, C. reflexivity.
Qed.

(** A call that failed because the transport failed, the error being reported as it is. *)
Definition failed (b : obs ML) : Prop :=
  match b with
  | BRead _ (Err (ETransport _)) | BFill _ (Err (ETransport _)) => True
  | BNext _ (Err (EBnd (ETransport _))) => True
  | _ => False
  end.

(** A call whose header parsing was interrupted by a failure of the transport. *)
Definition header_failed (b : obs ML) : Prop :=
  match b with BNext _ (Err (EHdr (PIo _))) => True | _ => False end.

Lemma step_calm trim o r b r' :
  inv r -> step ML trim o r = (b, r') -> ~ header_failed b ->
  (failed b -> step ML trim o (calm_r r) = step ML trim o (calm_r r')) /\
  (~ failed b -> step ML trim o (calm_r r) = (b, calm_r r')).
Proof.
  intros Hinv. destruct o as [n| |n|n|]; cbn [step].
  - unfold read. destruct (read_to_boundary r) as [x r1] eqn:E.
    pose proof (read_to_boundary_spec _ _ _ Hinv E) as (_ & _ & _ & _ & _ & _ & _ & _ & X).
    apply fill_boundary_calm in E.
    destruct x as [c|e| |]; try tauto; intros H _; injection H as <- <-.
    + split; [intros []|]. intros _. rewrite E. reflexivity.
    + destruct X as (k & -> & _). split; [|intros HH; exfalso; apply HH; exact I]. intros _. rewrite E. reflexivity.
  - destruct (read_to_boundary r) as [x r1] eqn:E.
    pose proof (read_to_boundary_spec _ _ _ Hinv E) as (_ & _ & _ & _ & _ & _ & _ & _ & X).
    apply fill_boundary_calm in E.
    destruct x as [c|e| |]; try tauto; intros H _; injection H as <- <-.
    + split; [intros []|]. intros _. rewrite E. reflexivity.
    + destruct X as (k & -> & _). split; [|intros HH; exfalso; apply HH; exact I]. intros _. rewrite E. reflexivity.
  - intros H _; injection H as <- <-. split; [intros []|]. reflexivity.
  - intros H _; injection H as <- <-. split; [intros []|]. reflexivity.
  - destruct (read_entry ML trim r) as [x r1] eqn:E. intros H Hh; injection H as <- <-.
    apply read_entry_calm in E; auto.
    2: { intros e ->. apply Hh. exact I. }
    destruct x as [a|[[k| | |]|e]| |]; split; try (intros []; fail); try (intros HH; exfalso; apply HH; exact I);
      intros _; rewrite E; reflexivity.
Qed.

(** An application that repeats a call until the transport stops failing. *)
Inductive retry (trim : bool) : list op -> breader -> list (obs ML) -> breader -> Prop :=
| retry_nil r : retry trim [] r [] r
| retry_ok o os r b r1 bs r2 :
    step ML trim o r = (b, r1) -> ~ failed b -> retry trim os r1 bs r2 ->
    retry trim (o :: os) r (b :: bs) r2
| retry_again o os r b r1 bs r2 :
    step ML trim o r = (b, r1) -> failed b -> retry trim (o :: os) r1 bs r2 ->
    retry trim (o :: os) r bs r2.

Lemma retry_calm trim os r bs r' :
  retry trim os r bs r' -> inv r -> Forall (fun b => ~ header_failed b) bs ->
  run ML trim os (calm_r r) = (bs, calm_r r').
Proof.
  induction 1 as [r|o os r b r1 bs r2 Hs Hf Hr IH|o os r b r1 bs r2 Hs Hf Hr IH]; intros Hinv Hh.
  - reflexivity.
  - inversion Hh as [|? ? Hb Hbs]; subst.
    destruct (step_calm _ _ _ _ _ Hinv Hs Hb) as [_ C]. specialize (C Hf).
    apply step_inv in Hs as (I1 & _); auto. cbn [run]. rewrite C, IH; auto.
  - assert (Hb : ~ header_failed b) by (destruct b as [x|x|d| |[a|[[k| | |]|e]| |]]; simpl in *; tauto).
    destruct (step_calm _ _ _ _ _ Hinv Hs Hb) as [C _]. specialize (C Hf).
    apply step_inv in Hs as (I1 & _); auto.
    specialize (IH I1 Hh). cbn [run] in *. rewrite C. exact IH.
Qed.

(** Retrying ends: every failure uses up an event of the transport. *)
Lemma failed_step_src trim o r b r1 :
  inv r -> step ML trim o r = (b, r1) -> failed b -> length (src r1) < length (src r).
Proof.
  intros Hinv.
  assert (FB : forall r k r1, read_to_boundary r = (Err (ETransport k), r1) -> length (src r1) < length (src r)).
  { intros q k q1. unfold read_to_boundary.
    destruct (fill_buf (minb q) (buf q) (src q)) as [[e b'] t] eqn:E.
    apply fill_buf_spec in E as (c & used & _ & Es & _ & _ & Hk).
    destruct e as [k'|].
    - intros H; injection H as _ <-. simpl. rewrite Es, app_length. specialize (Hk _ eq_refl).
      destruct used; [destruct Hk|simpl; lia].
    - destruct (st q); [destruct (search_step _ _ _) as [[? ?]|]|destruct (_ <? _)|destruct (_ <? _)]; discriminate. }
  destruct o as [n| |n|n|]; cbn [step].
  - unfold read. destruct (read_to_boundary r) as [[c|e| |] r0] eqn:E; intros H; injection H as <- <-; simpl; try tauto.
    destruct e; try tauto. intros _. eauto.
  - destruct (read_to_boundary r) as [[c|e| |] r0] eqn:E; intros H; injection H as <- <-; simpl; try tauto.
    destruct e; try tauto. intros _. eauto.
  - intros H; injection H as <- <-. intros [].
  - intros H; injection H as <- <-. intros [].
  - unfold read_entry. destruct (consume_boundary (set_min_buf_size MIN_BUF_SIZE r)) as [y q] eqn:E.
    destruct y as [[|]|e| |]; try (intros H; injection H as <- <-; simpl; tauto).
    { destruct (read_headers ML trim q) as [[h|e| |] q2]; intros H; injection H as <- <-; simpl; tauto. }
    intros H; injection H as <- <-. simpl. destruct e as [k| | |]; try tauto. intros _.
    assert (Hst : st r <> AtEnd).
    { intros HH. unfold consume_boundary in E. cbn [st set_min_buf_size] in E. rewrite HH in E. discriminate. }
    rewrite consume_boundary_unfold in E by auto.
    destruct (skip_to_boundary _ _) as [y r0] eqn:F.
    assert (G : forall f a y r0, inv a -> skip_to_boundary f a = (y, r0) ->
                match y with Err (ETransport _) => length (src r0) < length (src a) | _ => True end).
    { clear - FB. induction f as [|f IH]; intros a y r0 Ha; cbn [skip_to_boundary]; destruct (st a);
        try (intros H; injection H as <- <-; exact I).
      destruct (read_to_boundary a) as [z a1] eqn:E.
      pose proof (read_to_boundary_spec _ _ _ Ha E) as (I1 & _ & _ & _ & [u L] & _).
      destruct z as [b|e| |]; try (intros H; injection H as <- <-; exact I).
      - destruct (_ && _); [intros H; injection H as <- <-; exact I|].
        intros H. pose proof (consume_spec (length b) a1 I1) as (C1 & _ & _ & _ & C4 & _).
        apply IH in H; auto. destruct y as [|[]| |]; auto. rewrite C4 in H. rewrite L, app_length. lia.
      - intros H; injection H as <- <-. destruct e; auto. eauto. }
    apply inv_set_min with (n := MIN_BUF_SIZE) in Hinv.
    pose proof (G _ _ _ _ Hinv F) as G'.
    destruct y as [u|e| |]; try discriminate.
    + apply skip_to_boundary_spec in F; auto.
      2: { unfold rem. rewrite app_length. lia. }
      destruct F as (I1 & _ & _ & [us L] & _ & _).
      unfold verify_boundary in E.
      destruct (fill_buf (minb r0) (buf r0) (src r0)) as [[e b'] t] eqn:Ef.
      apply fill_buf_spec in Ef as (c & used & _ & Es & _ & _ & Hk).
      destruct e as [k'|].
      * injection E as _ <-. simpl. cbn [src set_min_buf_size] in L. rewrite L, Es, !app_length.
        specialize (Hk _ eq_refl). destruct used; [destruct Hk|simpl; lia].
      * exfalso. revert E.
        repeat match goal with
        | |- context [if ?c then _ else _] => destruct c
        | |- context [match ?c with _ => _ end] => destruct c
        end; discriminate.
    + injection E as -> <-. exact G'.
Qed.

Lemma retry_exists trim os : forall r, inv r -> exists bs r', retry trim os r bs r'.
Proof.
  induction os as [|o os IH]; intros r Hinv; [do 2 eexists; constructor|].
  remember (length (src r)) as n eqn:En. revert r Hinv En.
  induction n as [n IHn] using lt_wf_ind. intros r Hinv ->.
  destruct (step ML trim o r) as [b r1] eqn:E.
  pose proof (step_inv ML _ _ _ _ _ Hinv E) as (I1 & _).
  assert (Dec : failed b \/ ~ failed b) by (destruct b as [[|[]| |]|[|[]| |]|d| |[a|[[k| | |]|e]| |]]; simpl; tauto).
  destruct Dec as [F|F].
  - destruct (IHn (length (src r1))) with (r := r1) as (bs & r' & R); auto.
    { eapply failed_step_src; eauto. }
    exists bs, r'. eapply retry_again; eauto.
  - destruct (IH r1 I1) as (bs & r' & R). exists (b :: bs), r'. eapply retry_ok; eauto.
Qed.

(** * Termination of [foreach_entry] *)

Lemma read_entry_some_state trim r h r' :
  inv r -> read_entry ML trim r = (Ok (Some h), r') -> st r <> AtEnd /\ st r' <> AtEnd.
Proof.
  intros Hinv H. unfold read_entry in H.
  destruct (consume_boundary (set_min_buf_size MIN_BUF_SIZE r)) as [y q1] eqn:E.
  pose proof (consume_boundary_spec _ _ _ (inv_set_min MIN_BUF_SIZE r Hinv) E) as (J1 & _ & _ & _ & N0 & N).
  cbn [st set_min_buf_size] in N, N0.
  assert (Hst : st r <> AtEnd).
  { intros HH. destruct (N0 HH) as [-> _]. discriminate. }
  split; auto. specialize (N Hst).
  destruct y as [[|]|e| |]; try discriminate.
  destruct N as (pre' & q' & _ & _ & Nst & _).
  destruct (read_headers ML trim q1) as [z q2] eqn:F.
  apply read_headers_spec in F; auto; [|congruence].
  destruct z; try discriminate. injection H as _ <-. tauto.
Qed.

Lemma run_suffix trim os r bs r' :
  inv r -> run ML trim os r = (bs, r') -> exists used, rem r = used ++ rem r'.
Proof. intros Hinv H. eapply steps_suffix; eauto using run_steps. Qed.

Lemma read_entry_shrinks trim r h r' :
  inv r -> read_entry ML trim r = (Ok (Some h), r') -> length (rem r') + length (bnd r) + 2 < length (rem r).
Proof.
  intros Hinv H. destruct (read_entry_some_state _ _ _ _ Hinv H) as [Hst _].
  destruct (read_entry_sound ML _ _ _ _ Hinv Hst H) as (pre & q & hs & [E _] & P & _).
  apply parse_headers_done in P as (x & -> & Hx & _). rewrite E.
  rewrite !app_length. simpl. destruct x; [congruence|simpl; lia].
Qed.

Lemma foreach_total trim f : forall fuel n r x l r',
  inv r -> foreach_entry ML trim f fuel n r = (x, l, r') -> length (rem r) < fuel ->
  x <> OutOfFuel /\ x <> Panic.
Proof.
  induction fuel as [|fuel IH]; intros n r x l r' Hinv H Hf; [lia|].
  cbn [foreach_entry] in H.
  destruct (read_entry ML trim r) as [y r1] eqn:E.
  pose proof (read_entry_inv ML _ _ _ _ Hinv E) as (I1 & _ & _ & _ & N1 & N2).
  destruct y as [[h|]|e| |]; try congruence.
  - pose proof (read_entry_shrinks _ _ _ _ Hinv E) as Sh.
    destruct (run ML trim (f n h) r1) as [os r2] eqn:F.
    pose proof (run_inv ML _ _ _ _ _ I1 F) as (I2 & _).
    destruct (run_suffix _ _ _ _ _ I1 F) as [u Eu].
    destruct (foreach_entry ML trim f fuel (S n) r2) as [[x' l'] r3] eqn:G.
    injection H as <- _ _. eapply IH; eauto. rewrite Eu, app_length in Sh. lia.
  - injection H as <- _ _. split; discriminate.
  - injection H as <- _ _. split; discriminate.
Qed.

(** * The end is final, and is only reported on a closing delimiter *)

Definition idle (b : obs ML) : Prop :=
  match b with
  | BRead _ (Ok d) | BFill _ (Ok d) | BConsumed _ d => d = []
  | BRead _ (Err (ETransport _)) | BFill _ (Err (ETransport _)) => True
  | BNext _ x => x = Ok None
  | BUnit _ => True
  | _ => False
  end.

Lemma step_at_end trim o r b r' :
  inv r -> st r = AtEnd -> step ML trim o r = (b, r') -> st r' = AtEnd /\ idle b.
Proof.
  intros Hinv Hs H.
  assert (Hi : idx r = 0) by (destruct Hinv as (_ & _ & Hi); rewrite Hs in Hi; auto).
  destruct o as [n| |n|n|]; cbn [step] in H.
  - unfold read in H. destruct (read_to_boundary r) as [x r1] eqn:E.
    pose proof (read_to_boundary_spec _ _ _ Hinv E) as (I1 & _ & _ & _ & _ & _ & K1 & _ & X).
    destruct K1 as [K1 K2]; [congruence|].
    destruct x as [c|e| |]; try tauto; injection H as <- <-.
    + destruct X as [X _]. rewrite K2, Hi in X. simpl in X. subst c. simpl. rewrite firstn_nil. split; auto. congruence.
    + destruct X as (k & -> & _). simpl. split; auto. congruence.
  - destruct (read_to_boundary r) as [x r1] eqn:E.
    pose proof (read_to_boundary_spec _ _ _ Hinv E) as (I1 & _ & _ & _ & _ & _ & K1 & _ & X).
    destruct K1 as [K1 K2]; [congruence|].
    destruct x as [c|e| |]; try tauto; injection H as <- <-.
    + destruct X as [X _]. rewrite K2, Hi in X. simpl in X. subst c. simpl. split; auto. congruence.
    + destruct X as (k & -> & _). simpl. split; auto. congruence.
  - injection H as <- <-. simpl. rewrite Hi, Nat.min_0_r. auto.
  - injection H as <- <-. simpl. auto.
  - unfold read_entry, consume_boundary in H. cbn [st set_min_buf_size] in H. rewrite Hs in H.
    injection H as <- <-. simpl. auto.
Qed.

Lemma run_at_end trim os : forall r bs r',
  inv r -> st r = AtEnd -> run ML trim os r = (bs, r') -> st r' = AtEnd /\ Forall idle bs.
Proof.
  induction os as [|o os IH]; intros r bs r' Hinv Hs H; cbn [run] in H.
  - injection H as <- <-. auto.
  - destruct (step ML trim o r) as [b r1] eqn:E. destruct (run ML trim os r1) as [bs1 r2] eqn:F.
    injection H as <- <-. pose proof (step_inv ML _ _ _ _ _ Hinv E) as (I1 & _).
    apply step_at_end in E as [E1 E2]; auto. apply IH in F as [F1 F2]; auto.
Qed.

Lemma occurs_suffix d u r i : occurs_at d r i -> exists j, occurs_at d (u ++ r) j.
Proof.
  intros (a & b & -> & _). exists (length (u ++ a)), (u ++ a), b. split; auto. now rewrite app_assoc.
Qed.

Lemma step_end_occurs trim o r b r' :
  inv r -> (st r = AtEnd -> exists i, occurs_at (bnd r ++ DASHES) (rem r) i) ->
  st r <> AtEnd -> step ML trim o r = (b, r') ->
  (st r' = AtEnd \/ b = BNext ML (Ok None)) -> exists i, occurs_at (bnd r ++ DASHES) (rem r) i.
Proof.
  intros Hinv _ Hst H Hd.
  assert (Ho : data_op o -> False).
  { intros Ho. destruct (step_data ML _ _ _ _ _ Hinv Ho H) as (_ & K & _). destruct (K Hst) as [_ K2].
    destruct Hd as [Hd|Hd]; [auto|]. rewrite Hd in H. destruct o as [n| |n|n|]; cbn [step] in H; try discriminate.
    - destruct (read n r); discriminate.
    - destruct (read_to_boundary r); discriminate.
    - destruct Ho. }
  destruct o as [n| |n|n|]; try (exfalso; apply Ho; exact I). clear Ho.
  cbn [step] in H. destruct (read_entry ML trim r) as [x r1] eqn:E. injection H as <- <-.
  assert (Hx : x = Ok None).
  { destruct Hd as [Hd|Hd]; [|congruence].
    unfold read_entry in E. destruct (consume_boundary (set_min_buf_size MIN_BUF_SIZE r)) as [y q] eqn:F.
    pose proof (consume_boundary_spec _ _ _ (inv_set_min MIN_BUF_SIZE r Hinv) F) as (J1 & _ & _ & _ & _ & N).
    cbn [st set_min_buf_size] in N. specialize (N Hst).
    destruct y as [[|]|e| |]; try (destruct N; fail).
    - destruct N as (pre & q' & _ & _ & Nst & _).
      destruct (read_headers ML trim q) as [z q2] eqn:G.
      apply read_headers_spec in G as (_ & _ & _ & _ & G & _); auto; [|congruence].
      destruct z; injection E as <- <-; congruence.
    - injection E as <- <-. reflexivity.
    - injection E as <- <-. exfalso. destruct e as [k| | |a b]; simpl in N.
      + tauto.
      + destruct N as (N & _). congruence.
      + destruct N as (pre & post & _ & N & _). congruence.
      + destruct N as (_ & _ & _ & N & _). congruence. }
  subst x. apply read_entry_end in E as (pre & q & [E _] & _ & _); auto.
  exists (length pre), pre, q. split; auto. rewrite E. now rewrite <- app_assoc.
Qed.

Lemma run_end_occurs trim os : forall r bs r',
  inv r -> st r <> AtEnd -> run ML trim os r = (bs, r') ->
  (st r' = AtEnd \/ In (BNext ML (Ok None)) bs) -> exists i, occurs_at (bnd r ++ DASHES) (rem r) i.
Proof.
  induction os as [|o os IH]; intros r bs r' Hinv Hst H Hd; cbn [run] in H.
  - injection H as <- <-. destruct Hd as [Hd|[]]. congruence.
  - destruct (step ML trim o r) as [b r1] eqn:E. destruct (run ML trim os r1) as [bs1 r2] eqn:F.
    injection H as <- <-. pose proof (step_inv ML _ _ _ _ _ Hinv E) as (I1 & B1 & _).
    destruct (bstate_eqb (st r1) AtEnd) eqn:S1.
    { eapply step_end_occurs; eauto. { congruence. } left. destruct (st r1); auto; discriminate. }
    assert (Hb : b = BNext ML (Ok None) \/ (st r2 = AtEnd \/ In (BNext ML (Ok None)) bs1)) by (simpl in Hd; tauto).
    destruct Hb as [Hb|Hb].
    { eapply step_end_occurs; eauto. congruence. }
    assert (St1 : st r1 <> AtEnd) by (intros HH; rewrite HH in S1; discriminate).
    destruct (IH _ _ _ I1 St1 F Hb) as [i Hi]. rewrite B1 in Hi.
    destruct (steps_suffix r r1) as [u ->]; auto.
    { eapply step_steps; eauto. }
    eapply occurs_suffix; eauto.
Qed.

(** [fill_buf] again, with nothing consumed. *)
Lemma fill_again r b r1 :
  inv r -> live (src r) -> read_to_boundary r = (Ok b, r1) -> read_to_boundary r1 = (Ok b, r1).
Proof.
  intros Hinv Hl E.
  pose proof (read_to_boundary_spec _ _ _ Hinv E) as (I1 & _ & _ & M1 & _ & _ & _ & _ & _ & X & _).
  destruct (read_to_boundary r1) as [x r2] eqn:F.
  pose proof (read_to_boundary_spec _ _ _ I1 F) as (I2 & _ & _ & _ & _ & _ & _ & _ & Y).
  assert (Ef : fill_buf (minb r1) (buf r1) (src r1) = (None, buf r1, src r1)).
  { destruct X as [X|[X|X]].
    - apply fill_full. lia.
    - rewrite X. simpl. destruct (_ <=? _); reflexivity.
    - exfalso. auto. }
  assert (Hsrc : src r2 = src r1 /\ forall e, x <> Err e).
  { unfold read_to_boundary in F. rewrite Ef in F.
    destruct (st r1); [destruct (search_step _ _ _) as [[? ?]|]|destruct (_ <? _)|destruct (_ <? _)];
      injection F as <- <-; split; auto; discriminate. }
  destruct x as [b'|e| |]; try tauto.
  - destruct (read_to_boundary_idem _ _ _ _ _ Hinv E F) as [-> ->]; tauto.
  - exfalso. eapply (proj2 Hsrc). reflexivity.
Qed.

End WithMime.
