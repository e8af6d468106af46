(** Header reading and [read_entry]: invariant preservation, no panic, no exhausted fuel. *)

From Verif Require Import Bytes BytesProofs Spec Io Boundary BoundaryProofs Utf8 Httparse Field.

Lemma read_to_boundary_src r x r1 :
  read_to_boundary r = (x, r1) -> inv r -> src r1 = src r \/ length (src r1) < length (src r).
Proof.
  intros H Hinv. apply read_to_boundary_spec in H as (_ & _ & _ & _ & [used L] & _); auto.
  rewrite L, app_length. destruct used; simpl; auto. right. lia.
Qed.

Lemma with_headers_fuel trim fuel last r :
  inv r ->
  (length (src r) + 2 <= fuel \/
   (length (src r) + 1 <= fuel /\
    forall b r1, read_to_boundary r = (Ok b, r1) -> src r1 = src r -> length b = last)) ->
  forall r', with_headers trim fuel last r <> (OutOfFuel, r').
Proof.
  revert last r; induction fuel as [|fuel IH]; intros last r Hinv Hf r'.
  { destruct Hf; lia. }
  cbn [with_headers]. destruct (read_to_boundary r) as [x r1] eqn:E.
  pose proof (read_to_boundary_spec _ _ _ Hinv E) as (I1 & _ & _ & _ & _ & _ & _ & _ & X).
  pose proof (read_to_boundary_src _ _ _ E Hinv) as S.
  destruct x as [b|e| |]; try tauto; try discriminate.
  destruct (length b =? last) eqn:El; [discriminate|].
  destruct (parse_headers trim HEADER_LEN b) as [|e|hs rest]; try discriminate.
  - apply IH; auto. right. split.
    + destruct Hf as [Hf|[Hf1 Hf2]]; [destruct S as [S|S]; [rewrite S|]; lia|].
      destruct S as [S|S]; [|lia]. specialize (Hf2 _ _ eq_refl S). lia.
    + intros b' r2 H2 S2. destruct (read_to_boundary_idem _ _ _ _ _ Hinv E H2 S2) as [-> _]. reflexivity.
  - destruct (copy_headers hs); discriminate.
Qed.

Lemma with_headers_spec trim fuel last r x r' :
  inv r -> st r <> AtEnd ->
  with_headers trim fuel last r = (x, r') ->
  inv r' /\ bnd r' = bnd r /\ minb r' = minb r /\ later (src r') (src r) /\ st r' <> AtEnd /\
  (exists c, skipped (bnd r) (rem r) c (rem r')) /\ x <> Panic.
Proof.
  revert last r; induction fuel as [|fuel IH]; intros last r Hinv Hst.
  { simpl. intros H; injection H as <- <-. repeat split; auto; try apply Hinv; try apply later_refl;
      try discriminate. exists []. apply skipped_nil. }
  cbn [with_headers]. destruct (read_to_boundary r) as [y r1] eqn:E.
  pose proof (read_to_boundary_spec _ _ _ Hinv E) as (I1 & R1 & B1 & M1 & L1 & _ & K1 & K2 & X).
  assert (Hst1 : st r1 <> AtEnd).
  { destruct (st r) eqn:S0; [auto|destruct K1 as [K1 _]; congruence|congruence]. }
  assert (Keep : forall z : res perr (list header), z <> Panic -> (z, r1) = (x, r') ->
    inv r' /\ bnd r' = bnd r /\ minb r' = minb r /\ later (src r') (src r) /\ st r' <> AtEnd /\
    (exists c, skipped (bnd r) (rem r) c (rem r')) /\ x <> Panic).
  { intros z Hz H; injection H as <- <-. repeat split; auto; try apply I1. rewrite R1. exists []. apply skipped_nil. }
  destruct y as [b|e| |]; try tauto.
  2: { intros H. apply Keep in H; auto. discriminate. }
  destruct (length b =? last); [intros H; apply Keep in H; auto; discriminate|].
  destruct (parse_headers trim HEADER_LEN b) as [|e|hs rest].
  - intros H. apply IH in H as (J1 & J2 & J3 & J4 & J5 & (c & J6) & J7); auto.
    repeat split; auto; try apply J1; try congruence.
    + eapply later_trans; eauto.
    + exists c. congruence.
  - intros H. apply Keep in H; auto. discriminate.
  - destruct (copy_headers hs).
    + intros H; injection H as <- <-.
      pose proof (consume_spec (length b - length rest) r1 I1) as (C1 & _ & C2 & C3 & C4 & C5 & _).
      pose proof (consume_skipped (length b - length rest) r1 I1 Hst1) as C6.
      split; auto. split; [congruence|]. split; [congruence|]. split; [rewrite C4; auto|].
      split; [congruence|]. split; [|discriminate].
      eexists. rewrite B1, R1 in C6. exact C6.
    + intros H. apply Keep in H; auto. discriminate.
Qed.

Section WithMime.
Context (ML : mime_lib).

Lemma parse_field_headers_total hs :
  parse_field_headers ML hs <> Panic /\ parse_field_headers ML hs <> OutOfFuel.
Proof.
  assert (parse_content_disp hs <> Panic /\ parse_content_disp hs <> OutOfFuel) as [D1 D2].
  { unfold parse_content_disp.
    repeat match goal with |- context [match ?X with _ => _ end] => destruct X; try (split; discriminate) end. }
  assert (parse_content_type ML hs <> Panic /\ parse_content_type ML hs <> OutOfFuel) as [T1 T2].
  { unfold parse_content_type.
    repeat match goal with |- context [match ?X with _ => _ end] => destruct X; try (split; discriminate) end. }
  unfold parse_field_headers.
  destruct (parse_content_disp hs) as [[n f]|e| |]; try congruence; try (split; discriminate).
  destruct (parse_content_type ML hs) as [c|e| |]; try congruence; split; discriminate.
Qed.

Lemma read_headers_spec trim r x r' :
  inv r -> st r <> AtEnd ->
  read_headers ML trim r = (x, r') ->
  inv r' /\ bnd r' = bnd r /\ minb r' = minb r /\ later (src r') (src r) /\ st r' <> AtEnd /\
  (exists c, skipped (bnd r) (rem r) c (rem r')) /\ x <> Panic /\ x <> OutOfFuel.
Proof.
  intros Hinv Hst. unfold read_headers.
  destruct (with_headers trim (length (src r) + 3) 0 r) as [y r1] eqn:E.
  pose proof (with_headers_spec _ _ _ _ _ _ Hinv Hst E) as (J1 & J2 & J3 & J4 & J5 & J6 & J7).
  assert (y <> OutOfFuel).
  { intros ->. eapply with_headers_fuel in E; eauto. left. lia. }
  destruct y as [hs|e| |]; try congruence.
  - intros HH; injection HH as <- <-. pose proof (parse_field_headers_total hs) as []. repeat split; auto; apply J1.
  - intros HH; injection HH as <- <-. repeat split; auto; try apply J1; discriminate.
Qed.

Lemma read_entry_inv trim r x r' :
  inv r -> read_entry ML trim r = (x, r') ->
  inv r' /\ bnd r' = bnd r /\ minb r' = Nat.max (length (bnd r) * 2) MIN_BUF_SIZE /\ later (src r') (src r) /\
  x <> Panic /\ x <> OutOfFuel.
Proof.
  intros Hinv. unfold read_entry.
  pose proof (inv_set_min MIN_BUF_SIZE r Hinv) as H0.
  destruct (consume_boundary (set_min_buf_size MIN_BUF_SIZE r)) as [y r1] eqn:E.
  pose proof (consume_boundary_spec _ _ _ H0 E) as (J1 & J2 & J3 & J4 & J5 & J6).
  cbn [bnd minb src st set_min_buf_size] in *.
  assert (HX : y <> Panic /\ y <> OutOfFuel).
  { destruct (st r) eqn:S; [specialize (J6 ltac:(congruence))|specialize (J6 ltac:(congruence))|];
      [destruct y as [[]|[]| |]; simpl in J6; try tauto; split; discriminate..|].
    destruct J5 as [-> _]; auto. split; discriminate. }
  destruct y as [[|]|e| |]; try tauto.
  - assert (st r1 <> AtEnd).
    { destruct (st r) eqn:S; [specialize (J6 ltac:(congruence))|specialize (J6 ltac:(congruence))|].
      1,2: destruct J6 as (pre & q & _ & _ & -> & _); discriminate.
      destruct J5 as [J5 _]; auto. discriminate. }
    destruct (read_headers ML trim r1) as [z r2] eqn:F.
    apply read_headers_spec in F as (K1 & K2 & K3 & K4 & K5 & K6 & K7 & K8); auto.
    assert (later (src r2) (src r)) by (eapply later_trans; eauto).
    destruct z as [h|e| |]; try congruence; intros HH; injection HH as <- <-;
      repeat split; auto; try apply K1; try congruence; discriminate.
  - intros HH; injection HH as <- <-. repeat split; auto; try apply J1; discriminate.
  - intros HH; injection HH as <- <-. repeat split; auto; try apply J1; discriminate.
Qed.

(** * Every call keeps the invariant and returns normally *)

Definition fine (b : obs ML) : Prop :=
  match b with
  | BRead _ x | BFill _ x => x <> Panic /\ x <> OutOfFuel
  | BNext _ x => x <> Panic /\ x <> OutOfFuel
  | _ => True
  end.

Lemma read_spec n r x r' :
  inv r -> read n r = (x, r') ->
  inv r' /\ bnd r' = bnd r /\ minb r' = minb r /\ later (src r') (src r) /\
  match x with
  | Ok out => rem r = out ++ rem r' /\ length out <= n /\
      (st r <> AtEnd -> skipped (bnd r) (rem r) out (rem r') /\ st r' <> AtEnd) /\
      exists r1 b, read_to_boundary r = (Ok b, r1) /\ out = firstn n b /\ r' = consume (length out) r1
  | Err e => exists k, e = ETransport k /\ In (Fail k) (src r) /\ rem r' = rem r /\
      (st r <> AtEnd -> st r' <> AtEnd) 
  | _ => False
  end.
Proof.
  intros Hinv. unfold read. destruct (read_to_boundary r) as [y r1] eqn:E.
  pose proof (read_to_boundary_spec _ _ _ Hinv E) as (I1 & R1 & B1 & M1 & L1 & _ & K1 & K2 & X).
  assert (Hst1 : st r <> AtEnd -> st r1 <> AtEnd).
  { intros. destruct (st r) eqn:S0; [auto|destruct K1 as [K1 _]; congruence|congruence]. }
  destruct y as [b|e| |]; try tauto; intros HH; injection HH as <- <-.
  - set (out := firstn n b).
    pose proof (consume_spec (length out) r1 I1) as (C1 & C0 & C2 & C3 & C4 & C5 & _).
    assert (Eo : firstn (Nat.min (length out) (idx r1)) (buf r1) = out).
    { destruct X as [-> _]. unfold out. destruct I1 as (_ & I1 & _).
      rewrite firstn_firstn, firstn_length.
      replace (Nat.min (Nat.min (Nat.min n (idx r1)) (length (buf r1))) (idx r1)) with (Nat.min n (idx r1)) by lia.
      reflexivity. }
    split; auto. split; [congruence|]. split; [congruence|]. split; [rewrite C4; auto|].
    rewrite <- R1. split; [rewrite Eo in C0; exact C0|].
    split; [unfold out; rewrite firstn_length; lia|]. split; [|eauto].
    intros Hs. pose proof (consume_skipped (length out) r1 I1 (Hst1 Hs)) as C6.
    rewrite Eo, B1 in C6. split; [auto|rewrite C5; auto].
  - split; auto. split; auto. split; auto. split; auto. destruct X as (k & -> & X1 & X2 & X3).
    exists k. repeat split; auto.
Qed.

Lemma step_inv trim o r b r' :
  inv r -> step ML trim o r = (b, r') -> inv r' /\ bnd r' = bnd r /\ later (src r') (src r) /\ fine b.
Proof.
  intros Hinv. destruct o as [n| |n|n|]; cbn [step].
  - destruct (read n r) as [x r1] eqn:E. intros H; injection H as <- <-.
    apply read_spec in E as (J1 & J2 & J3 & J4 & J5); auto. repeat split; auto; try apply J1;
    destruct x; try tauto; try discriminate; split; discriminate.
  - destruct (read_to_boundary r) as [x r1] eqn:E. intros H; injection H as <- <-.
    apply read_to_boundary_spec in E as (I1 & R1 & B1 & M1 & L1 & _ & K1 & K2 & X); auto.
    repeat split; auto; try apply I1; destruct x; try tauto; try discriminate; split; discriminate.
  - intros H; injection H as <- <-.
    pose proof (consume_spec n r Hinv) as (C1 & C0 & C2 & C3 & C4 & C5 & _).
    repeat split; auto; try apply C1. rewrite C4. apply later_refl.
  - intros H; injection H as <- <-. repeat split; auto; try apply Hinv. apply later_refl.
  - destruct (read_entry ML trim r) as [x r1] eqn:E. intros H; injection H as <- <-.
    apply read_entry_inv in E as (J1 & J2 & J3 & J4 & J5 & J6); auto.
    repeat split; auto; try apply J1.
Qed.

Lemma run_inv trim os r bs r' :
  inv r -> run ML trim os r = (bs, r') -> inv r' /\ bnd r' = bnd r /\ later (src r') (src r) /\ Forall fine bs.
Proof.
  revert r bs; induction os as [|o os IH]; intros r bs Hinv; cbn [run].
  - intros H; injection H as <- <-. repeat split; auto; try apply Hinv. apply later_refl.
  - destruct (step ML trim o r) as [b r1] eqn:E. destruct (run ML trim os r1) as [bs1 r2] eqn:F.
    intros H; injection H as <- <-.
    apply step_inv in E as (J1 & J2 & J3 & J4); auto.
    apply IH in F as (K1 & K2 & K3 & K4); auto.
    split; auto. split; [congruence|]. split; [eapply later_trans; eauto|]. auto.
Qed.

End WithMime.
