(** Invariant of the boundary reader, preserved by every operation. *)

From Verif Require Import Bytes BytesProofs Spec Io Boundary.

(** * The buffered reader *)

Lemma fill_buf_spec min b t e b' t' :
  fill_buf min b t = (e, b', t') ->
  exists c used, b' = b ++ c /\ t = used ++ t' /\ stream used = c /\
    (e = None -> min <= length b' \/ t' = [] \/ In (Chunk []) used) /\
    (forall k, e = Some k -> In (Fail k) used).
Proof.
  revert b; induction t as [|ev t IH]; intros b; simpl; destruct (min <=? length b) eqn:E; intros H.
  1,2: injection H as <- <- <-; exists [], []; rewrite app_nil_r; repeat split; auto; discriminate.
  - injection H as <- <- <-. exists [], []. rewrite app_nil_r. repeat split; auto. lia. discriminate.
  - destruct ev as [[|x c]|k].
    + injection H as <- <- <-. exists [], [Chunk []]. rewrite app_nil_r.
      repeat split; auto; try discriminate. simpl; auto.
    + apply IH in H as (c' & used & -> & -> & Hs & Hn & Hk).
      exists ((x :: c) ++ c'), (Chunk (x :: c) :: used). repeat split.
      * now rewrite app_assoc.
      * simpl. now rewrite Hs.
      * intros He. apply Hn in He as [?|[?|?]]; simpl; auto.
      * intros k Hk'. apply Hk in Hk'. simpl; auto.
    + injection H as <- <- <-. exists [], [Fail k]. rewrite app_nil_r.
      repeat split; auto; try discriminate. intros k' Hk. injection Hk as <-. simpl; auto.
Qed.

Lemma stream_app a b : stream (a ++ b) = stream a ++ stream b.
Proof.
  induction a as [|[c|k] a IH]; simpl; auto. rewrite IH. now rewrite app_assoc.
Qed.

(** * Searching *)

Definition dashed (D : bytes) : Prop := exists d, D = DASH :: DASH :: d.

Lemma dashed_nonnil D : dashed D -> D <> [].
Proof. intros [d ->]. discriminate. Qed.

Lemma dashed_length D : dashed D -> 2 <= length D.
Proof. intros [d ->]. simpl. lia. Qed.

Lemma crlf_not_dashed b D : dashed D -> starts_with b CRLF = true -> starts_with b D = false.
Proof.
  intros [d ->] H. apply sw_iff in H as [t ->]. reflexivity.
Qed.

Lemma crlf_not_fragment b D : dashed D -> starts_with b CRLF = true -> starts_with D b = false.
Proof.
  intros [d ->] H. apply sw_iff in H as [t ->]. reflexivity.
Qed.

Lemma find_fragment_spec b D i n :
  i + n = length b ->
  let f := find_fragment b D i n in
  i <= f <= length b /\ (forall j, i <= j < f -> starts_with D (skipn j b) = false) /\
  (f < length b -> starts_with D (skipn f b) = true).
Proof.
  revert i; induction n as [|n IH]; intros i Hn; simpl.
  - repeat split; try lia.
  - destruct (starts_with D (skipn i b)) eqn:E.
    + repeat split; auto; try lia; intros; lia.
    + destruct (IH (S i)) as (H1 & H2 & H3); [lia|]. repeat split; auto; try lia.
      intros j Hj. destruct (Nat.eq_dec j i) as [->|]; auto. apply H2. lia.
Qed.

Lemma find_boundary_inl b D p :
  find_boundary b D = inl p ->
  p + length D <= length b /\ starts_with (skipn p b) D = true /\
  forall j, j < p -> starts_with (skipn j b) D = false.
Proof.
  unfold find_boundary. destruct (find_bytes b D) eqn:E; intros H; [|discriminate].
  injection H as <-. now apply find_bytes_some.
Qed.

Lemma find_boundary_inr b D y :
  D <> [] ->
  find_boundary b D = inr y ->
  y <= length b /\ length b < y + length D /\
  (forall j t, j < y -> starts_with (skipn j (b ++ t)) D = false) /\
  (y < length b -> starts_with D (skipn y b) = true) /\
  (forall j, length b - length D <= j < y -> starts_with D (skipn j b) = false) /\
  find_bytes b D = None.
Proof.
  intros HD. unfold find_boundary. destruct (find_bytes b D) eqn:E; intros H; [discriminate|].
  injection H as <-.
  assert (HDl : 0 < length D) by (destruct D; simpl; [congruence|lia]).
  pose proof (find_fragment_spec b D (length b - length D)
    (length b - (length b - length D))) as (H1 & H2 & H3); [lia|].
  set (y := find_fragment b D (length b - length D) (length b - (length b - length D))) in *.
  split; [lia|]. split; [|split; [|split; [|split]]]; auto.
  - destruct (le_lt_dec (length b) (length b - length D)); [lia|].
    destruct (Nat.eq_dec y (length b - length D)) as [Ey|]; [|lia].
    assert (Hy : y < length b) by lia. apply H3 in Hy.
    destruct (le_lt_dec (length D) (length b)); [|lia].
    exfalso. apply sw_iff in Hy as [t Ht].
    assert (length t = 0).
    { apply (f_equal (@length _)) in Ht. rewrite app_length, skipn_length in Ht. lia. }
    destruct t; [|discriminate]. rewrite app_nil_r in Ht.
    assert (starts_with (skipn y b) D = true).
    { apply sw_iff. exists []. now rewrite app_nil_r. }
    pose proof (find_bytes_none _ _ E y). rewrite H4 in H0; [discriminate|lia].
  - intros j t Hj. destruct (starts_with (skipn j (b ++ t)) D) eqn:F; auto. exfalso.
    rewrite skipn_app_le in F by lia.
    destruct (le_lt_dec (length D) (length (skipn j b))).
    + apply sw_app_inv in F; auto.
      pose proof (find_bytes_none _ _ E j). rewrite H in F; [discriminate|lia].
    + apply sw_straddle in F; [|lia]. rewrite skipn_length in *.
      rewrite H2 in F; [discriminate|lia].
Qed.

(** What [search_step] establishes. *)
Definition found_at (D b : bytes) (i p : nat) : Prop :=
  p + length D <= length b /\ starts_with (skipn p b) D = true /\
  (p = i \/ (p = i + 2 /\ starts_with (skipn i b) CRLF = true)).

Lemma slice_crlf i b :
  2 <= i -> beq (slice (i - 2) i b) CRLF = true -> starts_with (skipn (i - 2) b) CRLF = true.
Proof.
  intros Hi H. apply beq_eq in H. unfold slice in H.
  replace (i - (i - 2)) with 2 in H by lia.
  eapply firstn_eq_sw; eauto.
Qed.

Lemma not_in_buf t i D b :
  D <> [] ->
  (forall j, j < i -> starts_with (skipn j (b ++ t)) D = false) ->
  length b < i + length D ->
  forall j, starts_with (skipn j b) D = false.
Proof.
  intros HD H1 H2 j. destruct (starts_with (skipn j b) D) eqn:E; auto.
  pose proof (sw_length _ _ E) as L. rewrite skipn_length in L.
  assert (0 < length D) by (destruct D; [congruence|simpl; lia]).
  destruct (le_lt_dec i j); [lia|].
  rewrite <- (H1 j); auto. destruct (le_lt_dec j (length b)).
  - rewrite skipn_app_le by lia. symmetry. now apply sw_app.
  - lia.
Qed.

Lemma search_step_spec b D i t :
  dashed D -> i <= length b ->
  (forall j, j < i -> starts_with (skipn j (b ++ t)) D = false) ->
  exists i' s', search_step b D i = Some (i', s') /\ i' <= length b /\
    match s' with
    | Searching => (forall j, j < i' -> starts_with (skipn j (b ++ t)) D = false)
                   /\ length b <= i' + length D + 1
                   /\ (forall j, starts_with (skipn j b) D = false)
    | BoundaryRead => exists p, found_at D b i' p /\
                      forall j, j < p -> starts_with (skipn j (b ++ t)) D = false
    | AtEnd => False
    end.
Proof.
  intros HD Hi Hno. unfold search_step.
  pose proof (dashed_nonnil _ HD) as HD0. pose proof (dashed_length _ HD) as HDl.
  (* the search proper *)
  assert (exists i1 s1,
    (if i <? length b
     then match find_boundary (skipn i b) D with
          | inl found => (i + found, BoundaryRead)
          | inr yield => (i + yield, Searching)
          end
     else (i, Searching)) = (i1, s1) /\ i1 <= length b /\
    (forall j, j < i1 -> starts_with (skipn j (b ++ t)) D = false) /\
    match s1 with
    | Searching => length b < i1 + length D
    | BoundaryRead => i1 + length D <= length b /\ starts_with (skipn i1 b) D = true
    | AtEnd => False
    end) as (i1 & s1 & -> & H1 & H2 & H3).
  { destruct (i <? length b) eqn:E.
    - destruct (find_boundary (skipn i b) D) as [p|y] eqn:F.
      + apply find_boundary_inl in F as (F1 & F2 & F3). rewrite skipn_length in F1.
        rewrite skipn_skipn' in F2.
        eexists _, _; split; [reflexivity|]. split; [lia|]. split; [|split; auto; lia].
        intros j Hj. destruct (le_lt_dec i j); [|auto].
        specialize (F3 (j - i)). rewrite skipn_skipn' in F3.
        replace (i + (j - i)) with j in F3 by lia.
        destruct (starts_with (skipn j (b ++ t)) D) eqn:G; auto. exfalso.
        rewrite skipn_app_le in G by lia. apply sw_app_inv in G.
        * rewrite F3 in G; [discriminate|lia].
        * rewrite skipn_length. lia.
      + apply find_boundary_inr in F as (F1 & F2 & F3 & _); auto.
        rewrite skipn_length in F1, F2.
        eexists _, _; split; [reflexivity|]. split; [lia|]. split; [|lia].
        intros j Hj. destruct (le_lt_dec i j); [|auto].
        specialize (F3 (j - i) t). rewrite <- skipn_app_le, skipn_skipn' in F3 by lia.
        replace (i + (j - i)) with j in F3 by lia. apply F3. lia.
    - eexists _, _; split; [reflexivity|]. repeat split; auto; lia. }
  destruct (length b <? i1) eqn:E1; [lia|].
  destruct ((2 <=? i1) && negb (starts_with (skipn i1 b) CRLF) && beq (slice (i1 - 2) i1 b) CRLF) eqn:E2.
  - apply andb_true_iff in E2 as [E2 E3]. apply andb_true_iff in E2 as [E2 _].
    apply slice_crlf in E3; [|lia].
    eexists _, _; split; [reflexivity|]. split; [lia|].
    destruct s1; [| |destruct H3].
    + split; [intros; apply H2|split]; try lia. apply (not_in_buf t i1); auto.
    + exists i1. split.
      * destruct H3. split; auto. split; auto. right. split; auto. lia.
      * auto.
  - eexists _, _; split; [reflexivity|]. split; [lia|].
    destruct s1; [| |destruct H3].
    + split; auto. split; [lia|]. apply (not_in_buf t i1); auto.
    + exists i1. split; auto. destruct H3. split; auto.
Qed.

(** * The invariant *)

Definition rem (r : breader) : bytes := buf r ++ stream (src r).

Definition inv (r : breader) : Prop :=
  dashed (bnd r) /\ idx r <= length (buf r) /\
  match st r with
  | Searching => forall j, j < idx r -> starts_with (skipn j (rem r)) (bnd r) = false
  | BoundaryRead => exists p, found_at (bnd r) (buf r) (idx r) p /\
                    forall j, j < p -> starts_with (skipn j (rem r)) (bnd r) = false
  | AtEnd => idx r = 0
  end.

Lemma found_at_app D b c i p : found_at D b i p -> found_at D (b ++ c) i p.
Proof.
  intros (H1 & H2 & H3). assert (length D <= length (skipn p b)) by (rewrite skipn_length; lia).
  split; [rewrite app_length; lia|]. split.
  - rewrite skipn_app_le by lia. now apply sw_app.
  - destruct H3 as [->|[-> H3]]; auto. right. split; auto.
    rewrite skipn_app_le by lia. now apply sw_app.
Qed.

Lemma inv_from_reader t b : inv (from_reader t b).
Proof.
  repeat split; simpl; try lia. exists b. reflexivity.
Qed.

Lemma inv_set_min n r : inv r -> inv (set_min_buf_size n r).
Proof. intros H; exact H. Qed.

(** Refilling. *)
Lemma refill_inv r c used :
  src r = used ++ c -> inv r -> inv (set_source r (buf r ++ stream used) c).
Proof.
  intros E (H1 & H2 & H3).
  assert (R : rem (set_source r (buf r ++ stream used) c) = rem r).
  { unfold rem. simpl. rewrite E, stream_app, app_assoc. reflexivity. }
  unfold inv. rewrite R. simpl. split; auto. split; [rewrite app_length; lia|].
  destruct (st r); auto. destruct H3 as (p & H3 & H4). exists p. split; auto.
  now apply found_at_app.
Qed.

(** [x] is the part of [y] left after some events. *)
Definition later (x y : transport) : Prop := exists used, y = used ++ x.

Lemma later_refl x : later x x.
Proof. exists []. reflexivity. Qed.

Lemma later_trans x y z : later x y -> later y z -> later x z.
Proof. intros [u ->] [v ->]. exists (v ++ u). now rewrite app_assoc. Qed.

(** [read_to_boundary] keeps the remaining bytes, never panics, and returns the bytes before [idx]. *)
Lemma read_to_boundary_spec r x r' :
  inv r -> read_to_boundary r = (x, r') ->
  inv r' /\ rem r' = rem r /\ bnd r' = bnd r /\ minb r' = minb r /\ later (src r') (src r) /\
  length (buf r) <= length (buf r') /\
  (st r <> Searching -> st r' = st r /\ idx r' = idx r) /\ (st r = Searching -> st r' <> AtEnd) /\
  match x with
  | Ok b => b = firstn (idx r') (buf r') /\
            (minb r <= length (buf r') \/ src r' = [] \/ In (Chunk []) (src r)) /\
            (st r' = Searching -> length (buf r') <= idx r' + length (bnd r) + 1 /\
                                  forall j, starts_with (skipn j (buf r')) (bnd r) = false)
  | Err e => exists k, e = ETransport k /\ In (Fail k) (src r) /\ st r' = st r /\ idx r' = idx r
  | _ => False
  end.
Proof.
  intros Hinv. unfold read_to_boundary.
  destruct (fill_buf (minb r) (buf r) (src r)) as [[e b] t] eqn:E.
  apply fill_buf_spec in E as (c & used & -> & Esrc & <- & Hn & Hk).
  pose proof (refill_inv r t used Esrc Hinv) as Hinv1.
  assert (R : rem (set_source r (buf r ++ stream used) t) = rem r).
  { unfold rem. simpl. rewrite Esrc, stream_app, app_assoc. reflexivity. }
  assert (L : later t (src r)) by (exists used; auto).
  assert (Lb : length (buf r) <= length (buf r ++ stream used)) by (rewrite app_length; lia).
  destruct e as [k|].
  { intros H; injection H as <- <-.
    split; [assumption|]. split; [assumption|]. simpl.
    do 4 (split; [auto|]). split; [auto|]. split; [congruence|].
    exists k. repeat split; auto. rewrite Esrc. apply in_or_app. left. auto. }
  assert (Hn' : minb r <= length (buf r ++ stream used) \/ t = [] \/ In (Chunk []) (src r)).
  { destruct (Hn eq_refl) as [?|[?|?]]; auto. right; right. rewrite Esrc. apply in_or_app; auto. }
  assert (Hi : idx r <= length (buf r ++ stream used)) by (destruct Hinv as (_ & ? & _); lia).
  destruct (st r) eqn:Est.
  - (* Searching *)
    destruct Hinv as (HD & Hix & Hno). rewrite Est in Hno.
    destruct (search_step_spec (buf r ++ stream used) (bnd r) (idx r) (stream t))
      as (i' & s' & -> & H1 & H2); auto.
    { intros j Hj. specialize (Hno j Hj). unfold rem in Hno.
      rewrite Esrc, stream_app, app_assoc in Hno. exact Hno. }
    intros H; injection H as <- <-.
    split.
    { unfold inv, rem. simpl. split; auto. split; auto.
      destruct s'; auto; try tauto. }
    split; [exact R|]. simpl.
    do 4 (split; [auto|]). split; [congruence|]. split; [destruct s'; congruence || tauto|].
    split; auto. split; auto. intros ->. tauto.
  - destruct (length (buf r ++ stream used) <? idx r) eqn:E; [lia|].
    intros H; injection H as <- <-. split; [assumption|]. split; [assumption|]. simpl.
    do 4 (split; [auto|]). split; [auto|]. split; [congruence|].
    split; auto. split; auto. congruence.
  - destruct (length (buf r ++ stream used) <? idx r) eqn:E; [lia|].
    intros H; injection H as <- <-. split; [assumption|]. split; [assumption|]. simpl.
    do 4 (split; [auto|]). split; [auto|]. split; [congruence|].
    split; auto. split; auto. congruence.
Qed.

(** [consume] drops bytes before [idx] only. *)
Lemma consume_spec n r :
  inv r ->
  inv (consume n r) /\
  rem r = firstn (Nat.min n (idx r)) (buf r) ++ rem (consume n r) /\
  bnd (consume n r) = bnd r /\ minb (consume n r) = minb r /\ src (consume n r) = src r /\
  st (consume n r) = st r /\ idx (consume n r) = idx r - n /\
  length (buf (consume n r)) = length (buf r) - Nat.min n (idx r).
Proof.
  intros (HD & Hi & Hs).
  assert (R : rem r = firstn (Nat.min n (idx r)) (buf r) ++ rem (consume n r)).
  { unfold rem. simpl. rewrite app_assoc. now rewrite firstn_skipn. }
  split; [|split; [exact R|]].
  2: { simpl. rewrite skipn_length. repeat split; auto. lia. }
  assert (S : forall j, skipn j (rem (consume n r)) = skipn (Nat.min n (idx r) + j) (rem r)).
  { intros j. rewrite R. rewrite skipn_app, firstn_length.
    rewrite (skipn_all2 (firstn _ _)) by (rewrite firstn_length; lia). simpl.
    f_equal. lia. }
  split; auto. split; [simpl; rewrite skipn_length; lia|].
  destruct (st r) eqn:Est; simpl; rewrite ?Est.
  - intros j Hj. rewrite S. apply Hs. lia.
  - destruct Hs as (p & (P1 & P2 & P3) & P4). exists (p - Nat.min n (idx r)).
    split.
    + split; [rewrite skipn_length; lia|]. split.
      * rewrite skipn_skipn'. now replace (Nat.min n (idx r) + (p - Nat.min n (idx r))) with p by lia.
      * destruct P3 as [->|[-> P3]]; [left; reflexivity|]. right. split; [lia|].
        rewrite skipn_skipn'.
        now replace (Nat.min n (idx r) + (idx r - Nat.min n (idx r))) with (idx r) by lia.
    + intros j Hj. rewrite S. apply P4. lia.
  - lia.
Qed.

(** * Finding and checking the boundary *)

(** [R'] is what is left of [R] after dropping [c], and no delimiter starts in [c]. *)
Definition skipped (D R c R' : bytes) : Prop :=
  R = c ++ R' /\ forall j, j < length c -> starts_with (skipn j R) D = false.

Lemma skipped_nil D R : skipped D R [] R.
Proof. split; auto. simpl; intros; lia. Qed.

Lemma skipped_trans D R c R' c' R'' :
  skipped D R c R' -> skipped D R' c' R'' -> skipped D R (c ++ c') R''.
Proof.
  intros [-> H1] [-> H2]. split; [now rewrite app_assoc|].
  intros j Hj. rewrite app_length in Hj. destruct (le_lt_dec (length c) j); auto.
  specialize (H2 (j - length c)). rewrite skipn_app, skipn_all2 by lia. apply H2. lia.
Qed.

Lemma skipped_split D R c R' pre post :
  skipped D R c R' -> first_split D R' pre post -> first_split D R (c ++ pre) post.
Proof.
  rewrite !first_split_iff. intros [-> H1] [-> H2]. split; [now rewrite app_assoc|].
  intros j Hj. rewrite app_length in Hj. destruct (le_lt_dec (length c) j); auto.
  specialize (H2 (j - length c)). rewrite skipn_app, skipn_all2 by lia. apply H2. lia.
Qed.

Lemma skipped_split_inv D R c R' pre post :
  skipped D R c R' -> first_split D R pre post ->
  exists pre', pre = c ++ pre' /\ first_split D R' pre' post.
Proof.
  rewrite !first_split_iff. intros [-> H1] [H2 H3].
  assert (L : length c <= length pre).
  { destruct (le_lt_dec (length c) (length pre)); auto.
    exfalso.
    specialize (H1 (length pre) l). rewrite H2, skipn_app, skipn_all, Nat.sub_diag in H1.
    assert (starts_with (skipn 0 (D ++ post)) D = true) by (apply sw_iff; simpl; eauto).
    simpl in H. simpl in H1. congruence. }
  exists (skipn (length c) pre).
  assert (c = firstn (length c) pre).
  { assert (firstn (length c) (c ++ R') = firstn (length c) (pre ++ D ++ post)) by congruence.
    rewrite !firstn_app_le in H by lia. now rewrite firstn_all in H. }
  split; [rewrite H at 1; now rewrite firstn_skipn|].
  rewrite first_split_iff.
  assert (E : R' = skipn (length c) pre ++ D ++ post).
  { assert (skipn (length c) (c ++ R') = skipn (length c) (pre ++ D ++ post)) by congruence.
    rewrite skipn_app, skipn_all, Nat.sub_diag, skipn_app_le in H0 by lia. exact H0. }
  split; auto. intros j Hj. rewrite skipn_length in Hj.
  specialize (H3 (length c + j)). rewrite skipn_app, skipn_all2 in H3 by lia.
  simpl in H3. replace (length c + j - length c) with j in H3 by lia. apply H3. lia.
Qed.

Lemma skipped_absent D R c R' :
  D <> [] -> skipped D R c R' -> absent D R' -> absent D R.
Proof.
  intros HD [-> H1] H2 i Hi. apply occurs_at_sw' in Hi; auto.
  destruct (le_lt_dec (length c) i).
  - rewrite skipn_app, skipn_all2 in Hi by lia. apply (H2 (i - length c)).
    apply occurs_at_sw'; auto.
  - rewrite H1 in Hi; auto. discriminate.
Qed.

Lemma skipped_absent_inv D R c R' :
  D <> [] -> skipped D R c R' -> absent D R -> absent D R'.
Proof.
  intros HD [-> H1] H2 i Hi. apply occurs_at_sw' in Hi; auto.
  apply (H2 (length c + i)). apply occurs_at_sw'; auto.
  rewrite skipn_app, skipn_all2 by lia. simpl.
  now replace (length c + i - length c) with i by lia.
Qed.

Lemma consume_skipped n r :
  inv r -> st r <> AtEnd ->
  skipped (bnd r) (rem r) (firstn (Nat.min n (idx r)) (buf r)) (rem (consume n r)).
Proof.
  intros Hinv Hst. pose proof (consume_spec n r Hinv) as (_ & R & _). split; auto.
  intros j Hj. rewrite firstn_length in Hj. destruct Hinv as (_ & Hi & Hs).
  destruct (st r); [| |congruence].
  - apply Hs. lia.
  - destruct Hs as (p & (_ & _ & P) & Hp). apply Hp. lia.
Qed.

Lemma skip_to_boundary_spec fuel r x r' :
  inv r -> st r <> AtEnd -> length (rem r) < fuel -> skip_to_boundary fuel r = (x, r') ->
  inv r' /\ bnd r' = bnd r /\ minb r' = minb r /\ later (src r') (src r) /\
  (exists c, skipped (bnd r) (rem r) c (rem r')) /\
  match x with
  | Ok _ => st r' = BoundaryRead /\ (r' = r \/ idx r' = 0)
  | Err EEndOfBody =>
      st r' = Searching /\ idx r' = 0 /\
      length (buf r') <= length (bnd r) + 1 /\
      (forall j, starts_with (skipn j (buf r')) (bnd r) = false) /\
      (minb r <= length (buf r') \/ src r' = [] \/ In (Chunk []) (src r))
  | Err (ETransport k) => st r' = Searching /\ In (Fail k) (src r)
  | _ => False
  end.
Proof.
  revert r; induction fuel as [|fuel IH]; intros r Hinv Hst Hf; [lia|].
  cbn [skip_to_boundary]. destruct (st r) eqn:Est; [| |congruence].
  2: { intros H; injection H as <- <-. rewrite Est. do 3 (split; auto). split; [apply later_refl|].
       split; [exists []; apply skipped_nil|auto]. }
  destruct (read_to_boundary r) as [y r1] eqn:E.
  apply read_to_boundary_spec in E as (I1 & R1 & B1 & M1 & L1 & _ & _ & NA & X); auto.
  specialize (NA Est).
  destruct y as [b|e| |]; try tauto.
  - destruct X as (-> & Hfill & Hs).
    destruct ((length (firstn (idx r1) (buf r1)) =? 0) && bstate_eqb (st r1) Searching) eqn:Z.
    + intros H; injection H as <- <-. apply andb_true_iff in Z as [Z1 Z2].
      assert (S1 : st r1 = Searching) by (destruct (st r1); auto; discriminate).
      assert (idx r1 = 0).
      { rewrite firstn_length in Z1. destruct I1 as (_ & I1 & _). lia. }
      do 4 (split; auto). split; [rewrite R1; exists []; apply skipped_nil|].
      destruct (Hs S1) as [Hs1 Hs2]. repeat split; auto. lia.
    + set (n := length (firstn (idx r1) (buf r1))) in *.
      pose proof (consume_spec n r1 I1) as (I2 & R2 & B2 & M2 & S2 & T2 & X2 & _).
      pose proof (consume_skipped n r1 I1 NA) as K.
      assert (Hn : n = idx r1).
      { unfold n. rewrite firstn_length. destruct I1 as (_ & I1 & _). lia. }
      destruct (st r1) eqn:S1; [| |congruence].
      * intros H. apply IH in H; auto.
        -- destruct H as (J1 & J2 & J3 & J4 & (c & J5) & J6).
           split; auto. split; [congruence|]. split; [congruence|].
           split; [eapply later_trans; [eassumption|]; rewrite S2; auto|].
           split.
           { eexists. eapply skipped_trans; [|rewrite B2, B1 in J5; exact J5].
             rewrite B1, R1 in K. exact K. }
           rewrite ?B2, ?B1, ?M2, ?M1, ?S2 in J6.
           destruct L1 as [used L1].
           destruct x as [u|[k| | |]| |]; try tauto.
           ++ destruct J6 as [J6 J7]. split; auto. destruct J7 as [->|J7]; auto.
              exfalso. rewrite T2 in J6. discriminate.
           ++ destruct J6 as [J6 J7]. split; auto. rewrite L1. apply in_or_app; auto.
           ++ destruct J6 as (? & ? & ? & ? & J7). repeat split; auto.
              destruct J7 as [?|[?|?]]; auto. right; right. rewrite L1. apply in_or_app; auto.
        -- congruence.
        -- apply (f_equal (@length _)) in R2. rewrite app_length, firstn_length, R1 in R2.
           destruct I1 as (_ & I1 & _). simpl in Z. rewrite andb_true_r in Z. lia.
      * destruct fuel; cbn [skip_to_boundary]; rewrite T2; intros H; injection H as <- <-;
          (do 1 (split; auto)); (split; [congruence|]); (split; [congruence|]);
          (split; [rewrite S2; auto|]);
          (split; [eexists; rewrite B1, R1 in K; exact K|]);
          (split; [congruence|right; lia]).
  - destruct X as (k & -> & X1 & X2 & X3). intros H; injection H as <- <-.
    do 4 (split; auto). split; [rewrite R1; exists []; apply skipped_nil|].
    split; auto. congruence.
Qed.

Lemma found_split D R b t i p :
  D <> [] ->
  R = b ++ t -> found_at D b i p -> (forall j, j < p -> starts_with (skipn j R) D = false) ->
  first_split D R (firstn p b) (skipn (p + length D) b ++ t) /\ length (firstn p b) = p.
Proof.
  intros HD -> (H1 & H2 & _) H3.
  assert (L : length (firstn p b) = p) by (rewrite firstn_length; lia).
  split; auto. apply first_split_iff. rewrite L. split; auto.
  apply sw_iff in H2 as [u Hu].
  rewrite <- skipn_skipn', Hu, skipn_app, skipn_all, Nat.sub_diag. simpl.
  rewrite (app_assoc D), <- Hu, app_assoc, firstn_skipn. reflexivity.
Qed.

Lemma verify_boundary_spec r x r' :
  inv r -> st r = BoundaryRead -> verify_boundary r = (x, r') ->
  inv r' /\ bnd r' = bnd r /\ minb r' = minb r /\ later (src r') (src r) /\
  exists pre post, first_split (bnd r) (rem r) pre post /\
    idx r <= length pre <= idx r + 2 /\
  match x with
  | Ok true => exists q, post = CRLF ++ q /\ rem r' = q /\ st r' = Searching /\ idx r' = 0
  | Ok false => exists q, post = DASHES ++ q /\ rem r' = q /\ st r' = AtEnd /\ idx r' = 0
  | Err (EBadBoundary a b) =>
      exists q, post = a :: b :: q /\ [a; b] <> CRLF /\ [a; b] <> DASHES /\
                rem r' = rem r /\ st r' = Searching /\ idx r' = idx r
  | Err EShortBoundary =>
      rem r' = rem r /\ st r' = BoundaryRead /\ idx r' = idx r /\
      length (buf r') < length pre + length (bnd r) + 2 /\
      (minb r <= length (buf r') \/ src r' = [] \/ In (Chunk []) (src r))
  | Err (ETransport k) => In (Fail k) (src r) /\ rem r' = rem r /\ st r' = BoundaryRead /\ idx r' = idx r
  | _ => False
  end.
Proof.
  intros Hinv Est. unfold verify_boundary.
  destruct (fill_buf (minb r) (buf r) (src r)) as [[e b] t] eqn:E.
  apply fill_buf_spec in E as (c & used & -> & Esrc & <- & Hn & Hk).
  pose proof (refill_inv r t used Esrc Hinv) as Hinv1.
  set (r1 := set_source r (buf r ++ stream used) t) in *.
  assert (R : rem r1 = rem r).
  { unfold rem, r1. simpl. rewrite Esrc, stream_app, app_assoc. reflexivity. }
  assert (L : later t (src r)) by (exists used; auto).
  assert (HD : dashed (bnd r)) by apply Hinv.
  pose proof (dashed_nonnil _ HD) as HD0.
  assert (exists p, found_at (bnd r) (buf r ++ stream used) (idx r) p /\
     forall j, j < p -> starts_with (skipn j (rem r)) (bnd r) = false) as (p & Hp & Hfirst).
  { destruct Hinv1 as (_ & _ & Hs). rewrite R in Hs. simpl in Hs. rewrite Est in Hs. exact Hs. }
  set (bb := buf r ++ stream used) in *.
  assert (Ebb : rem r = bb ++ stream t) by (rewrite <- R; reflexivity).
  destruct (found_split _ _ _ _ _ _ HD0 Ebb Hp Hfirst) as [FS FL].
  destruct Hp as (P1 & P2 & P3).
  assert (Hidx : idx r <= p <= idx r + 2) by lia.
  assert (Hn' : e = None -> minb r <= length bb \/ t = [] \/ In (Chunk []) (src r)).
  { intros He. destruct (Hn He) as [?|[?|?]]; auto. right; right. rewrite Esrc. apply in_or_app; auto. }
  assert (Base : forall (x : res berr bool) rr, (x, rr) = (x, r1) -> inv rr /\ bnd rr = bnd r /\ minb rr = minb r /\
    later (src rr) (src r) /\ rem rr = rem r /\ idx rr = idx r /\ st rr = BoundaryRead /\ buf rr = bb /\ src rr = t).
  { intros x0 rr H; injection H as ->. split; [exact Hinv1|]. repeat split; auto. }
  destruct e as [k|].
  { intros H; injection H as <- <-.
    destruct (Base (Err (ETransport k)) r1 eq_refl) as (B1 & B2 & B3 & B4 & B5 & B6 & B7 & B8 & B9).
    do 4 (split; auto).
    eexists _, _; split; [exact FS|]. rewrite FL. split; auto.
    repeat split; auto. rewrite Esrc. apply in_or_app. left. auto. }
  destruct (length bb <? idx r) eqn:E1; [lia|].
  assert (Lead : exists lead, (if starts_with (skipn (idx r) bb) CRLF then 2 else 0) = lead /\ p = idx r + lead).
  { destruct P3 as [P3|[P3 P4]].
    - exists 0. split; [|lia]. destruct (starts_with (skipn (idx r) bb) CRLF) eqn:F; auto.
      apply (crlf_not_dashed _ (bnd r)) in F; auto. congruence.
    - exists 2. rewrite P4. auto. }
  destruct Lead as (lead & -> & ->).
  rewrite skipn_length.
  destruct (length bb - idx r <? lead + length (bnd r)) eqn:E2; [lia|].
  assert (E3 : slice lead (lead + length (bnd r)) (skipn (idx r) bb) = bnd r).
  { unfold slice. rewrite skipn_skipn'. apply firstn_sw; auto. lia. }
  rewrite E3. assert (Hb : beq (bnd r) (bnd r) = true) by now apply beq_eq. rewrite Hb. clear Hb. simpl negb. cbv iota.
  replace (idx r + length (bnd r) + lead + 2) with (idx r + lead + length (bnd r) + 2) by lia.
  set (q := idx r + lead + length (bnd r)) in *.
  destruct (length bb <? q + 2) eqn:E4.
  { intros H; injection H as <- <-.
    destruct (Base (Err EShortBoundary) r1 eq_refl) as (B1 & B2 & B3 & B4 & B5 & B6 & B7 & B8 & B9).
    do 4 (split; auto).
    eexists _, _; split; [exact FS|]. rewrite FL. split; [lia|].
    repeat split; auto. simpl. lia. }
  replace (slice (q + 2 - 2) (q + 2) bb) with (firstn 2 (skipn q bb)).
  2: { unfold slice. replace (q + 2 - 2) with q by lia. now replace (q + 2 - q) with 2 by lia. }
  assert (Hpost : length (skipn q bb) >= 2) by (rewrite skipn_length; lia).
  assert (Hq2 : forall u v w, skipn q bb = u :: v :: w -> skipn (q + 2) bb = w).
  { intros u v w Hw. rewrite <- skipn_skipn', Hw. reflexivity. }
  destruct (skipn q bb) as [|u [|v w]] eqn:Epost; simpl in Hpost; try lia.
  specialize (Hq2 _ _ _ eq_refl). cbn [firstn].
  destruct (N.eqb u CR && N.eqb v LF) eqn:E5; [|destruct (N.eqb u DASH && N.eqb v DASH) eqn:E6].
  - apply andb_true_iff in E5 as [U V]. apply N.eqb_eq in U. apply N.eqb_eq in V. subst u v.
    intros H; injection H as <- <-. cbn [bnd minb src rem st idx].
    split. { split; auto. split; [simpl; lia|]. simpl. intros; lia. }
    do 3 (split; auto). eexists _, _; split; [exact FS|]. rewrite FL. split; [lia|].
    eexists; split; [reflexivity|].
    split; auto. unfold rem. simpl. rewrite Hq2. reflexivity.
  - apply andb_true_iff in E6 as [U V]. apply N.eqb_eq in U. apply N.eqb_eq in V. subst u v.
    intros H; injection H as <- <-. cbn [bnd minb src rem st idx].
    split. { split; auto. split; [simpl; lia|]. reflexivity. }
    do 3 (split; auto). eexists _, _; split; [exact FS|]. rewrite FL. split; [lia|].
    eexists; split; [reflexivity|].
    split; auto. unfold rem. simpl. rewrite Hq2. reflexivity.
  - intros H; injection H as <- <-.
    split.
    { split; auto. split; [apply Hinv1|]. simpl. intros j Hj.
      replace (rem (set_idx_st r1 (idx r) Searching)) with (rem r1) by reflexivity.
      rewrite R. apply Hfirst. lia. }
    do 3 (split; auto). eexists _, _; split; [exact FS|]. rewrite FL. split; [lia|].
    eexists; split; [reflexivity|].
    split; [|split; [|split; auto]].
    + intros H; injection H as -> ->. discriminate.
    + intros H; injection H as -> ->. discriminate.
Qed.

(** A transport that never reports end of file early. *)
Definition live (t : transport) : Prop := ~ In (Chunk []) t.

(** A transport that never fails. *)
Definition quiet (t : transport) : Prop := forall k, ~ In (Fail k) t.

(** A transport whose only failures are interruptions. *)
Definition steady (t : transport) : Prop := forall k, In (Fail k) t -> k = KInterrupted.

Lemma steady_later x y : later x y -> steady y -> steady x.
Proof. intros [u ->] H k HH. apply H. apply in_or_app. auto. Qed.

Lemma quiet_steady t : quiet t -> steady t.
Proof. intros H k HH. destruct (H k HH). Qed.

Lemma live_later x y : later x y -> live y -> live x.
Proof. intros [u ->] H HH. apply H. apply in_or_app. auto. Qed.

Lemma quiet_later x y : later x y -> quiet y -> quiet x.
Proof. intros [u ->] H k HH. apply (H k). apply in_or_app. auto. Qed.

(** What [consume_boundary] does when the end was not reached yet. *)
Definition next_outcome (r : breader) (x : res berr bool) (r' : breader) : Prop :=
  match x with
  | Ok true => exists pre q, first_split (bnd r) (rem r) pre (CRLF ++ q) /\
                             rem r' = q /\ st r' = Searching /\ idx r' = 0
  | Ok false => exists pre q, first_split (bnd r) (rem r) pre (DASHES ++ q) /\
                              rem r' = q /\ st r' = AtEnd /\ idx r' = 0
  | Err (EBadBoundary a b) =>
      (exists pre q, first_split (bnd r) (rem r) pre (a :: b :: q)) /\
      [a; b] <> CRLF /\ [a; b] <> DASHES /\ st r' = Searching /\
      exists c, skipped (bnd r) (rem r) c (rem r')
  | Err EShortBoundary =>
      exists pre post, first_split (bnd r) (rem r) pre post /\
      st r' = BoundaryRead /\
      (exists c, skipped (bnd r) (rem r) c (rem r')) /\
      (live (src r) ->
       (st r = Searching /\ length (bnd r) + 4 <= minb r) \/ idx r + length (bnd r) + 4 <= minb r ->
       length post < 2)
  | Err EEndOfBody =>
      st r' = Searching /\
      (exists c, skipped (bnd r) (rem r) c (rem r')) /\
      (live (src r) -> length (bnd r) + 2 <= minb r -> absent (bnd r) (rem r) /\ length (rem r') <= length (bnd r) + 1)
  | Err (ETransport k) =>
      In (Fail k) (src r) /\ st r' <> AtEnd /\ exists c, skipped (bnd r) (rem r) c (rem r')
  | _ => False
  end.

Lemma consume_boundary_spec r x r' :
  inv r -> consume_boundary r = (x, r') ->
  inv r' /\ bnd r' = bnd r /\ minb r' = minb r /\ later (src r') (src r) /\
  (st r = AtEnd -> x = Ok false /\ r' = r) /\
  (st r <> AtEnd -> next_outcome r x r').
Proof.
  intros Hinv. unfold consume_boundary.
  assert (HD : dashed (bnd r)) by apply Hinv.
  pose proof (dashed_nonnil _ HD) as HD0.
  destruct (bstate_eqb (st r) AtEnd) eqn:Eat.
  { assert (st r = AtEnd) as -> by (destruct (st r); auto; discriminate).
    intros H; injection H as <- <-. repeat split; auto; try apply Hinv; try apply later_refl; congruence. }
  assert (Hst : st r <> AtEnd) by (intros HH; rewrite HH in Eat; discriminate). clear Eat.
  replace (match st r with AtEnd => (Ok false, r) | _ =>
      match skip_to_boundary (length (buf r) + length (stream (src r)) + 2) r with
      | (Ok _, r1) => verify_boundary r1
      | (Err e, r1) => (Err e, r1)
      | (Panic, r1) => (Panic, r1)
      | (OutOfFuel, r1) => (OutOfFuel, r1)
      end end)
    with (match skip_to_boundary (length (buf r) + length (stream (src r)) + 2) r with
      | (Ok _, r1) => verify_boundary r1
      | (Err e, r1) => (Err e, r1)
      | (Panic, r1) => (Panic, r1)
      | (OutOfFuel, r1) => (OutOfFuel, r1)
      end) by (destruct (st r); auto; congruence).
  destruct (skip_to_boundary (length (buf r) + length (stream (src r)) + 2) r) as [y r1] eqn:E.
  apply skip_to_boundary_spec in E; auto.
  2: { unfold rem. rewrite app_length. lia. }
  destruct E as (I1 & B1 & M1 & L1 & (c & K1) & X1).
  destruct y as [u|e| |]; try tauto.
  - destruct X1 as [X1 X2]. intros H. apply verify_boundary_spec in H; auto.
    destruct H as (I2 & B2 & M2 & L2 & pre & post & FS & Hpre & X).
    split; auto. split; [congruence|]. split; [congruence|]. split; [eapply later_trans; eauto|].
    split; [congruence|]. intros _. rewrite B1 in *.
    pose proof (skipped_split _ _ _ _ _ _ K1 FS) as FS'.
    destruct x as [[|]|[k| | |a b]| |]; try tauto; simpl.
    + destruct X as (q & -> & ? & ? & ?). exists (c ++ pre), q. auto.
    + destruct X as (q & -> & ? & ? & ?). exists (c ++ pre), q. auto.
    + destruct X as (? & ? & ? & ?). destruct L1 as [used L1]. split; [rewrite L1; apply in_or_app; auto|].
      split; [congruence|]. exists c. congruence.
    + destruct X as (X3 & X4 & X5 & X6 & X7). exists (c ++ pre), post. split; auto. split; auto.
      split; [exists c; congruence|]. intros Hl Hm.
      assert (Hi : idx r1 + length (bnd r) + 4 <= minb r1).
      { rewrite M1. destruct Hm as [[Hm1 Hm2]|Hm]; destruct X2 as [X2|X2]; subst; try rewrite X2; try lia.
        rewrite Hm1 in X1. discriminate. }
      destruct X7 as [X7|[X7|X7]].
      * lia.
      * assert (length (rem r1) = length pre + length (bnd r) + length post).
        { destruct FS as [-> _]. rewrite !app_length. lia. }
        rewrite <- X3 in H. unfold rem in H. rewrite X7 in H. simpl in H. rewrite app_nil_r in H. lia.
      * exfalso. apply (live_later _ _ L1) in Hl. auto.
    + destruct X as (q & -> & X2' & X3 & X4 & X5 & _).
      split; [exists (c ++ pre), q; auto|]. split; auto. split; auto. split; auto.
      exists c. congruence.
  - intros H; injection H as <- <-. split; auto. split; auto. split; auto. split; auto.
    split; [congruence|]. intros _.
    destruct e as [k| | |]; try tauto; simpl.
    + destruct X1. split; auto. split; eauto. congruence.
    + destruct X1 as (X1 & X2 & X3 & X4 & X5). split; auto. split; eauto. intros Hl Hm.
      destruct X5 as [X5|[X5|X5]]; [lia| |exfalso; auto].
      split.
      * apply (skipped_absent _ _ _ _ HD0 K1). unfold rem. rewrite X5. simpl. rewrite app_nil_r.
        intros i Hi. apply occurs_at_sw' in Hi; auto. congruence.
      * unfold rem. rewrite X5. simpl. rewrite app_nil_r. lia.
Qed.

(** * Stability: searching again without new bytes changes nothing *)

(** The cursor found by the search part of [search_step] when there is no delimiter. *)
Definition cursor (b D : bytes) (i i1 : nat) : Prop :=
  i <= i1 <= length b /\ length b < i1 + length D /\
  (i1 < length b -> starts_with D (skipn i1 b) = true) /\
  (forall j, i <= j < i1 -> length b - length D <= j -> starts_with D (skipn j b) = false).

Lemma cursor_unique b D i i1 i' i1' :
  cursor b D i i1 -> cursor b D i' i1' -> i <= i1' -> i' <= i1 ->
  i1 = i1'.
Proof.
  intros (H1 & H2 & H3 & H4) (K1 & K2 & K3 & K4) L1 L2.
  destruct (lt_eq_lt_dec i1 i1') as [[L|L]|L]; auto; exfalso.
  - assert (starts_with D (skipn i1 b) = true) by (apply H3; lia).
    rewrite K4 in H by lia. discriminate.
  - assert (starts_with D (skipn i1' b) = true) by (apply K3; lia).
    rewrite H4 in H by lia. discriminate.
Qed.

Lemma search_none b D i :
  dashed D -> i <= length b -> (forall j, starts_with (skipn j b) D = false) ->
  exists i1,
    (if i <? length b
     then match find_boundary (skipn i b) D with
          | inl found => (i + found, BoundaryRead)
          | inr yield => (i + yield, Searching)
          end
     else (i, Searching)) = (i1, Searching) /\ cursor b D i i1.
Proof.
  intros HD Hi Hno. pose proof (dashed_nonnil _ HD) as HD0. pose proof (dashed_length _ HD).
  destruct (i <? length b) eqn:E.
  - destruct (find_boundary (skipn i b) D) as [p|y] eqn:F.
    + apply find_boundary_inl in F as (_ & F & _). rewrite skipn_skipn' in F. congruence.
    + apply find_boundary_inr in F as (F1 & F2 & _ & F4 & F5 & _); auto.
      rewrite skipn_length in *. eexists; split; [reflexivity|].
      split; [lia|]. split; [lia|]. split.
      * intros L. rewrite <- skipn_skipn'. apply F4. lia.
      * intros j Hj Hj2. specialize (F5 (j - i)). rewrite skipn_skipn' in F5.
        replace (i + (j - i)) with j in F5 by lia. apply F5. lia.
  - eexists; split; [reflexivity|]. split; [lia|]. split; [lia|]. split; intros; lia.
Qed.

Lemma fragment_not_crlf D b i j :
  dashed D -> starts_with (skipn i b) CRLF = true -> i <= j < i + 2 ->
  starts_with D (skipn j b) = false.
Proof.
  intros [d ->] H Hj. apply sw_iff in H as [t Ht].
  assert (E : skipn j b = skipn (j - i) (CRLF ++ t)).
  { rewrite <- Ht, skipn_skipn'. f_equal. lia. }
  rewrite E. assert (j - i = 0 \/ j - i = 1) as [-> | ->] by lia; reflexivity.
Qed.

Lemma search_step_idem b D i i' :
  dashed D -> i <= length b -> (forall j, starts_with (skipn j b) D = false) ->
  search_step b D i = Some (i', Searching) -> search_step b D i' = Some (i', Searching).
Proof.
  intros HD Hi Hno H.
  destruct (search_none b D i HD Hi Hno) as (i1 & E1 & C1).
  unfold search_step in H. rewrite E1 in H.
  destruct (length b <? i1) eqn:E2; [discriminate|].
  destruct ((2 <=? i1) && negb (starts_with (skipn i1 b) CRLF) && beq (slice (i1 - 2) i1 b) CRLF) eqn:E3.
  - injection H as <-.
    assert (Hi' : i1 - 2 <= length b) by lia.
    destruct (search_none b D (i1 - 2) HD Hi' Hno) as (i2 & F1 & C2).
    assert (i1 = i2) as <-.
    { pose proof E3 as E4. apply andb_true_iff in E4 as [E4 E5]. apply andb_true_iff in E4 as [E4 _].
      apply slice_crlf in E5; [|lia].
      assert (Hi2 : i1 <= i2).
      { destruct (le_lt_dec i1 i2); auto. exfalso.
        destruct C2 as (C2 & _ & C3 & _).
        assert (starts_with D (skipn i2 b) = true) by (apply C3; lia).
        rewrite (fragment_not_crlf D b (i1 - 2)) in H; auto; [discriminate|lia]. }
      apply (cursor_unique b D i i1 (i1 - 2) i2); auto; destruct C1; lia. }
    unfold search_step. rewrite F1, E2, E3. reflexivity.
  - injection H as <-.
    assert (Hi' : i1 <= length b) by lia.
    destruct (search_none b D i1 HD Hi' Hno) as (i2 & F1 & C2).
    assert (i1 = i2) as <-.
    { apply (cursor_unique b D i i1 i1 i2); auto; destruct C1, C2; lia. }
    unfold search_step. rewrite F1, E2, E3. reflexivity.
Qed.

Lemma read_to_boundary_idem r b r1 b' r2 :
  inv r -> read_to_boundary r = (Ok b, r1) ->
  read_to_boundary r1 = (Ok b', r2) -> src r2 = src r1 -> b' = b /\ r2 = r1.
Proof.
  intros Hinv H1 H2 Hsrc.
  pose proof (read_to_boundary_spec _ _ _ Hinv H1) as (I1 & R1 & B1 & M1 & L1 & _ & K1 & K2 & X1).
  destruct X1 as (-> & _ & X1).
  unfold read_to_boundary in H2.
  destruct (fill_buf (minb r1) (buf r1) (src r1)) as [[e bb] t] eqn:E.
  apply fill_buf_spec in E as (c & used & -> & Esrc & <- & _ & _).
  assert (t = src r1 /\ used = []) as [-> ->].
  { assert (t = src r1).
    { destruct e as [k|]; [discriminate|]. destruct (st r1).
      - destruct (search_step _ _ _) as [[i s]|]; [|discriminate]. injection H2 as _ <-. exact Hsrc.
      - destruct (_ <? _); [discriminate|]. injection H2 as _ <-. exact Hsrc.
      - destruct (_ <? _); [discriminate|]. injection H2 as _ <-. exact Hsrc. }
    split; auto. subst t. apply (f_equal (@length _)) in Esrc. rewrite app_length in Esrc.
    destruct used; auto. simpl in Esrc. lia. }
  destruct e as [k|]; [discriminate|].
  replace (buf r1 ++ stream []) with (buf r1) in H2 by (simpl; now rewrite app_nil_r).
  assert (Eset : set_source r1 (buf r1) (src r1) = r1) by (destruct r1; reflexivity).
  rewrite Eset in H2.
  destruct (st r1) eqn:S1.
  - (* r was Searching too *)
    assert (S0 : st r = Searching).
    { destruct (st r) eqn:S0; auto; destruct K1 as [K1 _]; congruence. }
    assert (Hss : search_step (buf r1) (bnd r1) (idx r1) = Some (idx r1, Searching)).
    { unfold read_to_boundary in H1.
      destruct (fill_buf (minb r) (buf r) (src r)) as [[e' b0] t'] eqn:E'.
      apply fill_buf_spec in E' as (c' & used' & -> & _ & <- & _ & _).
      destruct e'; [discriminate|]. rewrite S0 in H1.
      destruct (search_step (buf r ++ stream used') (bnd r) (idx r)) as [[i s]|] eqn:E'; [|discriminate].
      injection H1 as Hb <-. cbn [buf set_idx_st set_source bnd idx st] in *. subst s.
      eapply search_step_idem with (i := idx r); eauto.
      - apply Hinv.
      - rewrite app_length. destruct Hinv as (_ & ? & _). lia.
      - apply X1. reflexivity. }
    rewrite Hss in H2. injection H2 as <- <-. split; auto.
    destruct r1; simpl in *. subst. reflexivity.
  - destruct (_ <? _); [discriminate|]. injection H2 as <- <-. auto.
  - destruct (_ <? _); [discriminate|]. injection H2 as <- <-. auto.
Qed.
