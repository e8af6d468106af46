(** Which fields are found again, whatever the chunks of the transport, when a handler only asks for the next entry (C97):
    those whose header block stays below the minimum buffer size, counting how far the content looks like the delimiter,
    and whose content leaves room in the buffer for the delimiter after it. *)

From Verif Require Import Bytes BytesProofs Spec Io Boundary BoundaryProofs Utf8 Httparse HttparseProofs Field
  FieldProofs ContentProofs DataProofs ShortProofs EntryProofs ReaderProofs Drive DriveProofs ReachProofs Rand Fs Save SaveProofs PhaseProofs SaveFacts
  Toy PropsReader EntriesProofs PropsForeach PropsMinBuf PropsAny PropsAnyway PropsSharp Mock Client Lazy Harness PropsHarness Buffer PropsBuffer.

(** ** Specification *)

(** How many bytes [c] and [d] have in common at their start. *)
Fixpoint lcp (c d : bytes) : nat :=
  match c, d with
  | x :: c', y :: d' => if N.eqb x y then S (lcp c' d') else 0
  | _, _ => 0
  end.

(** [x] is a complete header block of an entry [h]; it ends with an empty line, which is a CRLF. *)
Definition block (ML : mime_lib) (trim : bool) (x : bytes) (h : field_headers ML) : Prop :=
  (exists u, x = u ++ CRLF) /\
  exists hs, (forall y, parse_headers trim HEADER_LEN (x ++ y) = HDone hs y) /\ copy_headers hs = true /\ parse_field_headers ML hs = Ok h.

(** The same, keeping the block. *)
Definition blocked (ML : mime_lib) (trim : bool) (x : bytes) (xh : bytes * field_headers ML) : Prop :=
  x = fst xh /\ block ML trim x (snd xh).

(** The field with header block [fst (fst p)] and content [snd p] is short enough for a buffer of [M] bytes. *)
Definition short_field {H : Type} (D : bytes) (M : nat) (p : (bytes * H) * bytes) : Prop :=
  length (fst (fst p)) + lcp (snd p) D < M /\ length (snd p) + length D + 4 <= M.

(** ** Common prefixes *)

Lemma lcp_le c D : lcp c D <= length c /\ lcp c D <= length D.
Proof. revert D; induction c as [|a c IH]; intros [|d D]; cbn [lcp length]; try (split; lia). destruct (N.eqb a d); [specialize (IH D)|]; lia. Qed.

Lemma lcp_long : forall z c D w v, starts_with D z = true -> z ++ w = c ++ CR :: v -> ~ In CR D -> length z <= lcp c D.
Proof.
  induction z as [|a z IH]; intros c D w v H E HC; cbn [length]; [lia|].
  destruct D as [|d D]; [discriminate|]. cbn [starts_with] in H. apply andb_prop in H as [H1 H2]. apply N.eqb_eq in H1. subst d.
  destruct c as [|e c]; cbn [app] in E.
  - injection E as -> _. elim HC. now left.
  - injection E as <- E. cbn [lcp]. rewrite N.eqb_refl. apply le_n_S. eapply IH; eauto. intros Z. apply HC. now right.
Qed.

Lemma lcp_short : forall c D n, n <= lcp c D -> starts_with D (firstn n c) = true.
Proof.
  induction c as [|a c IH]; intros D n H; [rewrite firstn_nil; now destruct D|].
  destruct n as [|n]; [now destruct D|]. destruct D as [|d D]; cbn [lcp] in H; [lia|].
  destruct (N.eqb a d) eqn:E; [|lia]. cbn [firstn starts_with]. apply N.eqb_eq in E. subst d. rewrite N.eqb_refl. cbn [andb]. apply IH. lia.
Qed.

(** ** One search *)

Lemma search_ahead b D u z i : dashed D -> ~ In CR D -> (forall j, starts_with (skipn j b) D = false) ->
  b = (u ++ CRLF) ++ z -> starts_with D z = false -> search_step b D 0 = Some (i, Searching) -> length (u ++ CRLF) <= i.
Proof.
  intros HD HC Hno Eb Hz. unfold search_step.
  assert (Lz : 0 < length z) by (destruct z; [destruct D; discriminate|cbn; lia]).
  assert (Lb : length b = length u + 2 + length z) by (rewrite Eb, !app_length; cbn [length CRLF]; reflexivity).
  replace (0 <? length b) with true by (symmetry; apply Nat.ltb_lt; blia). cbn [skipn].
  destruct (find_boundary b D) as [p|y] eqn:F.
  - apply find_boundary_inl in F as (_ & F & _). now rewrite Hno in F.
  - apply find_boundary_inr in F as (F1 & _ & _ & F2 & _); [|now apply dashed_nonnil]. cbn [Nat.add].
    assert (Ly : length u + 2 < y).
    { destruct (le_lt_dec y (length u + 2)) as [L|L]; auto. exfalso. specialize (F2 ltac:(blia)).
      destruct (Nat.eq_dec y (length u + 2)) as [->|N2].
      { rewrite Eb, skipn_app in F2. rewrite skipn_all2 in F2 by (rewrite app_length; cbn; blia).
        replace (length u + 2 - length (u ++ CRLF)) with 0 in F2 by (rewrite app_length; cbn; blia). cbn [app skipn] in F2. congruence. }
      destruct (Nat.eq_dec y (length u + 1)) as [->|N1].
      { rewrite Eb, <- app_assoc, skipn_app in F2. rewrite skipn_all2 in F2 by blia.
        replace (length u + 1 - length u) with 1 in F2 by blia. cbn [app skipn CRLF] in F2. destruct HD as (d & ->). discriminate. }
      apply HC. assert (Lu : y <= length u) by blia.
      rewrite Eb, <- app_assoc, skipn_app in F2. replace (y - length u) with 0 in F2 by blia. cbn [skipn] in F2.
      apply sw_iff in F2 as (t & ->). apply in_or_app. left. apply in_or_app. right. now left. }
    destruct (length b <? y); [discriminate|].
    destruct ((2 <=? y) && negb (starts_with (skipn y b) CRLF) && beq (slice (y - 2) y b) CRLF) eqn:B; intros H; injection H as <-; rewrite app_length; cbn [length CRLF].
    2: blia.
    apply andb_prop in B as [_ B]. apply slice_crlf in B; [|blia].
    destruct (Nat.eq_dec y (length u + 3)) as [->|N3]; [|blia]. exfalso.
    replace (length u + 3 - 2) with (length u + 1) in B by blia.
    rewrite Eb, <- app_assoc, skipn_app in B. rewrite skipn_all2 in B by blia.
    replace (length u + 1 - length u) with 1 in B by blia. cbn [app skipn CRLF starts_with] in B. discriminate.
Qed.

Lemma search_behind b D u c M i i' : dashed D -> ~ In CR D -> (forall j, starts_with (skipn j b) D = false) ->
  b = firstn M ((u ++ CRLF) ++ c) -> M <= length (u ++ CRLF) + lcp c D -> i < length (u ++ CRLF) -> i <= length b ->
  search_step b D i = Some (i', Searching) -> i' < length (u ++ CRLF).
Proof.
  intros HD HC Hno Eb HM Hi Hib. pose proof (lcp_le c D) as (Lc & LD). set (x := u ++ CRLF) in *.
  assert (Lb : length b = M) by (rewrite Eb; apply firstn_length_le; rewrite app_length; blia).
  intros H. assert (Lx : length x = length u + 2) by (unfold x; rewrite app_length; reflexivity).
  destruct (le_lt_dec (length x) M) as [LM|LM].
  2: { pose proof (search_step_spec b D i [] HD) as Q. destruct Q as (j & s & E & Lj & _); auto.
       - intros j _. rewrite app_nil_r. apply Hno.
       - rewrite H in E. injection E as -> _. blia. }
  unfold search_step in H.
  assert (Y : exists y, (if i <? length b then match find_boundary (skipn i b) D with inl found => (i + found, BoundaryRead) | inr yield => (i + yield, Searching) end
               else (i, Searching)) = (y, Searching) /\ y <= length x).
  { destruct (Nat.ltb_spec i (length b)) as [Li|Li]; [|exists i; split; auto; blia].
    destruct (find_boundary (skipn i b) D) as [p|y] eqn:F.
    - apply find_boundary_inl in F as (_ & F & _). rewrite skipn_skipn' in F. now rewrite Hno in F.
    - exists (i + y). split; auto. apply find_boundary_inr in F as (F1 & _ & _ & _ & F2 & _); [|now apply dashed_nonnil].
      rewrite skipn_length in F1, F2. destruct (le_lt_dec (i + y) (length x)) as [L|L]; auto. exfalso.
      specialize (F2 (length x - i) ltac:(blia)). rewrite skipn_skipn' in F2. replace (i + (length x - i)) with (length x) in F2 by blia.
      rewrite Eb, skipn_firstn_comm, skipn_app, skipn_all, Nat.sub_diag in F2. cbn [app skipn] in F2.
      rewrite lcp_short in F2; [discriminate|blia]. }
  destruct Y as (y & Ey & Ly). rewrite Ey in H. destruct (length b <? y); [discriminate|].
  match type of H with (if ?e then _ else _) = _ => destruct e eqn:B end; injection H as <-.
  - apply andb_prop in B as [B _]. apply andb_prop in B as [B _]. apply Nat.leb_le in B. blia.
  - destruct (Nat.eq_dec y (length x)) as [->|N0]; [|blia]. exfalso.
    assert (B1 : (2 <=? length x) = true) by (apply Nat.leb_le; blia).
    assert (Z : skipn (length x) b = firstn (M - length x) c).
    { rewrite Eb, skipn_firstn_comm, skipn_app, skipn_all, Nat.sub_diag. reflexivity. }
    assert (B2 : starts_with (skipn (length x) b) CRLF = false).
    { destruct (starts_with (skipn (length x) b) CRLF) eqn:Q; auto. exfalso. apply HC. apply sw_iff in Q as (t & Q). rewrite Z in Q.
      pose proof (lcp_short c D (M - length x) ltac:(blia)) as W. rewrite Q in W. apply sw_iff in W as (t' & ->). now left. }
    assert (B3 : beq (slice (length x - 2) (length x) b) CRLF = true).
    { apply beq_eq. unfold slice. replace (length x - (length x - 2)) with 2 by blia.
      rewrite Eb, skipn_firstn_comm, firstn_firstn, Nat.min_l by blia. replace (length x - 2) with (length u) by blia.
      unfold x. rewrite <- !app_assoc, skipn_app, skipn_all, Nat.sub_diag. reflexivity. }
    rewrite B1, B2, B3 in B. discriminate.
Qed.

(** ** One header block *)

Section WithMime.
Context (ML : mime_lib) (trim : bool).

(** The reader is at the start of the header block [x], which content [c], a CRLF and [D ++ w] follow. *)
Definition at_block (r : breader) (x c w : bytes) : Prop :=
  inv r /\ st r = Searching /\ rem r = x ++ c ++ CRLF ++ bnd r ++ w /\ ~ In CR (bnd r) /\
  forall i, occurs_at (bnd r) (rem r) i -> length (x ++ c ++ CRLF) <= i.

Lemma same_length (a b c d : bytes) : a ++ b = c ++ d -> length a = length c -> b = d.
Proof.
  revert c; induction a as [|x a IH]; intros [|y c]; cbn [app length]; try discriminate; auto.
  intros H L. injection H as _ H. eapply IH; eauto.
Qed.

Lemma occurs_skipn D R j : D <> [] -> starts_with (skipn j R) D = true -> occurs_at D R j.
Proof.
  intros HD H. apply sw_iff in H as (t & H). exists (firstn j R), t. rewrite <- H, firstn_skipn. split; auto.
  apply firstn_length_le. destruct (le_lt_dec j (length R)); auto. rewrite skipn_all2 in H by lia. destruct D; [congruence|discriminate].
Qed.

Lemma block_read r x u c w r1 y : at_block r x c w -> idx r = 0 -> x = u ++ CRLF -> live (src r) -> quiet (src r) ->
  length x + lcp c (bnd r) < minb r -> read_to_boundary r = (y, r1) ->
  exists d, y = Ok d /\ length x <= length d /\
    ((st r1 = BoundaryRead /\ idx r1 = length x + length c) \/ (st r1 = Searching /\ forall j, starts_with (skipn j (buf r1)) (bnd r) = false)).
Proof.
  intros (Hi & Hs & Er & HC & FS) Hx Eu Hl Hq Hm F.
  pose proof (dashed_nonnil _ (proj1 Hi)) as HD0. pose proof (dashed_length _ (proj1 Hi)) as LD.
  pose proof (read_to_boundary_spec _ _ _ Hi F) as (I1 & R1 & B1 & M1 & L1 & _ & _ & K2 & X).
  destruct y as [d|e| |]; try tauto.
  2: { exfalso. destruct X as (kk & _ & X & _). exact (Hq _ X). }
  exists d. split; auto. destruct (fill_prefix _ _ _ Hi F) as [_ Ld]. rewrite Ld. destruct X as (_ & Fl & Se).
  assert (FSp : first_split (bnd r) (rem r) (x ++ c ++ CRLF) w) by (split; [rewrite Er; now rewrite <- !app_assoc|exact FS]).
  destruct (st r1) eqn:S1; [| |elim (K2 Hs); reflexivity].
  - destruct (Se eq_refl) as [_ Hno]. split; [|right; auto].
    assert (Lm : minb r <= length (buf r1)).
    { destruct Fl as [L|[L|L]]; [exact L| |elim Hl; exact L]. exfalso. unfold rem in R1 at 1. rewrite L in R1. cbn [stream] in R1. rewrite app_nil_r in R1.
      specialize (Hno (length (x ++ c ++ CRLF))). rewrite R1, Er in Hno.
      replace (x ++ c ++ CRLF ++ bnd r ++ w) with ((x ++ c ++ CRLF) ++ bnd r ++ w) in Hno by now rewrite <- !app_assoc.
      rewrite skipn_app, skipn_all, Nat.sub_diag in Hno. cbn [app skipn] in Hno.
      assert (Q : starts_with (bnd r ++ w) (bnd r) = true) by (apply sw_iff; eauto). congruence. }
    assert (Eb : buf r1 = x ++ skipn (length x) (buf r1)).
    { transitivity (firstn (length x) (buf r1) ++ skipn (length x) (buf r1)); [now rewrite firstn_skipn|]. f_equal.
      transitivity (firstn (length x) (rem r1)).
      - unfold rem. rewrite firstn_app. replace (length x - length (buf r1)) with 0 by blia. cbn [firstn]. now rewrite app_nil_r.
      - rewrite R1, Er, firstn_app, firstn_all, Nat.sub_diag. cbn [firstn]. apply app_nil_r. }
    set (z := skipn (length x) (buf r1)) in *.
    assert (Lz : length (buf r1) = length x + length z) by (rewrite Eb at 1; apply app_length).
    assert (Hz : starts_with (bnd r) z = false).
    { destruct (starts_with (bnd r) z) eqn:Q; auto. exfalso.
      assert (E : z ++ stream (src r1) = c ++ CR :: LF :: bnd r ++ w).
      { apply (app_inv_head x). rewrite app_assoc. transitivity (rem r1); [unfold rem; f_equal; symmetry; exact Eb|]. rewrite R1, Er. reflexivity. }
      pose proof (lcp_long _ _ _ _ _ Q E HC). blia. }
    unfold read_to_boundary in F. destruct (fill_buf (minb r) (buf r) (src r)) as [[e b'] t'] eqn:Fe. destruct e; [discriminate|]. rewrite Hs in F.
    destruct (search_step b' (bnd r) (idx r)) as [[i s]|] eqn:SS; [|discriminate]. injection F as _ F1.
    assert (Eb' : buf r1 = b') by (now rewrite <- F1). assert (Es' : s = Searching) by (rewrite <- S1, <- F1; reflexivity).
    assert (Ei : idx r1 = i) by (now rewrite <- F1). rewrite Hx in SS. rewrite Ei, Eu. subst s b'.
    apply (search_ahead (buf r1) (bnd r) u z); auto; [apply Hi|now rewrite <- Eu].
  - destruct I1 as (_ & I1 & I1'). rewrite S1 in I1'. destruct I1' as (p & Fp & Hp). rewrite B1 in Fp, Hp. rewrite R1 in Hp.
    pose proof (BoundaryProofs.found_split _ _ _ _ _ _ HD0 (eq_sym R1) Fp Hp) as (FS1 & Lp).
    destruct (first_split_fun _ _ _ _ _ _ FSp FS1) as [Ep _]. apply (f_equal (@length _)) in Ep. rewrite Lp in Ep.
    rewrite !app_length in Ep. cbn [length CRLF] in Ep.
    assert (Nr : near r) by (intros _ c0 post _; rewrite Hx, Hs; split; [lia|discriminate]).
    pose proof (near_fill _ _ _ Hi Nr F) as N1. rewrite app_assoc in FSp. rewrite <- R1, <- B1 in FSp.
    destruct (N1 ltac:(congruence) _ _ FSp) as [_ N2]. specialize (N2 S1). rewrite app_length in N2.
    destruct Fp as (_ & _ & [Fp|[Fp _]]); [blia|]. split; [blia|left; split; auto; blia].
Qed.

Lemma block_headers r x u c w hs fuel : at_block r x c w -> idx r = 0 -> x = u ++ CRLF -> live (src r) -> quiet (src r) ->
  length x + lcp c (bnd r) < minb r -> (forall y, parse_headers trim HEADER_LEN (x ++ y) = HDone hs y) -> copy_headers hs = true ->
  exists r2, with_headers trim (S fuel) 0 r = (Ok hs, r2) /\ inv r2 /\ bnd r2 = bnd r /\ later (src r2) (src r) /\
    rem r2 = c ++ CRLF ++ bnd r ++ w /\
    ((st r2 = BoundaryRead /\ idx r2 = length c) \/ (st r2 = Searching /\ forall j, starts_with (skipn j (buf r2)) (bnd r) = false)).
Proof.
  intros A Hx Eu Hl Hq Hm Hp Hc. cbn [with_headers]. destruct (read_to_boundary r) as [y r1] eqn:F.
  destruct (block_read _ _ _ _ _ _ _ A Hx Eu Hl Hq Hm F) as (d & -> & Ld & St).
  destruct A as (Hi & Hs & Er & HC & FS).
  pose proof (read_to_boundary_spec _ _ _ Hi F) as (I1 & R1 & B1 & M1 & L1 & _).
  destruct (fill_prefix _ _ _ Hi F) as [Pd Lx1].
  assert (L0 : 0 < length x) by (rewrite Eu, app_length; cbn; lia).
  replace (length d =? 0) with false by (symmetry; apply Nat.eqb_neq; lia).
  assert (Ed : exists v, d = x ++ v).
  { exists (skipn (length x) d). transitivity (firstn (length x) d ++ skipn (length x) d); [now rewrite firstn_skipn|]. f_equal.
    apply (f_equal (firstn (length x))) in Pd. rewrite Er in Pd at 1. rewrite !firstn_app, firstn_all, Nat.sub_diag in Pd.
    replace (length x - length d) with 0 in Pd by blia. cbn [firstn] in Pd. rewrite !app_nil_r in Pd. now symmetry. }
  destruct Ed as (v & ->). rewrite Hp, Hc. replace (length (x ++ v) - length v) with (length x) by (rewrite app_length; blia).
  pose proof (consume_spec (length x) _ I1) as (I2 & R2 & B2 & _ & E2 & S2 & X2 & _).
  eexists. split; [reflexivity|]. split; [exact I2|]. split; [congruence|]. split; [rewrite E2; exact L1|].
  rewrite app_length in Ld, Lx1.
  assert (R : rem (consume (length x) r1) = c ++ CRLF ++ bnd r ++ w).
  { rewrite R1, Er in R2. rewrite Nat.min_l in R2 by blia. destruct I1 as (_ & I1 & _).
    symmetry. apply (same_length _ _ _ _ R2). symmetry. apply firstn_length_le. blia. }
  split; [exact R|]. destruct St as [[S1 X1]|[S1 Hno]]; [left|right]; rewrite S2, ?X2; (split; [exact S1|]).
  - blia.
  - intros j. cbn [buf consume]. rewrite skipn_skipn'. apply Hno.
Qed.

(** A header block that the buffer cannot hold: the same bytes are yielded for ever, and never the whole block. *)
Definition stuck (M : nat) (r : breader) (x c w : bytes) : Prop :=
  at_block r x c w /\ buf r = firstn M (x ++ c) /\ minb r <= M /\ M <= length x + lcp c (bnd r) /\ idx r < length x.

Lemma full_fill min b t : min <= length b -> fill_buf min b t = (None, b, t).
Proof. intros H. destruct t as [|ev t]; cbn [fill_buf]; destruct (Nat.leb_spec min (length b)); auto; lia. Qed.

Lemma stuck_read M r x u c w y r1 : stuck M r x c w -> x = u ++ CRLF -> read_to_boundary r = (y, r1) ->
  stuck M r1 x c w /\ forall d, y = Ok d -> length d < length x.
Proof.
  intros ((Hi & Hs & Er & HC & FS) & Eb & Hm & HM & Hx) Eu F.
  pose proof (dashed_nonnil _ (proj1 Hi)) as HD0. pose proof (lcp_le c (bnd r)) as (Lc & _).
  assert (Lb : length (buf r) = M) by (rewrite Eb; apply firstn_length_le; rewrite app_length; blia).
  assert (Hno : forall j, starts_with (skipn j (buf r)) (bnd r) = false).
  { intros j. destruct (starts_with (skipn j (buf r)) (bnd r)) eqn:Q; auto. exfalso.
    apply (occurs_skipn _ _ _ HD0) in Q as (a & b & Q & La).
    assert (O : occurs_at (bnd r) (rem r) j) by (exists a, (b ++ stream (src r)); unfold rem; rewrite Q, <- !app_assoc; auto).
    apply FS in O. rewrite !app_length in O. apply (f_equal (@length _)) in Q. rewrite !app_length in Q. cbn [length CRLF] in O. blia. }
  pose proof (read_to_boundary_spec _ _ _ Hi F) as (I1 & R1 & B1 & M1 & _ & _ & _ & _ & X).
  unfold read_to_boundary in F. rewrite full_fill, Hs in F by blia.
  destruct (search_step (buf r) (bnd r) (idx r)) as [[i s]|] eqn:SS; [|injection F as <- <-; tauto].
  injection F as <- <-. cbn [set_idx_st set_source buf src minb bnd idx st] in *.
  assert (Es : s = Searching).
  { pose proof (search_step_spec (buf r) (bnd r) (idx r) [] (proj1 Hi)) as Q. destruct Q as (i2 & s2 & E2 & _ & Q).
    - apply Hi.
    - intros j _. rewrite app_nil_r. apply Hno.
    - rewrite SS in E2. injection E2 as <- <-. destruct s; auto; [|tauto]. destruct Q as (p & (_ & Q & _) & _). now rewrite Hno in Q. }
  subst s. assert (Li : i < length x).
  { rewrite Eu. eapply (search_behind (buf r) (bnd r) u c M (idx r)); eauto; try (rewrite <- Eu; auto); apply Hi. }
  split.
  - split; [split; [exact I1|split; [reflexivity|split; [|split; [exact HC|]]]]|].
    + transitivity (rem r); [reflexivity|exact Er].
    + exact FS.
    + cbn [buf minb bnd idx]. auto.
  - intros d E. injection E as <-. rewrite firstn_length. blia.
Qed.

Lemma stuck_headers x u c w hs0 M : x = u ++ CRLF -> (forall y, parse_headers trim HEADER_LEN (x ++ y) = HDone hs0 y) ->
  forall fuel last r hs r', stuck M r x c w -> with_headers trim fuel last r <> (Ok hs, r').
Proof.
  intros Eu Hp. induction fuel as [|fuel IH]; intros last r hs r' Hk; cbn [with_headers]; [discriminate|].
  destruct (read_to_boundary r) as [y r1] eqn:F. destruct (stuck_read _ _ _ _ _ _ _ _ Hk Eu F) as [K1 Ld].
  destruct y as [d|e| |]; try discriminate. specialize (Ld _ eq_refl).
  destruct (length d =? last); [discriminate|]. destruct (parse_headers trim HEADER_LEN d) as [|e|hs1 rest] eqn:P; [now apply IH|discriminate|].
  exfalso. apply parse_headers_done in P as (x0 & Ed & _ & P).
  destruct Hk as ((Hi & _ & Er & _) & _). destruct (fill_prefix _ _ _ Hi F) as [Pd _].
  assert (E : x = d ++ skipn (length d) x).
  { transitivity (firstn (length d) x ++ skipn (length d) x); [now rewrite firstn_skipn|]. f_equal.
    apply (f_equal (firstn (length d))) in Pd. rewrite Er in Pd at 1. rewrite !firstn_app, firstn_all, Nat.sub_diag in Pd.
    replace (length d - length x) with 0 in Pd by blia. cbn [firstn] in Pd. now rewrite !app_nil_r in Pd. }
  assert (Lv : 0 < length (skipn (length d) x)) by (rewrite skipn_length; blia).
  set (v := skipn (length d) x) in *. clearbody v.
  specialize (Hp []). rewrite app_nil_r, E, Ed, <- app_assoc, P in Hp. injection Hp as _ Hp.
  apply app_eq_nil in Hp as [_ Hp]. rewrite Hp in Lv. cbn in Lv. lia.
Qed.

Lemma nsteps_minb r r' : nsteps r r' -> inv r -> minb r' = minb r.
Proof.
  induction 1 as [r|r r1 x r2 S1 IH F|n r r1 S1 IH|r r1 x r2 S1 IH St V]; intros Hi; auto; specialize (IH Hi);
    pose proof (steps_inv _ _ (nsteps_steps _ _ S1) Hi) as I1.
  - pose proof (read_to_boundary_spec _ _ _ I1 F) as (_ & _ & _ & M2 & _). congruence.
  - pose proof (verify_boundary_spec _ _ _ I1 St V) as (_ & _ & M2 & _). congruence.
Qed.

(** ** One entry *)

Definition least (D : bytes) : nat := effective D MIN_BUF_SIZE.

Lemma least_after (D : bytes) : 2 <= length D -> Nat.max (length D * 2) MIN_BUF_SIZE = least D.
Proof. intros _. unfold least, effective. f_equal. lia. Qed.

(** The reader is before a delimiter, at the start of [s]; [Q] are the bytes before it. *)
Definition at_entry (D : bytes) (r : breader) (Q s : bytes) : Prop :=
  inv r /\ st r <> AtEnd /\ live (src r) /\ quiet (src r) /\ bnd r = D /\
  (st r = Searching \/ idx r + length D + 4 <= least D) /\ rem r = Q ++ s /\ forall i, occurs_at D (Q ++ s) i -> length Q <= i.

Lemma entry_boundary D r Q q : at_entry D r Q (D ++ CRLF ++ q) ->
  exists r0, consume_boundary (set_min_buf_size MIN_BUF_SIZE r) = (Ok true, r0) /\ inv r0 /\ bnd r0 = D /\ minb r0 = least D /\
    later (src r0) (src r) /\ rem r0 = q /\ st r0 = Searching /\ idx r0 = 0.
Proof.
  intros (Hi & Hs & Hl & Hq & HB & Hx & Er & FS).
  pose proof (dashed_nonnil _ (proj1 Hi)) as HD0. pose proof (dashed_length _ (proj1 Hi)) as LD. rewrite HB in HD0, LD.
  destruct (consume_boundary (set_min_buf_size MIN_BUF_SIZE r)) as [x r0] eqn:E.
  pose proof (consume_boundary_verdict r x r0 Hi Hs Hl Hq) as V. rewrite HB, (least_after _ LD) in V. specialize (V Hx E).
  assert (J : judges D (rem r) (VField q)) by (exists Q; split; [exact Er|now rewrite Er]).
  assert (Hi0 : inv (set_min_buf_size MIN_BUF_SIZE r)) by exact Hi.
  pose proof (consume_boundary_spec _ _ _ Hi0 E) as (I0 & B0 & M0 & L0 & _).
  destruct x as [[|]|[k| | |a b]| |]; try tauto.
  - destruct V as (V & S0 & X0). pose proof (judges_fun _ _ _ _ HD0 J V) as W. injection W as W.
    exists r0. split; auto. split; auto. split; [rewrite B0; exact HB|]. split.
    { rewrite M0. cbn [minb set_min_buf_size]. rewrite HB. apply least_after. exact LD. }
    split; [exact L0|]. rewrite <- W. auto.
  - destruct V as (V & _). pose proof (judges_fun _ _ _ _ HD0 J V). discriminate.
  - pose proof (judges_fun _ _ _ _ HD0 J V). discriminate.
  - pose proof (judges_fun _ _ _ _ HD0 J V). discriminate.
  - pose proof (judges_fun _ _ _ _ HD0 J V). discriminate.
Qed.

Lemma entry_end D r Q q : at_entry D r Q (D ++ DASHES ++ q) -> exists r0, read_entry ML trim r = (Ok None, r0).
Proof.
  intros (Hi & Hs & Hl & Hq & HB & Hx & Er & FS).
  pose proof (dashed_nonnil _ (proj1 Hi)) as HD0. pose proof (dashed_length _ (proj1 Hi)) as LD. rewrite HB in HD0, LD.
  unfold read_entry. destruct (consume_boundary (set_min_buf_size MIN_BUF_SIZE r)) as [x r0] eqn:E.
  pose proof (consume_boundary_verdict r x r0 Hi Hs Hl Hq) as V. rewrite HB, (least_after _ LD) in V. specialize (V Hx E).
  assert (J : judges D (rem r) (VEnd q)) by (exists Q; split; [exact Er|now rewrite Er]).
  destruct x as [[|]|[k| | |a b]| |]; try tauto; [|eauto|..].
  - destruct V as (V & _). pose proof (judges_fun _ _ _ _ HD0 J V). discriminate.
  - pose proof (judges_fun _ _ _ _ HD0 J V). discriminate.
  - pose proof (judges_fun _ _ _ _ HD0 J V). discriminate.
  - pose proof (judges_fun _ _ _ _ HD0 J V). discriminate.
Qed.

Lemma tail_first D x c s : (forall i, occurs_at D (x ++ c ++ CRLF ++ s) i -> length (x ++ c ++ CRLF) <= i) ->
  forall i, occurs_at D ((c ++ CRLF) ++ s) i -> length (c ++ CRLF) <= i.
Proof.
  intros F i Hi. specialize (F (length x + i)). rewrite app_length in F.
  cut (length x + length (c ++ CRLF) <= length x + i); [lia|]. apply F. destruct Hi as (a & b & Ei & L).
  exists (x ++ a), b. rewrite <- !app_assoc in *. rewrite Ei, app_length. split; auto.
Qed.

Lemma entry_step D r Q x h c w : at_entry D r Q (D ++ CRLF ++ x ++ c ++ CRLF ++ D ++ w) -> ~ In CR D -> block ML trim x h ->
  (forall i, occurs_at D (x ++ c ++ CRLF ++ D ++ w) i -> length (x ++ c ++ CRLF) <= i) -> length x + lcp c D < least D ->
  exists r2, read_entry ML trim r = (Ok (Some h), r2) /\ inv r2 /\ bnd r2 = D /\ minb r2 = least D /\ live (src r2) /\ quiet (src r2) /\
    rem r2 = c ++ CRLF ++ D ++ w /\
    ((st r2 = BoundaryRead /\ idx r2 = length c) \/ (st r2 = Searching /\ forall j, starts_with (skipn j (buf r2)) D = false)).
Proof.
  intros A HC ((u & Eu) & hs & Hp & Hc & Hh) FS Hm. destruct (entry_boundary _ _ _ _ A) as (r0 & E & I0 & B0 & M0 & L0 & R0 & S0 & X0).
  destruct A as (Hi & Hs & Hl & Hq & HB & Hx & Er & _).
  unfold read_entry. rewrite E. unfold read_headers. rewrite Nat.add_comm. cbn [Nat.add].
  assert (Ab : at_block r0 x c w).
  { split; auto. split; auto. rewrite B0, R0. split; auto. }
  destruct (block_headers r0 x u c w hs (S (S (length (src r0)))) Ab X0 Eu) as (r2 & W & I2 & B2 & L2 & R2 & St); auto.
  { eapply live_later; eauto. }
  { eapply quiet_later; eauto. }
  { rewrite B0, M0. exact Hm. }
  rewrite W, Hh. exists r2. split; [reflexivity|]. split; auto. split; [congruence|].
  assert (Wm : minb r2 = least D).
  { apply with_headers_nsteps in W. rewrite <- M0. now apply nsteps_minb. }
  split; auto. split; [eapply live_later; eauto; eapply live_later; eauto|]. split; [eapply quiet_later; eauto; eapply quiet_later; eauto|].
  rewrite B0 in R2, St. split; auto.
Qed.

(** With a chunk that ends [least D] bytes after its start, a block that is too long is not found. *)
Lemma entry_stuck D r Q x h c w ts y B o r' : at_entry D r Q (D ++ CRLF ++ x ++ c ++ CRLF ++ D ++ w) -> ~ In CR D -> block ML trim x h ->
  (forall i, occurs_at D (x ++ c ++ CRLF ++ D ++ w) i -> length (x ++ c ++ CRLF) <= i) -> least D <= length x + lcp c D ->
  src r = ts ++ [Chunk B] -> held (least D) y r ts -> B = skipn (least D) (x ++ c ++ CRLF ++ D ++ w) -> least D < length y ->
  read_entry ML trim r <> (Ok o, r').
Proof.
  intros A HC ((u & Eu) & hs & Hp & Hc & Hh) FS Hm Es Hh1 EB Ly. destruct (entry_boundary _ _ _ _ A) as (r0 & E & I0 & B0 & M0 & L0 & R0 & S0 & X0).
  destruct A as (Hi & Hs & Hl & Hq & HB & Hx & Er & _). pose proof (lcp_le c D) as (Lc & _).
  unfold read_entry. rewrite E. unfold read_headers.
  assert (Lw : length (x ++ c ++ CRLF ++ D ++ w) = least D + length B).
  { rewrite EB, skipn_length. rewrite !app_length. blia. }
  pose proof (dashed_length _ (proj1 Hi)) as LD. rewrite HB in LD.
  assert (N0 : nsteps (set_min_buf_size MIN_BUF_SIZE r) r0) by (eapply consume_boundary_nsteps; [exact Hi|exact E]).
  destruct (nsteps_held (least D) y [Chunk B] _ _ N0) with (ts := ts) as (_ & ts0 & E0 & H0).
  - exact Hi.
  - cbn [minb set_min_buf_size]. rewrite HB, least_after by exact LD. auto.
  - exact Es.
  - exact Hh1.
  - cbn [stream]. rewrite app_nil_r, R0. blia.
  - assert (T0 : ts0 = []).
    { destruct H0 as [[-> _]|(ts1 & ->)]; auto. exfalso. apply (f_equal (@length _)) in R0. unfold rem in R0. rewrite E0, !stream_app in R0.
      cbn [stream] in R0. rewrite Lw in R0. rewrite !app_length in R0. cbn [length] in R0. blia. }
    subst ts0. cbn [app] in E0.
    assert (Hk : stuck (least D) r0 x c w).
    { split.
      - split; auto. split; auto. rewrite B0, R0. split; auto.
      - split; [|split; [rewrite M0; auto|split; [rewrite B0; exact Hm|]]].
        + apply (app_inv_tail B). transitivity (rem r0); [unfold rem; rewrite E0; cbn [stream]; now rewrite app_nil_r|]. rewrite R0.
          transitivity (firstn (least D) (x ++ c ++ CRLF ++ D ++ w) ++ B); [rewrite EB; now rewrite firstn_skipn|]. f_equal.
          rewrite (app_assoc x c). rewrite firstn_app. replace (least D - length (x ++ c)) with 0 by (rewrite app_length; blia).
          cbn [firstn]. apply app_nil_r.
        + rewrite X0, Eu, app_length. cbn. lia. }
    destruct (with_headers trim (length (src r0) + 3) 0 r0) as [[hs'|e| |] r2] eqn:W; try discriminate.
    elim (stuck_headers x u c w hs (least D) Eu Hp _ _ _ _ _ Hk W).
Qed.

(** With a chunk that ends one byte after the delimiter, a content that leaves no room for the delimiter is not passed. *)
Lemma entry_short D r c w0 B ts y o r' : inv r -> bnd r = D -> rem r = c ++ CRLF ++ D ++ w0 :: B ->
  ((st r = BoundaryRead /\ idx r = length c) \/ (st r = Searching /\ forall j, starts_with (skipn j (buf r)) D = false)) ->
  src r = ts ++ [Chunk B] -> held (least D) y r ts -> least D <= length c + length D + 3 -> length c + length D + 3 < length y ->
  read_entry ML trim r <> (Ok o, r').
Proof.
  intros Hi HB Er St Es Hh Hm Ly. pose proof (dashed_length _ (proj1 Hi)) as LD. rewrite HB in LD.
  assert (T0 : ts = []).
  { destruct Hh as [[-> _]|(ts1 & ->)]; auto. exfalso. apply (f_equal (@length _)) in Er. unfold rem in Er. rewrite Es, !stream_app in Er.
    cbn [stream] in Er. rewrite !app_length in Er. cbn [length CRLF] in Er. blia. }
  subst ts. cbn [app] in Es.
  assert (Eb : buf r = c ++ CRLF ++ D ++ [w0]).
  { apply (app_inv_tail B). transitivity (rem r); [unfold rem; rewrite Es; cbn [stream]; now rewrite app_nil_r|]. rewrite Er. now rewrite <- !app_assoc. }
  assert (Lb : length (buf r) = length c + length D + 3) by (rewrite Eb, !app_length; cbn [length CRLF]; blia).
  destruct St as [[S1 X1]|[S1 Hno]].
  2: { exfalso. specialize (Hno (length (c ++ CRLF))). rewrite Eb, app_assoc, skipn_app, skipn_all, Nat.sub_diag in Hno. cbn [app skipn] in Hno.
       assert (Z : starts_with (D ++ [w0]) D = true) by (apply sw_iff; eauto). congruence. }
  unfold read_entry, consume_boundary. change (st (set_min_buf_size MIN_BUF_SIZE r)) with (st r). rewrite S1.
  match goal with |- context[skip_to_boundary ?f ?q] => assert (K : skip_to_boundary f q = (Ok tt, q)) end.
  { match goal with |- skip_to_boundary ?f _ = _ => destruct f eqn:Z; [lia|] end. cbn [skip_to_boundary].
    change (st (set_min_buf_size MIN_BUF_SIZE r)) with (st r). now rewrite S1. }
  rewrite K. unfold verify_boundary. rewrite full_fill.
  2: { cbn [minb buf set_min_buf_size]. rewrite HB, least_after by exact LD. blia. }
  cbn [buf bnd idx minb src set_min_buf_size]. rewrite X1.
  replace (length (buf r) <? length c) with false by (symmetry; apply Nat.ltb_ge; blia).
  assert (Z : starts_with (skipn (length c) (buf r)) CRLF = true).
  { rewrite Eb, skipn_app, skipn_all, Nat.sub_diag. cbn [app skipn]. apply sw_iff. eauto. }
  rewrite Z. match goal with |- context[if ?e then (Panic, _) else _] => destruct e end; [discriminate|].
  match goal with |- context[if ?e then (Panic, _) else _] => destruct e end; [discriminate|].
  replace (length (buf r) <? length c + length (bnd r) + 2 + 2) with true by (symmetry; apply Nat.ltb_lt; rewrite HB; blia).
  discriminate.
Qed.

(** ** All entries *)

Lemma next_again D r2 c s : inv r2 -> bnd r2 = D -> live (src r2) -> quiet (src r2) -> rem r2 = c ++ CRLF ++ s ->
  (forall i, occurs_at D ((c ++ CRLF) ++ s) i -> length (c ++ CRLF) <= i) -> length c + length D + 4 <= least D ->
  ((st r2 = BoundaryRead /\ idx r2 = length c) \/ (st r2 = Searching /\ forall j, starts_with (skipn j (buf r2)) D = false)) ->
  at_entry D r2 (c ++ CRLF) s.
Proof.
  intros Hi HB Hl Hq Er FS Hc St. unfold at_entry. split; auto.
  split; [destruct St as [[-> _]|[-> _]]; discriminate|]. split; auto. split; auto. split; auto.
  split; [destruct St as [[_ ->]|[-> _]]; [right; exact Hc|left; reflexivity]|]. split; [rewrite Er; now rewrite <- app_assoc|exact FS].
Qed.

Definition skipped_obs (l : list ((bytes * field_headers ML) * bytes)) : list (obs ML) :=
  map (fun p => BNext ML (Ok (Some (snd (fst p))))) l ++ [BNext ML (Ok None)].

Lemma skip_all D s l : ~ In CR D -> rfc (blocked ML trim) D s l -> Forall (short_field D (least D)) l -> forall Q r, at_entry D r Q s ->
  fst (run ML trim (repeat ONext (S (length l))) r) = skipped_obs l.
Proof.
  intros HC. induction 1 as [q|x [x' h] c s l [Hx Hb] F Hs IH]; intros Hf Q r A.
  - cbn [length repeat run step]. destruct (entry_end _ _ _ _ A) as (r0 & ->). reflexivity.
  - inversion Hf as [|p l' [F1 F2] F3]; subst p l'. cbn [fst snd] in *. subst x'. destruct (rfc_starts _ _ _ _ Hs) as (w & Ew). subst s.
    destruct (entry_step D r Q x h c w A HC Hb F F1) as (r2 & E & I2 & B2 & M2 & L2 & Q2 & R2 & St).
    cbn [length]. change (repeat ONext (S (S (length l)))) with (ONext :: repeat ONext (S (length l))). cbn [run step]. rewrite E.
    specialize (IH F3 (c ++ CRLF) r2). destruct (run ML trim (repeat ONext (S (length l))) r2) as [ob r3] eqn:R. cbn [fst] in IH |- *.
    rewrite IH; [reflexivity|]. apply next_again; auto. eapply tail_first; eauto.
Qed.

Definition nexts (l : list ((bytes * field_headers ML) * bytes)) : list (obs ML) := map (fun p => BNext ML (Ok (Some (snd (fst p))))) l.

Lemma skip_stuck D s l : ~ In CR D -> dashed D -> rfc (blocked ML trim) D s l -> ~ Forall (short_field D (least D)) l ->
  exists A B, s = A ++ B /\ B <> [] /\ least D < length A /\
  forall Q r ts y, at_entry D r Q s -> src r = ts ++ [Chunk B] -> held (least D) y r ts -> length A <= length y ->
    exists l1 l2 r1, l = l1 ++ l2 /\ run ML trim (repeat ONext (length l1)) r = (nexts l1, r1) /\ forall o r', read_entry ML trim r1 <> (Ok o, r').
Proof.
  intros HC HD. pose proof (dashed_length _ HD) as LD. induction 1 as [q|x [x' h] c s l [Hx Hb] F Hs IH]; intros Hf; [elim Hf; constructor|].
  cbn [fst snd] in *. subst x'. destruct (rfc_starts _ _ _ _ Hs) as (w & Ew). subst s.
  destruct (le_lt_dec (least D) (length x + lcp c D)) as [H1|H1].
  { (* the header block *)
    pose proof (lcp_le c D) as (Lc & _).
    assert (Lf : length (firstn (least D) (x ++ c ++ CRLF ++ D ++ w)) = least D).
    { apply firstn_length_le. rewrite !app_length. blia. }
    exists (D ++ CRLF ++ firstn (least D) (x ++ c ++ CRLF ++ D ++ w)), (skipn (least D) (x ++ c ++ CRLF ++ D ++ w)).
    split; [rewrite <- !app_assoc; now rewrite firstn_skipn|]. split.
    { intros Z. apply (f_equal (@length _)) in Z. rewrite skipn_length, !app_length in Z. cbn [length CRLF] in Z. blia. }
    split; [rewrite !app_length, Lf; blia|]. intros Q r ts y A Es Hh Ly. rewrite !app_length, Lf in Ly.
    exists [], ((x, h, c) :: l), r. split; auto. split; auto. intros o r'.
    refine (entry_stuck D r Q x h c w ts y _ _ _ A HC Hb F H1 Es Hh eq_refl _). blia. }
  destruct (le_lt_dec (least D) (length c + length D + 3)) as [H2|H2].
  { (* the content *)
    assert (Ww : exists w0 B, w = w0 :: B /\ B <> []).
    { inversion Hs as [q E El|x1 p1 c1 s1 l1 _ _ _ E El]; apply app_inv_head in E; rewrite <- E; do 2 eexists; (split; [reflexivity|discriminate]). }
    destruct Ww as (w0 & B & Ew & NB). subst w.
    exists (D ++ CRLF ++ x ++ c ++ CRLF ++ D ++ [w0]), B.
    split; [now rewrite <- !app_assoc|]. split; auto.
    split; [rewrite !app_length; cbn [length CRLF]; blia|].
    intros Q r ts y A Es Hh Ly.
    destruct (entry_step D r Q x h c (w0 :: B) A HC Hb F H1) as (r2 & E & I2 & B2 & M2 & L2 & Q2 & R2 & St).
    destruct A as (Hi & Hst & Hl & Hq & HB & Hx & Er & _).
    pose proof (read_entry_nsteps ML trim r _ _ Hi E) as N0.
    destruct (nsteps_held (least D) y [Chunk B] _ _ N0) with (ts := ts) as (_ & ts0 & E0 & H0); auto.
    { cbn [minb set_min_buf_size]. rewrite HB, least_after by exact LD. auto. }
    { cbn [stream]. rewrite app_nil_r, R2, !app_length. cbn [length CRLF]. blia. }
    exists [(x, h, c)], l, r2. split; auto. split; [cbn [length repeat run step]; rewrite E; reflexivity|]. intros o r'.
    apply (entry_short D r2 c w0 B ts0 y); auto. rewrite !app_length in Ly. cbn [length CRLF] in Ly. blia. }
  (* a later field *)
  destruct IH as (A & B & Es & NB & LA & IH).
  { intros Z. apply Hf. constructor; auto. split; cbn [fst snd]; blia. }
  exists (D ++ CRLF ++ x ++ c ++ CRLF ++ A), B. rewrite Es. split; [now rewrite <- !app_assoc|]. split; auto.
  split; [rewrite !app_length; blia|]. rewrite <- Es. intros Q r ts y Ar Et Hh Ly.
  destruct (entry_step D r Q x h c w Ar HC Hb F H1) as (r2 & E & I2 & B2 & M2 & L2 & Q2 & R2 & St).
  destruct Ar as (Hi & Hst & Hl & Hq & HB & Hx & Er & _).
  pose proof (read_entry_nsteps ML trim r _ _ Hi E) as N0.
  destruct (nsteps_held (least D) y [Chunk B] _ _ N0) with (ts := ts) as (_ & ts0 & E0 & H0); auto.
  { cbn [minb set_min_buf_size]. rewrite HB, least_after by exact LD. auto. }
  { cbn [stream]. rewrite app_nil_r, R2. rewrite Es. rewrite !app_length. blia. }
  destruct (IH (c ++ CRLF) r2 ts0 y) as (l1 & l2 & r1 & El & R1 & N1); auto.
  - apply next_again; auto; [eapply tail_first; eauto|blia].
  - rewrite !app_length in Ly. blia.
  - exists ((x, h, c) :: l1), l2, r1. split; [rewrite El; reflexivity|]. split; auto. cbn [length repeat run step]. rewrite E, R1. reflexivity.
Qed.

(** ** Reading the data of every field to its end *)

Lemma drain_end sz : (forall k, 0 < sz k) -> forall fuel k r, inv r -> st r <> AtEnd -> quiet (src r) -> length (rem r) < fuel ->
  exists d r', drain fuel sz k r = (Ok d, r') /\ inv r' /\ bnd r' = bnd r /\ later (src r') (src r) /\
    skipped (bnd r) (rem r) d (rem r') /\ st r' <> AtEnd /\ idx r' = 0.
Proof.
  intros Hsz. induction fuel as [|fuel IH]; intros k r Hi Hs Hq Lf; [lia|]. cbn [drain].
  destruct (read (sz k) r) as [x r1] eqn:E. pose proof (FieldProofs.read_spec _ _ _ _ Hi E) as (I1 & B1 & M1 & L1 & X).
  destruct x as [out|e| |]; try tauto.
  2: { exfalso. destruct X as (kk & _ & X & _). exact (Hq _ X). }
  destruct X as (R1 & _ & X & r0 & b & F & Eo & Er). destruct (X Hs) as [K1 S1]. destruct out as [|o out].
  - exists [], r1. split; [reflexivity|]. split; auto. split; auto. split; auto. split; auto. split; auto.
    destruct (fill_prefix _ _ _ Hi F) as [_ L0]. specialize (Hsz k). destruct b; [|destruct (sz k); [lia|discriminate]].
    cbn [length] in L0. rewrite Er. cbn [idx consume length]. lia.
  - destruct (IH (S k) r1) as (d & r' & D1 & I2 & B2 & L2 & K2 & S2 & X2); auto.
    { eapply quiet_later; eauto. }
    { apply (f_equal (@length _)) in R1. rewrite app_length in R1. cbn [length] in R1. lia. }
    rewrite D1. exists ((o :: out) ++ d), r'. split; [reflexivity|]. split; auto. split; [congruence|]. split; [eapply later_trans; eauto|].
    rewrite B1 in K2. split; auto. eapply skipped_trans; eauto.
Qed.

Lemma drained D sz c s r2 : (forall k, 0 < sz k) -> inv r2 -> bnd r2 = D -> live (src r2) -> quiet (src r2) -> rem r2 = c ++ CRLF ++ s ->
  (exists w, s = D ++ w) -> (forall i, occurs_at D ((c ++ CRLF) ++ s) i -> length (c ++ CRLF) <= i) -> st r2 <> AtEnd ->
  exists d r3 Q, drain (S (length (buf r2) + length (stream (src r2)))) sz 0 r2 = (Ok d, r3) /\ at_entry D r3 Q s.
Proof.
  intros Hsz Hi HB Hl Hq Er (w & Ew) FS Hs.
  destruct (drain_end sz Hsz (S (length (buf r2) + length (stream (src r2)))) 0 r2 Hi Hs Hq) as (d & r3 & E & I3 & B3 & L3 & K3 & S3 & X3).
  { unfold rem. rewrite app_length. lia. }
  assert (FSp : first_split (bnd r2) (rem r2) (c ++ CRLF) w).
  { rewrite HB. split; [rewrite Er, Ew; now rewrite <- app_assoc|]. rewrite Er, app_assoc. exact FS. }
  destruct (skipped_split_inv _ _ _ _ _ _ K3 FSp) as (Q & _ & F1 & F2). rewrite HB in F1, F2. rewrite <- Ew in F1.
  exists d, r3, Q. split; auto. pose proof (dashed_length _ (proj1 Hi)) as LD. rewrite HB in LD.
  split; auto. split; auto. split; [eapply live_later; eauto|]. split; [eapply quiet_later; eauto|]. split; [congruence|].
  split; [right; rewrite X3; unfold least, effective; change MIN_BUF_SIZE with (Nat.pow 2 10); assert (8 <= Nat.pow 2 10) by (apply Nat.leb_le; reflexivity); lia|].
  split; auto. rewrite <- F1. exact F2.
Qed.

Lemma read_them_all D sz s l : (forall k, 0 < sz k) -> ~ In CR D -> rfc (blocked ML trim) D s l ->
  Forall (fun p => length (fst (fst p)) + lcp (snd p) D < least D) l -> forall Q r, at_entry D r Q s ->
  exists l' r', read_all ML trim (S (length l)) sz r = (Ok l', r') /\ map fst l' = map (fun p => snd (fst p)) l.
Proof.
  intros Hsz HC. induction 1 as [q|x [x' h] c s l [Hx Hb] F Hs IH]; intros Hf Q r A.
  - cbn [length read_all]. destruct (entry_end _ _ _ _ A) as (r0 & ->). do 2 eexists. split; reflexivity.
  - inversion Hf as [|p l' F1 F3]; subst p l'. cbn [fst snd] in *. subst x'. destruct (rfc_starts _ _ _ _ Hs) as (w & Ew). subst s.
    destruct (entry_step D r Q x h c w A HC Hb F F1) as (r2 & E & I2 & B2 & M2 & L2 & Q2 & R2 & St).
    destruct (drained D sz c (D ++ w) r2) as (d & r3 & Q3 & Ed & A3); eauto using tail_first.
    { destruct St as [[-> _]|[-> _]]; discriminate. }
    cbn [length]. cbn [read_all]. rewrite E, Ed. destruct (IH F3 Q3 r3 A3) as (l' & r' & E' & El). cbn [read_all] in E'. rewrite E'.
    exists ((h, d) :: l'), r'. split; auto. cbn [map fst snd]. now rewrite El.
Qed.

Lemma read_them_stuck D sz s l : (forall k, 0 < sz k) -> ~ In CR D -> dashed D -> rfc (blocked ML trim) D s l ->
  ~ Forall (fun p => length (fst (fst p)) + lcp (snd p) D < least D) l ->
  exists A B, s = A ++ B /\ B <> [] /\ least D < length A /\
  forall Q r ts y fuel l' r', at_entry D r Q s -> src r = ts ++ [Chunk B] -> held (least D) y r ts -> length A <= length y ->
    read_all ML trim fuel sz r <> (Ok l', r').
Proof.
  intros Hsz HC HD. pose proof (dashed_length _ HD) as LD. induction 1 as [q|x [x' h] c s l [Hx Hb] F Hs IH]; intros Hf; [elim Hf; constructor|].
  cbn [fst snd] in *. subst x'. destruct (rfc_starts _ _ _ _ Hs) as (w & Ew). subst s.
  destruct (le_lt_dec (least D) (length x + lcp c D)) as [H1|H1].
  { pose proof (lcp_le c D) as (Lc & _).
    assert (Lf : length (firstn (least D) (x ++ c ++ CRLF ++ D ++ w)) = least D).
    { apply firstn_length_le. rewrite !app_length. blia. }
    exists (D ++ CRLF ++ firstn (least D) (x ++ c ++ CRLF ++ D ++ w)), (skipn (least D) (x ++ c ++ CRLF ++ D ++ w)).
    split; [rewrite <- !app_assoc; now rewrite firstn_skipn|]. split.
    { intros Z. apply (f_equal (@length _)) in Z. rewrite skipn_length, !app_length in Z. cbn [length CRLF] in Z. blia. }
    split; [rewrite !app_length, Lf; blia|]. intros Q r ts y fuel l' r' A Es Hh Ly. rewrite !app_length, Lf in Ly.
    destruct fuel as [|fuel]; cbn [read_all]; [discriminate|]. destruct (read_entry ML trim r) as [v r2] eqn:E.
    assert (Nv : forall o, v <> Ok o).
    { intros o ->. refine (entry_stuck D r Q x h c w ts y _ _ _ A HC Hb F H1 Es Hh eq_refl _ E). blia. }
    destruct v as [o|e| |]; try discriminate. now elim (Nv o). }
  destruct IH as (A & B & Es & NB & LA & IH).
  { intros Z. apply Hf. constructor; auto. }
  exists (D ++ CRLF ++ x ++ c ++ CRLF ++ A), B. rewrite Es. split; [now rewrite <- !app_assoc|]. split; auto.
  split; [rewrite !app_length; blia|]. rewrite <- Es. intros Q r ts y fuel l' r' Ar Et Hh Ly.
  destruct (entry_step D r Q x h c w Ar HC Hb F H1) as (r2 & E & I2 & B2 & M2 & L2 & Q2 & R2 & St).
  destruct Ar as (Hi & Hst & Hl & Hq & HB & Hx & Er & _).
  pose proof (read_entry_nsteps ML trim r _ _ Hi E) as N0.
  destruct (drained D sz c (D ++ w) r2) as (d & r3 & Q3 & Ed & A3); eauto using tail_first.
  { destruct St as [[-> _]|[-> _]]; discriminate. }
  pose proof (drain_nsteps _ _ _ _ _ _ Ed) as N1. pose proof (nsteps_trans _ _ _ N0 N1) as N2.
  destruct (nsteps_held (least D) y [Chunk B] _ _ N2) with (ts := ts) as (_ & ts0 & E0 & H0); auto.
  { cbn [minb set_min_buf_size]. rewrite HB, least_after by exact LD. auto. }
  { cbn [stream]. destruct A3 as (_ & _ & _ & _ & _ & _ & R3 & _). apply (f_equal (@length _)) in Es, R3. rewrite !app_length in Es, R3. rewrite app_nil_r. blia. }
  destruct fuel as [|fuel]; cbn [read_all]; [discriminate|]. rewrite E, Ed.
  destruct (read_all ML trim fuel sz r3) as [v r4] eqn:E3. destruct v as [l3|e| |]; try discriminate. intros _. revert E3.
  apply (IH Q3 r3 ts0 y); auto. rewrite !app_length in Ly. blia.
Qed.

(** ** The tool [read_file] *)

Lemma file_obs l : forall r fuel, fst (run ML trim (repeat ONext (S (length l))) r) = skipped_obs l -> length l < fuel ->
  read_file_loop ML trim fuel r = (map (fun p => fh_name ML (snd (fst p))) l, Ok tt).
Proof.
  induction l as [|p l IH]; intros r fuel H Lf; (destruct fuel as [|fuel]; [cbn in Lf; lia|]); cbn [read_file_loop].
  - cbn [length repeat run step] in H. destruct (read_entry ML trim r) as [v r1]. cbn [fst skipped_obs map app] in H. injection H as ->. reflexivity.
  - cbn [length] in H. change (repeat ONext (S (S (length l)))) with (ONext :: repeat ONext (S (length l))) in H. cbn [run step] in H.
    destruct (read_entry ML trim r) as [v r1]. specialize (IH r1 fuel). destruct (run ML trim (repeat ONext (S (length l))) r1) as [ob r2].
    cbn [fst] in H, IH. unfold skipped_obs in H, IH. cbn [map app] in H. injection H as -> H. rewrite IH; auto. cbn [length] in Lf. lia.
Qed.

Lemma file_stuck l1 : forall r r1 fuel names, run ML trim (repeat ONext (length l1)) r = (nexts l1, r1) -> (forall o r', read_entry ML trim r1 <> (Ok o, r')) ->
  read_file_loop ML trim fuel r <> (names, Ok tt).
Proof.
  induction l1 as [|p l1 IH]; intros r r1 fuel names H N; (destruct fuel as [|fuel]; cbn [read_file_loop]; [discriminate|]).
  - cbn [length repeat run] in H. injection H as ->. destruct (read_entry ML trim r1) as [v r2] eqn:E.
    destruct v as [[h|]|e| |]; try discriminate; now elim (N _ _ eq_refl).
  - cbn [length repeat run step] in H. destruct (read_entry ML trim r) as [v r2]. destruct (run ML trim (repeat ONext (length l1)) r2) as [ob r3] eqn:R.
    unfold nexts in H. cbn [map] in H. injection H as -> -> ->.
    destruct (read_file_loop ML trim fuel r2) as [ns e] eqn:E. intros Z. injection Z as _ Z. subst e. exact (IH r2 r1 fuel ns R N E).
Qed.

End WithMime.

Lemma short_dec ML D M (l : list ((bytes * field_headers ML) * bytes)) : {Forall (short_field D M) l} + {~ Forall (short_field D M) l}.
Proof.
  apply Forall_dec. intros p. unfold short_field. destruct (lt_dec (length (fst (fst p)) + lcp (snd p) D) M) as [H1|H1];
    destruct (le_dec (length (snd p) + length D + 4) M) as [H2|H2]; [left; split; assumption|right; intros [Z1 Z2]; auto..].
Qed.

Lemma run_join ML trim os1 os2 r b1 r1 : run ML trim os1 r = (b1, r1) -> fst (run ML trim (os1 ++ os2) r) = b1 ++ fst (run ML trim os2 r1).
Proof.
  intros H. destruct (run ML trim (os1 ++ os2) r) as [ob r'] eqn:E. apply run_app in E as (bs1 & r2 & bs2 & H1 & H2 & ->).
  rewrite H in H1. injection H1 as <- <-. now rewrite H2.
Qed.

Lemma at_start b t P s : live t -> quiet t -> stream t = P ++ s -> (forall i, occurs_at (delimiter b) (P ++ s) i -> length P <= i) ->
  at_entry (delimiter b) (with_body t b) P s.
Proof.
  intros Hl Hq Et FS. unfold at_entry. split; [apply inv_from_reader|]. split; [discriminate|]. split; [exact Hl|]. split; [exact Hq|].
  split; [reflexivity|]. split; [left; reflexivity|]. split; [exact Et|exact FS].
Qed.

(** Asking only for the next entry, again and again, one is told all entries of the body and then its end - for EVERY
    division of the body into chunks - exactly if every field is short: the header block and the bytes of the content that
    look like the start of the delimiter together stay below the minimum buffer size, and that size has room for the content,
    the CRLF, the delimiter and two more bytes. *)
Theorem C97_exactly : forall ML trim b P s l,
  ~ In CR b -> rfc (blocked ML trim) (delimiter b) s l -> (forall i, occurs_at (delimiter b) (P ++ s) i -> length P <= i) ->
  ((forall t, live t -> quiet t -> stream t = P ++ s ->
     fst (run ML trim (repeat ONext (S (length l))) (with_body t b)) =
     map (fun p => BNext ML (Ok (Some (snd (fst p))))) l ++ [BNext ML (Ok None)]) <->
   Forall (short_field (delimiter b) (effective (delimiter b) 1024)) l).
Proof.
  intros ML trim b P s l HC Hr HP.
  assert (HC' : ~ In CR (delimiter b)) by (intros [Z|[Z|Z]]; try discriminate; auto).
  assert (HD : dashed (delimiter b)) by (exists b; reflexivity).
  split.
  - intros H. destruct (short_dec ML (delimiter b) (least (delimiter b)) l) as [Y|N]; auto.
    exfalso. destruct (skip_stuck ML trim _ _ _ HC' HD Hr N) as (A & B & Es & NB & LA & K).
    assert (NA : P ++ A <> []) by (intros Z; apply app_eq_nil in Z as [_ ->]; cbn in LA; lia).
    assert (Hl : live [Chunk (P ++ A); Chunk B]) by (intros [Z|[Z|[]]]; injection Z as Z; auto).
    assert (Hq : quiet [Chunk (P ++ A); Chunk B]) by (intros k [Z|[Z|[]]]; discriminate).
    assert (Et : stream [Chunk (P ++ A); Chunk B] = P ++ s) by (cbn [stream]; rewrite app_nil_r, Es; now rewrite <- app_assoc).
    destruct (K P (with_body [Chunk (P ++ A); Chunk B] b) [Chunk (P ++ A)] (P ++ A)) as (l1 & l2 & r1 & El & R1 & N1).
    + apply at_start; auto.
    + reflexivity.
    + right. exists []. reflexivity.
    + rewrite app_length. lia.
    + specialize (H _ Hl Hq Et). subst l. rewrite app_length in H. replace (S (length l1 + length l2)) with (length l1 + S (length l2)) in H by lia.
      rewrite repeat_app in H. rewrite (run_join _ _ _ _ _ _ _ R1) in H. rewrite map_app, <- app_assoc in H. apply app_inv_head in H.
      cbn [repeat run step] in H. destruct (read_entry ML trim r1) as [v r2] eqn:E. destruct (run ML trim (repeat ONext (length l2)) r2) as [ob r3].
      cbn [fst] in H. destruct l2 as [|p l2]; cbn [map app] in H; injection H as -> _; exact (N1 _ _ eq_refl).
  - intros Hf t Hl Hq Et. apply (skip_all ML trim _ _ _ HC' Hr Hf P). apply at_start; auto.
Qed.

(** The same for the tool read_file: it prints the names of all fields and ends well, however its reads of the file are divided,
    exactly if every field is short. *)
Lemma random_whole m : forall t k fuel, Forall (fun e => match e with Chunk c => length c <= S m | Fail _ => True end) t -> length t <= fuel ->
  random_chunks fuel (fun _ => m) k (repeat (N.of_nat m) (length t)) t = t.
Proof.
  induction t as [|e t IH]; intros k fuel H Lf; destruct fuel as [|fuel]; auto; [cbn in Lf; lia|].
  inversion H as [|e' t' He Ht]; subst e' t'. cbn [random_chunks length repeat]. unfold random_read. cbn [Nat.eqb].
  unfold gen_range1. cbn [draw hd tl]. rewrite N.mod_small by lia. rewrite Nnat.Nat2N.id. unfold source_read. cbn [length] in Lf.
  destruct e as [c|k']; [|now rewrite IH by (auto; lia)]. replace (length c <=? S m) with true by (symmetry; apply Nat.leb_le; exact He).
  now rewrite IH by (auto; lia).
Qed.

Theorem C97_file : forall ML trim b P s l,
  ~ In CR b -> rfc (blocked ML trim) (delimiter b) s l -> (forall i, occurs_at (delimiter b) (P ++ s) i -> length P <= i) ->
  ((forall room g file, live file -> quiet file -> stream file = P ++ s ->
     read_file ML trim (S (length l)) room g b file = (map (fun p => fh_name ML (snd (fst p))) l, Ok tt)) <->
   Forall (short_field (delimiter b) (effective (delimiter b) 1024)) l).
Proof.
  intros ML trim b P s l HC Hr HP.
  assert (HC' : ~ In CR (delimiter b)) by (intros [Z|[Z|Z]]; try discriminate; auto).
  assert (HD : dashed (delimiter b)) by (exists b; reflexivity).
  split.
  - intros H. destruct (short_dec ML (delimiter b) (least (delimiter b)) l) as [Y|N]; auto.
    exfalso. destruct (skip_stuck ML trim _ _ _ HC' HD Hr N) as (A & B & Es & NB & LA & K).
    assert (NA : P ++ A <> []) by (intros Z; apply app_eq_nil in Z as [_ ->]; cbn in LA; lia).
    assert (Hl : live [Chunk (P ++ A); Chunk B]) by (intros [Z|[Z|[]]]; injection Z as Z; auto).
    assert (Hq : quiet [Chunk (P ++ A); Chunk B]) by (intros k [Z|[Z|[]]]; discriminate).
    assert (Et : stream [Chunk (P ++ A); Chunk B] = P ++ s) by (cbn [stream]; rewrite app_nil_r, Es; now rewrite <- app_assoc).
    destruct (K P (with_body [Chunk (P ++ A); Chunk B] b) [Chunk (P ++ A)] (P ++ A)) as (l1 & l2 & r1 & El & R1 & N1).
    + apply at_start; auto.
    + reflexivity.
    + right. exists []. reflexivity.
    + rewrite app_length. lia.
    + set (m := length (P ++ A) + length B). set (t := [Chunk (P ++ A); Chunk B]) in *.
      specialize (H (fun _ => m) (repeat (N.of_nat m) (length t)) t Hl Hq Et). unfold read_file, random_reader in H. rewrite random_whole in H.
      * exact (file_stuck ML trim _ _ _ _ _ R1 N1 H).
      * constructor; [|constructor; [|constructor]]; unfold m; lia.
      * unfold transport_size. lia.
  - intros Hf room g file Hl Hq Et. unfold read_file. destruct (random_reader_spec room g file) as (S1 & L1 & Q1).
    apply file_obs; [|lia]. apply (skip_all ML trim _ _ _ HC' Hr Hf P). apply at_start; auto. now rewrite S1.
Qed.

(** A program that reads the data of every field to the end is told the headers of all entries, however the body is divided
    into chunks, exactly if every header block together with the bytes of the content that look like the start of the delimiter
    stays below the minimum buffer size. *)
Theorem C97_read : forall ML trim b P s l sz,
  ~ In CR b -> rfc (blocked ML trim) (delimiter b) s l -> (forall i, occurs_at (delimiter b) (P ++ s) i -> length P <= i) ->
  (forall k, 0 < sz k) ->
  ((forall t, live t -> quiet t -> stream t = P ++ s ->
     exists l' r', read_all ML trim (S (length l)) sz (with_body t b) = (Ok l', r') /\ map fst l' = map (fun p => snd (fst p)) l) <->
   Forall (fun p => length (fst (fst p)) + lcp (snd p) (delimiter b) < effective (delimiter b) 1024) l).
Proof.
  intros ML trim b P s l sz HC Hr HP Hsz.
  assert (HC' : ~ In CR (delimiter b)) by (intros [Z|[Z|Z]]; try discriminate; auto).
  assert (HD : dashed (delimiter b)) by (exists b; reflexivity).
  split.
  - intros H. destruct (Forall_dec (fun p : bytes * field_headers ML * bytes => length (fst (fst p)) + lcp (snd p) (delimiter b) < least (delimiter b))) with (l := l) as [Y|N]; auto.
    { intros p. apply lt_dec. }
    exfalso. destruct (read_them_stuck ML trim _ _ _ _ Hsz HC' HD Hr N) as (A & B & Es & NB & LA & K).
    assert (NA : P ++ A <> []) by (intros Z; apply app_eq_nil in Z as [_ ->]; cbn in LA; lia).
    assert (Hl : live [Chunk (P ++ A); Chunk B]) by (intros [Z|[Z|[]]]; injection Z as Z; auto).
    assert (Hq : quiet [Chunk (P ++ A); Chunk B]) by (intros k [Z|[Z|[]]]; discriminate).
    assert (Et : stream [Chunk (P ++ A); Chunk B] = P ++ s) by (cbn [stream]; rewrite app_nil_r, Es; now rewrite <- app_assoc).
    destruct (H _ Hl Hq Et) as (l' & r' & E & _). revert E.
    apply (K P (with_body [Chunk (P ++ A); Chunk B] b) [Chunk (P ++ A)] (P ++ A)).
    + apply at_start; auto.
    + reflexivity.
    + right. exists []. reflexivity.
    + rewrite app_length. lia.
  - intros Hf t Hl Hq Et. apply (read_them_all ML trim _ sz _ _ Hsz HC' Hr Hf P). apply at_start; auto.
Qed.

(** ** The finite buffer *)

(** With the buffer it really has, of [m] bytes, the reader also finds the delimiter after a content that does not fit into
    this buffer: it cannot have found it already when it has read the headers. *)
Lemma skip_all_buffer ML trim m D s l : ~ In CR D -> rfc (blocked ML trim) D s l ->
  Forall (fun p => length (fst (fst p)) + lcp (snd p) D < least D /\ (length (snd p) + length D + 4 <= least D \/ m < length (snd p) + 2 + length D)) l ->
  forall Q f, roomy 0 m f -> at_entry D (fr f) Q s ->
  fst (frun ML trim (repeat ONext (S (length l))) f) = skipped_obs ML l.
Proof.
  intros HC.
  assert (Cut : forall Q s f t, cuts 0 (src (fr f)) t -> at_entry D (fr f) Q s -> at_entry D (over f t) Q s).
  { intros Q s' f t C (Hi & Hs & Hl & Hq & HB & Hx & Er & FS). split; [now apply (inv_over 0)|]. split; auto.
    split; [exact (cuts_live _ _ _ C Hl)|]. split; [exact (cuts_quiet _ _ _ C Hq)|]. split; auto. split; auto. split; auto.
    unfold rem. cbn [over buf src]. rewrite (cuts_stream _ _ _ C). exact Er. }
  induction 1 as [q|x [x' h] c s l [Hx Hb] F Hs IH]; intros Hf Q f R A.
  - cbn [length repeat frun fstep]. destruct (fread_entry ML trim f) as [v f1] eqn:E.
    destruct (sim_read_entry 0 m ML trim f v f1 R (proj1 A) E) as (R1 & p & Hp). destruct (Hp _ (cuts_refl _ _)) as (C & B).
    destruct (entry_end ML trim _ _ _ _ (Cut _ _ _ _ C A)) as (r0 & Z). rewrite Z in B. injection B as <- _. reflexivity.
  - inversion Hf as [|p0 l' [F1 F2] F3]; subst p0 l'. cbn [fst snd] in *. subst x'. destruct (rfc_starts _ _ _ _ Hs) as (w & Ew). subst s.
    cbn [length]. change (repeat ONext (S (S (length l)))) with (ONext :: repeat ONext (S (length l))). cbn [frun fstep].
    destruct (fread_entry ML trim f) as [v f1] eqn:E.
    destruct (sim_read_entry 0 m ML trim f v f1 R (proj1 A) E) as (R1 & p & Hp). destruct (Hp _ (cuts_refl _ _)) as (C & B).
    destruct (entry_step ML trim D _ Q x h c w (Cut _ _ _ _ C A) HC Hb F F1) as (r2 & Z & I2 & B2 & M2 & L2 & Q2 & R2 & St).
    rewrite Z in B. injection B as <- B. rewrite over_src in B. rewrite B in *. clear B.
    specialize (IH F3 (c ++ CRLF) f1 R1). destruct (frun ML trim (repeat ONext (S (length l))) f1) as [ob f2] eqn:Er. cbn [fst] in IH |- *.
    rewrite IH; [reflexivity|]. pose proof (tail_first _ _ _ _ F) as FT.
    destruct F2 as [F2|F2]; [now apply next_again|].
    assert (Ss : st (fr f1) = Searching).
    { destruct St as [[S1 X1]|[S1 _]]; auto. exfalso. destruct I2 as (_ & _ & I2). rewrite S1, B2 in I2. destruct I2 as (i & Fi & Hi).
      destruct R1 as (Rc & _ & Rb).
      assert (Ei : i = length c + 2); [|destruct Fi as (Fi & _); blia].
      assert (HD0 : D <> []) by (rewrite <- B2; apply dashed_nonnil; destruct A as ((HD & _) & _ & _ & _ & HB & _); rewrite B2, <- HB; exact HD).
      destruct (BoundaryProofs.found_split _ _ _ _ _ _ HD0 (eq_refl : rem (fr f1) = buf (fr f1) ++ stream (src (fr f1))) Fi Hi) as (FS1 & Li).
      assert (FS2 : first_split D (rem (fr f1)) (c ++ CRLF) w).
      { rewrite R2. split; [now rewrite <- app_assoc|]. rewrite app_assoc. exact FT. }
      destruct (first_split_fun _ _ _ _ _ _ FS1 FS2) as [Ep _]. apply (f_equal (@length _)) in Ep. rewrite Li, app_length in Ep. exact Ep. }
    split; auto. split; [congruence|]. split; auto. split; auto. split; auto. split; auto.
    split; [rewrite R2; now rewrite <- app_assoc|exact FT].
Qed.

Theorem C97_buffer : forall ML trim m b P s l t,
  2 * MIN_BUF_SIZE <= m -> 4 * length (delimiter b) <= m ->
  ~ In CR b -> rfc (blocked ML trim) (delimiter b) s l -> (forall i, occurs_at (delimiter b) (P ++ s) i -> length P <= i) ->
  Forall (fun p => length (fst (fst p)) + lcp (snd p) (delimiter b) < effective (delimiter b) 1024 /\
            (length (snd p) + length (delimiter b) + 4 <= effective (delimiter b) 1024 \/ m < length (snd p) + 2 + length (delimiter b))) l ->
  live t -> quiet t -> stream t = P ++ s ->
  fst (frun ML trim (repeat ONext (S (length l))) (ffrom_reader m t b)) =
  map (fun p => BNext ML (Ok (Some (snd (fst p))))) l ++ [BNext ML (Ok None)].
Proof.
  intros ML trim m b P s l t H1 H2 HC Hr HP Hf Hl Hq Et.
  assert (HC' : ~ In CR (delimiter b)) by (intros [Z|[Z|Z]]; try discriminate; auto).
  apply (skip_all_buffer ML trim m (delimiter b) s l HC' Hr Hf P); [apply roomy_start; auto; apply Nat.le_0_l|]. exact (at_start b t P s Hl Hq Et HP).
Qed.

(** ** Examples *)

(** Two fields, the first with the given name and content. *)
Definition two_body (name c : bytes) : bytes := toy_part name c ++ toy_part (bs "z") (bs "y") ++ toy_end.
Definition two_list (name c : bytes) : list ((bytes * field_headers toy) * bytes) :=
  [((toy_head name, mkFH toy name None None), c); ((toy_head (bs "z"), mkFH toy (bs "z") None None), bs "y")].

Lemma toy_blocked name : (exists hs, (forall y, parse_headers true HEADER_LEN (toy_head name ++ y) = HDone hs y) /\ copy_headers hs = true /\
  parse_field_headers toy hs = Ok (mkFH toy name None None)) -> blocked toy true (toy_head name) (toy_head name, mkFH toy name None None).
Proof.
  intros H. split; [reflexivity|]. split; [|exact H]. exists (bs "Content-Disposition: form-data; name=""" ++ name ++ bs """" ++ CRLF).
  unfold toy_head. now rewrite <- !app_assoc.
Qed.

Ltac two_rfc := 
  match goal with |- rfc _ _ (two_body ?n ?c) _ =>
    change (two_body n c) with (delimiter (bs "b") ++ CRLF ++ toy_head n ++ c ++ CRLF ++ (toy_part (bs "z") (bs "y") ++ toy_end)) end;
  apply rfc_field; [apply toy_blocked; eexists; (split; [intros y; vm_compute; reflexivity|split; vm_compute; reflexivity])
    |apply find_least; vm_compute; reflexivity
    |change (toy_part (bs "z") (bs "y") ++ toy_end) with
       (delimiter (bs "b") ++ CRLF ++ toy_head (bs "z") ++ bs "y" ++ CRLF ++ (delimiter (bs "b") ++ DASHES ++ CRLF));
     apply rfc_field; [apply toy_blocked; eexists; (split; [intros y; vm_compute; reflexivity|split; vm_compute; reflexivity])
       |apply find_least; vm_compute; reflexivity|apply rfc_end]].

(** With the boundary "b" a content of 1017 bytes can be skipped, one of 1018 cannot: if a chunk ends one byte after the
    delimiter that follows, the next entry is refused. *)
Example C97_exactly_example :
  let c n := repeat 120%N n in
  ~ In CR (bs "b") /\ (forall i, occurs_at (delimiter (bs "b")) (bs "pre" ++ CRLF ++ two_body (bs "a") (c 1018)) i -> length (bs "pre" ++ CRLF) <= i) /\
  rfc (blocked toy true) (delimiter (bs "b")) (two_body (bs "a") (c 1018)) (two_list (bs "a") (c 1018)) /\
  rfc (blocked toy true) (delimiter (bs "b")) (two_body (bs "a") (c 1017)) (two_list (bs "a") (c 1017)) /\
  ~ Forall (short_field (delimiter (bs "b")) (effective (delimiter (bs "b")) 1024)) (two_list (bs "a") (c 1018)) /\
  Forall (short_field (delimiter (bs "b")) (effective (delimiter (bs "b")) 1024)) (two_list (bs "a") (c 1017)) /\
  (let t := [Chunk (toy_part (bs "a") (c 1018) ++ bs "--b" ++ [CR]); Chunk (LF :: toy_head (bs "z") ++ bs "y" ++ CRLF ++ toy_end)] in
   stream t = two_body (bs "a") (c 1018) /\
   fst (run toy true (repeat ONext 3) (with_body t (bs "b"))) =
   [BNext toy (Ok (Some (mkFH toy (bs "a") None None))); BNext toy (Err (EBnd EShortBoundary)); BNext toy (Err (EBnd EShortBoundary))]).
Proof.
  cbv zeta. split; [intros [Z|[]]; discriminate|].
  split; [apply find_least; vm_compute; reflexivity|]. split; [two_rfc|]. split; [two_rfc|].
  split; [intros Z; inversion Z as [|p l [_ Z1] Z2]; apply Nat.leb_le in Z1; vm_compute in Z1; discriminate|].
  split; [constructor; [|constructor; [|constructor]]; (split; [apply Nat.ltb_lt|apply Nat.leb_le]; vm_compute; reflexivity)|].
  split; vm_compute; reflexivity.
Qed.

(** A header block of 1022 bytes is read in any division if the content is "y"; if the content is "--x" it is not, since its
    first two bytes could belong to a delimiter. *)
Example C97_read_example :
  let name := repeat 97%N 979 in
  length (toy_head name) = 1022 /\ lcp (bs "--x") (delimiter (bs "b")) = 2 /\ lcp (bs "y") (delimiter (bs "b")) = 0 /\
  rfc (blocked toy true) (delimiter (bs "b")) (two_body name (bs "--x")) (two_list name (bs "--x")) /\
  rfc (blocked toy true) (delimiter (bs "b")) (two_body name (bs "y")) (two_list name (bs "y")) /\
  (let t := [Chunk (bs "--b" ++ CRLF ++ toy_head name ++ bs "--"); Chunk (bs "x" ++ CRLF ++ toy_part (bs "z") (bs "y") ++ toy_end)] in
   stream t = two_body name (bs "--x") /\
   fst (read_all toy true 3 (fun _ => 10) (with_body t (bs "b"))) = Err (EHdr PTooLarge)) /\
  (let t := [Chunk (bs "--b" ++ CRLF ++ toy_head name ++ bs "y" ++ [CR]); Chunk ([LF] ++ toy_part (bs "z") (bs "y") ++ toy_end)] in
   stream t = two_body name (bs "y") /\
   exists l, fst (read_all toy true 3 (fun _ => 10) (with_body t (bs "b"))) = Ok l /\ map fst l = map (fun p => snd (fst p)) (two_list name (bs "y"))).
Proof.
  cbv zeta. do 3 (split; [vm_compute; reflexivity|]). split; [two_rfc|]. split; [two_rfc|].
  split; [split; vm_compute; reflexivity|]. split; [vm_compute; reflexivity|].
  eexists. split; vm_compute; reflexivity.
Qed.

(** The tool on the file with 1018 bytes, read in the two chunks of [C97_exactly_example]. *)
Example C97_file_example :
  let file := [Chunk (toy_part (bs "a") (repeat 120%N 1018) ++ bs "--b" ++ [CR]); Chunk (LF :: toy_head (bs "z") ++ bs "y" ++ CRLF ++ toy_end)] in
  live file /\ quiet file /\ stream file = two_body (bs "a") (repeat 120%N 1018) /\
  read_file toy true 3 (fun _ => 1999) [1999; 1999]%N (bs "b") file = ([bs "a"], Panic) /\
  read_file toy true 3 (fun _ => 1999) [1049; 1999; 1999]%N (bs "b") file = ([bs "a"; bs "z"], Ok tt).
Proof.
  cbv zeta. split; [intros [Z|[Z|[]]]; discriminate|]. split; [intros k [Z|[Z|[]]]; discriminate|].
  split; [vm_compute; reflexivity|]. split; vm_compute; reflexivity.
Qed.

(** Behind the real buffer of 8 KiB: a content of 8190 bytes is skipped however it arrives, one of 1018 or of 8000 bytes is not
    if a chunk ends one byte after the delimiter. *)
Example C97_buffer_example :
  let c n := repeat 120%N n in let m := Nat.pow 2 13 in
  let t n := [Chunk (toy_part (bs "a") (c n) ++ bs "--b" ++ [CR]); Chunk (LF :: toy_head (bs "z") ++ bs "y" ++ CRLF ++ toy_end)] in
  let o h := BNext toy (Ok (Some (mkFH toy (bs h) None None))) in let e := BNext toy (Err (EBnd EShortBoundary)) in
  2 * MIN_BUF_SIZE <= m /\ 4 * length (delimiter (bs "b")) <= m /\
  rfc (blocked toy true) (delimiter (bs "b")) (two_body (bs "a") (c 8190)) (two_list (bs "a") (c 8190)) /\
  Forall (fun p => length (fst (fst p)) + lcp (snd p) (delimiter (bs "b")) < effective (delimiter (bs "b")) 1024 /\
    (length (snd p) + length (delimiter (bs "b")) + 4 <= effective (delimiter (bs "b")) 1024 \/ m < length (snd p) + 2 + length (delimiter (bs "b"))))
    (two_list (bs "a") (c 8190)) /\
  fst (frun toy true (repeat ONext 3) (ffrom_reader m (t 8190) (bs "b"))) = [o "a"; o "z"; BNext toy (Ok None)]%string /\
  fst (frun toy true (repeat ONext 3) (ffrom_reader m (t 1018) (bs "b"))) = [o "a"%string; e; e] /\
  fst (frun toy true (repeat ONext 3) (ffrom_reader m (t 8000) (bs "b"))) = [o "a"%string; e; e].
Proof.
  cbv zeta. split; [apply Nat.leb_le; vm_compute; reflexivity|]. split; [apply Nat.leb_le; vm_compute; reflexivity|]. split; [two_rfc|].
  split.
  { constructor; [|constructor; [|constructor]]; (split; [apply Nat.ltb_lt; vm_compute; reflexivity|]).
    - right. apply Nat.ltb_lt. vm_compute. reflexivity.
    - left. apply Nat.leb_le. vm_compute. reflexivity. }
  do 2 (split; [vm_compute; reflexivity|]). vm_compute. reflexivity.
Qed.
