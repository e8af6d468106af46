(** Exactness of field content: where the CRLF before a delimiter can leak, and where it cannot. *)

From Verif Require Import Bytes BytesProofs Spec Io Boundary BoundaryProofs Utf8 Httparse Field FieldProofs.

(** * Every operation is a sequence of primitive steps *)

Inductive steps : breader -> breader -> Prop :=
| s_refl r : steps r r
| s_min n r r1 : steps r r1 -> steps r (set_min_buf_size n r1)
| s_fill r r1 x r2 : steps r r1 -> read_to_boundary r1 = (x, r2) -> steps r r2
| s_cons n r r1 : steps r r1 -> steps r (consume n r1)
| s_verify r r1 x r2 : steps r r1 -> st r1 = BoundaryRead -> verify_boundary r1 = (x, r2) -> steps r r2.

Lemma steps_trans a b c : steps a b -> steps b c -> steps a c.
Proof.
  intros H1 H2; revert H1. induction H2; intros K; auto.
  - apply s_min; auto.
  - eapply s_fill; [apply IHsteps; exact K|eassumption].
  - apply s_cons; auto.
  - eapply s_verify; [apply IHsteps; exact K|eassumption|eassumption].
Qed.

Lemma skip_to_boundary_steps fuel r x r' : skip_to_boundary fuel r = (x, r') -> steps r r'.
Proof.
  revert r; induction fuel as [|fuel IH]; intros r; cbn [skip_to_boundary]; destruct (st r);
    try (intros H; injection H as <- <-; apply s_refl).
  destruct (read_to_boundary r) as [y r1] eqn:E.
  assert (S : steps r r1) by (eapply s_fill; eauto using s_refl).
  destruct y; try (intros H; injection H as <- <-; exact S).
  destruct (_ && _); try (intros H; injection H as <- <-; exact S).
  intros H. apply IH in H. eapply steps_trans; [|exact H]. now apply s_cons.
Qed.

Lemma consume_boundary_steps r x r' : inv r -> consume_boundary r = (x, r') -> steps r r'.
Proof.
  intros Hinv. unfold consume_boundary.
  assert (K : st r <> AtEnd ->
    (match skip_to_boundary (length (buf r) + length (stream (src r)) + 2) r with
      | (Ok _, r1) => verify_boundary r1
      | (Err e, r1) => (Err e, r1)
      | (Panic, r1) => (Panic, r1)
      | (OutOfFuel, r1) => (OutOfFuel, r1)
      end) = (x, r') -> steps r r').
  { intros Hst. destruct (skip_to_boundary _ r) as [y r1] eqn:E.
    pose proof (skip_to_boundary_steps _ _ _ _ E) as S.
    apply skip_to_boundary_spec in E; auto.
    2: { unfold rem. rewrite app_length. lia. }
    destruct E as (_ & _ & _ & _ & _ & X).
    destruct y; try (intros H; injection H as <- <-; exact S).
    intros H. destruct X as [X _]. eapply s_verify; eauto. }
  destruct (st r) eqn:Est; [apply K; congruence|apply K; congruence|].
  intros H; injection H as <- <-. apply s_refl.
Qed.

Lemma with_headers_steps trim fuel last r x r' :
  with_headers trim fuel last r = (x, r') -> steps r r'.
Proof.
  revert last r; induction fuel as [|fuel IH]; intros last r; cbn [with_headers].
  { intros H; injection H as <- <-; apply s_refl. }
  destruct (read_to_boundary r) as [y r1] eqn:E.
  assert (S : steps r r1) by (eapply s_fill; eauto using s_refl).
  destruct y; try (intros H; injection H as <- <-; exact S).
  destruct (_ =? _); try (intros H; injection H as <- <-; exact S).
  destruct (parse_headers trim HEADER_LEN a); try (intros H; injection H as <- <-; exact S).
  - intros H. apply IH in H. eapply steps_trans; eauto.
  - destruct (copy_headers _); intros H; injection H as <- <-; auto. now apply s_cons.
Qed.

Section WithMime.
Context (ML : mime_lib).

Lemma read_headers_steps trim r x r' : read_headers ML trim r = (x, r') -> steps r r'.
Proof.
  unfold read_headers. destruct (with_headers _ _ _ r) as [y r1] eqn:E.
  apply with_headers_steps in E. destruct y; intros H; injection H as <- <-; exact E.
Qed.

Lemma read_entry_steps trim r x r' : inv r -> read_entry ML trim r = (x, r') -> steps r r'.
Proof.
  intros Hinv. unfold read_entry.
  assert (S0 : steps r (set_min_buf_size MIN_BUF_SIZE r)) by (apply s_min, s_refl).
  destruct (consume_boundary (set_min_buf_size MIN_BUF_SIZE r)) as [y r1] eqn:E.
  apply consume_boundary_steps in E; [|exact Hinv].
  pose proof (steps_trans _ _ _ S0 E) as S1.
  destruct y as [[|]|e| |]; try (intros H; injection H as <- <-; exact S1).
  destruct (read_headers ML trim r1) as [z r2] eqn:F. apply read_headers_steps in F.
  pose proof (steps_trans _ _ _ S1 F) as S2.
  destruct z; intros H; injection H as <- <-; exact S2.
Qed.

Lemma step_steps trim o r b r' : inv r -> step ML trim o r = (b, r') -> steps r r'.
Proof.
  intros Hinv. destruct o as [n| |n|n|]; cbn [step].
  - unfold read. destruct (read_to_boundary r) as [x r1] eqn:E.
    assert (S : steps r r1) by (eapply s_fill; eauto using s_refl).
    destruct x; intros H; injection H as <- <-; auto. now apply s_cons.
  - destruct (read_to_boundary r) as [x r1] eqn:E. intros H; injection H as <- <-.
    eapply s_fill; eauto using s_refl.
  - intros H; injection H as <- <-. apply s_cons, s_refl.
  - intros H; injection H as <- <-. apply s_min, s_refl.
  - destruct (read_entry ML trim r) as [x r1] eqn:E. intros H; injection H as <- <-.
    eapply read_entry_steps; eauto.
Qed.

Lemma run_steps trim os r bs r' : inv r -> run ML trim os r = (bs, r') -> steps r r'.
Proof.
  revert r bs; induction os as [|o os IH]; intros r bs Hinv; cbn [run].
  - intros H; injection H as <- <-. apply s_refl.
  - destruct (step ML trim o r) as [b r1] eqn:E. destruct (run ML trim os r1) as [bs1 r2] eqn:F.
    intros H; injection H as <- <-.
    pose proof (step_inv ML _ _ _ _ _ Hinv E) as (J1 & _).
    apply step_steps in E; auto. apply IH in F; auto. eapply steps_trans; eauto.
Qed.

End WithMime.

Lemma steps_inv r r' : steps r r' -> inv r -> inv r'.
Proof.
  induction 1; intros Hinv; auto.
  - apply read_to_boundary_spec in H0; auto. tauto.
  - apply (consume_spec n r1); auto.
  - apply verify_boundary_spec in H1; auto. tauto.
Qed.

Lemma steps_bnd r r' : inv r -> steps r r' -> bnd r' = bnd r.
Proof.
  intros Hinv. induction 1; auto.
  - specialize (IHsteps Hinv). pose proof (steps_inv _ _ H Hinv).
    apply read_to_boundary_spec in H0; auto. destruct H0 as (_ & _ & -> & _). auto.
  - specialize (IHsteps Hinv). pose proof (steps_inv _ _ H Hinv).
    apply verify_boundary_spec in H1; auto. destruct H1 as (_ & -> & _). auto.
Qed.

(** * The cursor against the CRLF before the delimiter *)

(** If the next delimiter is preceded by CRLF, the cursor is at most one byte into that CRLF, and not
    at all once the delimiter was found. *)
Definition near (r : breader) : Prop :=
  st r <> AtEnd -> forall c post, first_split (bnd r) (rem r) (c ++ CRLF) post ->
  idx r <= length c + 1 /\ (st r = BoundaryRead -> idx r <= length c).

(** The bad position: between CR and LF. *)
Definition between (r : breader) (c : bytes) : Prop :=
  st r = Searching /\ idx r = length c + 1 /\ idx r = length (buf r) /\
  (exists b, buf r = b ++ [CR]) /\ starts_with (stream (src r)) (LF :: bnd r) = true.

Lemma first_split_at d r pre post : first_split d r pre post -> starts_with (skipn (length pre) r) d = true.
Proof.
  intros [-> _]. rewrite skipn_app, skipn_all, Nat.sub_diag. apply sw_iff. simpl. eauto.
Qed.

Lemma nth_skipn_sw {A} (l : list A) i x t : skipn i l = x :: t -> nth_error l i = Some x.
Proof.
  revert l; induction i as [|i IH]; intros [|y l]; simpl; intros H; try discriminate.
  - congruence.
  - eauto.
Qed.

Lemma last_byte (b : bytes) n x t : skipn n b = x :: t -> n + 1 = length b -> exists b', b = b' ++ [x].
Proof.
  intros H E. exists (firstn n b). rewrite <- (firstn_skipn n b) at 1. rewrite H. f_equal. f_equal.
  apply (f_equal (@length _)) in H. rewrite skipn_length in H. simpl in H. destruct t; auto. simpl in H. lia.
Qed.

(** The position computed by a search. *)
Lemma search_step_content b D i t i' s c post :
  dashed D -> i <= length b ->
  (forall j, j < i -> starts_with (skipn j (b ++ t)) D = false) ->
  search_step b D i = Some (i', s) ->
  first_split D (b ++ t) (c ++ CRLF) post ->
  i' <= length c \/
  (s = Searching /\ i' = length c + 1 /\ i' = length b /\ (exists b0, b = b0 ++ [CR]) /\
   starts_with t (LF :: D) = true).
Proof.
  intros HD Hi Hno Hss FS.
  pose proof (search_step_spec b D i t HD Hi Hno) as (i'' & s'' & E & L & X).
  rewrite Hss in E. injection E as <- <-.
  destruct FS as [ER FS].
  assert (Pp : starts_with (skipn (length c + 2) (b ++ t)) D = true).
  { rewrite ER. rewrite <- app_assoc. rewrite app_assoc. rewrite skipn_app, skipn_all2 by (rewrite app_length; simpl; lia).
    rewrite app_length. simpl. replace (length c + 2 - (length c + 2)) with 0 by lia.
    apply sw_iff. exists post. reflexivity. }
  assert (Pc : starts_with (skipn (length c) (b ++ t)) (CRLF ++ D) = true).
  { rewrite ER. rewrite <- !app_assoc. rewrite skipn_app, skipn_all, Nat.sub_diag.
    apply sw_iff. exists post. simpl. reflexivity. }
  destruct s.
  - (* Searching *)
    unfold search_step in Hss.
    destruct X as (X1 & X2 & X3).
    destruct (search_none b D i HD Hi X3) as (i1 & E1 & C1 & C2 & C3 & C4). rewrite E1 in Hss.
    destruct (length b <? i1) eqn:E2; [discriminate|].
    assert (Hno1 : forall j, j < i1 -> starts_with (skipn j (b ++ t)) D = false).
    { intros j Hj. destruct (starts_with (skipn j (b ++ t)) D) eqn:F; auto.
      destruct (le_lt_dec i j) as [G|G]; [|rewrite Hno in F; auto].
      rewrite skipn_app_le in F by lia.
      destruct (le_lt_dec (length D) (length (skipn j b))) as [G2|G2].
      - apply sw_app_inv in F; auto. rewrite X3 in F. discriminate.
      - apply sw_straddle in F; [|lia]. rewrite skipn_length in G2. rewrite C4 in F by lia. discriminate. }
    assert (Hle : i1 <= length c + 2).
    { destruct (le_lt_dec i1 (length c + 2)); auto. rewrite Hno1 in Pp; [discriminate|lia]. }
    destruct (Nat.eq_dec i1 (length c + 2)) as [E3|E3].
    + (* the delimiter starts at i1: CRLF was backed over *)
      left.
      assert (2 <= i1) by lia.
      assert (Q : beq (slice (i1 - 2) i1 b) CRLF = true).
      { apply beq_eq. unfold slice. replace (i1 - (i1 - 2)) with 2 by lia.
        replace (i1 - 2) with (length c) by lia.
        assert (skipn (length c) b = skipn (length c) b) by reflexivity.
        rewrite skipn_app_le in Pc by lia.
        apply sw_iff in Pc as [u Hu].
        assert (H2 : firstn 2 (skipn (length c) b ++ t) = CRLF) by (rewrite Hu; reflexivity).
        rewrite firstn_app_le in H2; auto. rewrite skipn_length. lia. }
      assert (Q2 : starts_with (skipn i1 b) CRLF = false).
      { destruct (starts_with (skipn i1 b) CRLF) eqn:F; auto.
        apply (crlf_not_dashed _ D) in F as F'; auto.
        apply (sw_app _ _ t) in F. rewrite <- skipn_app_le in F by lia.
        apply (crlf_not_dashed _ D) in F; auto. rewrite E3 in F. congruence. }
      rewrite Q, Q2 in Hss. replace (2 <=? i1) with true in Hss by (symmetry; apply Nat.leb_le; lia).
      simpl in Hss. injection Hss as <-. lia.
    + destruct (Nat.eq_dec i1 (length c + 1)) as [E4|E4].
      * (* the cursor is on LF *)
        assert (E5 : i1 = length b).
        { destruct (Nat.eq_dec i1 (length b)); auto. exfalso.
          assert (F : starts_with D (skipn i1 b) = true) by (apply C3; lia).
          apply sw_iff in Pc as [u Hu].
          assert (G : skipn i1 (b ++ t) = skipn 1 (skipn (length c) (b ++ t))) by (rewrite skipn_skipn'; f_equal; lia).
          rewrite Hu in G. simpl in G. rewrite skipn_app_le in G by lia.
          destruct (skipn i1 b) as [|x w] eqn:W.
          { apply (f_equal (@length _)) in W. rewrite skipn_length in W. simpl in W. lia. }
          simpl in G. injection G as -> _. destruct HD as [d ->]. discriminate. }
        apply sw_iff in Pc as [u Hu].
        assert (Cr : exists w, skipn (length c) b = CR :: w).
        { rewrite skipn_app_le in Hu by lia.
          destruct (skipn (length c) b) as [|x w] eqn:W.
          { apply (f_equal (@length _)) in W. rewrite skipn_length in W. simpl in W. lia. }
          simpl in Hu. injection Hu as -> _. eauto. }
        destruct Cr as [w Hw].
        destruct (last_byte _ _ _ _ Hw) as [b' Hb']; [lia|].
        assert (Hb2 : length b = length b' + 1) by (rewrite Hb', app_length; simpl; lia).
        right.
        assert (Nb : beq (slice (i1 - 2) i1 b) CRLF = false).
        { destruct (beq (slice (i1 - 2) i1 b) CRLF) eqn:F; auto. apply beq_eq in F.
          destruct (le_lt_dec 2 i1).
          - exfalso. unfold slice in F. replace (i1 - (i1 - 2)) with 2 in F by lia.
            rewrite Hb' in F. rewrite skipn_app_le in F by lia.
            assert (length (skipn (i1 - 2) b') = 1) by (rewrite skipn_length; lia).
            destruct (skipn (i1 - 2) b') as [|x [|y z]]; simpl in H; try lia. simpl in F. discriminate.
          - exfalso. apply (f_equal (@length _)) in F. unfold slice in F. rewrite firstn_length, skipn_length in F.
            simpl in F. lia. }
        rewrite Nb, andb_false_r in Hss. injection Hss as <-.
        split; auto. split; auto. split; auto. split; [eauto|].
        rewrite skipn_app_le, Hw in Hu by lia. simpl in Hu. injection Hu as Hu.
        assert (w = []). { apply (f_equal (@length _)) in Hw. rewrite skipn_length in Hw. simpl in Hw. destruct w; auto. simpl in Hw. lia. }
        subst w. simpl in Hu. apply sw_iff. exists u. simpl. rewrite Hu. reflexivity.
      * left. destruct (_ && _); injection Hss as <-; lia.
  - (* BoundaryRead *)
    left. destruct X as (p & (P1 & P2 & P3) & P4).
    assert (Ep : p = length c + 2).
    { assert (length c + 2 <= p).
      { destruct (le_lt_dec (length c + 2) p); auto. exfalso.
        assert (occurs_at D (b ++ t) p).
        { apply occurs_at_sw. split; [rewrite app_length; lia|]. rewrite skipn_app_le by lia. now apply sw_app. }
        apply FS in H. rewrite app_length in H. simpl in H. lia. }
      destruct (le_lt_dec p (length c + 2)); [lia|]. rewrite P4 in Pp; [discriminate|lia]. }
    destruct P3 as [P3|[P3 P3']]; [|lia].
    (* not backed up: impossible *)
    exfalso. unfold search_step in Hss.
    destruct (if i <? length b then _ else _) as [i1 s1] eqn:E1.
    destruct (length b <? i1) eqn:E2; [discriminate|].
    assert (Hi1 : i1 = p \/ i1 = p + 2).
    { destruct (_ && _ && _); injection Hss as ? ?; lia. }
    destruct ((2 <=? i1) && negb (starts_with (skipn i1 b) CRLF) && beq (slice (i1 - 2) i1 b) CRLF) eqn:E3.
    + injection Hss as Hs1 Hs2.
      apply andb_true_iff in E3 as [_ E3].
      assert (i1 = p + 2) by lia.
      apply beq_eq in E3. unfold slice in E3. replace (i1 - (i1 - 2)) with 2 in E3 by lia.
      replace (i1 - 2) with p in E3 by lia.
      destruct HD as [d ->]. apply sw_iff in P2 as [u Hu]. rewrite Hu in E3. simpl in E3. discriminate.
    + injection Hss as Hs1 Hs2. assert (i1 = p) by lia. subst i1.
      assert (Q : beq (slice (p - 2) p b) CRLF = true).
      { apply beq_eq. unfold slice. replace (p - (p - 2)) with 2 by lia.
        replace (p - 2) with (length c) by lia.
        rewrite skipn_app_le in Pc by lia. apply sw_iff in Pc as [u Hu].
        assert (H2 : firstn 2 (skipn (length c) b ++ t) = CRLF) by (rewrite Hu; reflexivity).
        rewrite firstn_app_le in H2; auto. rewrite skipn_length. lia. }
      assert (Q2 : starts_with (skipn p b) CRLF = false).
      { destruct (starts_with (skipn p b) CRLF) eqn:F; auto.
        apply (crlf_not_dashed _ D) in F; auto. congruence. }
      rewrite H, Q, Q2 in E3. replace (2 <=? p) with true in E3 by (symmetry; apply Nat.leb_le; lia). discriminate.
  - destruct X.
Qed.

Lemma near_fill r x r' : inv r -> near r -> read_to_boundary r = (x, r') -> near r'.
Proof.
  intros Hinv Hn H.
  pose proof (read_to_boundary_spec _ _ _ Hinv H) as (I1 & R1 & B1 & M1 & L1 & _ & K1 & K2 & X).
  intros Hst c post FS. rewrite B1, R1 in FS.
  destruct (st r) eqn:Est.
  2: { destruct K1 as [K1 K3]; [congruence|]. rewrite K1, K3. destruct (Hn ltac:(congruence) _ _ FS) as [F1 F2]. auto. }
  2: { destruct K1 as [K1 K3]; [congruence|]. congruence. }
  unfold read_to_boundary in H.
  destruct (fill_buf (minb r) (buf r) (src r)) as [[e b] t] eqn:E.
  apply fill_buf_spec in E as (cc & used & -> & Esrc & <- & _ & _).
  destruct e as [k|].
  { injection H as <- <-. simpl. apply (Hn ltac:(congruence) _ _ FS). }
  rewrite Est in H.
  destruct (search_step (buf r ++ stream used) (bnd r) (idx r)) as [[i s]|] eqn:E; [|injection H as <- _; tauto].
  injection H as <- <-. cbn [idx st set_idx_st set_source buf] in *.
  destruct Hinv as (HD & Hix & Hno). rewrite Est in Hno.
  assert (ER : rem r = (buf r ++ stream used) ++ stream t).
  { unfold rem. rewrite Esrc, stream_app, app_assoc. reflexivity. }
  rewrite ER in *.
  apply (search_step_content _ _ _ (stream t) _ _ c post) in E; auto.
  - destruct E as [E|(-> & E & _)]; [split; lia|]. split; [lia|discriminate].
  - rewrite app_length. lia.
Qed.

Lemma near_consume n r : inv r -> near r -> near (consume n r).
Proof.
  intros Hinv Hn Hst c post FS.
  pose proof (consume_spec n r Hinv) as (I1 & R & B & M & S & T & X & _).
  rewrite T in Hst. pose proof (consume_skipped n r Hinv Hst) as K.
  rewrite B in FS. apply (skipped_split _ _ _ _ _ _ K) in FS.
  rewrite app_assoc in FS. apply (Hn Hst) in FS as [F1 F2].
  rewrite app_length, firstn_length in F1, F2.
  rewrite T, X. destruct Hinv as (_ & Hi & _). split; [lia|]. intros Hb. specialize (F2 Hb). lia.
Qed.

Lemma near_verify r x r' :
  inv r -> near r -> st r = BoundaryRead -> verify_boundary r = (x, r') -> near r'.
Proof.
  intros Hinv Hn Hst H.
  pose proof (verify_boundary_spec _ _ _ Hinv Hst H) as (I1 & B1 & M1 & L1 & pre & post & FS & Hl & X).
  intros Hst' c post' FS'. rewrite B1 in FS'.
  assert (Hn' := Hn ltac:(congruence)).
  destruct x as [[|]|[k| | |a b]| |]; try tauto.
  - destruct X as (q & _ & _ & S & ->). split; lia.
  - destruct X as (q & _ & _ & S & ->). split; lia.
  - destruct X as (_ & R & S & ->). rewrite R in FS'. rewrite S. apply Hn' in FS' as [F1 F2]. split; auto.
  - destruct X as (R & S & -> & _). rewrite R in FS'. rewrite S. apply Hn' in FS' as [F1 F2]. split; auto.
  - destruct X as (q & _ & _ & _ & R & S & ->). rewrite R in FS'. rewrite S. apply Hn' in FS' as [F1 F2].
    split; [auto|discriminate].
Qed.

Lemma steps_near r r' : steps r r' -> inv r -> near r -> near r'.
Proof.
  induction 1; intros Hinv Hn; auto.
  - eapply near_fill; [|exact (IHsteps Hinv Hn)|exact H0]. eapply steps_inv; eauto.
  - apply near_consume; auto. eapply steps_inv; eauto.
  - eapply near_verify; [|exact (IHsteps Hinv Hn)|exact H0|exact H1]. eapply steps_inv; eauto.
Qed.

Lemma near_from_reader t b : near (from_reader t b).
Proof. intros _ c post _. simpl. split; lia. Qed.

(** * No chunk border between CR and LF of a delimiter *)

(** The transport never ends a chunk right between the CR and the LF before a delimiter. *)
Definition no_split_crlf (D : bytes) (t : transport) : Prop :=
  forall t1 c t2, t = t1 ++ Chunk (c ++ [CR]) :: t2 -> starts_with (stream t2) (LF :: D) = false.

Definition unsplit (r : breader) : Prop :=
  no_split_crlf (bnd r) (src r) /\
  forall b, buf r = b ++ [CR] -> starts_with (stream (src r)) (LF :: bnd r) = false.

Lemma no_split_app D t1 t2 : no_split_crlf D (t1 ++ t2) -> no_split_crlf D t2.
Proof. intros H u c v ->. apply (H (t1 ++ u) c v). now rewrite app_assoc. Qed.

Lemma unsplit_refill D b used t :
  no_split_crlf D (used ++ t) ->
  (forall b', b = b' ++ [CR] -> starts_with (stream (used ++ t)) (LF :: D) = false) ->
  forall b', b ++ stream used = b' ++ [CR] -> starts_with (stream t) (LF :: D) = false.
Proof.
  revert b; induction used as [|[c|k] used IH]; intros b Hns Hb b'; simpl.
  - rewrite app_nil_r. intros H. eapply Hb; eauto.
  - rewrite app_assoc. apply IH.
    + apply (no_split_app D [Chunk c]). exact Hns.
    + intros b2 H2. destruct c as [|x c] using rev_ind.
      * rewrite app_nil_r in H2. apply (Hb b2 H2).
      * clear IHc. rewrite app_assoc in H2. apply app_inj_tail in H2 as [_ ->].
        apply (Hns [] c (used ++ t)). reflexivity.
  - apply IH; auto. apply (no_split_app D [Fail k]). exact Hns.
Qed.

Lemma unsplit_fill r x r' : inv r -> unsplit r -> read_to_boundary r = (x, r') -> unsplit r'.
Proof.
  intros Hinv [H1 H2] H.
  unfold read_to_boundary in H.
  destruct (fill_buf (minb r) (buf r) (src r)) as [[e b] t] eqn:E.
  apply fill_buf_spec in E as (cc & used & -> & Esrc & <- & _ & _).
  assert (U : unsplit (set_source r (buf r ++ stream used) t)).
  { rewrite Esrc in *. split; [eapply no_split_app; eauto|]. simpl. intros b. eapply unsplit_refill; eauto. }
  destruct e as [k|]; [injection H as <- <-; exact U|].
  destruct (st r).
  - destruct (search_step _ _ _) as [[i s]|]; injection H as <- <-; exact U.
  - destruct (_ <? _); injection H as <- <-; exact U.
  - destruct (_ <? _); injection H as <- <-; exact U.
Qed.

Lemma unsplit_skip n b D t :
  (forall b', b = b' ++ [CR] -> starts_with (stream t) (LF :: D) = false) ->
  forall b', skipn n b = b' ++ [CR] -> starts_with (stream t) (LF :: D) = false.
Proof.
  intros H b' Hb. apply (H (firstn n b ++ b')). rewrite <- app_assoc, <- Hb. now rewrite firstn_skipn.
Qed.

Lemma unsplit_verify r x r' :
  inv r -> unsplit r -> verify_boundary r = (x, r') -> unsplit r'.
Proof.
  intros Hinv [H1 H2] H. unfold verify_boundary in H.
  destruct (fill_buf (minb r) (buf r) (src r)) as [[e b] t] eqn:E.
  apply fill_buf_spec in E as (cc & used & -> & Esrc & <- & _ & _).
  assert (U : unsplit (set_source r (buf r ++ stream used) t)).
  { rewrite Esrc in *. split; [eapply no_split_app; eauto|]. simpl. intros b. eapply unsplit_refill; eauto. }
  destruct e as [k|]; [injection H as <- <-; exact U|].
  destruct (_ <? _); [injection H as <- <-; exact U|].
  cbv zeta in H.
  destruct (_ <? _); [injection H as <- <-; exact U|].
  destruct (negb _); [injection H as <- <-; exact U|].
  destruct (_ <? _); [injection H as <- <-; exact U|].
  set (amt := idx r + _ + _ + _) in *.
  destruct (slice (amt - 2) amt (buf r ++ stream used)) as [|u [|v [|w z]]];
    try (injection H as <- <-; exact U).
  destruct (N.eqb u CR && N.eqb v LF); [|destruct (N.eqb u DASH && N.eqb v DASH)];
    injection H as <- <-; try exact U; destruct U as [U1 U2]; (split; [exact U1|]); simpl;
    intros b Hb; eapply unsplit_skip; eauto.
Qed.

Lemma steps_unsplit r r' : steps r r' -> inv r -> unsplit r -> unsplit r'.
Proof.
  induction 1; intros Hinv Hn; auto.
  - eapply unsplit_fill; [|exact (IHsteps Hinv Hn)|exact H0]. eapply steps_inv; eauto.
  - destruct (IHsteps Hinv Hn) as [U1 U2]. split; [exact U1|]. simpl. intros b Hb. eapply unsplit_skip; eauto.
  - eapply unsplit_verify; [|exact (IHsteps Hinv Hn)|exact H1]. eapply steps_inv; eauto.
Qed.

Lemma unsplit_from_reader t b : no_split_crlf (DASHES ++ b) t -> unsplit (from_reader t b).
Proof. intros H. split; auto. simpl. intros b' Hb. destruct b'; discriminate. Qed.

(** With no border inside a CRLF the cursor never enters the CRLF before the delimiter. *)
Definition strict (r : breader) : Prop :=
  st r <> AtEnd -> forall c post, first_split (bnd r) (rem r) (c ++ CRLF) post -> idx r <= length c.

Lemma strict_fill r x r' :
  inv r -> unsplit r -> strict r -> read_to_boundary r = (x, r') -> strict r'.
Proof.
  intros Hinv Hu Hn H.
  pose proof (unsplit_fill _ _ _ Hinv Hu H) as [_ Hu'].
  pose proof (read_to_boundary_spec _ _ _ Hinv H) as (I1 & R1 & B1 & M1 & L1 & _ & K1 & K2 & X).
  intros Hst c post FS. rewrite B1, R1 in FS.
  destruct (st r) eqn:Est.
  2: { destruct K1 as [K1 K3]; [congruence|]. rewrite K3. apply (Hn ltac:(congruence) _ _ FS). }
  2: { destruct K1 as [K1 K3]; [congruence|]. congruence. }
  unfold read_to_boundary in H.
  destruct (fill_buf (minb r) (buf r) (src r)) as [[e b] t] eqn:E.
  apply fill_buf_spec in E as (cc & used & -> & Esrc & <- & _ & _).
  destruct e as [k|].
  { injection H as <- <-. simpl. apply (Hn ltac:(congruence) _ _ FS). }
  rewrite Est in H.
  destruct (search_step (buf r ++ stream used) (bnd r) (idx r)) as [[i s]|] eqn:E; [|injection H as <- _; tauto].
  injection H as <- <-. cbn [idx st set_idx_st set_source buf src bnd] in *.
  destruct Hinv as (HD & Hix & Hno). rewrite Est in Hno.
  assert (ER : rem r = (buf r ++ stream used) ++ stream t).
  { unfold rem. rewrite Esrc, stream_app, app_assoc. reflexivity. }
  rewrite ER in *.
  apply (search_step_content _ _ _ (stream t) _ _ c post) in E; auto.
  - destruct E as [E|(-> & E & _ & [b0 E2] & E3)]; auto.
    exfalso. specialize (Hu' _ E2). congruence.
  - rewrite app_length. lia.
Qed.

Lemma strict_consume n r : inv r -> strict r -> strict (consume n r).
Proof.
  intros Hinv Hn Hst c post FS.
  pose proof (consume_spec n r Hinv) as (I1 & R & B & M & S & T & X & _).
  rewrite T in Hst. pose proof (consume_skipped n r Hinv Hst) as K.
  rewrite B in FS. apply (skipped_split _ _ _ _ _ _ K) in FS.
  rewrite app_assoc in FS. apply (Hn Hst) in FS.
  rewrite app_length, firstn_length in FS.
  rewrite X. destruct Hinv as (_ & Hi & _). lia.
Qed.

Lemma strict_verify r x r' :
  inv r -> strict r -> st r = BoundaryRead -> verify_boundary r = (x, r') -> strict r'.
Proof.
  intros Hinv Hn Hst H.
  pose proof (verify_boundary_spec _ _ _ Hinv Hst H) as (I1 & B1 & M1 & L1 & pre & post & FS & Hl & X).
  intros Hst' c post' FS'. rewrite B1 in FS'.
  assert (Hn' := Hn ltac:(congruence)).
  destruct x as [[|]|[k| | |a b]| |]; try tauto.
  - destruct X as (q & _ & _ & S & ->). lia.
  - destruct X as (q & _ & _ & S & ->). lia.
  - destruct X as (_ & R & S & ->). rewrite R in FS'. eauto.
  - destruct X as (R & S & -> & _). rewrite R in FS'. eauto.
  - destruct X as (q & _ & _ & _ & R & S & ->). rewrite R in FS'. eauto.
Qed.

Lemma steps_strict r r' : steps r r' -> inv r -> unsplit r -> strict r -> strict r'.
Proof.
  induction 1; intros Hinv Hu Hn; auto.
  - eapply strict_fill; [| |exact (IHsteps Hinv Hu Hn)|exact H0].
    eapply steps_inv; eauto. eapply steps_unsplit; eauto.
  - apply strict_consume; auto. eapply steps_inv; eauto.
  - eapply strict_verify; [|exact (IHsteps Hinv Hu Hn)|exact H0|exact H1]. eapply steps_inv; eauto.
Qed.

Lemma strict_from_reader t b : strict (from_reader t b).
Proof. intros _ c post _. simpl. lia. Qed.
