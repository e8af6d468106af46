(** Property theorems: the unit tests of the crate, for every chunking of their bodies (C89). *)

From Verif Require Import Bytes BytesProofs Spec Io Boundary BoundaryProofs Utf8 Httparse Field FieldProofs
  ContentProofs DataProofs ShortProofs EntryProofs ReaderProofs Drive DriveProofs ReachProofs Toy Tests.

(** ** C89 *)

(** Specification.  What is kept back of a body that ends without a delimiter: it could be the beginning of one. *)
Definition withheld (D w : bytes) : Prop := exists f, prefix_of f D /\ (w = f \/ w = CRLF ++ f).

(** [says D s o cs l]: a reader before which the bytes [s] lie ([None]: behind the last delimiter) may answer [l] to the calls [cs];
    [o] is the answer to the previous call if that was [Peek]. *)
Inductive says (D : bytes) : option bytes -> option bytes -> list call -> list said -> Prop :=
| says_nil s o : says D s o [] []
| says_end_text o cs l : says D None None cs l -> says D None o (Text :: cs) (SText (Ok []) :: l)
| says_end_peek o cs l : says D None (Some []) cs l -> says D None o (Peek :: cs) (SPeek (Ok []) :: l)
| says_end_next o cs l : says D None None cs l -> says D None o (Next :: cs) (SNext (Ok false) :: l)
| says_text s o c s' cs l : content D s c -> s = c ++ s' -> says D (Some s') None cs l ->
    says D (Some s) o (Text :: cs) (SText (Ok c) :: l)
| says_rest s o c w cs l : absent D s -> s = c ++ w -> withheld D w -> says D (Some w) None cs l ->
    says D (Some s) o (Text :: cs) (SText (Ok c) :: l)
| says_peek s o p cs l : prefix_of p s -> (forall p', o = Some p' -> p = p') -> says D (Some s) (Some p) cs l ->
    says D (Some s) o (Peek :: cs) (SPeek (Ok p) :: l)
| says_next s o pre q cs l : first_split D s pre (CRLF ++ q) -> says D (Some q) None cs l ->
    says D (Some s) o (Next :: cs) (SNext (Ok true) :: l)
| says_last s o pre q cs l : first_split D s pre (DASHES ++ q) -> says D None None cs l ->
    says D (Some s) o (Next :: cs) (SNext (Ok false) :: l)
| says_bad s o pre a b q cs : first_split D s pre (a :: b :: q) -> [a; b] <> CRLF -> [a; b] <> DASHES ->
    says D (Some s) o (Next :: cs) [SNext (Err (EBadBoundary a b))]
| says_short s o pre post cs : first_split D s pre post -> length post < 2 ->
    says D (Some s) o (Next :: cs) [SNext (Err EShortBoundary)]
| says_missing s o cs : absent D s -> says D (Some s) o (Next :: cs) [SNext (Err EEndOfBody)].

(** The sections of the body fit into the buffer. *)
Definition fits (D B : bytes) : Prop :=
  forall u s pre post, B = u ++ s -> first_split D s pre post -> length pre + length D + 4 <= MIN_BUF_SIZE.

Lemma search_kept b D i : dashed D -> i <= length b -> (forall j, starts_with (skipn j b) D = false) ->
  search_step b D i = Some (0, Searching) -> withheld D b.
Proof.
  intros HD Hi Hno H. destruct (search_none b D i HD Hi Hno) as (i1 & E1 & C1). unfold search_step in H. rewrite E1 in H.
  destruct C1 as (C1 & C2 & C3 & _).
  assert (P : prefix_of (skipn i1 b) D).
  { destruct (Nat.lt_ge_cases i1 (length b)) as [L|L]; [|rewrite skipn_all2 by lia; exists D; reflexivity]. apply C3 in L. apply sw_iff in L. exact L. }
  destruct (length b <? i1) eqn:E2; [discriminate|].
  destruct ((2 <=? i1) && negb (starts_with (skipn i1 b) CRLF) && beq (slice (i1 - 2) i1 b) CRLF) eqn:E3.
  - injection H as Z. assert (i1 = 2) as -> by lia. exists (skipn 2 b). split; auto. right.
    apply andb_prop in E3 as [_ E3]. apply beq_eq in E3. unfold slice in E3. cbn [Nat.sub skipn] in E3. rewrite <- E3.
    symmetry. apply firstn_skipn.
  - injection H as ->. exists (skipn 0 b). split; auto.
Qed.

(** Reading what is left of an unterminated body. *)
Lemma read_empty_absent n r r' :
  inv r -> st r <> AtEnd -> 0 < n -> read n r = (Ok [], r') -> live (src r) -> length (bnd r) + 2 <= minb r ->
  absent (bnd r) (rem r) -> withheld (bnd r) (rem r).
Proof.
  intros Hinv Hst Hn H Hl Hm Ha. pose proof (read_empty _ _ _ Hinv Hst Hn H Hl Hm) as (_ & Z & Zi & Zr). destruct (Z Ha) as [Zs _].
  unfold read in H. destruct (read_to_boundary r) as [y r1] eqn:E.
  pose proof (read_to_boundary_spec _ _ _ Hinv E) as (I1 & R1 & B1 & M1 & L1 & _ & K1 & K2 & X).
  destruct y as [b|e| |]; try discriminate. injection H as Hb Hr. assert (b = []) as -> by (destruct b; auto; destruct n; [lia|discriminate]).
  assert (Ns : st r1 = Searching).
  { destruct (st r1) eqn:S1; auto; exfalso.
    - destruct I1 as (_ & _ & I2). rewrite S1 in I2. destruct I2 as (p & (P1 & P2 & _) & _). rewrite B1 in *.
      apply (Ha p). apply occurs_at_sw'; [apply dashed_nonnil, Hinv|]. rewrite <- R1. unfold rem. rewrite skipn_app_le by lia. now apply sw_app.
    - destruct (st r) eqn:S0; [now apply (K2 eq_refl)|destruct K1; congruence|congruence]. }
  assert (S0 : st r = Searching).
  { destruct (st r) eqn:S0; auto; exfalso; destruct K1 as [K1 _]; congruence. }
  destruct X as (X0 & _ & X2). destruct (X2 Ns) as [_ X4].
  assert (Hs : src r1 = []). { rewrite <- Hr in Zs. unfold consume in Zs. cbn [src] in Zs. exact Zs. }
  assert (Er : rem r = buf r1). { rewrite <- R1. unfold rem. rewrite Hs. cbn [stream]. apply app_nil_r. }
  rewrite Er. unfold read_to_boundary in E. destruct (fill_buf (minb r) (buf r) (src r)) as [[e bb] t] eqn:F.
  destruct e as [k|]; [discriminate|]. rewrite S0 in E. destruct (search_step bb (bnd r) (idx r)) as [[i s]|] eqn:Q; [|discriminate].
  injection E as Ef Er1. rewrite <- Er1 in *. cbn [set_idx_st set_source st buf idx src] in *. subst s.
  destruct i as [|i].
  - apply (search_kept bb (bnd r) (idx r)); auto; [apply Hinv|]. destruct Hinv as (_ & L & _). apply fill_buf_spec in F as (c & used & -> & _). rewrite app_length. lia.
  - destruct bb; [|discriminate]. exists []. split; [exists (bnd r); reflexivity|]. now left.
Qed.

Lemma drain_absent sz fuel : forall k r,
  ready sz r -> st r <> AtEnd -> length (bnd r) + 2 <= minb r -> absent (bnd r) (rem r) -> length (rem r) < fuel ->
  exists d w r', drain fuel sz k r = (Ok d, r') /\ rem r = d ++ w /\ rem r' = w /\ withheld (bnd r) w /\ ready sz r' /\ later (src r') (src r) /\
    st r' <> AtEnd /\ idx r' = 0 /\ bnd r' = bnd r /\ minb r' = minb r.
Proof.
  induction fuel as [|fuel IH]; intros k r HR Hst Hd Ha Hf; [lia|].
  cbn [drain]. destruct (read (sz k) r) as [x r1] eqn:E.
  pose proof HR as (Hinv & Hn & Hl & Hq & Hsz).
  pose proof (read_spec _ _ _ _ Hinv E) as (I1 & B1 & M1 & L1 & X).
  assert (Sx : steps r r1).
  { apply (step_steps toy true (ORead (sz k)) r (BRead toy x) r1 Hinv). cbn [step]. now rewrite E. }
  assert (HR1 : ready sz r1) by (eapply ready_steps; eauto).
  destruct x as [out|e| |]; try tauto.
  2: { destruct X as (kk & _ & X & _). exfalso. eapply Hq; eauto. }
  destruct X as (Rr & Hlen & Hs & _). destruct (Hs Hst) as [K1 K2].
  destruct out as [|o out].
  - pose proof (read_empty_absent _ _ _ Hinv Hst (Hsz k) E Hl Hd Ha) as Wh. pose proof (read_empty _ _ _ Hinv Hst (Hsz k) E Hl Hd) as (_ & _ & Z2 & Z3).
    exists [], (rem r), r1. repeat (split; [assumption || reflexivity|]). auto.
  - pose proof (dashed_nonnil _ (proj1 Hinv)) as HD0.
    destruct (IH (S k) r1) as (d & w & r2 & D2 & E2 & Rw & Wh & R2 & L2 & S2 & T2 & B2 & M2); auto.
    + now rewrite B1, M1.
    + rewrite B1. eapply skipped_absent_inv; eauto.
    + rewrite Rr in Hf. rewrite app_length in Hf. cbn [length] in Hf. lia.
    + rewrite D2. exists ((o :: out) ++ d), w, r2. rewrite B1, M1 in *. split; [reflexivity|]. split; [rewrite Rr, E2; now rewrite app_assoc|].
      split; auto. split; auto. split; auto. split; [eapply later_trans; eauto|]. auto.
Qed.

Lemma drain_minb sz fuel : forall k r x r', inv r -> drain fuel sz k r = (x, r') -> minb r' = minb r.
Proof.
  induction fuel as [|fuel IH]; intros k r x r' Hi; cbn [drain]; [intros H; now injection H as <- <-|].
  destruct (read (sz k) r) as [y r1] eqn:E. pose proof (read_spec _ _ _ _ Hi E) as (I1 & _ & M1 & _).
  destruct y as [[|o out]|e| |]; try (intros H; injection H as <- <-; exact M1).
  destruct (drain fuel sz (S k) r1) as [z r2] eqn:F. pose proof (IH _ _ _ _ I1 F) as M2.
  destruct z; intros H; injection H as <- <-; congruence.
Qed.

Lemma fill_twice r b r1 : inv r -> live (src r) -> quiet (src r) -> read_to_boundary r = (Ok b, r1) -> read_to_boundary r1 = (Ok b, r1).
Proof.
  intros Hinv Hl Hq H. pose proof (read_to_boundary_spec _ _ _ Hinv H) as (I1 & R1 & B1 & M1 & L1 & _ & _ & _ & _ & Fl & _).
  destruct (read_to_boundary r1) as [x r2] eqn:E.
  pose proof (read_to_boundary_spec _ _ _ I1 E) as (I2 & R2 & B2 & M2 & L2 & _ & _ & _ & X).
  assert (Es : src r2 = src r1).
  { unfold read_to_boundary in E. destruct (fill_buf (minb r1) (buf r1) (src r1)) as [[e bb] t] eqn:F.
    assert (Et : t = src r1).
    { destruct Fl as [Fl|[Fl|Fl]]; [|rewrite Fl in *|exfalso; exact (Hl Fl)].
      - rewrite fill_full in F by (rewrite M1; exact Fl). now injection F as <- <- <-.
      - cbn [fill_buf] in F. destruct (_ <=? _); now injection F as <- <- <-. }
    subst t. destruct e as [k|]; [injection E as <- <-; reflexivity|].
    destruct (st r1); [destruct (search_step _ _ _) as [[? ?]|]|destruct (_ <? _)|destruct (_ <? _)]; injection E as <- <-; reflexivity. }
  destruct x as [b'|e| |]; try tauto.
  - destruct (read_to_boundary_idem _ _ _ _ _ Hinv H E Es) as [-> ->]. reflexivity.
  - destruct X as (k & _ & X & _). exfalso. destruct L1 as [used EL]. apply (Hq k). rewrite EL. apply in_or_app. now right.
Qed.

Lemma content_exists D s pre post : first_split D s pre post -> exists c, content D s c.
Proof.
  intros FS. destruct (beq (skipn (length pre - 2) pre) CRLF) eqn:E.
  - apply beq_eq in E. exists (firstn (length pre - 2) pre), pre, post. split; auto. left. rewrite <- E. symmetry. apply firstn_skipn.
  - exists pre, pre, post. split; auto. right. split; auto. intros c' ->. rewrite app_length in E. cbn [CRLF length] in E.
    replace (length c' + 2 - 2) with (length c') in E by lia. rewrite skipn_app, skipn_all, Nat.sub_diag in E. discriminate.
Qed.

Section Cursor.
Context (D : bytes) (t : transport) (sz : nat -> nat).
Context (HL : live t) (HQ : quiet t) (HZ : forall k, 0 < sz k) (HD : length D + 4 <= MIN_BUF_SIZE) (HF : fits D (stream t)).

(** The reader [r] stands before [s] and answered [o] to a [Peek] just now. *)
Definition stands (r : breader) (s o : option bytes) : Prop :=
  ready sz r /\ bnd r = D /\ minb r = MIN_BUF_SIZE /\ later (src r) t /\
  match s with
  | None => st r = AtEnd /\ (forall p, o = Some p -> p = [])
  | Some s => st r <> AtEnd /\ rem r = s /\ (exists u, stream t = u ++ s) /\
      (st r = Searching \/ idx r + length D + 4 <= MIN_BUF_SIZE) /\
      (forall p, o = Some p -> read_to_boundary r = (Ok p, r))
  end.

Lemma at_end_fill r : inv r -> quiet (src r) -> st r = AtEnd -> exists r1, read_to_boundary r = (Ok [], r1) /\ st r1 = AtEnd /\
  inv r1 /\ bnd r1 = bnd r /\ minb r1 = minb r /\ later (src r1) (src r) /\ idx r1 = 0.
Proof.
  intros Hi Hq Hs. destruct (read_to_boundary r) as [x r1] eqn:E.
  pose proof (read_to_boundary_spec _ _ _ Hi E) as (I1 & R1 & B1 & M1 & L1 & _ & K1 & K2 & X).
  destruct K1 as [K1 K3]; [congruence|]. assert (Z : idx r = 0). { destruct Hi as (_ & _ & Hi). now rewrite Hs in Hi. }
  destruct x as [b|e| |]; try tauto.
  - destruct X as (-> & _). exists r1. rewrite K3, Z. cbn [firstn]. repeat split; auto; try apply I1; congruence.
  - destruct X as (k & _ & X & _). exfalso. exact (Hq _ X).
Qed.

Lemma ready_later r r1 : ready sz r -> steps r r1 -> later (src r1) (src r) -> later (src r) t -> ready sz r1 /\ later (src r1) t.
Proof. intros R S0 L L0. split; [eapply ready_steps; eauto|eapply later_trans; eauto]. Qed.

Lemma make_next r s o : stands r s o -> exists x r1, make sz Next r = (SNext x, r1) /\
  forall cs, (failed (SNext x) = true /\ says D s o (Next :: cs) [SNext x]) \/
    (failed (SNext x) = false /\ exists s1, stands r1 s1 None /\ forall l, says D s1 None cs l -> says D s o (Next :: cs) (SNext x :: l)).
Proof.
  intros (R & B & M & L & W). cbn [make]. pose proof R as (Hinv & Hn & Hl & Hq & _).
  destruct (consume_boundary r) as [x r1] eqn:E. exists x, r1. split; auto. intros cs.
  pose proof (consume_boundary_steps _ _ _ Hinv E) as Sx.
  pose proof (consume_boundary_spec _ _ _ Hinv E) as (I1 & B1 & M1 & L1 & HE & HN).
  destruct (ready_later _ _ R Sx L1 L) as (R1 & L1').
  destruct s as [s|].
  - destruct W as (Hs & Hr & (u & Hu) & Hi & Hp). specialize (HN Hs).
    destruct x as [[|]|e| |]; cbn [next_outcome] in HN; try tauto.
    + rewrite B, Hr in HN. destruct HN as (pre & q & FS & Rq & Sq & Zq). right. split; auto. exists (Some q). split.
      * split; auto. split; [congruence|]. split; [congruence|]. split; auto. split; [congruence|]. split; auto. split.
        { destruct FS as [FS _]. exists (u ++ pre ++ D ++ CRLF). rewrite Hu, FS, <- !app_assoc. reflexivity. }
        split; [now left|discriminate].
      * intros l Hl'. eapply says_next; eauto.
    + rewrite B, Hr in HN. destruct HN as (pre & q & FS & Rq & Sq & Zq). right. split; auto. exists None. split.
      * split; auto. split; [congruence|]. split; [congruence|]. split; auto. split; auto. discriminate.
      * intros l Hl'. eapply says_last; eauto.
    + left. split; [reflexivity|]. destruct e as [k| | |a b]; rewrite ?B, ?Hr in HN.
      * exfalso. destruct HN as (Hk & _). exact (Hq _ Hk).
      * destruct HN as (_ & _ & HN). destruct (HN Hl) as [Ha _]; [rewrite M; lia|]. now apply says_missing.
      * destruct HN as (pre & post & FS & _ & _ & HN). eapply says_short; eauto. apply HN; auto. rewrite M. destruct Hi as [Hi|Hi]; [left; split; auto|right; auto].
      * destruct HN as ((pre & q & FS) & N1 & N2 & _). eapply says_bad; eauto.
  - destruct W as (Hs & _). destruct (HE Hs) as [-> ->]. right. split; auto. exists None. split.
    + repeat (split; auto). discriminate.
    + intros l Hl'. now constructor.
Qed.

Lemma make_peek r s o : stands r s o -> exists p r1, make sz Peek r = (SPeek (Ok p), r1) /\
  forall cs, exists o1, stands r1 s o1 /\ forall l, says D s o1 cs l -> says D s o (Peek :: cs) (SPeek (Ok p) :: l).
Proof.
  intros (R & B & M & L & W). cbn [make]. pose proof R as (Hinv & Hn & Hl & Hq & _).
  destruct s as [s|].
  - destruct W as (Hs & Hr & (u & Hu) & Hi & Hp). destruct (read_to_boundary r) as [x r1] eqn:E.
    pose proof (read_to_boundary_spec _ _ _ Hinv E) as (I1 & R1 & B1 & M1 & L1 & _ & K1 & K2 & X).
    destruct x as [p|e| |]; try tauto.
    2: { exfalso. destruct X as (k & _ & X & _). exact (Hq _ X). }
    assert (Sx : steps r r1).
    { apply (step_steps toy true OFill r (BFill toy (Ok p)) r1 Hinv). cbn [step]. now rewrite E. }
    destruct (ready_later _ _ R Sx L1 L) as (R1' & L1').
    exists p, r1. split; auto. intros cs. exists (Some p). split.
    + split; auto. split; [congruence|]. split; [congruence|]. split; auto. split.
      { destruct (st r) eqn:S0; [auto|destruct K1; congruence|congruence]. }
      split; [congruence|]. split; [eauto|]. split.
      * destruct (st r1) eqn:S1; auto; [|exfalso; destruct (st r) eqn:S0; [now apply (K2 eq_refl)|destruct K1; congruence|congruence]].
        right. pose proof I1 as (_ & _ & I2). rewrite S1 in I2. destruct I2 as (q & Hq' & Hf). pose proof (dashed_nonnil _ (proj1 Hinv)) as HD0.
        rewrite B1 in *. rewrite B in *. rewrite R1 in Hf. assert (ER : rem r = buf r1 ++ stream (src r1)) by (rewrite <- R1; reflexivity).
        destruct (found_split _ _ _ _ _ _ HD0 ER Hq' Hf) as [FS FL]. rewrite Hr in FS.
        pose proof (HF _ _ _ _ Hu FS) as Q. assert (idx r1 <= q) by (destruct Hq' as (_ & _ & [->|[-> _]]); lia).
        rewrite firstn_length in Q. destruct Hq' as (P1 & _). lia.
      * intros p' Q. injection Q as <-. now apply (fill_twice r).
    + intros l Hl'. apply says_peek; auto.
      * rewrite <- Hr, <- R1. unfold rem. destruct X as (-> & _). exists (skipn (idx r1) (buf r1) ++ stream (src r1)). now rewrite app_assoc, firstn_skipn.
      * intros p' Q. specialize (Hp _ Q). congruence.
  - destruct W as (Hs & Hp). destruct (at_end_fill _ Hinv Hq Hs) as (r1 & E & S1 & I1 & B1 & M1 & L1 & Z1). rewrite E.
    assert (Sx : steps r r1).
    { apply (step_steps toy true OFill r (BFill toy (Ok [])) r1 Hinv). cbn [step]. now rewrite E. }
    destruct (ready_later _ _ R Sx L1 L) as (R1' & L1').
    exists [], r1. split; auto. intros cs. exists (Some []). split.
    + split; auto. split; [congruence|]. split; [congruence|]. split; auto. split; auto. intros p Q. now injection Q.
    + intros l Hl'. now constructor.
Qed.

Lemma make_text r s o : stands r s o -> exists c r1, make sz Text r = (SText (Ok c), r1) /\
  forall cs, exists s1, stands r1 s1 None /\ forall l, says D s1 None cs l -> says D s o (Text :: cs) (SText (Ok c) :: l).
Proof.
  intros (R & B & M & L & W). cbn [make]. pose proof R as (Hinv & Hn & Hl & Hq & _). pose proof (dashed_nonnil _ (proj1 Hinv)) as HD0. rewrite B in HD0.
  destruct s as [s|].
  - destruct W as (Hs & Hr & (u & Hu) & Hi & Hp).
    destruct (split_or_absent D s HD0) as [(pre & post & FS)|Ha].
    + pose proof (HF _ _ _ _ Hu FS) as Lp. destruct (content_exists D s pre post FS) as (c & Hc).
      assert (Lc : length c <= length pre).
      { destruct Hc as (pre' & post' & FS' & [E|[E _]]); destruct (first_split_fun _ _ _ _ _ _ FS FS') as [<- <-]; rewrite E; rewrite ?app_length; lia. }
      destruct (drain_exact toy (S (length (buf r) + length (stream (src r)))) sz 0 r c) as (r1 & Dr & R1 & _ & L1 & K & S1 & Z1 & B1 & C1); auto.
      { right. intros t1 t2 _ _ _. lia. } { rewrite M. auto. } { rewrite B, M. lia. } { rewrite B, Hr. auto. } { unfold rem. rewrite app_length. lia. }
      rewrite Dr. exists c, r1. split; auto. intros cs. destruct K as [K0 K1]. rewrite Hr in K0. exists (Some (rem r1)). split.
      * split; auto. split; [congruence|]. assert (M1 : minb r1 = minb r) by (eapply drain_minb; eauto). split; [congruence|].
        split; [eapply later_trans; eauto|]. split; auto. split; auto. split; [exists (u ++ c); now rewrite Hu, K0, <- app_assoc|].
        split; [right; rewrite Z1; cbn; lia|discriminate].
      * intros l Hl'. eapply says_text; eauto.
    + destruct (drain_absent sz (S (length (buf r) + length (stream (src r)))) 0 r) as (d & w & r1 & Dr & E1 & Rw & Wh & R1 & L1 & S1 & Z1 & B1 & M1); auto.
      { rewrite B, M. lia. } { rewrite B, Hr. auto. } { unfold rem. rewrite app_length. lia. }
      rewrite Dr. exists d, r1. split; auto. intros cs. rewrite Hr in E1. exists (Some w). split.
      * split; auto. split; [congruence|]. split; [congruence|]. split; [eapply later_trans; eauto|]. split; auto. split; auto.
        split; [exists (u ++ d); now rewrite Hu, E1, <- app_assoc|]. split; [right; rewrite Z1; cbn; lia|discriminate].
      * intros l Hl'. rewrite B in Wh. eapply says_rest; eauto.
  - destruct W as (Hs & Hp). cbn [drain]. unfold read. destruct (at_end_fill _ Hinv Hq Hs) as (r1 & E & S1 & I1 & B1 & M1 & L1 & Z1). rewrite E.
    rewrite firstn_nil. cbn [length].
    assert (Sx : steps r (consume 0 r1)).
    { apply (step_steps toy true (ORead 0) r (BRead toy (Ok [])) (consume 0 r1) Hinv). cbn [step]. unfold read. rewrite E. reflexivity. }
    assert (L2 : later (src (consume 0 r1)) (src r)) by exact L1.
    destruct (ready_later _ _ R Sx L2 L) as (R1' & L1').
    exists [], (consume 0 r1). split; auto. intros cs. exists None. split.
    + split; auto. split; [cbn; congruence|]. split; [cbn; congruence|]. split; auto. split; auto. discriminate.
    + intros l Hl'. now constructor.
Qed.

Lemma calls_say cs : forall r s o l r', stands r s o -> calls sz cs r = (l, r') -> says D s o cs l.
Proof.
  induction cs as [|c cs IH]; intros r s o l r' W; cbn [calls].
  { intros H; injection H as <- <-. constructor. }
  destruct c.
  - destruct (make_text _ _ _ W) as (x & r1 & -> & H). cbn [failed]. destruct (H cs) as (s1 & W1 & H1).
    destruct (calls sz cs r1) as [l1 r2] eqn:E. intros Q; injection Q as <- <-. eauto.
  - destruct (make_next _ _ _ W) as (x & r1 & -> & H). destruct (H cs) as [[F G]|[F (s1 & W1 & G)]]; rewrite F.
    + intros Q; injection Q as <- <-. auto.
    + destruct (calls sz cs r1) as [l1 r2] eqn:E. intros Q; injection Q as <- <-. eauto.
  - destruct (make_peek _ _ _ W) as (x & r1 & -> & H). cbn [failed]. destruct (H cs) as (o1 & W1 & H1).
    destruct (calls sz cs r1) as [l1 r2] eqn:E. intros Q; injection Q as <- <-. eauto.
Qed.

End Cursor.

Lemma stands_start D t sz b : D = delimiter b -> live t -> quiet t -> (forall k, 0 < sz k) ->
  stands D t sz (from_reader t b) (Some (stream t)) None.
Proof.
  intros -> HL HQ HZ. split; [|split; [reflexivity|split; [reflexivity|split; [apply later_refl|]]]].
  - split; [apply inv_from_reader|]. split; [apply near_from_reader|]. split; [exact HL|]. split; [exact HQ|exact HZ].
  - split; [discriminate|]. split; [reflexivity|]. split; [now exists []|]. split; [now left|discriminate].
Qed.

(** The reader is a cursor over the body: whatever the chunks in which the body arrives and the sizes of the reads,
    every history of calls gets the answers that the bytes before the cursor determine. *)
Theorem C89_cursor t b sz cs l r' :
  live t -> quiet t -> (forall k, 0 < sz k) -> length (delimiter b) + 4 <= MIN_BUF_SIZE -> fits (delimiter b) (stream t) ->
  calls sz cs (from_reader t b) = (l, r') -> says (delimiter b) (Some (stream t)) None cs l.
Proof.
  intros HL HQ HZ HD HF. apply (calls_say (delimiter b) t sz HZ HD HF). now apply stands_start.
Qed.

(** The answers are determined, but for the amount that [Peek] shows. *)
Definition cut_crlf (pre : bytes) : bytes :=
  if beq (skipn (length pre - 2) pre) CRLF then firstn (length pre - 2) pre else pre.

Definition keeps (D w : bytes) : bool := beq w (firstn (length w) D) || beq w (CRLF ++ firstn (length w - 2) D).

Fixpoint predict (D : bytes) (s : option bytes) (cs : list call) : option (list (option said)) :=
  match cs with
  | [] => Some []
  | c :: cs' =>
      let go x s' := match predict D s' cs' with Some l => Some (x :: l) | None => None end in
      match s, c with
      | _, Peek => go None s
      | None, Text => go (Some (SText (Ok []))) None
      | None, Next => go (Some (SNext (Ok false))) None
      | Some s, Text =>
          match find_bytes s D with
          | Some i => let c := cut_crlf (firstn i s) in go (Some (SText (Ok c))) (Some (skipn (length c) s))
          | None => if forallb (fun k => negb (keeps D (skipn k s))) (seq 0 (length s)) then go (Some (SText (Ok s))) (Some []) else None
          end
      | Some s, Next =>
          match find_bytes s D with
          | Some i =>
              match skipn (i + length D) s with
              | a :: b :: q =>
                  if beq [a; b] CRLF then go (Some (SNext (Ok true))) (Some q)
                  else if beq [a; b] DASHES then go (Some (SNext (Ok false))) None
                  else Some [Some (SNext (Err (EBadBoundary a b)))]
              | _ => Some [Some (SNext (Err EShortBoundary))]
              end
          | None => Some [Some (SNext (Err EEndOfBody))]
          end
      end
  end.

Definition meets (x : said) (e : option said) : Prop := match e with Some y => x = y | None => exists p, x = SPeek (Ok p) end.

Lemma find_first D s i : D <> [] -> find_bytes s D = Some i -> first_split D s (firstn i s) (skipn (i + length D) s).
Proof.
  intros HD H. apply find_bytes_some in H as (H1 & H2 & H3). apply first_split_iff. rewrite firstn_length, Nat.min_l by lia. split; auto.
  apply sw_iff in H2 as [u Hu]. rewrite <- skipn_skipn', Hu, skipn_app, skipn_all, Nat.sub_diag. cbn [skipn app].
  rewrite <- Hu. symmetry. apply firstn_skipn.
Qed.

Lemma find_absent D s : D <> [] -> find_bytes s D = None -> absent D s.
Proof.
  intros HD H i O. apply occurs_at_sw in O as [O1 O2]. pose proof (find_bytes_none _ _ H i O1). congruence.
Qed.

Lemma split_absent D s pre post : first_split D s pre post -> absent D s -> False.
Proof. intros [E _] A. apply (A (length pre)). exists pre, post. auto. Qed.

Lemma cut_content' D s pre post c : first_split D s pre post -> content D s c -> c = cut_crlf pre.
Proof.
  intros FS (pre' & post' & FS' & H). destruct (first_split_fun _ _ _ _ _ _ FS FS') as [<- <-]. unfold cut_crlf. destruct H as [->|[-> H]].
  - rewrite app_length. cbn [CRLF length]. replace (length c + 2 - 2) with (length c) by lia.
    rewrite skipn_app, skipn_all, Nat.sub_diag, firstn_app, firstn_all, Nat.sub_diag. cbn [app skipn firstn beq]. now rewrite app_nil_r.
  - destruct (beq _ CRLF) eqn:E; auto. apply beq_eq in E. exfalso. apply (H (firstn (length pre - 2) pre)). rewrite <- E. symmetry. apply firstn_skipn.
Qed.

Lemma keeps_withheld D w : withheld D w -> keeps D w = true.
Proof.
  intros (f & [u ->] & [->| ->]); unfold keeps; apply orb_true_iff; [left|right]; apply beq_eq.
  - now rewrite firstn_app, firstn_all, Nat.sub_diag, firstn_O, app_nil_r.
  - rewrite app_length. cbn [CRLF length]. replace (2 + length f - 2) with (length f) by lia.
    now rewrite firstn_app, firstn_all, Nat.sub_diag, firstn_O, app_nil_r.
Qed.

Lemma says_predict D s o cs l : D <> [] -> says D s o cs l -> forall e, predict D s cs = Some e -> Forall2 meets l e.
Proof.
  intros HD H. induction H; intros e; cbn [predict].
  - intros Q; injection Q as <-. constructor.
  - destruct (predict D None cs) as [e'|]; [|discriminate]. intros Q; injection Q as <-. constructor; [reflexivity|auto].
  - destruct (predict D None cs) as [e'|]; [|discriminate]. intros Q; injection Q as <-. constructor; [now eexists|auto].
  - destruct (predict D None cs) as [e'|]; [|discriminate]. intros Q; injection Q as <-. constructor; [reflexivity|auto].
  - destruct (find_bytes s D) as [i|] eqn:F.
    + pose proof (find_first _ _ _ HD F) as FS. rewrite <- (cut_content' _ _ _ _ _ FS H). rewrite H0 at 1. rewrite skipn_app, skipn_all, Nat.sub_diag. cbn [skipn app].
      destruct (predict D (Some s') cs) as [e'|]; [|discriminate]. intros Q; injection Q as <-. constructor; [reflexivity|auto].
    + destruct H as (pre & post & FS & _). destruct (split_absent _ _ _ _ FS (find_absent _ _ HD F)).
  - destruct (find_bytes s D) as [i|] eqn:F; [destruct (split_absent _ _ _ _ (find_first _ _ _ HD F) H)|].
    destruct (forallb _ _) eqn:K; [|discriminate].
    assert (w = []) as ->.
    { destruct w as [|a w]; auto. exfalso. rewrite forallb_forall in K. specialize (K (length c)). rewrite H0, skipn_app, skipn_all, Nat.sub_diag in K.
      rewrite app_length, in_seq in K. cbn [length skipn app] in K. rewrite (keeps_withheld _ _ H1) in K. discriminate K. lia. }
    rewrite app_nil_r in H0. subst c. destruct (predict D (Some []) cs) as [e'|]; [|discriminate]. intros Q; injection Q as <-. constructor; [reflexivity|auto].
  - destruct (predict D (Some s) cs) as [e'|]; [|discriminate]. intros Q; injection Q as <-. constructor; [now eexists|auto].
  - destruct (find_bytes s D) as [i|] eqn:F; [|destruct (split_absent _ _ _ _ H (find_absent _ _ HD F))].
    destruct (first_split_fun _ _ _ _ _ _ H (find_first _ _ _ HD F)) as [_ <-]. cbn [CRLF app beq]. rewrite !N.eqb_refl. cbn [andb].
    destruct (predict D (Some q) cs) as [e'|]; [|discriminate]. intros Q; injection Q as <-. constructor; [reflexivity|auto].
  - destruct (find_bytes s D) as [i|] eqn:F; [|destruct (split_absent _ _ _ _ H (find_absent _ _ HD F))].
    destruct (first_split_fun _ _ _ _ _ _ H (find_first _ _ _ HD F)) as [_ <-]. cbn [DASHES app].
    replace (beq [DASH; DASH] CRLF) with false by reflexivity. replace (beq [DASH; DASH] [DASH; DASH]) with true by reflexivity.
    destruct (predict D None cs) as [e'|]; [|discriminate]. intros Q; injection Q as <-. constructor; [reflexivity|auto].
  - destruct (find_bytes s D) as [i|] eqn:F; [|destruct (split_absent _ _ _ _ H (find_absent _ _ HD F))].
    destruct (first_split_fun _ _ _ _ _ _ H (find_first _ _ _ HD F)) as [_ <-].
    destruct (beq [a; b] CRLF) eqn:E1; [apply beq_eq in E1; contradiction|]. destruct (beq [a; b] DASHES) eqn:E2; [apply beq_eq in E2; contradiction|].
    intros Q; injection Q as <-. constructor; [reflexivity|constructor].
  - destruct (find_bytes s D) as [i|] eqn:F; [|destruct (split_absent _ _ _ _ H (find_absent _ _ HD F))].
    destruct (first_split_fun _ _ _ _ _ _ H (find_first _ _ _ HD F)) as [_ <-].
    destruct post as [|x [|y post]]; cbn [length] in *; [| |lia]; intros Q; injection Q as <-; constructor; [reflexivity|constructor|reflexivity|constructor].
  - destruct (find_bytes s D) as [i|] eqn:F; [destruct (split_absent _ _ _ _ (find_first _ _ _ HD F) H)|].
    intros Q; injection Q as <-. constructor; [reflexivity|constructor].
Qed.

(** Two [Peek]s in a row show the same. *)
Lemma says_twice D s o cs l : says D s o cs l -> forall i, nth_error cs i = Some Peek -> nth_error cs (S i) = Some Peek ->
  S i < length l -> nth_error l i = nth_error l (S i).
Proof.
  intros H. induction H; intros i Q1 Q2 HL.
  all: destruct i as [|i]; cbn [nth_error length] in *; try discriminate; try lia; try (apply IHsays; auto; lia).
  - destruct cs as [|c cs]; [discriminate|]. injection Q2 as ->. inversion H; subst; reflexivity.
  - destruct cs as [|c cs]; [discriminate|]. injection Q2 as ->. inversion H1; subst. cbn [nth_error].
    match goal with K : forall p', Some _ = Some p' -> _ |- _ => now rewrite (K _ eq_refl) end.
Qed.

Lemma fits_short D B : length B + 4 <= MIN_BUF_SIZE -> fits D B.
Proof. intros H u s pre post -> [-> _]. rewrite !app_length in *. lia. Qed.

Lemma test_meets t b sz cs e l r' :
  live t -> quiet t -> (forall k, 0 < sz k) -> length (delimiter b) + 4 <= MIN_BUF_SIZE -> length (stream t) + 4 <= MIN_BUF_SIZE ->
  predict (delimiter b) (Some (stream t)) cs = Some e -> calls sz cs (from_reader t b) = (l, r') ->
  Forall2 meets l e /\ says (delimiter b) (Some (stream t)) None cs l.
Proof.
  intros HL HQ HZ HD HS HP H. assert (Q : says (delimiter b) (Some (stream t)) None cs l) by (eapply C89_cursor; eauto; now apply fits_short).
  split; auto. eapply says_predict; eauto. discriminate.
Qed.

Lemma meets_all l e : Forall2 meets l (map Some e) -> l = e.
Proof.
  revert l; induction e as [|x e IH]; intros l H; inversion H as [|y z l' e' M K]; subst; auto. cbn [meets] in M. rewrite M. f_equal. auto.
Qed.

(** The tests of the reader that do not peek: the answers expected are those given, for every chunking of the body and every size of the reads. *)
Theorem C89_tests t sz cs :
  live t -> quiet t -> (forall k, 0 < sz k) ->
  forall e, In (stream t, cs, e)
    [(TEST_VAL, boundary_calls, boundary_says); (empty_body, empty_calls, empty_says); (leading_body, leading_calls, leading_says);
     (skip_body, skip_calls, skip_says); (lone_body, [Next], [SNext (Err EShortBoundary)]); (invalid_body, [Next], [SNext (Err (EBadBoundary 0 0))])] ->
  fst (calls sz cs (from_reader t BOUNDARY)) = e.
Proof.
  intros HL HQ HZ e H. destruct (calls sz cs (from_reader t BOUNDARY)) as [l r'] eqn:E. cbn [fst].
  apply meets_all. apply (test_meets t BOUNDARY sz cs (map Some e) l r'); auto.
  - apply Nat.leb_le; vm_compute; reflexivity.
  - apply Nat.leb_le. repeat (destruct H as [H|H]; [injection H as <- _ _; vm_compute; reflexivity|]). destruct H.
  - repeat (destruct H as [H|H]; [injection H as <- <- <-; vm_compute; reflexivity|]). destruct H.
Qed.

(** The tests that peek twice: both show the same prefix of the content. *)
Theorem C89_peeks t sz cs :
  live t -> quiet t -> (forall k, 0 < sz k) ->
  forall e, (stream t, cs, e) = (trailing_body, trailing_calls, trailing_says) \/ (stream t, cs, e) = (lflf_body, trailing_calls, lflf_says) \/
    (stream t, cs, e) = (unterminated_body, unterminated_calls, unterminated_says) ->
  exists p, fst (calls sz cs (from_reader t BOUNDARY)) = e p.
Proof.
  intros HL HQ HZ e H. destruct (calls sz cs (from_reader t BOUNDARY)) as [l r'] eqn:E. cbn [fst].
  destruct (predict (delimiter BOUNDARY) (Some (stream t)) cs) as [x|] eqn:P.
  2: { exfalso. repeat (destruct H as [H|H]); injection H as H1 H2 H3; rewrite H1, H2 in P; vm_compute in P; discriminate. }
  destruct (test_meets t BOUNDARY sz cs x l r') as [M Sy]; auto.
  - apply Nat.leb_le; vm_compute; reflexivity.
  - apply Nat.leb_le. repeat (destruct H as [H|H]); injection H as -> _ _; vm_compute; reflexivity.
  - pose proof (says_twice _ _ _ _ _ Sy 1) as T.
    repeat (destruct H as [H|H]); injection H as H1 -> ->; rewrite H1 in P; vm_compute in P; injection P as <-;
      repeat match goal with K : Forall2 meets _ (_ :: _) |- _ => inversion K; clear K; subst | K : Forall2 meets _ [] |- _ => inversion K; clear K; subst end;
      repeat match goal with K : meets _ (Some _) |- _ => cbn [meets] in K; subst | K : meets _ None |- _ => destruct K as (? & ?); subst end;
      cbn [nth_error length trailing_calls unterminated_calls] in T; specialize (T eq_refl eq_refl ltac:(lia)); injection T as ->; eexists; reflexivity.
Qed.

(** ** The tests of [foreach_entry] *)

From Verif Require Import EntriesProofs PropsForeach.

(** A body without the boundary: an error and no entry, for every chunking and every transport. *)
Theorem C89_no_boundary ML trim f fuel t b :
  absent (delimiter b) (stream t) -> exists e r', foreach_entry ML trim f (S fuel) 0 (with_body t b) = (Err (EBnd e), [], r').
Proof.
  intros Ha. cbn [foreach_entry]. unfold read_entry.
  destruct (consume_boundary (set_min_buf_size MIN_BUF_SIZE (with_body t b))) as [x r1] eqn:E.
  pose proof (consume_boundary_spec _ _ _ (inv_set_min MIN_BUF_SIZE _ (inv_from_reader t b)) E) as (_ & _ & _ & _ & _ & N0).
  cbn [st set_min_buf_size with_body from_reader] in N0. specialize (N0 ltac:(discriminate)).
  destruct x as [[|]|e| |]; cbn [next_outcome] in N0; try contradiction.
  - exfalso. destruct N0 as (pre & q & FS & _). exact (split_absent _ _ _ _ FS Ha).
  - exfalso. destruct N0 as (pre & q & FS & _). exact (split_absent _ _ _ _ FS Ha).
  - eexists. eexists. reflexivity.
Qed.

Theorem C89_issue_104 ML trim f fuel t :
  stream t = issue_104_body -> exists e r', foreach_entry ML trim f (S fuel) 0 (with_body t (bs "boundary")) = (Err (EBnd e), [], r').
Proof. intros H. apply C89_no_boundary. rewrite H. apply find_absent; [discriminate|vm_compute; reflexivity]. Qed.

Lemma entry_none ML trim r r' : inv r -> read_entry ML trim r = (Ok None, r') -> inv r' /\ st r' = AtEnd.
Proof.
  intros Hi E. split; [exact (read_entry_keeps ML _ _ _ _ Hi E)|]. assert (Hs : st r = AtEnd \/ st r <> AtEnd) by (destruct (st r); auto; right; discriminate).
  destruct Hs as [Hs|Hs].
  - unfold read_entry in E. destruct (consume_boundary _) as [x r1] eqn:C.
    pose proof (consume_boundary_spec _ _ _ (inv_set_min MIN_BUF_SIZE r Hi) C) as (_ & _ & _ & _ & HE & _). destruct (HE Hs) as [-> ->].
    now injection E as <-.
  - now destruct (read_entry_end ML _ _ _ Hi Hs E) as (_ & _ & _ & _ & S1).
Qed.

Lemma foreach_ends ML trim f fuel : forall n r l r', inv r -> foreach_entry ML trim f fuel n r = (Ok tt, l, r') -> inv r' /\ st r' = AtEnd.
Proof.
  induction fuel as [|fuel IH]; intros n r l r' Hi; cbn [foreach_entry]; [discriminate|].
  destruct (read_entry ML trim r) as [[[h|]|e| |] r1] eqn:E; try discriminate.
  - destruct (run ML trim (f n h) r1) as [os r2] eqn:R. destruct (foreach_entry ML trim f fuel (S n) r2) as [[x l2] r3] eqn:F.
    intros Q; injection Q as -> <- <-. pose proof (read_entry_keeps ML _ _ _ _ Hi E) as I1.
    apply (IH (S n) r2 l2 r3); auto. eapply (run_inv ML); eauto.
  - intros Q; injection Q as <- <-. exact (entry_none _ _ _ _ Hi E).
Qed.

Lemma foreach_again ML trim f fuel n r : inv r -> st r = AtEnd -> exists r', foreach_entry ML trim f (S fuel) n r = (Ok tt, [], r') /\ inv r' /\ st r' = AtEnd.
Proof.
  intros Hi Hs. cbn [foreach_entry]. destruct (read_entry ML trim r) as [x r1] eqn:E.
  assert (Q : x = Ok None).
  { unfold read_entry in E. destruct (consume_boundary _) as [y r2] eqn:C.
    pose proof (consume_boundary_spec _ _ _ (inv_set_min MIN_BUF_SIZE r Hi) C) as (_ & _ & _ & _ & HE & _). destruct (HE Hs) as [-> ->].
    now injection E as <- <-. }
  subst x. destruct (entry_none _ _ _ _ Hi E). eauto.
Qed.

(** After [foreach_entry] has succeeded, further calls succeed and visit nothing, whatever the callbacks. *)
Theorem C89_again ML trim f1 f2 fuel fuel2 n n2 t b l r :
  foreach_entry ML trim f1 fuel n (with_body t b) = (Ok tt, l, r) -> exists r', foreach_entry ML trim f2 (S fuel2) n2 r = (Ok tt, [], r').
Proof.
  intros H. apply foreach_ends in H as [Hi Hs]; [|apply inv_from_reader]. destruct (foreach_again ML trim f2 fuel2 n2 r Hi Hs) as (r' & E & _). eauto.
Qed.

Definition key (ML : mime_lib) (name : bytes) : field_headers ML := mkFH ML name None None.

Lemma key_head ML trim name : In name [bs "key1"; bs "key2"; bs "key3"] ->
  head_block ML trim (delimiter issue_114_boundary) (toy_head name) (key ML name).
Proof.
  intros H. split.
  - repeat (destruct H as [<-|H]; [eexists; split; [intros y; destruct trim; vm_compute; reflexivity|split; vm_compute; reflexivity]|]). destruct H.
  - apply Nat.leb_le. repeat (destruct H as [<-|H]; [vm_compute; reflexivity|]). destruct H.
Qed.

(** What the body of [issue_114] contains. *)
Lemma issue_114_parts ML trim : parts (head_block ML trim (delimiter issue_114_boundary)) (delimiter issue_114_boundary) issue_114_body
  [(key ML (bs "key1"), bs "v1,"); (key ML (bs "key2"), bs "v2,"); (key ML (bs "key3"), bs "v3")].
Proof.
  pose (E := DASHES ++ issue_114_boundary ++ DASHES ++ CRLF).
  pose (P3 := issue_114_part (bs "key3") (bs "v3") ++ E). pose (P2 := issue_114_part (bs "key2") (bs "v2,") ++ P3).
  apply parts_field with (pre := []) (x := toy_head (bs "key1")) (rest := bs "v1," ++ CRLF ++ P2).
  - apply find_split; vm_compute; reflexivity.
  - apply key_head. cbn [In]. auto.
  - exists (toy_head (bs "key1") ++ bs "v1," ++ CRLF), (skipn (length (delimiter issue_114_boundary)) P2).
    split; [|left; vm_compute; reflexivity]. apply find_split; vm_compute; reflexivity.
  - apply parts_field with (pre := bs "v1," ++ CRLF) (x := toy_head (bs "key2")) (rest := bs "v2," ++ CRLF ++ P3).
    + apply find_split; vm_compute; reflexivity.
    + apply key_head. cbn [In]. auto.
    + exists (toy_head (bs "key2") ++ bs "v2," ++ CRLF), (skipn (length (delimiter issue_114_boundary)) P3).
      split; [|left; vm_compute; reflexivity]. apply find_split; vm_compute; reflexivity.
    + apply parts_field with (pre := bs "v2," ++ CRLF) (x := toy_head (bs "key3")) (rest := bs "v3" ++ CRLF ++ E).
      * apply find_split; vm_compute; reflexivity.
      * apply key_head. cbn [In]. auto.
      * exists (toy_head (bs "key3") ++ bs "v3" ++ CRLF), (DASHES ++ CRLF).
        split; [|left; vm_compute; reflexivity]. apply find_split; vm_compute; reflexivity.
      * eapply parts_end with (pre := bs "v3" ++ CRLF) (q := CRLF). apply find_split; vm_compute; reflexivity.
Qed.

(** [issue_114], for every chunking: the first call visits the three fields, which the callback does not read; the other two calls succeed too. *)
Theorem C89_issue_114 ML trim f2 f3 t :
  live t -> quiet t -> stream t = issue_114_body ->
  exists l1, thrice ML trim 4 (fun _ _ => []) f2 f3 (with_body t issue_114_boundary) = Some (l1, [], []) /\
    map fst l1 = [key ML (bs "key1"); key ML (bs "key2"); key ML (bs "key3")].
Proof.
  intros HL HQ Hs. unfold thrice.
  destruct (foreach_entry ML trim (fun _ _ => []) 4 0 (with_body t issue_114_boundary)) as [[x l] r1] eqn:E.
  pose proof (issue_114_parts ML trim) as P. rewrite <- Hs in P.
  assert (Hf : forall (n : nat) (h : field_headers ML), Forall field_op []) by (intros; constructor).
  destruct (C73_all_partial ML trim (fun _ _ => []) t issue_114_boundary x l r1 _ HL HQ Hf P E) as [-> M].
  - intros i h ob c _ Hn. right. apply Nat.leb_le. destruct i as [|[|[|[|i]]]]; cbn [nth_error] in Hn; try discriminate; injection Hn as _ <-; vm_compute; reflexivity.
  - exists l. split; [|exact M]. destruct (foreach_ends _ _ _ _ _ _ _ _ (inv_from_reader _ _) E) as [I1 S1].
    destruct (foreach_again ML trim f2 3 0 r1 I1 S1) as (r2 & -> & I2 & S2).
    now destruct (foreach_again ML trim f3 3 0 r2 I2 S2) as (r3 & -> & _).
Qed.

(** The body of the tests byte by byte, read with a buffer of three bytes; and a history with a [Peek] after each call. *)
Example C89_example :
  let t := map (fun x => Chunk [x]) TEST_VAL in
  live t /\ quiet t /\ fits (delimiter BOUNDARY) (stream t) /\
  fst (calls (fun _ => 3) boundary_calls (from_reader t BOUNDARY)) = boundary_says /\
  fst (calls (fun _ => 3) [Peek; Next; Peek; Next; Peek; Text; Peek; Next; Peek; Next] (from_reader t BOUNDARY)) =
    [SPeek (Ok []); SNext (Ok true); SPeek (Ok (bs "dashed-value-1")); SNext (Ok true); SPeek (Ok (bs "dashed-value-2")); SText (Ok (bs "dashed-value-2"));
     SPeek (Ok []); SNext (Ok false); SPeek (Ok []); SNext (Ok false)].
Proof.
  cbv zeta. split; [intros H; apply in_map_iff in H as (x & H & _); discriminate|].
  split; [intros k H; apply in_map_iff in H as (x & H & _); discriminate|].
  split; [apply fits_short; apply Nat.leb_le; vm_compute; reflexivity|]. split; vm_compute; reflexivity.
Qed.
