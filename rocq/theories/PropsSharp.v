(** Which chunkings make the CRLF of a delimiter part of the data (C95): a chunk that ends between the CR and the LF and
    leaves the reader with a full buffer does, for every content of 1023 bytes or more and every read of 2 KiB or more. *)

From Verif Require Import Bytes BytesProofs Spec Io Boundary BoundaryProofs Utf8 Httparse HttparseProofs Field
  FieldProofs ContentProofs DataProofs ShortProofs EntryProofs ReaderProofs Drive DriveProofs ReachProofs Rand Fs Save SaveProofs PhaseProofs SaveFacts
  Toy PropsReader EntriesProofs PropsForeach PropsMinBuf PropsAny PropsAnyway.

(** ** Specification *)

(** [R] has the fields [l1], then the field [hc] whose data begin at [q], then the fields [l2]. *)
Inductive form_at {H : Type} (head : bytes -> H -> Prop) (D : bytes) :
  bytes -> list (H * bytes) -> H * bytes -> list (H * bytes) -> bytes -> Prop :=
| form_here R pre x rest h c l2 :
    first_split D R pre (CRLF ++ x ++ rest) -> head x h -> content D (x ++ rest) (x ++ c) -> parts head D rest l2 ->
    form_at head D R [] (h, c) l2 rest
| form_more R pre x rest h c l1 hc l2 q :
    first_split D R pre (CRLF ++ x ++ rest) -> head x h -> content D (x ++ rest) (x ++ c) -> form_at head D rest l1 hc l2 q ->
    form_at head D R ((h, c) :: l1) hc l2 q.

(** A body in which every delimiter but the first is preceded by a CRLF, as RFC 2046 demands. *)
Inductive rfc {H : Type} (head : bytes -> H -> Prop) (D : bytes) : bytes -> list (H * bytes) -> Prop :=
| rfc_end q : rfc head D (D ++ DASHES ++ q) []
| rfc_field x h c s l : head x h -> (forall i, occurs_at D (x ++ c ++ CRLF ++ s) i -> length (x ++ c ++ CRLF) <= i) -> rfc head D s l ->
    rfc head D (D ++ CRLF ++ x ++ c ++ CRLF ++ s) ((h, c) :: l).

Lemma form_parts {H} (head : bytes -> H -> Prop) D R l1 hc l2 q : form_at head D R l1 hc l2 q -> parts head D R (l1 ++ hc :: l2).
Proof. induction 1; cbn [app]; eapply parts_field; eauto. Qed.

Lemma rfc_starts {H} (head : bytes -> H -> Prop) D s l : rfc head D s l -> exists w, s = D ++ w.
Proof. destruct 1; eauto. Qed.

Lemma rfc_first D x c s : (forall i, occurs_at D (x ++ c ++ CRLF ++ s) i -> length (x ++ c ++ CRLF) <= i) -> (exists w, s = D ++ w) ->
  content D (x ++ c ++ CRLF ++ s) (x ++ c).
Proof.
  intros F (w & ->). exists (x ++ c ++ CRLF), w. split; [|left; now rewrite <- app_assoc]. split; [now rewrite <- !app_assoc|exact F].
Qed.

Lemma rfc_parts {H} (head : bytes -> H -> Prop) D s l : rfc head D s l -> forall P, (forall i, occurs_at D (P ++ s) i -> length P <= i) ->
  parts head D (P ++ s) l.
Proof.
  induction 1 as [q|x h c s l Hx F Hs IH]; intros P HP.
  - apply (parts_end head D _ P q). split; auto.
  - apply (parts_field head D _ P x (c ++ CRLF ++ s)); auto.
    + split; auto.
    + apply rfc_first; auto. eapply rfc_starts; eauto.
    + replace (c ++ CRLF ++ s) with ((c ++ CRLF) ++ s) by now rewrite <- app_assoc. apply IH.
      intros i Hi. specialize (F (length x + i)). rewrite app_length in F.
      cut (length x + length (c ++ CRLF) <= length x + i); [lia|]. apply F. destruct Hi as (a & b & E & L).
      exists (x ++ a), b. rewrite <- !app_assoc in *. rewrite E, app_length. split; auto.
Qed.

Lemma rfc_form {H} (head : bytes -> H -> Prop) D s l : rfc head D s l -> forall P l1 h c l2,
  (forall i, occurs_at D (P ++ s) i -> length P <= i) -> l = l1 ++ (h, c) :: l2 ->
  exists a post, P ++ s = a ++ c ++ CRLF ++ D ++ post /\ form_at head D (P ++ s) l1 (h, c) l2 (c ++ CRLF ++ D ++ post).
Proof.
  induction 1 as [q|x h0 c0 s l Hx F Hs IH]; intros P l1 h c l2 HP E.
  - now destruct l1.
  - assert (F' : forall i, occurs_at D ((c0 ++ CRLF) ++ s) i -> length (c0 ++ CRLF) <= i).
    { intros i Hi. specialize (F (length x + i)). rewrite app_length in F.
      cut (length x + length (c0 ++ CRLF) <= length x + i); [lia|]. apply F. destruct Hi as (a & b & Ei & L).
      exists (x ++ a), b. rewrite <- !app_assoc in *. rewrite Ei, app_length. split; auto. }
    assert (FS : first_split D (P ++ D ++ CRLF ++ x ++ c0 ++ CRLF ++ s) P (CRLF ++ x ++ c0 ++ CRLF ++ s)) by (split; auto).
    assert (Hc : content D (x ++ c0 ++ CRLF ++ s) (x ++ c0)) by (apply rfc_first; auto; eapply rfc_starts; eauto).
    destruct l1 as [|[h1 c1] l1]; cbn [app] in E.
    + injection E as <- <- <-. destruct (rfc_starts _ _ _ _ Hs) as (w & ->).
      exists (P ++ D ++ CRLF ++ x), w. split; [now rewrite <- !app_assoc|]. eapply form_here; eauto.
      replace (c0 ++ CRLF ++ D ++ w) with ((c0 ++ CRLF) ++ D ++ w) by now rewrite <- app_assoc. eapply rfc_parts; eauto.
    + injection E as <- <- E. destruct (IH (c0 ++ CRLF) l1 h c l2 F' E) as (a & post & E' & Fm).
      exists (P ++ D ++ CRLF ++ x ++ a), post. rewrite <- app_assoc in E', Fm. split; [|eapply form_more; eauto].
      rewrite <- !app_assoc. now rewrite E'.
Qed.

(** ** The chunks behind a full buffer are left alone *)

Inductive nsteps : breader -> breader -> Prop :=
| n_refl r : nsteps r r
| n_fill r r1 x r2 : nsteps r r1 -> read_to_boundary r1 = (x, r2) -> nsteps r r2
| n_cons n r r1 : nsteps r r1 -> nsteps r (consume n r1)
| n_verify r r1 x r2 : nsteps r r1 -> st r1 = BoundaryRead -> verify_boundary r1 = (x, r2) -> nsteps r r2.

Lemma nsteps_steps r r' : nsteps r r' -> steps r r'.
Proof. induction 1; eauto using s_refl, s_fill, s_cons, s_verify. Qed.

Lemma nsteps_trans a b c : nsteps a b -> nsteps b c -> nsteps a c.
Proof. intros H1 H2; revert H1. induction H2; intros K; eauto using n_fill, n_cons, n_verify. Qed.

Lemma skip_nsteps fuel r x r' : skip_to_boundary fuel r = (x, r') -> nsteps r r'.
Proof.
  revert r; induction fuel as [|fuel IH]; intros r; cbn [skip_to_boundary]; destruct (st r);
    try (intros H; injection H as <- <-; apply n_refl).
  destruct (read_to_boundary r) as [y r1] eqn:E.
  assert (S1 : nsteps r r1) by (eapply n_fill; eauto using n_refl).
  destruct y; try (intros H; injection H as <- <-; exact S1).
  destruct (_ && _); try (intros H; injection H as <- <-; exact S1).
  intros H. apply IH in H. eapply nsteps_trans; [|exact H]. now apply n_cons.
Qed.

Lemma consume_boundary_nsteps r x r' : inv r -> consume_boundary r = (x, r') -> nsteps r r'.
Proof.
  intros Hinv. unfold consume_boundary.
  assert (K : st r <> AtEnd ->
    (match skip_to_boundary (length (buf r) + length (stream (src r)) + 2) r with
      | (Ok _, r1) => verify_boundary r1
      | (Err e, r1) => (Err e, r1)
      | (Panic, r1) => (Panic, r1)
      | (OutOfFuel, r1) => (OutOfFuel, r1)
      end) = (x, r') -> nsteps r r').
  { intros Hst. destruct (skip_to_boundary _ r) as [y r1] eqn:E.
    pose proof (skip_nsteps _ _ _ _ E) as S1.
    apply skip_to_boundary_spec in E; auto.
    2: { unfold rem. rewrite app_length. lia. }
    destruct E as (_ & _ & _ & _ & _ & X).
    destruct y; try (intros H; injection H as <- <-; exact S1).
    intros H. destruct X as [X _]. eapply n_verify; eauto. }
  destruct (st r) eqn:Est; [apply K; congruence|apply K; congruence|].
  intros H; injection H as <- <-. apply n_refl.
Qed.

Lemma with_headers_nsteps trim fuel last r x r' : with_headers trim fuel last r = (x, r') -> nsteps r r'.
Proof.
  revert last r; induction fuel as [|fuel IH]; intros last r; cbn [with_headers].
  { intros H; injection H as <- <-; apply n_refl. }
  destruct (read_to_boundary r) as [y r1] eqn:E.
  assert (S1 : nsteps r r1) by (eapply n_fill; eauto using n_refl).
  destruct y; try (intros H; injection H as <- <-; exact S1).
  destruct (_ =? _); try (intros H; injection H as <- <-; exact S1).
  destruct (parse_headers trim HEADER_LEN a); try (intros H; injection H as <- <-; exact S1).
  - intros H. apply IH in H. eapply nsteps_trans; eauto.
  - destruct (copy_headers _); intros H; injection H as <- <-; auto. now apply n_cons.
Qed.

Lemma read_entry_nsteps ML trim r x r' : inv r -> read_entry ML trim r = (x, r') -> nsteps (set_min_buf_size MIN_BUF_SIZE r) r'.
Proof.
  intros Hinv. unfold read_entry.
  destruct (consume_boundary (set_min_buf_size MIN_BUF_SIZE r)) as [y r1] eqn:E.
  apply consume_boundary_nsteps in E; [|exact Hinv].
  destruct y as [[|]|e| |]; try (intros H; injection H as <- <-; exact E).
  unfold read_headers. destruct (with_headers _ _ _ r1) as [w r2] eqn:F. apply with_headers_nsteps in F.
  pose proof (nsteps_trans _ _ _ E F) as S2.
  destruct w as [hs|e| |]; [|intros H; injection H as <- <-; exact S2..].
  destruct (parse_field_headers ML hs); intros H; injection H as <- <-; exact S2.
Qed.

Lemma drain_nsteps sz fuel : forall k r x r', drain fuel sz k r = (x, r') -> nsteps r r'.
Proof.
  induction fuel as [|fuel IH]; intros k r x r'; cbn [drain]; [intros H; injection H as <- <-; apply n_refl|].
  unfold read. destruct (read_to_boundary r) as [y r1] eqn:E.
  assert (S1 : nsteps r r1) by (eapply n_fill; eauto using n_refl).
  destruct y as [d|e| |]; try (intros H; injection H as <- <-; exact S1).
  assert (S2 : nsteps r (consume (length (firstn (sz k) d)) r1)) by now apply n_cons.
  destruct (firstn (sz k) d) as [|o out]; [intros H; injection H as <- <-; exact S2|].
  destruct (drain fuel sz (S k) (consume (length (o :: out)) r1)) as [z r2] eqn:F. apply IH in F.
  pose proof (nsteps_trans _ _ _ S2 F) as S3. destruct z; intros H; injection H as <- <-; exact S3.
Qed.

(** What remains of the chunks [ts ++ [Chunk y]], and what is buffered once [y] was read. *)
Definition held (M : nat) (y : bytes) (r : breader) (ts : transport) : Prop :=
  (ts = [] /\ length (buf r) < M + length y) \/ exists ts', ts = ts' ++ [Chunk y].

Lemma fill_keep min M tz : forall ts b e b' t', min <= M -> M <= length (b ++ stream ts) ->
  fill_buf min b (ts ++ tz) = (e, b', t') -> exists ts', t' = ts' ++ tz.
Proof.
  induction ts as [|ev ts IH]; intros b e b' t' Hm Hb; cbn [app].
  - cbn [stream] in Hb. rewrite app_nil_r in Hb. intros H. exists []. cbn [app].
    assert (Z : fill_buf min b tz = (None, b, tz)).
    { destruct tz as [|ev tz]; cbn [fill_buf]; destruct (Nat.leb_spec min (length b)); auto; lia. }
    rewrite Z in H. now injection H as _ _ <-.
  - cbn [fill_buf]. destruct (min <=? length b).
    + intros H; injection H as <- <- <-. exists (ev :: ts). reflexivity.
    + destruct ev as [[|x c]|k].
      * intros H; injection H as <- <- <-. exists ts. reflexivity.
      * intros H. apply (IH _ _ _ _ Hm) in H; auto. cbn [stream] in Hb. now rewrite <- app_assoc.
      * intros H; injection H as <- <- <-. exists ts. reflexivity.
Qed.

Lemma fill_held min M y tz ts b e b' t' : min <= M -> M <= length (b ++ stream ts) ->
  (ts = [] /\ length b < M + length y \/ exists ts', ts = ts' ++ [Chunk y]) ->
  fill_buf min b (ts ++ tz) = (e, b', t') ->
  exists ts', t' = ts' ++ tz /\ (ts' = [] /\ length b' < M + length y \/ exists ts2, ts' = ts2 ++ [Chunk y]).
Proof.
  intros Hm Hb Hh H. destruct (fill_keep _ _ _ _ _ _ _ _ Hm Hb H) as (ts' & ->). exists ts'. split; auto.
  destruct (fill_reads _ _ _ _ _ _ H) as (used & Eu & -> & L). rewrite app_assoc in Eu. apply app_inv_tail in Eu. subst ts.
  destruct Hh as [[E Lb]|(ts1 & E)].
  - apply app_eq_nil in E as [-> ->]. left. cbn [stream]. rewrite app_nil_r. auto.
  - destruct ts' as [|ev ts' _] using rev_ind.
    + left. split; auto. rewrite app_nil_r in E. specialize (L _ _ E). subst used. rewrite stream_app. cbn [stream]. rewrite app_nil_r.
      rewrite app_length in L |- *. rewrite app_length. lia.
    + right. rewrite app_assoc in E. apply app_inj_tail in E as [_ ->]. eauto.
Qed.

Lemma nsteps_held M y tz r r' : nsteps r r' -> inv r -> minb r <= M -> forall ts, src r = ts ++ tz -> held M y r ts ->
  M + length (stream tz) <= length (rem r') ->
  minb r' = minb r /\ exists ts', src r' = ts' ++ tz /\ held M y r' ts'.
Proof.
  induction 1 as [r|r r1 x r2 S1 IH F|n r r1 S1 IH|r r1 x r2 S1 IH St V]; intros Hi Hm ts Es Hh Lr.
  - eauto.
  - pose proof (steps_inv _ _ (nsteps_steps _ _ S1) Hi) as I1.
    pose proof (read_to_boundary_spec _ _ _ I1 F) as (_ & R & _ & M2 & _).
    destruct (IH Hi Hm ts Es Hh) as (M1 & ts1 & E1 & H1); [rewrite <- R; exact Lr|].
    split; [congruence|]. destruct (boundary_src _ _ _ F) as (e & Fe). rewrite E1 in Fe.
    assert (Lb : M <= length (buf r1 ++ stream ts1)).
    { rewrite R in Lr. unfold rem in Lr. rewrite E1, stream_app, app_assoc, app_length in Lr. lia. }
    destruct (fill_held _ _ _ _ _ _ _ _ _ (eq_ind_r (fun z => z <= M) Hm M1) Lb H1 Fe) as (ts' & E' & H'). eauto.
  - pose proof (steps_inv _ _ (nsteps_steps _ _ S1) Hi) as I1.
    pose proof (consume_spec n _ I1) as (_ & R & _ & M2 & E2 & _ & _ & Lb).
    destruct (IH Hi Hm ts Es Hh) as (M1 & ts1 & E1 & H1); [rewrite R, app_length; lia|].
    split; [congruence|]. exists ts1. split; [congruence|].
    destruct H1 as [[-> H1]|H1]; [left|right; exact H1]. split; auto. lia.
  - pose proof (steps_inv _ _ (nsteps_steps _ _ S1) Hi) as I1.
    assert (Rs : exists u, rem r1 = u ++ rem r2) by (eapply steps_suffix; eauto; eapply s_verify; eauto using s_refl).
    destruct Rs as (u & Ru).
    pose proof (verify_boundary_spec _ _ _ I1 St V) as (_ & _ & M2 & _).
    destruct (IH Hi Hm ts Es Hh) as (M1 & ts1 & E1 & H1); [rewrite Ru, app_length; lia|].
    split; [congruence|].
    assert (Lb : M <= length (buf r1 ++ stream ts1)).
    { assert (Lr1 : M + length (stream tz) <= length (rem r1)) by (rewrite Ru, app_length; lia).
      unfold rem in Lr1. rewrite E1, stream_app, app_assoc, app_length in Lr1. lia. }
    unfold verify_boundary in V. destruct (fill_buf (minb r1) (buf r1) (src r1)) as [[e b'] t'] eqn:Fe. rewrite E1 in Fe.
    destruct (fill_held _ _ _ _ _ _ _ _ _ (eq_ind_r (fun z => z <= M) Hm M1) Lb H1 Fe) as (ts' & -> & H').
    exists ts'.
    assert (Q : src r2 = ts' ++ tz /\ length (buf r2) <= length b').
    { destruct e as [k|]; [injection V as _ <-; cbn; auto|].
      repeat match type of V with
      | (if ?c then _ else _) = _ => destruct c
      | match slice ?a ?b ?c with _ => _ end = _ => destruct (slice a b c) as [|? [|? [|? ?]]]
      | (match ?c with _ => _ end) = _ => destruct c
      end; injection V as _ <-; cbn [src buf set_source set_idx_st]; try rewrite skipn_length; split; auto; lia. }
    destruct Q as [-> Q]. split; auto. destruct H' as [[-> H']|H']; [left; split; auto; unfold held; lia|right; exact H'].
Qed.

(** ** A buffer that ends with the CR *)

Ltac blia := unfold bytes, byte in *; lia.

Lemma starts_of D (v w : bytes) : starts_with D v = true -> v = w ++ [CR] -> In CR D.
Proof. intros H ->. apply sw_iff in H as (t & ->). apply in_or_app. left. apply in_or_app. right. now left. Qed.

Lemma whole_yield D c i : dashed D -> ~ In CR D -> (forall j, starts_with (skipn j (c ++ [CR])) D = false) -> i <= length (c ++ [CR]) ->
  search_step (c ++ [CR]) D i = Some (length (c ++ [CR]), Searching).
Proof.
  intros HD HC Hno Hi. unfold search_step. set (b := c ++ [CR]) in *.
  assert (Y : (if i <? length b then match find_boundary (skipn i b) D with inl found => (i + found, BoundaryRead) | inr yield => (i + yield, Searching) end
               else (i, Searching)) = (length b, Searching)).
  { destruct (Nat.ltb_spec i (length b)) as [Li|Li]; [|f_equal; blia].
    destruct (find_boundary (skipn i b) D) as [p|y] eqn:F.
    - exfalso. unfold find_boundary in F. destruct (find_bytes (skipn i b) D) as [p'|] eqn:E; [|discriminate].
      apply find_bytes_some in E as (_ & E & _). rewrite skipn_skipn' in E. now rewrite Hno in E.
    - apply find_boundary_inr in F as (F1 & _ & _ & F2 & _); [|now apply dashed_nonnil]. rewrite skipn_length in F1, F2.
      destruct (Nat.eq_dec y (length b - i)) as [->|Ny]; [f_equal; blia|]. exfalso. apply HC.
      assert (Ly : i + y <= length c) by (subst b; rewrite app_length in *; cbn [length] in *; blia).
      apply (starts_of D (skipn y (skipn i b)) (skipn (i + y) c)); [apply F2; blia|].
      rewrite skipn_skipn'. subst b. rewrite skipn_app. replace (i + y - length c) with 0 by blia. cbn [skipn].
      replace (y + i) with (i + y) by blia. reflexivity. }
  match goal with |- (let (_, _) := ?e in _) = _ => replace e with (length b, Searching) by (symmetry; exact Y) end.
  rewrite Nat.ltb_irrefl.
  match goal with |- (if ?e then _ else _) = _ => destruct e eqn:E end; [|reflexivity].
  exfalso. apply andb_prop in E as [E E2]. apply andb_prop in E as [E _]. apply Nat.leb_le in E. apply beq_eq in E2.
  unfold slice in E2. replace (length b - (length b - 2)) with 2 in E2 by blia.
  assert (Z : skipn (length b - 2) b = CRLF).
  { transitivity (firstn 2 (skipn (length b - 2) b)); [|exact E2]. symmetry. apply firstn_all2. rewrite skipn_length. blia. }
  pose proof (firstn_skipn (length b - 2) b) as Q. rewrite Z in Q. unfold b in Q at 2.
  change CRLF with ([CR] ++ [LF]) in Q. rewrite app_assoc in Q. apply app_inj_tail in Q as [_ Q]. discriminate.
Qed.

Lemma quiet_fill min : forall t b, quiet t -> exists b' t', fill_buf min b t = (None, b', t').
Proof.
  induction t as [|ev t IH]; intros b Hq; cbn [fill_buf]; destruct (min <=? length b); eauto.
  destruct ev as [[|x c]|k]; eauto.
  - apply IH. intros k Hk. apply (Hq k). now right.
  - elim (Hq k). now left.
Qed.

(** Then the LF follows alone. *)
Lemma drain_lf sz fuel k r post : inv r -> st r = Searching -> live (src r) -> quiet (src r) -> length (bnd r) + 1 <= minb r ->
  idx r = 0 -> buf r = [] -> stream (src r) = LF :: bnd r ++ post -> 0 < sz k -> 0 < sz (S k) ->
  exists r', drain (S (S fuel)) sz k r = (Ok [LF], r').
Proof.
  intros Hi Hs Hl Hq Hm Hx Hb Ht Hk Hk'. cbn [drain]. unfold read at 1. unfold read_to_boundary at 1.
  destruct (quiet_fill (minb r) (src r) (buf r) Hq) as (b' & t' & F). rewrite F, Hs, Hx.
  apply fill_buf_spec in F as (c & used & Eb & Et & Es & Fl & _). rewrite Hb in Eb. cbn [app] in Eb. subst b'.
  assert (E : c ++ stream t' = LF :: bnd r ++ post) by (rewrite <- Es, <- stream_app, <- Et; exact Ht).
  assert (Lc : exists w, c = LF :: bnd r ++ w).
  { assert (Lc : length (LF :: bnd r) <= length c).
    { destruct (Fl eq_refl) as [L|[L|L]]; [cbn [length]; blia| |elim Hl; rewrite Et; apply in_or_app; now left].
      rewrite L in E. cbn [stream] in E. rewrite app_nil_r in E. rewrite E. cbn [length]. rewrite app_length. blia. }
    change (LF :: bnd r ++ post) with ((LF :: bnd r) ++ post) in E.
    assert (Ec : firstn (length (LF :: bnd r)) c = LF :: bnd r).
    { apply (f_equal (firstn (length (LF :: bnd r)))) in E. rewrite !firstn_app, firstn_all, Nat.sub_diag in E.
      replace (length (LF :: bnd r) - length c) with 0 in E by blia. cbn [firstn] in E. now rewrite !app_nil_r in E. }
    exists (skipn (length (LF :: bnd r)) c). rewrite <- (firstn_skipn (length (LF :: bnd r)) c) at 1. now rewrite Ec. }
  destruct Lc as (w & ->). destruct (proj1 Hi) as (d & HD).
  assert (FB : find_bytes (LF :: bnd r ++ w) (bnd r) = Some 1).
  { apply find_bytes_complete; cbn [skipn length]; [apply sw_iff; eauto|blia|]. intros [|j] Hj; [|blia]. rewrite HD. reflexivity. }
  assert (SS : search_step (LF :: bnd r ++ w) (bnd r) 0 = Some (1, BoundaryRead)).
  { unfold search_step. cbn [length Nat.ltb Nat.leb skipn]. unfold find_boundary. rewrite FB. cbn [Nat.add].
    replace (length (bnd r ++ w) <? 1) with false by (symmetry; apply Nat.ltb_ge; rewrite HD; cbn; blia). reflexivity. }
  rewrite SS. cbn [firstn]. destruct (sz k) as [|n]; [blia|]. cbn [firstn].
  rewrite !firstn_nil. cbn [length].
  set (r1 := consume 1 (set_idx_st (set_source r (LF :: bnd r ++ w) t') 1 BoundaryRead)).
  unfold read, read_to_boundary.
  assert (Qt : quiet (src r1)) by (intros k0 K0; apply (Hq k0); rewrite Et; apply in_or_app; right; exact K0).
  destruct (quiet_fill (minb r1) (src r1) (buf r1) Qt) as (b2 & t2 & F2). rewrite F2.
  change (st r1) with BoundaryRead. change (idx r1) with 0. cbn [Nat.ltb Nat.leb firstn length].
  replace (length b2 <? 0) with false by (symmetry; apply Nat.ltb_ge; blia).
  rewrite !firstn_nil. cbn [app]. eauto.
Qed.

Lemma drain_surplus M y tz post sz : (forall k, M + length y <= sz k) -> M <= length y -> forall fuel k r c ts,
  inv r -> st r <> AtEnd -> live (src r) -> quiet (src r) -> minb r = M -> length (bnd r) * 2 <= M -> ~ In CR (bnd r) ->
  src r = ts ++ tz -> stream tz = LF :: bnd r ++ post -> buf r ++ stream ts = c ++ [CR] -> held M y r ts -> M <= length c + 1 ->
  (forall i, occurs_at (bnd r) (rem r) i -> length (c ++ CRLF) <= i) -> length (rem r) < fuel ->
  exists r', drain fuel sz k r = (Ok (c ++ CRLF), r').
Proof.
  intros Hsz Hy. induction fuel as [|fuel IH]; intros k r c ts Hi Hs Hl Hq Hm HM HC Es Et Eb Hh Hc FS Lf; [blia|].
  pose proof (dashed_length _ (proj1 Hi)) as LD.
  assert (Er : rem r = c ++ CRLF ++ bnd r ++ post).
  { unfold rem. rewrite Es, stream_app, app_assoc, Eb, Et. now rewrite <- app_assoc. }
  assert (Nb : forall (b : bytes) w, rem r = b ++ w -> length b <= length c + 1 -> forall j, starts_with (skipn j b) (bnd r) = false).
  { intros b w E Lb j. destruct (starts_with (skipn j b) (bnd r)) eqn:F; [|reflexivity]. exfalso.
    apply sw_iff in F as (v & F). assert (Lj : j <= length b).
    { destruct (le_lt_dec j (length b)); auto. rewrite skipn_all2 in F by blia. destruct (bnd r); [cbn in LD; blia|discriminate]. }
    assert (O : occurs_at (bnd r) (rem r) j).
    { exists (firstn j b), (v ++ w). rewrite firstn_length_le by exact Lj. split; auto.
      rewrite E. rewrite <- (firstn_skipn j b) at 1. rewrite F, <- !app_assoc. reflexivity. }
    apply FS in O. rewrite app_length in O. cbn [length CRLF] in O.
    apply (f_equal (@length _)) in F. rewrite skipn_length, app_length in F. blia. }
  assert (St : forall q, inv q -> rem q = rem r -> bnd q = bnd r -> st q <> AtEnd -> length (buf q) <= length c + 1 -> st q = Searching).
  { intros q (_ & _ & Iq) Rq Bq Sq Lq. destruct (st q) eqn:S0; auto; [|congruence]. exfalso.
    destruct Iq as (p & (_ & P & _) & _). rewrite Bq in P. rewrite (Nb (buf q) (stream (src q))) in P; [discriminate|now rewrite <- Rq|exact Lq]. }
  cbn [drain]. unfold read. destruct (read_to_boundary r) as [x r1] eqn:F.
  pose proof (read_to_boundary_spec _ _ _ Hi F) as (I1 & R1 & B1 & M1 & L1 & _ & K1 & K2 & X).
  assert (Lb : M <= length (buf r ++ stream ts)) by (rewrite Eb, app_length; cbn [length]; blia).
  destruct (boundary_src _ _ _ F) as (e & Fe). pose proof Fe as Fe'. rewrite Es in Fe'.
  destruct (fill_held _ _ _ _ _ _ _ _ _ (Nat.eq_le_incl _ _ Hm) Lb Hh Fe') as (ts1 & E1 & H1).
  assert (Eb1 : buf r1 ++ stream ts1 = c ++ [CR]).
  { apply (app_inv_tail (stream tz)). rewrite <- app_assoc, <- stream_app, <- E1. change (buf r1 ++ stream (src r1)) with (rem r1). rewrite R1, Er, Et.
    now rewrite <- app_assoc. }
  assert (Lb1 : length (buf r1) <= length c + 1).
  { apply (f_equal (@length _)) in Eb1. rewrite !app_length in Eb1. cbn [length] in Eb1. blia. }
  assert (Sr1 : st r1 <> AtEnd).
  { destruct (st r) eqn:Sr; [apply K2; auto| |congruence]. destruct (K1 ltac:(discriminate)). congruence. }
  assert (S1 : st r1 = Searching) by (apply St; auto).
  destruct x as [d|e1| |]; try tauto.
  2: { exfalso. destruct X as (kk & _ & X & _). exact (Hq _ X). }
  assert (S0 : st r = Searching).
  { destruct (st r) eqn:Sr; auto; destruct (K1 ltac:(discriminate)); congruence. }
  destruct X as (-> & Fl & Se). destruct (Se S1) as [Se1 _]. clear Se.
  destruct H1 as [[-> H1]|(ts2 & ->)].
  - (* the buffer ends with the CR *)
    cbn [stream] in Eb1. rewrite app_nil_r in Eb1. cbn [app] in E1.
    assert (Ix : idx r1 = length (buf r1)).
    { unfold read_to_boundary in F. rewrite Fe in F. destruct e as [kk|]; [discriminate|]. rewrite S0 in F.
      destruct (search_step (buf r1) (bnd r) (idx r)) as [[i s]|] eqn:SS; [|discriminate]. injection F as F0 F1.
      rewrite <- F1. cbn [idx set_idx_st]. rewrite Eb1 in SS. rewrite whole_yield in SS.
      - injection SS as <- _. now rewrite Eb1.
      - exact (proj1 Hi).
      - exact HC.
      - intros j. apply (Nb _ (stream tz)); [|rewrite app_length; cbn [length]; blia]. rewrite Er, Et. now rewrite <- app_assoc.
      - destruct Hi as (_ & Hi & _). assert (Lr : length (buf r) <= length (c ++ [CR])); [|blia].
        rewrite <- Eb. rewrite app_length. blia. }
    rewrite Ix, firstn_all. specialize (Hsz k) as Hk. rewrite firstn_all2 by blia.
    rewrite Eb1. destruct (c ++ [CR]) as [|o out] eqn:Ec; [now destruct c|]. rewrite <- Ec.
    match goal with |- context[drain _ _ _ ?q] => set (r2 := q) end.
    pose proof (consume_spec (length (c ++ [CR])) _ I1) as K. change (consume (length (c ++ [CR])) r1) with r2 in K.
    destruct K as (I2 & _ & B2 & M2 & E2 & S2 & X2 & Lb2).
    rewrite Ix, Eb1, <- Ec, Nat.min_id, Nat.sub_diag in Lb2. rewrite Ix, Eb1, <- Ec, Nat.sub_diag in X2.
    assert (Lr : length (rem r) = length c + 2 + length (bnd r) + length post).
    { rewrite Er, !app_length. change (length CRLF) with 2. blia. }
    destruct fuel as [|[|fuel]]; [blia|blia|].
    assert (A1 : live (src r2)) by (rewrite E2, E1; intros Z; apply Hl; rewrite Es; apply in_or_app; now right).
    assert (A2 : quiet (src r2)) by (rewrite E2, E1; intros k0 Z; apply (Hq k0); rewrite Es; apply in_or_app; now right).
    assert (A3 : length (bnd r2) + 1 <= minb r2) by (rewrite M2, M1, B2, B1; blia).
    assert (A4 : buf r2 = []) by (now destruct (buf r2)).
    assert (A5 : stream (src r2) = LF :: bnd r2 ++ post) by (rewrite E2, E1, B2, B1; exact Et).
    assert (A6 : st r2 = Searching) by congruence.
    pose proof (Hsz (S k)) as A7. pose proof (Hsz (S (S k))) as A8.
    destruct (drain_lf sz fuel (S k) r2 post I2 A6 A1 A2 A3 X2 A4 A5 ltac:(blia) ltac:(blia)) as (r' & ->).
    exists r'. f_equal. f_equal. now rewrite <- app_assoc.
  - (* more of the data is to come *)
    assert (Lm : M <= length (buf r1)).
    { destruct Fl as [L|[L|L]]; [blia| |elim Hl; exact L]. rewrite L in E1. destruct ts2; discriminate. }
    set (out := firstn (sz k) (firstn (idx r1) (buf r1))).
    assert (Ec1 : exists c1, c = buf r1 ++ c1 /\ stream (ts2 ++ [Chunk y]) = c1 ++ [CR]).
    { rewrite stream_app in Eb1 |- *. cbn [stream] in Eb1 |- *. rewrite app_nil_r in Eb1 |- *.
      destruct y as [|y0 y _] using rev_ind; [cbn in Hy; blia|]. rewrite !app_assoc in Eb1. apply app_inj_tail in Eb1 as [<- ->].
      exists (stream ts2 ++ y). rewrite <- !app_assoc. auto. }
    destruct Ec1 as (c1 & Ec1 & Es1).
    assert (Lo : length out <= length (buf r1)).
    { unfold out. rewrite !firstn_length. blia. }
    assert (Lo' : length out <= idx r1) by (unfold out; rewrite !firstn_length; blia).
    assert (Eo : firstn (length out) (buf r1) = out).
    { unfold out. rewrite firstn_length, firstn_length. rewrite firstn_firstn. f_equal.
      destruct I1 as (_ & I1 & _). blia. }
    pose proof (consume_spec (length out) _ I1) as (I2 & R2 & B2 & M2 & E2 & S2 & X2 & Lb2).
    rewrite Nat.min_l in R2, Lb2 by exact Lo'. rewrite Eo in R2.
    set (r2 := consume (length out) r1) in *.
    assert (Eb2 : buf r2 = skipn (length out) (buf r1)).
    { unfold r2, consume. cbn [buf]. now rewrite Nat.min_l by exact Lo'. }
    assert (Cc : c = out ++ (buf r2 ++ c1)).
    { rewrite Ec1. rewrite <- (firstn_skipn (length out) (buf r1)) at 1. rewrite Eo, Eb2, <- app_assoc. reflexivity. }
    assert (No : out <> []).
    { intros Z. assert (Z' : length out = 0) by now rewrite Z. specialize (Hsz k).
      unfold out in Z'. rewrite !firstn_length in Z'. destruct I1 as (_ & I1 & _). blia. }
    destruct out as [|o out'] eqn:Eout; [congruence|]. rewrite <- Eout in *.
    assert (A1 : live (src r2)) by (rewrite E2; eapply live_later; eauto).
    assert (A2 : quiet (src r2)) by (rewrite E2; eapply quiet_later; eauto).
    assert (A3 : length (bnd r2) * 2 <= M) by (rewrite B2, B1; exact HM).
    assert (A4 : ~ In CR (bnd r2)) by (rewrite B2, B1; exact HC).
    assert (A5 : stream tz = LF :: bnd r2 ++ post) by (rewrite B2, B1; exact Et).
    assert (A6 : buf r2 ++ stream (ts2 ++ [Chunk y]) = (buf r2 ++ c1) ++ [CR]) by (rewrite Es1; now rewrite app_assoc).
    assert (A7 : held M y r2 (ts2 ++ [Chunk y])) by (right; eauto).
    assert (A8 : M <= length (buf r2 ++ c1) + 1).
    { apply (f_equal (@length _)) in Es1. rewrite stream_app in Es1. cbn [stream] in Es1. rewrite !app_length in Es1. cbn [length] in Es1.
      rewrite app_length. blia. }
    assert (A9 : forall i, occurs_at (bnd r2) (rem r2) i -> length ((buf r2 ++ c1) ++ CRLF) <= i).
    { rewrite B2, B1. intros i Hi'. assert (O : occurs_at (bnd r) (rem r) (length out + i)).
      { destruct Hi' as (a & v & E & L). exists (out ++ a), v. rewrite <- R1, R2, E, app_length, <- !app_assoc. split; auto. }
      apply FS in O. rewrite Cc in O. rewrite <- !app_assoc in O. rewrite app_length in O. rewrite <- app_assoc. blia. }
    assert (A10 : length (rem r2) < fuel).
    { assert (0 < length out) by (rewrite Eout; cbn; blia). apply (f_equal (@length _)) in R2. rewrite app_length in R2. rewrite R1 in R2. blia. }
    destruct (IH (S k) r2 (buf r2 ++ c1) (ts2 ++ [Chunk y]) I2 ltac:(congruence) A1 A2 ltac:(congruence) A3 A4 ltac:(congruence) A5 A6 A7 A8 A9 A10) as (r' & D).
    rewrite D. exists r'. f_equal. f_equal. rewrite Cc at 1. now rewrite <- !app_assoc.
Qed.

(** ** Whole bodies *)

Lemma form_suffix {H} (head : bytes -> H -> Prop) D R l1 hc l2 q : form_at head D R l1 hc l2 q -> exists u, R = u ++ q.
Proof.
  induction 1 as [R pre x rest h c l2 FS Hx Hc P|R pre x rest h c l1 hc l2 q FS Hx Hc Fm IH]; destruct FS as [-> _].
  - exists (pre ++ D ++ CRLF ++ x). now rewrite <- !app_assoc.
  - destruct IH as (u & ->). exists (pre ++ D ++ CRLF ++ x ++ u). now rewrite <- !app_assoc.
Qed.

Lemma form_skipped {H} (head : bytes -> H -> Prop) D R c R' l1 hc l2 q :
  D <> [] -> skipped D R c R' -> form_at head D R l1 hc l2 q -> form_at head D R' l1 hc l2 q.
Proof.
  intros HD K P. destruct P as [R pre x rest h d l2 FS Hh Hc P|R pre x rest h d l1 hc l2 q FS Hh Hc P].
  - destruct (skipped_split_inv _ _ _ _ _ _ K FS) as (pre' & _ & FS'). eapply form_here; eauto.
  - destruct (skipped_split_inv _ _ _ _ _ _ K FS) as (pre' & _ & FS'). eapply form_more; eauto.
Qed.

Section Bodies.
Context (ML : mime_lib) (trim : bool) (t : transport) (b : bytes) (sz : nat -> nat) (y : bytes) (tz : transport) (post : bytes)
  (Hl : live t) (Hq : quiet t) (HC : ~ In CR b) (Hy : effective (delimiter b) 1024 <= length y)
  (Hsz : forall k, effective (delimiter b) 1024 + length y <= sz k) (Etz : stream tz = LF :: delimiter b ++ post).

Let M := effective (delimiter b) 1024.

(** The next entry and the data after it. *)
Lemma entry_held r ts pre x rest h c l : reached ML trim t b r -> st r <> AtEnd -> st r = Searching \/ idx r = 0 ->
  first_split (delimiter b) (rem r) pre (CRLF ++ x ++ rest) -> head_block ML trim (delimiter b) x h ->
  content (delimiter b) (x ++ rest) (x ++ c) -> parts (head_block ML trim (delimiter b)) (delimiter b) rest l ->
  src r = ts ++ tz -> held M y r ts -> M + length (stream tz) <= length rest ->
  exists r1 ts1, read_entry ML trim r = (Ok (Some h), r1) /\ rem r1 = rest /\ at_field ML trim t b h r1 /\
    content (delimiter b) rest c /\ src r1 = ts1 ++ tz /\ held M y r1 ts1.
Proof.
  intros Hr Hs Hi FS Hx Hc Hp Es Hh Lr. pose proof (reached_inv ML _ _ _ _ Hr) as (I0 & N0 & B0 & L0 & _).
  destruct Hx as ((hs & Hp1 & Hp2 & Hp3) & Hp4).
  assert (P : parts (head_block ML trim (delimiter b)) (delimiter b) (rem r) ((h, c) :: l)).
  { eapply parts_field; eauto. split; eauto. }
  assert (Hi' : st r = Searching \/ idx r + length (bnd r) + 4 <= Nat.max (length (bnd r) * 2) MIN_BUF_SIZE).
  { destruct Hi as [Hi|Hi]; auto. right. rewrite Hi. pose proof (min_after (bnd r) (dashed_length _ (proj1 I0))). blia. }
  rewrite <- B0 in FS, Hc, Hp4.
  destruct (read_entry_field ML trim r pre x rest (x ++ c) hs I0 N0 Hs (live_later _ _ L0 Hl) (quiet_later _ _ L0 Hq) Hi' FS Hc
    ltac:(rewrite app_length; blia) Hp4 (Hp1 rest) Hp2) as (r1 & E1 & R1).
  rewrite Hp3 in E1. rewrite B0 in Hc.
  pose proof (read_entry_parts ML _ _ _ _ _ _ _ Hr Hs Hi Hl P E1) as Nx. cbn [next_state] in Nx. destruct Nx as (c' & l' & Q & Hf & _).
  pose proof (read_entry_nsteps ML _ _ _ _ I0 E1) as S1.
  destruct (nsteps_held M y tz _ _ S1 (inv_set_min MIN_BUF_SIZE r I0)) with (ts := ts) as (_ & ts1 & E & H1); auto.
  { cbn [minb set_min_buf_size]. rewrite B0. unfold M, effective. change MIN_BUF_SIZE with 1024. blia. }
  { rewrite R1. exact Lr. }
  exists r1, ts1. split; auto. split; auto. split; auto. split; [eapply content_strip; eauto|]. auto.
Qed.

Lemma drain_state h r1 d r2 c l1 hc l2 q : at_field ML trim t b h r1 -> content (delimiter b) (rem r1) c ->
  drain (S (length (buf r1) + length (stream (src r1)))) sz 0 r1 = (Ok d, r2) ->
  reached ML trim t b r2 /\ st r2 <> AtEnd /\ idx r2 = 0 /\ padded c d /\
  (forall l, parts (head_block ML trim (delimiter b)) (delimiter b) (rem r1) l -> parts (head_block ML trim (delimiter b)) (delimiter b) (rem r2) l) /\
  (form_at (head_block ML trim (delimiter b)) (delimiter b) (rem r1) l1 hc l2 q ->
   form_at (head_block ML trim (delimiter b)) (delimiter b) (rem r2) l1 hc l2 q).
Proof.
  intros Hf Hc D.
  assert (Hz : forall k, 0 < sz k).
  { intros k. specialize (Hsz k). unfold effective in Hsz. blia. }
  destruct (drain_ended ML _ _ _ _ _ _ Hf Hl Hq Hz (S (length (buf r1) + length (stream (src r1)))) 0 [] r1) as (d' & r2' & D' & En).
  { constructor. } { unfold rem. rewrite app_length. blia. }
  rewrite D in D'. injection D' as <- <-. cbn [app] in En.
  destruct (ended_padded ML _ _ _ _ _ _ _ _ Hf Hl En Hc) as [Pw _].
  pose proof (at_field_inv ML _ _ _ _ _ Hf) as I1. destruct (at_field_reached ML _ _ _ _ _ Hf) as (R0 & S0 & _).
  pose proof (reached_inv ML _ _ _ _ R0) as (_ & _ & B0 & _).
  pose proof (ended_moved _ _ _ En) as Mv.
  destruct (moved_field ML _ _ _ _ _ _ _ Hf Mv) as (I2 & _ & S1 & B1 & L1 & M1 & R1 & _).
  destruct (moved_skipped _ _ _ I1 S0 Mv) as [K _]. rewrite B0 in K.
  split; auto. split; auto. split.
  { destruct En as (r3 & M0 & E0).
    destruct (moved_field ML _ _ _ _ _ _ _ Hf M0) as (I3 & _ & S3 & B3 & L3 & M3 & _).
    pose proof (read_empty _ _ _ I3 S3 Nat.lt_0_1 (fill_empty_read _ _ E0) (live_later _ _ L3 Hl) M3) as (_ & _ & Z & _). exact Z. }
  split; auto. split.
  - intros l P. eapply parts_skipped; eauto. discriminate.
  - intros P. eapply form_skipped; eauto. discriminate.
Qed.

Lemma surplus_run hc l2 q : forall l1 r ts, form_at (head_block ML trim (delimiter b)) (delimiter b) (rem r) l1 hc l2 q ->
  reached ML trim t b r -> st r <> AtEnd -> st r = Searching \/ idx r = 0 -> src r = ts ++ tz -> held M y r ts ->
  q = snd hc ++ CRLF ++ delimiter b ++ post -> M <= length (snd hc) + 1 ->
  exists l1' l2' r', read_all ML trim (S (length (l1 ++ hc :: l2))) sz r = (Ok (l1' ++ (fst hc, snd hc ++ CRLF) :: l2'), r') /\
    almost l1 l1' /\ almost l2 l2'.
Proof.
  assert (Lq : forall c : bytes, M <= length c + 1 -> M + length (stream tz) <= length (c ++ CRLF ++ delimiter b ++ post)).
  { intros c Lc. rewrite Etz, !app_length. cbn [length CRLF]. rewrite app_length. blia. }
  induction l1 as [|[h0 c0] l1 IH]; intros r ts F Hr Hs Hi Es Hh Eq Lc.
  - inversion F as [R pre x rest h c l0 FS Hx Hc P|]; subst R hc l0 rest. cbn [snd fst] in Eq, Lc |- *. cbn [app]. change (length ((h, c) :: l2)) with (S (length l2)). remember (S (length l2)) as n. cbn [read_all].
    assert (Lr : M + length (stream tz) <= length q) by (rewrite Eq; auto).
    destruct (entry_held r ts pre x q h c l2 Hr Hs Hi FS Hx Hc P Es Hh Lr) as (r1 & ts1 & -> & R1 & Hf & Hc1 & E1 & H1).
    pose proof (at_field_inv ML _ _ _ _ _ Hf) as I1. destruct (at_field_reached ML _ _ _ _ _ Hf) as (R0 & S0 & M0).
    pose proof (reached_inv ML _ _ _ _ R0) as (_ & _ & B0 & L0 & _).
    assert (Mr : minb r1 = M) by (rewrite M0, B0; unfold M, effective; change MIN_BUF_SIZE with 1024; blia).
    destruct (drain (S (length (buf r1) + length (stream (src r1)))) sz 0 r1) as [z r2] eqn:D.
    assert (Z : z = Ok (c ++ CRLF)).
    { destruct (drain_surplus M y tz post sz Hsz Hy (S (length (buf r1) + length (stream (src r1)))) 0 r1 c ts1) as (r' & D'); auto.
      - eapply live_later; eauto.
      - eapply quiet_later; eauto.
      - rewrite B0. unfold M, effective. blia.
      - rewrite B0. unfold delimiter. intros Z. apply in_app_or in Z as [Z|Z]; [|auto]. destruct Z as [Z|[Z|[]]]; discriminate.
      - rewrite B0. exact Etz.
      - apply (app_inv_tail (stream tz)). rewrite <- app_assoc, <- stream_app, <- E1. change (buf r1 ++ stream (src r1)) with (rem r1).
        rewrite R1, Eq, Etz. now rewrite <- app_assoc.
      - rewrite B0, R1. destruct Hc1 as (pre1 & post1 & (F1 & F2) & F3). destruct F3 as [F3|[F3 _]].
        + intros i Hi2. specialize (F2 i Hi2). rewrite F3 in F2. exact F2.
        + exfalso. subst pre1. rewrite Eq in F1. apply app_inv_head in F1. discriminate.
      - unfold rem. rewrite app_length. blia.
      - rewrite D in D'. now injection D' as -> _. }
    subst z. rewrite <- R1 in Hc1.
    destruct (drain_state h r1 (c ++ CRLF) r2 c [] (h, c) l2 q Hf Hc1 D) as (Q1 & Q2 & Q3 & _ & Q5 & _).
    rewrite <- R1 in P. specialize (Q5 _ P). subst n.
    assert (Hz : forall k, 0 < sz k) by (intros k; specialize (Hsz k); unfold effective in Hsz; blia).
    destruct (read_all_any ML trim t b sz Hl Hq Hz l2 r2 Q1 Q2 (or_intror Q3) Q5) as (l2' & r' & -> & A).
    exists [], l2', r'. split; [reflexivity|]. split; [constructor|exact A].
  - inversion F as [|R pre x rest h c l3 hc0 l0 q0 FS Hx Hc Fm]; subst R h c l3 hc0 l0 q0.
    cbn [app]. change (length ((h0, c0) :: l1 ++ hc :: l2)) with (S (length (l1 ++ hc :: l2))). remember (S (length (l1 ++ hc :: l2))) as n. cbn [read_all].
    assert (Lr : M + length (stream tz) <= length rest).
    { destruct (form_suffix _ _ _ _ _ _ _ Fm) as (u & ->). rewrite app_length. rewrite Eq. specialize (Lq _ Lc). blia. }
    destruct (entry_held r ts pre x rest h0 c0 _ Hr Hs Hi FS Hx Hc (form_parts _ _ _ _ _ _ _ Fm) Es Hh Lr) as (r1 & ts1 & -> & R1 & Hf & Hc1 & E1 & H1).
    pose proof (at_field_inv ML _ _ _ _ _ Hf) as I1. destruct (at_field_reached ML _ _ _ _ _ Hf) as (R0 & S0 & M0).
    pose proof (reached_inv ML _ _ _ _ R0) as (_ & _ & B0 & L0 & _).
    assert (Hz : forall k, 0 < sz k) by (intros k; specialize (Hsz k); unfold effective in Hsz; blia).
    destruct (drain_ended ML _ _ _ _ _ _ Hf Hl Hq Hz (S (length (buf r1) + length (stream (src r1)))) 0 [] r1) as (d & r2 & D & _).
    { constructor. } { unfold rem. rewrite app_length. blia. }
    rewrite D. rewrite <- R1 in Hc1, Fm.
    destruct (drain_state h0 r1 d r2 c0 l1 hc l2 q Hf Hc1 D) as (Q1 & Q2 & Q3 & Q4 & _ & Q6). specialize (Q6 Fm).
    destruct (nsteps_held M y tz _ _ (drain_nsteps _ _ _ _ _ _ D) I1) with (ts := ts1) as (_ & ts2 & E2 & H2); auto.
    { rewrite M0, B0. unfold M, effective. change MIN_BUF_SIZE with 1024. blia. }
    { destruct (form_suffix _ _ _ _ _ _ _ Q6) as (u & ->). rewrite app_length. rewrite Eq. specialize (Lq _ Lc). blia. }
    subst n. destruct (IH r2 ts2 Q6 Q1 Q2 (or_intror Q3) E2 H2 Eq Lc) as (l1' & l2' & r' & E3 & A1 & A2).
    rewrite E3. exists ((h0, d) :: l1'), l2', r'. split; [reflexivity|]. split; [constructor; auto|exact A2].
Qed.

End Bodies.

(** ** C95 (and C03, C87): the condition on the chunking is sharp *)

(** Whenever a chunk of at least the minimum buffer size ends between the CR and the LF of the delimiter after a content that is
    long enough, the data of that field have the CRLF as surplus, whatever the other chunks are; the reads need to be that large. *)
Theorem C95_surplus : forall ML trim t b sz ts y tz post l1 h c l2,
  live t -> quiet t -> ~ In CR b -> t = ts ++ Chunk y :: tz -> stream tz = LF :: delimiter b ++ post ->
  form_at (head_block ML trim (delimiter b)) (delimiter b) (stream t) l1 (h, c) l2 (c ++ CRLF ++ delimiter b ++ post) ->
  effective (delimiter b) 1024 <= length y -> effective (delimiter b) 1024 <= length c + 1 ->
  (forall k, effective (delimiter b) 1024 + length y <= sz k) ->
  exists l1' l2' r, read_all ML trim (S (length (l1 ++ (h, c) :: l2))) sz (with_body t b) = (Ok (l1' ++ (h, c ++ CRLF) :: l2'), r) /\
    almost l1 l1' /\ almost l2 l2'.
Proof.
  intros ML trim t b sz ts y tz post l1 h c l2 Hl Hq HC Et Etz Fm Hy Hc Hsz.
  apply (surplus_run ML trim t b sz y tz post Hl Hq HC Hy Hsz Etz (h, c) l2 (c ++ CRLF ++ delimiter b ++ post) l1 (with_body t b) (ts ++ [Chunk y])); auto.
  - exists [], []. reflexivity.
  - discriminate.
  - change (src (with_body t b)) with t. now rewrite <- app_assoc.
  - right. eauto.
Qed.

(** A body is read exactly for every chunking if and only if all of its contents are shorter than 1023 bytes (with reads of 2 KiB or
    more; with reads below 1 KiB it always is: [C03_small_reads_partial]). *)
Theorem C95_exactly : forall ML trim b sz P s l,
  ~ In CR b -> length b <= 510 -> (forall k, Nat.pow 2 11 <= sz k) ->
  rfc (head_block ML trim (delimiter b)) (delimiter b) s l -> (forall i, occurs_at (delimiter b) (P ++ s) i -> length P <= i) ->
  ((forall t, stream t = P ++ s -> live t -> quiet t -> exists r, read_all ML trim (S (length l)) sz (with_body t b) = (Ok l, r)) <->
   Forall (fun hc => length (snd hc) < 1023) l).
Proof.
  intros ML trim b sz P s l HC Lb Hsz Hs HP.
  assert (LD : length (delimiter b) = length b + 2).
  { change (2 + length b = length b + 2). apply Nat.add_comm. }
  assert (EM : effective (delimiter b) 1024 = Nat.pow 2 10).
  { unfold effective. change (Nat.pow 2 10) with 1024. rewrite LD. lia. }
  split.
  - intros A. apply Forall_forall. intros [h c] Hin. cbn [snd]. destruct (le_lt_dec 1023 (length c)) as [Lc|]; [exfalso|assumption].
    apply in_split in Hin as (l1 & l2 & ->). destruct (rfc_form _ _ _ _ Hs P l1 h c l2 HP eq_refl) as (a & post & E & Fm).
    set (w := a ++ c ++ [CR]). set (n := length w - Nat.pow 2 10). set (y := skipn n w). set (z := LF :: delimiter b ++ post).
    set (ts := match firstn n w with [] => [] | v => [Chunk v] end).
    assert (Lw : Nat.pow 2 10 <= length w).
    { unfold w. rewrite !app_length. cbn [length]. change (Nat.pow 2 10) with 1024. blia. }
    assert (Ly : length y = Nat.pow 2 10) by (unfold y; rewrite skipn_length; unfold n; blia).
    assert (Ets : stream ts = firstn n w).
    { unfold ts. destruct (firstn n w) as [|v0 v]; [reflexivity|]. cbn [stream]. now rewrite app_nil_r. }
    assert (Et : stream (ts ++ Chunk y :: [Chunk z]) = P ++ s).
    { rewrite stream_app, Ets. cbn [stream]. rewrite app_nil_r, app_assoc. unfold y. rewrite firstn_skipn. rewrite E. unfold w, z.
      rewrite <- !app_assoc. reflexivity. }
    assert (Hl : live (ts ++ Chunk y :: [Chunk z])).
    { intros Z. apply in_app_or in Z as [Z|[Z|[Z|[]]]].
      - unfold ts in Z. destruct (firstn n w) as [|v0 v]; [destruct Z|]. destruct Z as [Z|[]]; discriminate.
      - injection Z as Z. rewrite Z in Ly. discriminate.
      - discriminate. }
    assert (Hq : quiet (ts ++ Chunk y :: [Chunk z])).
    { intros k Z. apply in_app_or in Z as [Z|[Z|[Z|[]]]]; try discriminate.
      unfold ts in Z. destruct (firstn n w) as [|v0 v]; [destruct Z|]. destruct Z as [Z|[]]; discriminate. }
    destruct (A _ Et Hl Hq) as (r & Hr).
    destruct (C95_surplus ML trim _ b sz ts y [Chunk z] post l1 h c l2 Hl Hq HC eq_refl) as (l1' & l2' & r' & Hr' & A1 & _).
    + cbn [stream]. now rewrite app_nil_r.
    + rewrite Et. exact Fm.
    + rewrite EM, Ly. blia.
    + rewrite EM. change (Nat.pow 2 10) with 1024. blia.
    + intros k. specialize (Hsz k). rewrite EM, Ly. change (Nat.pow 2 11) with (Nat.pow 2 10 + Nat.pow 2 10) in Hsz. blia.
    + pose proof (eq_trans (eq_sym Hr) Hr') as Q0. injection Q0 as Q _.
      assert (Q' : c = c ++ CRLF); [|apply (f_equal (@length _)) in Q'; rewrite app_length in Q'; cbn [length CRLF] in Q'; blia].
      pose proof (almost_length _ _ A1) as La. revert Q La. clear. revert l1'. induction l1 as [|x l1 IH]; intros [|x' l1'] Q La; try discriminate.
      * cbn [app] in Q. now injection Q as Q _.
      * cbn [app] in Q. injection Q as _ Q. eapply IH; eauto.
  - intros F t Et Hl Hq. apply C03_whole_body_partial; auto.
    + intros k. specialize (Hsz k). pose proof (Nat.pow_nonzero 2 11). lia.
    + left. apply short_exact; auto. rewrite Forall_map. eapply Forall_impl; [|exact F]. intros [h c] Lc. cbn [snd] in *. change MIN_BUF_SIZE with 1024. blia.
    + rewrite Et. eapply rfc_parts; eauto.
Qed.

(** A form of three fields; the chunk that ends with the CR after the second has the 1023 bytes of the second and that CR. *)
Definition sharp_head (n : bytes) : bytes := bs "--b" ++ CRLF ++ toy_head n.
Definition sharp_tail : bytes := sharp_head (bs "c") ++ bs "three" ++ CRLF ++ bs "--b--" ++ CRLF.
Definition sharp_body (c : bytes) : bytes := sharp_head (bs "a") ++ bs "one" ++ CRLF ++ sharp_head (bs "b") ++ c ++ CRLF ++ sharp_tail.
Definition sharp_list (c : bytes) : list (field_headers toy * bytes) :=
  [(mkFH toy (bs "a") None None, bs "one"); (mkFH toy (bs "b") None None, c); (mkFH toy (bs "c") None None, bs "three")].

Lemma find_least d r n : find_bytes r d = Some n -> forall i, occurs_at d r i -> n <= i.
Proof.
  intros F i Hi. destruct (Nat.le_gt_cases n i) as [|L]; auto.
  apply find_bytes_some in F as (_ & _ & F). specialize (F _ L). apply occurs_at_sw in Hi as [_ Hi]. congruence.
Qed.

Lemma sharp_rfc n : n = 1022 \/ n = 1023 -> rfc (head_block toy true (delimiter (bs "b"))) (delimiter (bs "b")) (sharp_body (repeat 120%N n)) (sharp_list (repeat 120%N n)).
Proof.
  intros Hn. unfold sharp_body, sharp_list, sharp_tail, sharp_head. rewrite <- !app_assoc.
  assert (K : forall m, m = bs "a" \/ m = bs "b" \/ m = bs "c" -> head_block toy true (delimiter (bs "b")) (toy_head m) (mkFH toy m None None)).
  { intros m Hm. split; [|apply Nat.leb_le; destruct Hm as [->|[->| ->]]; vm_compute; reflexivity].
    destruct Hm as [->|[->| ->]]; (eexists; split; [intros y; vm_compute; reflexivity|]; split; vm_compute; reflexivity). }
  apply (rfc_field _ _ (toy_head (bs "a"))); [apply K; auto| |].
  { apply find_least. destruct Hn as [->| ->]; vm_compute; reflexivity. }
  apply (rfc_field _ _ (toy_head (bs "b"))); [apply K; auto| |].
  { apply find_least. destruct Hn as [->| ->]; vm_compute; reflexivity. }
  apply (rfc_field _ _ (toy_head (bs "c"))); [apply K; auto| |].
  { apply find_least. vm_compute; reflexivity. }
  apply (rfc_end _ (delimiter (bs "b"))).
Qed.

(** The second field with 1023 bytes: both sides of [C95_exactly] are false, the data of the chunking of [C95_surplus] have two bytes
    more; with 1022 bytes both are true. *)
Example C95_exactly_example : forall sz, (forall k, Nat.pow 2 11 <= sz k) ->
  let c n := repeat 120%N n in
  ~ In CR (bs "b") /\ length (bs "b") <= 510 /\
  (forall i, occurs_at (delimiter (bs "b")) (CRLF ++ sharp_body (c 1023)) i -> length CRLF <= i) /\
  ~ (forall t, stream t = CRLF ++ sharp_body (c 1023) -> live t -> quiet t ->
       exists r, read_all toy true 4 sz (with_body t (bs "b")) = (Ok (sharp_list (c 1023)), r)) /\
  (forall t, stream t = CRLF ++ sharp_body (c 1022) -> live t -> quiet t ->
       exists r, read_all toy true 4 sz (with_body t (bs "b")) = (Ok (sharp_list (c 1022)), r)).
Proof.
  intros sz Hsz. cbv zeta.
  assert (HC : ~ In CR (bs "b")) by (intros [Z|[]]; discriminate).
  assert (Lb : length (bs "b") <= 510) by (apply Nat.leb_le; reflexivity).
  assert (F1 : forall i, occurs_at (delimiter (bs "b")) (CRLF ++ sharp_body (repeat 120%N 1023)) i -> length CRLF <= i).
  { apply find_least. vm_compute. reflexivity. }
  assert (F2 : forall i, occurs_at (delimiter (bs "b")) (CRLF ++ sharp_body (repeat 120%N 1022)) i -> length CRLF <= i).
  { apply find_least. vm_compute. reflexivity. }
  split; [exact HC|]. split; [exact Lb|]. split; [exact F1|]. split.
  - intros A. apply (C95_exactly toy true (bs "b") sz CRLF _ _ HC Lb Hsz (sharp_rfc 1023 ltac:(auto)) F1) in A.
    pose proof (proj1 (Forall_forall _ _) A (mkFH toy (bs "b") None None, repeat 120%N 1023) (or_intror (or_introl eq_refl))) as A2.
    cbn [snd] in A2. pose proof (repeat_length 120%N 1023). blia.
  - apply (C95_exactly toy true (bs "b") sz CRLF _ _ HC Lb Hsz (sharp_rfc 1022 ltac:(auto)) F2).
    repeat apply Forall_cons; try apply Forall_nil; cbn [snd]; try (apply Nat.ltb_lt; reflexivity).
Qed.

(** The chunking: what is before, the content with its CR, the rest. *)
Example C95_surplus_example :
  let c := repeat 120%N 1023 in
  let ts := [Chunk (sharp_head (bs "a") ++ bs "one" ++ CRLF); Chunk (sharp_head (bs "b"))] in
  let tz := [Chunk (LF :: sharp_tail)] in
  let t := ts ++ Chunk (c ++ [CR]) :: tz in
  stream t = sharp_body c /\ live t /\ quiet t /\ effective (delimiter (bs "b")) 1024 <= length (c ++ [CR]) /\
  form_at (head_block toy true (delimiter (bs "b"))) (delimiter (bs "b")) (stream t) [(mkFH toy (bs "a") None None, bs "one")]
    (mkFH toy (bs "b") None None, c) [(mkFH toy (bs "c") None None, bs "three")] (c ++ CRLF ++ sharp_tail) /\
  exists r, read_all toy true 4 (fun _ => 2048) (with_body t (bs "b")) =
    (Ok [(mkFH toy (bs "a") None None, bs "one"); (mkFH toy (bs "b") None None, c ++ CRLF); (mkFH toy (bs "c") None None, bs "three")], r).
Proof.
  cbv zeta.
  assert (E : stream ([Chunk (sharp_head (bs "a") ++ bs "one" ++ CRLF); Chunk (sharp_head (bs "b"))] ++
    [Chunk (repeat 120%N 1023 ++ [CR]); Chunk (LF :: sharp_tail)]) = sharp_body (repeat 120%N 1023)) by (vm_compute; reflexivity).
  split; [exact E|].
  split; [intros Z; repeat destruct Z as [Z|Z]; try discriminate; destruct Z|].
  split; [intros k Z; repeat destruct Z as [Z|Z]; try discriminate; destruct Z|].
  split; [apply Nat.leb_le; vm_compute; reflexivity|]. split.
  - rewrite E.
    apply form_more with (pre := []) (x := toy_head (bs "a")) (rest := bs "one" ++ CRLF ++ sharp_head (bs "b") ++ repeat 120%N 1023 ++ CRLF ++ sharp_tail).
    + apply find_split; vm_compute; reflexivity.
    + split; [|apply Nat.leb_le; vm_compute; reflexivity].
      eexists. split; [intros y; vm_compute; reflexivity|]. split; vm_compute; reflexivity.
    + exists (toy_head (bs "a") ++ bs "one" ++ CRLF), (CRLF ++ toy_head (bs "b") ++ repeat 120%N 1023 ++ CRLF ++ sharp_tail).
      split; [|left; reflexivity]. apply find_split; vm_compute; reflexivity.
    + apply form_here with (pre := bs "one" ++ CRLF) (x := toy_head (bs "b")).
      * apply find_split; vm_compute; reflexivity.
      * split; [|apply Nat.leb_le; vm_compute; reflexivity].
        eexists. split; [intros y; vm_compute; reflexivity|]. split; vm_compute; reflexivity.
      * exists (toy_head (bs "b") ++ repeat 120%N 1023 ++ CRLF), (CRLF ++ toy_head (bs "c") ++ bs "three" ++ CRLF ++ bs "--b--" ++ CRLF).
        split; [|left; reflexivity]. apply find_split; vm_compute; reflexivity.
      * apply parts_field with (pre := repeat 120%N 1023 ++ CRLF) (x := toy_head (bs "c")) (rest := bs "three" ++ CRLF ++ toy_end).
        -- apply find_split; vm_compute; reflexivity.
        -- split; [|apply Nat.leb_le; vm_compute; reflexivity].
           eexists. split; [intros y; vm_compute; reflexivity|]. split; vm_compute; reflexivity.
        -- exists (toy_head (bs "c") ++ bs "three" ++ CRLF), (DASHES ++ CRLF). split; [|left; reflexivity].
           apply find_split; vm_compute; reflexivity.
        -- apply parts_end with (pre := bs "three" ++ CRLF) (q := CRLF). apply find_split; vm_compute; reflexivity.
  - eexists. vm_compute. reflexivity.
Qed.
