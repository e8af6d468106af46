(** Full outcome of [read_entry]. *)

From Verif Require Import Bytes BytesProofs Spec Io Boundary BoundaryProofs Utf8 Httparse HttparseProofs Field
  FieldProofs ContentProofs DataProofs.

(** A fill returns a prefix of the remaining bytes. *)
Lemma fill_prefix r b r1 :
  inv r -> read_to_boundary r = (Ok b, r1) -> rem r = b ++ skipn (length b) (rem r) /\ length b = idx r1.
Proof.
  intros Hinv E.
  pose proof (read_to_boundary_spec _ _ _ Hinv E) as (I1 & R1 & _ & _ & _ & _ & _ & _ & X & _).
  assert (L : length b = idx r1).
  { rewrite X, firstn_length. destruct I1 as (_ & I1 & _). lia. }
  split; auto. rewrite L, <- R1. unfold rem at 1 2. subst b.
  destruct I1 as (_ & I1 & _).
  rewrite skipn_app_le by lia. rewrite app_assoc, firstn_skipn. reflexivity.
Qed.

(** * Soundness: whatever the chunking, the headers are those of the complete block *)

Lemma with_headers_sound trim fuel last r x r' :
  inv r -> with_headers trim fuel last r = (x, r') ->
  match x with
  | Ok hs => parse_headers trim HEADER_LEN (rem r) = HDone hs (rem r') /\ copy_headers hs = true
  | Err (PTokenize e) => parse_headers trim HEADER_LEN (rem r) = HErr e /\ rem r' = rem r
  | Err PUtf8 => rem r' = rem r /\ exists hs rest, parse_headers trim HEADER_LEN (rem r) = HDone hs rest /\ copy_headers hs = false
  | Err PTooLarge => rem r' = rem r
  | Err (PIo e) => rem r' = rem r /\ exists k, e = ETransport k /\ In (Fail k) (src r)
  | Err _ => False
  | Panic => False
  | OutOfFuel => True
  end.
Proof.
  revert last r; induction fuel as [|fuel IH]; intros last r Hinv; cbn [with_headers].
  { intros H; injection H as <- <-. exact I. }
  destruct (read_to_boundary r) as [y r1] eqn:E.
  pose proof (read_to_boundary_spec _ _ _ Hinv E) as (I1 & R1 & _ & _ & [used L1] & _ & _ & _ & X).
  destruct y as [b|e| |]; try tauto.
  2: { intros H; injection H as <- <-. destruct X as (k & -> & X & _). split; auto. eauto. }
  destruct (fill_prefix _ _ _ Hinv E) as [P L].
  destruct (length b =? last); [intros H; injection H as <- <-; exact R1|].
  destruct (parse_headers trim HEADER_LEN b) as [|e|hs rest] eqn:F.
  - intros H. apply IH in H; auto. rewrite R1 in H.
    destruct x as [hs|[| | | |e| | |e|]| |]; auto.
    destruct H as (H & k & -> & K). split; auto. exists k. split; auto. rewrite L1. apply in_or_app; auto.
  - intros H; injection H as <- <-. rewrite P. split; [now apply parse_headers_err|]. now rewrite <- P.
  - apply parse_headers_done in F as (x' & -> & _ & F).
    assert (F' : parse_headers trim HEADER_LEN (rem r) = HDone hs (rest ++ skipn (length (x' ++ rest)) (rem r))).
    { rewrite P at 1. rewrite <- app_assoc. apply F. }
    destruct (copy_headers hs) eqn:G; intros H; injection H as <- <-.
    + split; auto. rewrite F'. f_equal.
      pose proof (consume_spec (length (x' ++ rest) - length rest) r1 I1) as (_ & C & _).
      rewrite R1 in C.
      assert (Efst : firstn (Nat.min (length (x' ++ rest) - length rest) (idx r1)) (buf r1) = x').
      { destruct X as [X _]. rewrite app_length in *.
        replace (Nat.min (length x' + length rest - length rest) (idx r1)) with (length x') by lia.
        replace (length x') with (Nat.min (length x') (idx r1)) by lia.
        rewrite <- firstn_firstn, <- X. rewrite firstn_app, firstn_all, Nat.sub_diag, firstn_O. apply app_nil_r. }
      rewrite Efst in C. rewrite P in C at 1. rewrite <- app_assoc in C. apply app_inv_head in C. auto.
    + split; auto. eauto.
Qed.

(** * Completeness: a block of moderate size in a terminated field is found at the first attempt *)

(** After a successful fill, the cursor is at the end of the content if the delimiter is in the buffer,
    and within |D|+1 of the end of the buffer otherwise. *)
Lemma fill_reaches r b r1 c :
  inv r -> near r -> st r <> AtEnd -> read_to_boundary r = (Ok b, r1) -> live (src r) ->
  content (bnd r) (rem r) c ->
  length b = length c \/ minb r <= length b + length (bnd r) + 1.
Proof.
  intros Hinv Hn Hst E Hl (pre & post & FS & Hf).
  pose proof (read_to_boundary_spec _ _ _ Hinv E) as (I1 & R1 & B1 & _ & _ & _ & K1 & K2 & X).
  destruct (fill_prefix _ _ _ Hinv E) as [P L].
  assert (Hst1 : st r1 <> AtEnd).
  { destruct (st r) eqn:S0; [auto|destruct K1 as [K1 _]; congruence|congruence]. }
  destruct X as (_ & X1 & X2).
  pose proof (dashed_nonnil _ (proj1 Hinv)) as HD0.
  destruct (st r1) eqn:S1; [| |congruence].
  - destruct (X2 eq_refl) as [X3 X4]. right. rewrite L.
    destruct X1 as [X1|[X1|X1]]; [lia| |exfalso; auto].
    exfalso. apply first_split_at in FS. rewrite <- R1 in FS. unfold rem in FS. rewrite X1 in FS.
    simpl in FS. rewrite app_nil_r, X4 in FS. discriminate.
  - left. rewrite L.
    pose proof (near_fill _ _ _ Hinv Hn E) as Hn1.
    destruct I1 as (_ & _ & I2). rewrite S1 in I2. destruct I2 as (p & Hp & Hfirst).
    rewrite B1 in *. rewrite R1 in Hfirst.
    assert (ER : rem r = buf r1 ++ stream (src r1)) by (rewrite <- R1; reflexivity).
    destruct (found_split _ _ _ _ _ _ HD0 ER Hp Hfirst) as [FS' FL].
    destruct (first_split_fun _ _ _ _ _ _ FS FS') as [-> ->].
    destruct Hf as [Hf|[-> Hf]].
    + rewrite Hf in FS. destruct (Hn1 ltac:(congruence) c (skipn (p + length (bnd r)) (buf r1) ++ stream (src r1))) as [_ N2].
      { rewrite B1, R1. exact FS. }
      specialize (N2 S1). rewrite Hf, app_length in FL. simpl in FL. destruct Hp as (_ & _ & Hp). lia.
    + rewrite FL. destruct Hp as (P1 & P2 & [P3|[P3 P4]]); [lia|].
      exfalso. apply (Hf (firstn (idx r1) (buf r1))). rewrite P3.
      rewrite <- (firstn_skipn (idx r1) (firstn (idx r1 + 2) (buf r1))).
      rewrite firstn_firstn. replace (Nat.min (idx r1) (idx r1 + 2)) with (idx r1) by lia. f_equal.
      rewrite <- (firstn_sw _ _ 2 P4); auto. rewrite firstn_skipn_comm. now replace (idx r1 + 2) with (idx r1 + 2) by lia.
Qed.

Lemma with_headers_complete trim fuel r c hs x rest :
  inv r -> near r -> st r <> AtEnd -> live (src r) -> quiet (src r) ->
  content (bnd r) (rem r) c ->
  parse_headers trim HEADER_LEN (x ++ rest) = HDone hs rest -> rem r = x ++ rest ->
  length x <= length c -> length x + length (bnd r) + 1 <= minb r ->
  copy_headers hs = true -> 0 < fuel ->
  exists r', with_headers trim fuel 0 r = (Ok hs, r') /\ rem r' = rest.
Proof.
  intros Hinv Hn Hst Hl Hq Hc Hp Hr Hx Hm Hcp Hfuel.
  destruct fuel as [|fuel]; [lia|]. cbn [with_headers].
  destruct (read_to_boundary r) as [y r1] eqn:E.
  pose proof (read_to_boundary_spec _ _ _ Hinv E) as (I1 & R1 & B1 & _ & _ & _ & K1 & K2 & X).
  destruct y as [b|e| |]; try tauto.
  2: { destruct X as (k & _ & X & _). exfalso. eapply Hq; eauto. }
  pose proof (fill_reaches _ _ _ _ Hinv Hn Hst E Hl Hc) as Hreach.
  destruct (fill_prefix _ _ _ Hinv E) as [P L].
  assert (Lb : length x <= length b) by lia.
  pose proof Hp as Hp0.
  apply parse_headers_done in Hp as (x' & Ex & Hx' & Hp).
  apply app_inv_tail in Ex. subst x'.
  assert (Eb : b = x ++ skipn (length x) b).
  { assert (F : firstn (length x) (b ++ skipn (length b) (rem r)) = firstn (length x) (x ++ rest)) by congruence.
    rewrite !firstn_app_le, firstn_all in F by lia. rewrite <- F at 1. now rewrite firstn_skipn. }
  destruct (length b =? 0) eqn:Z. { destruct x; [congruence|simpl in Lb; lia]. }
  assert (Hpb : parse_headers trim HEADER_LEN b = HDone hs (skipn (length x) b)) by (rewrite Eb at 1; apply Hp).
  rewrite Hpb, Hcp. eexists; split; [reflexivity|].
  assert (W : with_headers trim 1 0 r = (Ok hs, consume (length b - length (skipn (length x) b)) r1)).
  { cbn [with_headers]. rewrite E, Z, Hpb, Hcp. reflexivity. }
  apply with_headers_sound in W as [W _]; auto. rewrite Hr, Hp0 in W. injection W as W. congruence.
Qed.

Section WithMime.
Context (ML : mime_lib).

Lemma min_after (D : bytes) : 2 <= length D -> length D + 4 <= Nat.max (length D * 2) MIN_BUF_SIZE.
Proof. unfold MIN_BUF_SIZE. lia. Qed.

(** [consume_boundary] as called by [read_entry]. *)
Lemma consume_boundary_verdict r x r' :
  inv r -> st r <> AtEnd -> live (src r) -> quiet (src r) ->
  (st r = Searching \/ idx r + length (bnd r) + 4 <= Nat.max (length (bnd r) * 2) MIN_BUF_SIZE) ->
  consume_boundary (set_min_buf_size MIN_BUF_SIZE r) = (x, r') ->
  match x with
  | Ok true => judges (bnd r) (rem r) (VField (rem r')) /\ st r' = Searching /\ idx r' = 0
  | Ok false => judges (bnd r) (rem r) (VEnd (rem r')) /\ st r' = AtEnd
  | Err (EBadBoundary a b) => judges (bnd r) (rem r) (VBad a b)
  | Err EShortBoundary => judges (bnd r) (rem r) VShort
  | Err EEndOfBody => judges (bnd r) (rem r) VMissing
  | _ => False
  end.
Proof.
  intros Hinv Hst Hl Hq Hc H.
  pose proof (dashed_length _ (proj1 Hinv)) as HDl. pose proof (min_after (bnd r) HDl) as HM.
  apply consume_boundary_spec in H; [|exact Hinv].
  destruct H as (_ & _ & _ & _ & _ & H). cbn [st set_min_buf_size] in H. specialize (H Hst).
  destruct x as [[|]|[k| | |a b]| |]; simpl in H; try tauto; simpl.
  - destruct H as (pre & q & FS & -> & ? & ?). eauto.
  - destruct H as (pre & q & FS & -> & ? & ?). eauto.
  - destruct H as (H & _). eapply Hq; eauto.
  - destruct H as (_ & _ & H). apply H; auto. lia.
  - destruct H as (pre & post & FS & _ & _ & H). exists pre, post. split; auto. apply H; auto.
    destruct Hc as [Hc|Hc]; [left; split; auto|right]; lia.
  - destruct H as ((pre & q & FS) & ? & ? & _). eauto.
Qed.

Lemma judges_fun D R v w : D <> [] -> judges D R v -> judges D R w -> v = w.
Proof.
  intros HD Hv Hw.
  assert (A : forall pre post, first_split D R pre post -> absent D R -> False).
  { intros pre post [FS _] Ha. apply (Ha (length pre)). exists pre, post. auto. }
  destruct v, w; simpl in *;
    repeat match goal with
    | H : _ /\ _ |- _ => destruct H
    | H : exists _, _ |- _ => destruct H
    end;
    try reflexivity;
    try (exfalso; eapply A; eassumption);
    match goal with
    | H1 : first_split D R ?p1 ?q1, H2 : first_split D R ?p2 ?q2 |- _ =>
        destruct (first_split_fun _ _ _ _ _ _ H1 H2) as [? E]; clear H1 H2; simpl in E
    end;
    try (injection E; intros; subst; congruence);
    try (subst; simpl in *; lia); try discriminate.
  all: exfalso; injection E; intros; subst;
    match goal with H : ?x <> ?y |- _ => apply H; reflexivity end.
Qed.

(** Soundness of [read_entry], for every transport: an entry is announced only where the body has a
    delimiter followed by CRLF and a complete header block; nothing else is consumed. *)
Lemma read_entry_sound trim r h r' :
  inv r -> st r <> AtEnd -> read_entry ML trim r = (Ok (Some h), r') ->
  exists pre q hs, first_split (bnd r) (rem r) pre (CRLF ++ q) /\
    parse_headers trim HEADER_LEN q = HDone hs (rem r') /\ copy_headers hs = true /\
    parse_field_headers ML hs = Ok h.
Proof.
  intros Hinv Hst. unfold read_entry.
  destruct (consume_boundary (set_min_buf_size MIN_BUF_SIZE r)) as [x r1] eqn:E.
  pose proof (consume_boundary_spec _ _ _ (inv_set_min MIN_BUF_SIZE r Hinv) E) as (I1 & _ & _ & _ & _ & N).
  cbn [st set_min_buf_size] in N. specialize (N Hst).
  destruct x as [[|]|e| |]; try discriminate.
  unfold read_headers. destruct (with_headers trim (length (src r1) + 3) 0 r1) as [y r2] eqn:F.
  apply with_headers_sound in F; auto.
  destruct y as [hs|e| |]; try discriminate.
  destruct (parse_field_headers ML hs) eqn:G; try discriminate.
  intros H; injection H as <- <-.
  destruct N as (pre & q & FS & <- & _). destruct F as [F1 F2].
  exists pre, (rem r1), hs. auto.
Qed.

Lemma read_entry_end trim r r' :
  inv r -> st r <> AtEnd -> read_entry ML trim r = (Ok None, r') ->
  exists pre q, first_split (bnd r) (rem r) pre (DASHES ++ q) /\ rem r' = q /\ st r' = AtEnd.
Proof.
  intros Hinv Hst. unfold read_entry.
  destruct (consume_boundary (set_min_buf_size MIN_BUF_SIZE r)) as [x r1] eqn:E.
  pose proof (consume_boundary_spec _ _ _ (inv_set_min MIN_BUF_SIZE r Hinv) E) as (I1 & _ & _ & _ & _ & N).
  cbn [st set_min_buf_size] in N. specialize (N Hst).
  destruct x as [[|]|e| |]; try discriminate.
  - destruct (read_headers ML trim r1) as [[| | |] ?]; discriminate.
  - intros H; injection H as <-. destruct N as (pre & q & FS & ? & ? & ?). eauto.
Qed.

(** Completeness of [read_entry] on a transport without errors. *)
Lemma read_entry_field trim r pre x rest c hs :
  inv r -> near r -> st r <> AtEnd -> live (src r) -> quiet (src r) ->
  (st r = Searching \/ idx r + length (bnd r) + 4 <= Nat.max (length (bnd r) * 2) MIN_BUF_SIZE) ->
  first_split (bnd r) (rem r) pre (CRLF ++ x ++ rest) ->
  content (bnd r) (x ++ rest) c -> length x <= length c ->
  length x + length (bnd r) + 1 <= Nat.max (length (bnd r) * 2) MIN_BUF_SIZE ->
  parse_headers trim HEADER_LEN (x ++ rest) = HDone hs rest -> copy_headers hs = true ->
  exists r', read_entry ML trim r = (match parse_field_headers ML hs with
                                     | Ok h => Ok (Some h)
                                     | Err e => Err (EHdr e)
                                     | Panic => Panic
                                     | OutOfFuel => OutOfFuel
                                     end, r') /\ rem r' = rest.
Proof.
  intros Hinv Hn Hst Hl Hq Hc FS Hcont Hx Hm Hp Hcp. unfold read_entry.
  destruct (consume_boundary (set_min_buf_size MIN_BUF_SIZE r)) as [y r1] eqn:E.
  pose proof (consume_boundary_verdict _ _ _ Hinv Hst Hl Hq Hc E) as V.
  pose proof (consume_boundary_spec _ _ _ (inv_set_min MIN_BUF_SIZE r Hinv) E) as (I1 & B1 & M1 & L1 & _).
  pose proof (consume_boundary_steps _ _ _ (inv_set_min MIN_BUF_SIZE r Hinv) E) as S1.
  assert (Hn1 : near r1).
  { eapply steps_near; eauto. }
  cbn [bnd minb src set_min_buf_size] in *.
  assert (J : judges (bnd r) (rem r) (VField (x ++ rest))) by (exists pre; auto).
  pose proof (dashed_nonnil _ (proj1 Hinv)) as HD0.
  destruct y as [[|]|[k| | |a b]| |]; try tauto.
  2: { destruct V as [V _]. pose proof (judges_fun _ _ _ _ HD0 V J). discriminate. }
  2-4: pose proof (judges_fun _ _ _ _ HD0 V J); discriminate.
  destruct V as (V & St1 & _). pose proof (judges_fun _ _ _ _ HD0 V J) as Q. injection Q as Q.
  destruct (with_headers_complete trim (length (src r1) + 3) r1 c hs x rest) as (r2 & W & R2); auto.
  - congruence.
  - eapply live_later; eauto.
  - eapply quiet_later; eauto.
  - rewrite B1, Q. auto.
  - rewrite B1, M1. auto.
  - lia.
  - unfold read_headers. rewrite W. exists r2. split; auto.
    destruct (parse_field_headers ML hs); auto.
Qed.

Lemma read_entry_last trim r pre q :
  inv r -> st r <> AtEnd -> live (src r) -> quiet (src r) ->
  (st r = Searching \/ idx r + length (bnd r) + 4 <= Nat.max (length (bnd r) * 2) MIN_BUF_SIZE) ->
  first_split (bnd r) (rem r) pre (DASHES ++ q) ->
  exists r', read_entry ML trim r = (Ok None, r').
Proof.
  intros Hinv Hst Hl Hq Hc FS. unfold read_entry.
  destruct (consume_boundary (set_min_buf_size MIN_BUF_SIZE r)) as [y r1] eqn:E.
  pose proof (consume_boundary_verdict _ _ _ Hinv Hst Hl Hq Hc E) as V.
  assert (J : judges (bnd r) (rem r) (VEnd q)) by (exists pre; auto).
  pose proof (dashed_nonnil _ (proj1 Hinv)) as HD0.
  destruct y as [[|]|[k| | |a b]| |]; try tauto; eauto.
  - destruct V as [V _]. pose proof (judges_fun _ _ _ _ HD0 V J). discriminate.
  - pose proof (judges_fun _ _ _ _ HD0 V J); discriminate.
  - pose proof (judges_fun _ _ _ _ HD0 V J); discriminate.
  - pose proof (judges_fun _ _ _ _ HD0 V J); discriminate.
Qed.

End WithMime.
