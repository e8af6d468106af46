(** Property theorems for every chunking of the body, continued: whole bodies, the Iron middleware, the example servers and
    clients (C87).  Every received content is the one sent, with at most one CRLF (of the delimiter) as surplus. *)

From Verif Require Import Bytes BytesProofs Spec Io Boundary BoundaryProofs Utf8 Utf8Proofs Httparse Field FieldProofs
  ContentProofs DataProofs ShortProofs EntryProofs ReaderProofs Drive DriveProofs ReachProofs Rand Fs Save SaveProofs PhaseProofs SaveFacts
  TextProofs Toy PropsReader PropsSave EntriesProofs CompleteProofs PropsEntries HeaderSpec HeaderProofs PropsHeader WireSpec Client ClientProofs WireProofs
  PropsClient Lazy LazyProofs PropsLazy Mock PropsMock Savedir PropsSavedir Iron IronProofs PropsIron Requests PropsRequests PropsUpload Results PropsResults
  Readers PropsReaders PropsForeach PropsAny Servers PropsServers Examples PropsExamples.

(** ** C87 *)

(** Specification: the same fields in the same order, each content with at most one CRLF as surplus. *)
Definition almost {ML} (l l' : list (field_headers ML * bytes)) : Prop :=
  Forall2 (fun a b => fst b = fst a /\ padded (snd a) (snd b)) l l'.

Lemma almost_length {ML} (l l' : list (field_headers ML * bytes)) : almost l l' -> length l' = length l.
Proof. induction 1; cbn; auto. Qed.

Lemma almost_refl {ML} (l : list (field_headers ML * bytes)) : almost l l.
Proof. induction l; constructor; auto. split; auto. now left. Qed.

Lemma saved_almost {ML} f (log : list (field_headers ML * saved)) l : Forall2 (saved_as f) log l ->
  exists l', almost l l' /\ Forall2 (fun hv hc => fst hv = fst hc /\ readable (snd hv) f = Some (snd hc)) log l'.
Proof.
  induction 1 as [|hv hc log l (H1 & w & H2 & H3) F (l' & A & B)]; [exists []; split; constructor|].
  exists ((fst hc, w) :: l'). split; constructor; auto.
Qed.

Lemma padded_prefix c w : padded c w -> prefix_of w (c ++ CRLF).
Proof. intros [->| ->]; [exists CRLF; reflexivity|exists []; now rewrite app_nil_r]. Qed.

Lemma content_prefix D s c pre post d rest : first_split D s pre post -> pre = d ++ rest -> content D s c -> prefix_of d (c ++ CRLF).
Proof.
  intros FS E Hc. pose proof (content_padded _ _ _ _ _ _ Hc FS (or_introl eq_refl)) as P. apply padded_prefix in P as (u & Eu).
  exists (rest ++ u). rewrite app_assoc, <- E. auto.
Qed.

(** *** Reading *)

Section Reading.
Context (ML : mime_lib).

Lemma drain_ended trim t b h r0 sz : at_field ML trim t b h r0 -> live t -> quiet t -> (forall k, 0 < sz k) ->
  forall fuel k d0 r, moved r0 d0 r -> length (rem r) < fuel ->
  exists d r', drain fuel sz k r = (Ok d, r') /\ ended r0 (d0 ++ d) r'.
Proof.
  intros Hf Hl Hq Hz. induction fuel as [|fuel IH]; intros k d0 r M Lf; [lia|]. cbn [drain]. unfold read.
  destruct (moved_field ML _ _ _ _ _ _ _ Hf M) as (Ir & _ & Sr & Br & Lr & Mr & _).
  destruct (read_to_boundary r) as [y r1] eqn:E.
  pose proof (read_to_boundary_spec _ _ _ Ir E) as (I1 & R1 & B1 & M1 & L1 & _ & K1 & K2 & X).
  destruct y as [z|e| |]; try tauto.
  2: { exfalso. destruct X as (kk & _ & X & _). exact (quiet_later _ _ Lr Hq _ X). }
  specialize (Hz k). destruct (sz k) as [|n] eqn:Ez; [lia|]. destruct z as [|z0 z].
  - cbn [firstn length]. exists [], (consume 0 r1). split; [reflexivity|]. rewrite app_nil_r.
    assert (Zc : consume 0 r1 = r1).
    { unfold consume. rewrite Nat.min_0_l. cbn [skipn]. rewrite Nat.sub_0_r. destruct r1; reflexivity. }
    rewrite Zc. exists r. auto.
  - set (out := firstn (S n) (z0 :: z)). assert (Lo : 0 < length out) by (cbn; lia).
    assert (Lz : length out <= length (z0 :: z)) by (unfold out; rewrite firstn_length; lia).
    pose proof (fill_moved _ _ _ (length out) Ir E Lz) as Mo.
    assert (Fo : firstn (length out) (z0 :: z) = out).
    { unfold out at 1. rewrite firstn_length, <- firstn_firstn, (firstn_all2 (n := length (z0 :: z))); auto. }
    rewrite Fo in Mo.
    pose proof (moved_spec _ _ _ Mo Ir) as (_ & Rm & _).
    destruct (IH (S k) (d0 ++ out) (consume (length out) r1)) as (d & r' & D & En).
    { eapply moved_trans; eauto. }
    { apply (f_equal (@length _)) in Rm. rewrite app_length in Rm. lia. }
    exists (out ++ d), r'. split; [|rewrite app_assoc; exact En].
    unfold out in *. cbn [firstn] in *. rewrite D. reflexivity.
Qed.

Lemma read_all_any trim t b sz : live t -> quiet t -> (forall k, 0 < sz k) ->
  forall l r, reached ML trim t b r -> st r <> AtEnd -> st r = Searching \/ idx r = 0 ->
  parts (head_block ML trim (delimiter b)) (delimiter b) (rem r) l ->
  exists l' r', read_all ML trim (S (length l)) sz r = (Ok l', r') /\ almost l l'.
Proof.
  intros Hl Hq Hz. induction l as [|[h c] l IH]; intros r Hr Hs Hi P.
  - cbn [length read_all]. destruct (read_entry ML trim r) as [x r1] eqn:E.
    pose proof (read_entry_parts ML _ _ _ _ _ _ _ Hr Hs Hi Hl P E) as N.
    destruct x as [[h|]|y| |]; simpl in N; try tauto.
    + destruct N as (c & l' & Q & _). discriminate.
    + exists [], r1. split; [reflexivity|constructor].
  - change (length ((h, c) :: l)) with (S (length l)). remember (S (length l)) as n. cbn [read_all]. destruct (read_entry ML trim r) as [x r1] eqn:E.
    pose proof (read_entry_parts ML _ _ _ _ _ _ _ Hr Hs Hi Hl P E) as N.
    destruct x as [[h'|]|y| |]; simpl in N; try tauto; [|discriminate].
    destruct N as (c' & l' & Q & Hf & Hc & P'). injection Q as <- <- <-.
    destruct (drain_ended _ _ _ _ _ _ Hf Hl Hq Hz (S (length (buf r1) + length (stream (src r1)))) 0 [] r1) as (d & r2 & D & En).
    { constructor. } { unfold rem. rewrite app_length. lia. }
    rewrite D. cbn [app] in En. destruct (ended_padded ML _ _ _ _ _ _ _ _ Hf Hl En Hc) as [Pw _].
    pose proof (at_field_inv ML _ _ _ _ _ Hf) as I. destruct (at_field_reached ML _ _ _ _ _ Hf) as (R0 & S0 & _).
    pose proof (reached_inv ML _ _ _ _ R0) as (_ & _ & B0 & _).
    pose proof (ended_moved _ _ _ En) as M.
    destruct (moved_field ML _ _ _ _ _ _ _ Hf M) as (I1 & _ & S1 & B1 & L1 & M1 & R1 & _).
    assert (Z : idx r2 = 0).
    { destruct En as (r3 & M0 & E0).
      destruct (moved_field ML _ _ _ _ _ _ _ Hf M0) as (I2 & _ & S2 & B2 & L2 & M2 & _).
      pose proof (read_empty _ _ _ I2 S2 Nat.lt_0_1 (fill_empty_read _ _ E0) (live_later _ _ L2 Hl) M2) as (_ & _ & Z & _). exact Z. }
    assert (P2 : parts (head_block ML trim (delimiter b)) (delimiter b) (rem r2) l).
    { destruct (moved_skipped _ _ _ I S0 M) as [K _]. rewrite B0 in K. eapply parts_skipped; eauto. discriminate. }
    destruct (IH r2 R1 S1 (or_intror Z) P2) as (l2 & r' & -> & A). exists ((h, d) :: l2), r'. split; [reflexivity|]. constructor; auto.
Qed.

End Reading.

(** Reading a well-formed body to the end, with read buffers of any size; a preamble and an epilogue make no difference. *)
Theorem C87_read_all : forall ML trim t b sz P M E l,
  live t -> quiet t -> (forall k, 0 < sz k) ->
  parts (head_block ML trim (delimiter b)) (delimiter b) (delimiter b ++ M) l ->
  (forall i, occurs_at (delimiter b) (P ++ delimiter b ++ M) i -> length P <= i) ->
  stream t = P ++ delimiter b ++ M ++ E ->
  exists l' r, read_all ML trim (S (length l)) sz (with_body t b) = (Ok l', r) /\ almost l l'.
Proof.
  intros ML trim t b sz P M E l Hl Hq Hz Hp HP Hs.
  apply (read_all_any ML trim t b sz Hl Hq Hz l (with_body t b)); [exists [], []; reflexivity|discriminate|now left|].
  change (rem (with_body t b)) with (stream t). rewrite Hs.
  replace (P ++ delimiter b ++ M ++ E) with ((P ++ delimiter b ++ M) ++ E) by (now rewrite <- !app_assoc).
  apply parts_epilogue, parts_preamble; auto; [split; auto|discriminate].
Qed.

(** *** Saving under limits *)

Section Limits.
Context (ML : mime_lib).

Lemma with_path_size_any trim t b h r s p fuel e v r' e' c :
  at_field ML trim t b h r -> content (delimiter b) (rem r) c ->
  with_path s p fuel r e = (Part v RSize, r', e') -> (s_size_limit s < N.of_nat (length c + 2))%N.
Proof.
  intros Hf Hc H. pose proof (at_field_inv _ _ _ _ _ _ Hf) as I. pose proof Hc as (pre & post & FS & _).
  assert (Lp : length pre <= length c + 2).
  { destruct (content_padded _ _ _ _ _ _ Hc FS (or_introl eq_refl)) as [->| ->]; [lia|rewrite app_length; cbn; lia]. }
  assert (Pn : forall d r2 b0, SaveProofs.pending r d r2 b0 -> length d + length b0 <= length c + 2).
  { intros d r2 b0 P. apply pending_moved in P; auto.
    destruct (moved_prefix ML _ _ _ _ _ _ _ _ _ Hf P FS) as (c' & E & _). rewrite E, !app_length in Lp. lia. }
  assert (Mem : forall d b0, (s_size_limit s <= N.of_nat (length d))%N -> b0 <> [] -> SaveProofs.pending r d r' b0 ->
    (s_size_limit s < N.of_nat (length c + 2))%N).
  { intros d b0 Ld Nb P. apply Pn in P. destruct b0; [congruence|]. cbn [length] in P. lia. }
  apply with_path_cases in H as [(_ & d & _ & _ & X)|(ob & r1 & b0 & M & _ & _ & _ & _ & _ & H)]; auto.
  - destruct v as [w0|w0|q0 n0]; simpl in X; try tauto.
    + destruct X as (_ & _ & _ & [(_ & Ld & b0 & Nb & P)|[(Q & _)|(? & Q & _)]]); try discriminate. eauto.
    + destruct X as (_ & [(_ & Ld & b0 & Nb & P)|(? & Q & _)]); try discriminate. eauto.
  - pose proof (moved_spec _ _ _ M I) as (J & _).
    apply save_disk_spec in H as (d & M1 & _ & _ & _ & [(_ & (k & Q) & _)|(w & _ & X)]); auto; [discriminate|].
    destruct X as [(_ & _ & [(_ & b1 & Nb & P & L)|[(? & Q & _)|(? & Q)]])|(_ & _ & _ & _ & ? & Q)]; try discriminate.
    destruct P as (r2 & M2 & E2). pose proof (Pn (ob ++ d) r' b1) as Lq. rewrite app_length in Lq.
    assert (SaveProofs.pending r (ob ++ d) r' b1) by (exists r2; split; auto; eapply moved_trans; eauto). specialize (Lq H). lia.
Qed.

Lemma stored_saved t b e log d : Forall2 (stored_padded ML t b e) log d -> Forall2 (saved_as (e_fs e)) log d.
Proof. induction 1 as [|hv hc log d (E1 & w & E2 & E3 & _) F IH]; constructor; auto. split; eauto. Qed.

(** A field is cut off: the fields before it are saved, and the reader is inside it. *)
Lemma loop_cut_any trim t b s fuel : live t -> s_opts s = default_opts ->
  forall l res en g r e pe g' r' e', inv r -> next_state ML trim t b res r l ->
  entries_loop ML trim s fuel res en g r e = (Part pe RSize, g', r', e') ->
  exists log d h c rest v w, pe_entries ML pe = pushes ML en log /\ l = d ++ (h, c) :: rest /\
    Forall2 (saved_as (e_fs e')) log d /\ pe_partial ML pe = Some (h, Some v) /\ (s_size_limit s < N.of_nat (length c + 2))%N /\
    readable v (e_fs e') = Some w /\ prefix_of w (c ++ CRLF) /\
    reached ML trim t b r' /\ st r' <> AtEnd /\ parts (head_block ML trim (delimiter b)) (delimiter b) (rem r') rest /\
    enough r' <= enough r /\ g' = skipn (RANDOM_FILENAME_LEN * S (length log)) g.
Proof.
  intros Hl Ho. induction fuel as [|fuel IH]; intros l res en g r e pe g' r' e' I N; cbn [entries_loop]; [discriminate|].
  destruct (en_count ML en <? s_count_limit s)%N eqn:C; [|discriminate].
  destruct res as [[h|]|y| |]; simpl in N; try discriminate.
  destruct N as (c & l' & -> & Hf & Hc & P).
  destruct (save_field ML s h en (S fuel) g r e) as [[[y g1] r1] e1] eqn:E. pose proof E as E0.
  apply save_field_path in E as [-> E].
  set (s' := mkSaver (s_size_limit s) (s_count_limit s) (s_threshold s) (if Field.is_text ML h then s_policy s else TIgnore) (s_opts s)) in *.
  destruct y as [v|v why|y| |]; try discriminate.
  2: { intros H; injection H as <- -> <- <- <-. exists [], [], h, c, l', v.
       destruct (with_path_kept _ _ _ _ _ _ _ _ I (Ho : s_opts s' = default_opts) E) as (w & Rd & M).
       destruct (moved_field ML _ _ _ _ _ _ _ Hf M) as (_ & _ & S1 & _ & _ & _ & R1 & _).
       pose proof Hc as (pre & post & FS & _).
       destruct (moved_prefix ML _ _ _ _ _ _ _ _ _ Hf M FS) as (c' & Ec & _).
       destruct (at_field_reached _ _ _ _ _ _ Hf) as (R0 & S0 & _).
       pose proof (reached_inv _ _ _ _ _ R0) as (_ & _ & B0 & _).
       exists w. split; [reflexivity|]. split; [reflexivity|]. split; [constructor|]. split; [reflexivity|].
       split; [exact (with_path_size_any _ _ _ _ _ _ _ _ _ _ _ _ _ Hf Hc E)|]. split; auto. split; [eapply content_prefix; eauto|].
       split; auto. split; auto. split; [|split; [exact (enough_moved _ _ _ I M)|reflexivity]].
       destruct (moved_skipped _ _ _ I S0 M) as [K _]. rewrite B0 in K. eapply parts_skipped; eauto. discriminate. }
  destruct (save_step_any ML _ _ _ _ _ _ _ _ _ _ _ _ _ _ _ _ Hf Hl Ho Hc P E0) as ((w0 & Rd & Pw & _) & R1 & S1 & Z1 & P1).
  destruct (read_entry ML trim r1) as [res' r2] eqn:Re. intros H.
  pose proof (read_entry_parts ML _ _ _ _ _ _ _ R1 S1 (or_intror Z1) Hl P1 Re) as N.
  pose proof (reached_inv _ _ _ _ _ R1) as (I1 & _). pose proof (read_entry_keeps ML _ _ _ _ I1 Re) as I2.
  pose proof (loop_touched ML _ _ _ Ho _ _ _ _ _ _ _ _ _ I2 H) as T.
  destruct (with_path_moved _ _ _ _ _ _ _ _ I E) as [d1 M1].
  pose proof (enough_moved _ _ _ I M1) as Le1. pose proof (enough_entry ML _ _ _ _ I1 Re) as Le2.
  destruct (IH _ _ _ _ _ _ _ _ _ _ I2 N H) as (log & d & h2 & c2 & rest & v2 & w & H1 & -> & H3 & H4 & H5 & H6 & H7 & H8 & H9 & H10 & H11 & ->).
  exists ((h, v) :: log), ((h, c) :: d), h2, c2, rest, v2, w.
  split; auto. split; auto. split; [constructor; auto; split; auto; exists w0; split; auto; eapply readable_kept; eauto|].
  split; auto. split; auto. split; auto. split; auto. split; auto. split; auto. split; auto. split; [lia|].
  rewrite skipn_plus. cbn [length]. f_equal. lia.
Qed.

End Limits.

(** The Iron middleware with the default behaviour.  Whatever fails: it does not panic; a request that is accepted is complete and
    below the count limit; the count error is given only at the limit, and the size error for a field that exceeds the limit, the
    CRLF included. *)
Theorem C87_strict : forall ML trim ic ev dir fuel g t b e l x e',
  live t -> (ic_count ic <= U32MAX)%N ->
  parts (head_block ML trim (delimiter b)) (delimiter b) (stream t) l ->
  read_request_strict ML trim ic ev dir fuel g (with_body t b) e = (x, e') ->
  match x with
  | Ok (Some en) => (N.of_nat (length l) < ic_count ic)%N /\
      exists l', almost l l' /\ well_grouped en /\ fields_of en = length l /\ forall n, found en (e_fs e') n = sent_as l' n
  | Ok None | Panic => False
  | Err (ICountLimit _ n) => n = ic_count ic /\ (ic_count ic <= N.of_nat (length l))%N
  | Err (ISizeLimit _ h) => exists d c rest, l = d ++ (h, c) :: rest /\ (ic_size ic < N.of_nat (length c + 2))%N
  | Err _ | OutOfFuel => True
  end.
Proof.
  intros ML trim ic ev dir fuel g t b e l x e' Hl Lc P H.
  assert (R0 : reached ML trim t b (with_body t b)) by (exists [], []; reflexivity).
  pose proof (C46_no_panic ML trim ic ev dir fuel g t b _ e R0) as NP. rewrite H in NP.
  unfold read_request_strict, with_temp_dir in H.
  destruct (with_entries ML trim (iron_saver ic) fuel (entries_new ML dir true) g (with_body t b) e) as [[[y g'] r'] e2] eqn:W.
  assert (Wg : well_grouped (recount_fields ML (entries_new ML dir true))) by (split; constructor).
  pose proof W as W0. unfold with_entries in W0. destruct (read_entry ML trim (with_body t b)) as [res r1] eqn:E.
  pose proof (read_entry_parts ML _ _ _ _ _ _ _ R0 ltac:(discriminate) (or_introl eq_refl) Hl P E) as N.
  pose proof (read_entry_keeps ML _ _ _ _ (inv_from_reader t b) E) as I1.
  destruct y as [en|pe why|y| |].
  - injection H as <- <-.
    destruct (C76_request ML trim t b (iron_saver ic) _ _ _ _ _ _ _ _ _ en Hl eq_refl P W (or_introl eq_refl)) as (log & d & rest & -> & Ed & F & Er).
    rewrite (Er eq_refl), app_nil_r in Ed. subst d. destruct (saved_almost _ _ _ F) as (l' & A & F').
    assert (Ll : length log = length l) by (clear - F; induction F; cbn; auto).
    destruct (C45_grouping ML _ log [] Wg) as (W' & _ & _ & Fo).
    assert (Lc' : (s_count_limit (iron_saver ic) <= U32MAX)%N) by exact Lc.
    apply (loop_count ML _ _ _ Lc') in W0 as [W0 _]; [|reflexivity].
    rewrite fields_total in Fo. pose proof W0 as W1. rewrite Fo in W1.
    change (s_count_limit (iron_saver ic)) with (ic_count ic) in W1. change (total ML (recount_fields ML (entries_new ML dir true))) with 0 in W1.
    change (fields_of (recount_fields ML (entries_new ML dir true))) with 0 in *. split.
    { lia. }
    exists l'. split; auto. split; [exact W'|]. split; [rewrite fields_total, Fo; lia|].
    intros n. destruct (C45_grouping ML _ log n Wg) as (_ & Fa & _). unfold found. rewrite Fa. now apply found_log.
  - destruct why as [| |z|].
    + injection H as <- <-. split; auto.
      destruct (C76_request ML trim t b (iron_saver ic) _ _ _ _ _ _ _ _ _ (pe_entries ML pe) Hl eq_refl P W) as (log & d & rest & H1 & -> & H3 & _); [eauto|].
      apply loop_count_reached in W0; auto. rewrite H1 in W0. change (s_count_limit (iron_saver ic)) with (ic_count ic) in W0.
      destruct (C45_grouping ML _ log [] Wg) as (_ & _ & Q1 & Q2).
      rewrite Q1, Q2 in W0 by reflexivity. change (fields_of (recount_fields ML (entries_new ML dir true))) with 0 in W0.
      rewrite app_length. assert (length log = length d) by (clear - H3; induction H3; simpl; lia). lia.
    + destruct (loop_cut_any ML trim t b (iron_saver ic) _ Hl eq_refl _ _ _ _ _ _ _ _ _ _ I1 N W0)
        as (log & d & h2 & c & rest & v & w & _ & -> & _ & Hp & L & _).
      rewrite Hp in H. injection H as <- _. eauto.
    + injection H as <- <-. exact I.
    + injection H as <- <-. now apply NP.
  - injection H as <- <-. exact I.
  - injection H as <- <-. now apply NP.
  - injection H as <- <-. exact I.
Qed.

(** Within the limits, with two bytes to spare: accepted. *)
Theorem C87_within : forall ML trim ic ev dir g t b e l,
  live t -> quiet t -> (ic_count ic <= U32MAX)%N ->
  parts (head_block ML trim (delimiter b)) (delimiter b) (stream t) l -> good e -> fresh_names e dir g (length l) ->
  (N.of_nat (length l) < ic_count ic)%N -> Forall (fun hc => (N.of_nat (length (snd hc) + 2) <= ic_size ic)%N) l ->
  exists fuel0, forall fuel, fuel0 <= fuel ->
  exists en e' l', read_request_strict ML trim ic ev dir fuel g (with_body t b) e = (Ok (Some en), e') /\
    almost l l' /\ well_grouped en /\ fields_of en = length l /\ forall n, found en (e_fs e') n = sent_as l' n.
Proof.
  intros ML trim ic ev dir g t b e l Hl Hq Lc P G F Ll Fs.
  destruct (C76_request_full ML trim t b (iron_saver ic) (entries_new ML dir true) g e l Hl Hq eq_refl) as (fuel0 & K); auto.
  { apply iron_policy. } { exact (iron_mem ic). }
  exists fuel0. intros fuel Lf. destruct (K fuel Lf) as (en & g' & r' & e' & log & H & _).
  assert (R : read_request_strict ML trim ic ev dir fuel g (with_body t b) e = (Ok (Some en), e')).
  { unfold read_request_strict, with_temp_dir. rewrite H. reflexivity. }
  pose proof (C87_strict ML trim ic ev dir fuel g t b e l _ _ Hl Lc P R) as (_ & l' & K'). exists en, e', l'. auto.
Qed.

(** [LimitBehavior::Continue] with fewer fields than the limit: it ends, whatever is too large and whatever fails; *)
Lemma lenient_ends_any ML trim ic ev t b rounds fuel : live t -> (ic_count ic <= U32MAX)%N ->
  forall l en g r e, reached ML trim t b r -> st r <> AtEnd ->
  parts (head_block ML trim (delimiter b)) (delimiter b) (rem r) l ->
  counted_right ML en -> (N.of_nat (total ML en + length l) < ic_count ic)%N -> length l < rounds ->
  enough r + N.to_nat (mem_min (iron_saver ic)) + 1 + N.to_nat (ic_count ic) + 2 <= fuel ->
  fst (lenient_loop ML trim ic ev rounds fuel en g r e) <> OutOfFuel /\ fst (lenient_loop ML trim ic ev rounds fuel en g r e) <> Panic.
Proof.
  intros Hl Lc. induction rounds as [|rounds IH]; intros l en g r e Hr Hs P Cr Lt Lr Lf; [lia|]. cbn [lenient_loop].
  destruct (with_entries ML trim (iron_saver ic) fuel en g r e) as [[[y g'] r'] e2] eqn:W.
  unfold with_entries in W. destruct (read_entry ML trim r) as [res r1] eqn:E.
  pose proof (reached_inv _ _ _ _ _ Hr) as (I & _).
  pose proof (read_entry_inv ML _ _ _ _ I E) as (I1 & _ & _ & _ & N1 & N2).
  pose proof (enough_entry ML _ _ _ _ I E) as Le. rewrite (recount_same _ _ Cr) in W.
  assert (NF : y <> SFuel).
  { eapply loop_ends; [apply iron_mem|exact Lc|exact I1|exact N2| | |exact W]; change (s_count_limit (iron_saver ic)) with (ic_count ic); lia. }
  pose proof (loop_reasons ML _ _ _ (iron_policy ic) _ _ _ _ _ _ _ _ _ I1 N1 W) as [NP K].
  destruct y as [en1|pe why|y| |]; try (split; discriminate); try congruence.
  destruct (K pe why eq_refl) as [K1 K2]. clear K.
  pose proof (read_entry_ok ML _ _ _ _ _ _ _ Hr Hs P E) as N.
  destruct why as [| |x|]; try (split; discriminate); try congruence.
  - exfalso.
    assert (Le1 : exists log, pe_entries ML pe = pushes ML en log /\ length log <= length l).
    { destruct res as [o|z| |]; try congruence.
      - destruct (loop_prefix_any ML trim t b (iron_saver ic) _ Hl eq_refl _ _ _ _ _ _ _ _ _ _ I1 N W _ eq_refl) as (log & d & rest & H1 & -> & H3 & _).
        exists log. split; auto. rewrite app_length. apply Forall2_length in H3. lia.
      - destruct fuel as [|fuel]; [discriminate W|]. cbn [entries_loop] in W.
        destruct (_ <? _)%N; [discriminate W|]. injection W as <- _ _ _. exists []. split; [reflexivity|simpl; lia]. }
    destruct Le1 as (log & H1 & Ll). pose proof (loop_count_reached ML _ _ _ _ _ _ _ _ _ _ _ _ W I1) as Lq.
    change (s_count_limit (iron_saver ic)) with (ic_count ic) in Lq.
    pose proof (pushes_right ML log en Cr) as Cp. unfold counted_right in Cp. rewrite H1, Cp, pushes_total in Lq. lia.
  - destruct res as [o|z| |]; try congruence.
    2: { destruct fuel as [|fuel]; [discriminate W|]. cbn [entries_loop] in W. destruct (_ <? _)%N; discriminate W. }
    destruct (loop_cut_any ML trim t b (iron_saver ic) _ Hl eq_refl _ _ _ _ _ _ _ _ _ _ I1 N W)
      as (log & d & h2 & c & rest & v & w & H1 & -> & H3 & Hp & _ & _ & _ & R1 & S1 & P1 & Le1 & _).
    apply Forall2_length in H3. rewrite app_length in Lt, Lr. cbn [length] in Lt, Lr.
    assert (Ek : keep_partial ML pe = push_field ML (pushes ML en log) h2 v) by (unfold keep_partial; rewrite Hp, H1; reflexivity).
    rewrite Ek. apply IH with (l := rest); auto.
    + apply push_right. now apply pushes_right.
    + rewrite push_total, pushes_total. lia.
    + lia.
    + lia.
Qed.

Theorem C87_lenient_ends : forall ML trim ic ev dir g t b e l,
  live t -> (ic_count ic <= U32MAX)%N ->
  parts (head_block ML trim (delimiter b)) (delimiter b) (stream t) l -> (N.of_nat (length l) < ic_count ic)%N ->
  exists n, forall rounds fuel, n <= rounds -> n <= fuel ->
  fst (read_request_lenient ML trim ic ev dir rounds fuel g (with_body t b) e) <> OutOfFuel /\
  fst (read_request_lenient ML trim ic ev dir rounds fuel g (with_body t b) e) <> Panic.
Proof.
  intros ML trim ic ev dir g t b e l Hl Lc P Ll.
  exists (enough (with_body t b) + N.to_nat (mem_min (iron_saver ic)) + 1 + N.to_nat (ic_count ic) + 2 + length l).
  intros rounds fuel Lr Lf. rewrite lenient_is_loop.
  apply lenient_ends_any with (t := t) (b := b) (l := l); auto; try lia.
  - exists [], []. reflexivity.
  - discriminate.
  - reflexivity.
Qed.

(** and what it gives are all the fields, each complete, or cut if it exceeds the limit, the CRLF included. *)
Definition kept_nearly {ML} (limit : N) (f : fs) (hv : field_headers ML * saved) (hc : field_headers ML * bytes) : Prop :=
  fst hv = fst hc /\ exists w, readable (snd hv) f = Some w /\ prefix_of w (snd hc ++ CRLF) /\
    (padded (snd hc) w \/ (limit < N.of_nat (length (snd hc) + 2))%N).

Lemma lenient_result_any ML trim ic ev t b rounds fuel : live t -> (ic_count ic <= U32MAX)%N ->
  forall l en g r e x e', reached ML trim t b r -> st r <> AtEnd ->
  parts (head_block ML trim (delimiter b)) (delimiter b) (rem r) l -> counted_right ML en ->
  lenient_loop ML trim ic ev rounds fuel en g r e = (x, e') ->
  (exists k, x = Err k) \/ x = OutOfFuel \/ x = Panic \/
  exists log, x = Ok (Some (pushes ML en log)) /\ Forall2 (kept_nearly (ic_size ic) (e_fs e')) log l /\ touched (en_dir ML en) g e e'.
Proof.
  intros Hl Lc. induction rounds as [|rounds IH]; intros l en g r e x e' Hr Hs P Cr; cbn [lenient_loop].
  { intros H; injection H as <- <-. auto. }
  destruct (with_entries ML trim (iron_saver ic) fuel en g r e) as [[[y g'] r'] e2] eqn:W.
  unfold with_entries in W. destruct (read_entry ML trim r) as [res r1] eqn:E.
  pose proof (reached_inv _ _ _ _ _ Hr) as (I & _).
  pose proof (read_entry_inv ML _ _ _ _ I E) as (I1 & _ & _ & _ & N1 & N2). rewrite (recount_same _ _ Cr) in W.
  pose proof (read_entry_ok ML _ _ _ _ _ _ _ Hr Hs P E) as N.
  pose proof (loop_touched ML trim (iron_saver ic) fuel eq_refl _ _ _ _ _ _ _ _ _ I1 W) as T.
  destruct y as [en1|pe why|y| |]; try (intros H; injection H as <- <-; eauto; fail).
  { intros H; injection H as <- <-. right. right. right.
    destruct res as [o|z| |]; try congruence.
    - destruct (loop_prefix_any ML trim t b (iron_saver ic) _ Hl eq_refl _ _ _ _ _ _ _ _ _ _ I1 N W _ eq_refl) as (log & d & rest & -> & -> & H3 & H4 & _).
      rewrite (H4 eq_refl), app_nil_r. exists log. split; auto. split; auto. apply stored_saved in H3.
      clear - H3. induction H3 as [|hv hc log d (A1 & w & A2 & A3) H IH]; constructor; auto.
      split; auto. exists w. split; auto. split; [now apply padded_prefix|auto].
    - destruct fuel as [|fuel]; [discriminate W|]. cbn [entries_loop] in W. destruct (_ <? _)%N; discriminate W. }
  pose proof (loop_reasons ML _ _ _ (iron_policy ic) _ _ _ _ _ _ _ _ _ I1 N1 W) as [NP K].
  destruct (K pe why eq_refl) as [K1 K2]. clear K.
  destruct why as [| |z|]; try congruence; try (intros H; injection H as <- <-; eauto; fail).
  - intros H. right. left.
    pose proof (loop_count_reached ML _ _ _ _ _ _ _ _ _ _ _ _ W I1) as Lq.
    assert (Lc' : (s_count_limit (iron_saver ic) <= U32MAX)%N) by exact Lc.
    pose proof (loop_count ML _ _ _ Lc' _ _ _ _ _ _ _ _ _ Cr W) as [_ Cp].
    change (s_count_limit (iron_saver ic)) with (ic_count ic) in Lq.
    assert (Q : fst (lenient_loop ML trim ic ev rounds fuel (keep_partial ML pe) g' r' e2) = OutOfFuel).
    { apply lenient_stuck; [exact (loop_inv ML _ _ _ _ _ _ _ _ _ _ _ _ I1 W)| |].
      - unfold keep_partial. destruct (pe_partial ML pe) as [[h [v|]]|]; auto. now apply push_right.
      - unfold keep_partial. destruct (pe_partial ML pe) as [[h [v|]]|]; auto. cbn [en_count push_field]. lia. }
    rewrite H in Q. exact Q.
  - destruct res as [o|z| |]; try congruence.
    2: { destruct fuel as [|fuel]; [discriminate W|]. cbn [entries_loop] in W. destruct (_ <? _)%N; discriminate W. }
    destruct (loop_cut_any ML trim t b (iron_saver ic) _ Hl eq_refl _ _ _ _ _ _ _ _ _ _ I1 N W)
      as (log & d & h2 & c & rest & v & w & H1 & -> & H3 & Hp & Lz & Rd & Pw & R1 & S1 & P1 & _ & Eg).
    assert (Ek : keep_partial ML pe = pushes ML en (log ++ [(h2, v)])).
    { unfold keep_partial, pushes. rewrite Hp, H1, fold_left_app. reflexivity. }
    intros H. rewrite Ek in H. apply IH with (l := rest) in H; auto.
    2: { now apply pushes_right. }
    destruct H as [H|[H|[H|(log2 & -> & F2 & T2)]]]; auto. right. right. right.
    exists ((log ++ [(h2, v)]) ++ log2). split; [unfold pushes; now rewrite !fold_left_app|].
    rewrite pushes_dir in T2.
    assert (T3 : touched (en_dir ML en) g e e').
    { subst g'. eapply touched_later; eauto. }
    split; auto. rewrite <- app_assoc. apply Forall2_app; [|constructor; auto].
    + clear - H3 T2. induction H3 as [|hv hc log d (A1 & w & A2 & A3) H IH]; constructor; auto.
      split; auto. exists w. split; [eapply readable_kept; eauto|]. split; [now apply padded_prefix|auto].
    + split; auto. exists w. split; [exact (readable_kept _ _ _ _ _ _ T2 Rd)|]. auto.
Qed.

Theorem C87_lenient : forall ML trim ic ev dir rounds fuel g t b e l en e',
  live t -> (ic_count ic <= U32MAX)%N ->
  parts (head_block ML trim (delimiter b)) (delimiter b) (stream t) l ->
  read_request_lenient ML trim ic ev dir rounds fuel g (with_body t b) e = (Ok (Some en), e') ->
  exists log, en = pushes ML (entries_new ML dir true) log /\ Forall2 (kept_nearly (ic_size ic) (e_fs e')) log l.
Proof.
  intros ML trim ic ev dir rounds fuel g t b e l en e' Hl Lc P H. rewrite lenient_is_loop in H.
  apply lenient_result_any with (t := t) (b := b) (l := l) in H; auto.
  - destruct H as [(k & H)|[H|[H|(log & H & K & _)]]]; try discriminate. injection H as ->. eauto.
  - exists [], []. reflexivity.
  - discriminate.
  - reflexivity.
Qed.

(** The handlers behind the middleware find the form in the extensions of the request, *)
Theorem C87_middleware : forall ML trim ic ev ev0 os_temp tries rounds g q e b l,
  let base := match ic_temp ic with Some p => p | None => os_temp end in
  let t := hy_body (ir_head ML q) in
  ic_continue ic = false -> ir_entries ML q = None -> canonical_request (ir_head ML q) ->
  form_request (mkHyper Post (hy_type (ir_head ML q)) t) b ->
  live t -> quiet t -> (ic_count ic <= U32MAX)%N ->
  parts (head_block ML trim (delimiter b)) (delimiter b) (stream t) l ->
  0 < tries -> temp_ready e base (bs "multipart-iron") g (length l) ->
  (N.of_nat (length l) < ic_count ic)%N -> Forall (fun hc => (N.of_nat (length (snd hc) + 2) <= ic_size ic)%N) l ->
  exists fuel0, forall fuel, fuel0 <= fuel -> exists en e' l',
    before ML trim ic ev ev0 os_temp tries rounds fuel g q e = (Ok tt, mkIron ML (ir_head ML q) (Some en), e') /\
    almost l l' /\ well_grouped en /\ fields_of en = length l /\ forall n, found en (e_fs e') n = sent_as l' n.
Proof.
  intros ML trim ic ev ev0 os_temp tries rounds g q e b l base t Ct En C Fr Hl Hq Lc P Lt T Ll Fs.
  destruct (temp_first tries _ _ _ _ _ Lt T) as (e1 & Td & G1 & F1).
  destruct (C87_within ML trim ic ev _ _ t b e1 l Hl Hq Lc P G1 F1 Ll Fs) as [fuel0 K]. exists fuel0. intros fuel Lf.
  destruct (K fuel Lf) as (en & e' & l' & H & R). exists en, e', l'. split; [|exact R].
  unfold before, read_request. rewrite (proj2 (C50_iron_partial _ b C) Fr). fold base t. rewrite Td, Ct, H, En. reflexivity.
Qed.

(** and whatever fails, a form that is let through is complete, and an error tells the truth. *)
Theorem C87_middleware_says : forall ML trim ic ev ev0 os_temp tries rounds fuel g q e b l x q' e',
  let t := hy_body (ir_head ML q) in
  ic_continue ic = false -> ir_entries ML q = None -> iron_boundary (ir_head ML q) = Some b ->
  live t -> (ic_count ic <= U32MAX)%N ->
  parts (head_block ML trim (delimiter b)) (delimiter b) (stream t) l ->
  before ML trim ic ev ev0 os_temp tries rounds fuel g q e = (x, q', e') ->
  match x with
  | Ok _ => exists en l', q' = mkIron ML (ir_head ML q) (Some en) /\ almost l l' /\ well_grouped en /\ forall n, found en (e_fs e') n = sent_as l' n
  | Err y => iron_text ML y = bs "Error opening temporary directory for request." \/
      iron_text ML y = bs "Error midway through request" \/
      (exists d, iron_text ML y = bs "File count limit reached for request. Limit: " ++ d /\
         in_decimal d (ic_count ic) /\ (ic_count ic <= N.of_nat (length l))%N) \/
      (exists h c, In (h, c) l /\ (ic_size ic < N.of_nat (length c + 2))%N /\
         iron_text ML y = bs "File size limit reached for field """ ++ fh_name ML h ++ bs """ (" ++
           match fh_filename ML h with Some f => bs "filename: """ ++ f ++ bs """" | None => bs "no filename" end ++ bs ")")
  | Panic => False
  | OutOfFuel => True
  end.
Proof.
  intros ML trim ic ev ev0 os_temp tries rounds fuel g q e b l x q' e' t Ct En Fb Hl Lc P H. unfold before, read_request in H.
  rewrite Fb, En, Ct in H. fold t in H. destruct (tempdir_in _ _ _ g e) as [[[dir|k] g1] e0].
  2: { injection H as <- _ _. now left. }
  destruct (read_request_strict ML trim ic ev dir fuel g1 (with_body t b) e0) as [y e1] eqn:R.
  pose proof (C87_strict ML trim ic ev dir fuel g1 t b e0 l _ _ Hl Lc P R) as K.
  destruct y as [[en|]|y| |]; try (destruct K; fail).
  - injection H as <- <- <-. destruct K as (_ & l' & A & W & _ & F). exists en, l'. auto.
  - injection H as <- _ _. destruct y as [k|z|z|n|h].
    + now left.
    + right. now left.
    + exfalso. unfold read_request_strict in R. destruct (with_temp_dir ML trim _ dir fuel g1 (with_body t b) e0) as [[[y g'] r'] e3] eqn:W.
      apply with_entries_result in W as (_ & _ & NE); [|apply inv_from_reader]. destruct y as [en|pe [| |z'|]|y| |]; try discriminate.
      * destruct (pe_partial ML pe) as [[h v]|]; discriminate.
      * now destruct (NE y).
    + right. right. left. destruct K as [-> L]. eexists. split; [reflexivity|]. split; [apply decimal_spec|exact L].
    + right. right. right. destruct K as (d & c & rest & -> & L).
      exists h, c. split; [apply in_or_app; right; now left|]. split; [exact L|]. cbn [iron_text].
      destruct (fh_filename ML h); repeat rewrite <- app_assoc; reflexivity.
  - injection H as <- <- <-. exact I.
Qed.

(** *** Continuing after the count limit *)

(** The first call saves [d]; any later call saves fields from just after the one that follows (C44: that one is lost). *)
Theorem C87_resume : forall ML trim t b s fuel en g e pe g1 r1 e1 l,
  live t -> quiet t -> s_opts s = default_opts ->
  parts (head_block ML trim (delimiter b)) (delimiter b) (stream t) l ->
  with_entries ML trim s fuel en g (with_body t b) e = (Part pe RCount, g1, r1, e1) ->
  exists log d rest, pe_entries ML pe = pushes ML (recount_fields ML en) log /\ l = d ++ rest /\ Forall2 (saved_as (e_fs e1)) log d /\
    forall hc rest', rest = hc :: rest' ->
    forall s2 fuel2 en2 g2 e2 x g3 r3 e3 en3, s_opts s2 = default_opts ->
      with_entries ML trim s2 fuel2 en2 g2 r1 e2 = (x, g3, r3, e3) ->
      (x = Full en3 \/ exists pe why, x = Part pe why /\ en3 = pe_entries ML pe) ->
      exists log2 d2 rest2, en3 = pushes ML (recount_fields ML en2) log2 /\ rest' = d2 ++ rest2 /\
        Forall2 (saved_as (e_fs e3)) log2 d2 /\ (x = Full en3 -> rest2 = []).
Proof.
  intros ML trim t b s fuel en g e pe g1 r1 e1 l Hl Hq Ho P H. unfold with_entries in H.
  destruct (read_entry ML trim (with_body t b)) as [res r0] eqn:E.
  assert (R0 : reached ML trim t b (with_body t b)) by (exists [], []; reflexivity).
  pose proof (read_entry_parts ML _ _ _ _ _ _ _ R0 ltac:(discriminate) (or_introl eq_refl) Hl P E) as N.
  pose proof (read_entry_keeps ML _ _ _ _ (inv_from_reader t b) E) as I1.
  destruct (loop_prefix_any ML _ _ _ _ _ Hl Ho _ _ _ _ _ _ _ _ _ _ I1 N H (pe_entries ML pe) eq_refl)
    as (log & dn & rest & H1 & H2 & H3 & _ & H5).
  exists log, dn, rest. split; auto. split; auto. split; [exact (stored_saved _ _ _ _ _ _ H3)|].
  intros hc rest' -> s2 fuel2 en2 g2 e2 x g3 r3 e3 en3 Ho2 K Hx.
  destruct (H5 pe Hq eq_refl) as [Q|(h & c & l' & Q & Hat & P')]; [discriminate|]. injection Q as -> ->.
  destruct (at_field_reached ML _ _ _ _ _ Hat) as (R1 & S1 & _).
  unfold with_entries in K. destruct (read_entry ML trim r1) as [res2 r2] eqn:E2.
  pose proof (reached_inv ML _ _ _ _ R1) as (J & _).
  pose proof (read_entry_keeps ML _ _ _ _ J E2) as J2.
  pose proof (read_entry_ok ML _ _ _ _ _ _ _ R1 S1 P' E2) as N2.
  assert (G : got ML x = Some en3) by (destruct Hx as [->|(pe' & why & -> & ->)]; reflexivity).
  destruct res2 as [o|y| |].
  - destruct (loop_prefix_any ML _ _ _ _ _ Hl Ho2 _ _ _ _ _ _ _ _ _ _ J2 N2 K en3 G) as (log2 & d2 & rest2 & Q1 & Q2 & Q3 & Q4 & _).
    exists log2, d2, rest2. split; auto. split; auto. split; auto. exact (stored_saved _ _ _ _ _ _ Q3).
  - exists [], [], l'. assert (Z : en3 = recount_fields ML en2 /\ x <> Full en3).
    { destruct fuel2 as [|fuel2]; cbn [entries_loop] in K; [injection K as <- _ _ _; discriminate G|].
      destruct (_ <? _)%N; injection K as <- _ _ _; injection G as <-; split; auto; discriminate. }
    destruct Z as [-> Z]. split; [reflexivity|]. split; [reflexivity|]. split; [constructor|]. intros Q. contradiction.
  - exfalso. apply (read_entry_inv ML trim r1 _ _ J) in E2. tauto.
  - exfalso. apply (read_entry_inv ML trim r1 _ _ J) in E2. tauto.
Qed.

(** *** The example servers *)

Section Servers.
Context (ML : mime_lib) (sh : shows ML) (ma : machine ML).
Context (Sm : sound_machine ma).

Lemma log_almost dir e log d : Forall2 (saved_as (e_fs e)) log d ->
  exists d', almost d d' /\ holds ML (pushes ML (recount_fields ML (entries_new ML dir true)) log) e d'.
Proof. intros F. destruct (saved_almost _ _ _ F) as (d' & A & F'). exists d'. split; auto. now apply log_holds. Qed.

(** How saving a well-formed body ends. *)
Lemma save_outcome_any trim t b l fuel g e x e1 : live t ->
  parts (head_block ML trim (delimiter b)) (delimiter b) (stream t) l ->
  save_request ML ma trim fuel g (with_body t b) e = (x, e1) ->
  match x with
  | Full en => length l < 256 /\ exists l', almost l l' /\ holds ML en e1 l'
  | Part pe why => exists d rest d', l = d ++ rest /\ almost d d' /\ holds ML (pe_entries ML pe) e1 d' /\
      match why with
      | RCount => 256 <= length d /\ holds ML (keep_partial ML pe) e1 d'
      | RSize => exists h c rest' w, rest = (h, c) :: rest' /\ (8 * 1024 * 1024 < N.of_nat (length c + 2))%N /\ prefix_of w (c ++ CRLF) /\
          holds ML (keep_partial ML pe) e1 (d' ++ [(h, w)])
      | RIo _ => True
      | RUtf8 => False
      end
  | SPanic => False
  | _ => True
  end.
Proof.
  intros Hl P. unfold save_request, temp, temp_with_prefix, with_temp_dir.
  destruct (tempdir_in _ _ _ g e) as [[[dir|k] g1] e0] eqn:Td.
  2: { intros H; injection H as <- <-. exact Logic.I. }
  destruct (with_entries ML trim saver_new fuel (entries_new ML dir true) g1 (with_body t b) e0) as [[[y g'] r'] e2] eqn:We.
  intros H; injection H as <- <-.
  pose proof (fun en' => C76_request ML trim t b saver_new fuel _ g1 e0 _ _ _ _ l en' Hl eq_refl P We) as Ex.
  rewrite saver_ic0 in We. unfold with_entries in We. destruct (read_entry ML trim (with_body t b)) as [res r1] eqn:E.
  assert (R0 : reached ML trim t b (with_body t b)) by (exists [], []; reflexivity).
  pose proof (reached_inv _ _ _ _ _ R0) as (I0 & _).
  pose proof (read_entry_inv ML _ _ _ _ I0 E) as (I1 & _ & _ & _ & N1 & _).
  pose proof (read_entry_parts ML _ _ _ _ _ _ _ R0 ltac:(discriminate) (or_introl eq_refl) Hl P E) as Nx.
  pose proof (loop_reasons ML _ _ _ (iron_policy ic0) _ _ _ _ _ _ _ _ _ I1 N1 We) as [NP K].
  assert (Lc : (s_count_limit (iron_saver ic0) <= U32MAX)%N) by (vm_compute; discriminate).
  assert (Cr : counted_right ML (recount_fields ML (entries_new ML dir true))) by reflexivity.
  pose proof (loop_count ML _ _ _ Lc _ _ _ _ _ _ _ _ _ Cr We) as Cn.
  assert (Ln : forall (log : list (field_headers ML * saved)) (d : list (field_headers ML * bytes)), Forall2 (saved_as (e_fs e2)) log d -> length log = length d).
  { intros log d F. induction F; cbn; auto. }
  assert (W0 : well_grouped (recount_fields ML (entries_new ML dir true))) by (split; constructor).
  destruct y as [en|pe why|z| |]; auto.
  - destruct (Ex en (or_introl eq_refl)) as (log & d & rest & -> & -> & F & Er). rewrite (Er eq_refl), app_nil_r.
    split; [|now apply log_almost]. destruct Cn as [Cn _]. destruct (C45_grouping ML _ log [] W0) as (_ & _ & _ & Q2).
    rewrite fields_total in Q2. rewrite Q2, (Ln _ _ F) in Cn. cbn in Cn. lia.
  - destruct (K pe why eq_refl) as [K1 K2]. destruct (Ex (pe_entries ML pe)) as (log & d & rest & E1 & E2 & F & _); [eauto|].
    destruct why as [| |z|]; try congruence.
    + pose proof (count_partial ML _ _ _ _ _ _ _ _ _ _ _ _ We I1) as Np. apply loop_count_reached in We; auto.
      destruct (log_almost dir e2 log d F) as (d' & A & Hd). exists d, rest, d'.
      unfold keep_partial. rewrite Np, E1. split; auto. split; auto. split; auto. split; auto.
      rewrite E1 in We. destruct (C45_grouping ML _ log [] W0) as (_ & _ & Q1 & Q2). rewrite Q1, Q2 in We by reflexivity.
      change (fields_of (recount_fields ML (entries_new ML dir true))) with 0 in We. rewrite (Ln _ _ F) in We. change (s_count_limit (iron_saver ic0)) with 256%N in We. lia.
    + clear Ex E1 E2 F log d rest.
      destruct (loop_cut_any ML trim t b (iron_saver ic0) _ Hl eq_refl _ _ _ _ _ _ _ _ _ _ I1 Nx We)
        as (log & d & h & c & rest & v & w & H1 & -> & H3 & Hp & Lz & Rd & Pw & _).
      destruct (saved_almost _ _ _ H3) as (d' & A & F').
      exists d, ((h, c) :: rest), d'. split; auto. split; auto. rewrite H1. split; [now apply log_holds|].
      exists h, c, rest, w. split; auto. split; auto. split; auto.
      assert (Ek : keep_partial ML pe = pushes ML (recount_fields ML (entries_new ML dir true)) (log ++ [(h, v)])).
      { unfold keep_partial, pushes. rewrite Hp, H1, fold_left_app. reflexivity. }
      rewrite Ek. apply log_holds. apply Forall2_app; [exact F'|]. constructor; [auto|constructor].
    + destruct (log_almost dir e2 log d F) as (d' & A & Hd). exists d, rest, d'. rewrite E1. auto.
Qed.

Lemma save_full_any trim t b l g e : live t -> quiet t ->
  parts (head_block ML trim (delimiter b)) (delimiter b) (stream t) l ->
  0 < ma_tries ML ma -> temp_ready e (ma_temp ML ma) (bs "multipart-rs") g (length l) ->
  length l < 256 -> Forall (fun hc => (N.of_nat (length (snd hc) + 2) <= 8 * 1024 * 1024)%N) l ->
  exists fuel0, forall fuel, fuel0 <= fuel -> exists en e1 l', save_request ML ma trim fuel g (with_body t b) e = (Full en, e1) /\
    almost l l' /\ holds ML en e1 l'.
Proof.
  intros Hl Hq P Lt T Ll Fs. destruct (temp_first _ _ _ _ _ _ Lt T) as (e1 & Td & G1 & F1).
  destruct (C76_request_full ML trim t b saver_new (entries_new ML (ma_temp ML ma ++ [bs "multipart-rs" ++ fst (random_alphanumeric 6 g)]) true)
    (snd (random_alphanumeric 6 g)) e1 l Hl Hq eq_refl) as (fuel0 & K); auto.
  { discriminate. } { reflexivity. } { cbn. lia. }
  exists fuel0. intros fuel Lf. destruct (K fuel Lf) as (en & g' & r' & e' & log & H & _).
  assert (S0 : save_request ML ma trim fuel g (with_body t b) e = (Full en, e')).
  { unfold save_request, temp, temp_with_prefix. rewrite Td. unfold with_temp_dir. rewrite H. reflexivity. }
  pose proof (save_outcome_any trim t b l fuel g e _ _ Hl P S0) as (_ & l' & A & Hd). exists en, e', l'. auto.
Qed.

End Servers.

(** A form is echoed by each of the five servers; *)
Theorem C87_echo : forall ML sh (ma : machine ML) trim k b t l g out e, sound_machine ma ->
  form_of k b t -> takes_all k -> live t -> quiet t ->
  parts (head_block ML trim (delimiter b)) (delimiter b) (stream t) l ->
  0 < ma_tries ML ma -> temp_ready e (ma_temp ML ma) (bs "multipart-rs") g (length l) ->
  length l < 256 -> Forall (fun hc => (N.of_nat (length (snd hc) + 2) <= 8 * 1024 * 1024)%N) l ->
  exists fuel0, forall fuel, fuel0 <= fuel -> exists l' names e',
    almost l l' /\ names_of ML l' names /\ handle sh ma trim fuel g k (out, []) e =
      (Responds 200 (form_text ML sh names l' ++ last_line k), (out ++ form_text ML sh names l', []), e') /\
    forall p, e_fs e' p = e_fs e p.
Proof.
  intros ML sh ma trim k b t l0 g out e Sm Fk Tk Hl Hq P Lt T Ll Fs.
  destruct (save_full_any ML ma trim t b l0 g e Hl Hq P Lt T Ll Fs) as [fuel0 K]. exists fuel0. intros fuel Lf.
  destruct (K fuel Lf) as (en & e1 & l & H & A & Hd). exists l.
  pose proof (save_clean ML ma _ _ _ _ _ _ _ _ (proj2 (proj2 (proj2 Sm))) (proj1 T) H) as Cl. cbn beta iota in Cl.
  destruct (process_text ML sh ma Sm en e1 l [] out Hd) as (names & Nm & E). cbn [app] in E.
  destruct (holds_text ML sh ma Sm en e1 l (mkTee [] [] out []) Hd eq_refl eq_refl) as (names2 & t' & Nm2 & E2 & T1 & T2 & T3).
  cbn [te_inner te_stdout app] in T1, T2.
  destruct k as [q|q|form ps t0|started is q|started is q]; [| |destruct Fk as (-> & Fk)| |]; destruct Fk as [Fb <-]; cbn [handle last_line].
  - exists names, (forget ML ma en e1). split; auto. split; auto. split; [|exact Cl].
    unfold tiny_serve, tiny_process, server_from_request. rewrite Fb, H, E. reflexivity.
  - exists names, (forget ML ma en e1). split; auto. split; auto. split; [|exact Cl].
    unfold iron_process, server_from_request. rewrite Fb, H, E. reflexivity.
  - exists names, (forget ML ma en e1). split; auto. split; auto. split; [|exact Cl].
    unfold rocket_upload, rocket_process. rewrite Fb, H, E. reflexivity.
  - exists names2, (forget ML ma en e1). split; auto. split; auto. split; [|exact Cl]. destruct Tk as [-> ->].
    unfold hyper_serve, switch_handle, server_from_request, hyper_entries. cbn [fst snd]. rewrite Fb, H, E2, T1, T2, T3, app_nil_r. reflexivity.
  - exists names2, (forget ML ma en e1). split; auto. split; auto. split; [|exact Cl]. destruct Tk as [-> ->].
    unfold nickel_serve, server_from_request, nickel_entries. cbn [fst snd]. rewrite Fb, H, E2, T1, T2, T3, app_nil_r. reflexivity.
Qed.

(** and whatever fails, a 200 of tiny_http or Iron shows a complete form; that of Rocket too, or it says that it does not. *)
Theorem C87_complete : forall ML sh (ma : machine ML) trim fuel k b t l g out e body o1 e1, sound_machine ma ->
  form_of k b t -> live t ->
  parts (head_block ML trim (delimiter b)) (delimiter b) (stream t) l ->
  handle sh ma trim fuel g k (out, []) e = (Responds 200 body, o1, e1) ->
  match k with
  | Tiny _ | Iron _ => exists l' names, almost l l' /\ names_of ML l' names /\ body = form_text ML sh names l' ++ processed_line
  | Rocket _ _ _ => exists d names, names_of ML d names /\
      (almost l d /\ body = form_text ML sh names d ++ processed_line \/
       exists d0 rest note, l = d0 ++ rest /\ almost d0 d /\ body = bs "Request partially processed: " ++ note ++ form_text ML sh names d ++ processed_line)
  | Hyper _ _ _ | Nickel _ _ _ => True
  end.
Proof.
  intros ML sh ma trim fuel k b t l g out e body o1 e1 Sm Fk Hl P H.
  destruct k as [q|q|form ps t0|started is q|started is q]; auto; [| |destruct Fk as (-> & Fk)]; destruct Fk as [Fb <-]; cbn [handle] in H.
  - unfold tiny_serve, tiny_process, server_from_request in H. rewrite Fb in H.
    destruct (save_request ML ma trim fuel g (with_body (ti_body q) b) e) as [y e2] eqn:S0.
    apply save_outcome_any with (l := l) in S0; auto.
    destruct y as [en|pe why|z| |]; try discriminate H.
    + destruct S0 as (_ & l' & A & Hd). destruct (process_text ML sh ma Sm en e2 l' [] out Hd) as (names & Nm & E). rewrite E in H.
      injection H as <- _ _. eauto.
    + destruct (process_entries _ _ _ _ _ _ _) as [[[kk|d] o2] e3]; [discriminate H|]. destruct (unwrap_err why); discriminate H.
  - unfold iron_process, server_from_request in H. rewrite Fb in H.
    destruct (save_request ML ma trim fuel g (with_body (hy_body q) b) e) as [y e2] eqn:S0.
    apply save_outcome_any with (l := l) in S0; auto.
    destruct y as [en|pe why|z| |]; try discriminate H.
    + destruct S0 as (_ & l' & A & Hd). destruct (process_text ML sh ma Sm en e2 l' [] out Hd) as (names & Nm & E). rewrite E in H.
      injection H as <- _ _. eauto.
    + destruct (process_entries _ _ _ _ _ _ _) as [[[kk|d] o2] e3]; [discriminate H|]. destruct (unwrap_err why); discriminate H.
  - unfold rocket_upload, rocket_process in H. rewrite Fb in H.
    destruct (save_request ML ma trim fuel g (with_body t0 b) e) as [y e2] eqn:S0.
    apply save_outcome_any with (l := l) in S0; auto.
    destruct y as [en|pe why|z| |]; try discriminate H.
    + destruct S0 as (_ & l' & A & Hd). destruct (process_text ML sh ma Sm en e2 l' [] out Hd) as (names & Nm & E). rewrite E in H.
      injection H as <- _ _. exists l', names. auto.
    + destruct S0 as (d & rest & d' & E & A & Hd & _).
      destruct (process_text ML sh ma Sm (pe_entries ML pe) e2 d' (bs "Request partially processed: " ++ sh_reason ML sh why ++ [LF] ++
         match pe_partial ML pe with Some (h, _) => bs "Stopped on field: " ++ sh_headers ML sh h ++ [LF] | None => [] end) out Hd) as (names & Nm & E').
      rewrite E' in H. injection H as <- _ _. exists d', names. split; auto. right. exists d, rest.
      exists (sh_reason ML sh why ++ [LF] ++ match pe_partial ML pe with Some (h, _) => bs "Stopped on field: " ++ sh_headers ML sh h ++ [LF] | None => [] end).
      split; auto.
Qed.

(** *** Uploads *)

(** From the lazy client to the saved form. *)
Theorem C87_lazy : forall ML guess trim gc q fs q' fs' t s dir temp g e,
  lazy_send ML guess gc fs q = (Ok tt, q', fs') -> written (q_log q) = [] ->
  Forall (fun f => kinds (fun k => k <> KInterrupted) (l_source ML f)) fs ->
  Forall (fun f => sendable ML (boundary_of gc) (describe_lazy ML guess f) /\ typed guess f) fs ->
  stream t = written (q_log q') -> live t -> quiet t ->
  spacious s e dir g (map (lazy_expected guess) (lazy_order ML fs)) ->
  exists fuel0, forall fuel, fuel0 <= fuel -> exists x g' r' e',
    with_entries ML trim s fuel (entries_new ML dir temp) g (with_body t (boundary_of gc)) e = (x, g', r', e') /\
    nearly_saved (map (lazy_expected guess) (lazy_order ML fs)) x e'.
Proof.
  intros ML guess trim gc q fs q' fs' t s dir temp g e H W0 K F St Hl Hq Hs.
  assert (Ne : fs <> []).
  { intros ->. unfold lazy_send, prepare in H. destruct (from_fields ML guess gc []) as [[x|p] g1] eqn:Z; [discriminate|].
    apply from_fields_ok in Z as (_ & _ & _ & _ & En & _). rewrite (boundary_empty p En) in H. discriminate. }
  apply C24_send in H as (len & ds & L & D); auto.
  rewrite L, !written_app, W0, written_map, D in St. cbn [written app] in St. rewrite app_nil_r in St.
  assert (Fo : Forall (fun f => sendable ML (boundary_of gc) (describe_lazy ML guess f) /\ typed guess f) (lazy_order ML fs)).
  { rewrite Forall_forall in *. intros f Hf. apply (proj1 (order_in ML _ _)) in Hf. auto. }
  apply nearly_parts; auto. rewrite St.
  rewrite <- (map_ext_in (fun f => received ML (describe_lazy ML guess f))).
  - rewrite <- (map_map (describe_lazy ML guess) (received ML)). apply lazy_parts; [apply C56_alphanumeric| |].
    + apply Forall_map. eapply Forall_impl; [|exact Fo]. simpl. tauto.
    + intros X. apply map_eq_nil, (proj1 (order_nil ML _)) in X. congruence.
  - intros f Hf. rewrite Forall_forall in Fo. apply lazy_received. exact (proj2 (Fo f Hf)).
Qed.

(** A form of this crate's client, sent to any of the example servers, is echoed. *)
Theorem C87_own_client : forall ML sh (ma : machine ML) octet guess trim gc qc fs qc' k t g out e, sound_machine ma ->
  let l := map (@expected ML octet guess) fs in
  client ML octet guess gc qc fs = (None, qc') -> written (q_log qc) = [] ->
  Forall (fun f => sendable ML (boundary_of gc) (describe ML octet guess f) /\
    forall c, sent_ctype octet guess f = Some c -> mime_parse ML (mime_show ML c) = Some c) fs ->
  stream t = written (q_log qc') -> live t -> quiet t -> form_of k (boundary_of gc) t -> takes_all k ->
  0 < ma_tries ML ma -> temp_ready e (ma_temp ML ma) (bs "multipart-rs") g (length l) ->
  length l < 256 -> Forall (fun hc => (N.of_nat (length (snd hc) + 2) <= 8 * 1024 * 1024)%N) l ->
  exists fuel0, forall fuel, fuel0 <= fuel -> exists l' names e',
    almost l l' /\ names_of ML l' names /\ handle sh ma trim fuel g k (out, []) e =
      (Responds 200 (form_text ML sh names l' ++ last_line k), (out ++ form_text ML sh names l', []), e') /\
    forall p, e_fs e' p = e_fs e p.
Proof.
  intros ML sh ma octet guess trim gc qc fs qc' k t g out e Sm l H W0 F St Hl Hq Fk Tk Lt T Ll Fs.
  apply C19_wire in H as (ds & L & D).
  rewrite L, !written_app, W0, written_map, D in St. cbn [written app] in St. rewrite app_nil_r in St.
  eapply C87_echo; eauto.
  rewrite St. unfold l. rewrite <- (map_ext_in (fun f => received ML (describe ML octet guess f))).
  - rewrite <- (map_map (describe ML octet guess) (received ML)). apply wire_parts; [apply C56_alphanumeric|].
    apply Forall_map. eapply Forall_impl; [|exact F]. simpl. tauto.
  - intros f Hf. rewrite Forall_forall in F. apply expected_received. now apply F.
Qed.

(** The three fields of examples/hyper_client.rs are saved. *)
Theorem C87_client : forall ML octet (guess : path -> mime ML), good_type ML octet -> good_type ML (guess LOREM) -> forall trim gc q lorem q' t dir tmp g e,
  hyper_client_main ML octet guess gc q (inr lorem) = (Ok tt, q') -> written (q_log q) = [] ->
  absent (delimiter (boundary_of gc)) (source_data lorem) -> (N.of_nat (length (source_data lorem) + 2) <= 8388608)%N ->
  stream t = written (q_log q') -> live t -> quiet t -> good e -> fresh_names e dir g 3 ->
  exists fuel0, forall fuel, fuel0 <= fuel -> exists x g' r' e',
    with_entries ML trim saver_new fuel (entries_new ML dir tmp) g (with_body t (boundary_of gc)) e = (x, g', r', e') /\
    nearly_saved (sent_form ML octet guess (source_data lorem) (bs "Hello world from binary!")) x e'.
Proof.
  intros ML octet guess Ho Hg trim gc q lorem q' t dir tmp g e H W A L St Hl Hq Ge Fn. unfold hyper_client_main in H.
  destruct (client ML octet guess gc q (example_fields ML (inr lorem))) as [[k|] q1] eqn:E; [discriminate|]. injection H as ->.
  assert (Ex : map (expected octet guess) (example_fields ML (inr lorem)) = sent_form ML octet guess (source_data lorem) (bs "Hello world from binary!")) by reflexivity.
  rewrite <- Ex. eapply C76_upload; eauto.
  - pose proof Ho as (_ & _ & Po & _). pose proof Hg as (_ & _ & Pg & _).
    constructor; [|constructor; [|constructor; [|constructor]]]; (split; [|intros c Q; try discriminate; injection Q as <-; assumption]);
      cbn [describe].
    + apply sendable_part; auto; try reflexivity; [cbn; lia|]. apply absent_text. reflexivity.
    + apply sendable_part; auto; try reflexivity; [cbn; lia|]. eauto.
    + apply sendable_part; auto; try reflexivity; [cbn; lia|eauto|]. apply absent_text. reflexivity.
  - rewrite Ex. split; [reflexivity|]. split; [discriminate|]. split; [reflexivity|]. split; [reflexivity|].
    split; [|right; split; auto]. constructor; [|constructor; [|constructor; [|constructor]]]; cbn [snd]; [vm_compute; discriminate|exact L|vm_compute; discriminate].
Qed.

(** The hypotheses hold of a chunking that does give the surplus: read, behind the middleware, and echoed by tiny_http. *)
Example C87_example :
  let t := C03_t1 in let b := bs "b" in
  let l := [(mkFH toy (bs "a") None None, repeat 120%N 1023)] in
  let l' := [(mkFH toy (bs "a") None None, repeat 120%N 1023 ++ CRLF)] in
  parts (head_block toy true (delimiter b)) (delimiter b) (stream t) l /\ live t /\ quiet t /\ almost l l' /\
  fst (read_all toy true 2 (fun _ => 4096) (with_body t b)) = Ok l' /\
  (let q := mkIron toy (mkHyper Post (Some (parsed_form b)) t) None in
   let '(x, q', e') := before toy true (mkIntercept None 5000 9 false) RmOk RmOk [bs "tmp"] 5 20 100 tmp_rng q tmp_env in
   x = Ok tt /\ match ir_entries toy q' with Some en => found en (e_fs e') (bs "a") = sent_as l' (bs "a") | None => False end) /\
  temp_ready tmp_env [bs "tmp"] (bs "multipart-iron") tmp_rng (length l) /\
  fst (fst (handle toy_shows toy_machine true 100 tmp_rng (Tiny (tiny_form t)) ([], []) tmp_env)) = Responds 200 (form_text toy toy_shows [bs "a"] l' ++ processed_line) /\
  form_of (Tiny (tiny_form t)) b t /\ sound_machine toy_machine.
Proof.
  cbv zeta. split.
  { apply parts_field with (pre := []) (x := toy_head (bs "a")) (rest := repeat 120%N 1023 ++ CRLF ++ toy_end).
    - apply find_split; vm_compute; reflexivity.
    - split; [|apply Nat.leb_le; vm_compute; reflexivity].
      eexists. split; [intros y; vm_compute; reflexivity|]. split; vm_compute; reflexivity.
    - exists (toy_head (bs "a") ++ repeat 120%N 1023 ++ CRLF), (DASHES ++ CRLF).
      split; [|left; reflexivity]. apply find_split; vm_compute; reflexivity.
    - apply parts_end with (pre := repeat 120%N 1023 ++ CRLF) (q := CRLF). apply find_split; vm_compute; reflexivity. }
  split; [intros [H|[H|[]]]; discriminate|]. split; [intros k [H|[H|[]]]; discriminate|].
  split; [constructor; [split; [reflexivity|right; reflexivity]|constructor]|].
  split; [vm_compute; reflexivity|]. split; [vm_compute; auto|]. split.
  { split; [exact (proj1 C63_example)|]. split; [discriminate|].
    split; [split; [constructor|split; constructor]|]. split; [vm_compute; reflexivity|]. split; [vm_compute; reflexivity|].
    intros j k L. cbn in L. lia. }
  split; [vm_compute; reflexivity|]. split; [split; reflexivity|]. exact toy_sound.
Qed.
