(** Property theorems about the mock request, buffer and tee (C52, C62). *)

From Verif Require Import Bytes BytesProofs Spec Io Boundary BoundaryProofs Field FieldProofs ContentProofs ShortProofs Rand Fs HeaderSpec WireSpec Client
  ClientProofs WireProofs Toy Drive DriveProofs EntryProofs EntriesProofs CompleteProofs PropsReader PropsClient Mock.

(** ** C52: StdoutTee *)

Lemma write_all_nil {W} (write : W -> bytes -> (iokind + nat) * W) fuel w : write_all write fuel [] w = (Ok tt, w).
Proof. destruct fuel; reflexivity. Qed.

(** What [write_all] does to a scheduled writer. *)
Lemma sched_write_all fuel : forall d out s x w, write_all sched_write fuel d (out, s) = (x, w) ->
  exists p, prefix_of p d /\ fst w = out ++ p /\ (x = Ok tt -> p = d) /\ x <> Panic /\ (length s < fuel -> x <> OutOfFuel).
Proof.
  induction fuel as [|fuel IH]; intros d out s x w H.
  - destruct d; cbn [write_all] in H; injection H as <- <-; (exists []; split; [apply prefix_nil|]; cbn [fst]; rewrite app_nil_r;
      split; [reflexivity|]; split; [try discriminate; reflexivity|split; [discriminate|lia]]).
  - destruct d as [|c d].
    { cbn [write_all] in H. injection H as <- <-. exists []. split; [apply prefix_nil|]. cbn [fst]. rewrite app_nil_r.
      split; [reflexivity|]. split; [reflexivity|]. split; discriminate. }
    cbn [write_all] in H. unfold sched_write at 1 in H. destruct s as [|[n|k] s].
    + cbn [length] in H. change (S (length d)) with (length (c :: d)) in H. rewrite skipn_all in H.
      rewrite write_all_nil in H. injection H as <- <-. exists (c :: d). cbn [fst]. split; [apply prefix_refl|]. split; [reflexivity|].
      split; [reflexivity|]. split; discriminate.
    + destruct (Nat.min n (length (c :: d))) as [|m] eqn:M.
      { injection H as <- <-. destruct n; [|discriminate M]. exists []. cbn [fst firstn]. rewrite !app_nil_r.
        split; [apply prefix_nil|]. split; [reflexivity|]. split; [discriminate|]. split; discriminate. }
      assert (F : firstn n (c :: d) = firstn (S m) (c :: d)).
      { rewrite <- M. destruct (Nat.min_spec n (length (c :: d))) as [[L ->]|[L ->]]; [reflexivity|].
        rewrite firstn_all. now apply firstn_all2. }
      rewrite F in H. apply IH in H as (p & P & E & X & Np & Nf). exists (firstn (S m) (c :: d) ++ p).
      split; [rewrite <- (firstn_skipn (S m) (c :: d)) at 2; now apply prefix_app|].
      split; [rewrite E; now rewrite app_assoc|]. split; [intros Q; rewrite (X Q); apply firstn_skipn|].
      split; [exact Np|]. cbn [length]. intros L. apply Nf. lia.
    + destruct (iokind_eqb k KInterrupted).
      * apply IH in H as (p & P & E & X & Np & Nf). exists p. split; auto. split; auto. split; auto. split; auto.
        cbn [length]. intros L. apply Nf. lia.
      * injection H as <- <-. exists []. cbn [fst]. rewrite app_nil_r. split; [apply prefix_nil|]. split; [reflexivity|].
        split; [discriminate|]. split; discriminate.
Qed.

Lemma tee_write_ok t d x t' : tee_write t d = (x, t') ->
  exists p, prefix_of p d /\ te_inner t' = te_inner t ++ p /\
    ((p = d /\ sched_write (te_stdout t, te_osched t) d = (x, (te_stdout t', te_osched t'))) \/
     (te_stdout t' = te_stdout t /\ exists k, x = inl k)).
Proof.
  unfold tee_write. intros H. destruct (write_all sched_write _ d _) as [y [i s]] eqn:E.
  pose proof (sched_write_all _ _ _ _ _ _ E) as (p & P & Q & X & Np & Nf). cbn [fst] in Q. exists p. split; auto.
  destruct y as [[]|k| |].
  - destruct (sched_write (te_stdout t, te_osched t) d) as [z [o s']]. injection H as <- <-. cbn [te_inner te_stdout te_osched].
    split; auto.
  - injection H as <- <-. cbn [te_inner te_stdout]. split; auto. right. eauto.
  - contradiction.
  - exfalso. apply Nf; auto.
Qed.

(** False of the code: standard output takes one byte at a time, the inner writer receives [abcbcc]. *)
Theorem C52_refuted : exists t d t',
  te_isched t = [] /\ Forall good_write (te_osched t) /\
  write_all tee_write 10 d t = (Ok tt, t') /\ te_stdout t' = te_stdout t ++ d /\ te_inner t' <> te_inner t ++ d.
Proof.
  exists (mkTee [] [] [] [WAccept 1; WAccept 1]), (bs "abc"). eexists. split; [reflexivity|].
  split; [constructor; [simpl; lia|constructor; [simpl; lia|constructor]]|].
  split; [vm_compute; reflexivity|]. split; [reflexivity|]. vm_compute. discriminate.
Qed.

(** Standard output does receive exactly the data. *)
Theorem C52_stdout_partial : forall fuel d t x t',
  write_all tee_write fuel d t = (x, t') ->
  exists p, prefix_of p d /\ te_stdout t' = te_stdout t ++ p /\ (x = Ok tt -> p = d).
Proof.
  induction fuel as [|fuel IH]; intros d t x t' H.
  - destruct d; cbn [write_all] in H; injection H as <- <-; exists []; rewrite app_nil_r; (split; [apply prefix_nil|]);
      (split; [reflexivity|]); try discriminate; reflexivity.
  - destruct d as [|c d].
    { cbn [write_all] in H. injection H as <- <-. exists []. rewrite app_nil_r. split; [apply prefix_nil|]. split; reflexivity. }
    cbn [write_all] in H. destruct (tee_write t (c :: d)) as [y t1] eqn:E.
    apply tee_write_ok in E as (p & P & _ & [(-> & S)|(S & k & ->)]).
    + unfold sched_write in S. destruct (te_osched t) as [|[n|k] s].
      * injection S as <- So Ss. cbn [length] in H. change (S (length d)) with (length (c :: d)) in H. rewrite skipn_all in H.
        rewrite write_all_nil in H. injection H as <- <-.
        exists (c :: d). split; [apply prefix_refl|]. split; auto.
      * injection S as <- So Ss. change (Datatypes.S (length d)) with (length (c :: d)) in H.
        destruct (Nat.min n (length (c :: d))) as [|m] eqn:M.
        { injection H as <- <-. destruct n; [|discriminate M]. exists []. cbn [firstn] in So. rewrite <- So.
          split; [apply prefix_nil|]. split; [reflexivity|discriminate]. }
        assert (F : firstn n (c :: d) = firstn (S m) (c :: d)).
        { rewrite <- M. destruct (Nat.min_spec n (length (c :: d))) as [[L ->]|[L ->]]; [reflexivity|].
          rewrite firstn_all. now apply firstn_all2. }
        apply IH in H as (q & Pq & Sq & X). exists (firstn (S m) (c :: d) ++ q).
        split; [rewrite <- (firstn_skipn (S m) (c :: d)) at 2; now apply prefix_app|].
        split; [rewrite Sq, <- So, F; now rewrite app_assoc|]. intros Q. rewrite (X Q). apply firstn_skipn.
      * injection S as <- So Ss. destruct (iokind_eqb k KInterrupted).
        -- apply IH in H as (q & Pq & Sq & X). exists q. rewrite Sq, <- So. auto.
        -- injection H as <- <-. exists []. rewrite app_nil_r, So. split; [apply prefix_nil|]. split; [reflexivity|discriminate].
    + destruct (iokind_eqb k KInterrupted).
      * apply IH in H as (q & Pq & Sq & X). exists q. rewrite Sq, S. auto.
      * injection H as <- <-. exists []. rewrite app_nil_r, S. split; [apply prefix_nil|]. split; [reflexivity|discriminate].
Qed.

(** The inner writer is exact when standard output takes everything in its first call.  The inner
    writer may be short or interrupted. *)
Theorem C52_whole_partial : forall fuel d t x t',
  (te_osched t = [] \/ exists n s, te_osched t = WAccept n :: s /\ length d <= n) ->
  write_all tee_write (S fuel) d t = (x, t') -> x = Ok tt -> te_inner t' = te_inner t ++ d.
Proof.
  intros fuel d t x t' Ho H ->. destruct d as [|c d].
  { cbn [write_all] in H. injection H as <-. now rewrite app_nil_r. }
  cbn [write_all] in H. destruct (tee_write t (c :: d)) as [y t1] eqn:E.
  pose proof E as E0. apply tee_write_ok in E as (p & P & I & [(-> & S)|(S & k & ->)]).
  - assert (Y : y = inr (length (c :: d))).
    { destruct Ho as [Q|(n & s & Q & L)]; rewrite Q in S; unfold sched_write in S; injection S as <- _ _; [reflexivity|].
      now rewrite Nat.min_r. }
    subst y. cbn [length] in H. change (Datatypes.S (length d)) with (length (c :: d)) in H. rewrite skipn_all in H.
    rewrite write_all_nil in H. injection H as <-. exact I.
  - exfalso. unfold tee_write in E0. destruct (write_all sched_write _ (c :: d) _) as [z [i s]] eqn:W.
    destruct (iokind_eqb k KInterrupted) eqn:K; [|discriminate].
    assert (Z : forall fuel d out s z w, write_all sched_write fuel d (out, s) = (z, w) -> z <> Err KInterrupted).
    { clear. induction fuel as [|fuel IH]; intros d out s z w.
      - destruct d; cbn [write_all]; intros H; injection H as <- <-; discriminate.
      - destruct d as [|c d]; cbn [write_all]; [intros H; injection H as <- <-; discriminate|].
        unfold sched_write at 1. destruct s as [|[n|k] s].
        + cbn [length]. apply IH.
        + destruct (Nat.min n (length (c :: d))); [intros H; injection H as <- <-; discriminate|apply IH].
        + destruct (iokind_eqb k KInterrupted) eqn:K; [apply IH|]. intros H; injection H as <- <-. intros Q. injection Q as ->.
          discriminate K. }
    apply Z in W. destruct z as [[]|k'| |].
    + destruct (sched_write (te_stdout t, te_osched t) (c :: d)) as [u [o s']] eqn:U. injection E0 as E0 _. subst u.
      destruct Ho as [Q|(n & s2 & Q & L)]; rewrite Q in U; unfold sched_write in U; discriminate U.
    + injection E0 as E0 _. subst k'. apply W. f_equal. destruct k; discriminate || reflexivity.
    + injection E0 as <- <-. discriminate K.
    + injection E0 as <- <-. discriminate K.
Qed.

(** In general the inner writer receives the data followed by what standard output had not yet taken, once
    more for each further call: [offs] are the amounts taken before these calls.  (On success; [Interrupted]
    calls of standard output count.) *)
Theorem C52_repeats_partial : forall fuel d t t',
  te_isched t = [] ->
  write_all tee_write fuel d t = (Ok tt, t') ->
  exists offs, te_inner t' = te_inner t ++ concat (map (fun n => skipn n d) offs) /\
    (d <> [] -> exists offs', offs = 0 :: offs') /\ Forall (fun n => n < length d) offs.
Proof.
  induction fuel as [|fuel IH]; intros d t t' Hi H.
  - destruct d; [|discriminate H]. cbn [write_all] in H. injection H as <-. exists []. cbn [map concat]. rewrite app_nil_r.
    split; [reflexivity|]. split; [congruence|constructor].
  - destruct d as [|c d].
    { cbn [write_all] in H. injection H as <-. exists []. cbn [map concat]. rewrite app_nil_r.
      split; [reflexivity|]. split; [congruence|constructor]. }
    cbn [write_all] in H. destruct (tee_write t (c :: d)) as [y t1] eqn:E.
    assert (T : sched_write (te_stdout t, te_osched t) (c :: d) = (y, (te_stdout t1, te_osched t1)) /\
      te_inner t1 = te_inner t ++ c :: d /\ te_isched t1 = []).
    { unfold tee_write in E. rewrite Hi in E. cbn [length] in E.
      assert (W : write_all sched_write 1 (c :: d) (te_inner t, []) = (Ok tt, (te_inner t ++ c :: d, []))).
      { cbn [write_all]. unfold sched_write at 1. cbn [length]. change (S (length d)) with (length (c :: d)). now rewrite skipn_all. }
      rewrite W in E. destruct (sched_write (te_stdout t, te_osched t) (c :: d)) as [z [o s']]. injection E as <- <-. auto. }
    destruct T as (S & I & Hi1).
    assert (Next : forall m, m <= length (c :: d) -> write_all tee_write fuel (skipn m (c :: d)) t1 = (Ok tt, t') ->
      exists offs, te_inner t' = te_inner t ++ concat (map (fun n => skipn n (c :: d)) offs) /\
        (c :: d <> [] -> exists offs', offs = 0 :: offs') /\ Forall (fun n => n < length (c :: d)) offs).
    { intros m Lm K. apply (IH _ _ _ Hi1) in K as (offs & Q & _ & F). exists (0 :: map (fun n => m + n) offs).
      split; [|split].
      - rewrite Q, I. cbn [map concat skipn]. rewrite <- !app_assoc. f_equal. f_equal. f_equal. rewrite map_map.
        apply map_ext. intros n. apply skipn_plus.
      - intros _. eauto.
      - constructor; [simpl; lia|]. apply Forall_map. rewrite skipn_length in F. eapply Forall_impl; [|exact F]. cbn beta. intros; lia. }
    destruct y as [k|n].
    + destruct (iokind_eqb k KInterrupted); [|discriminate H]. apply (Next 0); [lia|]. cbn [skipn]. exact H.
    + destruct n as [|n]; [discriminate H|]. apply (Next (Datatypes.S n)); auto.
      apply (f_equal fst) in S. unfold sched_write in S. destruct (te_osched t) as [|[m|k] s]; cbn [fst] in S; [| |discriminate S].
      * assert (Q : length (c :: d) = Datatypes.S n) by congruence. rewrite <- Q. apply le_n.
      * assert (Q : Nat.min m (length (c :: d)) = Datatypes.S n) by congruence. rewrite <- Q. apply Nat.le_min_r.
Qed.

(** Two calls: the second repeats the last byte. *)
Example C52_example :
  exists t', write_all tee_write 10 (bs "abc") (mkTee [] [] [] [WAccept 2]) = (Ok tt, t') /\
  te_inner t' = concat (map (fun n => skipn n (bs "abc")) [0; 2]) /\ te_stdout t' = bs "abc".
Proof. eexists. vm_compute. repeat split; reflexivity. Qed.

Example C52_example_whole :
  exists t', write_all tee_write 10 (bs "abc") (mkTee [] [WAccept 1; WFail KInterrupted] [] [WAccept 3]) = (Ok tt, t') /\
  te_inner t' = bs "abc".
Proof. eexists. vm_compute. split; reflexivity. Qed.

(** ** C62: the mock buffer and the mock request are exact *)

Lemma gen_range1_range n g : 0 < n -> 1 <= fst (gen_range1 n g) <= n.
Proof.
  intros L. unfold gen_range1, draw. cbn [fst]. pose proof (N.mod_upper_bound (hd 0%N g) (N.of_nat n) ltac:(lia)). lia.
Qed.

(** Every value of the range can be drawn. *)
Lemma gen_range1_all n k g : 1 <= k <= n -> exists x, fst (gen_range1 n (x :: g)) = k.
Proof.
  intros L. exists (N.of_nat (k - 1)). unfold gen_range1, draw. cbn [fst hd]. rewrite N.mod_small by lia. lia.
Qed.

Definition hbuf_took (h : hbuf) (d : bytes) (h' : hbuf) : Prop :=
  hb_buf h' = hb_buf h ++ d /\ hb_boundary h' = hb_boundary h /\ hb_len h' = hb_len h.

Lemma hbuf_write_spec h c d : exists n h1, hbuf_write h (c :: d) = (inr (S n), h1) /\ S n <= length (c :: d) /\
  hbuf_took h (firstn (S n) (c :: d)) h1.
Proof.
  unfold hbuf_write. pose proof (gen_range1_range (length (c :: d)) (hb_rng h) ltac:(simpl; lia)) as L.
  destruct (gen_range1 (length (c :: d)) (hb_rng h)) as [n g1]. cbn [fst] in L. destruct n as [|n]; [lia|].
  exists n. eexists. split; [reflexivity|]. split; [lia|]. split; [reflexivity|]. split; reflexivity.
Qed.

Lemma hbuf_write_fuel fuel : forall d h, length d <= fuel ->
  exists h1, write_all hbuf_write fuel d h = (Ok tt, h1) /\ hbuf_took h d h1.
Proof.
  induction fuel as [|fuel IH]; intros d h L.
  - destruct d; [|simpl in L; lia]. exists h. split; [reflexivity|]. split; [now rewrite app_nil_r|]. split; reflexivity.
  - destruct d as [|c d].
    { exists h. split; [reflexivity|]. split; [now rewrite app_nil_r|]. split; reflexivity. }
    destruct (hbuf_write_spec h c d) as (n & h1 & E & Ln & T1 & T2 & T3).
    destruct (IH (skipn (S n) (c :: d)) h1) as (h2 & E2 & U1 & U2 & U3).
    { rewrite skipn_length. simpl in L |- *. lia. }
    exists h2. split; [cbn [write_all]; now rewrite E|]. split.
    + rewrite U1, T1, <- app_assoc, firstn_skipn. reflexivity.
    + split; congruence.
Qed.

Lemma hbuf_sound : sound_writer hbuf_write_all hbuf_took (fun _ => True).
Proof.
  assert (A : forall h d, exists h1, hbuf_write_all h d = (None, h1) /\ hbuf_took h d h1).
  { intros h d. unfold hbuf_write_all. destruct (hbuf_write_fuel (length d) d h (le_n _)) as (h1 & -> & T). eauto. }
  split; [|split; [|split]].
  - intros w. split; [now rewrite app_nil_r|]. split; reflexivity.
  - intros w d w1 d' w2 (A1 & A2 & A3) (B1 & B2 & B3). split; [rewrite B1, A1; now rewrite app_assoc|]. split; congruence.
  - intros w b x w1 H. destruct (A w b) as (h1 & E & T). rewrite E in H. injection H as <- <-.
    exists b. split; auto. split; [apply prefix_refl|auto].
  - intros w b _. destruct (A w b) as (h1 & E & T). eauto.
Qed.

(** [write_all] stores exactly the data, for every generator. *)
Theorem C62_write_all : forall d h, exists fuel0, forall fuel, fuel0 <= fuel ->
  exists g', write_all hbuf_write fuel d h = (Ok tt, mkHBuf (hb_buf h ++ d) (hb_boundary h) (hb_len h) g').
Proof.
  intros d h. exists (length d). intros fuel L. destruct (hbuf_write_fuel fuel d h L) as ([u1 u2 u3 u4] & E & T1 & T2 & T3).
  cbn in T1, T2, T3. subst. eauto.
Qed.

(** One [write]: between one byte and everything; nothing for no data. *)
Theorem C62_write : forall h d x h', hbuf_write h d = (x, h') ->
  exists n, x = inr n /\ hb_buf h' = hb_buf h ++ firstn n d /\ n <= length d /\ (n = 0 <-> d = []).
Proof.
  intros h d x h' H. destruct d as [|c d].
  - injection H as <- <-. exists 0. rewrite app_nil_r. split; [reflexivity|]. split; [reflexivity|]. split; [lia|tauto].
  - destruct (hbuf_write_spec h c d) as (n & h1 & E & L & T & _). rewrite E in H. injection H as <- <-.
    exists (S n). split; [reflexivity|]. split; [exact T|]. split; [exact L|]. split; discriminate.
Qed.

(** A form sent to the mock request: the buffer is the body and carries the boundary.  For any generators. *)
Theorem C62_client : forall ML octet guess g gbuf c fs, ~ Exists (fails ML) fs ->
  exists g', mock_client ML octet guess g gbuf c fs =
    Ok (mkHBuf (wire (boundary_of g) (map (describe ML octet guess) fs)) (boundary_of g) None g').
Proof.
  intros ML octet guess g gbuf c fs Hs. unfold mock_client, gen_boundary, boundary_of. change BOUNDARY_LEN with 16.
  destruct (random_alphanumeric 16 g) as [b g2]. cbn [fst mock_apply mock_open cr_boundary cr_len].
  destruct (fields_ok _ _ _ hbuf_sound ML octet guess fs Hs (mkMW (mkHBuf [] b None gbuf) b false) I) as (m1 & W & _). rewrite W.
  destruct (finish_ok _ _ _ hbuf_sound m1 I) as (m2 & F & _). rewrite F.
  destruct (fields_finish _ _ _ hbuf_sound ML octet guess _ _ _ _ _ _ W F) as (_ & d & (T1 & T2 & T3) & _ & D).
  rewrite (D eq_refl) in T1. cbn [hb_buf hb_boundary hb_len app] in *.
  destruct (m_inner m2) as [u1 u2 u3 u4]. cbn in T1, T2, T3. subst. eauto.
Qed.

(** The same through [SizedRequest]: the length is known too. *)
Theorem C62_client_sized : forall ML octet guess g gbuf c fs, ~ Exists (fails ML) fs ->
  let B := wire (boundary_of g) (map (describe ML octet guess) fs) in
  exists g', mock_client_sized ML octet guess g gbuf c fs = Ok (mkHBuf B (boundary_of g) (Some (N.of_nat (length B))) g').
Proof.
  intros ML octet guess g gbuf c fs Hs B. subst B. unfold mock_client_sized, gen_boundary, boundary_of. change BOUNDARY_LEN with 16.
  destruct (random_alphanumeric 16 g) as [b g2]. cbn [fst mock_apply mock_open cr_boundary cr_len].
  set (q := mkHttp _ _ _ _ _).
  destruct (fields_ok _ _ _ sized_sound ML octet guess fs Hs (mkMW (mkSized q [] b) b false) I) as (m1 & W & _). rewrite W.
  destruct (finish_ok _ _ _ sized_sound m1 I) as (m2 & F & _). rewrite F.
  destruct (fields_finish _ _ _ sized_sound ML octet guess _ _ _ _ _ _ W F) as (_ & d & T & _ & D).
  unfold sized_took in T. cbn [m_inner z_inner z_buffer z_boundary app] in T. rewrite T. cbn [z_buffer]. rewrite (D eq_refl).
  set (B := wire b (map (describe ML octet guess) fs)). cbn [negb].
  destruct (slice_source_data B) as [Sd Sf].
  destruct (copy_ok _ _ _ hbuf_sound _ Sf (mkHBuf [] b (Some (N.of_nat (length B))) gbuf) I) as (h1 & E & _). rewrite E.
  destruct (copy_spec _ _ _ hbuf_sound _ _ _ _ E) as (d' & (T1 & T2 & T3) & _ & D').
  specialize (D' eq_refl). assert (Q : d' = B) by (rewrite <- Sd; tauto). rewrite Q in T1. cbn [hb_buf hb_boundary hb_len app] in *.
  destruct h1 as [u1 u2 u3 u4]. cbn in T1, T2, T3. subst. eauto.
Qed.

(** Reading: the pieces are consecutive, together with the rest they are the data, a read with room for at least
    one byte returns nothing only at the end, and no piece is larger than its room. *)
Theorem C62_server : forall rooms q bl q',
  sreq_reads rooms q = (bl, q') ->
  sr_data q = concat bl ++ sr_data q' /\ sr_boundary q' = sr_boundary q /\ sr_len q' = sr_len q /\
  Forall2 (fun n b => length b <= n) rooms bl /\
  forall i n b, nth_error rooms i = Some n -> nth_error bl i = Some b -> 0 < n -> b = [] ->
    sr_data q = concat (firstn i bl).
Proof.
  induction rooms as [|n rooms IH]; intros q bl q' H; cbn [sreq_reads] in H.
  - injection H as <- <-. repeat split; auto. intros [|i] n b Q; discriminate.
  - destruct (sreq_read n q) as [b q1] eqn:R. destruct (sreq_reads rooms q1) as [bl1 q2] eqn:E. injection H as <- <-.
    apply IH in E as (D & B & L & F & Z).
    assert (S : sr_data q = b ++ sr_data q1 /\ sr_boundary q1 = sr_boundary q /\ sr_len q1 = sr_len q /\ length b <= n /\
      (0 < n -> b = [] -> sr_data q = [])).
    { unfold sreq_read in R. destruct (n =? 0) eqn:N0.
      - injection R as <- <-. apply Nat.eqb_eq in N0. cbn [app length]. repeat split; auto; lia.
      - apply Nat.eqb_neq in N0. pose proof (gen_range1_range n (sr_rng q) ltac:(lia)) as G.
        destruct (gen_range1 n (sr_rng q)) as [k g1]. cbn [fst] in G. injection R as <- <-. cbn [sr_data sr_boundary sr_len].
        rewrite firstn_skipn. repeat split; auto; [rewrite firstn_length; lia|]. intros _ Q.
        destruct (sr_data q); auto. destruct k; [lia|discriminate Q]. }
    destruct S as (S1 & S2 & S3 & S4 & S5). split; [rewrite S1, D; cbn [concat]; now rewrite app_assoc|].
    split; [congruence|]. split; [congruence|]. split; [constructor; auto|].
    intros [|i] m c Hm Hc Lm Ec; cbn [nth_error firstn concat] in *.
    + injection Hm as ->. injection Hc as ->. auto.
    + rewrite S1. f_equal. eapply Z; eauto.
Qed.

(** A form sent to the mock request and read back from the mock server: any generators, read sizes and rooms of
    the server's buffer (reads large enough to get everything).  The pieces [bl] that the mock delivers are the
    reads of the server's transport. *)
Theorem C62_round_trip : forall ML octet guess trim g gbuf gsrv c fs h rooms bl q' sz,
  ~ Exists (fails ML) fs ->
  Forall (fun f => sendable ML (boundary_of g) (describe ML octet guess f) /\
    forall m, sent_ctype octet guess f = Some m -> mime_parse ML (mime_show ML m) = Some m) fs ->
  mock_client ML octet guess g gbuf c fs = Ok h ->
  sreq_reads rooms (for_server h gsrv) = (bl, q') -> sr_data q' = [] -> Forall (fun b => b <> []) bl ->
  (forall k, 0 < sz k) ->
  exact_chunks (delimiter (boundary_of g)) (map Chunk bl) (map snd (map (@expected ML octet guess) fs)) \/ (forall k, sz k < MIN_BUF_SIZE) ->
  sreq_multipart_boundary (for_server h gsrv) = Some (boundary_of g) /\
  exists r, read_all ML trim (S (length fs)) sz (with_body (map Chunk bl) (boundary_of g)) = (Ok (map (expected octet guess) fs), r).
Proof.
  intros ML octet guess trim g gbuf gsrv c fs h rooms bl q' sz Hs F H R Rd Nb Hsz Hex.
  destruct (C62_client ML octet guess g gbuf c fs Hs) as (g' & E). rewrite E in H. injection H as <-. split; [reflexivity|].
  apply C62_server in R as (D & _). rewrite Rd, app_nil_r in D. cbn [for_server sr_data hb_buf] in D.
  destruct (C19_succeeds ML octet guess g (mkHttp (fun _ _ => true) None [] None []) fs) as (q & Q); auto.
  { constructor. }
  eapply C28_round_trip; [exact Q|reflexivity|exact F| | | |exact Hsz|exact Hex].
  - apply C19_wire in Q as (ds & L & W). rewrite L. cbn [q_log app]. 
    assert (St : forall l, stream (map Chunk l) = concat l) by (clear; induction l; simpl; congruence).
    rewrite St, <- D. cbn [written]. rewrite written_app, written_map, W. cbn [written]. now rewrite app_nil_r.
  - intros K. apply in_map_iff in K as (b & K & Hb). injection K as ->. rewrite Forall_forall in Nb. apply Nb in Hb. congruence.
  - intros k K. apply in_map_iff in K as (b & K & _). discriminate.
Qed.

(** The hypotheses hold: a form, a mock buffer that takes 1 byte, then 5, and a mock server. *)
Example C62_example :
  ~ Exists (fails toy) some_fields /\
  exists h bl q', mock_client toy (bs "o/s") any_guess [] [0; 4; 300]%N creq_default some_fields = Ok h /\
  sreq_reads [1000; 1000; 1000; 1000] (for_server h [99; 20]%N) = (bl, q') /\ map (@length _) bl = [100; 21; 1; 1].
Proof.
  split.
  { intros H. inversion H as [? ? K|? ? K]; subst; [exact K|]. inversion K as [? ? K1|? ? K1]; subst; [exact K1|inversion K1]. }
  do 3 eexists. split; [vm_compute; reflexivity|]. split; [vm_compute; reflexivity|]. reflexivity.
Qed.
