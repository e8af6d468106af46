(** Property theorems about the crate's own checks: the fuzz target (C78) and the round trip tests (C79). *)

From Coq Require Import Permutation.
From Verif Require Import Bytes BytesProofs Spec Io Boundary BoundaryProofs Utf8 Utf8Proofs Httparse Field FieldProofs
  ContentProofs DataProofs ShortProofs EntryProofs ReaderProofs Drive DriveProofs ReachProofs Rand Fs
  Toy PropsReader HeaderSpec HeaderProofs PropsHeader WireSpec Client ClientProofs WireProofs
  PropsClient Lazy LazyProofs PropsLazy Mock PropsMock Readers PropsReaders EntriesProofs CompleteProofs PropsEntries PropsShort PropsForeach Inplace Results PropsResults Harness.

(** The transport of a mock request: all its data, in pieces that are not empty, and no failures. *)
Lemma sreq_chunks_spec room : forall fuel k q, length (sr_data q) <= fuel ->
  stream (sreq_chunks fuel room k q) = sr_data q /\ live (sreq_chunks fuel room k q) /\ quiet (sreq_chunks fuel room k q) /\
  length (sreq_chunks fuel room k q) <= length (sr_data q).
Proof.
  induction fuel as [|fuel IH]; intros k q L.
  { destruct (sr_data q) eqn:D; [|cbn in L; lia]. cbn. split; auto. split; [intros []|]. split; [intros x []|lia]. }
  cbn [sreq_chunks]. destruct (sr_data q) as [|c d] eqn:D.
  { split; auto. split; [intros []|]. split; [intros x []|cbn; lia]. }
  unfold sreq_read. change (S (room k) =? 0) with false. cbn iota.
  pose proof (gen_range1_range (S (room k)) (sr_rng q) ltac:(lia)) as G. destruct (gen_range1 (S (room k)) (sr_rng q)) as [n g1].
  cbn [fst] in G. rewrite D.
  destruct n as [|n]; [lia|]. cbn [firstn skipn].
  destruct (IH (S k) (mkSReq (skipn n d) (sr_boundary q) (sr_len q) g1)) as (S1 & L1 & Q1 & N1).
  { cbn [sr_data]. rewrite skipn_length. cbn in L. lia. }
  cbn [sr_data] in *. split; [|split; [|split]].
  - cbn [stream]. rewrite S1. cbn [app]. now rewrite firstn_skipn.
  - intros [K|K]; [discriminate|exact (L1 K)].
  - intros x [K|K]; [discriminate|exact (Q1 x K)].
  - rewrite skipn_length in N1. cbn [length]. lia.
Qed.

Lemma sreq_body_spec room q : stream (sreq_body room q) = sr_data q /\ live (sreq_body room q) /\ quiet (sreq_body room q) /\
  length (sreq_body room q) <= length (sr_data q).
Proof. apply sreq_chunks_spec. lia. Qed.

(** ** C78: the fuzz target *)

Lemma fuzz_field_total : forall fuel r, inv r -> length (rem r) < fuel ->
  exists x r', fuzz_field fuel r = (x, r') /\
    (x = Ok tt /\ inv r' /\ later (src r') (src r) /\ length (rem r') <= length (rem r) \/ x = Panic /\ exists k, In (Fail k) (src r)).
Proof.
  induction fuel as [|fuel IH]; intros r I L; [lia|]. cbn [fuzz_field].
  destruct (read_to_boundary r) as [y r1] eqn:E.
  pose proof (read_to_boundary_spec _ _ _ I E) as (I1 & R1 & _ & _ & L1 & _ & _ & _ & H).
  destruct y as [d|e| |]; try tauto.
  2:{ destruct H as (k & _ & K & _). exists Panic, r1. split; auto. right. eauto. }
  destruct d as [|c d].
  { exists (Ok tt), r1. split; auto. left. rewrite R1. auto. }
  destruct H as (F & _). destruct (consume_spec (length (c :: d)) r1 I1) as (I2 & R2 & _ & _ & S2 & _).
  assert (N : length (rem (consume (length (c :: d)) r1)) < length (rem r1)).
  { pose proof (f_equal (@length N) F) as F1. rewrite firstn_length in F1.
    rewrite R2, app_length, firstn_length. unfold bytes, byte in *. cbn [length] in *. lia. }
  rewrite R1 in N. set (r2 := consume (length (c :: d)) r1) in *.
  assert (N2 : length (rem r2) < fuel) by (unfold bytes, byte in *; lia). destruct (IH r2 I2 N2) as (x & r' & X & [(-> & A & B & C)|(-> & k & K)]).
  - exists (Ok tt), r'. split; [exact X|]. left. rewrite S2 in B.
    split; [reflexivity|]. split; [exact A|]. split; [eapply later_trans; eauto|unfold bytes, byte in *; lia].
  - exists Panic, r'. split; [exact X|]. right. split; auto. exists k. rewrite S2 in K. destruct L1 as (u & ->). apply in_or_app. now right.
Qed.

Lemma fuzz_loop_total ML trim text fuel : forall rest k r, inv r -> length (rem r) < rest -> length (rem r) < fuel ->
  fuzz_loop ML trim text fuel k r rest = Ok tt \/
  fuzz_loop ML trim text fuel k r rest = Panic /\ exists q, In (Fail q) (src r).
Proof.
  induction rest as [|rest IH]; intros k r I L F; [lia|]. cbn [fuzz_loop].
  destruct (read_entry ML trim r) as [y r1] eqn:E.
  pose proof (read_entry_inv ML _ _ _ _ I E) as (I1 & _ & _ & L1 & N1 & N2).
  destruct y as [[h|]|e| |]; try congruence; auto.
  pose proof (read_entry_shrinks _ _ _ _ _ I E) as Sh.
  assert (T : forall r2, later (src r2) (src r) -> forall q, In (Fail q) (src r2) -> In (Fail q) (src r)).
  { intros r2 (u & ->) q K. apply in_or_app. now right. }
  destruct (text k).
  - destruct (IH (S k) r1 I1 ltac:(lia) ltac:(lia)) as [H|(H & q & K)]; [now left|right]. split; eauto.
  - destruct (fuzz_field_total fuel r1 I1 ltac:(lia)) as (x & r2 & -> & [(-> & I2 & L2 & Le)|(-> & q & K)]).
    + destruct (IH (S k) r2 I2 ltac:(lia) ltac:(lia)) as [H|(H & q & K)]; [now left|right]. split; auto.
      exists q. apply (T r1 L1). destruct L2 as (u & ->). apply in_or_app. now right.
    + right. split; eauto.
Qed.

(** The loop of the target on any reader: it ends, within a bound that depends on the size of the body, and the only
    reason to panic is a failure of the transport inside a field. *)
Theorem C78_loop : forall ML trim text t b fuel, length (stream t) < fuel ->
  fuzz_loop ML trim text fuel 0 (with_body t b) fuel = Ok tt \/
  fuzz_loop ML trim text fuel 0 (with_body t b) fuel = Panic /\ exists k, In (Fail k) t.
Proof.
  intros ML trim text t b fuel L. apply fuzz_loop_total; auto; apply inv_from_reader.
Qed.

(** The target itself, for all inputs, all sizes and random numbers of the mock request, and all choices of fields that are
    passed over: it returns, its [panic!] and its [expect] are never reached. *)
Theorem C78_fuzz : forall ML trim text room g data, exists fuel0, forall fuel, fuel0 <= fuel ->
  do_fuzz ML trim text fuel room g data = Ok tt.
Proof.
  intros ML trim text room g data. exists (S (length data)). intros fuel L. unfold do_fuzz.
  destruct (length data <? length FUZZ_BOUNDARY); auto.
  destruct (sreq_body_spec room (sreq_new data FUZZ_BOUNDARY g)) as (St & _ & Q & _). unfold sreq_reader. cbn [option_map sreq_multipart_boundary sreq_new sr_boundary].
  destruct (C78_loop ML trim text (sreq_body room (sreq_new data FUZZ_BOUNDARY g)) FUZZ_BOUNDARY fuel) as [H|(_ & k & K)]; auto.
  - rewrite St. cbn. lia.
  - elim (Q k K).
Qed.

(** With a transport that fails the [expect] would be reached. *)
Theorem C78_failing_refuted : exists t b fuel, length (stream t) < fuel /\ In (Fail (KOther 1)) t /\
  fuzz_loop toy true (fun _ => false) fuel 0 (with_body t b) fuel = Panic.
Proof.
  exists [Chunk (bs "--b" ++ CRLF ++ toy_head (bs "a") ++ repeat 120%N 1100); Fail (KOther 1)], (bs "b"), 1200.
  split; [apply Nat.ltb_lt; vm_compute; reflexivity|]. split; [right; left; reflexivity|]. vm_compute. reflexivity.
Qed.

(** An input with two fields and an unterminated header: the first field is read, the second passed over. *)
Definition fuzz_input : bytes :=
  bs "----12--34--56" ++ CRLF ++ toy_head (bs "a") ++ bs "first" ++ CRLF ++ bs "----12--34--56" ++ CRLF ++ toy_head (bs "b") ++ bs "second" ++ CRLF ++
  bs "----12--34--56" ++ CRLF ++ bs "Content-Disp".

Example C78_example :
  length FUZZ_BOUNDARY <= length fuzz_input /\
  (let '(_, l, _) := foreach_entry toy true (fun _ _ => []) 10 0 (with_body (sreq_body (fun k => 3 * k) (sreq_new fuzz_input FUZZ_BOUNDARY [7; 1; 5]%N)) FUZZ_BOUNDARY) in
   map (fun x => fh_name toy (fst x)) l = [bs "a"; bs "b"]) /\
  do_fuzz toy true (fun k => k =? 1) 1000 (fun k => 3 * k) [7; 1; 5]%N fuzz_input = Ok tt.
Proof. split; [apply Nat.leb_le; vm_compute; reflexivity|]. split; vm_compute; reflexivity. Qed.

(** ** C79: the round trip tests *)

(** A map of sets: no name twice, no set empty, no value twice in a set. *)
Definition sets {V} (m : setmap V) : Prop :=
  NoDup (map fst m) /\ Forall (fun ks : bytes * list V => snd ks <> [] /\ NoDup (snd ks)) m.

Lemma remove_none {V} eqv (x : V) s : ~ In x s -> remove eqv x s = s.
Proof. intros N. now apply notin_remove. Qed.

Lemma remove_permutation {V} eqv (x : V) s : NoDup s -> In x s -> Permutation s (x :: remove eqv x s).
Proof.
  induction 1 as [|y s N D IH]; intros H; [destruct H|]. cbn [remove]. destruct (eqv x y) as [->|Q].
  - rewrite remove_none by exact N. apply Permutation_refl.
  - destruct H as [->|H]; [congruence|]. eapply Permutation_trans; [apply perm_skip, IH, H|]. apply perm_swap.
Qed.

Lemma remove_nodup {V} eqv (x : V) s : NoDup s -> NoDup (remove eqv x s).
Proof.
  induction 1 as [|y s N D IH]; cbn [remove]; [constructor|]. destruct (eqv x y); auto. constructor; auto.
  intros K. apply in_remove in K. tauto.
Qed.

Lemma in_pairs {V} k (x : V) m : In (k, x) (pairs m) <-> exists s, In (k, s) m /\ In x s.
Proof.
  unfold pairs. rewrite in_flat_map. split.
  - intros ([k' s] & H & K). apply in_map_iff in K as (y & E & K). cbn in E, K. injection E as -> ->. eauto.
  - intros (s & H & K). exists (k, s). split; auto. apply in_map_iff. exists x. auto.
Qed.

Lemma has_key_in {V} k (x : V) m : In (k, x) (pairs m) -> has_key k m = true.
Proof.
  intros H. apply in_pairs in H as (s & H & _). unfold has_key. apply existsb_exists. exists (k, s). split; auto. now apply beq_eq.
Qed.

(** Taking a value that is there removes exactly this value. *)
Lemma take_there {V} eqv k (x : V) m : sets m -> In (k, x) (pairs m) ->
  exists m', take_value eqv k x m = Some m' /\ sets m' /\ Permutation (pairs m) ((k, x) :: pairs m').
Proof.
  induction m as [|[k' s] m IH]; intros (D & F) H; [destruct H|].
  inversion D as [|? ? D1 D2]; subst. inversion F as [|? ? [F1 F2] F3]; subst. cbn [fst snd] in *.
  cbn [take_value]. destruct (beq k' k) eqn:B.
  - apply beq_eq in B. subst k'.
    assert (X : In x s).
    { apply in_pairs in H as (s' & [E|H] & K); [injection E as ->; exact K|].
      elim D1. apply in_map_iff. exists (k, s'). auto. }
    destruct (in_dec eqv x s) as [_|N]; [|tauto].
    pose proof (remove_permutation eqv x s F2 X) as P. pose proof (remove_nodup eqv x s F2) as R.
    assert (Pm : Permutation (pairs ((k, s) :: m)) ((k, x) :: map (pair k) (remove eqv x s) ++ pairs m)).
    { unfold pairs at 1. cbn [flat_map fst snd]. change ((k, x) :: map (pair k) (remove eqv x s) ++ pairs m)
        with (map (pair k) (x :: remove eqv x s) ++ pairs m). apply Permutation_app_tail, Permutation_map, P. }
    destruct (remove eqv x s) as [|y l].
    + exists m. split; auto. split; [split; auto|exact Pm].
    + exists ((k, y :: l) :: m). split; auto. split; [|exact Pm]. split; [exact D|]. constructor; auto. split; [discriminate|exact R].
  - destruct (IH (conj D2 F3)) as (m' & T & S' & P).
    { apply in_pairs in H as (s' & [E|H] & K).
      - injection E as -> ->. assert (beq k k = true) by now apply beq_eq. congruence.
      - apply in_pairs. eauto. }
    rewrite T. cbn [option_map]. exists ((k', s) :: m'). split; auto. split.
    + destruct S' as [S1 S2]. split; [|constructor; auto].
      cbn [map fst]. constructor; [|exact S1]. intros K. apply D1.
      apply in_map_iff in K as ([k2 s2] & E & K). cbn in E. subst k2.
      destruct s2 as [|z s2]; [rewrite Forall_forall in S2; apply S2 in K; cbn in K; tauto|].
      assert (Q : In (k', z) (pairs m)) by (eapply Permutation_in; [apply Permutation_sym, P|]; right; apply in_pairs; exists (z :: s2); split; [exact K|now left]).
      apply in_pairs in Q as (s3 & Q & _). apply in_map_iff. exists (k', s3). auto.
    + unfold pairs. cbn [flat_map]. fold (pairs m) (pairs m'). eapply Permutation_trans; [apply Permutation_app_head, P|].
      apply Permutation_sym, (Permutation_middle (map (pair (fst (k', s))) (snd (k', s)))).
Qed.

Lemma pairs_nil {V} (m : setmap V) : sets m -> pairs m = [] -> m = [].
Proof.
  intros (_ & F) E. destruct F as [|[k s] m [N _] F]; auto. cbn in E, N. destruct s; [congruence|discriminate].
Qed.

(** Where [read_entry] finds the next delimiter without failing. *)
Definition ready (r : breader) : Prop :=
  st r <> AtEnd /\ (st r = Searching \/ idx r + length (bnd r) + 4 <= Nat.max (length (bnd r) * 2) MIN_BUF_SIZE).

(** A field read to its end: the content, and the reader is ready for the next field. *)
Lemma whole_field ML trim t b h r sz fuel c L :
  at_field ML trim t b h r -> live t -> quiet t -> (forall k, 0 < sz k) -> exact_chunks (delimiter b) t [c] ->
  content (delimiter b) (rem r) c -> parts (head_block ML trim (delimiter b)) (delimiter b) (rem r) L ->
  length (rem r) + length (src r) < fuel ->
  exists r', read_to_end fuel sz 0 r [] = (Ok tt, c, r') /\ reached ML trim t b r' /\ ready r' /\
    parts (head_block ML trim (delimiter b)) (delimiter b) (rem r') L.
Proof.
  intros Hat Hl Hq Hsz Hx Hc P Lf.
  destruct (C66_to_end ML trim t b h r sz [] fuel Hat Hsz Lf) as (x & d & r' & H & _ & [->|(k & _ & _ & K)]); [|elim (Hq k K)].
  cbn [app] in H.
  assert (Hd : d = c).
  { assert (Q : persist fuel [sz] r [] = Some (d, r')) by (cbn [persist]; rewrite H; reflexivity).
    refine (C66_content_partial ML trim t b h r fuel [sz] [] d r' c Hat Hl _ _ Hc Q); [constructor; auto|now left]. }
  subst d. exists r'. split; [exact H|].
  apply (to_end_run ML trim) in H as (os & ob & R & Fo & _ & (os0 & j & ob0 & -> & ->)).
  pose proof (reads_data sz _ Fo) as Hd.
  pose proof (field_state _ _ _ _ _ _ _ _ _ Hat Hd R) as (I2 & _ & S2 & B2 & L2 & M2 & R2).
  destruct (at_field_reached _ _ _ _ _ _ Hat) as (R1 & S1 & _). pose proof (reached_inv _ _ _ _ _ R1) as (I1 & _ & B1 & _).
  pose proof (run_data ML _ _ _ _ _ I1 Hd R) as (_ & K2 & _). destruct (K2 S1) as [Sk _]. rewrite B1 in Sk.
  split; [exact R2|]. split; [|eapply parts_skipped; eauto; discriminate]. split; [exact S2|]. right.
  apply run_app in R as (ob1 & q & ob2 & Ra & Rb & E). cbn [run step] in Rb. destruct (read (sz j) q) as [y q'] eqn:Rd.
  injection Rb as <- <-. apply app_inj_tail in E as [-> E]. injection E as <-.
  apply Forall_app in Hd as [Hd1 _].
  pose proof (field_state _ _ _ _ _ _ _ _ _ Hat Hd1 Ra) as (J1 & _ & T1 & _ & L1 & M1 & _).
  pose proof (read_empty _ _ _ J1 T1 (Hsz j) Rd (live_later _ _ L1 Hl) M1) as (_ & _ & Z & _). rewrite Z.
  pose proof (min_after (bnd q') (dashed_length _ (proj1 I2))). lia.
Qed.

(** The next entry of a body that is as it should be. *)
Lemma next_field ML trim t b r L : live t -> quiet t -> reached ML trim t b r -> ready r ->
  parts (head_block ML trim (delimiter b)) (delimiter b) (rem r) L ->
  match L with
  | [] => exists r1, read_entry ML trim r = (Ok None, r1)
  | (h, c) :: L' => exists r1, read_entry ML trim r = (Ok (Some h), r1) /\ at_field ML trim t b h r1 /\
                      content (delimiter b) (rem r1) c /\ parts (head_block ML trim (delimiter b)) (delimiter b) (rem r1) L'
  end.
Proof.
  intros Hl Hq R (S1 & Hi) P. destruct (read_entry ML trim r) as [y r1] eqn:E.
  pose proof (reached_inv _ _ _ _ _ R) as (I & Nr & B & Lt & _).
  pose proof (read_entry_ok ML _ _ _ _ _ _ _ R S1 P E) as N.
  assert (Er : exists o, y = Ok o).
  { pose proof (live_later _ _ Lt Hl) as Hl'. pose proof (quiet_later _ _ Lt Hq) as Hq'. pose proof P as P0. rewrite <- B in P0.
    inversion P0 as [R0 pre' q' FS'|R0 pre' z rest h' c l' FS' ((hs' & Hp' & Hcp' & Hph') & Hm) Hc Hrest]; subst.
    - destruct (read_entry_last ML trim r pre' q') as (r2 & E2); auto. rewrite E2 in E. injection E as <- _. eauto.
    - destruct (read_entry_field ML trim r pre' z rest (z ++ c) hs') as (r2 & E2 & _); auto.
      { rewrite app_length. lia. }
      rewrite E2, Hph' in E. injection E as <- _. eauto. }
  destruct Er as [[h|] ->].
  - destruct N as (c & L' & -> & Hat & Hc & P'). exists r1. auto.
  - simpl in N. subst L. eauto.
Qed.

Section RoundTrip.
Context (ML : mime_lib) (mime_eq_dec : forall a b : mime ML, {a = b} + {a <> b}).

(** The fields that the server should see. *)
Definition text_field (x : bytes * bytes) : field_headers ML * bytes := (mkFH ML (fst x) None None, snd x).
Definition file_field (x : bytes * file_entry ML) : field_headers ML * bytes :=
  (mkFH ML (fst x) (fe_fname ML (snd x)) (Some (fe_ctype ML (snd x))), fe_data ML (snd x)).
Definition form_fields (tf : test_fields ML) : list (field_headers ML * bytes) :=
  map text_field (pairs (tf_texts ML tf)) ++ map file_field (pairs (tf_files ML tf)).

Definition sets_of (tf : test_fields ML) : Prop := sets (tf_texts ML tf) /\ sets (tf_files ML tf).

Lemma check_ok trim t b h r sz fuel c L tf :
  at_field ML trim t b h r -> live t -> quiet t -> (forall k, 0 < sz k) -> exact_chunks (delimiter b) t [c] -> utf8_string c \/ fh_ctype ML h <> None ->
  content (delimiter b) (rem r) c -> parts (head_block ML trim (delimiter b)) (delimiter b) (rem r) L ->
  length (rem r) + length (src r) < fuel -> sets_of tf -> In (h, c) (form_fields tf) ->
  exists tf' r', check_field ML mime_eq_dec fuel sz tf h r = (Ok tf', r') /\ sets_of tf' /\
    Permutation (form_fields tf) ((h, c) :: form_fields tf') /\ reached ML trim t b r' /\ ready r' /\
    parts (head_block ML trim (delimiter b)) (delimiter b) (rem r') L.
Proof.
  intros Hat Hl Hq Hsz Hx Hu Hc P Lf (St & Sf) Hin.
  destruct (whole_field ML trim t b h r sz fuel c L Hat Hl Hq Hsz Hx Hc P Lf) as (r' & H & R & Rd & P').
  unfold form_fields in Hin. apply in_app_or in Hin as [Hin|Hin]; apply in_map_iff in Hin as ([k v] & E & Hin).
  - unfold text_field in E. cbn [fst snd] in E. injection E as <- <-. unfold check_field. cbn [fh_ctype fh_name].
    rewrite (has_key_in _ _ _ Hin). unfold read_to_string. rewrite H.
    assert (V : valid_utf8 v = true) by (destruct Hu as [Hu|Hu]; [now apply valid_utf8_iff|now elim Hu]). rewrite V.
    destruct (take_there bytes_eq_dec k v _ St Hin) as (m' & T & S' & Pm). rewrite T.
    exists (mkTF ML m' (tf_files ML tf)), r'. split; [reflexivity|]. split; [split; auto|]. split; [|auto].
    unfold form_fields. cbn [tf_texts tf_files]. change ((mkFH ML k None None, v) :: ?l ++ ?l') with ((text_field (k, v) :: l) ++ l').
    apply Permutation_app_tail. exact (Permutation_map text_field Pm).
  - unfold file_field in E. cbn [fst snd] in E. injection E as <- <-. unfold check_field. cbn [fh_ctype fh_name fh_filename].
    rewrite (has_key_in _ _ _ Hin). rewrite H.
    assert (Ev : mkFE ML (fe_ctype ML v) (fe_fname ML v) (fe_data ML v) = v) by (now destruct v). rewrite Ev.
    destruct (take_there (fe_eq_dec ML mime_eq_dec) k v _ Sf Hin) as (m' & T & S' & Pm). rewrite T.
    exists (mkTF ML (tf_texts ML tf) m'), r'. split; [reflexivity|]. split; [split; auto|]. split; [|auto].
    unfold form_fields. cbn [tf_texts tf_files].
    eapply Permutation_trans; [apply Permutation_app_head; exact (Permutation_map file_field Pm)|].
    apply Permutation_sym, (Permutation_middle (map text_field (pairs (tf_texts ML tf)))).
Qed.

Lemma loop_ok trim t b fuel szs : live t -> quiet t -> (forall k j, 0 < szs k j) -> length (stream t) + length t < fuel ->
  forall rest k r L tf, reached ML trim t b r -> ready r ->
  parts (head_block ML trim (delimiter b)) (delimiter b) (rem r) L -> length L < rest ->
  Forall (fun hc : field_headers ML * bytes => exact_chunks (delimiter b) t [snd hc] /\ (utf8_string (snd hc) \/ fh_ctype ML (fst hc) <> None)) L ->
  sets_of tf -> Permutation (form_fields tf) L ->
  test_loop ML mime_eq_dec trim fuel szs k tf (into_entry ML trim r) rest = Ok (mkTF ML [] []).
Proof.
  intros Hl Hq Hsz Lf. induction rest as [|rest IH]; intros k r L tf R Rd P Ll F St Pm; [lia|].
  cbn [test_loop]. unfold into_entry. pose proof (next_field ML trim t b r L Hl Hq R Rd P) as N.
  destruct L as [|[h c] L].
  - destruct N as (r1 & ->). cbn [unwrap_opt expect_opt].
    apply Permutation_sym, Permutation_nil in Pm. unfold form_fields in Pm. apply app_eq_nil in Pm as [P1 P2].
    apply map_eq_nil in P1, P2. destruct St as [S1 S2]. apply (pairs_nil _ S1) in P1. apply (pairs_nil _ S2) in P2.
    destruct tf as [m1 m2]. cbn in P1, P2. now subst.
  - destruct N as (r1 & -> & Hat & Hc & P'). cbn [unwrap_opt expect_opt mf_inner mf_headers].
    inversion F as [|? ? [F1 F2] F3]; subst. cbn [fst snd] in *.
    destruct (at_field_reached _ _ _ _ _ _ Hat) as (R1 & _). pose proof (reached_inv _ _ _ _ _ R1) as (_ & _ & _ & L1 & (u & Eu)).
    assert (L2 : length (rem r1) + length (src r1) < fuel).
    { destruct L1 as (w & Ew). apply (f_equal (@length N)) in Eu. apply (f_equal (@length _)) in Ew. rewrite app_length in Eu, Ew.
      unfold bytes, byte in *. lia. }
    destruct (check_ok trim t b h r1 (szs k) fuel c L tf) as (tf' & r' & E & St' & Pm' & R' & Rd' & Pr); auto.
    { eapply Permutation_in; [apply Permutation_sym, Pm|]. now left. }
    rewrite E. apply (IH (S k) r' L tf'); auto; [cbn in Ll; lia|].
    apply (Permutation_cons_inv (a := (h, c))). eapply Permutation_trans; [apply Permutation_sym, Pm'|exact Pm].
Qed.

Lemma server_ok trim by_value fuel szs room gsrv h L tf :
  hb_len h = None -> parts (head_block ML trim (delimiter (hb_boundary h))) (delimiter (hb_boundary h)) (hb_buf h) L ->
  (by_value = true -> L <> []) ->
  Forall (fun hc : field_headers ML * bytes => length (snd hc) < 1023 /\ (utf8_string (snd hc) \/ fh_ctype ML (fst hc) <> None)) L ->
  sets_of tf -> Permutation (form_fields tf) L -> (forall k j, 0 < szs k j) -> 2 * length (hb_buf h) + length L < fuel ->
  test_server ML mime_eq_dec trim by_value fuel szs room gsrv h tf = Ok (mkTF ML [] []).
Proof.
  intros Hn P Hb F St Pm Hsz Lf. unfold test_server. cbv zeta. set (q := for_server h gsrv).
  change (sr_len q) with (hb_len h). rewrite Hn. cbn iota. unfold sreq_reader. cbn [sreq_multipart_boundary option_map]. change (sr_boundary q) with (hb_boundary h).
  destruct (sreq_body_spec room q) as (S1 & Hl & Hq & Lc). change (sr_data q) with (hb_buf h) in S1, Lc.
  set (t := sreq_body room q) in *. set (b := hb_boundary h) in *. set (r := with_body t b).
  assert (R : reached ML trim t b r) by (exists [], []; reflexivity).
  assert (Rd : ready r) by (split; [discriminate|now left]).
  assert (Er : rem r = hb_buf h) by (unfold rem; cbn [r with_body buf src app]; exact S1).
  assert (P1 : parts (head_block ML trim (delimiter b)) (delimiter b) (rem r) L) by (rewrite Er; exact P).
  assert (G : (negb by_value || entry_there ML (into_entry ML trim r))%bool = true).
  { destruct by_value; [|reflexivity]. cbn [negb orb]. pose proof (next_field ML trim t b r L Hl Hq R Rd P1) as N.
    destruct L as [|[h0 c0] L]; [now elim Hb|]. destruct N as (r1 & E & _). unfold into_entry. now rewrite E. }
  rewrite G. apply (loop_ok trim t b fuel szs Hl Hq Hsz) with (L := L); auto.
  - rewrite S1. lia.
  - lia.
  - rewrite Forall_forall in *. intros hc Hc. destruct (F hc Hc) as [F1 F2]. split; auto.
    apply short_exact; auto. constructor; [|constructor]. change (length (A := N) (@snd (field_headers ML) bytes hc) < 1023) in F1.
    unfold MIN_BUF_SIZE. lia.
Qed.

(** The fields as they are sent. *)
Definition text_part (x : bytes * bytes) : part := mkPart (fst x) None None (snd x).
Definition file_part (x : bytes * file_entry ML) : part :=
  mkPart (fst x) (fe_fname ML (snd x)) (Some (mime_show ML (fe_ctype ML (snd x)))) (fe_data ML (snd x)).

(** Forms that can be sent with the boundary [b]: names and values that can be written in a header, values that do not contain the
    delimiter and are short, texts that are UTF-8. *)
Definition fits (b : bytes) (tf : test_fields ML) : Prop :=
  Forall (fun x => sendable ML b (text_part x) /\ utf8_string (snd x) /\ length (snd x) < 1023) (pairs (tf_texts ML tf)) /\
  Forall (fun x => sendable ML b (file_part x) /\ mime_parse ML (mime_show ML (fe_ctype ML (snd x))) = Some (fe_ctype ML (snd x)) /\
                   length (fe_data ML (snd x)) < 1023) (pairs (tf_files ML tf)).

Lemma intersperse_map {A B} (f : A -> B) (a b : list A) : map f (intersperse a b) = intersperse (map f a) (map f b).
Proof.
  revert b. induction a as [|x a IH]; intros b; auto. destruct b as [|y b]; cbn [intersperse map]; rewrite IH; reflexivity.
Qed.

Lemma intersperse_permutation {A} (a b : list A) : Permutation (a ++ b) (intersperse a b).
Proof.
  revert b. induction a as [|x a IH]; intros b; cbn [app intersperse]; auto. destruct b as [|y b].
  - apply perm_skip. apply IH.
  - eapply Permutation_trans; [apply perm_skip, Permutation_sym, Permutation_middle|].
    eapply Permutation_trans; [apply perm_swap|]. apply perm_skip, perm_skip. apply IH.
Qed.

Definition form_parts (tf : test_fields ML) : list part :=
  intersperse (map text_part (pairs (tf_texts ML tf))) (map file_part (pairs (tf_files ML tf))).

Lemma fits_parts b tf : fits b tf -> Forall (sendable ML b) (form_parts tf).
Proof.
  intros (F1 & F2). rewrite Forall_forall in *. intros p Hp. apply (Permutation_in _ (Permutation_sym (intersperse_permutation _ _))) in Hp.
  apply in_app_or in Hp as [Hp|Hp]; apply in_map_iff in Hp as (x & <- & Hx); [now apply F1|now apply F2].
Qed.

Lemma fits_fields b tf : fits b tf ->
  map (received ML) (map text_part (pairs (tf_texts ML tf))) = map text_field (pairs (tf_texts ML tf)) /\
  map (received ML) (map file_part (pairs (tf_files ML tf))) = map file_field (pairs (tf_files ML tf)).
Proof.
  intros (_ & F2). rewrite !map_map. split; apply map_ext_in; intros x Hx; [reflexivity|].
  rewrite Forall_forall in F2. destruct (F2 x Hx) as (_ & E & _). unfold received, file_field, file_part. cbn [p_name p_fname p_ctype p_data]. now rewrite E.
Qed.

Lemma fits_good b tf L : fits b tf -> Permutation (form_fields tf) L ->
  Forall (fun hc : field_headers ML * bytes => length (snd hc) < 1023 /\ (utf8_string (snd hc) \/ fh_ctype ML (fst hc) <> None)) L.
Proof.
  intros (F1 & F2) P. rewrite Forall_forall in *. intros hc H. apply (Permutation_in _ (Permutation_sym P)) in H.
  unfold form_fields in H. apply in_app_or in H as [H|H]; apply in_map_iff in H as (x & <- & Hx); cbn [text_field file_field fst snd fh_ctype].
  - split; [|left]; now apply F1.
  - split; [now apply F2|right; discriminate].
Qed.

(** What the two clients produce. *)
Lemma eager_client octet guess g gbuf tf :
  exists g', test_client ML octet guess g gbuf tf = Ok (mkHBuf (wire (boundary_of g) (form_parts tf)) (boundary_of g) None g').
Proof.
  unfold test_client.
  destruct (C62_client ML octet guess g gbuf creq_default (intersperse (map (text_call ML) (pairs (tf_texts ML tf))) (map (file_call ML) (pairs (tf_files ML tf))))) as (g' & E).
  - intros X. apply Exists_exists in X as (f & Hf & X). apply (Permutation_in _ (Permutation_sym (intersperse_permutation _ _))) in Hf.
    apply in_app_or in Hf as [Hf|Hf]; apply in_map_iff in Hf as (x & <- & _); cbn in X; [exact X|]. now apply slice_source_data in X.
  - rewrite E. exists g'. f_equal. f_equal. f_equal. unfold form_parts. rewrite intersperse_map, !map_map. f_equal.
    apply map_ext. intros x. unfold file_part. cbn [file_call describe]. now rewrite (proj1 (slice_source_data _)).
Qed.

Lemma prepared_end fuel sz : forall k s b, PropsLazy.read_to_end fuel sz k s = Ok b -> prepared_to_end fuel sz k s = Ok b.
Proof.
  induction fuel as [|fuel IH]; intros k s b H; cbn [prepared_to_end PropsLazy.read_to_end] in *; [discriminate|].
  destruct (lazy_read (sz k) s) as [[[|c d]|e| |] s1]; try discriminate; auto.
  destruct (PropsLazy.read_to_end fuel sz (S k) s1) as [b1|e| |] eqn:E; try discriminate. now rewrite (IH _ _ _ E).
Qed.

Lemma slice_calm d : WireSpec.calm (slice_source d).
Proof.
  unfold slice_source. destruct (cut_all COPY_BUF (length d) d copy_buf_pos (le_n _)) as [_ C].
  induction C as [|c l N C IH]; cbn; auto. destruct c; [exact I|exact IH].
Qed.

Definition form_lazy (tf : test_fields ML) : lazy_form (mime ML) :=
  intersperse (map (text_lazy ML) (pairs (tf_texts ML tf))) (map (file_lazy ML) (pairs (tf_files ML tf))).

Lemma form_lazy_in tf f : In f (form_lazy tf) ->
  (exists x, f = text_lazy ML x /\ In x (pairs (tf_texts ML tf))) \/ (exists x, f = file_lazy ML x /\ In x (pairs (tf_files ML tf))).
Proof.
  intros Hf. apply (Permutation_in _ (Permutation_sym (intersperse_permutation _ _))) in Hf.
  apply in_app_or in Hf as [Hf|Hf]; apply in_map_iff in Hf as (x & <- & Hx); eauto.
Qed.

Lemma lazy_client guess g gbuf sz tf : form_lazy tf <> [] -> (forall k, 0 < sz k) ->
  exists fuel0, forall fuel, fuel0 <= fuel ->
  test_client_lazy ML guess g gbuf fuel sz tf =
    Ok (mkHBuf (lazy_body_of ML guess g (form_lazy tf)) (boundary_of g)
          (if existsb (is_stream ML) (form_lazy tf) then None else Some 22%N) gbuf).
Proof.
  intros Ne Hsz. exists (S (length (lazy_body_of ML guess g (form_lazy tf)))). intros fuel Lf. unfold test_client_lazy. fold (form_lazy tf).
  assert (C : Forall (lcalm ML) (form_lazy tf)).
  { apply Forall_forall. intros f Hf. apply form_lazy_in in Hf as [(x & -> & _)|(x & -> & _)]; unfold lcalm; cbn; [now destruct (snd x)|apply slice_calm]. }
  destruct (prepare ML guess g (form_lazy tf)) as [[[e|s] g1] fs1] eqn:E.
  { exfalso. unfold prepare in E. pose proof (from_fields_cases ML guess g (form_lazy tf)) as K.
    destruct (from_fields ML guess g (form_lazy tf)) as [[e'|s] g2]; [|discriminate].
    destruct K as (l1 & f & l2 & k & Ef & _ & K & _).
    assert (Hf : In f (form_lazy tf)) by (rewrite Ef; apply in_or_app; right; now left).
    apply form_lazy_in in Hf as [(x & -> & _)|(x & -> & _)]; exact K. }
  pose proof (C24_to_end ML guess g _ s g1 fs1 sz fuel E C Hsz Lf) as T. apply prepared_end in T. rewrite T.
  pose proof (prepare_ok _ _ _ _ _ _ _ E) as F. apply from_fields_ok in F as (_ & _ & _ & _ & En & _ & Ln).
  rewrite gen_boundary_of in *. destruct (form_lazy tf) as [|f0 l0] eqn:Fl; [congruence|]. rewrite <- Fl in *.
  rewrite (boundary_full s _ En). unfold content_len. rewrite Ln, En. f_equal. f_equal.
  destruct (existsb (is_stream ML) (form_lazy tf)) eqn:X; auto. f_equal.
  replace (sumN (map (counted ML guess (CRLF ++ DASHES ++ boundary_of g)) (form_lazy tf))) with 0%N.
  - rewrite !app_length. change (length CRLF) with 2. change (length DASHES) with 2. unfold boundary_of. rewrite (proj1 (random_alnum 16 g)). reflexivity.
  - assert (Z : forall f, In f (form_lazy tf) -> counted ML guess (CRLF ++ DASHES ++ boundary_of g) f = 0%N).
    { intros f Hf. apply form_lazy_in in Hf as [(x & -> & _)|(x & -> & _)]; reflexivity. }
    clear - Z. induction (form_lazy tf) as [|f l IH]; auto. change (0%N = (counted ML guess (CRLF ++ DASHES ++ boundary_of g) f + sumN (map (counted ML guess (CRLF ++ DASHES ++ boundary_of g)) l))%N).
    rewrite <- IH by (intros; apply Z; now right). rewrite (Z f) by now left. reflexivity.
Qed.

Lemma filter_permutation {A} (f : A -> bool) l : Permutation l (filter f l ++ filter (fun x => negb (f x)) l).
Proof.
  induction l as [|x l IH]; auto. cbn [filter]. destruct (f x); cbn [negb app]; [now apply perm_skip|].
  eapply Permutation_trans; [apply perm_skip, IH|]. apply Permutation_middle.
Qed.

Lemma order_permutation fs : Permutation fs (lazy_order ML fs).
Proof.
  unfold lazy_order. eapply Permutation_trans; [apply (filter_permutation (is_text ML))|]. apply Permutation_app_head, Permutation_rev.
Qed.

Lemma describe_form guess tf : map (describe_lazy ML guess) (form_lazy tf) = form_parts tf.
Proof.
  unfold form_lazy, form_parts. rewrite intersperse_map, !map_map. f_equal. apply map_ext. intros x. unfold file_part, describe_lazy, l_source. cbn [file_lazy l_data l_name].
  rewrite (calm_source_data _ (slice_calm _)), (proj1 (slice_source_data _)). reflexivity.
Qed.

Lemma no_pairs tf : sets_of tf -> pairs (tf_texts ML tf) = [] -> pairs (tf_files ML tf) = [] -> tf = mkTF ML [] [].
Proof. intros (S1 & S2) P1 P2. apply (pairs_nil _ S1) in P1. apply (pairs_nil _ S2) in P2. destruct tf. cbn in *. now subst. Qed.

Lemma form_stream tf : existsb (is_stream ML) (form_lazy tf) = true <-> pairs (tf_files ML tf) <> [].
Proof.
  rewrite existsb_exists. split.
  - intros (f & Hf & S1). apply form_lazy_in in Hf as [(x & -> & _)|(x & -> & Hx)]; [discriminate|]. intros E. rewrite E in Hx. destruct Hx.
  - intros N. destruct (pairs (tf_files ML tf)) as [|x l] eqn:E; [congruence|]. exists (file_lazy ML x). split; auto.
    unfold form_lazy. apply (Permutation_in _ (intersperse_permutation _ _)), in_or_app. right. rewrite E. now left.
Qed.

End RoundTrip.

(** The round trip for every form that fits: both clients, both servers, all random numbers, all sizes of reads.  The lazy client
    needs a file; the server that reads by value needs a field. *)
Theorem C79_passes : forall ML dec octet guess trim (lazy by_value : bool) szc szs room g gbuf gsrv tf,
  sets_of ML tf -> fits ML (boundary_of g) tf -> (lazy = true -> tf_files ML tf <> []) -> (by_value = true -> tf <> mkTF ML [] []) ->
  (forall k, 0 < szc k) -> (forall k j, 0 < szs k j) ->
  exists fuel0, forall fuel, fuel0 <= fuel ->
    do_test ML dec octet guess trim lazy by_value fuel szc szs room g gbuf gsrv tf = Ok tt.
Proof.
  intros ML dec octet guess trim lazy by_value szc szs room g gbuf gsrv tf St Ft Hz Hv Hc Hs.
  pose proof (fits_parts ML _ _ Ft) as Fp. destruct (fits_fields ML _ _ Ft) as [R1 R2]. pose proof (C56_alphanumeric g) as A.
  assert (Rp : map (received ML) (form_parts ML tf) = intersperse (map (text_field ML) (pairs (tf_texts ML tf))) (map (file_field ML) (pairs (tf_files ML tf)))).
  { unfold form_parts. now rewrite intersperse_map, R1, R2. }
  assert (Pr : Permutation (form_fields ML tf) (map (received ML) (form_parts ML tf))) by (rewrite Rp; apply intersperse_permutation).
  assert (Nv : forall L, Permutation (form_fields ML tf) L -> by_value = true -> L <> []).
  { intros L P Hb ->. apply Permutation_sym, Permutation_nil in P. unfold form_fields in P. apply app_eq_nil in P as [P1 P2].
    apply map_eq_nil in P1, P2. exact (Hv Hb (no_pairs ML tf St P1 P2)). }
  unfold do_test. destruct lazy.
  - assert (Nf : pairs (tf_files ML tf) <> []) by (intros E; apply (Hz eq_refl); exact (pairs_nil _ (proj2 St) E)).
    assert (X : existsb (is_stream ML) (form_lazy ML tf) = true) by (now apply form_stream).
    assert (Ne : form_lazy ML tf <> []) by (intros E; rewrite E in X; discriminate).
    destruct (lazy_client ML guess g gbuf szc tf Ne Hc) as (fuel0 & C). rewrite X in C.
    set (L := map (received ML) (map (describe_lazy ML guess) (lazy_order ML (form_lazy ML tf)))).
    assert (Pl : Permutation (form_fields ML tf) L).
    { eapply Permutation_trans; [exact Pr|]. rewrite <- (describe_form ML guess tf). apply Permutation_map, Permutation_map, order_permutation. }
    exists (fuel0 + S (2 * length (lazy_body_of ML guess g (form_lazy ML tf)) + length L)). intros fuel Lf. rewrite C by lia.
    rewrite (server_ok ML dec trim by_value fuel szs room gsrv _ L tf); auto; cbn [hb_len hb_boundary hb_buf]; [|now apply fits_good with (b := boundary_of g) (tf := tf)|lia].
    unfold lazy_body_of. apply lazy_parts; auto.
    + apply Forall_forall. intros p Hp. rewrite Forall_forall in Fp. apply Fp. rewrite <- (describe_form ML guess tf).
      apply in_map_iff in Hp as (f & <- & Hf). apply in_map. now apply (proj1 (order_in ML _ _)).
    + intros E. apply map_eq_nil, (proj1 (order_nil ML _)) in E. congruence.
  - destruct (eager_client ML octet guess g gbuf tf) as (g' & ->). set (L := map (received ML) (form_parts ML tf)) in *.
    exists (S (2 * length (wire (boundary_of g) (form_parts ML tf)) + length L)). intros fuel Lf.
    rewrite (server_ok ML dec trim by_value fuel szs room gsrv _ L tf); auto; cbn [hb_len hb_boundary hb_buf]; [|now apply fits_good with (b := boundary_of g) (tf := tf)].
    now apply wire_parts.
Qed.

(** Forms with texts only: the lazy client gives a wrong length, so the test fails.  No form the generator makes is like this. *)
Theorem C79_texts_only : forall ML dec octet guess trim by_value szc szs room g gbuf gsrv texts,
  sets texts -> texts <> [] -> (forall k, 0 < szc k) ->
  exists fuel0, forall fuel, fuel0 <= fuel ->
    do_test ML dec octet guess trim true by_value fuel szc szs room g gbuf gsrv (mkTF ML texts []) = Panic.
Proof.
  intros ML dec octet guess trim by_value szc szs room g gbuf gsrv texts St Ne Hc. set (tf := mkTF ML texts []).
  assert (X : existsb (is_stream ML) (form_lazy ML tf) = false).
  { destruct (existsb (is_stream ML) (form_lazy ML tf)) eqn:E; auto. apply form_stream in E. now elim E. }
  destruct (pairs texts) as [|[k v] l] eqn:Ep; [elim Ne; exact (pairs_nil _ St Ep)|].
  assert (Fl : form_lazy ML tf = text_lazy ML (k, v) :: intersperse (map (text_lazy ML) l) []).
  { unfold form_lazy, tf. cbn [tf_texts tf_files]. rewrite Ep. reflexivity. }
  assert (Nl : form_lazy ML tf <> []) by (rewrite Fl; discriminate).
  destruct (lazy_client ML guess g gbuf szc tf Nl Hc) as (fuel0 & C). rewrite X in C.
  exists fuel0. intros fuel Lf. unfold do_test. rewrite C by lia. unfold test_server. cbn [for_server sr_len sr_data hb_len hb_buf].
  assert (Big : 22 < length (lazy_body_of ML guess g (form_lazy ML tf))).
  { unfold lazy_body_of. rewrite Fl. unfold lazy_order. cbn [filter is_text text_lazy l_data app map lazy_wire concat].
    rewrite !app_length. change (length CRLF) with 2. change (length DASHES) with 2. unfold boundary_of. rewrite !(proj1 (random_alnum 16 g)). lia. }
  destruct (N.eqb_spec 22 (N.of_nat (length (lazy_body_of ML guess g (form_lazy ML tf))))) as [E|E]; [lia|reflexivity].
Qed.

(** *** What the tests generate *)

(** The strings: 2 to 5 alphanumeric characters, up to two dashes, 2 to 5 alphanumeric characters. *)
Definition test_string (s : bytes) : Prop :=
  exists a d e, s = a ++ repeat DASH d ++ e /\ alnums a /\ alnums e /\ 2 <= length a <= 5 /\ 2 <= length e <= 5 /\ d <= 2.

Lemma gen_between_range lo hi g : lo <= hi -> lo <= fst (gen_between lo hi g) <= hi.
Proof.
  intros L. unfold gen_between. destruct (draw g) as [x g1]. cbn [fst].
  pose proof (N.mod_lt x (N.of_nat (S (hi - lo))) ltac:(lia)). lia.
Qed.

Lemma gen_string_shape g : test_string (fst (gen_string g)).
Proof.
  unfold gen_string. pose proof (gen_between_range 2 5 g ltac:(lia)) as H1. destruct (gen_between 2 5 g) as [n1 g1].
  pose proof (gen_between_range 2 5 g1 ltac:(lia)) as H2. destruct (gen_between 2 5 g1) as [n2 g2].
  pose proof (gen_between_range 0 2 g2 ltac:(lia)) as H3. destruct (gen_between 0 2 g2) as [d g3].
  pose proof (random_alnum n1 g3) as [A1 A2]. destruct (random_alphanumeric n1 g3) as [a g4].
  pose proof (random_alnum n2 g4) as [B1 B2]. destruct (random_alphanumeric n2 g4) as [e g5]. cbn [fst] in *.
  exists a, d, e. subst n1 n2. unfold bytes, byte in *. split; [reflexivity|]. split; [exact A2|]. split; [exact B2|]. lia.
Qed.

Lemma gen_times_all {A} (P : A -> Prop) gen n : (forall g, P (fst (gen g))) -> forall g,
  Forall P (fst (gen_times gen n g)) /\ length (fst (gen_times gen n g)) = n.
Proof.
  intros H. induction n as [|n IH]; intros g; cbn [gen_times]; [split; [constructor|reflexivity]|].
  pose proof (H g) as Hg. destruct (gen g) as [x g1]. destruct (IH g1) as [I1 I2]. destruct (gen_times gen n g1) as [l g2]. cbn [fst] in *.
  split; [now constructor|]. cbn. now rewrite I2.
Qed.

Lemma collect_all {A C} (P : A -> Prop) (Q : C -> Prop) gen into : (forall g, P (fst (gen g))) ->
  (forall l, l <> [] -> Forall P l -> Q (into l)) -> forall g, Q (fst (collect_rand gen into g)).
Proof.
  intros H I g. unfold collect_rand. pose proof (gen_between_range 1 2 g ltac:(lia)) as G. destruct (gen_between 1 2 g) as [n g1].
  destruct (gen_times_all P gen n H g1) as [F L]. destruct (gen_times gen n g1) as [l g2]. cbn [fst] in *.
  apply I; auto. intros ->. cbn in L. lia.
Qed.

Lemma into_set_all {V} eqv (P : V -> Prop) l : l <> [] -> Forall P l ->
  into_set eqv l <> [] /\ NoDup (into_set eqv l) /\ Forall P (into_set eqv l).
Proof.
  intros N F. unfold into_set.
  assert (G : forall s, NoDup s -> Forall P s -> NoDup (fold_left (set_insert eqv) l s) /\ Forall P (fold_left (set_insert eqv) l s) /\
    (s <> [] \/ l <> [] -> fold_left (set_insert eqv) l s <> [])).
  { clear N. induction F as [|x l Hx F IH]; intros s D Fs; cbn [fold_left]; [split; auto; split; auto; tauto|].
    assert (D' : NoDup (set_insert eqv s x) /\ Forall P (set_insert eqv s x) /\ set_insert eqv s x <> []).
    { unfold set_insert. destruct (in_dec eqv x s) as [K|K].
      - split; auto. split; auto. intros ->. destruct K.
      - split; [|split; [apply Forall_app; auto|destruct s; discriminate]].
        apply (Permutation_NoDup (Permutation_cons_append s x)). now constructor. }
    destruct D' as (D1 & D2 & D3). destruct (IH _ D1 D2) as (I1 & I2 & I3). auto. }
  destruct (G [] ltac:(constructor) ltac:(constructor)) as (G1 & G2 & G3). auto.
Qed.

Lemma map_insert_spec {V} (m : setmap V) k s : NoDup (map fst m) ->
  NoDup (map fst (map_insert m k s)) /\ map_insert m k s <> [] /\ (forall e, In e (map_insert m k s) -> e = (k, s) \/ In e m).
Proof.
  induction m as [|[k' s'] m IH]; intros D; cbn [map_insert].
  - split; [repeat constructor; intros []|]. split; [discriminate|]. intros e [<-|[]]. now left.
  - cbn [map fst] in D. inversion D as [|? ? D1 D2]; subst. destruct (beq k' k) eqn:B.
    + apply beq_eq in B. subst k'. split; [exact D|]. split; [discriminate|]. intros e [<-|H]; [now left|right; now right].
    + destruct (IH D2) as (I1 & _ & I3). split; [|split; [discriminate|]].
      * cbn [map fst]. constructor; auto. intros K. apply in_map_iff in K as (e & E & K). apply I3 in K as [->|K].
        { cbn in E. subst k'. assert (beq k k = true) by now apply beq_eq. congruence. }
        { apply D1. apply in_map_iff. eauto. }
      * intros e [<-|H]; [right; now left|]. apply I3 in H as [->|H]; [now left|right; now right].
Qed.

(** Maps of sets with the names and values of the tests. *)
Definition test_map {V} (P : V -> Prop) (m : setmap V) : Prop :=
  sets m /\ m <> [] /\ Forall (fun x => test_string (fst x) /\ P (snd x)) (pairs m).

Lemma gen_map {V} (eqv : forall a b : V, {a = b} + {a <> b}) gen (P : V -> Prop) : (forall g, P (fst (gen g))) -> forall g,
  test_map P (fst (collect_rand (gen_entry eqv gen) into_map g)).
Proof.
  intros H g. set (Q := fun ks : bytes * list V => test_string (fst ks) /\ snd ks <> [] /\ NoDup (snd ks) /\ Forall P (snd ks)).
  apply (collect_all Q).
  - intros g1. unfold gen_entry. pose proof (gen_string_shape g1) as S1. destruct (gen_string g1) as [k g2]. cbn [fst] in S1.
    pose proof (collect_all P (fun s => s <> [] /\ NoDup s /\ Forall P s) gen (into_set eqv) H (into_set_all eqv P) g2) as C.
    destruct (collect_rand gen (into_set eqv) g2) as [s g3]. unfold Q. cbn [fst snd] in *. tauto.
  - intros l N F. unfold into_map.
    assert (G : forall m, NoDup (map fst m) -> Forall Q m ->
      let m' := fold_left (fun m (ks : bytes * list V) => map_insert m (fst ks) (snd ks)) l m in
      NoDup (map fst m') /\ Forall Q m' /\ (m <> [] \/ l <> [] -> m' <> [])).
    { clear N. induction F as [|[k s] l Hx F IH]; intros m D Fm; cbn [fold_left fst snd]; [split; auto; split; auto; tauto|].
      destruct (map_insert_spec m k s D) as (M1 & M2 & M3).
      assert (F' : Forall Q (map_insert m k s)).
      { apply Forall_forall. intros e He. apply M3 in He as [->|He]; auto. rewrite Forall_forall in Fm. auto. }
      destruct (IH _ M1 F') as (I1 & I2 & I3). auto. }
    destruct (G [] ltac:(constructor) ltac:(constructor)) as (G1 & G2 & G3). split; [|split; [auto|]].
    + split; auto. eapply Forall_impl; [|exact G2]. intros ks (_ & A & B & _). auto.
    + apply Forall_forall. intros [k v] Hx. apply in_pairs in Hx as (s & Hs & Hv). rewrite Forall_forall in G2.
      destruct (G2 _ Hs) as (A & _ & _ & B). cbn [fst snd] in *. rewrite Forall_forall in B. auto.
Qed.

Lemma test_chars s : test_string s -> length s <= 12 /\
  Forall (fun c => (c = 45 \/ 48 <= c <= 57 \/ 65 <= c <= 90 \/ 97 <= c <= 122)%N) s.
Proof.
  intros (a & d & e & -> & A & E & La & Le & Ld). split; [rewrite !app_length, repeat_length; lia|].
  unfold alnums in *. apply Forall_app. split; [eapply Forall_impl; [|exact A]; tauto|].
  apply Forall_app. split; [|eapply Forall_impl; [|exact E]; tauto]. apply Forall_forall. intros c H. apply repeat_spec in H. now left.
Qed.

Lemma test_plain s : test_string s -> plain s /\ utf8_string s.
Proof.
  intros H. apply test_chars in H as [_ F]. rewrite Forall_forall in F. split.
  - split; [apply Forall_forall; intros c Hc; apply F in Hc; unfold vchar; lia|]. split; [intros Hc; apply F in Hc; lia|].
    split; intros u ->; [specialize (F 34%N (or_introl eq_refl))|specialize (F 34%N (in_or_app u [34%N] _ (or_intror (or_introl eq_refl))))]; lia.
  - exists s. split; [apply Forall_forall; intros c Hc; apply F in Hc; left; lia|].
    induction s as [|c s IH]; auto. cbn [map concat]. rewrite <- IH by (intros x Hx; apply F; now right).
    unfold encode_char. replace (c <? 128)%N with true by (symmetry; apply N.ltb_lt; specialize (F c (or_introl eq_refl)); lia). reflexivity.
Qed.

Lemma short_absent b s : length s < length b + 2 -> absent (delimiter b) s.
Proof.
  intros L i (p & q & -> & _). unfold delimiter in L. rewrite !app_length in L. change (length DASHES) with 2 in L. lia.
Qed.

Section Generated.
Context (ML : mime_lib).

(** The three content types: what they are called, and that their names are parsed back. *)
Definition test_mime (m : mime ML) : Prop :=
  In (mime_show ML m) [bs "application/octet-stream"; bs "text/plain"; bs "image/png"] /\ mime_parse ML (mime_show ML m) = Some m.
Definition test_mimes (m : mime ML * mime ML * mime ML) : Prop := test_mime (fst (fst m)) /\ test_mime (snd (fst m)) /\ test_mime (snd m).

Definition test_file (f : file_entry ML) : Prop :=
  test_mime (fe_ctype ML f) /\ match fe_fname ML f with Some s => test_string s | None => True end /\ test_string (fe_data ML f).

(** The forms the tests use. *)
Definition test_form (tf : test_fields ML) : Prop := test_map test_string (tf_texts ML tf) /\ test_map test_file (tf_files ML tf).

Theorem C79_generated : forall mime_eq_dec mimes g, test_mimes mimes -> test_form (fst (gen_fields ML mime_eq_dec mimes g)).
Proof.
  intros mime_eq_dec mimes g Hm. unfold gen_fields.
  pose proof (gen_map bytes_eq_dec gen_string test_string gen_string_shape g) as H1.
  destruct (collect_rand (gen_entry bytes_eq_dec gen_string) into_map g) as [texts g1].
  assert (Hf : forall g, test_file (fst (gen_file ML mimes g))).
  { clear - Hm. intros g. unfold gen_file. destruct (gen_bool g) as [named g1].
    assert (Hn : match fst (if named then let '(s, g2) := gen_string g1 in (Some s, g2) else (None, g1)) with Some s => test_string s | None => True end).
    { destruct named; [|exact I]. pose proof (gen_string_shape g1). destruct (gen_string g1); auto. }
    destruct (if named then _ else _) as [fn g2]. cbn [fst] in Hn. destruct (gen_bool g2) as [x g3].
    pose proof (gen_string_shape g3) as Hd. destruct (gen_string g3) as [data g4]. cbn [fst] in Hd.
    assert (Hc : test_mime (fst (rand_mime ML mimes g4))).
    { destruct mimes as [[m0 m1] m2]. destruct Hm as (A & B & C). cbn [fst snd] in *. unfold rand_mime. destruct (draw g4) as [y g5]. cbn [fst].
      destruct (y mod 3 =? 0)%N; [exact A|]. destruct (y mod 3 =? 1)%N; assumption. }
    destruct (rand_mime ML mimes g4) as [ct g5]. cbn [fst] in *. split; [exact Hc|]. split; assumption. }
  pose proof (gen_map (fe_eq_dec ML mime_eq_dec) (gen_file ML mimes) test_file Hf g1) as H2.
  destruct (collect_rand (gen_entry (fe_eq_dec ML mime_eq_dec) (gen_file ML mimes)) into_map g1) as [files g2].
  split; assumption.
Qed.

(** *** Every form of that shape can be drawn *)

Definition draws {A} (gen : rng -> A * rng) (x : A) : Prop := exists p, forall g, gen (p ++ g) = (x, g).

Lemma draws_between lo hi n : lo <= n <= hi -> draws (gen_between lo hi) n.
Proof.
  intros L. exists [N.of_nat (n - lo)]. intros g. unfold gen_between, draw. cbn [app hd tl]. rewrite N.mod_small by lia. rewrite Nat2N.id. f_equal. lia.
Qed.

Lemma draws_bool b : draws gen_bool b.
Proof. exists [if b then 1%N else 0%N]. intros g. now destruct b. Qed.

Lemma draws_char c : ((48 <= c <= 57) \/ (65 <= c <= 90) \/ (97 <= c <= 122))%N -> exists x, alnum_char x = c.
Proof.
  intros H. assert (In c ALNUM) as K.
  { assert (D : forall l, forallb (fun x => existsb (N.eqb x) ALNUM) l = true -> In c l -> In c ALNUM).
    { intros l E I. rewrite forallb_forall in E. apply E, existsb_exists in I as (y & Hy & Q). apply N.eqb_eq in Q. now subst y. }
    apply (D (map N.of_nat (seq 48 10 ++ seq 65 26 ++ seq 97 26))); [vm_compute; reflexivity|].
    apply in_map_iff. exists (N.to_nat c). split; [apply N2Nat.id|]. rewrite !in_app_iff, !in_seq. lia. }
  apply (In_nth _ _ 0%N) in K as (n & L & E). change (length ALNUM) with 62 in L. exists (N.of_nat n). unfold alnum_char. rewrite N.mod_small by lia.
  now rewrite Nat2N.id.
Qed.

Lemma draws_alnum s : alnums s -> draws (random_alphanumeric (length s)) s.
Proof.
  induction s as [|c s IH]; intros H; [exists []; reflexivity|].
  inversion H as [|? ? Hc Hs]; subst. destruct (draws_char c Hc) as (x & Hx). destruct (IH Hs) as (p & Hp). exists (x :: p). intros g.
  cbn [length random_alphanumeric app draw hd tl]. unfold draw. cbn [hd tl]. now rewrite Hp, Hx.
Qed.

Lemma draws_string s : test_string s -> draws gen_string s.
Proof.
  intros (a & d & e & -> & A & E & La & Le & Ld).
  destruct (draws_between 2 5 (length a) La) as (p1 & H1). destruct (draws_between 2 5 (length e) Le) as (p2 & H2).
  destruct (draws_between 0 2 d ltac:(lia)) as (p3 & H3). destruct (draws_alnum a A) as (p4 & H4). destruct (draws_alnum e E) as (p5 & H5).
  exists (p1 ++ p2 ++ p3 ++ p4 ++ p5). intros g. unfold gen_string. rewrite <- !app_assoc, H1, H2, H3, H4, H5. reflexivity.
Qed.

Lemma draws_times {A} (gen : rng -> A * rng) l : Forall (draws gen) l -> draws (gen_times gen (length l)) l.
Proof.
  induction 1 as [|x l (p & Hp) F (q & Hq)]; [exists []; reflexivity|]. exists (p ++ q). intros g. cbn [length gen_times].
  now rewrite <- app_assoc, Hp, Hq.
Qed.

Lemma draws_collect {A C} (gen : rng -> A * rng) (into : list A -> C) l : Forall (draws gen) l -> 1 <= length l <= 2 -> draws (collect_rand gen into) (into l).
Proof.
  intros F L. destruct (draws_between 1 2 _ L) as (p & Hp). destruct (draws_times gen l F) as (q & Hq). exists (p ++ q). intros g. unfold collect_rand.
  now rewrite <- app_assoc, Hp, Hq.
Qed.

Lemma into_set_nodup {V} (eqv : forall a b : V, {a = b} + {a <> b}) l : NoDup l -> into_set eqv l = l.
Proof.
  intros D. unfold into_set. change l with ([] ++ l) in D. change l with ([] ++ l) at 2. generalize (@nil V) as s, D. clear D.
  induction l as [|x l IH]; intros s D; cbn [fold_left]; [now rewrite app_nil_r|].
  unfold set_insert at 2. destruct (in_dec eqv x s) as [K|K].
  - apply NoDup_remove_2 in D. exfalso. apply D, in_or_app. now left.
  - change (x :: l) with ([x] ++ l) in D |- *. rewrite app_assoc in D |- *. now apply IH.
Qed.

Lemma into_map_nodup {V} (l : list (bytes * list V)) : NoDup (map fst l) -> into_map l = l.
Proof.
  intros D. unfold into_map. change l with ([] ++ l) in D. change l with ([] ++ l) at 2. generalize (@nil (bytes * list V)) as s, D. clear D.
  induction l as [|[k x] l IH]; intros s D; cbn [fold_left]; [now rewrite app_nil_r|]. cbn [fst snd].
  assert (E : map_insert s k x = s ++ [(k, x)]).
  { rewrite map_app in D. cbn [map fst] in D. apply NoDup_remove_2 in D.
    assert (K : ~ In k (map fst s)) by (intros K; apply D, in_or_app; now left). clear - K.
    induction s as [|[k' y] s IH]; [reflexivity|]. cbn [map_insert app]. destruct (beq k' k) eqn:B.
    - apply beq_eq in B. subst k'. exfalso. apply K. now left.
    - f_equal. apply IH. intros Q. apply K. now right. }
  rewrite E. change ((k, x) :: l) with ([(k, x)] ++ l) in D |- *. rewrite app_assoc in D |- *. now apply IH.
Qed.

Definition up_to_two {V} (m : setmap V) : Prop := length m <= 2 /\ Forall (fun ks : bytes * list V => length (snd ks) <= 2) m.

Lemma draws_map {V} (eqv : forall a b : V, {a = b} + {a <> b}) gen (P : V -> Prop) m : (forall v, P v -> draws gen v) -> test_map P m -> up_to_two m ->
  draws (collect_rand (gen_entry eqv gen) into_map) m.
Proof.
  intros H ((D & S1) & Ne & F) (L & F2). rewrite <- (into_map_nodup m D). apply draws_collect.
  - apply Forall_forall. intros [k s] Hin. rewrite Forall_forall in S1, F, F2. destruct (S1 _ Hin) as [N1 N2]. specialize (F2 _ Hin). cbn [snd] in *.
    assert (Q : forall v, In v s -> test_string k /\ P v).
    { intros v Hv. apply (F (k, v)). apply in_pairs. eauto. }
    destruct s as [|v0 s']; [contradiction|]. destruct (draws_string k (proj1 (Q v0 (or_introl eq_refl)))) as (p & Hp).
    destruct (draws_collect gen (into_set eqv) (v0 :: s')) as (q & Hq).
    { apply Forall_forall. intros v Hv. apply H. now apply Q. }
    { cbn [length] in *. lia. }
    exists (p ++ q). intros g. unfold gen_entry. rewrite <- app_assoc, Hp, Hq. now rewrite into_set_nodup.
  - destruct m; [contradiction|]. cbn [length] in *. lia.
Qed.

(** Every form of that shape with at most two names of each kind and at most two values for each is drawn by some random stream. *)
Theorem C79_every_form : forall mime_eq_dec m0 m1 m2 tf, test_form tf -> up_to_two (tf_texts ML tf) -> up_to_two (tf_files ML tf) ->
  Forall (fun x => In (fe_ctype ML (snd x)) [m0; m1; m2]) (pairs (tf_files ML tf)) ->
  exists g, fst (gen_fields ML mime_eq_dec (m0, m1, m2) g) = tf.
Proof.
  intros mime_eq_dec m0 m1 m2 [texts files] [H1 H2] U1 U2 Hm. cbn [tf_texts tf_files] in *.
  destruct (draws_map bytes_eq_dec gen_string test_string texts draws_string H1 U1) as (p & Hp).
  destruct (draws_map (fe_eq_dec ML mime_eq_dec) (gen_file ML (m0, m1, m2)) (fun f => test_file f /\ In (fe_ctype ML f) [m0; m1; m2]) files) as (q & Hq).
  - intros [ct fn data] [(_ & Hf & Hd) Hc]. cbn [fe_ctype fe_fname fe_data] in *.
    destruct (draws_bool (match fn with Some _ => true | None => false end)) as (p1 & E1).
    assert (E2 : exists p2, forall g, (if match fn with Some _ => true | None => false end then let '(s, g2) := gen_string (p2 ++ g) in (Some s, g2) else (None, p2 ++ g)) = (fn, g)).
    { destruct fn as [f|]; [|exists []; reflexivity]. destruct (draws_string f Hf) as (p2 & E2). exists p2. intros g. now rewrite E2. }
    destruct E2 as (p2 & E2). destruct (draws_bool true) as (p3 & E3). destruct (draws_string data Hd) as (p4 & E4).
    assert (E5 : draws (rand_mime ML (m0, m1, m2)) ct).
    { destruct Hc as [<-|[<-|[<-|[]]]]; [exists [0%N]|exists [1%N]|exists [2%N]]; intros g; reflexivity. }
    destruct E5 as (p5 & E5). exists (p1 ++ p2 ++ p3 ++ p4 ++ p5). intros g. unfold gen_file. rewrite <- !app_assoc, E1, E2, E3, E4, E5. reflexivity.
  - destruct H2 as (A & B & C). split; [exact A|]. split; [exact B|]. rewrite Forall_forall in *. intros x Hx. destruct (C x Hx). auto.
  - exact U2.
  - exists (p ++ q ++ []). unfold gen_fields. now rewrite Hp, Hq.
Qed.

Lemma test_mime_text m : test_mime m -> ctype_text (mime_show ML m) /\ utf8_string (mime_show ML m) /\ length (mime_show ML m) <= 24 /\
  forall b, absent (delimiter b) (mime_show ML m).
Proof.
  intros (H & _). destruct H as [<-|[<-|[<-|[]]]];
    (split; [apply type_text; reflexivity|]; split; [apply ascii_text; reflexivity|]; split; [apply Nat.leb_le; reflexivity|]; intros b; apply absent_text; reflexivity).
Qed.

Lemma form_fits b tf : length b = 16 -> test_form tf -> fits ML b tf.
Proof.
  intros Lb ((_ & _ & F1) & (_ & _ & F2)).
  assert (Fr : forall s, test_string s -> free b (Some s)) by (intros s H; apply test_chars in H as [L _]; apply short_absent; lia).
  assert (Hd : forall x : bytes, length x + length b + 3 <= N.to_nat 1024 -> length x + length b + 3 <= MIN_BUF_SIZE) by (intros x H; exact H).
  split.
  - eapply Forall_impl; [|exact F1]. intros [k v] [Hk Hv]. cbn [fst snd] in *.
    destruct (test_plain k Hk) as [Pk Uk]. destruct (test_plain v Hv) as [_ Uv]. pose proof (proj1 (test_chars k Hk)) as Lk.
    pose proof (proj1 (test_chars v Hv)) as Lv.
    split; [|split; [exact Uv|lia]]. unfold sendable, text_part. cbn [p_name p_fname p_ctype p_data fst snd].
    do 2 (split; [assumption|]). do 2 (split; [exact I|]). split; [auto|]. do 2 (split; [exact I|]). split; [auto|].
    apply Hd. unfold p_head, head_text, disp_value, quoted. cbn [p_name p_fname p_ctype]. rewrite !app_length, Lb.
    change (length (bs "Content-Disposition: ")) with 21. change (length (bs "form-data; name=")) with 16.
    change (length (bs """")) with 1. change (length CRLF) with 2. cbn [length]. lia.
  - eapply Forall_impl; [|exact F2]. intros [k [ct fn v]] [Hk (Hc & Hf & Hv)]. cbn [fst snd fe_ctype fe_fname fe_data] in *.
    destruct (test_plain k Hk) as [Pk Uk]. pose proof (proj1 (test_chars k Hk)) as Lk. pose proof (proj1 (test_chars v Hv)) as Lv.
    destruct (test_mime_text ct Hc) as (Tc & Uc & Lc & Ac). destruct Hc as [_ Hc].
    split; [|split; [exact Hc|lia]]. unfold sendable, file_part. cbn [p_name p_fname p_ctype p_data fst snd fe_ctype fe_fname fe_data].
    do 2 (split; [assumption|]).
    split; [destruct fn; [now apply test_plain|exact I]|]. split; [split; [assumption|split; [assumption|congruence]]|].
    split; [auto|]. split; [destruct fn; [auto|exact I]|]. split; [apply Ac|]. split; [auto|].
    assert (Lf : length (match fn with Some f => bs "; filename=" ++ bs """" ++ f ++ bs """" | None => [] end) <= 25).
    { destruct fn as [f|]; [|cbn; lia]. pose proof (proj1 (test_chars f Hf)). rewrite !app_length. change (length (bs "; filename=")) with 11. change (length (bs """")) with 1. lia. }
    apply Hd. unfold p_head, head_text, disp_value, quoted. cbn [p_name p_fname p_ctype fst snd]. rewrite !app_length, Lb.
    change (length (bs "Content-Disposition: ")) with 21. change (length (bs "form-data; name=")) with 16. change (length (bs "Content-Type: ")) with 14.
    change (length (bs """")) with 1. change (length CRLF) with 2. unfold bytes, byte in *. lia.
Qed.

(** The order in which the maps and sets are walked through does not matter. *)
Definition same_sets {V} (m m' : setmap V) : Prop :=
  exists m1, Permutation m m1 /\ Forall2 (fun a b : bytes * list V => fst a = fst b /\ Permutation (snd a) (snd b)) m1 m'.
Definition same_form (tf tf' : test_fields ML) : Prop :=
  same_sets (tf_texts ML tf) (tf_texts ML tf') /\ same_sets (tf_files ML tf) (tf_files ML tf').

Lemma same_test_map {V} (P : V -> Prop) m m' : same_sets m m' -> test_map P m -> test_map P m'.
Proof.
  intros (m1 & Pm & F2) ((D & F) & Ne & A).
  assert (A1 : test_map P m1).
  { split; [split|split].
    - exact (Permutation_NoDup (Permutation_map fst Pm) D).
    - exact (Permutation_Forall Pm F).
    - intros ->. apply Permutation_sym, Permutation_nil in Pm. congruence.
    - exact (Permutation_Forall (Permutation_flat_map _ Pm) A). }
  clear - F2 A1. destruct A1 as ((D & F) & Ne & A).
  assert (Ef : map fst m' = map fst m1) by (clear - F2; induction F2 as [|a b l l' [H _] F2 IH]; cbn; congruence).
  split; [split|split].
  - now rewrite Ef.
  - clear - F2 F. induction F2 as [|a b l l' [_ H] F2 IH]; [constructor|]. inversion F as [|? ? [F1 F3] F4]; subst. constructor; auto.
    split; [|exact (Permutation_NoDup H F3)]. intros E. rewrite E in H. apply Permutation_sym, Permutation_nil in H. congruence.
  - intros ->. inversion F2; subst. congruence.
  - assert (Pp : Permutation (pairs m1) (pairs m')).
    { clear - F2. induction F2 as [|a b l l' [H1 H] F2 IH]; [constructor|]. unfold pairs. cbn [flat_map]. apply Permutation_app; [|exact IH].
      rewrite H1. now apply Permutation_map. }
    exact (Permutation_Forall Pp A).
Qed.

End Generated.

(** The four tests of src/local_test.rs (252-269) pass, whatever is drawn: for every form they generate, in any order of the
    maps, for both clients, both servers, every boundary and every size of a write or read that the mocks choose. *)
Theorem C79_tests : forall ML dec octet guess trim (lazy by_value : bool) szc szs room mimes g0 tf g gbuf gsrv,
  test_mimes ML mimes -> same_form ML (fst (gen_fields ML dec mimes g0)) tf ->
  (forall k, 0 < szc k) -> (forall k j, 0 < szs k j) ->
  exists fuel0, forall fuel, fuel0 <= fuel ->
    do_test ML dec octet guess trim lazy by_value fuel szc szs room g gbuf gsrv tf = Ok tt.
Proof.
  intros ML dec octet guess trim lazy by_value szc szs room mimes g0 tf g gbuf gsrv Hm (H1 & H2) Hc Hs.
  destruct (C79_generated ML dec mimes g0 Hm) as [T1 T2].
  assert (T : test_form ML tf) by (split; [eapply same_test_map; eauto|eapply same_test_map; eauto]).
  destruct T as [T3 T4].
  apply C79_passes; auto.
  - split; [exact (proj1 T3)|exact (proj1 T4)].
  - apply form_fits; [exact (proj1 (random_alnum 16 g))|now split].
  - intros _. apply T4.
  - intros _ E. apply (proj1 (proj2 T3)). now rewrite E.
Qed.

(** One generated form, with a name used for two texts, and the four tests on it. *)
Definition toy_mimes : mime toy * mime toy * mime toy := (bs "application/octet-stream", bs "text/plain", bs "image/png").
Definition toy_form : test_fields toy :=
  fst (gen_fields toy bytes_eq_dec toy_mimes [0; 1; 2; 1; 11; 12; 13; 14; 15; 16; 17; 1; 0; 0; 2; 1; 2; 3; 4; 1; 1; 0; 5; 6; 7; 8; 9; 1; 1; 1; 2]%N).

Example C79_example :
  test_mimes toy toy_mimes /\ same_form toy toy_form toy_form /\
  tf_texts toy toy_form = [(bs "LMN-OPQR", [bs "BC--DE"; bs "FGHIJB"])] /\ length (pairs (tf_files toy toy_form)) = 2 /\
  (forall lazy by_value, do_test toy bytes_eq_dec (bs "o/s") (fun _ => bs "o/s") true lazy by_value 2000 (fun _ => 50) (fun _ _ => 7) (fun k => k) [5]%N [3; 9]%N [8; 1]%N toy_form = Ok tt) /\
  do_test toy bytes_eq_dec (bs "o/s") (fun _ => bs "o/s") true true false 2000 (fun _ => 50) (fun _ _ => 7) (fun k => k) [5]%N [3; 9]%N [8; 1]%N
    (mkTF toy [(bs "a", [bs "x"])] []) = Panic.
Proof.
  split; [repeat split; cbn; auto|].
  split; [split; eexists; (split; [apply Permutation_refl|]); repeat constructor|].
  split; [vm_compute; reflexivity|].
  split; [vm_compute; reflexivity|]. split; [|vm_compute; reflexivity]. intros [|] [|]; vm_compute; reflexivity.
Qed.

(** The form of the example is of that shape. *)
Example C79_every_form_example : let '(m0, m1, m2) := toy_mimes in
  test_form toy toy_form /\ up_to_two (tf_texts toy toy_form) /\ up_to_two (tf_files toy toy_form) /\
  Forall (fun x => In (fe_ctype toy (snd x)) [m0; m1; m2]) (pairs (tf_files toy toy_form)).
Proof.
  destruct toy_mimes as [[m0 m1] m2] eqn:E. split; [apply C79_generated; repeat split; cbn; auto|].
  unfold toy_mimes in E. injection E as <- <- <-.
  split; [split; [apply Nat.leb_le; vm_compute; reflexivity|vm_compute; repeat constructor]|].
  split; [split; [apply Nat.leb_le; vm_compute; reflexivity|vm_compute; repeat constructor]|].
  vm_compute. repeat constructor; auto.
Qed.

(** ** C80: the tool read_file *)

Lemma random_chunks_spec room : forall fuel k g t, transport_size t <= fuel ->
  let t' := random_chunks fuel room k g t in
  stream t' = stream t /\ (live t -> live t') /\ (forall e, In (Fail e) t' -> In (Fail e) t).
Proof.
  induction fuel as [|fuel IH]; intros k g t L; cbn [random_chunks].
  { unfold transport_size in L. destruct t; [|cbn in L; lia]. repeat split; auto. }
  destruct t as [|ev t]; [repeat split; auto|]. unfold random_read. change (S (room k) =? 0) with false. cbn iota.
  pose proof (gen_range1_range (S (room k)) g ltac:(lia)) as G. destruct (gen_range1 (S (room k)) g) as [n g1]. cbn [fst] in G.
  unfold transport_size in *. cbn [source_read]. destruct ev as [c|e]; cbn [length stream] in L.
  - rewrite app_length in L. destruct (Nat.leb_spec (length c) n) as [Q|Q].
    + destruct (IH (S k) g1 t) as (I1 & I2 & I3); [lia|]. cbn [stream]. split; [now rewrite I1|]. split.
      * intros Hl [K|K]; [apply Hl; now left|]. apply I2 in K; auto. intros Z. apply Hl. now right.
      * intros e [K|K]; [discriminate|right; auto].
    + destruct (IH (S k) g1 (Chunk (skipn n c) :: t)) as (I1 & I2 & I3); [cbn [length stream]; rewrite app_length, skipn_length; lia|].
      cbn [stream] in *. split; [rewrite I1, app_assoc, firstn_skipn; reflexivity|]. split.
      * intros Hl [K|K]; [injection K as K; destruct c; [cbn in Q; lia|destruct n; [lia|discriminate]]|].
        apply I2 in K; auto. intros [Z|Z]; [|apply Hl; now right]. injection Z as Z. apply (f_equal (@length _)) in Z. rewrite skipn_length in Z. cbn in Z. lia.
      * intros e [K|K]; [discriminate|]. apply I3 in K as [K|K]; [discriminate|now right].
  - destruct (IH (S k) g1 t) as (I1 & I2 & I3); [lia|]. cbn [stream]. split; [exact I1|]. split.
    + intros Hl [K|K]; [discriminate|]. apply I2 in K; auto. intros Z. apply Hl. now right.
    + intros e' [K|K]; [left; exact K|right; auto].
Qed.

Lemma random_reader_spec room g t : stream (random_reader room g t) = stream t /\ (live t -> live (random_reader room g t)) /\
  (quiet t -> quiet (random_reader room g t)).
Proof.
  destruct (random_chunks_spec room (transport_size t) 0 g t (le_n _)) as (H1 & H2 & H3). split; [exact H1|]. split; [exact H2|].
  intros Q e K. exact (Q e (H3 e K)).
Qed.

(** The loop is [foreach_entry] with a callback that does nothing. *)
Lemma read_file_foreach ML trim fuel : forall n r,
  let '(x, l, _) := foreach_entry ML trim (fun _ _ => []) fuel n r in
  read_file_loop ML trim fuel r = (map (fun v => fh_name ML (fst v)) l,
    match x with Ok _ => Ok tt | OutOfFuel => OutOfFuel | _ => Panic end).
Proof.
  induction fuel as [|fuel IH]; intros n r; cbn [foreach_entry read_file_loop]; auto.
  destruct (read_entry ML trim r) as [[[h|]|e| |] r1]; auto. cbn [run]. specialize (IH (S n) r1).
  destruct (foreach_entry ML trim (fun _ _ => []) fuel (S n) r1) as [[x l] r2]. rewrite IH. reflexivity.
Qed.

(** Whatever the reads of the file do (short reads and failures; no transient ends): it ends, the names printed are the first names
    of the body in order, and all of them if it does not panic. *)
Theorem C80_in_order : forall ML trim room g b file L,
  live file -> parts (head_block ML trim (delimiter b)) (delimiter b) (stream file) L ->
  exists fuel0, forall fuel, fuel0 <= fuel -> exists l x, read_file ML trim fuel room g b file = (l, x) /\
    (x = Panic /\ (exists rest, map (fun hc => fh_name ML (fst hc)) L = l ++ rest) \/
     x = Ok tt /\ l = map (fun hc => fh_name ML (fst hc)) L).
Proof.
  intros ML trim room g b file L Hl P. exists (S (length (stream file))). intros fuel Lf. unfold read_file.
  destruct (random_reader_spec room g file) as (S1 & L1 & _). set (t := random_reader room g file) in *. specialize (L1 Hl). rewrite <- S1 in P.
  pose proof (read_file_foreach ML trim fuel 0 (with_body t b)) as F.
  destruct (foreach_entry ML trim (fun _ _ => []) fuel 0 (with_body t b)) as [[x l] r'] eqn:E.
  assert (Hf : forall (n : nat) (h : field_headers ML), Forall field_op []) by (intros; constructor).
  destruct (C73_in_order ML trim (fun _ _ => []) fuel t b x l r' L L1 Hf P E) as (dn & rest & -> & M & X).
  assert (Mn : map (fun v => fh_name ML (fst v)) l = map (fun hc => fh_name ML (fst hc)) dn).
  { rewrite <- (map_map fst (fh_name ML)), M, map_map. reflexivity. }
  rewrite F, Mn. eexists _, _. split; [reflexivity|]. rewrite map_app.
  destruct (foreach_total ML trim _ _ _ _ _ _ _ (inv_from_reader t b) E) as [N1 N2].
  { change (length (stream t) < fuel). rewrite S1. lia. }
  destruct x as [[]|e| |]; try congruence; [right|left]; (split; [reflexivity|]); eauto.
  rewrite (X eq_refl). cbn [map]. now rewrite app_nil_r.
Qed.

(** False: a body with a field larger than a buffer makes it panic (the fault of C09). *)
Theorem C80_refuted : exists file L b, live file /\ quiet file /\ length L = 2 /\
  parts (head_block toy true (delimiter b)) (delimiter b) (stream file) L /\
  read_file toy true 100 (fun _ => 4999) [4000]%N b file = ([bs "a"], Panic).
Proof.
  exists C09_t, [(mkFH toy (bs "a") None None, repeat 120%N 1100); (mkFH toy (bs "c") None None, bs "y")], (bs "b").
  split; [intros [H|[H|[]]]; discriminate|]. split; [intros k [H|[H|[]]]; discriminate|]. split; [reflexivity|].
  split; [|vm_compute; reflexivity].
  apply parts_field with (pre := []) (x := toy_head (bs "a")) (rest := repeat 120%N 1100 ++ CRLF ++ bs "--b" ++ CRLF ++ toy_head (bs "c") ++ bs "y" ++ CRLF ++ toy_end).
  - apply find_split; vm_compute; reflexivity.
  - split; [|apply Nat.leb_le; vm_compute; reflexivity].
    eexists. split; [intros y; vm_compute; reflexivity|]. split; vm_compute; reflexivity.
  - exists (toy_head (bs "a") ++ repeat 120%N 1100 ++ CRLF), (CRLF ++ toy_head (bs "c") ++ bs "y" ++ CRLF ++ toy_end).
    split; [|left; vm_compute; reflexivity]. apply find_split; vm_compute; reflexivity.
  - apply parts_field with (pre := repeat 120%N 1100 ++ CRLF) (x := toy_head (bs "c")) (rest := bs "y" ++ CRLF ++ toy_end).
    + apply find_split; vm_compute; reflexivity.
    + split; [|apply Nat.leb_le; vm_compute; reflexivity].
      eexists. split; [intros y; vm_compute; reflexivity|]. split; vm_compute; reflexivity.
    + exists (toy_head (bs "c") ++ bs "y" ++ CRLF), (DASHES ++ CRLF). split; [|left; reflexivity].
      apply find_split; vm_compute; reflexivity.
    + eapply parts_end with (pre := bs "y" ++ CRLF) (q := CRLF). apply find_split; vm_compute; reflexivity.
Qed.

(** Part that holds: with fields of at most 1016 - |boundary| bytes and no failing reads, all names are printed. *)
Theorem C80_lists_partial : forall ML trim room g b file L,
  live file -> quiet file -> parts (head_block ML trim (delimiter b)) (delimiter b) (stream file) L ->
  Forall (fun hc : field_headers ML * bytes => length (snd hc) + length b + 8 <= 1024) L ->
  exists fuel0, forall fuel, fuel0 <= fuel ->
    read_file ML trim fuel room g b file = (map (fun hc => fh_name ML (fst hc)) L, Ok tt).
Proof.
  intros ML trim room g b file L Hl Hq P F.
  destruct (C80_in_order ML trim room g b file L Hl P) as (fuel0 & H). exists (fuel0 + S (length L)). intros fuel Lf.
  destruct (H fuel ltac:(lia)) as (l & x & E & [(-> & _)|(-> & ->)]); [exfalso|exact E].
  unfold read_file in E. destruct (random_reader_spec room g file) as (S1 & L1 & Q1). set (t := random_reader room g file) in *. specialize (L1 Hl). specialize (Q1 Hq).
  rewrite <- S1 in P. pose proof (read_file_foreach ML trim fuel 0 (with_body t b)) as K.
  destruct (foreach_entry ML trim (fun _ _ => []) fuel 0 (with_body t b)) as [[x v] r'] eqn:Y. rewrite E in K. injection K as _ K.
  assert (X : x = Ok tt).
  { assert (Hf : forall (n : nat) (h : field_headers ML), Forall field_op []) by (intros; constructor).
    refine (foreach_complete ML trim (fun _ _ => []) t b Hf L1 fuel Q1 0 (with_body t b) L x v r' _ _ (or_introl eq_refl) P _ Y _);
      [exists [], []; reflexivity|discriminate|unfold bytes, byte in *; lia|].
    intros i h ob c _ Hc. right. apply nth_error_In in Hc. rewrite Forall_forall in F. exact (F _ Hc). }
  subst x. discriminate.
Qed.

Example C80_example :
  live [Chunk (bs "--b" ++ CRLF ++ toy_head (bs "a") ++ bs "x"); Chunk (CRLF ++ bs "--b" ++ CRLF ++ toy_head (bs "a") ++ bs "y" ++ CRLF ++ toy_end)] /\
  read_file toy true 100 (fun k => 2 * k) [1; 2; 3]%N (bs "b")
    [Chunk (bs "--b" ++ CRLF ++ toy_head (bs "a") ++ bs "x"); Chunk (CRLF ++ bs "--b" ++ CRLF ++ toy_head (bs "a") ++ bs "y" ++ CRLF ++ toy_end)] = ([bs "a"; bs "a"], Ok tt).
Proof. split; [intros [H|[H|[]]]; discriminate|vm_compute; reflexivity]. Qed.
