(** Property theorems about what a saved field becomes: text, bytes or a file (C84). *)

From Verif Require Import Bytes BytesProofs Spec Io Boundary BoundaryProofs Utf8 Utf8Proofs Httparse Field FieldProofs
  ContentProofs DataProofs ShortProofs EntryProofs ReaderProofs Drive DriveProofs ReachProofs Toy PropsReader Rand Fs Save SaveProofs
  PhaseProofs SaveFacts TextProofs PropsSave EntriesProofs CompleteProofs PropsEntries.

(** The sender calls the field a text: it has no content type, or one of type [text]. *)
Definition textual ML (h : field_headers ML) : Prop :=
  match fh_ctype ML h with None => True | Some m => mime_is_text ML m = true end.

(** ** Text that has room is not rejected *)

Lemma text_room ML trim t b h r0 lim : at_field ML trim t b h r0 -> live t ->
  forall fuel total copied w r c x w' r',
  exact_chunks (delimiter b) t [w ++ c] -> content (delimiter b) (rem r0) (w ++ c) -> moved r0 w r -> utf8_string c ->
  (copied + N.of_nat (shown_at_most c) <= lim)%N ->
  try_read_buf (limited lim text_buf) fuel total (copied, w) r = (x, w', r') ->
  match x with Part _ RSize | Part _ RUtf8 | Part _ RCount => False | _ => True end.
Proof.
  intros Hf Hl. induction fuel as [|fuel IH]; intros total copied w r c x0 w' r' Hns Hc M U Le.
  { intros H; injection H as <- _ _. exact Logic.I. }
  cbn [try_read_buf]. destruct (read_to_boundary r) as [y r1] eqn:E.
  destruct (moved_field ML _ _ _ _ _ _ _ Hf M) as (I & _ & Sx & B & L & Mb & _ & _ & Mn).
  pose proof (read_to_boundary_spec _ _ _ I E) as (I1 & R1 & B1 & M1 & L1 & _ & K1 & K2 & X).
  destruct y as [x|e| |]; try tauto.
  2: { destruct (iokind_eqb (berr_kind e) KInterrupted).
       - apply IH with (c := c); auto. eapply mv_fill; eauto.
       - destruct (total =? 0)%N; intros H; injection H as <- _ _; exact Logic.I. }
  destruct X as [Ex _].
  destruct x as [|z x].
  { intros H; injection H as <- _ _. exact Logic.I. }
  destruct (fill_content ML _ _ _ _ _ _ _ _ _ _ Hf Hl Hns Hc M E) as (c' & -> & Lx).
  remember (z :: x) as y eqn:Ey. assert (Ny : 0 < length y) by (rewrite Ey; simpl; lia).
  unfold limited at 1. unfold shown_at_most in *. rewrite app_length in Le.
  destruct (lim <? sat_add copied (N.of_nat (length y)))%N eqn:Lim.
  { exfalso. apply N.ltb_lt in Lim. unfold sat_add in Lim. lia. }
  destruct (utf8_buffer _ _ U) as (V1 & V2 & V3).
  assert (Take : forall n, n <= length y -> moved r0 (w ++ firstn n y) (consume n r1)).
  { intros n Hn. assert (length y <= idx r1) by (rewrite Ex, firstn_length; lia).
    replace (firstn n y) with (firstn n (buf r1)) by (rewrite Ex, firstn_firstn; f_equal; lia).
    eapply mv_take; eauto; lia. }
  assert (Step : forall n, n <= length y -> 0 < n -> (length y <= n \/ (497 <= n /\ length y <= n + 3)) -> utf8_string (skipn n y ++ c') ->
    try_read_buf (limited lim text_buf) fuel (total + N.of_nat n) (sat_add copied (N.of_nat (length y)), w ++ firstn n y)
        (consume n r1) = (x0, w', r') ->
    match x0 with Part _ RSize | Part _ RUtf8 | Part _ RCount => False | _ => True end).
  { intros n Hn N0 N2 Hu. apply IH with (c := skipn n y ++ c'); auto.
    - now rewrite <- app_assoc, (app_assoc (firstn n y)), firstn_skipn.
    - now rewrite <- app_assoc, (app_assoc (firstn n y)), firstn_skipn.
    - unfold sat_add. rewrite app_length, skipn_length.
      replace (length y - n + length c') with (length y + length c' - n) by lia.
      destruct N2 as [N2|[N2 N3]].
      + pose proof (shown_less (length y + length c') n). lia.
      + pose proof (shown_step (length y + length c') n). lia. }
  unfold text_buf at 1. destruct (valid_utf8 y) eqn:V.
  { specialize (Step (length y) ltac:(lia) ltac:(lia) ltac:(lia)). rewrite firstn_all, skipn_all in Step. apply Step.
    simpl. apply valid_utf8_iff in V. exact (utf8_cancel _ _ V U). }
  destruct (length y <? 4) eqn:L4.
  { exfalso. apply Nat.ltb_lt in L4. destruct Lx as [->|Lx]; [|lia]. rewrite app_nil_r in U.
    apply valid_utf8_iff in U. congruence. }
  apply Nat.ltb_ge in L4. destruct Lx as [->|Lx].
  { rewrite app_nil_r in U. apply valid_utf8_iff in U. congruence. }
  apply Step; auto; lia.
Qed.

(** ** One field *)

(** A field that is kept as text is declared text and is one, whatever happens. *)
Definition text_ok ML (s : saver) (hv : field_headers ML * saved) : Prop :=
  forall w, snd hv = SText w -> textual ML (fst hv) /\ utf8_string w /\ s_policy s <> TIgnore.

Lemma save_field_text ML s h en fuel g r e x g1 r1 e1 : inv r -> save_field ML s h en fuel g r e = (x, g1, r1, e1) ->
  inv r1 /\ forall v, (x = Full v \/ exists why, x = Part v why) -> text_ok ML s (h, v).
Proof.
  intros I H. apply save_field_path in H as [_ H].
  destruct (with_path_moved _ _ _ _ _ _ _ _ I H) as [d0 M0]. split; [apply (moved_spec _ _ _ M0 I)|].
  intros v Hv w Ew. simpl in Ew. subst v.
  assert (K : (if is_text ML h then s_policy s else TIgnore) <> TIgnore -> textual ML h /\ s_policy s <> TIgnore).
  { unfold is_text, textual. destruct (fh_ctype ML h) as [m|]; [destruct (mime_is_text ML m)|]; tauto. }
  apply with_path_cases in H as [(_ & d & M & B & X)|(ob & r2 & b0 & M & _ & _ & _ & _ & B & H)]; auto.
  - destruct Hv as [->|[why ->]]; simpl in X; destruct X as (-> & U & X).
    + destruct X as [_ X]. destruct (K X). auto.
    + destruct X as [X _]. destruct (K X). auto.
  - exfalso. pose proof (moved_spec _ _ _ M I) as (J1 & R0 & _).
    apply save_disk_spec in H as (d & M1 & Np & Bd & _ & [(_ & (k & ->) & _)|(w' & _ & X)]); auto.
    { destruct Hv as [Hv|[why Hv]]; discriminate. }
    destruct Hv as [->|[why ->]].
    + destruct X as (_ & X & _). discriminate.
    + destruct X as [(_ & X & _)|(_ & _ & _ & X & _)]; discriminate.
Qed.

(** ** A request *)

Lemma loop_text ML trim s fuel : forall res en g r e x g' r' e', inv r ->
  entries_loop ML trim s fuel res en g r e = (x, g', r', e') ->
  (forall en', got ML x = Some en' -> exists log, en' = pushes ML en log /\ Forall (text_ok ML s) log) /\
  (forall pe why h v, x = Part pe why -> pe_partial ML pe = Some (h, Some v) -> text_ok ML s (h, v)).
Proof.
  induction fuel as [|fuel IH]; intros res en g r e x g' r' e' I; cbn [entries_loop].
  { intros H; injection H as <- <- <- <-. split; discriminate. }
  assert (Nil : exists log, en = pushes ML en log /\ Forall (text_ok ML s) log) by (exists []; split; [reflexivity|constructor]).
  destruct (en_count ML en <? s_count_limit s)%N eqn:C.
  2: { intros H; injection H as <- <- <- <-. split; [intros en' G; injection G as <-; auto|].
       intros pe why h v Q; injection Q as <- _. discriminate. }
  destruct res as [[h|]|y| |].
  2-5: intros H; injection H as <- <- <- <-; split; [intros en' G; try discriminate; injection G as <-; auto|];
    intros pe why h v Q; try discriminate; injection Q as <- _; discriminate.
  destruct (save_field ML s h en (S fuel) g r e) as [[[y g1] r1] e1] eqn:E.
  apply save_field_text in E as [I1 E]; auto.
  destruct y as [v|v why|y| |].
  2-5: intros H; injection H as <- <- <- <-; split; [intros en' G; try discriminate; injection G as <-; auto|];
    intros pe why' h' v' Q; try discriminate; injection Q as <- _; intros Q; try discriminate; injection Q as <- <-; eauto.
  destruct (read_entry ML trim r1) as [res' r2] eqn:Re. intros H.
  pose proof (read_entry_keeps ML _ _ _ _ I1 Re) as I2.
  destruct (IH _ _ _ _ _ _ _ _ _ I2 H) as [H1 H2]. split; auto.
  intros en' G. destruct (H1 _ G) as (log & -> & F). exists ((h, v) :: log). split; [reflexivity|]. constructor; auto.
Qed.

(** Whatever the body is, however the request ends and whatever fails: every field that was saved, and the field
    that was being saved, is kept as text only if its headers say so and what is kept is UTF-8. *)
Theorem C84_text_only : forall ML trim s fuel en g t b e x g' r' e',
  with_entries ML trim s fuel en g (with_body t b) e = (x, g', r', e') ->
  forall en', (x = Full en' \/ exists pe why, x = Part pe why /\ en' = pe_entries ML pe) ->
  exists log, en' = pushes ML (recount_fields ML en) log /\
    Forall (fun hv => forall w, snd hv = SText w -> textual ML (fst hv) /\ utf8_string w /\ s_policy s <> TIgnore) log /\
    forall pe why h w, x = Part pe why -> pe_partial ML pe = Some (h, Some (SText w)) ->
      textual ML h /\ utf8_string w /\ s_policy s <> TIgnore.
Proof.
  intros ML trim s fuel en g t b e x g' r' e' H en' Hx. unfold with_entries in H.
  destruct (read_entry ML trim (with_body t b)) as [res r1] eqn:E.
  pose proof (read_entry_keeps ML _ _ _ _ (inv_from_reader t b) E) as I1.
  destruct (loop_text _ _ _ _ _ _ _ _ _ _ _ _ _ I1 H) as [H1 H2].
  destruct (H1 en') as (log & -> & F).
  { destruct Hx as [->|(pe & why & -> & ->)]; reflexivity. }
  exists log. split; auto. split; auto.
  intros pe why h w Q1 Q2. exact (H2 _ _ _ _ Q1 Q2 w eq_refl).
Qed.

(** What is kept of a field with headers [h] and content [c] that was saved completely.  [room] is what the
    check of the memory limit needs for a text (see C57). *)
Definition kept_well ML (s : saver) (dir : path) (hv : field_headers ML * saved) (hc : field_headers ML * bytes) : Prop :=
  let '(h, c) := hc in
  let v := snd hv in
  let fits := (N.of_nat (length c) <= N.min (s_size_limit s) (s_threshold s))%N in
  let room := (N.of_nat (length c + 3 * (length c / 497)) <= N.min (s_size_limit s) (s_threshold s))%N in
  let wanted := textual ML h /\ utf8_string c /\ s_policy s <> TIgnore in
  (fits -> v = SText c \/ v = SBytes c) /\
  (~ fits -> exists f, v = SFile (dir ++ [f]) (N.of_nat (length c))) /\
  (v = SText c -> wanted) /\ (room -> wanted -> v = SText c).

Lemma save_field_kind ML trim t b h r s en fuel g e v g1 r1 e1 c :
  at_field ML trim t b h r -> live t -> exact_chunks (delimiter b) t [c] -> s_opts s = default_opts ->
  (N.min (s_size_limit s) (s_threshold s) < U64MAX)%N -> (N.of_nat (length c) <= U64MAX)%N ->
  content (delimiter b) (rem r) c -> readable v (e_fs e1) = Some c ->
  save_field ML s h en fuel g r e = (Full v, g1, r1, e1) -> kept_well ML s (en_dir ML en) (h, v) (h, c).
Proof.
  intros Hf Hl Hns Ho Lm Lc Hc Rd H.
  pose proof (at_field_inv _ _ _ _ _ _ Hf) as I.
  destruct (save_field_text _ _ _ _ _ _ _ _ _ _ _ _ I H) as [_ T]. specialize (T v (or_introl eq_refl)).
  destruct (at_field_reached ML _ _ _ _ _ Hf) as (R0 & _).
  apply save_field_path in H as [_ H].
  set (s' := mkSaver (s_size_limit s) (s_count_limit s) (s_threshold s) (if is_text ML h then s_policy s else TIgnore) (s_opts s)) in H.
  unfold kept_well. cbv zeta. cbn [snd].
  split; [|split; [|split]].
  - intros F. destruct (C35_fits_partial _ _ _ _ _ _ s' _ _ _ _ _ _ _ Hf Hns Hc F H) as (_ & K & _).
    specialize (K _ eq_refl). destruct v as [w|w|]; simpl in Rd; try discriminate; injection Rd as ->; auto.
  - intros F. pose proof (C35_bound _ _ _ _ _ s' _ _ _ _ _ _ v R0 Lm H (or_introl eq_refl)) as K.
    destruct v as [w|w|p n]; [exfalso|exfalso|].
    1-2: simpl in Rd; injection Rd as ->; specialize (K eq_refl); simpl in K; apply F; exact K.
    destruct (full_ended s' _ _ _ _ _ _ _ I Ho H) as (w & Rw & _ & Sz). rewrite Rd in Rw. injection Rw as <-.
    exists (name_of g 0). f_equal; [|exact (Sz Lc)].
    apply with_path_cases in H as [(_ & d & M & _ & X)|(ob & r2 & b0 & M & _ & _ & _ & _ & B & H)]; auto; [simpl in X; tauto|].
    pose proof (moved_spec _ _ _ M I) as (J1 & _).
    apply save_disk_spec in H as (d & M1 & _ & _ & _ & [(_ & (k & K1) & _)|(w & St & Ew & Ev & _)]); auto; [discriminate|].
    now injection Ev.
  - intros ->. apply (T c eq_refl).
  - intros Rm (Tx & U & Np).
    assert (Ps : s_policy s' <> TIgnore).
    { unfold s', textual, is_text in *. cbn [s_policy]. destruct (fh_ctype ML h); [rewrite Tx|]; exact Np. }
    unfold with_path, save_text, try_copy_limited in H.
    match type of H with context [try_read_buf ?a ?b ?c ?d ?x] => destruct (try_read_buf a b c d x) as [[y w'] r'] eqn:E end.
    pose proof (text_room ML _ _ _ _ _ (mem_limit s' 0) Hf Hl fuel 0%N 0%N [] r c y w' r' Hns Hc (mv_refl r) U) as K.
    assert (Le : (0 + N.of_nat (shown_at_most c) <= mem_limit s' 0)%N).
    { unfold mem_limit, shown_at_most, s'. cbn [s_size_limit s_threshold]. lia. }
    specialize (K Le E). clear E.
    assert (G : match y with
                | Full _ => exists w, v = SText w
                | _ => False
                end).
    { destruct (s_policy s'); [| |congruence]; (destruct w' as [cp w']);
      destruct y as [n|n [| |z|]|z| |]; try tauto; try discriminate; injection H as <- _ _; eauto. }
    destruct y as [n|n [| |z|]|z| |]; try tauto; destruct G as [w ->]; simpl in Rd; congruence.
Qed.

Lemma loop_kinds ML trim t b s fuel : live t -> s_opts s = default_opts ->
  (N.min (s_size_limit s) (s_threshold s) < U64MAX)%N ->
  forall l res en g r e x g' r' e', exact_chunks (delimiter b) t (map snd l) -> inv r ->
  Forall (fun hc => (N.of_nat (length (snd hc)) <= U64MAX)%N) l ->
  next_state ML trim t b res r l -> entries_loop ML trim s fuel res en g r e = (x, g', r', e') ->
  forall en', got ML x = Some en' -> exists log d rest,
    en' = pushes ML en log /\ l = d ++ rest /\
    Forall2 (fun hv hc => fst hv = fst hc /\ readable (snd hv) (e_fs e') = Some (snd hc) /\ kept_well ML s (en_dir ML en) hv hc) log d /\
    (x = Full en' -> rest = []).
Proof.
  intros Hl Ho Lm. induction fuel as [|fuel IH]; intros l res en g r e x g' r' e' Hns I Hs Hst; cbn [entries_loop].
  { intros H; injection H as <- <- <- <-. discriminate. }
  assert (Stop : forall pe why, x = Part pe why -> pe_entries ML pe = en ->
    forall en', got ML x = Some en' -> exists log d rest,
    en' = pushes ML en log /\ l = d ++ rest /\
    Forall2 (fun hv hc => fst hv = fst hc /\ readable (snd hv) (e_fs e') = Some (snd hc) /\ kept_well ML s (en_dir ML en) hv hc) log d /\
    (x = Full en' -> rest = [])).
  { intros pe why -> E2 en' G. injection G as <-. rewrite E2.
    exists [], [], l. split; [reflexivity|]. split; [reflexivity|]. split; [constructor|discriminate]. }
  destruct (en_count ML en <? s_count_limit s)%N eqn:C.
  2: { intros H; injection H as <- <- <- <-. eapply Stop; reflexivity. }
  destruct res as [[h|]|y| |].
  2: { intros H; injection H as <- <- <- <-. intros en' G; injection G as <-. simpl in Hst. subst l.
       exists [], [], []. split; [reflexivity|]. split; [reflexivity|]. split; [constructor|auto]. }
  2: intros H; injection H as <- <- <- <-; eapply Stop; reflexivity.
  2-3: intros H; injection H as <- <- <- <-; discriminate.
  destruct (save_field ML s h en (S fuel) g r e) as [[[y g1] r1] e1] eqn:E.
  simpl in Hst. destruct Hst as (c & l' & -> & Hf & Hc & P).
  destruct y as [v|v why|y| |].
  2-3: intros H; injection H as <- <- <- <-; eapply Stop; reflexivity.
  2-3: intros H; injection H as <- <- <- <-; discriminate.
  inversion Hs as [|? ? S1 S2]; subst. cbn [snd] in S1.
  assert (Hns1 : exact_chunks (delimiter b) t [c]) by (eapply exact_head; exact Hns).
  destruct (save_step ML _ _ _ _ _ _ _ _ _ _ _ _ _ _ _ _ Hf Hl Hns1 Ho Hc P E) as (Rd & R1 & Sa & Z1 & P1).
  pose proof (save_field_kind _ _ _ _ _ _ _ _ _ _ _ _ _ _ _ _ Hf Hl Hns1 Ho Lm S1 Hc Rd E) as Kd.
  destruct (read_entry ML trim r1) as [res' r2] eqn:Re. intros H en' G.
  pose proof (reached_inv ML _ _ _ _ R1) as (I1 & _).
  pose proof (read_entry_keeps ML _ _ _ _ I1 Re) as I2.
  pose proof (read_entry_parts ML _ _ _ _ _ _ _ R1 Sa (or_intror Z1) Hl P1 Re) as Nx.
  pose proof (loop_touched ML _ _ _ Ho _ _ _ _ _ _ _ _ _ I2 H) as T.
  destruct (IH _ _ _ _ _ _ _ _ _ _ (exact_tail _ _ _ _ Hns) I2 S2 Nx H _ G) as (log & dn & rest & -> & -> & F & Q1).
  exists ((h, v) :: log), ((h, c) :: dn), rest. split; [reflexivity|]. split; [reflexivity|]. split; [|auto].
  constructor; auto. simpl. split; auto. split; auto. eapply readable_kept; eauto.
Qed.

(** Every field that was saved, whatever fails and however the request ends: contents within the memory limit are
    kept in memory, longer ones are in a file of the directory, with the right size; text is what the sender calls
    text and is UTF-8; and such contents, with room, are kept as text.  Missing: a text for which there is not the
    room that C57 asks for, which may be kept as bytes (C57_refuted), and a line end split between two reads (C03). *)
Theorem C84_kinds_partial : forall ML trim t b s fuel en g e x g' r' e' l en',
  live t -> exact_chunks (delimiter b) t (map snd l) -> s_opts s = default_opts ->
  (N.min (s_size_limit s) (s_threshold s) < U64MAX)%N ->
  Forall (fun hc => (N.of_nat (length (snd hc)) <= U64MAX)%N) l ->
  parts (head_block ML trim (delimiter b)) (delimiter b) (stream t) l ->
  with_entries ML trim s fuel en g (with_body t b) e = (x, g', r', e') ->
  (x = Full en' \/ exists pe why, x = Part pe why /\ en' = pe_entries ML pe) ->
  exists log d rest, en' = pushes ML (recount_fields ML en) log /\ l = d ++ rest /\
    Forall2 (fun hv hc => fst hv = fst hc /\ readable (snd hv) (e_fs e') = Some (snd hc) /\ kept_well ML s (en_dir ML en) hv hc) log d /\
    (x = Full en' -> rest = []).
Proof.
  intros ML trim t b s fuel en g e x g' r' e' l en' Hl Hns Ho Lm Hs P H Hx. unfold with_entries in H.
  destruct (read_entry ML trim (with_body t b)) as [res r1] eqn:E.
  assert (R0 : reached ML trim t b (with_body t b)) by (exists [], []; reflexivity).
  pose proof (read_entry_parts ML _ _ _ _ _ _ _ R0 ltac:(discriminate) (or_introl eq_refl) Hl P E) as Nx.
  pose proof (read_entry_keeps ML _ _ _ _ (inv_from_reader t b) E) as I1.
  apply (loop_kinds ML _ _ _ _ _ Hl Ho Lm _ _ _ _ _ _ _ _ _ _ Hns I1 Hs Nx H en').
  destruct Hx as [->|(pe & why & -> & ->)]; reflexivity.
Qed.

(** The same short content thrice: without a content type, as [text/plain] and as [image/png]; then contents that
    are not UTF-8, and contents longer than the memory limit. *)
Definition kind_head (name type : bytes) : bytes :=
  bs "Content-Disposition: form-data; name=""" ++ name ++ bs """" ++ CRLF ++ bs "Content-Type: " ++ type ++ CRLF ++ CRLF.
Definition kind_part (name type data : bytes) : bytes := bs "--b" ++ CRLF ++ kind_head name type ++ data ++ CRLF.

Definition kind_chunks : transport :=
  [Chunk (toy_part (bs "a") (bs "word") ++ kind_part (bs "b") (bs "text/plain") (bs "word") ++
          kind_part (bs "c") (bs "image/png") (bs "word") ++ toy_part (bs "d") [255; 254; 253; 252; 251]%N ++
          toy_part (bs "e") (repeat 120%N 1000) ++ toy_end)].

Definition kind_list : list (field_headers toy * bytes) :=
  [(mkFH toy (bs "a") None None, bs "word");
   (mkFH toy (bs "b") None (Some (bs "text/plain")), bs "word");
   (mkFH toy (bs "c") None (Some (bs "image/png")), bs "word");
   (mkFH toy (bs "d") None None, [255; 254; 253; 252; 251]%N);
   (mkFH toy (bs "e") None None, repeat 120%N 1000)].

Lemma kind_parts : parts (head_block toy true (delimiter (bs "b"))) (delimiter (bs "b")) (stream kind_chunks) kind_list.
Proof.
  apply parts_field with (pre := []) (x := toy_head (bs "a"))
    (rest := bs "word" ++ CRLF ++ bs "--b" ++ CRLF ++ kind_head (bs "b") (bs "text/plain") ++ bs "word" ++ CRLF ++ bs "--b" ++ CRLF ++ kind_head (bs "c") (bs "image/png") ++ bs "word" ++ CRLF ++ bs "--b" ++ CRLF ++ toy_head (bs "d") ++ [255; 254; 253; 252; 251]%N ++ CRLF ++ bs "--b" ++ CRLF ++ toy_head (bs "e") ++ repeat 120%N 1000 ++ CRLF ++ toy_end).
  { apply find_split; vm_compute; reflexivity. }
  { split; [|apply Nat.leb_le; vm_compute; reflexivity].
    eexists. split; [intros y; vm_compute; reflexivity|]. split; vm_compute; reflexivity. }
  { exists (toy_head (bs "a") ++ bs "word" ++ CRLF), (CRLF ++ kind_head (bs "b") (bs "text/plain") ++ bs "word" ++ CRLF ++ bs "--b" ++ CRLF ++ kind_head (bs "c") (bs "image/png") ++ bs "word" ++ CRLF ++ bs "--b" ++ CRLF ++ toy_head (bs "d") ++ [255; 254; 253; 252; 251]%N ++ CRLF ++ bs "--b" ++ CRLF ++ toy_head (bs "e") ++ repeat 120%N 1000 ++ CRLF ++ toy_end).
    split; [|left; reflexivity]. apply find_split; vm_compute; reflexivity. }
  apply parts_field with (pre := bs "word" ++ CRLF) (x := kind_head (bs "b") (bs "text/plain"))
    (rest := bs "word" ++ CRLF ++ bs "--b" ++ CRLF ++ kind_head (bs "c") (bs "image/png") ++ bs "word" ++ CRLF ++ bs "--b" ++ CRLF ++ toy_head (bs "d") ++ [255; 254; 253; 252; 251]%N ++ CRLF ++ bs "--b" ++ CRLF ++ toy_head (bs "e") ++ repeat 120%N 1000 ++ CRLF ++ toy_end).
  { apply find_split; vm_compute; reflexivity. }
  { split; [|apply Nat.leb_le; vm_compute; reflexivity].
    eexists. split; [intros y; vm_compute; reflexivity|]. split; vm_compute; reflexivity. }
  { exists (kind_head (bs "b") (bs "text/plain") ++ bs "word" ++ CRLF), (CRLF ++ kind_head (bs "c") (bs "image/png") ++ bs "word" ++ CRLF ++ bs "--b" ++ CRLF ++ toy_head (bs "d") ++ [255; 254; 253; 252; 251]%N ++ CRLF ++ bs "--b" ++ CRLF ++ toy_head (bs "e") ++ repeat 120%N 1000 ++ CRLF ++ toy_end).
    split; [|left; reflexivity]. apply find_split; vm_compute; reflexivity. }
  apply parts_field with (pre := bs "word" ++ CRLF) (x := kind_head (bs "c") (bs "image/png"))
    (rest := bs "word" ++ CRLF ++ bs "--b" ++ CRLF ++ toy_head (bs "d") ++ [255; 254; 253; 252; 251]%N ++ CRLF ++ bs "--b" ++ CRLF ++ toy_head (bs "e") ++ repeat 120%N 1000 ++ CRLF ++ toy_end).
  { apply find_split; vm_compute; reflexivity. }
  { split; [|apply Nat.leb_le; vm_compute; reflexivity].
    eexists. split; [intros y; vm_compute; reflexivity|]. split; vm_compute; reflexivity. }
  { exists (kind_head (bs "c") (bs "image/png") ++ bs "word" ++ CRLF), (CRLF ++ toy_head (bs "d") ++ [255; 254; 253; 252; 251]%N ++ CRLF ++ bs "--b" ++ CRLF ++ toy_head (bs "e") ++ repeat 120%N 1000 ++ CRLF ++ toy_end).
    split; [|left; reflexivity]. apply find_split; vm_compute; reflexivity. }
  apply parts_field with (pre := bs "word" ++ CRLF) (x := toy_head (bs "d"))
    (rest := [255; 254; 253; 252; 251]%N ++ CRLF ++ bs "--b" ++ CRLF ++ toy_head (bs "e") ++ repeat 120%N 1000 ++ CRLF ++ toy_end).
  { apply find_split; vm_compute; reflexivity. }
  { split; [|apply Nat.leb_le; vm_compute; reflexivity].
    eexists. split; [intros y; vm_compute; reflexivity|]. split; vm_compute; reflexivity. }
  { exists (toy_head (bs "d") ++ [255; 254; 253; 252; 251]%N ++ CRLF), (CRLF ++ toy_head (bs "e") ++ repeat 120%N 1000 ++ CRLF ++ toy_end).
    split; [|left; reflexivity]. apply find_split; vm_compute; reflexivity. }
  apply parts_field with (pre := [255; 254; 253; 252; 251]%N ++ CRLF) (x := toy_head (bs "e"))
    (rest := repeat 120%N 1000 ++ CRLF ++ toy_end).
  { apply find_split; vm_compute; reflexivity. }
  { split; [|apply Nat.leb_le; vm_compute; reflexivity].
    eexists. split; [intros y; vm_compute; reflexivity|]. split; vm_compute; reflexivity. }
  { exists (toy_head (bs "e") ++ repeat 120%N 1000 ++ CRLF), (DASHES ++ CRLF).
    split; [|left; reflexivity]. apply find_split; vm_compute; reflexivity. }
  apply parts_end with (pre := repeat 120%N 1000 ++ CRLF) (q := CRLF). apply find_split; vm_compute; reflexivity.
Qed.

Example C84_example :
  let s := mkSaver 5000 256 10 TTry default_opts in
  let e := no_failures (fun q => if path_eq_dec q [bs "d"] then Some NDir else None) in
  let '(x, _, _, _) := with_entries toy true s 200 (entries_new toy [bs "d"] false) (repeat 7%N 60) (with_body kind_chunks (bs "b")) e in
  live kind_chunks /\ exact_chunks (delimiter (bs "b")) kind_chunks (map snd kind_list) /\
  Forall (fun hc => (N.of_nat (length (snd hc)) <= U64MAX)%N) kind_list /\
  match x with
  | Full en => map (fun kl => map (sf_data toy) (snd kl)) (en_fields toy en) =
      [[SText (bs "word")]; [SText (bs "word")]; [SBytes (bs "word")]; [SBytes [255; 254; 253; 252; 251]%N];
       [SFile [bs "d"; repeat 72%N 12] 1000]]
  | _ => False
  end.
Proof.
  cbv zeta. match goal with |- let '_ := ?x in _ => let y := eval vm_compute in (fst (fst (fst x))) in
    assert (E : fst (fst (fst x)) = y) by (vm_compute; reflexivity); destruct x as [[[z g] r] e] end.
  cbn [fst] in E. subst z.
  split; [intros [H|[]]; discriminate|]. split.
  { left. intros t1 c t2 H. destruct t1 as [|e1 [|e2 t1]]; [|discriminate|discriminate].
    injection H as H _. apply (f_equal (fun l => List.last l 0%N)) in H. rewrite last_last in H. vm_compute in H. discriminate. }
  split; [repeat constructor; vm_compute; discriminate|]. vm_compute. reflexivity.
Qed.
