(** Property theorems about what a saved field becomes, for every chunking (C102). *)

From Verif Require Import Bytes BytesProofs Spec Io Boundary BoundaryProofs Utf8 Utf8Proofs Httparse Field FieldProofs
  ContentProofs DataProofs ShortProofs EntryProofs ReaderProofs Drive DriveProofs ReachProofs Toy PropsReader Rand Fs Save SaveProofs
  PhaseProofs SaveFacts TextProofs PropsSave EntriesProofs CompleteProofs PropsEntries PropsKinds.

(** ** Text that has room is not rejected, whatever the chunks *)

(** A fill shows all that is left, or all but a CRLF, or at least 500 bytes. *)
Lemma fill_pre ML trim t b h r0 w r x r1 p post :
  at_field ML trim t b h r0 -> live t -> first_split (delimiter b) (rem r0) (w ++ p) post ->
  moved r0 w r -> read_to_boundary r = (Ok x, r1) ->
  exists p', p = x ++ p' /\ (p' = [] \/ p' = CRLF \/ 500 <= length x).
Proof.
  intros Hf Hl Hc M E.
  destruct (moved_field ML _ _ _ _ _ _ _ Hf M) as (I & _ & S & B & L & Mb & _ & _ & Mn).
  pose proof (read_to_boundary_spec _ _ _ I E) as (I1 & R1 & B1 & M1 & L1 & _ & K1 & K2 & Ex & Fl & Se).
  assert (Hi : idx r1 <= length (buf r1)) by apply I1.
  pose proof (mv_take (idx r1) _ _ _ _ _ M E (Nat.le_refl _)) as M3. rewrite <- Ex in M3.
  destruct (moved_prefix ML _ _ _ _ _ _ _ _ _ Hf M3 Hc) as (p' & Ec & Hc').
  rewrite <- app_assoc in Ec. apply app_inv_head in Ec. exists p'. split; auto.
  pose proof (consume_spec (idx r1) r1 I1) as (I3 & R3 & B3 & _).
  assert (Hs : st r1 <> AtEnd).
  { destruct (st r) eqn:Sr; [now apply K2| |congruence]. destruct K1 as [-> _]; congruence. }
  destruct (st r1) eqn:S1; [| |congruence].
  - right. right. destruct (Se eq_refl) as [Ls No].
    destruct Fl as [Fl|[Fl|Fl]].
    + assert (1024 <= minb r) by (rewrite Mn; unfold MIN_BUF_SIZE; lia).
      assert (2 * length (bnd r) <= minb r).
      { destruct (moved_spec _ _ _ M) as (_ & _ & Q & _); [eapply at_field_inv; eauto|]. rewrite Mn, Q. lia. }
      rewrite Ex, firstn_length. lia.
    + exfalso. destruct Hc' as [Er _].
      assert (Er1 : rem r1 = x ++ p' ++ delimiter b ++ post).
      { rewrite <- Er, Ex, R3. f_equal. f_equal. lia. }
      unfold rem in Er1. rewrite Fl in Er1. cbn [stream] in Er1. rewrite app_nil_r in Er1.
      specialize (No (length (x ++ p'))). rewrite Er1, app_assoc, skipn_app, skipn_all, Nat.sub_diag in No.
      rewrite skipn_O, app_nil_l, B in No. assert (starts_with (delimiter b ++ post) (delimiter b) = true) by (apply sw_iff; eauto).
      congruence.
    + exfalso. exact (live_later _ _ L Hl Fl).
  - assert (Bc : bnd (consume (idx r1) r1) = delimiter b) by congruence.
    rewrite <- Bc in Hc'. apply boundary_read_split in Hc' as [->| ->]; auto. simpl. lia.
Qed.

Lemma text_room_any ML trim t b h r0 lim pre post : at_field ML trim t b h r0 -> live t ->
  first_split (delimiter b) (rem r0) pre post -> utf8_string pre -> (forall q, pre = q ++ CRLF -> utf8_string q) ->
  forall fuel total copied w r p x w' r',
  pre = w ++ p -> moved r0 w r -> utf8_string w ->
  (copied + N.of_nat (shown_at_most p) <= lim)%N ->
  try_read_buf (limited lim text_buf) fuel total (copied, w) r = (x, w', r') ->
  match x with Part _ RSize | Part _ RUtf8 | Part _ RCount => False | _ => True end.
Proof.
  intros Hf Hl Hc Up Uq. induction fuel as [|fuel IH]; intros total copied w r p x0 w' r' Ep M Uw Le.
  { intros H; injection H as <- _ _. exact Logic.I. }
  cbn [try_read_buf]. destruct (read_to_boundary r) as [y r1] eqn:E.
  destruct (moved_field ML _ _ _ _ _ _ _ Hf M) as (I & _ & Sx & B & L & Mb & _ & _ & Mn).
  pose proof (read_to_boundary_spec _ _ _ I E) as (I1 & R1 & B1 & M1 & L1 & _ & K1 & K2 & X).
  destruct y as [x|e| |]; try tauto.
  2: { destruct (iokind_eqb (berr_kind e) KInterrupted).
       - apply IH with (p := p); auto. eapply mv_fill; eauto.
       - destruct (total =? 0)%N; intros H; injection H as <- _ _; exact Logic.I. }
  destruct X as [Ex _].
  destruct x as [|z x].
  { intros H; injection H as <- _ _. exact Logic.I. }
  pose proof Hc as Hc0. rewrite Ep in Hc0.
  destruct (fill_pre ML _ _ _ _ _ _ _ _ _ _ _ Hf Hl Hc0 M E) as (p' & E1 & Lx). subst p.
  assert (U : utf8_string ((z :: x) ++ p')) by (apply (utf8_cancel w); auto; rewrite <- Ep; auto).
  assert (Ux : p' = [] \/ p' = CRLF -> utf8_string (z :: x)).
  { intros [-> | ->]; [now rewrite app_nil_r in U|]. apply (utf8_cancel w); auto. apply Uq. now rewrite Ep, app_assoc. }
  remember (z :: x) as y eqn:Ey. assert (Ny : 0 < length y) by (rewrite Ey; simpl; lia).
  unfold limited at 1. unfold shown_at_most in *. rewrite app_length in Le.
  destruct (lim <? sat_add copied (N.of_nat (length y)))%N eqn:Lim.
  { exfalso. apply N.ltb_lt in Lim. unfold sat_add in Lim. lia. }
  destruct (utf8_buffer _ _ U) as (V1 & V2 & V3).
  assert (Take : forall n, n <= length y -> moved r0 (w ++ firstn n y) (consume n r1)).
  { intros n Hn. assert (length y <= idx r1) by (rewrite Ex, firstn_length; lia).
    replace (firstn n y) with (firstn n (buf r1)) by (rewrite Ex, firstn_firstn; f_equal; lia).
    eapply mv_take; eauto; lia. }
  assert (Step : forall n, n <= length y -> 0 < n -> (length y <= n \/ (497 <= n /\ length y <= n + 3)) -> utf8_string (firstn n y) ->
    try_read_buf (limited lim text_buf) fuel (total + N.of_nat n) (sat_add copied (N.of_nat (length y)), w ++ firstn n y)
        (consume n r1) = (x0, w', r') ->
    match x0 with Part _ RSize | Part _ RUtf8 | Part _ RCount => False | _ => True end).
  { intros n Hn N0 N2 Hu. apply IH with (p := skipn n y ++ p'); auto.
    - now rewrite <- app_assoc, (app_assoc (firstn n y)), firstn_skipn.
    - now apply utf8_app.
    - unfold sat_add. rewrite app_length, skipn_length.
      replace (length y - n + length p') with (length y + length p' - n) by lia.
      destruct N2 as [N2|[N2 N3]].
      + pose proof (shown_less (length y + length p') n). lia.
      + pose proof (shown_step (length y + length p') n). lia. }
  unfold text_buf at 1. destruct (valid_utf8 y) eqn:V.
  { specialize (Step (length y) ltac:(lia) ltac:(lia) ltac:(lia)). rewrite firstn_all in Step. apply Step.
    now apply valid_utf8_iff. }
  assert (L5 : 500 <= length y).
  { destruct Lx as [Lx|[Lx|Lx]]; [exfalso|exfalso|exact Lx];
    [specialize (Ux (or_introl Lx))|specialize (Ux (or_intror Lx))]; apply valid_utf8_iff in Ux; congruence. }
  destruct (length y <? 4) eqn:L4; [apply Nat.ltb_lt in L4; lia|].
  apply Step; auto; try lia. apply valid_prefix_utf8.
Qed.

(** ** One field *)

(** What is kept of a field with headers [h] and content [c]: [w], which is [c] with at most a CRLF. *)
Definition kept_any ML (s : saver) (dir : path) (f : fs) (hv : field_headers ML * saved) (hc : field_headers ML * bytes) : Prop :=
  let '(h, c) := hc in
  let v := snd hv in
  let lim := N.min (s_size_limit s) (s_threshold s) in
  fst hv = h /\ exists w, readable v f = Some w /\ padded c w /\
  ((v = SText w \/ v = SBytes w) /\ (N.of_nat (length w) <= lim)%N \/ exists n, v = SFile (dir ++ [n]) (N.of_nat (length w))) /\
  ((N.of_nat (length c + 2) <= lim)%N -> v = SText w \/ v = SBytes w) /\
  (v = SText w -> textual ML h /\ utf8_string w /\ s_policy s <> TIgnore) /\
  ((N.of_nat (length c + 2 + 3 * ((length c + 2) / 497)) <= lim)%N -> textual ML h -> utf8_string c -> s_policy s <> TIgnore -> v = SText w).

Lemma save_field_kind_any ML trim t b h r s en fuel g e v g1 r1 e1 c w :
  at_field ML trim t b h r -> live t -> s_opts s = default_opts ->
  (N.min (s_size_limit s) (s_threshold s) < U64MAX)%N -> (N.of_nat (length c + 2) <= U64MAX)%N ->
  content (delimiter b) (rem r) c -> readable v (e_fs e1) = Some w -> padded c w ->
  save_field ML s h en fuel g r e = (Full v, g1, r1, e1) -> kept_any ML s (en_dir ML en) (e_fs e1) (h, v) (h, c).
Proof.
  intros Hf Hl Ho Lm Lc Hc Rd Pw H.
  pose proof (at_field_inv _ _ _ _ _ _ Hf) as I.
  destruct (save_field_text _ _ _ _ _ _ _ _ _ _ _ _ I H) as [_ T]. specialize (T v (or_introl eq_refl)).
  destruct (at_field_reached ML _ _ _ _ _ Hf) as (R0 & _).
  apply save_field_path in H as [_ H].
  set (s' := mkSaver (s_size_limit s) (s_count_limit s) (s_threshold s) (if is_text ML h then s_policy s else TIgnore) (s_opts s)) in H.
  assert (Lw : length w <= length c + 2) by (destruct Pw as [->| ->]; [lia|rewrite app_length; cbn; lia]).
  pose proof Hc as (pre & post & FS & FC).
  pose proof (content_padded _ _ _ _ _ _ Hc FS (or_introl eq_refl)) as Pp.
  assert (Lp : length pre <= length c + 2) by (destruct Pp as [->| ->]; [lia|rewrite app_length; cbn; lia]).
  unfold kept_any. cbv zeta. cbn [fst snd]. split; [reflexivity|]. exists w. split; auto. split; auto.
  split; [|split; [|split]].
  - pose proof (C35_bound _ _ _ _ _ s' _ _ _ _ _ _ v R0 Lm H (or_introl eq_refl)) as K.
    destruct v as [u|u|p n]; [left|left|right].
    1-2: simpl in Rd; injection Rd as ->; specialize (K eq_refl); simpl in K; split; [auto|exact K].
    destruct (full_ended s' _ _ _ _ _ _ _ I Ho H) as (u & Rw & _ & Sz). rewrite Rd in Rw. injection Rw as <-.
    exists (name_of g 0). f_equal; [|apply Sz; lia].
    apply with_path_cases in H as [(_ & d & M & _ & X)|(ob & r2 & b0 & M & _ & _ & _ & _ & B & H)]; auto; [simpl in X; tauto|].
    pose proof (moved_spec _ _ _ M I) as (J1 & _).
    apply save_disk_spec in H as (d & M1 & _ & _ & _ & [(_ & (k & K1) & _)|(u & St & Ew & Ev & _)]); auto; [discriminate|].
    now injection Ev.
  - intros F.
    assert (F' : (N.of_nat (length pre) <= N.min (s_size_limit s') (s_threshold s'))%N).
    { unfold s'. cbn [s_size_limit s_threshold]. lia. }
    destruct (C35_fits_any_chunking_partial _ _ _ _ _ _ s' _ _ _ _ _ _ pre post Hf FS F' H) as (_ & K & _).
    specialize (K _ eq_refl). destruct v as [u|u|]; simpl in Rd; try discriminate; injection Rd as ->; auto.
  - intros ->. apply (T w eq_refl).
  - intros Rm Tx U Np.
    assert (Ps : s_policy s' <> TIgnore).
    { unfold s', textual, is_text in *. cbn [s_policy]. destruct (fh_ctype ML h); [rewrite Tx|]; exact Np. }
    assert (Uc : utf8_string CRLF) by (apply valid_utf8_iff; reflexivity).
    assert (Up : utf8_string pre) by (destruct Pp as [->| ->]; auto; now apply utf8_app).
    assert (Uq : forall q, pre = q ++ CRLF -> utf8_string q).
    { intros q E. replace q with c; auto. destruct FC as [Q|[Q Nq]].
      - rewrite Q in E. now apply app_inv_tail in E.
      - exfalso. apply (Nq q). exact E. }
    unfold with_path, save_text, try_copy_limited in H.
    match type of H with context [try_read_buf ?a ?b ?c ?d ?x] => destruct (try_read_buf a b c d x) as [[y w'] r'] eqn:E end.
    pose proof (text_room_any ML _ _ _ _ _ (mem_limit s' 0) _ _ Hf Hl FS Up Uq fuel 0%N 0%N [] r pre y w' r' eq_refl (mv_refl r)) as K.
    assert (U0 : utf8_string []) by (apply valid_utf8_iff; reflexivity).
    assert (Le : (0 + N.of_nat (shown_at_most pre) <= mem_limit s' 0)%N).
    { unfold mem_limit, shown_at_most, s'. cbn [s_size_limit s_threshold].
      pose proof (Nat.div_le_mono (length pre) (length c + 2) 497 ltac:(lia) Lp). lia. }
    specialize (K U0 Le E). clear E.
    assert (G : match y with
                | Full _ => exists w, v = SText w
                | _ => False
                end).
    { destruct (s_policy s'); [| |congruence]; (destruct w' as [cp w']);
      destruct y as [n|n [| |z|]|z| |]; try tauto; try discriminate; injection H as <- _ _; eauto. }
    destruct y as [n|n [| |z|]|z| |]; try tauto; destruct G as [u ->]; simpl in Rd; congruence.
Qed.

Lemma kept_later ML s dir d g f f' hv hc : touched d g f f' -> kept_any ML s dir (e_fs f) hv hc -> kept_any ML s dir (e_fs f') hv hc.
Proof.
  intros T. destruct hc as [h c]. intros (E & w & Rd & K). split; auto. exists w. split; auto. eapply readable_kept; eauto.
Qed.

Lemma loop_kinds_any ML trim t b s fuel : live t -> s_opts s = default_opts ->
  (N.min (s_size_limit s) (s_threshold s) < U64MAX)%N ->
  forall l res en g r e x g' r' e', inv r ->
  Forall (fun hc => (N.of_nat (length (snd hc) + 2) <= U64MAX)%N) l ->
  next_state ML trim t b res r l -> entries_loop ML trim s fuel res en g r e = (x, g', r', e') ->
  forall en', got ML x = Some en' -> exists log d rest,
    en' = pushes ML en log /\ l = d ++ rest /\ Forall2 (kept_any ML s (en_dir ML en) (e_fs e')) log d /\ (x = Full en' -> rest = []).
Proof.
  intros Hl Ho Lm. induction fuel as [|fuel IH]; intros l res en g r e x g' r' e' I Hs Hst; cbn [entries_loop].
  { intros H; injection H as <- <- <- <-. discriminate. }
  assert (Stop : forall pe why, x = Part pe why -> pe_entries ML pe = en ->
    forall en', got ML x = Some en' -> exists log d rest,
    en' = pushes ML en log /\ l = d ++ rest /\ Forall2 (kept_any ML s (en_dir ML en) (e_fs e')) log d /\ (x = Full en' -> rest = [])).
  { intros pe why -> E2 en' G. injection G as <-. rewrite E2.
    exists [], [], l. split; [reflexivity|]. split; [reflexivity|]. split; [constructor|discriminate]. }
  destruct (en_count ML en <? s_count_limit s)%N eqn:C.
  2: { intros H; injection H as <- <- <- <-. eapply Stop; reflexivity. }
  destruct res as [[h|]|y| |].
  2: { intros H; injection H as <- <- <- <-. intros en' G; injection G as <-. simpl in Hst. subst l.
       exists [], [], []. split; [reflexivity|]. split; [reflexivity|]. split; [constructor|auto]. }
  2: intros H; injection H as <- <- <- <-; eapply Stop; reflexivity.
  2-3: intros H; injection H as <- <- <- <-; discriminate.
  destruct (save_field ML s h en (S fuel) g r e) as [[[y g1] r1] e1] eqn:E.
  simpl in Hst. destruct Hst as (c & l' & -> & Hf & Hc & P).
  destruct y as [v|v why|y| |].
  2-3: intros H; injection H as <- <- <- <-; eapply Stop; reflexivity.
  2-3: intros H; injection H as <- <- <- <-; discriminate.
  inversion Hs as [|? ? S1 S2]; subst. cbn [snd] in S1.
  destruct (save_step_any ML _ _ _ _ _ _ _ _ _ _ _ _ _ _ _ _ Hf Hl Ho Hc P E) as ((w & Rd & Pw & _) & R1 & Sa & Z1 & P1).
  pose proof (save_field_kind_any _ _ _ _ _ _ _ _ _ _ _ _ _ _ _ _ _ Hf Hl Ho Lm S1 Hc Rd Pw E) as Kd.
  destruct (read_entry ML trim r1) as [res' r2] eqn:Re. intros H en' G.
  pose proof (reached_inv ML _ _ _ _ R1) as (I1 & _).
  pose proof (read_entry_keeps ML _ _ _ _ I1 Re) as I2.
  pose proof (read_entry_parts ML _ _ _ _ _ _ _ R1 Sa (or_intror Z1) Hl P1 Re) as Nx.
  pose proof (loop_touched ML _ _ _ Ho _ _ _ _ _ _ _ _ _ I2 H) as T.
  destruct (IH _ _ _ _ _ _ _ _ _ _ I2 S2 Nx H _ G) as (log & dn & rest & -> & -> & F & Q1).
  exists ((h, v) :: log), ((h, c) :: dn), rest. split; [reflexivity|]. split; [reflexivity|]. split; [|auto].
  constructor; auto. eapply kept_later; eauto.
Qed.

(** ** C102 *)

(** Every field that was saved, whatever the chunks, whatever fails and however the request ends: it is kept in
    memory if it leaves two bytes of room in the memory limit; what is kept in memory is within the limit; all others are in a
    file of the directory and the size recorded is that of the file; text is what the sender calls text and is UTF-8; and such contents, with
    room, are kept as text. *)
Theorem C102_kinds : forall ML trim t b s fuel en g e x g' r' e' l en',
  live t -> s_opts s = default_opts ->
  (N.min (s_size_limit s) (s_threshold s) < U64MAX)%N ->
  Forall (fun hc => (N.of_nat (length (snd hc) + 2) <= U64MAX)%N) l ->
  parts (head_block ML trim (delimiter b)) (delimiter b) (stream t) l ->
  with_entries ML trim s fuel en g (with_body t b) e = (x, g', r', e') ->
  (x = Full en' \/ exists pe why, x = Part pe why /\ en' = pe_entries ML pe) ->
  exists log d rest, en' = pushes ML (recount_fields ML en) log /\ l = d ++ rest /\
    Forall2 (kept_any ML s (en_dir ML en) (e_fs e')) log d /\ (x = Full en' -> rest = []).
Proof.
  intros ML trim t b s fuel en g e x g' r' e' l en' Hl Ho Lm Hs P H Hx. unfold with_entries in H.
  destruct (read_entry ML trim (with_body t b)) as [res r1] eqn:E.
  assert (R0 : reached ML trim t b (with_body t b)) by (exists [], []; reflexivity).
  pose proof (read_entry_parts ML _ _ _ _ _ _ _ R0 ltac:(discriminate) (or_introl eq_refl) Hl P E) as Nx.
  pose proof (read_entry_keeps ML _ _ _ _ (inv_from_reader t b) E) as I1.
  apply (loop_kinds_any ML _ _ _ _ _ Hl Ho Lm _ _ _ _ _ _ _ _ _ _ I1 Hs Nx H en').
  destruct Hx as [->|(pe & why & -> & ->)]; reflexivity.
Qed.

(** The CRLF after each of the two long contents is divided: the first one has just room as text, the second one does not
    fit in memory, and both are kept with the CRLF. *)
Definition any_chunks : transport :=
  [Chunk (bs "--b" ++ CRLF ++ toy_head (bs "a") ++ bs "word" ++ CRLF ++ bs "--b" ++ CRLF ++ toy_head (bs "b") ++ repeat 120%N 1200 ++ [CR]);
   Chunk ([LF] ++ bs "--b" ++ CRLF ++ toy_head (bs "c") ++ repeat 121%N 1300 ++ [CR]); Chunk ([LF] ++ toy_end)].

Definition any_list : list (field_headers toy * bytes) :=
  [(mkFH toy (bs "a") None None, bs "word"); (mkFH toy (bs "b") None None, repeat 120%N 1200); (mkFH toy (bs "c") None None, repeat 121%N 1300)].

Example C102_example :
  let s := mkSaver 5000 256 1208 TTry default_opts in
  let e := no_failures (fun q => if path_eq_dec q [bs "d"] then Some NDir else None) in
  let '(x, _, _, _) := with_entries toy true s 200 (entries_new toy [bs "d"] false) (repeat 7%N 60) (with_body any_chunks (bs "b")) e in
  live any_chunks /\ Forall (fun hc => (N.of_nat (length (snd hc) + 2) <= U64MAX)%N) any_list /\
  match x with
  | Full en => map (fun kl => map (sf_data toy) (snd kl)) (en_fields toy en) =
      [[SText (bs "word")]; [SText (repeat 120%N 1200 ++ CRLF)]; [SFile [bs "d"; repeat 72%N 12] 1302]]
  | _ => False
  end.
Proof.
  cbv zeta. match goal with |- let '_ := ?x in _ => let y := eval vm_compute in (fst (fst (fst x))) in
    assert (E : fst (fst (fst x)) = y) by (vm_compute; reflexivity); destruct x as [[[z g] r] e] end.
  cbn [fst] in E. subst z.
  split; [intros [H|[H|[H|[]]]]; discriminate|].
  split; [repeat constructor; vm_compute; discriminate|]. vm_compute. reflexivity.
Qed.

Example C102_parts_example : parts (head_block toy true (delimiter (bs "b"))) (delimiter (bs "b")) (stream any_chunks) any_list.
Proof.
  assert (Q : stream any_chunks = bs "--b" ++ CRLF ++ toy_head (bs "a") ++ bs "word" ++ CRLF ++ bs "--b" ++ CRLF ++ toy_head (bs "b") ++
    repeat 120%N 1200 ++ CRLF ++ bs "--b" ++ CRLF ++ toy_head (bs "c") ++ repeat 121%N 1300 ++ CRLF ++ toy_end) by (vm_compute; reflexivity).
  rewrite Q. clear Q. unfold any_list.
  apply parts_field with (pre := []) (x := toy_head (bs "a"))
    (rest := bs "word" ++ CRLF ++ bs "--b" ++ CRLF ++ toy_head (bs "b") ++ repeat 120%N 1200 ++ CRLF ++ bs "--b" ++ CRLF ++ toy_head (bs "c") ++ repeat 121%N 1300 ++ CRLF ++ toy_end).
  { apply find_split; vm_compute; reflexivity. }
  { split; [|apply Nat.leb_le; vm_compute; reflexivity].
    eexists. split; [intros y; vm_compute; reflexivity|]. split; vm_compute; reflexivity. }
  { exists (toy_head (bs "a") ++ bs "word" ++ CRLF), (CRLF ++ toy_head (bs "b") ++ repeat 120%N 1200 ++ CRLF ++ bs "--b" ++ CRLF ++ toy_head (bs "c") ++ repeat 121%N 1300 ++ CRLF ++ toy_end).
    split; [|left; reflexivity]. apply find_split; vm_compute; reflexivity. }
  apply parts_field with (pre := bs "word" ++ CRLF) (x := toy_head (bs "b"))
    (rest := repeat 120%N 1200 ++ CRLF ++ bs "--b" ++ CRLF ++ toy_head (bs "c") ++ repeat 121%N 1300 ++ CRLF ++ toy_end).
  { apply find_split; vm_compute; reflexivity. }
  { split; [|apply Nat.leb_le; vm_compute; reflexivity].
    eexists. split; [intros y; vm_compute; reflexivity|]. split; vm_compute; reflexivity. }
  { exists (toy_head (bs "b") ++ repeat 120%N 1200 ++ CRLF), (CRLF ++ toy_head (bs "c") ++ repeat 121%N 1300 ++ CRLF ++ toy_end).
    split; [|left; reflexivity]. apply find_split; vm_compute; reflexivity. }
  apply parts_field with (pre := repeat 120%N 1200 ++ CRLF) (x := toy_head (bs "c"))
    (rest := repeat 121%N 1300 ++ CRLF ++ toy_end).
  { apply find_split; vm_compute; reflexivity. }
  { split; [|apply Nat.leb_le; vm_compute; reflexivity].
    eexists. split; [intros y; vm_compute; reflexivity|]. split; vm_compute; reflexivity. }
  { exists (toy_head (bs "c") ++ repeat 121%N 1300 ++ CRLF), (DASHES ++ CRLF).
    split; [|left; reflexivity]. apply find_split; vm_compute; reflexivity. }
  apply parts_end with (pre := repeat 121%N 1300 ++ CRLF) (q := CRLF). apply find_split; vm_compute; reflexivity.
Qed.
