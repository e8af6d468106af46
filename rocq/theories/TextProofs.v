(** The text phase of saving: valid UTF-8 that fits is saved as text. *)

From Verif Require Import Bytes BytesProofs Spec Io Boundary BoundaryProofs Utf8 Utf8Proofs Httparse Field FieldProofs
  ContentProofs DataProofs ShortProofs EntryProofs ReaderProofs Drive DriveProofs ReachProofs Rand Fs Save SaveProofs PhaseProofs SaveFacts.

(** * UTF-8 and buffer borders *)

Lemma encode_length c : scalar c -> length (encode_char c) <= 4 /\ 0 < length (encode_char c).
Proof.
  intros _. unfold encode_char.
  destruct (c <? 128)%N; [simpl; lia|]. destruct (c <? 2048)%N; [simpl; lia|]. destruct (c <? 65536)%N; simpl; lia.
Qed.

(** A prefix of a valid string is valid up to at most three bytes of a cut character. *)
Lemma utf8_cut cs : Forall scalar cs -> forall b c, b ++ c = concat (map encode_char cs) ->
  exists p q, b = p ++ q /\ length q < 4 /\ utf8_string p /\ utf8_string (q ++ c).
Proof.
  induction 1 as [|x cs Hx Hcs IH]; intros b c E.
  - simpl in E. apply app_eq_nil in E as [-> ->]. exists [], []. simpl. repeat split; auto using utf8_string_nil; lia.
  - simpl in E. destruct (Nat.lt_ge_cases (length b) (length (encode_char x))) as [L|L].
    + exists [], b. simpl. pose proof (encode_length x Hx). split; auto. split; [lia|]. split; [apply utf8_string_nil|].
      exists (x :: cs). split; auto.
    + assert (Eb : b = encode_char x ++ skipn (length (encode_char x)) b).
      { rewrite <- (firstn_skipn (length (encode_char x)) b) at 1. f_equal.
        apply (f_equal (firstn (length (encode_char x)))) in E.
        rewrite firstn_app, firstn_app, firstn_all, Nat.sub_diag, firstn_O, app_nil_r in E.
        replace (length (encode_char x) - length b) with 0 in E by lia. now rewrite firstn_O, app_nil_r in E. }
      set (b' := skipn (length (encode_char x)) b) in *. rewrite Eb, <- app_assoc in E. apply app_inv_head in E.
      destruct (IH _ _ E) as (p & q & -> & L4 & Up & Uq). exists (encode_char x ++ p), q.
      rewrite <- app_assoc. split; auto. split; auto. split; auto. apply utf8_string_app; auto.
      exists [x]. split; [auto|]. simpl. now rewrite app_nil_r.
Qed.

Lemma utf8_cancel p q : utf8_string p -> utf8_string (p ++ q) -> utf8_string q.
Proof.
  intros (cs & H & ->) U. apply valid_utf8_iff in U. apply valid_utf8_iff. unfold valid_utf8 in *.
  apply Nat.eqb_eq in U. rewrite utf8_prefix_valid, app_length in U; auto. apply Nat.eqb_eq. lia.
Qed.

Lemma utf8_buffer b c : utf8_string (b ++ c) ->
  length b < valid_up_to b + 4 /\ valid_up_to b <= length b /\ utf8_string (skipn (valid_up_to b) b ++ c).
Proof.
  intros (cs & H & E). destruct (utf8_cut cs H b c E) as (p & q & -> & L & Up & Uq).
  pose proof (valid_up_to_longest (p ++ q) p q eq_refl Up) as Lp.
  split; [rewrite app_length; lia|]. split; [apply valid_up_to_le|].
  apply (utf8_cancel (firstn (valid_up_to (p ++ q)) (p ++ q))); [apply valid_prefix_utf8|].
  rewrite app_assoc, firstn_skipn. exists cs. auto.
Qed.

(** * Fills are long unless the field ends *)

Lemma boundary_read_split r pre post : inv r -> st r = BoundaryRead -> idx r = 0 ->
  first_split (bnd r) (rem r) pre post -> pre = [] \/ pre = CRLF.
Proof.
  intros (HD & _ & I) S X FS. rewrite S, X in I. destruct I as (p & (Lp & Sp & Cp) & Np).
  pose proof (first_split_at _ _ _ _ FS) as Sf. destruct FS as [Er Mi].
  assert (Le : length pre <= p).
  { apply Mi. apply occurs_at_sw'; [now apply dashed_nonnil|]. unfold rem. rewrite skipn_app.
    replace (p - length (buf r)) with 0 by lia. now apply sw_app. }
  assert (Ge : p <= length pre).
  { destruct (Nat.le_gt_cases p (length pre)) as [|L]; auto. rewrite (Np _ L) in Sf. discriminate. }
  destruct Cp as [->|[-> Cc]].
  - left. destruct pre; auto. simpl in Le. lia.
  - right. apply sw_iff in Cc as [t Ht]. simpl in Ht, Le, Ge. unfold rem in Er. rewrite Ht in Er.
    destruct pre as [|x [|y [|z pre]]]; simpl in Le, Ge; try lia. simpl in Er. injection Er as <- <- _. reflexivity.
Qed.

(** With a steady transport a failing fill was interrupted, and uses up part of the transport. *)
Lemma steady_fill r e r1 : inv r -> steady (src r) -> read_to_boundary r = (Err e, r1) ->
  iokind_eqb (berr_kind e) KInterrupted = true /\ length (src r1) < length (src r).
Proof.
  intros I Hq E. pose proof (read_to_boundary_spec _ _ _ I E) as (_ & _ & _ & _ & _ & _ & _ & _ & k & -> & Hk & _).
  cbn [berr_kind]. rewrite (Hq _ Hk). split; [reflexivity|].
  revert E. unfold read_to_boundary. destruct (fill_buf (minb r) (buf r) (src r)) as [[e b] t] eqn:F.
  apply fill_buf_spec in F as (c & used & _ & Es & _ & _ & Hf). destruct e as [k'|].
  - intros H; injection H as _ <-. simpl. rewrite Es, app_length. specialize (Hf _ eq_refl).
    destruct used; [destruct Hf|simpl; lia].
  - destruct (st r); [destruct (search_step _ _ _) as [[? ?]|]|destruct (_ <? _)|destruct (_ <? _)]; discriminate.
Qed.

Section WithMime.
Context (ML : mime_lib).

(** One fill in the middle of a field: what is returned begins the content; it is the rest of the content
    or at least 500 bytes. *)
Lemma fill_content trim t b h r0 w r x r1 c :
  at_field ML trim t b h r0 -> live t -> exact_chunks (delimiter b) t [w ++ c] -> content (delimiter b) (rem r0) (w ++ c) ->
  moved r0 w r -> read_to_boundary r = (Ok x, r1) ->
  exists c', c = x ++ c' /\ (c' = [] \/ 500 <= length x).
Proof.
  intros Hf Hl Hns Hc M E.
  destruct (moved_field ML _ _ _ _ _ _ _ Hf M) as (I & _ & S & B & L & Mb & _ & _ & Mn).
  pose proof (read_to_boundary_spec _ _ _ I E) as (I1 & R1 & B1 & M1 & L1 & _ & K1 & K2 & Ex & Fl & Se).
  pose proof (mv_fill _ _ _ _ _ M E) as M2.
  assert (Hi : idx r1 <= length (buf r1)) by apply I1.
  pose proof (mv_take (idx r1) _ _ _ _ _ M E (Nat.le_refl _)) as M3. rewrite <- Ex in M3.
  destruct (moved_content ML _ _ _ _ _ _ _ _ Hf Hns M3 Hc) as (c' & Ec & Hc').
  rewrite <- app_assoc in Ec. apply app_inv_head in Ec. exists c'. split; auto.
  pose proof (consume_spec (idx r1) r1 I1) as (I3 & R3 & B3 & _).
  assert (Hs : st r1 <> AtEnd).
  { destruct (st r) eqn:Sr; [now apply K2| |congruence]. destruct K1 as [-> _]; congruence. }
  destruct (st r1) eqn:S1; [| |congruence].
  - right. destruct (Se eq_refl) as [Ls No].
    destruct Fl as [Fl|[Fl|Fl]].
    + assert (1024 <= minb r) by (rewrite Mn; unfold MIN_BUF_SIZE; lia).
      assert (2 * length (bnd r) <= minb r).
      { destruct (moved_spec _ _ _ M) as (_ & _ & Q & _); [eapply at_field_inv; eauto|]. rewrite Mn, Q. lia. }
      rewrite Ex, firstn_length. lia.
    + exfalso. destruct Hc' as (pre & post & FS & _). destruct FS as [Er _].
      assert (Er1 : rem r1 = x ++ pre ++ delimiter b ++ post).
      { rewrite <- Er, Ex, R3. f_equal. f_equal. lia. }
      unfold rem in Er1. rewrite Fl in Er1. cbn [stream] in Er1. rewrite app_nil_r in Er1.
      specialize (No (length (x ++ pre))). rewrite Er1, app_assoc, skipn_app, skipn_all, Nat.sub_diag in No.
      rewrite skipn_O, app_nil_l, B in No. assert (starts_with (delimiter b ++ post) (delimiter b) = true) by (apply sw_iff; eauto).
      congruence.
    + exfalso. exact (live_later _ _ L Hl Fl).
  - left. assert (Bc : bnd (consume (idx r1) r1) = delimiter b) by congruence.
    rewrite <- Bc in Hc'. eapply content_end; eauto. intros pre post.
    apply boundary_read_split; auto. simpl. lia.
Qed.

(** The most bytes that the text phase counts against its limit for a content: a fill of the buffer shows at
    least 500 bytes or all that is left, and up to three bytes at its end are shown again. *)
Definition shown_at_most (c : bytes) : nat := length c + 3 * (length c / 497).

Lemma shown_less a n : n <= a -> (a - n) / 497 <= a / 497.
Proof. intros H. apply Nat.div_le_mono; lia. Qed.

Lemma shown_step a n : 497 <= n -> n <= a -> (a - n) / 497 + 1 <= a / 497.
Proof.
  intros H1 H2. replace ((a - n) / 497 + 1) with ((a - n + 1 * 497) / 497) by (apply Nat.div_add; lia).
  apply Nat.div_le_mono; lia.
Qed.

Lemma text_full trim t b h r0 lim : at_field ML trim t b h r0 -> live t -> steady t ->
  forall fuel total copied w r c,
  exact_chunks (delimiter b) t [w ++ c] -> content (delimiter b) (rem r0) (w ++ c) -> moved r0 w r -> utf8_string c ->
  (copied + N.of_nat (shown_at_most c) <= lim)%N -> length c + length (src r) < fuel ->
  exists cp r', try_read_buf (limited lim text_buf) fuel total (copied, w) r
                = (Full (total + N.of_nat (length c))%N, (cp, w ++ c), r').
Proof.
  intros Hf Hl Hq. induction fuel as [|fuel IH]; intros total copied w r c Hns Hc M U Le Lf; [lia|].
  cbn [try_read_buf]. destruct (read_to_boundary r) as [y r1] eqn:E.
  destruct (moved_field ML _ _ _ _ _ _ _ Hf M) as (I & _ & S & B & L & Mb & _ & _ & Mn).
  pose proof (read_to_boundary_spec _ _ _ I E) as (I1 & R1 & B1 & M1 & L1 & _ & K1 & K2 & X).
  destruct y as [x|e| |]; try tauto.
  2: { destruct (steady_fill _ _ _ I (steady_later _ _ L Hq) E) as [-> Ls].
       apply (IH total copied w r1 c); auto; [eapply mv_fill; eauto|lia]. }
  assert (Ls : length (src r1) <= length (src r)) by (destruct L1 as [u ->]; rewrite app_length; lia).
  destruct X as [Ex _].
  destruct x as [|x0 x].
  { assert (c = []) as ->.
    { pose proof (read_empty _ _ _ I S Nat.lt_0_1 (fill_empty_read _ _ E) (live_later _ _ L Hl) Mb) as (Z & _).
      destruct (moved_content ML _ _ _ _ _ _ _ _ Hf Hns M Hc) as (c' & Ec & Hc'). apply app_inv_head in Ec. subst c'.
      rewrite B in Z. exact (content_end _ _ _ Hc' Z). }
    exists copied, r1. simpl. now rewrite N.add_0_r, app_nil_r. }
  destruct (fill_content _ _ _ _ _ _ _ _ _ _ Hf Hl Hns Hc M E) as (c' & -> & Lx).
  remember (x0 :: x) as y eqn:Ey. assert (Ny : 0 < length y) by (rewrite Ey; simpl; lia).
  assert (G : match y with
    | [] => (Full total, (copied, w), r1)
    | _ =>
      match limited lim text_buf (copied, w) y with
      | (Full n, w1) => try_read_buf (limited lim text_buf) fuel (total + N.of_nat n)%N w1 (consume n r1)
      | (Part n why, w1) => (Part (total + N.of_nat n)%N why, w1, consume n r1)
      | (SErr e, w1) => (Part total (RIo e), w1, r1)
      | (SPanic, w1) => (SPanic, w1, r1)
      | (SFuel, w1) => (SFuel, w1, r1)
      end
    end = match limited lim text_buf (copied, w) y with
      | (Full n, w1) => try_read_buf (limited lim text_buf) fuel (total + N.of_nat n)%N w1 (consume n r1)
      | (Part n why, w1) => (Part (total + N.of_nat n)%N why, w1, consume n r1)
      | (SErr e, w1) => (Part total (RIo e), w1, r1)
      | (SPanic, w1) => (SPanic, w1, r1)
      | (SFuel, w1) => (SFuel, w1, r1)
      end) by (rewrite Ey; reflexivity).
  rewrite Ey in G |- *. cbn match in G |- *. rewrite <- Ey in *. clear G.
  unfold limited at 1. unfold shown_at_most in *. rewrite app_length in Le, Lf.
  destruct (lim <? sat_add copied (N.of_nat (length y)))%N eqn:Lim.
  { exfalso. apply N.ltb_lt in Lim. unfold sat_add in Lim. lia. }
  destruct (utf8_buffer _ _ U) as (V1 & V2 & V3).
  assert (Take : forall n, n <= length y -> moved r0 (w ++ firstn n y) (consume n r1)).
  { intros n Hn. assert (length y <= idx r1) by (rewrite Ex, firstn_length; lia).
    replace (firstn n y) with (firstn n (buf r1)) by (rewrite Ex, firstn_firstn; f_equal; lia).
    eapply mv_take; eauto; lia. }
  assert (Step : forall n, n <= length y -> 0 < n -> (length y <= n \/ (497 <= n /\ length y <= n + 3)) -> utf8_string (skipn n y ++ c') ->
    exists cp r', try_read_buf (limited lim text_buf) fuel (total + N.of_nat n) (sat_add copied (N.of_nat (length y)), w ++ firstn n y)
        (consume n r1) = (Full (total + N.of_nat (length (y ++ c')))%N, (cp, w ++ y ++ c'), r')).
  { intros n Hn N0 N2 Hu.
    destruct (IH (total + N.of_nat n)%N (sat_add copied (N.of_nat (length y))) (w ++ firstn n y) (consume n r1) (skipn n y ++ c'))
      as (cp & r' & ->); auto.
    - now rewrite <- app_assoc, (app_assoc (firstn n y)), firstn_skipn.
    - now rewrite <- app_assoc, (app_assoc (firstn n y)), firstn_skipn.
    - unfold sat_add. rewrite app_length, skipn_length.
      replace (length y - n + length c') with (length y + length c' - n) by lia.
      destruct N2 as [N2|[N2 N3]].
      + pose proof (shown_less (length y + length c') n). lia.
      + pose proof (shown_step (length y + length c') n). lia.
    - rewrite app_length, skipn_length. cbn [consume src]. lia.
    - exists cp, r'. rewrite <- app_assoc, (app_assoc (firstn n y)), firstn_skipn.
      do 3 f_equal. rewrite !app_length, skipn_length. lia. }
  unfold text_buf at 1. destruct (valid_utf8 y) eqn:V.
  { specialize (Step (length y) ltac:(lia) ltac:(lia) ltac:(lia)). rewrite firstn_all, skipn_all in Step. apply Step.
    simpl. apply valid_utf8_iff in V. exact (utf8_cancel _ _ V U). }
  destruct (length y <? 4) eqn:L4.
  { exfalso. apply Nat.ltb_lt in L4. destruct Lx as [->|Lx]; [|lia]. rewrite app_nil_r in U.
    apply valid_utf8_iff in U. congruence. }
  apply Nat.ltb_ge in L4. destruct Lx as [->|Lx].
  { rewrite app_nil_r in U. apply valid_utf8_iff in U. congruence. }
  apply Step; auto; lia.
Qed.

(** [u] is as much of [u ++ v] as is valid UTF-8. *)
Definition longest_text (u v : bytes) : Prop :=
  utf8_string u /\ forall p q, u ++ v = p ++ q -> utf8_string p -> length p <= length u.

Lemma utf8_app p q : utf8_string p -> utf8_string q -> utf8_string (p ++ q).
Proof. intros (cs & H1 & ->) (ds & H2 & ->). exists (cs ++ ds). now rewrite map_app, concat_app, Forall_app. Qed.

Lemma app_prefix (a b c d : bytes) : a ++ b = c ++ d -> length c <= length a -> exists e, a = c ++ e.
Proof.
  intros E L. exists (skipn (length c) a). apply (f_equal (firstn (length c))) in E.
  rewrite !firstn_app, Nat.sub_diag, firstn_all, app_nil_r in E.
  replace (length c - length a) with 0 in E by lia. rewrite app_nil_r in E. now rewrite <- E at 1; rewrite firstn_skipn.
Qed.

Lemma longest_skip u1 u2 v : longest_text (u1 ++ u2) v -> utf8_string u1 -> longest_text u2 v.
Proof.
  intros [H1 H2] U. split; [exact (utf8_cancel _ _ U H1)|]. intros p q E Hp.
  specialize (H2 (u1 ++ p) q). rewrite <- !app_assoc, E in H2. specialize (H2 eq_refl (utf8_app _ _ U Hp)).
  rewrite !app_length in H2. lia.
Qed.

(** What the text phase makes of a content that is not text: with fewer than four bytes after the text it
    reports invalid UTF-8, with four or more it runs into its limit. *)
Lemma text_bad trim t b h r0 lim : at_field ML trim t b h r0 -> live t -> steady t -> (lim < U64MAX)%N ->
  forall fuel total copied w r u v,
  exact_chunks (delimiter b) t [w ++ u ++ v] -> content (delimiter b) (rem r0) (w ++ u ++ v) -> moved r0 w r ->
  longest_text u v -> v <> [] ->
  ((u = [] /\ (4 <= length v \/ (copied + N.of_nat (length v) <= lim)%N)) \/
   (copied + N.of_nat (shown_at_most (u ++ v)) + 3 <= lim)%N) ->
  length (src r) + N.to_nat (lim + 1 - copied) < fuel ->
  exists tot cp r' w' q, try_read_buf (limited lim text_buf) fuel total (copied, w) r
                = (Part tot (if length v <? 4 then RUtf8 else RSize), (cp, w ++ w'), r') /\
    moved r0 (w ++ w') r' /\ length (src r') <= length (src r) /\
    u = w' ++ q /\ (if length v <? 4 then length (q ++ v) < 4 else q = []).
Proof.
  intros Hf Hl Hq Lm. induction fuel as [|fuel IH]; intros total copied w r u v Hns Hc M U Nv Le Lf; [lia|].
  cbn [try_read_buf]. destruct (read_to_boundary r) as [y r1] eqn:E.
  destruct (moved_field ML _ _ _ _ _ _ _ Hf M) as (I & _ & Sx & B & L & Mb & _ & _ & Mn).
  pose proof (read_to_boundary_spec _ _ _ I E) as (I1 & R1 & B1 & M1 & L1 & _ & K1 & K2 & X).
  destruct y as [x|e| |]; try tauto.
  2: { destruct (steady_fill _ _ _ I (steady_later _ _ L Hq) E) as [-> Ls].
       destruct (IH total copied w r1 u v) as (tot & cp & r' & w' & q & H1 & H2 & H3 & H4); auto; [eapply mv_fill; eauto|lia|].
       exists tot, cp, r', w', q. repeat split; auto; lia || tauto. }
  assert (Ls : length (src r1) <= length (src r)) by (destruct L1 as [z ->]; rewrite app_length; lia).
  destruct X as [Ex _].
  destruct x as [|x0 x].
  { exfalso. assert (u ++ v = []) as Z0.
    { pose proof (read_empty _ _ _ I Sx Nat.lt_0_1 (fill_empty_read _ _ E) (live_later _ _ L Hl) Mb) as (Z & _).
      destruct (moved_content ML _ _ _ _ _ _ _ _ Hf Hns M Hc) as (c' & Ec & Hc'). apply app_inv_head in Ec. subst c'.
      rewrite B in Z. exact (content_end _ _ _ Hc' Z). }
    apply app_eq_nil in Z0. tauto. }
  destruct (fill_content _ _ _ _ _ _ _ _ _ _ Hf Hl Hns Hc M E) as (c' & Ec & Lx).
  remember (x0 :: x) as y eqn:Ey. assert (Ny : 0 < length y) by (rewrite Ey; simpl; lia).
  rewrite Ey. cbn match. rewrite <- Ey in *.
  assert (Len : length u + length v = length y + length c') by (rewrite <- !app_length, Ec; reflexivity).
  assert (Nv' : 0 < length v) by (destruct v; [congruence|simpl; lia]).
  unfold limited at 1. unfold shown_at_most in *. rewrite app_length in Le.
  assert (Take : forall n, n <= length y -> moved r0 (w ++ firstn n y) (consume n r1)).
  { intros n Hn. assert (length y <= idx r1) by (rewrite Ex, firstn_length; lia).
    replace (firstn n y) with (firstn n (buf r1)) by (rewrite Ex, firstn_firstn; f_equal; lia).
    eapply mv_take; eauto; lia. }
  destruct (lim <? sat_add copied (N.of_nat (length y)))%N eqn:Lim.
  { apply N.ltb_lt in Lim. unfold sat_add in Lim. destruct Le as [[-> [Le|Le]]|Le]; [|simpl in Len; lia|lia].
    destruct (length v <? 4) eqn:V4; [apply Nat.ltb_lt in V4; lia|].
    do 2 eexists. exists (consume 0 r1), [], []. split; [rewrite app_nil_r; reflexivity|].
    specialize (Take 0 ltac:(lia)). repeat split; auto. }
  apply N.ltb_ge in Lim. unfold sat_add in Lim.
  (* one step over a valid prefix of what is shown *)
  assert (Step : forall n u2, n <= length y -> u = firstn n y ++ u2 -> utf8_string (firstn n y) ->
    ((u2 = [] /\ (4 <= length v \/ (copied + N.of_nat (length y) + N.of_nat (length v) <= lim)%N)) \/
     (copied + N.of_nat (length y) + N.of_nat (length u2 + length v + 3 * ((length u2 + length v) / 497)) + 3 <= lim)%N) ->
    exists tot cp r' w' q, try_read_buf (limited lim text_buf) fuel (total + N.of_nat n)
        (sat_add copied (N.of_nat (length y)), w ++ firstn n y) (consume n r1)
        = (Part tot (if length v <? 4 then RUtf8 else RSize), (cp, w ++ w'), r') /\
      moved r0 (w ++ w') r' /\ length (src r') <= length (src r) /\
      u = w' ++ q /\ (if length v <? 4 then length (q ++ v) < 4 else q = [])).
  { intros n u2 Hn Eu Un Le2.
    destruct (IH (total + N.of_nat n)%N (sat_add copied (N.of_nat (length y))) (w ++ firstn n y) (consume n r1) u2 v)
      as (tot & cp & r' & w' & q & H1 & H2 & H3 & H4 & H5); auto.
    - now rewrite <- app_assoc, (app_assoc (firstn n y)), <- Eu.
    - now rewrite <- app_assoc, (app_assoc (firstn n y)), <- Eu.
    - rewrite Eu in U. exact (longest_skip _ _ _ U Un).
    - rewrite app_length. unfold sat_add.
      destruct Le2 as [[G1 [G2|G2]]|Le2]; [left; auto|left; split; auto; right; lia|right; lia].
    - unfold sat_add. cbn [consume src]. lia.
    - exists tot, cp, r', (firstn n y ++ w'), q. rewrite app_assoc. cbn [consume src] in H3.
      repeat split; auto; [lia|]. now rewrite Eu, H4, app_assoc. }
  unfold text_buf at 1. destruct U as [U Um].
  destruct (valid_utf8 y) eqn:V.
  { pose proof V as V'. apply valid_utf8_iff in V. pose proof (Um y c' Ec V) as Ly.
    destruct (app_prefix _ _ _ _ Ec Ly) as (u2 & ->).
    specialize (Step (length y) u2). rewrite firstn_all in Step. apply Step; auto.
    rewrite app_length in Le. destruct Le as [[G _]|Le]; [apply (f_equal (@length N)) in G; rewrite app_length in G; simpl in G; lia|].
    right. pose proof (shown_less (length y + length u2 + length v) (length y)).
    replace (length y + length u2 + length v - length y) with (length u2 + length v) in H by lia. lia. }
  assert (Big : length u < length y -> valid_up_to y = length u).
  { intros G. symmetry in Ec. destruct (app_prefix _ _ _ _ Ec) as (y2 & Ey2); [lia|].
    pose proof (valid_up_to_longest y u y2 Ey2 U). pose proof (valid_up_to_le y).
    pose proof (Um (firstn (valid_up_to y) y) (skipn (valid_up_to y) y ++ c')) as G2.
    rewrite app_assoc, firstn_skipn in G2. specialize (G2 (eq_sym Ec) (valid_prefix_utf8 y)).
    rewrite firstn_length in G2. lia. }
  destruct (length y <? 4) eqn:L4.
  { apply Nat.ltb_lt in L4. destruct Lx as [->|Lx]; [|lia]. rewrite app_nil_r in Ec. simpl in Len.
    destruct (length v <? 4) eqn:V4; [|apply Nat.ltb_ge in V4; lia].
    do 2 eexists. exists (consume 0 r1), [], u. split; [rewrite app_nil_r; reflexivity|].
    specialize (Take 0 ltac:(lia)). repeat split; auto. rewrite app_length. lia. }
  apply Nat.ltb_ge in L4.
  destruct (Nat.lt_ge_cases (length u) (length y)) as [G|G].
  - rewrite (Big G).
    assert (Fu : firstn (length u) y = u).
    { symmetry in Ec. destruct (app_prefix _ _ _ _ Ec) as (y2 & ->); [lia|]. rewrite firstn_app, Nat.sub_diag, firstn_all, app_nil_r. reflexivity. }
    apply (Step (length u) []); rewrite ?Fu, ?app_nil_r; auto; [lia|].
    left. split; auto. destruct (Nat.le_gt_cases 4 (length v)) as [G4|G4]; [auto|]. right.
    destruct Le as [[-> _]|Le]; [|lia]. simpl in *. lia.
  - destruct Lx as [->|Lx]; [simpl in Len; lia|].
    destruct (app_prefix _ _ _ _ Ec G) as (u2 & ->).
    destruct (utf8_buffer _ _ U) as (V1 & V2 & V3).
    apply (Step (valid_up_to y) (skipn (valid_up_to y) y ++ u2)); auto.
    + now rewrite app_assoc, firstn_skipn.
    + apply valid_prefix_utf8.
    + rewrite app_length in Le. destruct Le as [[H _]|Le]; [apply (f_equal (@length N)) in H; rewrite app_length in H; simpl in H; lia|].
      right. rewrite app_length, skipn_length.
      pose proof (shown_step (length y + length u2 + length v) (valid_up_to y)).
      replace (length y + length u2 + length v - valid_up_to y) with (length y - valid_up_to y + length u2 + length v) in H by lia.
      lia.
Qed.

End WithMime.
