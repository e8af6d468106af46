(** Property theorems about the texts of the errors of reading, part two: malformed, overlong and unreadable header blocks (C92). *)

From Verif Require Import Bytes BytesProofs Spec Io Boundary BoundaryProofs Utf8 Utf8Proofs Httparse HttparseProofs Field FieldProofs
  ContentProofs EntryProofs ReaderProofs Drive DriveProofs ReachProofs Toy PropsReader HeaderSpec HeaderProofs PropsHeader Messages PropsMessages
  PropsMinBuf.

(** ** Specification *)

(** [b] starts with some well-formed header lines and goes on with something else; there is room for [n] lines. *)
Inductive faulty : nat -> bytes -> bytes -> Prop :=
| bad_start n c b : ~ tchar c -> c <> 13%N -> c <> 10%N -> faulty n (c :: b) (bs "invalid header name")
| bad_end n c b : c <> 10%N -> faulty n (13%N :: c :: b) (bs "invalid new line")
| too_many c b : tchar c -> faulty 0 (c :: b) (bs "too many headers")
| bad_name n w c b : w <> [] -> Forall tchar w -> ~ tchar c -> c <> 58%N ->
    faulty (S n) (w ++ c :: b) (bs "invalid header name")
| bad_value n w v c b : w <> [] -> Forall tchar w -> Forall vchar v -> ~ vchar c -> c <> 13%N -> c <> 10%N ->
    faulty (S n) (w ++ bs ":" ++ v ++ c :: b) (bs "invalid header value")
| bad_eol n w v c b : w <> [] -> Forall tchar w -> Forall vchar v -> c <> 10%N ->
    faulty (S n) (w ++ bs ":" ++ v ++ 13%N :: c :: b) (bs "invalid header value")
| next_line n w v e b m : w <> [] -> Forall tchar w -> Forall vchar v -> eol e -> faulty n b m ->
    faulty (S n) (w ++ bs ":" ++ v ++ e ++ b) m.

(** ** Proofs *)

Lemma tchar_dec c : tchar c \/ ~ tchar c.
Proof. rewrite <- name_token_iff. destruct (name_token c); [left|right]; congruence. Qed.

Lemma not_tchar c : name_token c = false <-> ~ tchar c.
Proof. rewrite <- name_token_iff. destruct (name_token c); split; congruence. Qed.

Lemma not_vchar c : value_token c = false <-> ~ vchar c.
Proof. rewrite <- value_token_iff. destruct (value_token c); split; congruence. Qed.

Lemma space_vchar w : Forall space w -> Forall vchar w.
Proof. apply Forall_impl. intros c [->| ->]; unfold vchar; lia. Qed.

Lemma scan_name_fault acc b e : scan_name acc b = HErr e ->
  e = HHeaderName /\ exists w c t, b = w ++ c :: t /\ Forall tchar w /\ ~ tchar c /\ c <> 58%N.
Proof.
  revert acc; induction b as [|c b IH]; intros acc; cbn [scan_name]; [discriminate|].
  destruct (N.eqb_spec c 58) as [_|Hc]; [discriminate|]. destruct (name_token c) eqn:E.
  - intros H. apply IH in H as (-> & w & d & t & -> & F & G). split; auto. exists (c :: w), d, t. split; auto. split; auto.
    constructor; auto. now apply name_token_iff.
  - intros H; injection H as <-. split; auto. exists [], c, b. split; auto. split; auto. split; auto. now apply not_tchar.
Qed.

Lemma scan_value_fault acc b e : scan_value acc b = HErr e ->
  e = HHeaderValue /\ exists v t, b = v ++ t /\ Forall vchar v /\
    ((exists c t', t = c :: t' /\ ~ vchar c /\ c <> 13%N /\ c <> 10%N) \/ exists c t', t = 13%N :: c :: t' /\ c <> 10%N).
Proof.
  revert acc; induction b as [|c b IH]; intros acc; cbn [scan_value]; [discriminate|].
  destruct (value_token c) eqn:E.
  - intros H. apply IH in H as (-> & v & t & -> & F & G). split; auto. exists (c :: v), t. split; auto. split; auto.
    constructor; auto. now apply value_token_iff.
  - destruct (N.eqb_spec c CR) as [->|H1].
    + destruct b as [|d b]; [discriminate|]. destruct (N.eqb_spec d LF) as [_|H2]; [discriminate|].
      intros H; injection H as <-. split; auto. exists [], (CR :: d :: b). split; auto. split; auto. right. exists d, b. auto.
    + destruct (N.eqb_spec c LF) as [_|H2]; [discriminate|]. intros H; injection H as <-. split; auto.
      exists [], (c :: b). split; auto. split; auto. left. exists c, b. split; auto. split; [now apply not_vchar|auto].
Qed.

Lemma parse_fault trim slots : forall b e, parse_headers trim slots b = HErr e -> faulty slots b (herr_text e).
Proof.
  induction slots as [|slots IH]; intros [|c b] e; cbn [parse_headers]; try discriminate.
  - destruct (N.eqb_spec c CR) as [->|H1].
    { destruct b as [|d b]; [discriminate|]. destruct (N.eqb_spec d LF) as [_|H2]; [discriminate|]. intros H; injection H as <-. now apply bad_end. }
    destruct (N.eqb_spec c LF) as [_|H2]; [discriminate|].
    destruct (name_token c) eqn:E; cbn [negb]; intros H; injection H as <-.
    + apply too_many. now apply name_token_iff.
    + apply bad_start; auto. now apply not_tchar.
  - destruct (N.eqb_spec c CR) as [->|H1].
    { destruct b as [|d b]; [discriminate|]. destruct (N.eqb_spec d LF) as [_|H2]; [discriminate|]. intros H; injection H as <-. now apply bad_end. }
    destruct (N.eqb_spec c LF) as [_|H2]; [discriminate|].
    destruct (name_token c) eqn:E; cbn [negb].
    2: { intros H; injection H as <-. apply bad_start; auto. now apply not_tchar. }
    apply name_token_iff in E.
    destruct (scan_name [c] b) as [|x|name t1] eqn:E4; [discriminate| |].
    { intros H; injection H as <-. apply scan_name_fault in E4 as (-> & w & d & t & -> & F & G1 & G2).
      apply (bad_name slots (c :: w) d t); auto. discriminate. }
    apply scan_name_inv in E4 as (n & -> & -> & Hn). destruct (skip_blanks_inv t1) as (w & Hw1 & Hw2 & Hw3). apply space_vchar in Hw2.
    assert (Hn' : Forall tchar (c :: n)) by (constructor; auto).
    destruct (scan_value [] (skip_blanks t1)) as [|x|v t2] eqn:E5; [discriminate| |].
    { intros H; injection H as <-. apply scan_value_fault in E5 as (-> & v & t & Ev & F & G). rewrite Ev in Hw1. rewrite Hw1, (app_assoc w v).
      assert (Fv : Forall vchar (w ++ v)) by (apply Forall_app; auto).
      destruct G as [(d & t' & -> & G1 & G2 & G3)|(d & t' & -> & G)].
      - apply (bad_value slots (c :: n) (w ++ v) d t'); auto. discriminate.
      - apply (bad_eol slots (c :: n) (w ++ v) d t'); auto. discriminate. }
    apply scan_value_inv in E5 as (val & e0 & Hval & _ & Hv & He).
    destruct (parse_headers trim slots t2) as [|x|hs' t3] eqn:E6; try discriminate.
    intros H; injection H as <-. rewrite Hw1, Hval, (app_assoc w val).
    apply (next_line slots (c :: n) (w ++ val) e0 t2); auto; [discriminate|]. apply Forall_app; auto.
Qed.

Lemma fault_parse trim : forall n b m, faulty n b m -> exists e, parse_headers trim n b = HErr e /\ herr_text e = m.
Proof.
  assert (T : forall c, tchar c -> name_token c = true /\ (c =? CR)%N = false /\ (c =? LF)%N = false).
  { intros c H. apply name_token_iff in H. split; auto. split; apply N.eqb_neq; intros ->; vm_compute in H; discriminate. }
  assert (V : forall v acc c t, Forall vchar v -> scan_value acc (v ++ c :: t) = scan_value (rev v ++ acc) (c :: t)).
  { induction v as [|x v IHv]; intros acc c t F; [reflexivity|]. inversion F as [|? ? Fx Fv]; subst. apply value_token_iff in Fx.
    cbn [app scan_value]. rewrite Fx, IHv by auto. cbn [rev]. now rewrite <- app_assoc. }
  assert (Bl : forall v c t, Forall vchar v -> blank c = false -> exists v', Forall vchar v' /\ skip_blanks (v ++ c :: t) = v' ++ c :: t).
  { induction v as [|x v IHv]; intros c t F Hc; [exists []; cbn; rewrite Hc; auto|]. inversion F as [|? ? Fx Fv]; subst. cbn [app skip_blanks].
    destruct (blank x); [apply IHv; auto|]. exists (x :: v). auto. }
  assert (K : forall c, blank c = true -> vchar c) by (intros c H; apply blank_iff in H as [->| ->]; unfold vchar; lia).
  assert (N0 : forall w c b, Forall tchar w -> ~ tchar c -> c <> 58%N -> forall acc, scan_name acc (w ++ c :: b) = HErr HHeaderName).
  { induction w as [|x w IHw]; intros c b F Hc H58 acc; cbn [app scan_name].
    - apply N.eqb_neq in H58. rewrite H58. apply not_tchar in Hc. now rewrite Hc.
    - inversion F as [|? ? Fx Fw]; subst. apply name_token_iff in Fx. rewrite (tchar_not_colon x Fx), Fx. auto. }
  induction 1 as [n c b H1 H2 H3|n c b H|c b H|n w c b W F H1 H2|n w v c b W F Fv H1 H2 H3|n w v c b W F Fv H1|n w v e b m W F Fv He _ IH].
  - exists HHeaderName. split; auto. apply N.eqb_neq in H2, H3. apply not_tchar in H1. destruct n; cbn [parse_headers];
    change 13%N with CR in H2; change 10%N with LF in H3; now rewrite H2, H3, H1.
  - exists HNewLine. split; auto. apply N.eqb_neq in H. change 10%N with LF in H. destruct n; cbn; now rewrite H.
  - exists HTooManyHeaders. split; auto. destruct (T c H) as (T1 & T2 & T3). cbn [parse_headers]. now rewrite T2, T3, T1.
  - exists HHeaderName. split; auto. destruct w as [|x w]; [congruence|]. inversion F as [|? ? Fx Fw]; subst.
    destruct (T x Fx) as (T1 & T2 & T3). cbn [app parse_headers]. rewrite T2, T3, T1. cbn [negb]. now rewrite N0.
  - exists HHeaderValue. split; auto. destruct w as [|x w]; [congruence|]. inversion F as [|? ? Fx Fw]; subst.
    destruct (T x Fx) as (T1 & T2 & T3). cbn [app parse_headers]. rewrite T2, T3, T1. cbn [negb].
    replace (scan_name [x] _) with (HDone (x :: w) (v ++ c :: b)) by (symmetry; exact (scan_name_text w [x] (v ++ c :: b) Fw)). cbv beta iota.
    assert (Bc : blank c = false) by (destruct (blank c) eqn:Bc; auto; now elim H1; apply K).
    destruct (Bl v c b Fv Bc) as (v' & Fv' & ->). rewrite V by auto. cbn [scan_value].
    apply not_vchar in H1. apply N.eqb_neq in H2, H3. change 13%N with CR in H2; change 10%N with LF in H3. now rewrite H1, H2, H3.
  - exists HHeaderValue. split; auto. destruct w as [|x w]; [congruence|]. inversion F as [|? ? Fx Fw]; subst.
    destruct (T x Fx) as (T1 & T2 & T3). cbn [app parse_headers]. rewrite T2, T3, T1. cbn [negb].
    replace (scan_name [x] _) with (HDone (x :: w) (v ++ 13%N :: c :: b)) by (symmetry; exact (scan_name_text w [x] (v ++ 13%N :: c :: b) Fw)). cbv beta iota.
    destruct (Bl v 13%N (c :: b) Fv eq_refl) as (v' & Fv' & Q).
    assert (E : scan_value [] (skip_blanks (v ++ 13%N :: c :: b)) = HErr HHeaderValue).
    { transitivity (scan_value [] (v' ++ 13%N :: c :: b)); [f_equal; exact Q|].
      transitivity (scan_value (rev v' ++ []) (13%N :: c :: b)); [exact (V v' [] 13%N (c :: b) Fv')|].
      cbn. apply N.eqb_neq in H1. change 10%N with LF in H1. now rewrite H1. }
    replace (scan_value _ _) with (HErr (A := bytes) HHeaderValue) by (symmetry; exact E). reflexivity.
  - destruct IH as (x0 & IH & <-). exists x0. split; auto. destruct w as [|x w]; [congruence|]. inversion F as [|? ? Fx Fw]; subst.
    destruct (T x Fx) as (T1 & T2 & T3). cbn [app parse_headers]. rewrite T2, T3, T1. cbn [negb].
    replace (scan_name [x] _) with (HDone (x :: w) (v ++ e ++ b)) by (symmetry; exact (scan_name_text w [x] (v ++ e ++ b) Fw)). cbv beta iota.
    assert (E : exists v0, scan_value [] (skip_blanks (v ++ e ++ b)) = HDone v0 b).
    { destruct He as [->| ->].
      - destruct (Bl v CR (LF :: b) Fv eq_refl) as (v' & Fv' & Q). exists v'.
        transitivity (scan_value [] (v' ++ CRLF ++ b)); [f_equal; exact Q|]. exact (scan_value_text v' [] CRLF b Fv' (or_introl eq_refl)).
      - destruct (Bl v LF b Fv eq_refl) as (v' & Fv' & Q). exists v'.
        transitivity (scan_value [] (v' ++ [LF] ++ b)); [f_equal; exact Q|]. exact (scan_value_text v' [] [LF] b Fv' (or_intror eq_refl)). }
    destruct E as [v0 E]. replace (scan_value _ _) with (HDone v0 b) by (symmetry; exact E). now rewrite IH.
Qed.

(** Every fault has one text, and a complete block has none. *)
Theorem C92_fault_unique : forall n b m m', faulty n b m -> faulty n b m' -> m = m'.
Proof.
  intros n b m m' H H'. destruct (fault_parse true _ _ _ H) as (e & E & <-). destruct (fault_parse true _ _ _ H') as (e' & E' & <-). congruence.
Qed.

Theorem C92_fault_excluded : forall trim n x hs y m, header_block trim x hs -> length hs <= n -> ~ faulty n (x ++ y) m.
Proof.
  intros trim n x hs y m H L F. destruct (fault_parse trim _ _ _ F) as (e & E & _).
  rewrite (parse_headers_block _ _ _ H n y L) in E. discriminate.
Qed.

(** A block given up as too long is not complete within what is buffered. *)
Lemma with_headers_long trim fuel : forall last r r', inv r -> st r <> AtEnd -> live (src r) ->
  (exists b0, prefix_of b0 (rem r) /\ length b0 = last /\ parse_headers trim HEADER_LEN b0 = HPartial) ->
  with_headers trim fuel last r = (Err PTooLarge, r') ->
  exists b w, rem r' = b ++ w /\ rem r' = rem r /\ parse_headers trim HEADER_LEN b = HPartial /\
    (minb r <= length b + length (bnd r) + 1 \/ prefix_of (bnd r) w \/ prefix_of (CRLF ++ bnd r) w \/ length w <= length (bnd r) + 1).
Proof.
  induction fuel as [|fuel IH]; intros last r r' Hi Hs Hl Hb; cbn [with_headers]; [discriminate|].
  destruct (read_to_boundary r) as [y r1] eqn:E.
  pose proof (read_to_boundary_spec _ _ _ Hi E) as (I1 & R1 & B1 & M1 & L1 & _ & K1 & K2 & X).
  destruct y as [b|e| |]; try discriminate.
  destruct (fill_prefix _ _ _ Hi E) as [P L].
  destruct (Nat.eqb_spec (length b) last) as [El|El].
  - intros H; injection H as <-. destruct (fill_min _ _ _ Hi Hs Hl E) as (w & W & F).
    exists b, w. split; auto. split; auto. split; auto.
    destruct Hb as (b0 & [z Z] & Lb & Pb). assert (b = b0) as ->; auto.
    rewrite P in Z. apply app_inj_length in Z as [Z _]; congruence.
  - destruct (parse_headers trim HEADER_LEN b) as [|e|hs rest] eqn:F; [|discriminate|destruct (copy_headers hs); discriminate].
    intros H. assert (S1 : st r1 <> AtEnd) by (destruct (st r) eqn:S0; [auto|destruct K1 as [K1 _]; congruence|congruence]).
    assert (Hb1 : exists b0, prefix_of b0 (rem r1) /\ length b0 = length b /\ parse_headers trim HEADER_LEN b0 = HPartial).
    { exists b. split; [|auto]. rewrite R1. exists (skipn (length b) (rem r)). exact P. }
    destruct (IH _ _ _ I1 S1 (live_later _ _ L1 Hl) Hb1 H) as (b1 & w & A1 & A2 & A3 & A4).
    exists b1, w. rewrite B1, M1 in A4. rewrite R1 in A2. auto.
Qed.

(** ** C92: the texts about the block itself *)

(** What the text [m] says about the rest [R] of a body from which a part was to be read; [left] is what is read next. *)
Inductive block_text (trim : bool) (b : bytes) (t : transport) (sh : iokind -> bytes) (u8 : bytes) (R : bytes) : bytes -> bytes -> Prop :=
| text_malformed pre q m : first_split (delimiter b) R pre (CRLF ++ q) -> faulty 4 q m ->
    block_text trim b t sh u8 R (bs "an error occurred while parsing field headers: " ++ m) q
| text_encoding x hs rest : next_block trim b R x hs rest -> length hs <= 4 -> ~ Forall (fun y => utf8_string (snd y)) hs ->
    block_text trim b t sh u8 R (bs "an io error occurred while parsing the headers: " ++ u8) (x ++ rest)
| text_io pre q k : first_split (delimiter b) R pre (CRLF ++ q) -> In (Fail k) t ->
    block_text trim b t sh u8 R (bs "an io error occurred while parsing the headers: " ++ sh k) q
| text_long pre p w : first_split (delimiter b) R pre (CRLF ++ p ++ w) ->
    (forall x hs y, p = x ++ y -> header_block trim x hs -> 4 < length hs) -> (forall m, ~ faulty 4 p m) ->
    Nat.pow 2 10 <= length p + length (delimiter b) + 1 \/ prefix_of (delimiter b) w \/ prefix_of (CRLF ++ delimiter b) w \/
      length w <= length (delimiter b) + 1 ->
    block_text trim b t sh u8 R (bs "field headers section ridiculously long or missing trailing CRLF-CRLF") (p ++ w).

(** Every error that is not about the delimiter (C92_delimiter) or the headers of a complete block (C92_sound) is about
    the block itself, and its text says what is wrong. *)
Theorem C92_block : forall ML trim t b r e r1 sh u8, reached ML trim t b r -> live t ->
  read_entry_full ML trim r = (Err (inr e), r1) -> ~ about_headers (inr e) ->
  block_text trim b t sh u8 (rem r) (entry_text sh u8 (inr e)) (rem r1).
Proof.
  intros ML trim t b r e r1 sh u8 Hr Hl H Ab. pose proof (reached_inv _ _ _ _ _ Hr) as (I1 & _ & B1 & L1 & _). unfold read_entry_full in H.
  destruct (consume_boundary (set_min_buf_size MIN_BUF_SIZE r)) as [x q1] eqn:E.
  pose proof (consume_boundary_spec _ _ _ (inv_set_min MIN_BUF_SIZE r I1) E) as (I2 & B2 & M2 & L2 & N0 & N1).
  cbn [st bnd minb src set_min_buf_size] in *.
  destruct x as [[|]|y| |]; try discriminate.
  assert (Hst : st r <> AtEnd) by (intros X; destruct (N0 X) as [X' _]; discriminate).
  specialize (N1 Hst). destruct N1 as (pre & q & FS & Q1 & Q2 & _). cbn [bnd set_min_buf_size] in FS. rewrite B1 in FS.
  change (rem (set_min_buf_size MIN_BUF_SIZE r)) with (rem r) in FS.
  assert (L3 : later (src q1) t) by (eapply later_trans; eauto).
  unfold read_headers_full in H. destruct (with_headers trim (length (src q1) + 3) 0 q1) as [y q2] eqn:F.
  pose proof (with_headers_sound _ _ _ _ _ _ I2 F) as K. destruct y as [hs|y| |]; try discriminate.
  { destruct K as [K1 K2]. destruct (headers_full ML hs) as [h|e'| |] eqn:G; try discriminate. injection H as -> ->. exfalso. apply Ab.
    unfold headers_full in G. destruct (disp_full hs) as [[n f]|d| |] eqn:D; try discriminate.
    - unfold ctype_full in G. destruct (find_header hs _) as [m|]; [|discriminate]. destruct (mime_parse ML m); [discriminate|]. injection G as <-. exact I.
    - injection G as <-. unfold disp_full in D. destruct (find_header hs _) as [v|]; [|injection D as <-; exact I].
      destruct (split_once v SEMI) as [[ty af]|]; [|injection D as <-; exact I].
      destruct (negb _); [injection D as <-; exact I|]. destruct (get_str_after _ _ af) as [[n f]|]; [discriminate|]. injection D as <-; exact I. }
  injection H as <- <-. destruct y as [| | | |h| | |x|]; try (destruct K; fail); cbn [scan_error entry_text perr_text description].
  - destruct K as [K1 K2]. rewrite Q1 in K1, K2. rewrite K2, app_assoc. apply (text_malformed _ _ _ _ _ _ pre); auto.
    eapply parse_fault; eauto.
  - assert (S2 : st q1 <> AtEnd) by congruence.
    assert (Hb : exists b0, prefix_of b0 (rem q1) /\ length b0 = 0 /\ parse_headers trim HEADER_LEN b0 = HPartial).
    { exists []. split; [exists (rem q1); reflexivity|]. split; reflexivity. }
    destruct (with_headers_long trim _ 0 q1 q2 I2 S2 (live_later _ _ L3 Hl) Hb F) as (p & w & A1 & A2 & A3 & A4).
    assert (Eq : q = p ++ w) by congruence. rewrite A1. rewrite Eq in FS. rewrite B2, B1 in A4. apply (text_long _ _ _ _ _ _ pre); auto.
    + intros x hs y -> Hx. destruct (le_lt_dec (length hs) 4) as [Le|]; auto. exfalso.
      rewrite (parse_headers_block _ _ _ Hx HEADER_LEN y Le) in A3. discriminate.
    + intros m Fm. destruct (fault_parse trim _ _ _ Fm) as (e & Pe & _). fold HEADER_LEN in Pe. rewrite Pe in A3. discriminate.
    + destruct A4 as [A4|A4]; [left|right; exact A4]. rewrite M2 in A4. change (Nat.pow 2 10) with MIN_BUF_SIZE. lia.
  - destruct K as (K1 & k & -> & K2). rewrite K1, Q1, app_assoc. cbn [berr_text]. apply (text_io _ _ _ _ _ _ pre); auto.
    destruct L3 as [u ->]. apply in_or_app. now right.
  - destruct K as (K1 & hs & rest & K2 & K3). rewrite K1, Q1, app_assoc. rewrite Q1 in K2.
    apply parse_headers_inv in K2 as (x & -> & Hb & Le). apply (text_encoding _ _ _ _ _ _ x hs rest); auto.
    + exists pre. auto.
    + intros U. apply copy_headers_iff in U. congruence.
Qed.

(** On a transport without failures, for a fault near the start of a terminated field, the text about it is given. *)
Theorem C92_block_exact : forall ML trim t b r pre p w c m y r1 sh u8,
  at_delimiter ML trim t b r -> live t -> quiet t ->
  first_split (delimiter b) (rem r) pre (CRLF ++ p ++ w) -> faulty 4 p m ->
  content (delimiter b) (p ++ w) (p ++ c) -> length p + length b + 3 <= Nat.pow 2 10 ->
  read_entry_full ML trim r = (y, r1) ->
  rem r1 = p ++ w /\ exists e, y = Err e /\ entry_text sh u8 e = bs "an error occurred while parsing field headers: " ++ m.
Proof.
  intros ML trim t b r pre p w c m y r1 sh u8 Ha Hl Hq FS Fm Hc Hp H.
  destruct (at_delimiter_state _ _ _ _ _ Ha Hl) as (I1 & N1 & S1 & B1 & L1 & Z1).
  pose proof (min_after (bnd r) (dashed_length _ (proj1 I1))) as HM.
  unfold read_entry_full in H. destruct (consume_boundary (set_min_buf_size MIN_BUF_SIZE r)) as [x q1] eqn:E.
  assert (Hcond : st r = Searching \/ idx r + length (bnd r) + 4 <= Nat.max (length (bnd r) * 2) MIN_BUF_SIZE) by (right; lia).
  pose proof (consume_boundary_verdict r x q1 I1 S1 (live_later _ _ L1 Hl) (quiet_later _ _ L1 Hq) Hcond E) as V.
  pose proof (consume_boundary_spec _ _ _ (inv_set_min MIN_BUF_SIZE r I1) E) as (I2 & B2 & M2 & L2 & _).
  pose proof (consume_boundary_steps _ _ _ (inv_set_min MIN_BUF_SIZE r I1) E) as St.
  assert (N2 : near q1) by (eapply steps_near; eauto).
  cbn [bnd minb src set_min_buf_size] in *.
  assert (J : judges (bnd r) (rem r) (VField (p ++ w))) by (exists pre; rewrite B1; auto).
  pose proof (dashed_nonnil _ (proj1 I1)) as HD0.
  destruct x as [[|]|[k| | |a d]| |]; try tauto.
  2: { destruct V as [V _]. pose proof (judges_fun _ _ _ _ HD0 V J). discriminate. }
  2-4: pose proof (judges_fun _ _ _ _ HD0 V J); discriminate.
  destruct V as (V & St1 & _). pose proof (judges_fun _ _ _ _ HD0 V J) as Q. injection Q as Q.
  assert (L3 : later (src q1) t) by (eapply later_trans; eauto).
  destruct (fault_parse trim _ _ _ Fm) as (e & Pe & <-).
  assert (W : exists q2, with_headers trim (length (src q1) + 3) 0 q1 = (Err (PTokenize e), q2)).
  { replace (length (src q1) + 3) with (S (length (src q1) + 2)) by lia. cbn [with_headers].
    destruct (read_to_boundary q1) as [d q2] eqn:F.
    pose proof (read_to_boundary_spec _ _ _ I2 F) as (_ & _ & _ & _ & _ & _ & _ & _ & X).
    destruct d as [d|e'| |]; try tauto.
    2: { destruct X as (k & _ & X & _). exfalso. eapply (quiet_later _ _ L3 Hq); eauto. }
    assert (Hreach : length d = length (p ++ c) \/ minb q1 <= length d + length (bnd q1) + 1).
    { apply (fill_reaches _ _ _ _ I2 N2 ltac:(congruence) F (live_later _ _ L3 Hl)). rewrite B2, B1, Q. exact Hc. }
    destruct (fill_prefix _ _ _ I2 F) as [P L]. rewrite app_length in Hreach.
    assert (Lb : length p <= length d).
    { rewrite M2, B2, B1 in Hreach. unfold delimiter in Hreach. rewrite !app_length in Hreach. change (length DASHES) with 2 in Hreach.
      change (Nat.pow 2 10) with MIN_BUF_SIZE in Hp. lia. }
    assert (Eb : d = p ++ skipn (length p) d).
    { assert (G : firstn (length p) (d ++ skipn (length d) (rem q1)) = firstn (length p) (p ++ w)) by congruence.
      rewrite !firstn_app_le, firstn_all in G by lia. rewrite <- G at 1. now rewrite firstn_skipn. }
    destruct (length d =? 0) eqn:Z.
    { apply Nat.eqb_eq in Z. destruct p; [cbn in Pe; discriminate|cbn [length] in Lb; lia]. }
    rewrite Eb, (parse_headers_err _ _ _ _ Pe). eauto. }
  destruct W as [q2 W]. unfold read_headers_full in H. rewrite W in H. injection H as <- <-.
  apply with_headers_sound in W as [_ W]; auto. split; [congruence|]. eexists. split; [reflexivity|].
  cbn [scan_error entry_text perr_text description]. now rewrite app_assoc.
Qed.

(** Texts about malformed blocks; a part that ends, or does not end, before its headers do. *)
Example C92_block_example :
  let say body := match fst (read_entry_full toy true (with_body [Chunk body] (bs "b"))) with
                  | Err e => entry_text (fun _ => bs "io") (bs "utf8") e | _ => [] end in
  let say2 body := match fst (read_entry_full toy true (with_body [Chunk (firstn 1050 body); Chunk (skipn 1050 body)] (bs "b"))) with
                   | Err e => entry_text (fun _ => bs "io") (bs "utf8") e | _ => [] end in
  let part hd := bs "--b" ++ CRLF ++ hd ++ CRLF ++ CRLF ++ bs "x" ++ CRLF ++ toy_end in
  say (part (bs "X: 1" ++ CRLF ++ bs "(Y): 2")) = bs "an error occurred while parsing field headers: invalid header name" /\
  say (part (bs "X: 1" ++ CRLF ++ [CR] ++ bs "a")) = bs "an error occurred while parsing field headers: invalid new line" /\
  say (part (bs "X: 1" ++ [7%N])) = bs "an error occurred while parsing field headers: invalid header value" /\
  say (part (bs "X: 1" ++ [CR; CR])) = bs "an error occurred while parsing field headers: invalid header value" /\
  say (part (bs "A:" ++ CRLF ++ bs "B:" ++ CRLF ++ bs "C:" ++ CRLF ++ bs "D:" ++ CRLF ++ bs "E:")) =
    bs "an error occurred while parsing field headers: too many headers" /\
  say (part (bs "X: " ++ [255%N])) = bs "an io error occurred while parsing the headers: utf8" /\
  say (bs "--b" ++ CRLF ++ bs "X: 1" ++ CRLF ++ bs "--b--") =
    bs "field headers section ridiculously long or missing trailing CRLF-CRLF" /\
  say2 (part (bs "X: " ++ repeat 120%N 1100)) = bs "field headers section ridiculously long or missing trailing CRLF-CRLF" /\
  (exists r, at_delimiter toy true [Chunk (part (bs "(X): 1"))] (bs "b") r /\ faulty 4 (bs "(") (bs "invalid header name")).
Proof.
  repeat (split; [vm_compute; reflexivity|]).
  eexists. split; [left; reflexivity|]. apply bad_start; [|discriminate|discriminate].
  apply not_tchar. reflexivity.
Qed.
