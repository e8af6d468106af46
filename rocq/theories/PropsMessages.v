(** Property theorems about the texts of the errors of reading (C92). *)

From Verif Require Import Bytes BytesProofs Spec Io Boundary BoundaryProofs Utf8 Utf8Proofs Httparse HttparseProofs Field FieldProofs
  ContentProofs EntryProofs ReaderProofs Drive DriveProofs ReachProofs Toy PropsReader HeaderSpec HeaderProofs PropsHeader Messages.

(** *** The errors are those of [Field], with more to them *)

Definition plain_error (e : berr + perr_full) : eerr :=
  match e with
  | inl x => EBnd x
  | inr (FMissing _) => EHdr PMissingContentDisposition
  | inr (FDisp DType _) => EHdr PDispType
  | inr (FDisp DParams _) => EHdr PDispNoParams
  | inr (FDisp DName _) => EHdr PDispNoName
  | inr (FTokenize h) => EHdr (PTokenize h)
  | inr (FMime _) => EHdr PMime
  | inr FTooLarge => EHdr PTooLarge
  | inr (FIo x) => EHdr (PIo x)
  | inr FUtf8 => EHdr PUtf8
  end.

Definition with_error {E F A} (f : E -> F) (x : res E A) : res F A :=
  match x with Ok a => Ok a | Err e => Err (f e) | Panic => Panic | OutOfFuel => OutOfFuel end.

Lemma disp_plain hs : parse_content_disp hs =
  with_error (fun e => match plain_error (inr e) with EHdr x => x | _ => PMime end) (disp_full hs).
Proof.
  unfold parse_content_disp, disp_full. destruct (find_header _ _) as [v|]; [|reflexivity].
  destruct (split_once v SEMI) as [[ty after]|]; [|reflexivity]. destruct (negb _); [reflexivity|].
  destruct (get_str_after _ _ after) as [[n a]|]; reflexivity.
Qed.

Lemma headers_plain ML hs : parse_field_headers ML hs =
  with_error (fun e => match plain_error (inr e) with EHdr x => x | _ => PMime end) (headers_full ML hs).
Proof.
  unfold parse_field_headers, headers_full. rewrite disp_plain. destruct (disp_full hs) as [[n f]|e| |]; try reflexivity.
  cbn [with_error]. unfold parse_content_type, ctype_full. destruct (find_header _ _) as [v|]; [|reflexivity]. destruct (mime_parse ML v); reflexivity.
Qed.

Theorem C92_agrees : forall ML trim t b r, reached ML trim t b r ->
  read_entry ML trim r = let '(x, r1) := read_entry_full ML trim r in (with_error plain_error x, r1).
Proof.
  intros ML trim t b r Hr. pose proof (reached_inv _ _ _ _ _ Hr) as (I1 & _). unfold read_entry, read_entry_full.
  destruct (consume_boundary (set_min_buf_size MIN_BUF_SIZE r)) as [x r1] eqn:E.
  pose proof (consume_boundary_spec _ _ _ (inv_set_min MIN_BUF_SIZE r I1) E) as (I2 & _).
  destruct x as [[|]|e| |]; try reflexivity.
  unfold read_headers, read_headers_full. destruct (with_headers trim (length (src r1) + 3) 0 r1) as [y r2] eqn:F.
  apply with_headers_sound in F; auto. destruct y as [hs|e| |]; try reflexivity.
  - rewrite headers_plain. destruct (headers_full ML hs) as [h|[]| |]; try reflexivity. destruct why; reflexivity.
  - destruct e; try destruct F; reflexivity.
Qed.

(** *** What is wrong with a part *)

Definition line_of (h : bytes * bytes) : bytes := fst h ++ bs ": " ++ snd h ++ [10%N].

(** The text about the headers [hs]; the first thing that is wrong with them. *)
Inductive complaint (ML : mime_lib) (hs : list (bytes * bytes)) : bytes -> Prop :=
| no_disposition : (forall v, ~ header_value hs (bs "Content-Disposition") v) ->
    complaint ML hs (bs """Content-Disposition"" header not found in field headers:" ++ [10%N] ++ concat (map line_of hs))
| no_parameters v : header_value hs (bs "Content-Disposition") v -> ~ In 59%N v ->
    complaint ML hs (bs "invalid ""Content-Disposition"" header: expected additional data after Content-Disposition type: " ++ v)
| another_type v ty ps : header_value hs (bs "Content-Disposition") v -> v = ty ++ bs ";" ++ ps -> ~ In 59%N ty ->
    (forall ps', ~ form_data v ps') ->
    complaint ML hs (bs "invalid ""Content-Disposition"" header: unexpected Content-Disposition value: " ++ ty)
| no_name v ps : header_value hs (bs "Content-Disposition") v -> form_data v ps -> absent (bs "name=") ps ->
    complaint ML hs (bs "invalid ""Content-Disposition"" header: expected field name and maybe filename, got: ;" ++ ps)
| bad_ctype v ps i m : header_value hs (bs "Content-Disposition") v -> form_data v ps -> occurs_at (bs "name=") ps i ->
    header_value hs (bs "Content-Type") m -> mime_parse ML m = None ->
    complaint ML hs (bs "Failed to parse Content-Type: " ++ m).

Lemma header_value_fun hs name v v' : header_value hs name v -> header_value hs name v' -> v = v'.
Proof. rewrite <- !find_header_some. congruence. Qed.

Lemma semi_fun (a a' p p' : bytes) : a ++ 59%N :: p = a' ++ 59%N :: p' -> ~ In 59%N a -> ~ In 59%N a' -> a = a' /\ p = p'.
Proof.
  revert a'. induction a as [|x a IH]; intros [|x' a'] E H H'; cbn [app] in E.
  - injection E as ->. auto.
  - injection E as <- _. exfalso. apply H'. left; auto.
  - injection E as -> _. exfalso. apply H. left; auto.
  - injection E as <- E. apply IH in E as [-> ->]; auto; intros X; [apply H|apply H']; right; auto.
Qed.

Lemma form_data_split v ps : form_data v ps -> exists ty, v = ty ++ 59%N :: ps /\ ~ In 59%N ty /\ trim_white ty = bs "form-data".
Proof.
  intros (w1 & w2 & E & W1 & W2). exists (w1 ++ bs "form-data" ++ w2). split; [rewrite E, <- !app_assoc; reflexivity|]. split.
  - intros H. apply in_app_iff in H as [H|H]; [exact (white_no_semi _ W1 H)|]. apply in_app_iff in H as [H|H]; [|exact (white_no_semi _ W2 H)].
    vm_compute in H. repeat (destruct H as [H|H]; [discriminate|]). destruct H.
  - apply trim_white_word; auto; intros; reflexivity.
Qed.

Lemma form_data_fun v ps ps' : form_data v ps -> form_data v ps' -> ps = ps'.
Proof.
  intros H H'. apply form_data_split in H as (ty & -> & N1 & _). apply form_data_split in H' as (ty' & E & N2 & _).
  apply semi_fun in E as [_ E]; auto.
Qed.

(** There is one text at most, and none for headers that are accepted. *)
Theorem C92_unique : forall ML hs m m', complaint ML hs m -> complaint ML hs m' -> m = m'.
Proof.
  intros ML hs m m' H H'.
  destruct H as [N0|v V N0|v ty ps V E N1 N2|v ps V F A|v ps i mt V F O T M]; destruct H' as [N0'|v' V' N0'|v' ty' ps' V' E' N1' N2'|v' ps' V' F' A'|v' ps' i' mt' V' F' O' T' M'];
    try reflexivity; try (exfalso; eapply N0; eassumption); try (exfalso; eapply N0'; eassumption);
    pose proof (header_value_fun _ _ _ _ V V') as <-; clear V'; try reflexivity.
  - exfalso. apply N0. rewrite E'. apply in_app_iff. right. left. reflexivity.
  - exfalso. apply N0. apply form_data_split in F' as (ty & -> & _). apply in_app_iff. right. left. reflexivity.
  - exfalso. apply N0. apply form_data_split in F' as (ty & -> & _). apply in_app_iff. right. left. reflexivity.
  - exfalso. apply N0'. rewrite E. apply in_app_iff. right. left. reflexivity.
  - rewrite E in E'. apply semi_fun in E' as [<- _]; auto.
  - exfalso. exact (N2 _ F').
  - exfalso. exact (N2 _ F').
  - exfalso. apply N0'. apply form_data_split in F as (ty & -> & _). apply in_app_iff. right. left. reflexivity.
  - exfalso. exact (N2' _ F).
  - now rewrite (form_data_fun _ _ _ F F').
  - exfalso. rewrite (form_data_fun _ _ _ F F') in A. exact (A _ O').
  - exfalso. apply N0'. apply form_data_split in F as (ty & -> & _). apply in_app_iff. right. left. reflexivity.
  - exfalso. exact (N2' _ F).
  - exfalso. rewrite (form_data_fun _ _ _ F F') in O. exact (A' _ O).
  - now rewrite (header_value_fun _ _ _ _ T T').
Qed.

Lemma headers_complaint ML hs e sh u8 : headers_full ML hs = Err e -> complaint ML hs (perr_text sh u8 e).
Proof.
  unfold headers_full. pose proof (disp_plain hs) as D0. destruct (disp_full hs) as [[name fname]|e'| |] eqn:D; try discriminate.
  - cbn [with_error] in D0. apply parse_content_disp_inv in D0 as (v & ps & Hv & Hf & a & s & u & P & _). unfold ctype_full.
    destruct (find_header hs (bs "Content-Type")) as [m|] eqn:T; [|discriminate]. destruct (mime_parse ML m) eqn:M; [discriminate|].
    intros H. injection H as <-. apply find_header_some in T. cbn [perr_text description]. rewrite app_assoc.
    eapply bad_ctype; eauto. exists a, (s ++ u). split; [exact P|reflexivity].
  - clear D0. intros H. injection H as <-. unfold disp_full in D. destruct (find_header hs (bs "Content-Disposition")) as [v|] eqn:F.
    2: { injection D as <-. apply no_disposition. intros v H. apply find_header_some in H. congruence. }
    apply find_header_some in F. unfold split_once in D. pose proof (find_byte_inv SEMI v) as B.
    revert B D. destruct (find_bytes v [SEMI]) as [i|]; intros B D.
    2: { injection D as <-. apply no_parameters; auto. }
    destruct B as [B1 B2]. destruct (beq (trim_white (firstn i v)) (bs "form-data")) eqn:E; cbn [negb] in D.
    2: { injection D as <-. apply (another_type _ _ v (firstn i v) (skipn (S i) v)); auto. intros ps' Fd. apply form_data_split in Fd as (ty & Ev & N1 & Tw).
         rewrite B2 in Ev. apply semi_fun in Ev as [Ev _]; auto. subst ty. rewrite Tw in E. vm_compute in E. discriminate. }
    apply beq_eq in E. assert (Hs : skipn i v = SEMI :: skipn (S i) v).
    { apply (app_inv_head (firstn i v)). rewrite firstn_skipn. exact B2. }
    rewrite Hs in D. set (ps := skipn (S i) v) in *.
    assert (Fd : form_data v ps).
    { destruct (trim_white_inv (firstn i v)) as (w1 & w2 & W & W1 & W2). rewrite E in W.
      exists w1, w2. split; auto. rewrite B2 at 1. rewrite W. repeat rewrite <- app_assoc. reflexivity. }
    destruct (get_str_after (bs "name=") SEMI (SEMI :: ps)) as [[s u]|] eqn:G; [discriminate|]. injection D as <-.
    apply (no_name _ _ v ps); auto. unfold get_str_after in G. pose proof (find_first_split (bs "name=") (SEMI :: ps) ltac:(discriminate)) as P.
    destruct (find_bytes (SEMI :: ps) (bs "name=")); [discriminate|]. intros j (a & z & Ej & <-). apply (P (S (length a))). exists (SEMI :: a), z.
    rewrite Ej. auto.
Qed.

(** What an error is about: the delimiter, the headers of a complete block, or the block itself. *)
Definition about_headers (e : berr + perr_full) : Prop :=
  match e with inr (FMissing _) | inr (FDisp _ _) | inr (FMime _) => True | _ => False end.

(** For every transport, failures included: a text about the headers tells what is wrong with the headers of the next part. *)
Theorem C92_sound : forall ML trim t b r e r1 sh u8, reached ML trim t b r ->
  read_entry_full ML trim r = (Err e, r1) -> about_headers e ->
  exists x hs, next_block trim b (rem r) x hs (rem r1) /\ length hs <= 4 /\ Forall (fun y => utf8_string (snd y)) hs /\
    complaint ML hs (entry_text sh u8 e).
Proof.
  intros ML trim t b r e r1 sh u8 Hr H Ab. pose proof (reached_inv _ _ _ _ _ Hr) as (I1 & _ & B1 & _). unfold read_entry_full in H.
  destruct (consume_boundary (set_min_buf_size MIN_BUF_SIZE r)) as [x q1] eqn:E.
  pose proof (consume_boundary_spec _ _ _ (inv_set_min MIN_BUF_SIZE r I1) E) as (I2 & _ & _ & _ & N0 & N1). cbn [st set_min_buf_size] in N0, N1.
  destruct x as [[|]|y| |]; try discriminate; [|injection H as <- _; destruct Ab].
  assert (Hst : st r <> AtEnd) by (intros X; destruct (N0 X) as [X' _]; discriminate).
  specialize (N1 Hst). destruct N1 as (pre & q & FS & <- & _). cbn [bnd set_min_buf_size] in FS. rewrite B1 in FS.
  unfold read_headers_full in H. destruct (with_headers trim (length (src q1) + 3) 0 q1) as [y q2] eqn:F.
  apply with_headers_sound in F; auto. destruct y as [hs|y| |]; try discriminate.
  2: { injection H as <- _. destruct y; try destruct Ab; destruct F. }
  destruct F as [F1 F2]. destruct (headers_full ML hs) as [h|e'| |] eqn:G; try discriminate. injection H as <- <-.
  apply parse_headers_inv in F1 as (x & Eq & Hb & Hl). exists x, hs. split; [exists pre; rewrite Eq in FS; auto|]. split; auto.
  split; [now apply copy_headers_iff|]. cbn [entry_text]. now apply headers_complaint.
Qed.

(** On a transport without failures, for a complete block of four headers or fewer that fits the buffer: exactly the parts that are
    not acceptable have a text, which is the one about their headers, and the part's content is next. *)
Theorem C92_exact : forall ML trim t b r x hs rest c y r1 sh u8,
  at_delimiter ML trim t b r -> live t -> quiet t ->
  next_block trim b (rem r) x hs rest -> content (delimiter b) (x ++ rest) (x ++ c) ->
  length hs <= 4 -> length x + length b + 3 <= Nat.pow 2 10 -> Forall (fun y => utf8_string (snd y)) hs ->
  read_entry_full ML trim r = (y, r1) ->
  rem r1 = rest /\
  ((acceptable ML hs /\ exists h, y = Ok (Some h)) \/
   (~ acceptable ML hs /\ exists e, y = Err e /\ complaint ML hs (entry_text sh u8 e))).
Proof.
  intros ML trim t b r x hs rest c y r1 sh u8 Ha Hl Hq Hb Hc Hn Hx Hu E.
  pose proof (at_delimiter_reached _ _ _ _ _ Ha) as Hr.
  pose proof (C92_agrees ML trim t b r Hr) as A. rewrite E in A.
  pose proof (C16_exact ML trim t b r x hs rest c _ _ Ha Hl Hq Hb Hc Hn Hx A) as X.
  destruct Hb as (pre & FS & HB).
  destruct (C13_complete_partial ML trim t b r pre x rest c hs) as (r2 & E2 & R2); auto.
  { apply parse_headers_block; auto. } { now apply copy_headers_iff. }
  rewrite A in E2. injection E2 as Ey <-. split; auto. rewrite headers_plain in Ey.
  destruct X as [(X & h & K)|(X & e & K & _)].
  - left. split; auto. destruct y; try discriminate. cbn [with_error] in K. injection K as ->. eauto.
  - right. split; auto. destruct y as [|e1| |]; try discriminate. exists e1. split; auto. cbn [with_error] in Ey.
    destruct (headers_full ML hs) as [h|e'| |] eqn:G; try discriminate. cbn [with_error] in Ey.
    assert (Ab : about_headers e1).
    { apply headers_complaint with (sh := sh) (u8 := u8) in G as G'. unfold headers_full in G. destruct (disp_full hs) as [[n f]|d| |] eqn:D; try discriminate.
      - unfold ctype_full in G. destruct (find_header hs _) as [m|]; [|discriminate]. destruct (mime_parse ML m); [discriminate|]. injection G as <-.
        injection Ey as Ey. destruct e1 as [|[]]; try discriminate; exact I.
      - injection G as <-. unfold disp_full in D. destruct (find_header hs _) as [v|]; [|injection D as <-; injection Ey as Ey; destruct e1 as [|[]]; try discriminate; exact I].
        destruct (split_once v SEMI) as [[ty af]|]; [|injection D as <-; injection Ey as Ey; destruct e1 as [|[]]; try discriminate; exact I].
        destruct (negb _); [injection D as <-; injection Ey as Ey; destruct e1 as [|[]]; try discriminate; exact I|].
        destruct (get_str_after _ _ af) as [[n f]|]; [discriminate|]. injection D as <-; injection Ey as Ey; destruct e1 as [|[]]; try discriminate; exact I. }
    destruct (C92_sound ML trim t b r e1 r1 sh u8 Hr E Ab) as (x' & hs' & Hb' & _ & _ & Hc').
    assert (Hb : next_block trim b (rem r) x hs rest) by (exists pre; auto).
    destruct (next_block_fun _ _ _ _ _ _ _ _ _ Hb Hb') as (_ & <- & _). exact Hc'.
Qed.

(** Hexadecimal: [d] is the number [n] written with the digits 0-9 and A-F, without leading zero. *)
Definition hex_value (c : byte) : option N :=
  (if (48 <=? c) && (c <=? 57) then Some (c - 48) else if (65 <=? c) && (c <=? 70) then Some (c - 55) else None)%N.
Definition in_hex (d : bytes) (n : N) : Prop :=
  (exists c, d = [c] /\ hex_value c = Some n) \/
  exists c c' m m', d = [c; c'] /\ hex_value c = Some m /\ hex_value c' = Some m' /\ (0 < m)%N /\ (n = 16 * m + m')%N.

Lemma hex_digit_value d : (d < 16)%N -> hex_value (hex_digit d) = Some d.
Proof.
  intros H. unfold hex_digit, hex_value. destruct (N.ltb_spec d 10).
  - replace ((48 <=? 48 + d) && (48 + d <=? 57))%N with true by lia. f_equal. lia.
  - replace ((48 <=? 55 + d) && (55 + d <=? 57))%N with false by lia. replace ((65 <=? 55 + d) && (55 + d <=? 70))%N with true by lia. f_equal. lia.
Qed.

Lemma hex_spec n : (n < 256)%N -> in_hex (hex n) n.
Proof.
  intros H. pose proof (N.mod_lt n 16 ltac:(lia)). pose proof (N.div_mod n 16 ltac:(lia)). unfold hex. destruct (N.ltb_spec n 16).
  - left. exists (hex_digit (n mod 16)). split; [reflexivity|]. rewrite N.mod_small by auto. now apply hex_digit_value.
  - right. exists (hex_digit (n / 16)), (hex_digit (n mod 16)), (n / 16)%N, (n mod 16)%N.
    assert (n / 16 < 16)%N by (apply N.div_lt_upper_bound; lia). assert (0 < n / 16)%N by (apply N.div_str_pos; lia).
    split; [reflexivity|]. split; [now apply hex_digit_value|]. split; [now apply hex_digit_value|]. split; auto.
Qed.

(** Where the delimiter is not followed by a part: the text tells the two bytes that follow it, or that the body ends. *)
Theorem C92_delimiter : forall ML trim t b r x r1 sh u8, at_delimiter ML trim t b r -> live t -> quiet t ->
  read_entry_full ML trim r = (x, r1) ->
  (forall u w, judges (delimiter b) (rem r) (VBad u w) -> (u < 256)%N -> (w < 256)%N ->
     exists e du dw, x = Err e /\ in_hex du u /\ in_hex dw w /\
       entry_text sh u8 e = bs "unexpected bytes following multipart boundary: " ++ du ++ bs " " ++ dw) /\
  (judges (delimiter b) (rem r) VShort -> exists e, x = Err e /\ entry_text sh u8 e = bs "not enough bytes to verify boundary") /\
  (judges (delimiter b) (rem r) VMissing -> exists e, x = Err e /\ entry_text sh u8 e = bs "unexpected end of request body").
Proof.
  intros ML trim t b r x r1 sh u8 Ha Hl Hq E. destruct (at_delimiter_state _ _ _ _ _ Ha Hl) as (I1 & N1 & S1 & B1 & L1 & Z1).
  unfold read_entry_full in E. destruct (consume_boundary (set_min_buf_size MIN_BUF_SIZE r)) as [y r2] eqn:F.
  assert (Hc : st r = Searching \/ idx r + length (bnd r) + 4 <= Nat.max (length (bnd r) * 2) MIN_BUF_SIZE).
  { right. pose proof (min_after (bnd r) (dashed_length _ (proj1 I1))). lia. }
  pose proof (consume_boundary_verdict r y r2 I1 S1 (live_later _ _ L1 Hl) (quiet_later _ _ L1 Hq) Hc F) as V. rewrite B1 in V.
  assert (HD0 : delimiter b <> []) by discriminate.
  assert (U : forall v v', judges (delimiter b) (rem r) v -> judges (delimiter b) (rem r) v' -> v = v') by (intros; eapply judges_fun; eauto).
  destruct y as [[|]|[k| | |a c]| |]; try tauto.
  - destruct V as [V _]. split; [|split]; intros; match goal with J : judges _ _ _ |- _ => pose proof (U _ _ V J); discriminate end.
  - destruct V as [V _]. split; [|split]; intros; match goal with J : judges _ _ _ |- _ => pose proof (U _ _ V J); discriminate end.
  - injection E as <- <-. split; [|split]; intros; match goal with J : judges _ _ _, J' : judges _ _ _ |- _ => pose proof (U _ _ J J') as Q end;
      try discriminate. eexists. split; reflexivity.
  - injection E as <- <-. split; [|split]; intros; match goal with J : judges _ _ _, J' : judges _ _ _ |- _ => pose proof (U _ _ J J') as Q end;
      try discriminate. eexists. split; reflexivity.
  - injection E as <- <-. split; [|split; intros J; pose proof (U _ _ V J); discriminate].
    intros u w J Lu Lw. pose proof (U _ _ V J) as Q. injection Q as -> ->. exists (inl (EBadBoundary u w)), (hex u), (hex w).
    split; auto. split; [now apply hex_spec|]. split; [now apply hex_spec|]. reflexivity.
Qed.

(** Each kind of text. *)
Example C92_example :
  let say body := match fst (read_entry_full toy true (with_body [Chunk body] (bs "b"))) with
                  | Err e => entry_text (fun _ => bs "io") (bs "utf8") e | _ => [] end in
  let part hd := bs "--b" ++ CRLF ++ hd ++ CRLF ++ CRLF ++ bs "x" ++ CRLF ++ toy_end in
  say (part (bs "X: 1")) = bs """Content-Disposition"" header not found in field headers:" ++ [LF] ++ bs "X: 1" ++ [LF] /\
  say (part (bs "Content-Disposition: form-data")) =
    bs "invalid ""Content-Disposition"" header: expected additional data after Content-Disposition type: form-data" /\
  say (part (bs "content-disposition: file ;name=a")) = bs "invalid ""Content-Disposition"" header: unexpected Content-Disposition value: file " /\
  say (part (bs "Content-Disposition: form-data; id=a")) =
    bs "invalid ""Content-Disposition"" header: expected field name and maybe filename, got: ; id=a" /\
  say (part (bs "X 1")) = bs "an error occurred while parsing field headers: invalid header name" /\
  say (bs "--b*" ++ [10%N]) = bs "unexpected bytes following multipart boundary: 2A A" /\
  say (bs "--b*") = bs "not enough bytes to verify boundary" /\
  say (bs "none") = bs "unexpected end of request body".
Proof. vm_compute. repeat split. Qed.
