(** Property theorems about field headers (C14-C18) and [next_entry_inplace] (C51). *)

From Verif Require Import Bytes BytesProofs Spec HeaderSpec Io Boundary BoundaryProofs Utf8 Utf8Proofs Httparse HttparseProofs
  Field FieldProofs ContentProofs EntryProofs ReaderProofs Drive DriveProofs ReachProofs HeaderProofs Toy Inplace DataProofs PropsReader.

(** The part that [read_entry] is about to look at: after the next delimiter, the header block [x] with
    headers [hs], then [rest]. *)
Definition next_block (trim : bool) (b R x : bytes) (hs : list (bytes * bytes)) (rest : bytes) : Prop :=
  exists pre, first_split (delimiter b) R pre (CRLF ++ x ++ rest) /\ header_block trim x hs.

Lemma entry_block ML trim t b r h r1 :
  reached ML trim t b r -> read_entry ML trim r = (Ok (Some h), r1) ->
  exists x hs, next_block trim b (rem r) x hs (rem r1) /\ length hs <= 4 /\
    Forall (fun y => utf8_string (snd y)) hs /\ parse_field_headers ML hs = Ok h.
Proof.
  intros Hr E. pose proof (reached_inv _ _ _ _ _ Hr) as (I1 & _ & B1 & _).
  destruct (read_entry_some_state ML _ _ _ _ I1 E) as [S1 _].
  destruct (read_entry_sound ML _ _ _ _ I1 S1 E) as (pre & q & hs & H1 & H2 & H3 & H4). rewrite B1 in H1.
  apply parse_headers_inv in H2 as (x & -> & Hb & Hl).
  exists x, hs. split; [exists pre; auto|]. split; auto. split; auto. now apply copy_headers_iff.
Qed.

Lemma next_block_fun trim b R x hs rest x' hs' rest' :
  next_block trim b R x hs rest -> next_block trim b R x' hs' rest' -> x = x' /\ hs = hs' /\ rest = rest'.
Proof.
  intros (pre & F & H) (pre' & F' & H').
  destruct (first_split_fun _ _ _ _ _ _ F F') as [_ E]. apply app_inv_head in E.
  destruct (header_block_fun _ _ _ _ _ _ _ H H' E) as [-> ->]. apply app_inv_tail in E. auto.
Qed.

Lemma kept_solid trim v : ~ ends_spaced v -> kept trim v v.
Proof. destruct trim; simpl; auto. intros H. exists []. rewrite app_nil_r. auto. Qed.

Lemma tchars (s : string) : forallb name_token (bs s) = true -> Forall tchar (bs s).
Proof. intros H. apply Forall_forall. intros c Hc. apply name_token_iff. rewrite forallb_forall in H. auto. Qed.

Lemma vchars (s : string) : forallb value_token (bs s) = true -> Forall vchar (bs s).
Proof. intros H. apply Forall_forall. intros c Hc. apply value_token_iff. rewrite forallb_forall in H. auto. Qed.

Lemma ends_quote s : ~ ends_spaced (s ++ bs """").
Proof.
  intros (c & t & H & Hs). apply app_inj_tail in H as [_ <-]. destruct Hs; discriminate.
Qed.

Lemma quoted_vchar s : Forall vchar s -> Forall vchar (quoted s).
Proof. intros H. unfold quoted. repeat (apply Forall_app; split); auto; now apply vchars. Qed.

Lemma disp_vchar name fname :
  plain name -> match fname with Some f => plain f | None => True end -> Forall vchar (disp_value name fname).
Proof.
  intros (N1 & _) F. unfold disp_value. apply Forall_app; split; [now apply vchars|].
  apply Forall_app; split; [now apply quoted_vchar|]. destruct fname as [f|]; auto.
  apply Forall_app; split; [now apply vchars|]. destruct F as (F & _). now apply quoted_vchar.
Qed.

Lemma disp_ends name fname : ~ ends_spaced (disp_value name fname).
Proof.
  unfold disp_value, quoted. destruct fname as [f|]; rewrite ?app_nil_r; rewrite !app_assoc; apply ends_quote.
Qed.

(** A content type as it appears in a header: no control characters, no blanks at the ends. *)
Definition ctype_text (m : bytes) : Prop := Forall vchar m /\ ~ starts_spaced m /\ ~ ends_spaced m.

Definition text_headers (name : bytes) (fname ctype : option bytes) : list (bytes * bytes) :=
  (bs "Content-Disposition", disp_value name fname) ::
  match ctype with Some m => [(bs "Content-Type", m)] | None => [] end.

Lemma head_text_block trim name fname ctype :
  plain name -> match fname with Some f => plain f | None => True end ->
  match ctype with Some m => ctype_text m | None => True end ->
  header_block trim (head_text name fname ctype) (text_headers name fname ctype).
Proof.
  intros Hn Hf Hc. unfold head_text, text_headers.
  assert (L : forall n val x hs, n <> [] -> Forall tchar n -> Forall vchar val -> ~ starts_spaced val -> ~ ends_spaced val ->
    header_block trim x hs -> header_block trim (n ++ bs ":" ++ bs " " ++ val ++ CRLF ++ x) ((n, val) :: hs)).
  { intros n val x hs H1 H2 H3 H4 H5 H6. apply (hb_line trim n (bs " ") val val CRLF); auto.
    - repeat constructor.
    - now apply kept_solid.
    - left; auto. }
  assert (E : header_block trim CRLF []) by (constructor; left; auto).
  assert (S : ~ starts_spaced (disp_value name fname)).
  { intros (c & t & H & Hs). unfold disp_value in H. simpl in H. injection H as <- _. destruct Hs; discriminate. }
  destruct ctype as [m|].
  - destruct Hc as (C1 & C2 & C3).
    change (bs "Content-Disposition: ") with (bs "Content-Disposition" ++ bs ":" ++ bs " ").
    change (bs "Content-Type: ") with (bs "Content-Type" ++ bs ":" ++ bs " ").
    repeat rewrite <- app_assoc.
    apply L; try discriminate; auto using disp_vchar, disp_ends; [apply tchars; reflexivity|].
    apply L; try discriminate; auto. apply tchars; reflexivity.
  - change (bs "Content-Disposition: ") with (bs "Content-Disposition" ++ bs ":" ++ bs " ").
    repeat rewrite <- app_assoc. rewrite app_nil_l.
    apply L; try discriminate; auto using disp_vchar, disp_ends. apply tchars; reflexivity.
Qed.

Lemma same_name_refl a : same_name a a.
Proof. induction a; constructor; auto. left; auto. Qed.

Lemma text_headers_parsed ML name fname ctype :
  plain name -> match fname with Some f => plain f | None => True end ->
  parse_field_headers ML (text_headers name fname ctype) =
  match ctype with
  | None => Ok (mkFH ML name fname None)
  | Some m => match mime_parse ML m with
              | Some mm => Ok (mkFH ML name fname (Some mm))
              | None => Err PMime
              end
  end.
Proof.
  intros (_ & N1 & N2 & N3) Hf. unfold parse_field_headers.
  rewrite (parse_content_disp_written (text_headers name fname ctype) name [] fname []); auto.
  - unfold parse_content_type, text_headers, find_header. destruct ctype as [m|].
    + change (find _ _) with (Some (bs "Content-Type", m)). cbn [option_map snd]. destruct (mime_parse ML m); reflexivity.
    + change (find _ _) with (@None (bytes * bytes)). reflexivity.
  - exists [], (bs "Content-Disposition"), (match ctype with Some m => [(bs "Content-Type", m)] | None => [] end).
    split; [|split; [apply same_name_refl|intros h []]]. unfold text_headers, disp_value, params.
    destruct fname; simpl; rewrite ?app_nil_r; reflexivity.
  - left; auto.
  - left; auto.
  - intros i Hi. apply occurs_at_sw in Hi as [_ Hi]. rewrite skipn_nil in Hi. discriminate.
  - destruct fname as [f|]; auto. destruct Hf as (_ & ? & ? & ?). auto.
Qed.

(** ** C14: Content-Disposition is parsed as written *)

(** Whatever the chunking and the history: if the next part has the header block
    [Content-Disposition: form-data; name="N"[; filename="F"]] [[Content-Type: M]], then an entry that is
    returned has name N, file name F and content type M. *)
Theorem C14_as_written : forall ML trim t b r h r1 name fname ctype pre rest,
  reached ML trim t b r -> read_entry ML trim r = (Ok (Some h), r1) ->
  first_split (delimiter b) (rem r) pre (CRLF ++ head_text name fname ctype ++ rest) ->
  plain name -> match fname with Some f => plain f | None => True end ->
  match ctype with Some m => ctype_text m | None => True end ->
  fh_name ML h = name /\ fh_filename ML h = fname /\
  match ctype with
  | None => fh_ctype ML h = None
  | Some m => exists mm, mime_parse ML m = Some mm /\ fh_ctype ML h = Some mm
  end /\ rem r1 = rest.
Proof.
  intros ML trim t b r h r1 name fname ctype pre rest Hr E FS Hn Hf Hc.
  destruct (entry_block _ _ _ _ _ _ _ Hr E) as (x & hs & Hb & _ & _ & Hp).
  assert (Hb' : next_block trim b (rem r) (head_text name fname ctype) (text_headers name fname ctype) rest).
  { exists pre. split; auto. now apply head_text_block. }
  destruct (next_block_fun _ _ _ _ _ _ _ _ _ Hb Hb') as (_ & -> & ->).
  rewrite text_headers_parsed in Hp by auto. destruct ctype as [m|].
  - destruct (mime_parse ML m) as [mm|]; [|discriminate]. injection Hp as <-. simpl. split; auto. split; auto. split; eauto.
  - injection Hp as <-. simpl. auto.
Qed.

(** And the entry is returned, on a transport without failures, provided the block fits in the buffer
    threshold, its strings are UTF-8, and the content type parses. *)
Theorem C14_returned : forall ML trim t b r name fname ctype pre rest c,
  reached ML trim t b r -> live t -> quiet t -> st r = Searching ->
  first_split (delimiter b) (rem r) pre (CRLF ++ head_text name fname ctype ++ rest) ->
  content (delimiter b) (head_text name fname ctype ++ rest) (head_text name fname ctype ++ c) ->
  plain name -> utf8_string name ->
  match fname with Some f => plain f /\ utf8_string f | None => True end ->
  match ctype with Some m => ctype_text m /\ utf8_string m /\ mime_parse ML m <> None | None => True end ->
  length (head_text name fname ctype) + length b + 3 <= MIN_BUF_SIZE ->
  exists h r1, read_entry ML trim r = (Ok (Some h), r1).
Proof.
  intros ML trim t b r name fname ctype pre rest c Hr Hl Hq Hst FS Hcont Hn Un Hf Hc Hm.
  pose proof (reached_inv _ _ _ _ _ Hr) as (I1 & N1 & B1 & L1 & _).
  assert (Hf' : match fname with Some f => plain f | None => True end) by (destruct fname; tauto).
  assert (Hc' : match ctype with Some m => ctype_text m | None => True end) by (destruct ctype; tauto).
  assert (U : forall s, forallb (fun c => c <? 128)%N (bs s) = true -> utf8_string (bs s)).
  { intros s Hs. exists (bs s). split.
    - apply Forall_forall. intros d Hd. rewrite forallb_forall in Hs. specialize (Hs d Hd). left. lia.
    - clear - Hs. induction (bs s) as [|d l IH]; auto. cbn [forallb] in Hs. apply andb_true_iff in Hs as [H1 H2].
      cbn [map concat]. unfold encode_char at 1. rewrite H1. simpl. f_equal. auto. }
  assert (UQ : forall s, utf8_string s -> utf8_string (quoted s)).
  { intros s Hs. unfold quoted. apply utf8_string_app; [now apply U|]. apply utf8_string_app; auto. }
  destruct (read_entry_field ML trim r pre (head_text name fname ctype) rest (head_text name fname ctype ++ c)
              (text_headers name fname ctype)) as (r1 & E & _); auto.
  - congruence.
  - eapply live_later; eauto.
  - eapply quiet_later; eauto.
  - now rewrite B1.
  - now rewrite B1.
  - rewrite app_length. lia.
  - rewrite B1. unfold delimiter. rewrite app_length. change (length DASHES) with 2. lia.
  - apply parse_headers_block; [now apply head_text_block|]. unfold HEADER_LEN, text_headers. destruct ctype; simpl; lia.
  - apply copy_headers_iff. unfold text_headers. constructor.
    + simpl. unfold disp_value. apply utf8_string_app; [now apply U|]. apply utf8_string_app; auto.
      destruct fname as [f|]; [|apply utf8_string_nil]. apply utf8_string_app; [now apply U|]. apply UQ; tauto.
    + destruct ctype as [m|]; constructor; [|constructor]. simpl. tauto.
  - rewrite text_headers_parsed in E by auto. destruct ctype as [m|]; [|eauto].
    destruct Hc as (_ & _ & Hc). destruct (mime_parse ML m); [eauto|congruence].
Qed.

Example C14_example :
  let hd := head_text (bs "up load") (Some (bs "a""b=c.txt")) (Some (bs "text/plain")) in
  let t := [Chunk (bs "--b" ++ CRLF ++ firstn 20 hd); Chunk (skipn 20 hd ++ bs "data" ++ CRLF ++ toy_end)] in
  plain (bs "up load") /\ plain (bs "a""b=c.txt") /\ ctype_text (bs "text/plain") /\
  first_split (delimiter (bs "b")) (stream t) [] (CRLF ++ hd ++ bs "data" ++ CRLF ++ toy_end) /\
  fst (read_entry toy true (with_body t (bs "b"))) =
    Ok (Some (mkFH toy (bs "up load") (Some (bs "a""b=c.txt")) (Some (bs "text/plain")))).
Proof.
  assert (P : forall s, forallb (fun c => value_token c && negb (c =? 59))%N (bs s) = true ->
    hd_error (bs s) <> Some 34%N -> hd_error (rev (bs s)) <> Some 34%N -> plain (bs s)).
  { intros s H1 H2 H3. rewrite forallb_forall in H1. repeat split.
    - apply Forall_forall. intros c Hc. specialize (H1 c Hc). apply andb_true_iff in H1. now apply value_token_iff.
    - intros Hc. specialize (H1 _ Hc). apply andb_true_iff in H1 as [_ H1]. discriminate.
    - intros u E. rewrite E in H2. apply H2. reflexivity.
    - intros u E. rewrite E, rev_app_distr in H3. apply H3. reflexivity. }
  cbv zeta. split; [apply P; try reflexivity; vm_compute; discriminate|].
  split; [apply P; try reflexivity; vm_compute; discriminate|].
  split.
  { split; [now apply vchars|]. split.
    - intros (c & u & H & Hs). vm_compute in H. injection H as <- _. destruct Hs; discriminate.
    - intros (c & u & H & Hs). apply (f_equal (@rev N)) in H. rewrite rev_app_distr in H. vm_compute in H.
      injection H as <- _. destruct Hs; discriminate. }
  split; [apply find_split; vm_compute; reflexivity|]. vm_compute. reflexivity.
Qed.

(** ** C15: parameter order *)

(** False of the code. *)
Theorem C15_refuted : exists name fname h r1,
  read_entry toy true (with_body
    [Chunk (bs "--b" ++ CRLF ++ bs "Content-Disposition: form-data; filename=" ++ quoted fname ++ bs "; name=" ++ quoted name ++
            CRLF ++ CRLF ++ bs "data" ++ CRLF ++ toy_end)] (bs "b")) = (Ok (Some h), r1) /\
  fh_name toy h <> name /\ fh_filename toy h <> Some fname.
Proof.
  exists (bs "n"), (bs "f.txt"). eexists _, _. split; [vm_compute; reflexivity|]. split; vm_compute; discriminate.
Qed.

(** Worse, for every pair of strings the name of [filename="F"; name="N"] is F and there is no file name. *)
Theorem C15_reversed_partial : forall ML trim t b r h r1 hs x rest name fname,
  reached ML trim t b r -> read_entry ML trim r = (Ok (Some h), r1) ->
  next_block trim b (rem r) x hs rest ->
  header_value hs (bs "Content-Disposition") (bs "form-data; filename=" ++ quoted fname ++ bs "; name=" ++ quoted name) ->
  plain fname -> plain name -> absent (bs "filename=") (bs "; name=" ++ quoted name) ->
  fh_name ML h = fname /\ fh_filename ML h = None.
Proof.
  intros ML trim t b r h r1 hs x rest name fname Hr E Hb Hv (_ & F1 & F2 & F3) _ Ha.
  destruct (entry_block _ _ _ _ _ _ _ Hr E) as (x' & hs' & Hb' & _ & _ & Hp).
  destruct (next_block_fun _ _ _ _ _ _ _ _ _ Hb Hb') as (_ & <- & _).
  unfold parse_field_headers in Hp. rewrite (parse_content_disp_reversed hs name fname) in Hp by auto.
  destruct (parse_content_type ML hs); try discriminate. injection Hp as <-. auto.
Qed.

(** Part that holds: with [name] first, parameters other than [filename] may stand anywhere after it. *)
Theorem C15_extra_params_partial : forall ML trim t b r h r1 hs x rest name mid fname tail,
  reached ML trim t b r -> read_entry ML trim r = (Ok (Some h), r1) ->
  next_block trim b (rem r) x hs rest ->
  header_value hs (bs "Content-Disposition")
    (bs "form-data; name=" ++ quoted name ++ mid ++ bs "; filename=" ++ quoted fname ++ tail) ->
  plain name -> plain fname -> cut mid -> cut tail -> absent (bs "filename=") mid ->
  fh_name ML h = name /\ fh_filename ML h = Some fname.
Proof.
  intros ML trim t b r h r1 hs x rest name mid fname tail Hr E Hb Hv (_ & N1 & N2 & N3) (_ & F1 & F2 & F3) M1 T1 Ha.
  destruct (entry_block _ _ _ _ _ _ _ Hr E) as (x' & hs' & Hb' & _ & _ & Hp).
  destruct (next_block_fun _ _ _ _ _ _ _ _ _ Hb Hb') as (_ & <- & _).
  unfold parse_field_headers in Hp. rewrite (parse_content_disp_written hs name mid (Some fname) tail) in Hp by auto.
  destruct (parse_content_type ML hs); try discriminate. injection Hp as <-. auto.
Qed.

Example C15_example :
  fst (read_entry toy true (with_body
    [Chunk (bs "--b" ++ CRLF ++ bs "Content-Disposition: form-data; name=""n""; size=10; filename=""f.txt""; x=y" ++ CRLF ++ CRLF ++
            bs "data" ++ CRLF ++ toy_end)] (bs "b")))
  = Ok (Some (mkFH toy (bs "n") (Some (bs "f.txt")) None)).
Proof. vm_compute. reflexivity. Qed.

(** ** C16: what every entry has *)
Theorem C16_entry_requirements : forall ML trim t b r h r1,
  reached ML trim t b r -> read_entry ML trim r = (Ok (Some h), r1) ->
  exists x hs v ps i,
    next_block trim b (rem r) x hs (rem r1) /\ length hs <= 4 /\ Forall (fun y => utf8_string (snd y)) hs /\
    header_value hs (bs "Content-Disposition") v /\ form_data v ps /\ occurs_at (bs "name=") ps i /\
    (fh_ctype ML h = None \/ exists m mm, header_value hs (bs "Content-Type") m /\ mime_parse ML m = Some mm /\ fh_ctype ML h = Some mm).
Proof.
  intros ML trim t b r h r1 Hr E.
  destruct (entry_block _ _ _ _ _ _ _ Hr E) as (x & hs & Hb & Hl & Hu & Hp).
  unfold parse_field_headers in Hp. destruct (parse_content_disp hs) as [[name fname]| | |] eqn:D; try discriminate.
  apply parse_content_disp_inv in D as (v & ps & Hv & Hf & a & s & u & P & _).
  exists x, hs, v, ps, (length a). split; auto. split; auto. split; auto. split; auto. split; auto.
  split; [exists a, (s ++ u); auto|].
  unfold parse_content_type in Hp. destruct (find_header hs (bs "Content-Type")) as [m|] eqn:F.
  - destruct (mime_parse ML m) as [mm|] eqn:M; [|discriminate]. injection Hp as <-. right. exists m, mm.
    split; [now apply find_header_some|]. auto.
  - injection Hp as <-. left. reflexivity.
Qed.

(** Otherwise: after a delimiter that starts a field, the result is an entry or [InvalidData]. *)
Theorem C16_otherwise_invalid : forall ML trim t b r q x r1,
  reached ML trim t b r -> live t -> quiet t -> st r = Searching ->
  judges (delimiter b) (rem r) (VField q) -> read_entry ML trim r = (x, r1) ->
  (exists h, x = Ok (Some h)) \/ exists e, x = Err e /\ eerr_kind e = KInvalidData.
Proof.
  intros ML trim t b r q x r1 Hr Hl Hq Hst J E.
  pose proof (reached_inv _ _ _ _ _ Hr) as (I1 & N1 & B1 & L1 & _). rewrite <- B1 in J.
  pose proof (read_entry_inv ML _ _ _ _ I1 E) as (_ & _ & _ & _ & P).
  unfold read_entry in E. destruct (consume_boundary (set_min_buf_size MIN_BUF_SIZE r)) as [y r2] eqn:F.
  assert (V := consume_boundary_verdict r y r2 I1 ltac:(congruence) (live_later _ _ L1 Hl) (quiet_later _ _ L1 Hq) (or_introl Hst) F).
  pose proof (dashed_nonnil _ (proj1 I1)) as HD0.
  destruct y as [[|]|[k| | |a c]| |]; try tauto.
  - destruct (read_headers ML trim r2) as [z r3] eqn:G. destruct z; injection E as <- <-; eauto; exfalso; tauto.
  - destruct V as [V _]. pose proof (judges_fun _ _ _ _ HD0 V J). discriminate.
  - pose proof (judges_fun _ _ _ _ HD0 V J); discriminate.
  - pose proof (judges_fun _ _ _ _ HD0 V J); discriminate.
  - pose proof (judges_fun _ _ _ _ HD0 V J); discriminate.
Qed.

Lemma at_delimiter_reached ML trim t b r : at_delimiter ML trim t b r -> reached ML trim t b r.
Proof.
  intros [-> | (h & r1 & os & n & ob & Hf & _ & _ & H)]; [exists [], []; reflexivity|].
  destruct (at_field_reached _ _ _ _ _ _ Hf) as ((os0 & ob0 & R) & _).
  exists (os0 ++ os ++ [ORead n]), (ob0 ++ ob ++ [BRead ML (Ok [])]).
  destruct (run ML trim (os0 ++ os ++ [ORead n]) (with_body t b)) as [ob' r'] eqn:E.
  apply run_app in E as (b1 & q & b2 & E1 & E2 & ->). congruence.
Qed.

(** What the headers of a part must be. *)
Definition acceptable (ML : mime_lib) (hs : list (bytes * bytes)) : Prop :=
  Forall (fun y => utf8_string (snd y)) hs /\
  (exists v ps i, header_value hs (bs "Content-Disposition") v /\ form_data v ps /\ occurs_at (bs "name=") ps i) /\
  (forall m, header_value hs (bs "Content-Type") m -> mime_parse ML m <> None).

(** Exactly then the part is returned, if its header block has at most four headers and fits the buffer. *)
Theorem C16_exact : forall ML trim t b r x hs rest c y r1,
  at_delimiter ML trim t b r -> live t -> quiet t ->
  next_block trim b (rem r) x hs rest -> content (delimiter b) (x ++ rest) (x ++ c) ->
  length hs <= 4 -> length x + length b + 3 <= MIN_BUF_SIZE ->
  read_entry ML trim r = (y, r1) ->
  (acceptable ML hs /\ exists h, y = Ok (Some h)) \/
  (~ acceptable ML hs /\ exists e, y = Err e /\ eerr_kind e = KInvalidData).
Proof.
  intros ML trim t b r x hs rest c y r1 Ha Hl Hq Hb Hc Hn Hx E.
  destruct Hb as (pre & FS & HB).
  assert (V : (exists h, y = Ok (Some h)) \/ exists e, y = Err e /\ eerr_kind e = KInvalidData).
  { destruct (C06_classification _ _ _ _ _ _ _ Ha Hl Hq E) as (v & J & V).
    assert (v = VField (x ++ rest)) as ->. { eapply C06_unique; eauto. exists pre. exact FS. }
    destruct V as [V|(e & ->)]; eauto. }
  assert (A : acceptable ML hs -> exists h, y = Ok (Some h)).
  { intros (U & (v & ps & i & Hv & Hf & Ho) & Hm).
    destruct (parse_content_disp_ok _ _ _ _ Hv Hf Ho) as (name & fname & P).
    assert (exists h, parse_field_headers ML hs = Ok h) as (h & Ph).
    { unfold parse_field_headers. rewrite P. unfold parse_content_type.
      destruct (find_header hs (bs "Content-Type")) as [m|] eqn:F; [|eauto].
      apply find_header_some in F. specialize (Hm m F). destruct (mime_parse ML m); [eauto|congruence]. }
    destruct (C13_complete_partial ML trim t b r pre x rest c hs) as (r2 & E2 & _); auto.
    - apply parse_headers_block; auto.
    - now apply copy_headers_iff.
    - rewrite Ph in E2. exists h. congruence. }
  destruct V as [(h & ->)|(e & -> & K)].
  - left. split; [|eauto].
    destruct (entry_block _ _ _ _ _ _ _ (at_delimiter_reached _ _ _ _ _ Ha) E) as (x' & hs' & Hb' & _ & U & P).
    assert (Hb : next_block trim b (rem r) x hs rest) by (exists pre; auto).
    destruct (next_block_fun _ _ _ _ _ _ _ _ _ Hb Hb') as (_ & <- & _).
    split; auto. unfold parse_field_headers in P.
    destruct (parse_content_disp hs) as [[name fname]| | |] eqn:D; try discriminate. split.
    + apply parse_content_disp_inv in D as (v & ps & Hv & Hf & a & s & u & Q & _).
      exists v, ps, (length a). split; auto. split; auto. exists a, (s ++ u). auto.
    + intros m Hm. apply find_header_some in Hm. unfold parse_content_type in P. rewrite Hm in P.
      destruct (mime_parse ML m); [discriminate|]. discriminate P.
  - right. split; eauto. intros C. destruct (A C). discriminate.
Qed.

(** A block with five headers, one whose disposition is not form-data, one without a name: [InvalidData]. *)
Example C16_example :
  let try hd := match fst (read_entry toy true (with_body [Chunk (bs "--b" ++ CRLF ++ hd ++ CRLF ++ bs "x" ++ CRLF ++ toy_end)] (bs "b"))) with
                | Err e => Some (eerr_kind e) | _ => None end in
  let line s := s ++ CRLF in
  try (line (bs "Content-Disposition: form-data; name=a")) = None /\
  try (line (bs "A: 1") ++ line (bs "B: 2") ++ line (bs "C: 3") ++ line (bs "D: 4") ++ line (bs "Content-Disposition: form-data; name=a")) = Some KInvalidData /\
  try (line (bs "Content-Disposition: attachment; name=a")) = Some KInvalidData /\
  try (line (bs "Content-Disposition: form-data; id=a")) = Some KInvalidData /\
  try (bs "Content-Disposition: form-data; name=" ++ [255%N] ++ CRLF) = Some KInvalidData.
Proof. vm_compute. repeat split. Qed.

(** ** C17: header names are case-insensitive *)
Theorem C17_case_insensitive : forall ML trim t b r h r1 t' b' r' h' r1' x hs rest x' hs' rest',
  reached ML trim t b r -> read_entry ML trim r = (Ok (Some h), r1) -> next_block trim b (rem r) x hs rest ->
  reached ML trim t' b' r' -> read_entry ML trim r' = (Ok (Some h'), r1') -> next_block trim b' (rem r') x' hs' rest' ->
  same_headers hs hs' -> h = h'.
Proof.
  intros ML trim t b r h r1 t' b' r' h' r1' x hs rest x' hs' rest' R1 E1 B1 R2 E2 B2 S.
  destruct (entry_block _ _ _ _ _ _ _ R1 E1) as (y & ks & C1 & _ & _ & P1).
  destruct (entry_block _ _ _ _ _ _ _ R2 E2) as (y' & ks' & C2 & _ & _ & P2).
  destruct (next_block_fun _ _ _ _ _ _ _ _ _ B1 C1) as (_ & <- & _).
  destruct (next_block_fun _ _ _ _ _ _ _ _ _ B2 C2) as (_ & <- & _).
  rewrite (parse_field_headers_same ML _ _ S) in P1. congruence.
Qed.

(** Nor does the case decide whether the part is accepted. *)
Theorem C17_outcome : forall ML trim t b r x hs rest c t' b' r' x' hs' rest' c',
  at_delimiter ML trim t b r -> live t -> quiet t -> next_block trim b (rem r) x hs rest ->
  content (delimiter b) (x ++ rest) (x ++ c) -> length x + length b + 3 <= MIN_BUF_SIZE ->
  at_delimiter ML trim t' b' r' -> live t' -> quiet t' -> next_block trim b' (rem r') x' hs' rest' ->
  content (delimiter b') (x' ++ rest') (x' ++ c') -> length x' + length b' + 3 <= MIN_BUF_SIZE ->
  same_headers hs hs' -> length hs <= 4 ->
  (exists h r1 r1', read_entry ML trim r = (Ok (Some h), r1) /\ read_entry ML trim r' = (Ok (Some h), r1')) \/
  (exists e r1 e' r1', read_entry ML trim r = (Err e, r1) /\ read_entry ML trim r' = (Err e', r1') /\
     eerr_kind e = KInvalidData /\ eerr_kind e' = KInvalidData).
Proof.
  intros ML trim t b r x hs rest c t' b' r' x' hs' rest' c' Ha Hl Hq Hb Hc Hx Ha' Hl' Hq' Hb' Hc' Hx' Hs Hn.
  destruct (read_entry ML trim r) as [y r1] eqn:E. destruct (read_entry ML trim r') as [y' r1'] eqn:E'.
  assert (Hn' : length hs' <= 4).
  { replace (length hs') with (length hs); auto. clear - Hs. induction Hs; cbn [length]; congruence. }
  pose proof (C16_exact _ _ _ _ _ _ _ _ _ _ _ Ha Hl Hq Hb Hc Hn Hx E) as O.
  pose proof (C16_exact _ _ _ _ _ _ _ _ _ _ _ Ha' Hl' Hq' Hb' Hc' Hn' Hx' E') as O'.
  assert (V : forall n v, header_value hs n v <-> header_value hs' n v).
  { intros n v. rewrite <- !find_header_some. now rewrite (find_header_same _ _ n Hs). }
  assert (U : Forall (fun z => utf8_string (snd z)) hs <-> Forall (fun z => utf8_string (snd z)) hs').
  { clear - Hs. induction Hs as [|z z' l l' [_ Hz] _ IH]; [tauto|]. split; intros F; inversion_clear F; constructor;
      try (rewrite <- Hz || rewrite Hz; auto); apply IH; auto. }
  assert (A : acceptable ML hs <-> acceptable ML hs').
  { unfold acceptable. rewrite U. setoid_rewrite V. tauto. }
  destruct O as [(A1 & h & ->)|(A1 & e & -> & K)], O' as [(A2 & h' & ->)|(A2 & e' & -> & K')]; try tauto.
  - left. exists h, r1, r1'. split; auto.
    replace h with h'; auto. symmetry.
    exact (C17_case_insensitive _ _ _ _ _ _ _ _ _ _ _ _ _ _ _ _ _ _
      (at_delimiter_reached _ _ _ _ _ Ha) E Hb (at_delimiter_reached _ _ _ _ _ Ha') E' Hb' Hs).
  - right. exists e, r1, e', r1'. auto.
Qed.

Example C17_example :
  let body n := bs "--b" ++ CRLF ++ n ++ bs ": form-data; name=""x""" ++ CRLF ++ CRLF ++ bs "data" ++ CRLF ++ toy_end in
  same_name (bs "Content-Disposition") (bs "CONTENT-disposition") /\
  fst (read_entry toy true (with_body [Chunk (body (bs "Content-Disposition"))] (bs "b"))) = Ok (Some (mkFH toy (bs "x") None None)) /\
  fst (read_entry toy true (with_body [Chunk (body (bs "CONTENT-disposition"))] (bs "b"))) = Ok (Some (mkFH toy (bs "x") None None)).
Proof. split; [apply eq_ignore_case_iff; reflexivity|]. split; vm_compute; reflexivity. Qed.

(** ** C18: names and file names are UTF-8 *)
Theorem C18_utf8 : forall ML trim t b h r,
  at_field ML trim t b h r ->
  utf8_string (fh_name ML h) /\ match fh_filename ML h with Some f => utf8_string f | None => True end.
Proof.
  intros ML trim t b h r (os & ob & r0 & H & E).
  destruct (entry_block ML trim t b r0 h r) as (x & hs & _ & _ & Hu & Hp); auto; [exists os, ob; auto|].
  unfold parse_field_headers in Hp. destruct (parse_content_disp hs) as [[name fname]| | |] eqn:D; try discriminate.
  destruct (parse_content_type ML hs); try discriminate. injection Hp as <-. simpl.
  eapply parse_content_disp_utf8; eauto.
Qed.

Example C18_example : exists r,
  at_field toy true [Chunk (bs "--b" ++ CRLF ++ bs "Content-Disposition: form-data; name=""" ++ [195; 169]%N ++ bs """" ++ CRLF ++ CRLF ++
                            [255]%N ++ CRLF ++ toy_end)] (bs "b") (mkFH toy [195; 169]%N None None) r.
Proof. eexists. eexists [], [], (with_body _ (bs "b")). split; [reflexivity|]. vm_compute. reflexivity. Qed.

(** ** C51: [next_entry_inplace] *)

Lemma fstep_refines ML trim o h r :
  inv r ->
  let '(x, r1) := step ML trim o r in
  fstep ML trim o (mkMF ML h (Some r)) =
    (Some x, mkMF ML (match x with BNext _ (Ok (Some h')) => h' | _ => h end) (Some r1)).
Proof.
  intros Hi. destruct (step ML trim o r) as [x r1] eqn:E.
  pose proof (step_inv ML _ _ _ _ _ Hi E) as (_ & _ & _ & P).
  destruct o as [n| |n|n|]; unfold fstep; cbn [mf_inner mf_headers]; rewrite ?E; cbn [step] in E.
  - destruct (read n r). injection E as <- <-. reflexivity.
  - destruct (read_to_boundary r). injection E as <- <-. reflexivity.
  - injection E as <- <-. reflexivity.
  - injection E as <- <-. reflexivity.
  - unfold next_entry_inplace, take_inner. cbn [mf_inner mf_headers].
    destruct (read_entry ML trim r) as [y r2]. injection E as <- <-. simpl in P.
    destruct y as [[h'|]|e| |]; try reflexivity; exfalso; tauto.
Qed.

(** In every history of calls on a field, each call returns (no [inner taken] panic, nor any other), the
    field owns its reader afterwards, and the results are those of the same calls on the [Multipart]; the
    headers are those of the last entry returned. *)
Theorem C51_inplace : forall ML trim t b h r os,
  at_field ML trim t b h r ->
  let '(xs, f) := frun ML trim os (mkMF ML h (Some r)) in
  let '(ob, r') := run ML trim os r in
  xs = map Some ob /\ mf_inner ML f = Some r' /\
  mf_headers ML f = fold_left (fun h x => match x with BNext _ (Ok (Some h')) => h' | _ => h end) ob h.
Proof.
  intros ML trim t b h r os Hf. destruct (at_field_reached _ _ _ _ _ _ Hf) as (R1 & _).
  pose proof (reached_inv _ _ _ _ _ R1) as (I1 & _). clear Hf R1.
  revert h r I1; induction os as [|o os IH]; intros h r I1; cbn [frun run].
  - auto.
  - pose proof (fstep_refines ML trim o h r I1) as F. destruct (step ML trim o r) as [x r1] eqn:E. rewrite F.
    pose proof (step_inv ML _ _ _ _ _ I1 E) as (I2 & _).
    specialize (IH (match x with BNext _ (Ok (Some h')) => h' | _ => h end) r1 I2).
    destruct (frun ML trim os _) as [xs f]. destruct (run ML trim os r1) as [ob r'].
    destruct IH as (-> & -> & H). repeat split; auto.
Qed.

Example C51_example :
  let t := [Chunk (toy_part (bs "a") (bs "x") ++ toy_part (bs "c") (bs "y") ++ toy_end)] in
  exists r, at_field toy true t (bs "b") (mkFH toy (bs "a") None None) r /\
  let '(xs, f) := frun toy true [ORead 10; ONext; ONext; ONext; ORead 1] (mkMF toy (mkFH toy (bs "a") None None) (Some r)) in
  xs = [Some (BRead toy (Ok (bs "x"))); Some (BNext toy (Ok (Some (mkFH toy (bs "c") None None)))); Some (BNext toy (Ok None));
        Some (BNext toy (Ok None)); Some (BRead toy (Ok []))] /\
  mf_headers toy f = mkFH toy (bs "c") None None.
Proof.
  cbv zeta. eexists. split.
  - eexists [], [], (with_body _ (bs "b")). split; [reflexivity|]. vm_compute. reflexivity.
  - vm_compute. split; reflexivity.
Qed.
