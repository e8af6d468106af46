(** Property theorems about the lazy client (C22, C24-C27, C29, C59-C61). *)

From Verif Require Import Bytes BytesProofs Spec Io Boundary BoundaryProofs Utf8 Utf8Proofs Httparse Field FieldProofs ContentProofs ShortProofs EntryProofs Drive DriveProofs
  HeaderSpec HeaderProofs PropsHeader Rand Fs CompleteProofs EntriesProofs PropsReader Toy WireSpec WireProofs Client ClientProofs PropsClient Lazy LazyProofs.

(** The body of a form: texts in order, then the other fields in reverse order. *)
Definition lazy_body_of (ML : mime_lib) (guess : path -> mime ML) (g : rng) (fs : lazy_form (mime ML)) : bytes :=
  lazy_wire (boundary_of g) (map (describe_lazy ML guess) (lazy_order ML fs)).

Lemma prepare_ok ML guess g fs s g1 fs1 : prepare ML guess g fs = (inr s, g1, fs1) -> from_fields ML guess g fs = (inr s, g1).
Proof. unfold prepare. destruct (from_fields ML guess g fs). intros H; injection H as -> -> <-. reflexivity. Qed.

Lemma gen_boundary_of g : fst (gen_boundary g) = boundary_of g.
Proof. reflexivity. Qed.

(** ** C24: the bytes of the body *)

(** Calls of [read] with buffers of the given sizes, up to the first error. *)
Fixpoint reads (sizes : list nat) (s : prepared) : res iokind (list bytes) * prepared :=
  match sizes with
  | [] => (Ok [], s)
  | n :: sizes' =>
      match lazy_read n s with
      | (Ok d, s1) => match reads sizes' s1 with
                      | (Ok l, s2) => (Ok (d :: l), s2)
                      | x => x
                      end
      | (Err k, s1) => (Err k, s1)
      | (Panic, s1) => (Panic, s1)
      | (OutOfFuel, s1) => (OutOfFuel, s1)
      end
  end.

Lemma reads_calm sizes : forall s, valid s -> all_calm s ->
  exists l s1, reads sizes s = (Ok l, s1) /\ concat l = firstn (list_sum sizes) (pending s) /\ same s s1.
Proof.
  induction sizes as [|n sizes IH]; intros s V C; cbn [reads].
  - exists [], s. split; auto. split; [reflexivity|apply same_refl].
  - destruct (read_calm n s V C) as (s1 & -> & P & V1 & C1 & S1 & _). destruct (IH s1 V1 C1) as (l & s2 & -> & P2 & S2).
    exists (firstn n (pending s) :: l), s2. split; auto. split; [|eapply same_trans; eauto]. cbn [concat list_sum fold_right]. rewrite P2, P.
    fold (list_sum sizes). generalize (list_sum sizes) as m. generalize (pending s) as b. clear. induction n as [|n IH]; intros b m; [reflexivity|].
    destruct b; cbn [firstn skipn app Nat.add]; [now rewrite firstn_nil|]. now rewrite IH.
Qed.

(** However the body is read (any sizes, also 0): the reads give its bytes in order; a call gives fewer
    bytes than fit in its buffer only when the body is at its end. *)
Theorem C24_reads : forall ML guess g fs s g1 fs1 sizes,
  prepare ML guess g fs = (inr s, g1, fs1) -> Forall (lcalm ML) fs ->
  exists l s1, reads sizes s = (Ok l, s1) /\ concat l = firstn (list_sum sizes) (lazy_body_of ML guess g fs).
Proof.
  intros ML guess g fs s g1 fs1 sizes H C. apply prepare_ok, from_fields_ok in H as (_ & V & _ & P & _ & M & _).
  rewrite gen_boundary_of in P. unfold lazy_body_of. rewrite <- P.
  destruct (reads_calm sizes s V (prepared_calm ML fs s M C)) as (l & s1 & E & F & _). eauto.
Qed.

(** Reading until [Ok(0)], the call [k] with a buffer of [sz k] bytes. *)
Fixpoint read_to_end (fuel : nat) (sz : nat -> nat) (k : nat) (s : prepared) : res iokind bytes :=
  match fuel with
  | 0 => OutOfFuel
  | S fuel' =>
      match lazy_read (sz k) s with
      | (Ok [], _) => Ok []
      | (Ok d, s1) => match read_to_end fuel' sz (S k) s1 with
                      | Ok b => Ok (d ++ b)
                      | x => x
                      end
      | (x, _) => x
      end
  end.

Lemma to_end_calm sz fuel : (forall k, 0 < sz k) -> forall k s, valid s -> all_calm s -> length (pending s) < fuel ->
  read_to_end fuel sz k s = Ok (pending s).
Proof.
  intros Hsz. induction fuel as [|fuel IH]; intros k s V C L; [lia|]. cbn [read_to_end]. specialize (Hsz k) as Hk.
  destruct (read_calm (sz k) s V C) as (s1 & -> & P & V1 & C1 & _). destruct (firstn (sz k) (pending s)) as [|d0 d] eqn:F.
  - destruct (pending s); auto. destruct (sz k); [lia|discriminate].
  - assert (E : pending s = (d0 :: d) ++ pending s1) by (rewrite <- F, P; symmetry; apply firstn_skipn).
    rewrite IH; auto; [now rewrite E|]. rewrite E, app_length in L. cbn [length] in L. lia.
Qed.

Theorem C24_to_end : forall ML guess g fs s g1 fs1 sz fuel,
  prepare ML guess g fs = (inr s, g1, fs1) -> Forall (lcalm ML) fs -> (forall k, 0 < sz k) ->
  length (lazy_body_of ML guess g fs) < fuel ->
  read_to_end fuel sz 0 s = Ok (lazy_body_of ML guess g fs).
Proof.
  intros ML guess g fs s g1 fs1 sz fuel H C Hsz L. apply prepare_ok, from_fields_ok in H as (_ & V & _ & P & _ & M & _).
  rewrite gen_boundary_of in P. unfold lazy_body_of in *. rewrite <- P in *. apply to_end_calm; auto. eapply prepared_calm; eauto.
Qed.

(** The same through [send]: the stream receives the body of the form, with its boundary. *)
Lemma boundary_full s b : c_data (s_end s) = (CRLF ++ DASHES ++ b) ++ DASHES -> boundary_str s = Ok b.
Proof.
  intros E. unfold boundary_str. rewrite E. rewrite !app_length. change (length CRLF) with 2. change (length DASHES) with 2.
  destruct (Nat.ltb_spec (2 + (2 + length b) + 2) 6) as [L|L]; [lia|]. f_equal.
  cbn [CRLF DASHES app skipn]. replace (2 + (2 + length b) + 2 - 6) with (length b) by lia.
  rewrite firstn_app, Nat.sub_diag, firstn_all, app_nil_r. reflexivity.
Qed.

Lemma boundary_empty s : c_data (s_end s) = [] -> boundary_str s = Panic.
Proof. intros E. unfold boundary_str. rewrite E. reflexivity. Qed.

Theorem C24_send : forall ML guess g fs q q' fs',
  lazy_send ML guess g fs q = (Ok tt, q', fs') -> Forall (fun f => kinds (fun k => k <> KInterrupted) (l_source ML f)) fs ->
  exists len ds, q_log q' = q_log q ++ [CApply (boundary_of g) len; COpen] ++ map CWrite ds ++ [CFinish] /\
    concat ds = lazy_body_of ML guess g fs.
Proof.
  intros ML guess g fs q q' fs' H C. unfold lazy_send, prepare in H.
  destruct (from_fields ML guess g fs) as [[e|s] g1] eqn:F; [discriminate|].
  apply from_fields_ok in F as (_ & V & St & P & En & M & _). rewrite gen_boundary_of in *.
  destruct fs as [|f0 fs0]; [rewrite (boundary_empty s En) in H; discriminate|].
  rewrite (boundary_full s _ En) in H. unfold apply_headers, open_http in H. cbn [logged q_open] in H.
  destruct (q_open q) as [k|]; [discriminate|].
  destruct (copy_prepared _ COPY_BUF s _) as [[x s1] q3] eqn:Y.
  apply copy_prefix in Y as (d & (_ & _ & _ & ds & L & D) & _ & Ed); [|unfold COPY_BUF; lia|auto|eapply prepared_kinds; eauto].
  destruct x as [[]|k| |]; try discriminate. unfold finish_http in H. destruct (q_finish q3); [discriminate|].
  injection H as <- <-. cbn [logged q_log]. exists (content_len s), ds. rewrite L. cbn [logged q_log].
  split; [rewrite <- !app_assoc; reflexivity|]. rewrite D, (Ed eq_refl). exact P.
Qed.

Theorem C24_send_succeeds : forall ML guess g fs q,
  fs <> [] -> (forall f k, In f fs -> ~ lfails ML f k) -> Forall (lcalm ML) fs ->
  q_open q = None -> q_finish q = None -> Forall good_write (q_sched q) ->
  exists q', lazy_send ML guess g fs q = (Ok tt, q', []).
Proof.
  intros ML guess g fs q Ne Nf C Ho Hf Hg. unfold lazy_send, prepare. pose proof (from_fields_cases ML guess g fs) as K.
  destruct (from_fields ML guess g fs) as [[e|s] g1] eqn:F.
  { destruct K as (l1 & f & l2 & k & -> & _ & K & _). exfalso. apply (Nf f k); auto. apply in_or_app. right. now left. }
  apply from_fields_ok in F as (_ & V & St & P & En & M & _). rewrite gen_boundary_of in *.
  destruct fs as [|f0 fs0]; [congruence|]. rewrite (boundary_full s _ En). unfold apply_headers, open_http. cbn [logged q_open]. rewrite Ho.
  match goal with |- context [copy_prepared _ _ _ ?q2] => set (q1 := q2) end.
  destruct (copy_calm (S (prepared_size s)) COPY_BUF s q1) as (s1 & q3 & -> & (_ & _ & Q & _) & _); auto.
  - unfold COPY_BUF. lia.
  - eapply prepared_calm; eauto.
  - rewrite start_left by auto. lia.
  - unfold finish_http. rewrite Q. cbn [q1 logged q_finish]. rewrite Hf. eauto.
Qed.

Definition one_file : lfield (mime toy) := mkLF (bs "f") (LFile [bs "tmp"; bs "x.png"] (inr (inr 4%N, [Chunk (bs "da"); Chunk (bs "ta")]))).
Definition one_text : lfield (mime toy) := mkLF (bs "a") (LText (bs "text")).
Definition one_stream : lfield (mime toy) := mkLF (bs "s") (LStream None (bs "t/x") [Chunk (bs "abcdefgh")]).
Definition some_form : lazy_form (mime toy) := [one_file; one_stream; one_text].

Example C24_example :
  Forall (lcalm toy) some_form /\
  exists s g fs1, prepare toy any_guess [] some_form = (inr s, g, fs1) /\
    read_to_end 1000 (fun k => S k) 0 s = Ok (
      CRLF ++ bs "--AAAAAAAAAAAAAAAA" ++ CRLF ++ bs "Content-Disposition: form-data; name=""a""" ++ CRLF ++ CRLF ++ bs "text" ++
      CRLF ++ bs "--AAAAAAAAAAAAAAAA" ++ CRLF ++ bs "Content-Disposition: form-data; name=""s""" ++ CRLF ++
      bs "Content-Type: t/x" ++ CRLF ++ CRLF ++ bs "abcdefgh" ++
      CRLF ++ bs "--AAAAAAAAAAAAAAAA" ++ CRLF ++ bs "Content-Disposition: form-data; name=""f""; filename=""x.png""" ++ CRLF ++
      bs "Content-Type: image/png" ++ CRLF ++ CRLF ++ bs "data" ++
      CRLF ++ bs "--AAAAAAAAAAAAAAAA--").
Proof.
  split; [repeat constructor|]. do 3 eexists. split; [reflexivity|]. vm_compute. reflexivity.
Qed.

(** ** C25: the content length *)

(** The length found in the metadata is the length of what is read. *)
Definition honest {M} (f : lfield M) : Prop :=
  match l_data f with LFile _ (inr (inr n, src)) => n = N.of_nat (length (retried src)) | _ => True end.

(** False: the text fields are not counted. *)
Theorem C25_refuted : exists g fs s g1 fs1 n b,
  prepare toy any_guess g fs = (inr s, g1, fs1) /\ Forall honest fs /\ content_len s = Some n /\
  read_to_end 1000 (fun _ => 100) 0 s = Ok b /\ N.of_nat (length b) <> n.
Proof.
  exists [], [one_text], (snd (let '(x, _, _) := prepare toy any_guess [] [one_text] in
    match x with inr s => (tt, s) | inl _ => (tt, mkPrep (cursor_new []) [] (cursor_new []) None) end)).
  do 4 eexists. split; [vm_compute; reflexivity|]. split; [repeat constructor|]. split; [vm_compute; reflexivity|].
  split; [vm_compute; reflexivity|]. vm_compute. discriminate.
Qed.

(** What is true: there is a content length iff no field is a stream, and it falls short of the body by
    exactly the text fields. *)
Definition texts_of (ML : mime_lib) (guess : path -> mime ML) (g : rng) (fs : lazy_form (mime ML)) : bytes :=
  concat (map (fun p => CRLF ++ DASHES ++ boundary_of g ++ CRLF ++ p_head p ++ p_data p) (map (describe_lazy ML guess) (filter (is_text ML) fs))).

Lemma counted_sum ML guess B fs : Forall honest fs -> (forall f k, In f fs -> ~ lfails ML f k) -> existsb (is_stream ML) fs = false ->
  sumN (map (counted ML guess B) fs) =
  N.of_nat (length (concat (map (lazy_part B) (map (describe_lazy ML guess) (rev (filter (fun f => negb (is_text ML f)) fs)))))).
Proof.
  induction fs as [|f fs IH]; intros H Nf S; [reflexivity|]. cbn [existsb] in S. apply orb_false_iff in S as [S1 S2].
  inversion_clear H as [|? ? Hf Hfs]. assert (Nf' : forall f k, In f fs -> ~ lfails ML f k) by (intros; apply Nf; now right).
  specialize (Nf f) as N1. cbn [map sumN fold_right]. fold (sumN (map (counted ML guess B) fs)). rewrite (IH Hfs Nf' S2). clear IH.
  cbn [filter]. destruct f as [n [t|p [k|[[k|m] src]]|fn ct src]]; cbn [is_text l_data negb is_stream] in *; try discriminate.
  - reflexivity.
  - exfalso. apply (N1 k); [now left|reflexivity].
  - exfalso. apply (N1 k); [now left|reflexivity].
  - cbn [rev]. rewrite !map_app, concat_app, app_length. cbn [map concat]. rewrite app_nil_r.
    unfold counted. cbn [l_data prep_field l_name l_source describe_lazy]. rewrite <- stream_part, app_length.
    cbn [honest l_data] in Hf. rewrite Hf. unfold mime_filename. lia.
Qed.

Theorem C25_short_by_texts_partial : forall ML guess g fs s g1 fs1,
  prepare ML guess g fs = (inr s, g1, fs1) ->
  (content_len s = None <-> existsb (is_stream ML) fs = true) /\
  forall n, content_len s = Some n -> Forall honest fs ->
    N.of_nat (length (lazy_body_of ML guess g fs)) = (n + N.of_nat (length (texts_of ML guess g fs)))%N.
Proof.
  intros ML guess g fs s g1 fs1 H. apply prepare_ok, from_fields_ok in H as (Nf & _ & _ & _ & En & _ & L). rewrite gen_boundary_of in *.
  unfold content_len. rewrite L. destruct (existsb (is_stream ML) fs) eqn:S; split.
  - tauto.
  - discriminate.
  - split; discriminate.
  - intros n E Hh. apply (f_equal (fun o => match o with Some z => z | None => 0%N end)) in E. cbv beta iota in E. rewrite <- E. clear E.
    replace (texts_of ML guess g fs) with (concat (map (lazy_part (CRLF ++ DASHES ++ boundary_of g)) (map (describe_lazy ML guess) (filter (is_text ML) fs))))
      by reflexivity.
    unfold lazy_body_of. rewrite (counted_sum ML guess _ fs Hh Nf S).
    assert (Ne : fs = [] \/ fs <> []) by (destruct fs; [left; reflexivity|right; discriminate]).
    destruct Ne as [Ne|Ne]; [rewrite En, Ne; reflexivity|].
    assert (En' : c_data (s_end s) = (CRLF ++ DASHES ++ boundary_of g) ++ DASHES) by (rewrite En; destruct fs; congruence).
    rewrite En', lazy_wire_parts by (intros X; apply map_eq_nil, (proj1 (order_nil ML _)) in X; congruence).
    unfold lazy_order. rewrite !map_app, concat_app, !app_length. lia.
Qed.

(** So it is right without text fields. *)
Theorem C25_no_texts_partial : forall ML guess g fs s g1 fs1 n,
  prepare ML guess g fs = (inr s, g1, fs1) -> Forall honest fs -> Forall (fun f => is_text ML f = false) fs ->
  content_len s = Some n -> N.of_nat (length (lazy_body_of ML guess g fs)) = n.
Proof.
  intros ML guess g fs s g1 fs1 n H Hh T E. destruct (C25_short_by_texts_partial ML guess g fs s g1 fs1 H) as [_ K].
  rewrite (K n E Hh). unfold texts_of. replace (filter (is_text ML) fs) with (@nil (lfield (mime ML))); [cbn; lia|].
  clear - T. induction T as [|f fs Hf T IH]; [reflexivity|]. cbn [filter]. now rewrite Hf.
Qed.

Example C25_example : exists s g fs1, prepare toy any_guess [] [one_file] = (inr s, g, fs1) /\ Forall honest [one_file] /\ content_len s = Some 135%N.
Proof. do 3 eexists. split; [vm_compute; reflexivity|]. split; [repeat constructor|]. vm_compute. reflexivity. Qed.

(** ** C26: the boundary *)

(** False: [boundary()] panics on an empty form, and so does [send]. *)
Theorem C26_refuted : exists g s g1 fs1 q,
  prepare toy any_guess g [] = (inr s, g1, fs1) /\ boundary_str s = Panic /\ fst (fst (lazy_send toy any_guess g [] q)) = Panic.
Proof. exists []. do 3 eexists. exists (plain_http []). split; [reflexivity|]. split; reflexivity. Qed.

(** True of every other form, at any point while the body is read. *)
Theorem C26_nonempty_partial : forall ML guess g fs s g1 fs1 sizes l s1,
  prepare ML guess g fs = (inr s, g1, fs1) -> fs <> [] -> Forall (lcalm ML) fs ->
  reads sizes s = (Ok l, s1) -> boundary_str s1 = Ok (boundary_of g).
Proof.
  intros ML guess g fs s g1 fs1 sizes l s1 H Ne C R. apply prepare_ok, from_fields_ok in H as (_ & V & _ & _ & En & M & _).
  destruct (reads_calm sizes s V (prepared_calm ML fs s M C)) as (l' & s' & E & _ & (En' & _)). rewrite R in E. injection E as <- <-.
  apply boundary_full. rewrite En', En, gen_boundary_of. destruct fs; congruence.
Qed.

(** ** C27: failed reads *)

(** False: bytes that are already in the buffer when a source fails are lost.  [io::copy] retries an
    interrupted read, so that [send] succeeds having sent a damaged body. *)
Theorem C27_refuted : exists g fs q q' fs1,
  lazy_send toy any_guess g fs q = (Ok tt, q', fs1) /\ written (q_log q) = [] /\
  Forall (fun f => ~ source_fails (l_source toy f)) fs /\
  ~ (exists e, lazy_body_of toy any_guess g fs = written (q_log q') ++ e) /\
  length (written (q_log q')) < length (lazy_body_of toy any_guess g fs).
Proof.
  exists [], [one_text; mkLF (bs "s") (LStream None (bs "t/x") [Fail KInterrupted; Chunk (bs "abc")])], (plain_http []).
  do 2 eexists. split; [vm_compute; reflexivity|]. split; [reflexivity|]. split; [repeat constructor; vm_compute; tauto|].
  split; [intros (e & H); vm_compute in H; discriminate|]. apply Nat.ltb_lt. vm_compute. reflexivity.
Qed.

(** The calls of [read] with the given buffer sizes, each one retried or continued after an error. *)
Fixpoint attempts (sizes : list nat) (s : prepared) : list (nat * res iokind bytes) :=
  match sizes with
  | [] => []
  | n :: sizes' => let '(x, s1) := lazy_read n s in (n, x) :: attempts sizes' s1
  end.

(** [used] is what a call took from the body: what it returned, or after an error some bytes fewer than
    its buffer holds. *)
Definition took_from_body (nx : nat * res iokind bytes) (used : bytes) : Prop :=
  match nx with
  | (_, Ok d) => used = d
  | (n, Err _) => length used < n
  | _ => False
  end.

Lemma attempts_spec sizes : forall s, valid s ->
  exists us, Forall2 took_from_body (attempts sizes s) us /\ prefix_of (concat us) (pending s).
Proof.
  induction sizes as [|n sizes IH]; intros s V; cbn [attempts].
  - exists []. split; [constructor|]. now exists (pending s).
  - destruct (lazy_read n s) as [x s1] eqn:E. apply read_spec in E as (V1 & _ & E & _); auto.
    destruct (IH s1 V1) as (us & F & [t P]). destruct x as [d|k| |]; try tauto.
    + exists (d :: us). split; [constructor; [reflexivity|exact F]|]. exists t. destruct E as (E & _). cbn [concat]. now rewrite E, P, app_assoc.
    + destruct E as (l & E & L & _). exists (l :: us). split; [constructor; [exact L|exact F]|]. exists t. cbn [concat]. now rewrite E, P, app_assoc.
Qed.

(** What is true, for failures of any kind at any points: a failed call loses fewer bytes than its buffer
    holds, and nothing else goes wrong. *)
Theorem C27_loss_partial : forall ML guess g fs s g1 fs1 sizes,
  prepare ML guess g fs = (inr s, g1, fs1) ->
  exists us, Forall2 took_from_body (attempts sizes s) us /\ prefix_of (concat us) (lazy_body_of ML guess g fs).
Proof.
  intros ML guess g fs s g1 fs1 sizes H. apply prepare_ok, from_fields_ok in H as (_ & V & _ & P & _).
  rewrite gen_boundary_of in P. unfold lazy_body_of. rewrite <- P. now apply attempts_spec.
Qed.

(** So reading byte by byte loses nothing. *)
Definition delivered (l : list (nat * res iokind bytes)) : bytes :=
  concat (map (fun nx => match snd nx with Ok d => d | _ => [] end) l).

Theorem C27_bytewise_partial : forall ML guess g fs s g1 fs1 m,
  prepare ML guess g fs = (inr s, g1, fs1) ->
  prefix_of (delivered (attempts (repeat 1 m) s)) (lazy_body_of ML guess g fs).
Proof.
  intros ML guess g fs s g1 fs1 m H. destruct (C27_loss_partial ML guess g fs s g1 fs1 (repeat 1 m) H) as (us & F & P).
  replace (delivered (attempts (repeat 1 m) s)) with (concat us); auto. clear - F. revert s us F.
  induction m as [|m IH]; intros s us F; cbn [repeat attempts] in *; [inversion F; reflexivity|].
  destruct (lazy_read 1 s) as [x s1]. inversion F as [|? u ? us' T F']; subst. unfold delivered. cbn [map concat snd].
  rewrite (IH _ _ F'). unfold delivered. f_equal. destruct x as [d|k| |]; cbn in T; [exact T| |destruct T|destruct T].
  destruct u; [reflexivity|cbn in T; lia].
Qed.

Example C27_example : exists s g fs1,
  prepare toy any_guess [] [mkLF (bs "s") (LStream None (bs "t/x") [Chunk (bs "ab"); Fail KInterrupted; Chunk (bs "c")])] = (inr s, g, fs1) /\
  map snd (attempts [85; 10; 10] s) = [Ok (skipn 0 (c_data (f_header (hd (mkPF (cursor_new []) []) (s_streams s))))); Err KInterrupted; Ok (bs "c" ++ CRLF ++ bs "--AAAAA")].
Proof. do 3 eexists. split; [vm_compute; reflexivity|]. vm_compute. reflexivity. Qed.

(** ** C22: [send] ignores the answer of [apply_headers] *)
Theorem C22_lazy_refuted : exists g fs q q' fs1,
  (forall b n, q_accept q b n = false) /\ lazy_send toy any_guess g fs q = (Ok tt, q', fs1) /\ In COpen (q_log q').
Proof.
  exists [], [one_text], (mkHttp (fun _ _ => false) None [] None []). do 2 eexists. split; [reflexivity|].
  split; [vm_compute; reflexivity|]. vm_compute. auto.
Qed.

(** ** C29: from the lazy client to the server *)
Definition lazy_expected {ML : mime_lib} (guess : path -> mime ML) (f : lfield (mime ML)) : field_headers ML * bytes :=
  let p := describe_lazy ML guess f in
  (mkFH ML (p_name p) (p_fname p)
     (match l_data f with LText _ => None | LFile q _ => Some (guess q) | LStream _ c _ => Some c end), p_data p).

(** The content type of a field can be parsed from what is sent. *)
Definition typed {ML : mime_lib} (guess : path -> mime ML) (f : lfield (mime ML)) : Prop :=
  match l_data f with
  | LText _ => True
  | LFile q _ => mime_parse ML (mime_show ML (guess q)) = Some (guess q)
  | LStream _ c _ => mime_parse ML (mime_show ML c) = Some c
  end.

Lemma lazy_received ML guess f : typed guess f -> received ML (describe_lazy ML guess f) = lazy_expected guess f.
Proof.
  unfold typed, received, lazy_expected, describe_lazy. destruct f as [n [t|p o|fn ct src]]; cbn [l_data l_name p_ctype p_name p_fname p_data]; intros H;
    rewrite ?H; reflexivity.
Qed.

Theorem C29_round_trip : forall ML guess trim g q fs q' fs' t sz,
  lazy_send ML guess g fs q = (Ok tt, q', fs') -> written (q_log q) = [] ->
  Forall (fun f => kinds (fun k => k <> KInterrupted) (l_source ML f)) fs ->
  Forall (fun f => sendable ML (boundary_of g) (describe_lazy ML guess f) /\ typed guess f) fs ->
  stream t = written (q_log q') -> live t -> quiet t -> (forall k, 0 < sz k) ->
  exact_chunks (delimiter (boundary_of g)) t (map snd (map (lazy_expected guess) (lazy_order ML fs))) \/ (forall k, sz k < MIN_BUF_SIZE) ->
  exists r, read_all ML trim (S (length fs)) sz (with_body t (boundary_of g)) =
    (Ok (map (lazy_expected guess) (lazy_order ML fs)), r).
Proof.
  intros ML guess trim g q fs q' fs' t sz H W0 K F St Hl Hq Hsz Hex.
  assert (Ne : fs <> []).
  { intros ->. unfold lazy_send, prepare in H. destruct (from_fields ML guess g []) as [[e|s] g1] eqn:Z; [discriminate|].
    apply from_fields_ok in Z as (_ & _ & _ & _ & En & _). rewrite (boundary_empty s En) in H. discriminate. }
  apply C24_send in H as (len & ds & L & D); auto.
  rewrite L, !written_app, W0, written_map, D in St. cbn [written app] in St. rewrite app_nil_r in St.
  assert (Fo : Forall (fun f => sendable ML (boundary_of g) (describe_lazy ML guess f) /\ typed guess f) (lazy_order ML fs)).
  { rewrite Forall_forall in *. intros f Hf. apply (proj1 (order_in ML _ _)) in Hf. auto. }
  assert (P : parts (head_block ML trim (delimiter (boundary_of g))) (delimiter (boundary_of g)) (stream t) (map (lazy_expected guess) (lazy_order ML fs))).
  { rewrite St. rewrite <- (map_ext_in (fun f => received ML (describe_lazy ML guess f))).
    - rewrite <- (map_map (describe_lazy ML guess) (received ML)). apply lazy_parts; [apply C56_alphanumeric| |].
      + apply Forall_map. eapply Forall_impl; [|exact Fo]. simpl. tauto.
      + intros X. apply map_eq_nil, (proj1 (order_nil ML _)) in X. congruence.
    - intros f Hf. rewrite Forall_forall in Fo. apply lazy_received. exact (proj2 (Fo f Hf)). }
  destruct (C03_whole_body_partial ML trim t (boundary_of g) sz _ Hl Hq Hsz Hex P) as (r & E). rewrite map_length in E.
  replace (length fs) with (length (lazy_order ML fs)); [eauto|]. unfold lazy_order. rewrite app_length, rev_length. clear.
  induction fs as [|f fs IH]; [reflexivity|]. cbn [filter]. destruct (is_text ML f); cbn [negb length]; lia.
Qed.

Example C29_example :
  let q' := snd (fst (lazy_send toy any_guess [] some_form (plain_http [WAccept 7]))) in
  fst (read_all toy true 4 (fun k => S k) (with_body [Chunk (firstn 30 (written (q_log q'))); Chunk (skipn 30 (written (q_log q')))] (boundary_of []))) =
    Ok [(mkFH toy (bs "a") None None, bs "text"); (mkFH toy (bs "s") None (Some (bs "t/x")), bs "abcdefgh");
        (mkFH toy (bs "f") (Some (bs "x.png")) (Some (bs "image/png")), bs "data")].
Proof. vm_compute. reflexivity. Qed.

(** ** C59: reuse *)

(** False: the type is documented as reusable, but [prepare] (also when it fails) and [send] leave an empty form,
    which a second [send] turns into a panic. *)
Theorem C59_refuted : exists g fs q q' fs1,
  lazy_send toy any_guess g fs q = (Ok tt, q', fs1) /\ fs1 <> fs /\ fst (fst (lazy_send toy any_guess g fs1 q)) = Panic.
Proof. exists [], [one_text], (plain_http []). do 2 eexists. split; [vm_compute; reflexivity|]. split; [discriminate|reflexivity]. Qed.

Theorem C59_emptied_partial : forall ML guess g fs,
  (exists x g1, prepare ML guess g fs = (x, g1, [])) /\
  (forall q x q' fs', lazy_send ML guess g fs q = (x, q', fs') -> fs' = []).
Proof.
  intros ML guess g fs. unfold lazy_send, prepare. destruct (from_fields ML guess g fs) as [[e|s] g1].
  - split; eauto. intros q x q' fs' H. now injection H.
  - split; eauto. intros q x q' fs' H. destruct (boundary_str s); try (now injection H).
    destruct (apply_headers _ _ q) as [ans q1]. destruct (open_http q1) as [[k|] q2]; [now injection H|].
    destruct (copy_prepared _ _ s q2) as [[[[]|k| |] s1] q3]; try (now injection H).
    destruct (finish_http q3) as [[k|] q4]; now injection H.
Qed.

(** ** C60: errors name the field *)
Theorem C60_named : forall ML guess g fs e g1 fs1,
  prepare ML guess g fs = (inl e, g1, fs1) ->
  exists l1 f l2 k, fs = l1 ++ f :: l2 /\ (forall f' k', In f' l1 -> ~ lfails ML f' k') /\ lfails ML f k /\ e = (Some (l_name f), k).
Proof.
  intros ML guess g fs e g1 fs1 H. unfold prepare in H. pose proof (from_fields_cases ML guess g fs) as K.
  destruct (from_fields ML guess g fs) as [[e'|s] g2]; [|discriminate]. injection H as <- <- <-. exact K.
Qed.

Theorem C60_only_then : forall ML guess g fs f k,
  In f fs -> lfails ML f k -> exists e g1, prepare ML guess g fs = (inl e, g1, []).
Proof.
  intros ML guess g fs f k Hf Hk. unfold prepare. pose proof (from_fields_cases ML guess g fs) as K.
  destruct (from_fields ML guess g fs) as [[e'|s] g2]; [eauto|]. destruct (K f k Hf Hk).
Qed.

(** [send]: an error names a field iff preparing failed; nothing has then been done with the request. *)
Theorem C60_send : forall ML guess g fs q e q' fs',
  lazy_send ML guess g fs q = (Err e, q', fs') ->
  match fst e with
  | Some _ => q' = q /\ exists g1, prepare ML guess g fs = (inl e, g1, [])
  | None => exists s g1, prepare ML guess g fs = (inr s, g1, [])
  end.
Proof.
  intros ML guess g fs q e q' fs' H. unfold lazy_send in H. pose proof (from_fields_cases ML guess g fs) as K. unfold prepare in *.
  destruct (from_fields ML guess g fs) as [[e'|s] g1].
  - injection H as <- <- <-. destruct K as (l1 & f & l2 & k & _ & _ & _ & ->). cbn [fst]. eauto.
  - assert (N : fst e = None); [|rewrite N; eauto].
    destruct (boundary_str s); try discriminate. destruct (apply_headers _ _ q) as [ans q1].
    destruct (open_http q1) as [[k|] q2]; [now injection H as <-|].
    destruct (copy_prepared _ _ s q2) as [[[[]|k| |] s1] q3]; try discriminate; [|now injection H as <-].
    destruct (finish_http q3) as [[k|] q4]; [now injection H as <-|discriminate].
Qed.

Example C60_example :
  fst (fst (prepare toy any_guess [] [one_text; mkLF (bs "f") (LFile [bs "x"] (inl (KOther 2)))])) = inl (Some (bs "f"), KOther 2).
Proof. reflexivity. Qed.

(** ** C61: a failing lazy [send] *)

(** Whatever fails, the stream has received a prefix of the body, unless a source read is interrupted
    (then C27 applies); [send] terminates, and panics only on the empty form. *)
Theorem C61_prefix : forall ML guess g fs q x q' fs',
  lazy_send ML guess g fs q = (x, q', fs') -> written (q_log q) = [] ->
  Forall (fun f => kinds (fun k => k <> KInterrupted) (l_source ML f)) fs ->
  prefix_of (written (q_log q')) (lazy_body_of ML guess g fs).
Proof.
  intros ML guess g fs q x q' fs' H W C. unfold lazy_send, prepare in H.
  destruct (from_fields ML guess g fs) as [[e|s] g1] eqn:F; [injection H as <- <- <-; rewrite W; apply prefix_nil|].
  apply from_fields_ok in F as (_ & V & St & P & En & M & _). rewrite gen_boundary_of in *.
  destruct (boundary_str s); try (injection H as <- <- <-; rewrite W; apply prefix_nil).
  unfold apply_headers, open_http in H. cbn [logged q_open] in H.
  destruct (q_open q) as [k|].
  { injection H as <- <- <-. cbn [logged q_log]. rewrite !written_app, W. apply prefix_nil. }
  destruct (copy_prepared _ COPY_BUF s _) as [[y s1] q3] eqn:Y.
  apply copy_prefix in Y as (d & (_ & _ & _ & ds & L & D) & Pd & _); [|unfold COPY_BUF; lia|auto|eapply prepared_kinds; eauto].
  assert (W3 : written (q_log q3) = d) by (rewrite L; cbn [logged q_log]; rewrite !written_app, W, written_map, D; reflexivity).
  unfold lazy_body_of. rewrite <- P.
  assert (Q : written (q_log q') = d).
  { unfold finish_http in H. destruct y as [[]|k| |]; try (injection H as <- <- <-; exact W3).
    destruct (q_finish q3); injection H as <- <- <-; cbn [logged q_log]; rewrite written_app, W3; apply app_nil_r. }
  now rewrite Q.
Qed.

Theorem C61_terminates : forall ML guess g fs q x q' fs',
  lazy_send ML guess g fs q = (x, q', fs') -> x <> OutOfFuel /\ (x = Panic -> fs = []).
Proof.
  intros ML guess g fs q x q' fs' H. unfold lazy_send, prepare in H.
  destruct (from_fields ML guess g fs) as [[e|s] g1] eqn:F; [injection H as <- <- <-; split; discriminate|].
  apply from_fields_ok in F as (_ & V & St & P & En & M & _). rewrite gen_boundary_of in *.
  destruct fs as [|f0 fs0]; [rewrite (boundary_empty s En) in H; injection H as <- <- <-; split; [discriminate|auto]|].
  rewrite (boundary_full s _ En) in H. unfold apply_headers, open_http in H. cbn [logged q_open] in H.
  destruct (q_open q) as [k|]; [injection H as <- <- <-; split; discriminate|].
  destruct (copy_prepared _ COPY_BUF s _) as [[y s1] q3] eqn:Y.
  apply copy_terminates in Y as [Y1 Y2]; [|unfold COPY_BUF; lia|auto|rewrite start_left by auto; lia].
  destruct y as [[]|k| |]; try congruence.
  - destruct (finish_http q3) as [[k|] q4]; injection H as <- <- <-; split; discriminate.
  - injection H as <- <- <-; split; discriminate.
Qed.

Example C61_example :
  let '(x, q', _) := lazy_send toy any_guess [] some_form (plain_http [WAccept 30; WFail (KOther 7)]) in
  x = Err (None, KOther 7) /\ written (q_log q') = firstn 30 (lazy_body_of toy any_guess [] some_form).
Proof. vm_compute. auto. Qed.
