(** From the client to the saved form (C69): what [client] or [lazy_send] sends and [with_entries] saves.  The lazy client
    with hyper (C70). *)

From Verif Require Import Bytes BytesProofs Spec Io Boundary BoundaryProofs Utf8 Utf8Proofs Httparse Field FieldProofs
  ContentProofs DataProofs ShortProofs EntryProofs ReaderProofs Drive DriveProofs ReachProofs Rand Fs Save SaveProofs PhaseProofs SaveFacts
  TextProofs Toy PropsReader PropsSave EntriesProofs CompleteProofs PropsEntries HeaderSpec HeaderProofs WireSpec Client ClientProofs WireProofs
  PropsClient Lazy LazyProofs PropsLazy Requests PropsRequests.

(** The fields saved under a name, as headers and the data read back. *)
Definition found {ML} (en : entries ML) (f : fs) (n : bytes) : list (field_headers ML * option bytes) :=
  map (fun sf => (sf_headers ML sf, readable (sf_data ML sf) f)) (fields_at en n).

(** The fields of a list that have a given name. *)
Definition sent_as {ML} (l : list (field_headers ML * bytes)) (n : bytes) : list (field_headers ML * option bytes) :=
  map (fun hc => (fst hc, Some (snd hc))) (filter (fun hc => if list_eq_dec N.eq_dec (fh_name ML (fst hc)) n then true else false) l).

Lemma found_log ML (f : fs) n (log : list (field_headers ML * saved)) (l : list (field_headers ML * bytes)) :
  Forall2 (fun hv hc => fst hv = fst hc /\ readable (snd hv) f = Some (snd hc)) log l ->
  map (fun sf => (sf_headers ML sf, readable (sf_data ML sf) f)) (named n log) = sent_as l n.
Proof.
  unfold named, sent_as. induction 1 as [|hv hc log l [H1 H2] F IH]; [reflexivity|]. cbn [filter]. rewrite H1.
  destruct (list_eq_dec N.eq_dec (fh_name ML (fst hc)) n); [|exact IH]. cbn [map sf_headers sf_data]. rewrite H1, H2. f_equal. exact IH.
Qed.

(** A saver that is not limited for the fields [l] in the directory [dir]: default open options, more fields allowed than
    there are, none longer than the size limit; no system call fails and the generated names are new, or all fields stay in memory. *)
Definition suffices {ML} (s : saver) (e : env) (dir : path) (g : rng) (l : list (field_headers ML * bytes)) : Prop :=
  s_opts s = default_opts /\ s_policy s <> TForce /\ (N.min (s_size_limit s) (s_threshold s) < U64MAX)%N /\
  (N.of_nat (length l) < s_count_limit s)%N /\
  Forall (fun hc => (N.of_nat (length (snd hc)) <= s_size_limit s)%N) l /\
  (Forall (fun hc => (N.of_nat (length (snd hc)) <= s_threshold s)%N) l \/ (good e /\ fresh_names e dir g (length l))).

(** A form is saved with exactly the names, headers and contents of the body. *)
Definition saved_form {ML} (l : list (field_headers ML * bytes)) (x : sres (entries ML) (partial_entries ML)) (e : env) : Prop :=
  exists en, x = Full en /\ well_grouped en /\ fields_of en = length l /\ forall n, found en (e_fs e) n = sent_as l n.

Lemma saved_fuel ML trim t b s dir temp g e l :
  live t -> quiet t -> exact_chunks (delimiter b) t (map snd l) -> suffices s e dir g l ->
  parts (head_block ML trim (delimiter b)) (delimiter b) (stream t) l ->
  forall fuel, S (length (stream t) + length t) + N.to_nat (mem_min s) + 1 + length l + 1 <= fuel -> exists x g' r' e',
    with_entries ML trim s fuel (entries_new ML dir temp) g (with_body t b) e = (x, g', r', e') /\ saved_form l x e'.
Proof.
  intros Hl Hq Hns (Ho & Nf & Hp & Hc & Hs & Hm) P.
  intros fuel L. destruct (full_fuel ML trim t b s (entries_new ML dir temp) g e l Hl Hq Hns Ho Nf Hp P Hc Hs Hm fuel L) as (en' & g' & r' & e' & log & H & -> & F2).
  do 4 eexists. split; [exact H|]. eexists. split; [reflexivity|].
  assert (W : well_grouped (recount_fields ML (entries_new ML dir temp))) by (split; constructor).
  destruct (C45_grouping ML _ log [] W) as (W' & _ & _ & Fo). split; [exact W'|]. split.
  { rewrite Fo. cbn. clear - F2. induction F2; cbn; auto. }
  intros n. destruct (C45_grouping ML _ log n W) as (_ & Fa & _). unfold found. rewrite Fa. cbn [app].
  replace (fields_at (recount_fields ML (entries_new ML dir temp)) n) with (@nil (saved_field ML)) by reflexivity.
  cbn [app]. now apply found_log.
Qed.

Lemma saved_parts ML trim t b s dir temp g e l :
  live t -> quiet t -> exact_chunks (delimiter b) t (map snd l) -> suffices s e dir g l ->
  parts (head_block ML trim (delimiter b)) (delimiter b) (stream t) l ->
  exists fuel0, forall fuel, fuel0 <= fuel -> exists x g' r' e',
    with_entries ML trim s fuel (entries_new ML dir temp) g (with_body t b) e = (x, g', r', e') /\ saved_form l x e'.
Proof. intros Hl Hq Hns Hs P. eexists. intros fuel L. exact (saved_fuel ML trim t b s dir temp g e l Hl Hq Hns Hs P fuel L). Qed.

(** For every chunking of the body at the server the claim is false, because of C03: the server can save a field with two
    more bytes than the client sent. *)
Definition long_text : list (cfield (mime toy)) := [CText (bs "a") (repeat 120%N 1023)].
Definition long_body : bytes := written (q_log (snd (client toy (bs "o/s") any_guess [] (plain_http []) long_text))).
Definition cut : nat := length long_body - length ([LF] ++ delimiter (boundary_of []) ++ DASHES ++ CRLF).

Theorem C69_refuted : exists t s q' x g' r' e',
  client toy (bs "o/s") any_guess [] (plain_http []) long_text = (None, q') /\
  stream t = written (q_log q') /\ live t /\ quiet t /\
  @suffices toy s (no_failures (fun _ => None)) [bs "d"] [] (map (@expected toy (bs "o/s") any_guess) long_text) /\
  with_entries toy true s 2000 (entries_new toy [bs "d"] false) [] (with_body t (boundary_of [])) (no_failures (fun _ => None)) = (Full x, g', r', e') /\
  found x (e_fs e') (bs "a") = [(mkFH toy (bs "a") None None, Some (repeat 120%N 1023 ++ CRLF))].
Proof.
  exists [Chunk (firstn cut long_body); Chunk (skipn cut long_body)], saver_new. do 5 eexists.
  split; [vm_compute; reflexivity|]. split; [vm_compute; reflexivity|].
  split; [intros [H|[H|[]]]; vm_compute in H; discriminate|]. split; [intros k [H|[H|[]]]; discriminate|].
  split; [split; [reflexivity|]; split; [discriminate|]; split; [reflexivity|]; split; [reflexivity|]; split; [repeat constructor; vm_compute; discriminate|left; repeat constructor; vm_compute; discriminate]|].
  split; [vm_compute; reflexivity|]. vm_compute. reflexivity.
Qed.

(** The eager client. *)
Theorem C69_client_partial : forall ML octet guess trim gc q fs q' t s dir temp g e,
  client ML octet guess gc q fs = (None, q') -> written (q_log q) = [] ->
  Forall (fun f => sendable ML (boundary_of gc) (describe ML octet guess f) /\
    forall c, sent_ctype octet guess f = Some c -> mime_parse ML (mime_show ML c) = Some c) fs ->
  stream t = written (q_log q') -> live t -> quiet t ->
  exact_chunks (delimiter (boundary_of gc)) t (map snd (map (@expected ML octet guess) fs)) -> suffices s e dir g (map (expected octet guess) fs) ->
  exists fuel0, forall fuel, fuel0 <= fuel -> exists x g' r' e',
    with_entries ML trim s fuel (entries_new ML dir temp) g (with_body t (boundary_of gc)) e = (x, g', r', e') /\
    saved_form (map (expected octet guess) fs) x e'.
Proof.
  intros ML octet guess trim gc q fs q' t s dir temp g e H W0 F St Hl Hq Hns Hs.
  apply C19_wire in H as (ds & L & D).
  rewrite L, !written_app, W0, written_map, D in St. cbn [written app] in St. rewrite app_nil_r in St.
  apply saved_parts; auto. rewrite St.
  rewrite <- (map_ext_in (fun f => received ML (describe ML octet guess f))).
  - rewrite <- (map_map (describe ML octet guess) (received ML)). apply wire_parts; [apply C56_alphanumeric|].
    apply Forall_map. eapply Forall_impl; [|exact F]. simpl. tauto.
  - intros f Hf. rewrite Forall_forall in F. apply expected_received. now apply F.
Qed.

(** The lazy client; the texts come first, the other fields after them and in reverse ([lazy_order], see C29), so the fields with one
    name may be permuted. *)
Theorem C69_lazy_partial : forall ML guess trim gc q fs q' fs' t s dir temp g e,
  lazy_send ML guess gc fs q = (Ok tt, q', fs') -> written (q_log q) = [] ->
  Forall (fun f => kinds (fun k => k <> KInterrupted) (l_source ML f)) fs ->
  Forall (fun f => sendable ML (boundary_of gc) (describe_lazy ML guess f) /\ typed guess f) fs ->
  stream t = written (q_log q') -> live t -> quiet t ->
  exact_chunks (delimiter (boundary_of gc)) t (map snd (map (lazy_expected guess) (lazy_order ML fs))) ->
  suffices s e dir g (map (lazy_expected guess) (lazy_order ML fs)) ->
  exists fuel0, forall fuel, fuel0 <= fuel -> exists x g' r' e',
    with_entries ML trim s fuel (entries_new ML dir temp) g (with_body t (boundary_of gc)) e = (x, g', r', e') /\
    saved_form (map (lazy_expected guess) (lazy_order ML fs)) x e'.
Proof.
  intros ML guess trim gc q fs q' fs' t s dir temp g e H W0 K F St Hl Hq Hns Hs.
  assert (Ne : fs <> []).
  { intros ->. unfold lazy_send, prepare in H. destruct (from_fields ML guess gc []) as [[x|p] g1] eqn:Z; [discriminate|].
    apply from_fields_ok in Z as (_ & _ & _ & _ & En & _). rewrite (boundary_empty p En) in H. discriminate. }
  apply C24_send in H as (len & ds & L & D); auto.
  rewrite L, !written_app, W0, written_map, D in St. cbn [written app] in St. rewrite app_nil_r in St.
  assert (Fo : Forall (fun f => sendable ML (boundary_of gc) (describe_lazy ML guess f) /\ typed guess f) (lazy_order ML fs)).
  { rewrite Forall_forall in *. intros f Hf. apply (proj1 (order_in ML _ _)) in Hf. auto. }
  apply saved_parts; auto. rewrite St.
  rewrite <- (map_ext_in (fun f => received ML (describe_lazy ML guess f))).
  - rewrite <- (map_map (describe_lazy ML guess) (received ML)). apply lazy_parts; [apply C56_alphanumeric| |].
    + apply Forall_map. eapply Forall_impl; [|exact Fo]. simpl. tauto.
    + intros X. apply map_eq_nil, (proj1 (order_nil ML _)) in X. congruence.
  - intros f Hf. rewrite Forall_forall in Fo. apply lazy_received. exact (proj2 (Fo f Hf)).
Qed.

(** The hypotheses hold of a form with a text and a file, the file saved on disk. *)
Example C69_example :
  let q' := snd (client toy (bs "o/s") any_guess [] (plain_http [WAccept 3]) some_fields) in
  let t := [Chunk (firstn 30 (written (q_log q'))); Chunk (skipn 30 (written (q_log q')))] in
  let e := no_failures (fun q => if path_eq_dec q [bs "d"] then Some NDir else None) in
  fst (client toy (bs "o/s") any_guess [] (plain_http [WAccept 3]) some_fields) = None /\
  @suffices toy (mkSaver 5000 256 3 TTry default_opts) e [bs "d"] (repeat 7%N 12 ++ repeat 8%N 12) (map (@expected toy (bs "o/s") any_guess) some_fields) /\
  exists x g' r' e', with_entries toy true (mkSaver 5000 256 3 TTry default_opts) 200 (entries_new toy [bs "d"] false) (repeat 7%N 12 ++ repeat 8%N 12) (with_body t (boundary_of [])) e =
    (Full x, g', r', e') /\
    found x (e_fs e') (bs "f") = [(mkFH toy (bs "f") (Some (bs "x.png")) (Some (bs "image/png")), Some (bs "data"))].
Proof.
  cbv zeta. split; [vm_compute; reflexivity|]. split.
  { split; [reflexivity|]. split; [discriminate|]. split; [reflexivity|]. split; [reflexivity|].
    split; [repeat constructor; vm_compute; discriminate|]. right. split; [repeat constructor|].
    intros k Lk. change (length _) with 2 in Lk. split.
    - split; [discriminate|]. cbn [e_fs no_failures en_dir entries_new]. split.
      + destruct (path_eq_dec _ _) as [Q|]; auto. discriminate Q.
      + intros q a _ _ c F. cbn [e_fs no_failures] in F. destruct (path_eq_dec q [bs "d"]); discriminate.
    - intros j Lj. assert (k = 1) by lia. assert (j = 0) by lia. subst. vm_compute. discriminate. }
  do 4 eexists. split; [vm_compute; reflexivity|]. vm_compute. reflexivity.
Qed.

(** ** C70: the lazy client with hyper *)

(** What a body will deliver, read with buffers of sizes [sz]. *)
Definition body_bytes (fuel : nat) (sz : nat -> nat) (x : hyper_body) : res iokind bytes :=
  match x with SizedBody s _ | ChunkedBody s => read_to_end fuel sz 0 s end.

(** False: with a text field the declared size is smaller than the body, and an empty form panics. *)
Theorem C70_refuted :
  (exists g fs m s n b, fs <> [] /\ Forall honest fs /\ fst (client_request_mut toy any_guess g fs) = Ok (m, SizedBody s n) /\
     body_bytes 1000 (fun _ => 100) (SizedBody s n) = Ok b /\ (n < N.of_nat (length b))%N) /\
  (exists g, fst (client_request_mut toy any_guess g []) = Panic).
Proof.
  split; [|exists []; reflexivity]. exists [], [one_text]. do 4 eexists. split; [discriminate|]. split; [repeat constructor|].
  split; [vm_compute; reflexivity|]. split; [vm_compute; reflexivity|]. vm_compute. reflexivity.
Qed.

(** What holds of every other form.  The header names the boundary of the body; the body is that of the form; it is sized
    iff there is no stream, and the size is too small by exactly the texts. *)
Theorem C70_request_partial : forall ML guess g fs m body fs1,
  client_request_mut ML guess g fs = (Ok (m, body), fs1) ->
  mime2_show m = bs "multipart/form-data; boundary=" ++ boundary_of g /\
  (forall sz fuel, Forall (lcalm ML) fs -> (forall k, 0 < sz k) -> length (lazy_body_of ML guess g fs) < fuel ->
     body_bytes fuel sz body = Ok (lazy_body_of ML guess g fs)) /\
  (existsb (is_stream ML) fs = true <-> exists s, body = ChunkedBody s) /\
  (forall s n, body = SizedBody s n -> Forall honest fs ->
     N.of_nat (length (lazy_body_of ML guess g fs)) = (n + N.of_nat (length (texts_of ML guess g fs)))%N).
Proof.
  intros ML guess g fs m body fs1 H. unfold client_request_mut in H.
  destruct (prepare ML guess g fs) as [[[[nm k]|s] g1] fs2] eqn:P; [discriminate|].
  assert (B : boundary_str s = Ok (boundary_of g)).
  { pose proof (prepare_ok _ _ _ _ _ _ _ P) as Q. apply from_fields_ok in Q as (_ & _ & _ & _ & En & _). rewrite gen_boundary_of in En.
    destruct fs as [|f fs]; [rewrite (boundary_empty s En) in H; discriminate|]. now rewrite (boundary_full s _ En). }
  rewrite B in H. injection H as <- <- <-.
  destruct (C25_short_by_texts_partial _ _ _ _ _ _ _ P) as [K1 K2]. split.
  { unfold mime2_show, multipart_mime, top_str, sub_str, attr_str, value_str. cbn [map concat fst snd]. now rewrite app_nil_r. }
  split.
  { intros sz fuel C Hsz L. unfold to_body. pose proof (C24_to_end _ _ _ _ _ _ _ sz fuel P C Hsz L) as R. destruct (content_len s); exact R. }
  unfold to_body. split.
  - rewrite <- K1. destruct (content_len s) as [n|].
    + split; [discriminate|intros (x & Hx); discriminate].
    + split; eauto.
  - intros s' n E Hh. destruct (content_len s) as [n'|]; [|discriminate]. injection E as <- ->. now apply K2.
Qed.

(** An error is the error of the first field that cannot be opened, and there is one if a field cannot be opened. *)
Theorem C70_error : forall ML guess g fs,
  (forall k, fst (client_request_mut ML guess g fs) = Err k ->
     exists l1 f l2, fs = l1 ++ f :: l2 /\ (forall f' k', In f' l1 -> ~ lfails ML f' k') /\ lfails ML f k) /\
  ((exists f k, In f fs /\ lfails ML f k) -> exists k, fst (client_request_mut ML guess g fs) = Err k) /\
  (fst (client_request_mut ML guess g fs) = Panic -> fs = []).
Proof.
  intros ML guess g fs. unfold client_request_mut. destruct (prepare ML guess g fs) as [[[[nm k]|s] g1] fs2] eqn:P.
  - split; [|split; [intros _; exists k; reflexivity|discriminate]]. intros k0 H. injection H as <-.
    destruct (C60_named _ _ _ _ _ _ _ P) as (l1 & f & l2 & k' & E & N & F & Z). injection Z as _ ->. exists l1, f, l2. auto.
  - split; [|split].
    + intros k H. destruct (boundary_str s); discriminate.
    + intros (f & k & Hf & Hk). destruct (C60_only_then ML guess g fs f k Hf Hk) as (e & g2 & Q). congruence.
    + intros H. pose proof (prepare_ok _ _ _ _ _ _ _ P) as Q. apply from_fields_ok in Q as (_ & _ & _ & _ & En & _). rewrite gen_boundary_of in En.
      destruct fs as [|f fs]; [reflexivity|]. rewrite (boundary_full s _ En) in H. discriminate.
Qed.

(** A server (here tiny_http) that receives the header and the body reads the fields of the form. *)
Theorem C70_round_trip_partial : forall ML guess trim g fs m body fs1 d t sz sz' fuel pre ms,
  client_request_mut ML guess g fs = (Ok (m, body), fs1) -> Forall (lcalm ML) fs -> (forall k, 0 < sz' k) ->
  body_bytes fuel sz' body = Ok d -> length (lazy_body_of ML guess g fs) < fuel ->
  Forall (fun f => sendable ML (boundary_of g) (describe_lazy ML guess f) /\ typed guess f) fs ->
  stream t = d -> live t -> quiet t -> (forall k, 0 < sz k) ->
  exact_chunks (delimiter (boundary_of g)) t (map snd (map (lazy_expected guess) (lazy_order ML fs))) \/ (forall k, sz k < MIN_BUF_SIZE) ->
  (forall h, In h pre -> ~ same_name (fst h) (bs "Content-Type")) ->
  exists r r', server_from_request tiny_boundary ti_body (mkTiny ms (pre ++ [(bs "Content-Type", mime2_show m)]) t) = inl r /\
    read_all ML trim (S (length fs)) sz r = (Ok (map (lazy_expected guess) (lazy_order ML fs)), r').
Proof.
  intros ML guess trim g fs m body fs1 d t sz sz' fuel pre ms H C Hsz' Hd Lf F St Hl Hq Hsz Hex Hp.
  destruct (C70_request_partial _ _ _ _ _ _ _ H) as (_ & K & _). rewrite (K sz' fuel C Hsz' Lf) in Hd. injection Hd as <-.
  assert (Em : m = multipart_mime (boundary_of g)).
  { unfold client_request_mut in H. destruct (prepare ML guess g fs) as [[[[nm k]|s] g1] fs2] eqn:P; [discriminate|].
    pose proof (prepare_ok _ _ _ _ _ _ _ P) as Q. apply from_fields_ok in Q as (_ & _ & _ & _ & En & _). rewrite gen_boundary_of in En.
    destruct fs as [|f fs]; [rewrite (boundary_empty s En) in H; discriminate|]. rewrite (boundary_full s _ En) in H. now injection H as <- _ _. }
  assert (Ne : fs <> []).
  { intros ->. unfold client_request_mut in H. destruct (prepare ML guess g []) as [[[[nm k]|s] g1] fs2] eqn:P; [discriminate|].
    pose proof (prepare_ok _ _ _ _ _ _ _ P) as Q. apply from_fields_ok in Q as (_ & _ & _ & _ & En & _). rewrite (boundary_empty s En) in H. discriminate. }
  assert (P : parts (head_block ML trim (delimiter (boundary_of g))) (delimiter (boundary_of g)) (stream t) (map (lazy_expected guess) (lazy_order ML fs))).
  { assert (Fo : Forall (fun f => sendable ML (boundary_of g) (describe_lazy ML guess f) /\ typed guess f) (lazy_order ML fs)).
    { rewrite Forall_forall in *. intros f Hf. apply (proj1 (order_in ML _ _)) in Hf. auto. }
    rewrite St. rewrite <- (map_ext_in (fun f => received ML (describe_lazy ML guess f))).
    - rewrite <- (map_map (describe_lazy ML guess) (received ML)). apply lazy_parts; [apply C56_alphanumeric| |].
      + apply Forall_map. eapply Forall_impl; [|exact Fo]. simpl. tauto.
      + intros X. apply map_eq_nil, (proj1 (order_nil ML _)) in X. congruence.
    - intros f Hf. rewrite Forall_forall in Fo. apply lazy_received. exact (proj2 (Fo f Hf)). }
  destruct (C03_whole_body_partial ML trim t (boundary_of g) sz _ Hl Hq Hsz Hex P) as (r & E). rewrite map_length in E.
  exists (with_body t (boundary_of g)), r. split.
  { unfold server_from_request. rewrite Em. now rewrite (proj1 (C50_own_client g t ms) pre Hp). }
  replace (length fs) with (length (lazy_order ML fs)); [exact E|]. unfold lazy_order. rewrite app_length, rev_length. clear.
  induction fs as [|f fs IH]; [reflexivity|]. cbn [filter]. destruct (is_text ML f); cbn [negb length]; lia.
Qed.

Example C70_example :
  exists m s, client_request_mut toy any_guess [] some_form = (Ok (m, ChunkedBody s), []) /\
  exists m' s' n b, client_request_mut toy any_guess [] [one_file] = (Ok (m', SizedBody s' n), []) /\
    body_bytes 1000 (fun k => S k) (SizedBody s' n) = Ok b /\ N.of_nat (length b) = n.
Proof. do 2 eexists. split; [vm_compute; reflexivity|]. do 4 eexists. split; [vm_compute; reflexivity|]. split; vm_compute; reflexivity. Qed.
