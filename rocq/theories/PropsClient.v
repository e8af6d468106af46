(** Property theorems about the regular client and [SizedRequest] (C19-C23, C28, C30, C56). *)

From Verif Require Import Bytes BytesProofs Spec Io Boundary BoundaryProofs Utf8 Utf8Proofs Httparse Field FieldProofs ContentProofs ShortProofs EntryProofs Drive DriveProofs
  HeaderSpec HeaderProofs PropsHeader Rand Fs CompleteProofs EntriesProofs PropsReader Toy WireSpec WireProofs Client ClientProofs.

(** The bytes that a stream received. *)
Fixpoint written (log : list call) : bytes :=
  match log with
  | [] => []
  | CWrite d :: l => d ++ written l
  | _ :: l => written l
  end.

Lemma written_app a b : written (a ++ b) = written a ++ written b.
Proof. induction a as [|[]]; cbn [app written]; auto. now rewrite IHa, app_assoc. Qed.

Lemma written_map ds : written (map CWrite ds) = concat ds.
Proof. induction ds; cbn [map written concat]; congruence. Qed.

(** The boundary that the client draws. *)
Definition boundary_of (g : rng) : bytes := fst (random_alphanumeric 16 g).

(** ** C56: random strings *)
Theorem C56_boundary : forall g,
  length (fst (gen_boundary g)) = 16 /\
  forall c, In c (fst (gen_boundary g)) -> ~ In c (CRLF ++ bs """-;= ") /\ (c < 128)%N.
Proof.
  intros g. destruct (random_alnum 16 g) as [L A]. split; [exact L|]. intros c H.
  rewrite Forall_forall in A. apply A in H. unfold alnum in H. split; [|lia].
  intros K. vm_compute in K. lia.
Qed.

Theorem C56_alphanumeric : forall g, alnums (boundary_of g).
Proof. intros g. apply (random_alnum 16 g). Qed.

Example C56_example : fst (gen_boundary [0; 25; 26; 51; 52; 61; 62; 1000]%N) = bs "AZaz09AIAAAAAAAA".
Proof. reflexivity. Qed.

Lemma from_request_cases g q x q1 g1 : from_request g q = (x, q1, g1) ->
  q_sched q1 = q_sched q /\ q_finish q1 = q_finish q /\ q_open q1 = q_open q /\
  q_log q1 = q_log q ++ [CApply (boundary_of g) None; COpen] /\
  match q_open q with Some k => x = inl k | None => x = inr (mkMW q1 (boundary_of g) false) end.
Proof.
  unfold from_request, boundary_of, gen_boundary. change BOUNDARY_LEN with 16. destruct (random_alphanumeric 16 g) as [b g2].
  cbn [fst apply_headers open_http]. destruct (q_open (logged (CApply b None) q)) eqn:E; cbn [logged q_open] in E; rewrite E;
    intros H; injection H as <- <- _; cbn [logged q_sched q_finish q_open q_log]; rewrite <- app_assoc; auto.
Qed.

(** ** C19, C20: the body on the wire *)

(** The calls on the request when everything succeeds: headers, open, the body of exactly the described
    fields in order (cut into pieces by short writes), finish. *)
Theorem C19_wire : forall ML octet guess g q fs q',
  client ML octet guess g q fs = (None, q') ->
  exists ds, q_log q' = q_log q ++ [CApply (boundary_of g) None; COpen] ++ map CWrite ds ++ [CFinish] /\
    concat ds = wire (boundary_of g) (map (describe ML octet guess) fs).
Proof.
  intros ML octet guess g q fs q' H. unfold client in H. destruct (from_request g q) as [[x q1] g1] eqn:E.
  apply from_request_cases in E as (_ & _ & _ & L & X). destruct (q_open q); subst x; [discriminate|].
  destruct (write_fields http_write_all ML octet guess fs (mkMW q1 (boundary_of g) false)) as [[k|] m1] eqn:W; [discriminate|].
  unfold send in H. destruct (finish_writer http_write_all m1) as [[k|] m2] eqn:F; [discriminate|].
  destruct (fields_finish _ _ _ http_sound ML octet guess _ _ _ _ _ _ W F) as (_ & d & (_ & _ & _ & ds & L1 & D1) & _ & D).
  unfold finish_http in H. injection H as _ <-. cbn [logged q_log m_inner] in *. exists ds. rewrite L1, L. split.
  - repeat rewrite <- app_assoc. reflexivity.
  - rewrite D1. apply D. reflexivity.
Qed.

(** It does succeed if the request can be opened and finished, no write fails (short and interrupted
    writes are fine) and no file or source fails (interrupted reads are fine). *)
Theorem C19_succeeds : forall ML octet guess g q fs,
  q_open q = None -> q_finish q = None -> Forall good_write (q_sched q) -> ~ Exists (fails ML) fs ->
  exists q', client ML octet guess g q fs = (None, q').
Proof.
  intros ML octet guess g q fs Ho Hf Hg Hs. unfold client. destruct (from_request g q) as [[x q1] g1] eqn:E.
  apply from_request_cases in E as (S1 & F1 & O1 & L & X). rewrite Ho in X. subst x.
  assert (G1 : http_good (m_inner (mkMW q1 (boundary_of g) false))) by (unfold http_good; cbn [m_inner]; now rewrite S1).
  destruct (fields_ok _ _ _ http_sound ML octet guess fs Hs _ G1) as (m1 & W & G2). rewrite W.
  unfold send. destruct (finish_ok _ _ _ http_sound _ G2) as (m2 & F & G3). rewrite F.
  destruct (fields_finish _ _ _ http_sound ML octet guess _ _ _ _ _ _ W F) as (_ & d & (_ & _ & Q & _) & _).
  unfold finish_http. cbn [m_inner] in Q. rewrite Q, F1, Hf. eauto.
Qed.

(** Whatever fails (opening, a write, a source, a file), the bytes received are a prefix of the body. *)
Theorem C20_prefix : forall ML octet guess g q fs x q',
  client ML octet guess g q fs = (x, q') -> written (q_log q) = [] ->
  prefix_of (written (q_log q')) (wire (boundary_of g) (map (describe ML octet guess) fs)).
Proof.
  intros ML octet guess g q fs x q' H W0. unfold client in H. destruct (from_request g q) as [[y q1] g1] eqn:E.
  apply from_request_cases in E as (_ & _ & _ & L & X).
  assert (W1 : written (q_log q1) = []) by (rewrite L, written_app, W0; reflexivity).
  destruct (q_open q); subst y; [injection H as <- <-; rewrite W1; apply prefix_nil|].
  assert (T : forall z m2, wrote http_took (mkMW q1 (boundary_of g) false) z m2 (wire (boundary_of g) (map (describe ML octet guess) fs)) ->
    prefix_of (written (q_log (m_inner m2))) (wire (boundary_of g) (map (describe ML octet guess) fs))).
  { intros z m2 (_ & d & (_ & _ & _ & ds & L1 & D1) & P & _). cbn [m_inner] in L1. rewrite L1, written_app, W1, written_map, D1. exact P. }
  destruct (write_fields http_write_all ML octet guess fs (mkMW q1 (boundary_of g) false)) as [[k|] m1] eqn:W.
  - injection H as <- <-. apply (T (Some k)). exact (fields_stopped _ _ _ http_sound ML octet guess _ _ _ _ _ W).
  - unfold send in H. destruct (finish_writer http_write_all m1) as [z m2] eqn:F.
    pose proof (T z m2 (fields_finish _ _ _ http_sound ML octet guess _ _ _ _ _ _ W F)) as P.
    destruct z as [k|]; [injection H as <- <-; exact P|]. unfold finish_http in H. injection H as _ <-. cbn [logged q_log].
    rewrite written_app. cbn [written]. rewrite app_nil_r. exact P.
Qed.

Definition any_guess : path -> mime toy := fun _ => bs "image/png".
Definition some_fields : list (cfield (mime toy)) :=
  [CText (bs "a") (bs "text"); CFile (bs "f") [bs "tmp"; bs "x.png"] (inr [Chunk (bs "da"); Fail KInterrupted; Chunk (bs "ta")])].
Definition plain_http (s : list wevent) : http := mkHttp (fun _ _ => true) None s None [].

Example C19_example :
  let q := plain_http [WAccept 3; WFail KInterrupted; WAccept 1] in
  Forall good_write (q_sched q) /\ ~ Exists (fails toy) some_fields /\
  written (q_log (snd (client toy (bs "o/s") any_guess [] q some_fields))) =
    bs "--AAAAAAAAAAAAAAAA" ++ CRLF ++ bs "Content-Disposition: form-data; name=""a""" ++ CRLF ++ CRLF ++ bs "text" ++ CRLF ++
    bs "--AAAAAAAAAAAAAAAA" ++ CRLF ++ bs "Content-Disposition: form-data; name=""f""; filename=""x.png""" ++ CRLF ++
    bs "Content-Type: image/png" ++ CRLF ++ CRLF ++ bs "data" ++ CRLF ++ bs "--AAAAAAAAAAAAAAAA--" ++ CRLF.
Proof.
  split; [repeat constructor|]. split; [|vm_compute; reflexivity].
  intros H. inversion H as [? ? K|? ? K]; subst; [exact K|]. inversion K as [? ? K1|? ? K1]; subst; [exact K1|inversion K1].
Qed.

Example C20_example :
  let q := plain_http [WAccept 3; WAccept 9; WFail (KOther 1)] in
  let '(x, q') := client toy (bs "o/s") any_guess [] q some_fields in
  x = Some (KOther 1) /\ written (q_log q') = bs "--AAAAAAAAA".
Proof. vm_compute. split; reflexivity. Qed.

(** ** C21: SizedRequest *)

(** On success: the headers with the length of the body, then exactly the body; nothing before. *)
Theorem C21_sized : forall ML octet guess g q fs q',
  client_sized ML octet guess g q fs = (None, q') ->
  let B := wire (boundary_of g) (map (describe ML octet guess) fs) in
  exists ds, q_log q' = q_log q ++ [CApply (boundary_of g) (Some (N.of_nat (length B))); COpen] ++ map CWrite ds ++ [CFinish] /\ concat ds = B.
Proof.
  intros ML octet guess g q fs q' H B. unfold client_sized, from_request_sized in H.
  unfold gen_boundary in H. change BOUNDARY_LEN with 16 in H. subst B. unfold boundary_of.
  destruct (random_alphanumeric 16 g) as [b g2]. cbn [fst].
  destruct (write_fields sized_write_all ML octet guess fs (mkMW (mkSized q [] b) b false)) as [[k|] m1] eqn:W; [discriminate|].
  unfold send_sized in H. destruct (finish_writer sized_write_all m1) as [[k|] m2] eqn:F; [discriminate|].
  destruct (fields_finish _ _ _ sized_sound ML octet guess _ _ _ _ _ _ W F) as (_ & d & Z & _ & D).
  specialize (D eq_refl). unfold sized_took in Z. cbn [m_inner z_inner z_buffer z_boundary app] in Z. rewrite Z in H. subst d.
  unfold finish_sized in H. cbn [z_inner z_buffer z_boundary apply_headers] in H.
  set (B := wire b (map (describe ML octet guess) fs)) in *.
  destruct (q_accept q b (Some (N.of_nat (length B)))); [|discriminate]. cbn [negb] in H.
  unfold open_http in H. destruct (q_open (logged _ q)) eqn:O; [discriminate|].
  destruct (io_copy http_write_all (slice_source B) _) as [[k|] q3] eqn:C; [discriminate|].
  apply (copy_spec _ _ _ http_sound) in C as (d & (_ & _ & _ & ds & L1 & D1) & _ & D2). destruct (D2 eq_refl) as [D3 _].
  rewrite (proj1 (slice_source_data B)) in D3. subst d.
  unfold finish_http in H. injection H as _ <-. exists ds. cbn [logged q_log] in *. rewrite L1. split; auto.
  repeat rewrite <- app_assoc. reflexivity.
Qed.

(** In every case: nothing is sent before the fields are complete, the length announced is that of the
    body, and what is received is a prefix of it. *)
Theorem C21_always : forall ML octet guess g q fs x q',
  client_sized ML octet guess g q fs = (x, q') ->
  let B := wire (boundary_of g) (map (describe ML octet guess) fs) in
  exists l, q_log q' = q_log q ++ l /\ prefix_of (written l) B /\
    (l = [] \/ exists l', l = CApply (boundary_of g) (Some (N.of_nat (length B))) :: l').
Proof.
  intros ML octet guess g q fs x q' H B. unfold client_sized, from_request_sized in H.
  unfold gen_boundary in H. change BOUNDARY_LEN with 16 in H. subst B. unfold boundary_of.
  destruct (random_alphanumeric 16 g) as [b g2]. cbn [fst]. set (B := wire b (map (describe ML octet guess) fs)).
  assert (Nothing : forall m z T, wrote sized_took (mkMW (mkSized q [] b) b false) z m T -> z_inner (m_inner m) = q).
  { intros m z T (_ & d & Z & _). unfold sized_took in Z. rewrite Z. reflexivity. }
  assert (Zero : exists l, q_log q = q_log q ++ l /\ prefix_of (written l) B /\
    (l = [] \/ exists l', l = CApply b (Some (N.of_nat (length B))) :: l')).
  { exists []. split; [now rewrite app_nil_r|]. split; [apply prefix_nil|auto]. }
  destruct (write_fields sized_write_all ML octet guess fs (mkMW (mkSized q [] b) b false)) as [[k|] m1] eqn:W.
  { injection H as <- <-. rewrite (Nothing _ _ _ (fields_stopped _ _ _ sized_sound ML octet guess _ _ _ _ _ W)). exact Zero. }
  unfold send_sized in H. destruct (finish_writer sized_write_all m1) as [z m2] eqn:F.
  pose proof (fields_finish _ _ _ sized_sound ML octet guess _ _ _ _ _ _ W F) as P.
  destruct z as [k|]; [injection H as <- <-; rewrite (Nothing _ _ _ P); exact Zero|].
  destruct P as (_ & d & Z & _ & D). specialize (D eq_refl). fold B in D. unfold sized_took in Z. cbn [m_inner z_inner z_buffer z_boundary app] in Z.
  rewrite Z in H. subst d. unfold finish_sized in H. cbn [z_inner z_buffer z_boundary apply_headers] in H.
  assert (One : forall l', prefix_of (written l') B -> q_log q' = q_log q ++ CApply b (Some (N.of_nat (length B))) :: l' ->
    exists l, q_log q' = q_log q ++ l /\ prefix_of (written l) B /\
    (l = [] \/ exists l', l = CApply b (Some (N.of_nat (length B))) :: l')).
  { intros l' P E. exists (CApply b (Some (N.of_nat (length B))) :: l'). eauto. }
  destruct (q_accept q b (Some (N.of_nat (length B)))); cbn [negb] in H.
  2: { injection H as <- <-. apply (One []); [apply prefix_nil|reflexivity]. }
  unfold open_http in H. destruct (q_open (logged _ q)) eqn:O.
  { injection H as <- <-. apply (One [COpen]); [apply prefix_nil|]. cbn [logged q_log]. rewrite <- app_assoc. reflexivity. }
  destruct (io_copy http_write_all (slice_source B) _) as [y q3] eqn:C.
  apply (copy_spec _ _ _ http_sound) in C as (d & (_ & _ & _ & ds & L1 & D1) & P & _).
  rewrite (proj1 (slice_source_data B)) in P. cbn [logged q_log] in L1. destruct y as [k|].
  - injection H as <- <-. apply (One (COpen :: map CWrite ds)); [cbn [written]; now rewrite written_map, D1|].
    rewrite L1. repeat rewrite <- app_assoc. reflexivity.
  - unfold finish_http in H. injection H as _ <-. apply (One (COpen :: map CWrite ds ++ [CFinish])).
    + cbn [written]. rewrite written_app, written_map, D1. cbn [written]. now rewrite app_nil_r.
    + cbn [logged q_log]. rewrite L1. repeat rewrite <- app_assoc. reflexivity.
Qed.

Example C21_example :
  let '(x, q') := client_sized toy (bs "o/s") any_guess [] (plain_http [WAccept 3; WAccept 9]) some_fields in
  x = None /\ exists l, q_log q' = CApply (bs "AAAAAAAAAAAAAAAA") (Some 205%N) :: COpen :: l /\ length (written l) = 205.
Proof. vm_compute. split; [reflexivity|]. eexists. split; reflexivity. Qed.

(** ** C22: a request that rejects the headers *)

(** False of the regular client: the answer is ignored. *)
Theorem C22_refuted : exists g q fs q',
  (forall b n, q_accept q b n = false) /\ client toy (bs "o/s") any_guess g q fs = (None, q') /\ In COpen (q_log q').
Proof.
  exists [], (mkHttp (fun _ _ => false) None [] None []), []. eexists. split; [reflexivity|].
  split; [vm_compute; reflexivity|]. vm_compute. auto.
Qed.

(** True with [SizedRequest]. *)
Theorem C22_sized_partial : forall ML octet guess g q fs x q',
  (forall b n, q_accept q b n = false) -> client_sized ML octet guess g q fs = (x, q') ->
  x <> None /\ (~ In COpen (q_log q) -> ~ In COpen (q_log q')) /\ written (q_log q') = written (q_log q) /\
  (q' = q \/ x = Some (KOther 0) /\ exists n, q_log q' = q_log q ++ [CApply (boundary_of g) (Some n)]).
Proof.
  intros ML octet guess g q fs x q' Hq H. unfold client_sized, from_request_sized in H. pose proof (eq_refl (boundary_of g) : fst (gen_boundary g) = boundary_of g) as Hb.
  destruct (gen_boundary g) as [b g2]. cbn [fst] in Hb. rewrite <- Hb. clear Hb.
  assert (Nothing : forall m z T, wrote sized_took (mkMW (mkSized q [] b) b false) z m T -> z_inner (m_inner m) = q).
  { intros m z T (_ & d & Z & _). unfold sized_took in Z. rewrite Z. reflexivity. }
  destruct (write_fields sized_write_all ML octet guess fs (mkMW (mkSized q [] b) b false)) as [[k|] m1] eqn:W.
  { injection H as <- <-. rewrite (Nothing _ _ _ (fields_stopped _ _ _ sized_sound ML octet guess _ _ _ _ _ W)).
    split; [discriminate|auto]. }
  unfold send_sized in H. destruct (finish_writer sized_write_all m1) as [z m2] eqn:F.
  pose proof (Nothing _ _ _ (fields_finish _ _ _ sized_sound ML octet guess _ _ _ _ _ _ W F)) as P.
  destruct z as [k|]; [injection H as <- <-; rewrite P; split; [discriminate|auto]|].
  unfold finish_sized, apply_headers in H. rewrite P, Hq in H. cbn [negb] in H. injection H as <- <-. cbn [logged q_log].
  split; [discriminate|]. rewrite written_app, app_nil_r. split; [intros N K; apply in_app_or in K as [K|[K|[]]]; [auto|discriminate]|].
  split; auto. right. split; auto. eexists. f_equal. f_equal. f_equal.
  destruct (fields_finish _ _ _ sized_sound ML octet guess _ _ _ _ _ _ W F) as (_ & d & Z & _). unfold sized_took in Z. rewrite Z. reflexivity.
Qed.

Example C22_example :
  fst (client_sized toy (bs "o/s") any_guess [] (mkHttp (fun _ _ => false) None [] None []) some_fields) = Some (KOther 0).
Proof. vm_compute. reflexivity. Qed.

(** ** C23: calls after an error *)

(** False: a call after a failed one writes, and [send] then reports success. *)
Theorem C23_refuted : exists m f k m1 f2 m2 q',
  write_field http_write_all toy (bs "o/s") any_guess f m = (Some k, m1) /\
  write_field http_write_all toy (bs "o/s") any_guess f2 m1 = (None, m2) /\
  written (q_log (m_inner m2)) <> written (q_log (m_inner m1)) /\
  send m2 = (None, q').
Proof.
  exists (mkMW (plain_http [WAccept 3; WFail (KOther 1)]) (bs "b") false), (CText (bs "a") (bs "x")). do 2 eexists.
  exists (CText (bs "c") (bs "y")). do 2 eexists. split; [vm_compute; reflexivity|]. split; [vm_compute; reflexivity|].
  split; [vm_compute; discriminate|]. vm_compute. reflexivity.
Qed.

(** What does hold: in any state (also after errors) a call reports its own failure.  It has then written a
    proper part of its field; if it reports success, all of it. *)
Theorem C23_reports_partial : forall ML octet guess f m x m1,
  write_field http_write_all ML octet guess f m = (x, m1) ->
  exists d ds, q_log (m_inner m1) = q_log (m_inner m) ++ map CWrite ds /\ concat ds = d /\
    let T := (if m_written m then CRLF else []) ++ DASHES ++ m_boundary m ++ CRLF ++
             p_head (describe ML octet guess f) ++ p_data (describe ML octet guess f) in
    prefix_of d T /\ (x = None -> d = T /\ ~ fails ML f).
Proof.
  intros ML octet guess f m x m1 H. apply (field_spec _ _ _ http_sound) in H as [(_ & d & (_ & _ & _ & ds & L & D) & P & E) E2].
  exists d, ds. split; auto. split; auto. split; [exact P|]. intros X. split; [exact (E X)|]. now apply E2.
Qed.

(** ** C28: from the client to the server *)

(** A field whose strings arrive unchanged.  [m] is the content type that is sent. *)
Definition sent_ctype {ML : mime_lib} (octet : mime ML) (guess : path -> mime ML) (f : cfield (mime ML)) : option (mime ML) :=
  match f with
  | CText _ _ => None
  | CStream _ _ (Some c) _ => Some c
  | CStream _ _ None _ => Some octet
  | CFile _ p _ => Some (guess p)
  end.

(** What the server should see of a call. *)
Definition expected {ML : mime_lib} (octet : mime ML) (guess : path -> mime ML) (f : cfield (mime ML)) : field_headers ML * bytes :=
  let p := describe ML octet guess f in
  (mkFH ML (p_name p) (p_fname p) (sent_ctype octet guess f), p_data p).

Lemma expected_received ML octet guess f :
  (forall c, sent_ctype octet guess f = Some c -> mime_parse ML (mime_show ML c) = Some c) ->
  received ML (describe ML octet guess f) = expected octet guess f.
Proof.
  intros H. unfold received, expected. destruct f as [n v|n fn [c|] t|n p o]; cbn [describe p_ctype p_name p_fname p_data sent_ctype] in *;
    try reflexivity; now rewrite (H _ eq_refl).
Qed.

(** For every list of fields that are representable and do not contain the boundary, every schedule of
    short writes, every chunking of the same bytes at the server (with no chunk border inside a line end,
    or with small reads; see C03) and every sequence of read sizes: the server reads the same fields. *)
Theorem C28_round_trip : forall ML octet guess trim g q fs q' t sz,
  client ML octet guess g q fs = (None, q') -> written (q_log q) = [] ->
  Forall (fun f => sendable ML (boundary_of g) (describe ML octet guess f) /\
    forall c, sent_ctype octet guess f = Some c -> mime_parse ML (mime_show ML c) = Some c) fs ->
  stream t = written (q_log q') -> live t -> quiet t -> (forall k, 0 < sz k) ->
  exact_chunks (delimiter (boundary_of g)) t (map snd (map (@expected ML octet guess) fs)) \/ (forall k, sz k < MIN_BUF_SIZE) ->
  exists r, read_all ML trim (S (length fs)) sz (with_body t (boundary_of g)) = (Ok (map (expected octet guess) fs), r).
Proof.
  intros ML octet guess trim g q fs q' t sz H W0 F St Hl Hq Hsz Hex.
  apply C19_wire in H as (ds & L & D).
  rewrite L, !written_app, W0, written_map, D in St. cbn [written app] in St. rewrite app_nil_r in St.
  assert (P : parts (head_block ML trim (delimiter (boundary_of g))) (delimiter (boundary_of g)) (stream t) (map (expected octet guess) fs)).
  { rewrite St. rewrite <- (map_ext_in (fun f => received ML (describe ML octet guess f))).
    - rewrite <- (map_map (describe ML octet guess) (received ML)). apply wire_parts; [apply C56_alphanumeric|]. apply Forall_map. eapply Forall_impl; [|exact F]. simpl. tauto.
    - intros f Hf. rewrite Forall_forall in F. apply expected_received. now apply F. }
  destruct (C03_whole_body_partial ML trim t (boundary_of g) sz _ Hl Hq Hsz Hex P) as (r & E). rewrite map_length in E. eauto.
Qed.

Lemma plain_text (s : string) : forallb (fun c => value_token c && negb (c =? 59))%N (bs s) = true ->
  hd_error (bs s) <> Some 34%N -> hd_error (rev (bs s)) <> Some 34%N -> plain (bs s).
Proof.
  intros H1 H2 H3. rewrite forallb_forall in H1. repeat split.
  - apply Forall_forall. intros c Hc. specialize (H1 c Hc). apply andb_true_iff in H1. now apply value_token_iff.
  - intros Hc. specialize (H1 _ Hc). apply andb_true_iff in H1 as [_ H1]. discriminate.
  - intros u E. rewrite E in H2. apply H2. reflexivity.
  - intros u E. rewrite E, rev_app_distr in H3. apply H3. reflexivity.
Qed.

Lemma ascii_text (s : string) : forallb (fun c => c <? 128)%N (bs s) = true -> utf8_string (bs s).
Proof.
  intros Hs. exists (bs s). split.
  - apply Forall_forall. intros d Hd. rewrite forallb_forall in Hs. specialize (Hs d Hd). left. lia.
  - induction (bs s) as [|d l IH]; auto. cbn [forallb] in Hs. apply andb_true_iff in Hs as [H1 H2].
    cbn [map concat]. unfold encode_char at 1. rewrite H1. simpl. f_equal. auto.
Qed.

Lemma type_text (s : string) : forallb value_token (bs s) = true -> blank (hd 0%N (bs s)) = false -> blank (hd 0%N (rev (bs s))) = false ->
  ctype_text (bs s).
Proof.
  intros H1 H2 H3. split; [now apply vchars|]. split.
  - intros (c & u & H & Hs). rewrite H in H2. apply blank_iff in Hs. cbn in H2. congruence.
  - intros (c & u & H & Hs). rewrite H, rev_app_distr in H3. apply blank_iff in Hs. cbn in H3. congruence.
Qed.

Example C28_example :
  Forall (fun f => sendable toy (boundary_of []) (describe toy (bs "o/s") any_guess f) /\
    forall c, @sent_ctype toy (bs "o/s") any_guess f = Some c -> mime_parse toy (mime_show toy c) = Some c) some_fields /\
  let q' := snd (client toy (bs "o/s") any_guess [] (plain_http [WAccept 3]) some_fields) in
  fst (read_all toy true 3 (fun k => S k) (with_body [Chunk (firstn 30 (written (q_log q'))); Chunk (skipn 30 (written (q_log q')))] (boundary_of []))) =
    Ok [(mkFH toy (bs "a") None None, bs "text"); (mkFH toy (bs "f") (Some (bs "x.png")) (Some (bs "image/png")), bs "data")].
Proof.
  split; [|vm_compute; reflexivity].
  pose proof (fun s => absent_text (boundary_of []) s) as Fr.
  apply Forall_cons; [|apply Forall_cons; [|apply Forall_nil]]; (split; [|intros c _; reflexivity]); unfold sendable;
    cbn [describe p_name p_fname p_ctype p_data free opt_filename rev app any_guess mime_show toy source_data].
  - split; [apply plain_text; vm_compute; congruence|]. split; [now apply ascii_text|]. split; [exact I|]. split; [exact I|].
    split; [now apply Fr|]. split; [exact I|]. split; [exact I|]. split; [now apply Fr|].
    apply Nat.leb_le; vm_compute; reflexivity.
  - split; [apply plain_text; vm_compute; congruence|]. split; [now apply ascii_text|].
    split; [split; [apply (plain_text "x.png"); vm_compute; congruence|now apply (ascii_text "x.png")]|].
    split; [split; [now apply (type_text "image/png")|split; [now apply (ascii_text "image/png")|discriminate]]|].
    split; [now apply Fr|]. split; [now apply (Fr (bs "x.png"))|]. split; [now apply (Fr (bs "image/png"))|].
    split; [now apply (Fr (bs "data"))|]. apply Nat.leb_le; vm_compute; reflexivity.
Qed.

(** ** C30: names and file names *)

(** False: a quote in a name starts a new parameter. *)
Theorem C30_refuted : exists name val q' h d r,
  client toy (bs "o/s") any_guess [] (plain_http []) [CText name val] = (None, q') /\
  read_all toy true 3 (fun _ => 100) (with_body [Chunk (written (q_log q'))] (boundary_of [])) = (Ok [(h, d)], r) /\
  fh_name toy h <> name /\ fh_filename toy h = Some (bs "evil.sh").
Proof.
  exists (bs "a""; filename=""evil.sh"), (bs "x"). do 4 eexists. split; [vm_compute; reflexivity|].
  split; [vm_compute; reflexivity|]. split; [vm_compute; discriminate|reflexivity].
Qed.

(** A line end in a name adds a header. *)
Theorem C30_header_refuted : exists name val q' h d r,
  client toy (bs "o/s") any_guess [] (plain_http []) [CText name val] = (None, q') /\
  read_all toy true 3 (fun _ => 100) (with_body [Chunk (written (q_log q'))] (boundary_of [])) = (Ok [(h, d)], r) /\
  fh_ctype toy h = Some (bs "application/x-sh""").
Proof.
  exists (bs "a""" ++ CRLF ++ bs "Content-Type: application/x-sh"), (bs "x"). do 4 eexists.
  split; [vm_compute; reflexivity|]. split; [vm_compute; reflexivity|]. reflexivity.
Qed.

(** It holds for plain names: no semicolon, no control characters, no quote at either end (a case of C28). *)
Theorem C30_plain_partial : forall ML octet guess trim g q name val q' t sz,
  client ML octet guess g q [CText name val] = (None, q') -> written (q_log q) = [] ->
  plain name -> utf8_string name -> absent (delimiter (boundary_of g)) name -> absent (delimiter (boundary_of g)) val ->
  length name <= 900 ->
  stream t = written (q_log q') -> live t -> quiet t -> (forall k, 0 < sz k < MIN_BUF_SIZE) ->
  exists r, read_all ML trim 2 sz (with_body t (boundary_of g)) = (Ok [(mkFH ML name None None, val)], r).
Proof.
  intros ML octet guess trim g q name val q' t sz H W0 Hp Hu Hn Hv Hlen St Hl Hq Hsz.
  destruct (C28_round_trip ML octet guess trim g q [CText name val] q' t sz H W0) as (r & E); auto.
  - constructor; [|constructor]. split; [|discriminate]. cbn [describe]. unfold sendable, free. cbn [p_name p_fname p_ctype p_data].
    split; auto. split; auto. split; auto. split; auto. split; auto. split; auto. split; auto. split; auto.
    unfold p_head, head_text, disp_value, quoted. cbn [p_name p_fname p_ctype]. rewrite !app_length.
    pose proof (proj1 (random_alnum 16 g)) as L. unfold boundary_of. rewrite L.
    change (length (bs "Content-Disposition: ")) with 21. change (length (bs "form-data; name=")) with 16.
    change (length (bs """")) with 1. change (length CRLF) with 2. cbn [length]. change MIN_BUF_SIZE with (N.to_nat 1024). lia.
  - intros k. apply Hsz.
  - right. intros k. apply Hsz.
  - exists r. exact E.
Qed.
