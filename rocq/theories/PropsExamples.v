(** Property theorems about the remaining programs of the crate: example clients, the example of the Iron middleware, form_test (C86). *)

From Verif Require Import Bytes BytesProofs Spec Io Boundary BoundaryProofs Utf8 Utf8Proofs Httparse Field FieldProofs
  ContentProofs DataProofs ShortProofs EntryProofs ReaderProofs Drive DriveProofs ReachProofs Rand Fs Save SaveProofs PhaseProofs SaveFacts
  TextProofs Toy PropsReader PropsSave EntriesProofs CompleteProofs PropsEntries HeaderSpec HeaderProofs PropsHeader WireSpec Client ClientProofs WireProofs
  PropsClient Lazy LazyProofs PropsLazy Mock PropsMock Savedir PropsSavedir Iron IronProofs PropsIron Requests PropsRequests PropsUpload Results PropsResults
  Servers PropsServers Examples.

(** ** The example clients *)

(** A content type that is sent as it should be. *)
Definition good_type ML (m : mime ML) : Prop :=
  ctype_text (mime_show ML m) /\ utf8_string (mime_show ML m) /\ mime_parse ML (mime_show ML m) = Some m /\
  find_bytes (mime_show ML m) DASHES = None /\ length (mime_show ML m) <= 800.

Lemma plain_dec s : forallb (fun c => (c =? 9) || (32 <=? c) && negb (c =? 127) && negb (c =? 59) && negb (c =? 34))%N s = true -> plain s.
Proof.
  intros H. rewrite forallb_forall in H.
  assert (A : forall c, In c s -> vchar c /\ c <> 59%N /\ c <> 34%N).
  { intros c I. specialize (H c I). unfold vchar. repeat (rewrite ?orb_true_iff, ?andb_true_iff, ?negb_true_iff, ?N.eqb_eq, ?N.eqb_neq, ?N.leb_le in H). lia. }
  unfold plain. split; [apply Forall_forall; intros c I; apply (A c I)|]. split; [intros I; apply A in I; tauto|].
  split; intros t ->.
  - destruct (A 34%N (or_introl eq_refl)) as (_ & _ & N). congruence.
  - destruct (A 34%N) as (_ & _ & N); [apply in_or_app; right; left; reflexivity|congruence].
Qed.

Lemma utf8_dec s : valid_utf8 s = true -> utf8_string s.
Proof. apply valid_utf8_iff. Qed.

Lemma boundary_16 g : length (boundary_of g) = 16.
Proof. apply C56_boundary. Qed.

(** Further contents that are short change nothing. *)
Lemma exact_more D t c l1 l2 : Forall (fun d : bytes => length d + 1 < MIN_BUF_SIZE) (l1 ++ l2) -> exact_chunks D t [c] -> exact_chunks D t (l1 ++ c :: l2).
Proof.
  intros F [H|[L H]]; [left; exact H|]. right. split; [exact L|]. intros d t1 t2 a I E S1 S2. rewrite Forall_forall in F.
  apply in_app_or in I. destruct I as [I|[<-|I]]; [apply F, in_or_app; auto|eapply H; eauto; left; reflexivity|apply F, in_or_app; auto].
Qed.

Section Clients.
Context (ML : mime_lib) (octet : mime ML) (guess : path -> mime ML) (Ho : good_type ML octet) (Hg : good_type ML (guess LOREM)).

(** What the server should see. *)
Definition sent_form (content greeting : bytes) : list (field_headers ML * bytes) :=
  [(mkFH ML (bs "text") None None, bs "Hello, world!");
   (mkFH ML (bs "file") (Some (bs "lorem_ipsum.txt")) (Some (guess LOREM)), content);
   (mkFH ML (bs "binary") None (Some octet), greeting)].

Lemma sendable_part g n fn ct d : forallb (fun c => (c =? 9) || (32 <=? c) && negb (c =? 127) && negb (c =? 59) && negb (c =? 34))%N n = true ->
  valid_utf8 n = true -> find_bytes n DASHES = None -> length n <= 20 ->
  match fn with Some f => f = bs "lorem_ipsum.txt" | None => True end ->
  match ct with Some m => exists m', m = mime_show ML m' /\ good_type ML m' | None => True end ->
  absent (delimiter (boundary_of g)) d -> sendable ML (boundary_of g) (mkPart n fn ct d).
Proof.
  intros H1 H2 H3 H4 H5 H6 H7. unfold sendable. cbn [p_name p_fname p_ctype p_data].
  split; [now apply plain_dec|]. split; [now apply utf8_dec|].
  split. { destruct fn as [f|]; [subst f|exact Logic.I]. split; [apply plain_dec; reflexivity|apply utf8_dec; reflexivity]. }
  split. { destruct ct as [m|]; [|exact Logic.I]. destruct H6 as (m' & -> & A & B & C & _). repeat split; auto; try apply A. congruence. }
  split; [now apply absent_text|].
  split. { destruct fn as [f|]; [subst f|exact Logic.I]. apply absent_text. reflexivity. }
  split. { destruct ct as [m|]; [|exact Logic.I]. destruct H6 as (m' & -> & _ & _ & _ & A & _). now apply absent_text. }
  split; [exact H7|].
  rewrite boundary_16. unfold p_head, head_text, disp_value, quoted. cbn [p_name p_fname p_ctype]. unfold MIN_BUF_SIZE.
  assert (Lf : length (match fn with Some f => bs "; filename=" ++ bs """" ++ f ++ bs """" | None => [] end) <= 28).
  { destruct fn as [f|]; [subst f; cbn; lia|cbn; lia]. }
  assert (Lc : length (match ct with Some m => CRLF ++ bs "Content-Type: " ++ m | None => [] end) <= 816).
  { destruct ct as [m|]; [|cbn; lia]. destruct H6 as (m' & -> & _ & _ & _ & _ & L). rewrite !app_length. cbn [length CRLF bs].
    change (length (bs "Content-Type: ")) with 14. cbn. lia. }
  rewrite !app_length. change (length (bs "Content-Disposition: ")) with 21. change (length (bs "form-data; name=")) with 16.
  change (length (bs """")) with 1. change (length CRLF) with 2. lia.
Qed.

(** examples/hyper_client.rs: if it does not panic, a server that saves the request has its three fields, the second with the
    contents of the file; whatever boundary is drawn that is not in the file.  Under the condition of C03 on the chunking. *)
Theorem C86_client_partial : forall trim gc q lorem q' t dir tmp g e,
  hyper_client_main ML octet guess gc q (inr lorem) = (Ok tt, q') -> written (q_log q) = [] ->
  absent (delimiter (boundary_of gc)) (source_data lorem) -> (N.of_nat (length (source_data lorem)) <= 8388608)%N ->
  stream t = written (q_log q') -> live t -> quiet t -> exact_chunks (delimiter (boundary_of gc)) t [source_data lorem] ->
  good e -> fresh_names e dir g 3 ->
  exists fuel0, forall fuel, fuel0 <= fuel -> exists x g' r' e',
    with_entries ML trim saver_new fuel (entries_new ML dir tmp) g (with_body t (boundary_of gc)) e = (x, g', r', e') /\
    saved_form (sent_form (source_data lorem) (bs "Hello world from binary!")) x e'.
Proof.
  intros trim gc q lorem q' t dir tmp g e H W A L St Hl Hq Hns Ge Fn. unfold hyper_client_main in H.
  destruct (client ML octet guess gc q (example_fields ML (inr lorem))) as [[k|] q1] eqn:E; [discriminate|]. injection H as ->.
  assert (Ex : map (expected octet guess) (example_fields ML (inr lorem)) = sent_form (source_data lorem) (bs "Hello world from binary!")) by reflexivity.
  rewrite <- Ex. eapply C69_client_partial; eauto.
  - destruct Ho as (_ & _ & Po & _). destruct Hg as (_ & _ & Pg & _).
    constructor; [|constructor; [|constructor; [|constructor]]]; (split; [|intros c Q; try discriminate; injection Q as <-; assumption]);
      cbn [describe].
    + apply sendable_part; auto; try reflexivity; [cbn; lia|]. apply absent_text. reflexivity.
    + apply sendable_part; auto; try reflexivity; [cbn; lia|]. eauto.
    + apply sendable_part; auto; try reflexivity; [cbn; lia|eauto|]. apply absent_text. reflexivity.
  - rewrite Ex. unfold sent_form. cbn [map snd]. apply (exact_more _ _ _ [_] [_]); auto. constructor; [|constructor; [|constructor]]; apply Nat.ltb_lt; vm_compute; reflexivity.
  - rewrite Ex. unfold suffices. split; [reflexivity|]. split; [discriminate|]. split; [reflexivity|]. split; [reflexivity|].
    split; [|right; split; auto]. constructor; [|constructor; [|constructor; [|constructor]]]; cbn [snd]; [vm_compute; discriminate|exact L|vm_compute; discriminate].
Qed.

(** examples/hyper_client.rs ends or panics.  It panics if the file cannot be opened or read, and only then if hyper's request can be
    opened, takes what is written and is answered. *)
Theorem C86_client_panics : forall g q lorem x q', hyper_client_main ML octet guess g q lorem = (x, q') ->
  (x = Ok tt \/ x = Panic) /\
  ((exists k, lorem = inl k) \/ (exists t, lorem = inr t /\ source_fails t) -> x = Panic) /\
  (q_open q = None -> q_finish q = None -> Forall good_write (q_sched q) -> x = Panic ->
   (exists k, lorem = inl k) \/ (exists t, lorem = inr t /\ source_fails t)).
Proof.
  intros g q lorem x q' H. unfold hyper_client_main in H.
  assert (Ex : Exists (fails ML) (example_fields ML lorem) <-> (exists k, lorem = inl k) \/ (exists t, lorem = inr t /\ source_fails t)).
  { unfold example_fields. split.
    - intros F. apply Exists_exists in F as (f & [<-|[<-|[<-|[]]]] & F); cbn [fails source_fails] in F; [tauto| |exact (match F with end)].
      destruct lorem as [k|t]; eauto.
    - intros F. right. left. cbn [fails]. destruct F as [[k ->]|(t & -> & F)]; auto. }
  rewrite <- !Ex. destruct (client ML octet guess g q (example_fields ML lorem)) as [y q1] eqn:E.
  assert (X : x = (match y with None => Ok tt | Some _ => Panic end : res iokind unit)) by (destruct y; now injection H as <- _).
  split; [destruct y; auto|]. split.
  - intros F. subst x. destruct y as [k|]; [reflexivity|exfalso]. unfold client in E. destruct (from_request g q) as [[z q2] g1] eqn:R.
    destruct z as [k|m]; [discriminate|].
    destruct (write_fields http_write_all ML octet guess (example_fields ML lorem) m) as [[k|] m1] eqn:W; [discriminate|].
    destruct (fields_spec _ _ _ http_sound ML octet guess _ _ _ _ W) as (_ & K). now apply (proj2 (K eq_refl)).
  - intros O F G P. subst x. destruct y as [k|]; [|discriminate].
    assert (D : forall t, source_fails t \/ ~ source_fails t).
    { induction t as [|[[|c0 c]|[]] t IH]; cbn [source_fails]; tauto. }
    assert (D' : Exists (fails ML) (example_fields ML lorem) \/ ~ Exists (fails ML) (example_fields ML lorem)).
    { rewrite Ex. destruct lorem as [k'|t]; [left; eauto|]. destruct (D t) as [Y|Y]; [eauto|].
      right. intros [[k' Z]|(t' & Z & Z')]; [discriminate|]. injection Z as <-. auto. }
    destruct D' as [Y|Y]; [exact Y|]. destruct (C19_succeeds ML octet guess g q _ O F G Y) as [q2 Q]. congruence.
Qed.

(** examples/hyper_reqbuilder.rs: it panics exactly if the file cannot be opened or measured; the request has no declared length; *)
Theorem C86_builder_panics : forall g lorem,
  (reqbuilder_main ML octet guess g lorem = Panic <-> (exists k, lorem = inl k) \/ exists k src, lorem = inr (inl k, src)) /\
  reqbuilder_main ML octet guess g lorem <> OutOfFuel /\
  forall m body, reqbuilder_main ML octet guess g lorem = Ok (m, body) ->
    mime2_show m = bs "multipart/form-data; boundary=" ++ boundary_of g /\ exists s, body = ChunkedBody s.
Proof.
  intros g lorem. unfold reqbuilder_main. destruct (C70_error ML guess g (example_form ML octet lorem)) as (K1 & K2 & K3).
  destruct (client_request_mut ML guess g (example_form ML octet lorem)) as [[[m0 body0]|k| |] fs1] eqn:E; cbn [fst] in *.
  - split; [|split; [discriminate|]].
    + split; [discriminate|]. intros F.
      assert (X : exists f k, In f (example_form ML octet lorem) /\ lfails ML f k).
      { exists (mkLF (bs "file") (LFile LOREM lorem)). destruct F as [(k & ->)|(k & src & ->)]; exists k; (split; [right; left; reflexivity|reflexivity]). }
      apply K2 in X as (k & X). discriminate.
    + intros m body H. injection H as -> ->. destruct (C70_request_partial _ _ _ _ _ _ _ E) as (Q1 & _ & Q2 & _).
      split; [exact Q1|]. apply Q2. reflexivity.
  - split; [|split; discriminate]. split; [|reflexivity]. intros _.
    destruct (K1 k eq_refl) as (l1 & f & l2 & Q & _ & F).
    assert (In f (example_form ML octet lorem)) as [<-|[<-|[<-|[]]]] by (rewrite Q; apply in_or_app; right; left; reflexivity);
      cbn in F; try contradiction. destruct lorem as [k'|[[k'|n] src]]; [left; eauto|right; eauto|contradiction].
  - specialize (K3 eq_refl). discriminate.
  - exfalso. unfold client_request_mut in E. destruct (prepare ML guess g _) as [[[[nm k]|s] g1] fs2]; [discriminate|].
    destruct (boundary_str s); discriminate.
Qed.

(** and a server that gets that header and the bytes of the body reads the three fields, the stream before the file. *)
Theorem C86_builder_partial : forall trim g n lorem m body d t sz sz' fuel ms,
  reqbuilder_main ML octet guess g (inr (inr n, lorem)) = Ok (m, body) -> calm lorem ->
  absent (delimiter (boundary_of g)) (retried lorem) ->
  (forall k, 0 < sz' k) -> body_bytes fuel sz' body = Ok d -> length (lazy_body_of ML guess g (example_form ML octet (inr (inr n, lorem)))) < fuel ->
  stream t = d -> live t -> quiet t -> (forall k, 0 < sz k) ->
  exact_chunks (delimiter (boundary_of g)) t [retried lorem] \/ (forall k, sz k < MIN_BUF_SIZE) ->
  exists r r', server_from_request tiny_boundary ti_body (mkTiny ms [(bs "Content-Type", mime2_show m)] t) = inl r /\
    read_all ML trim 4 sz r =
      (Ok [(mkFH ML (bs "text") None None, bs "Hello, world!");
           (mkFH ML (bs "binary") None (Some octet), bs "Hello world in binary!");
           (mkFH ML (bs "file") (Some (bs "lorem_ipsum.txt")) (Some (guess LOREM)), retried lorem)], r').
Proof.
  intros trim g n lorem m body d t sz sz' fuel ms H C A Hz' Hd Lf St Hl Hq Hz Hex. unfold reqbuilder_main in H.
  destruct (client_request_mut ML guess g (example_form ML octet (inr (inr n, lorem)))) as [[[m0 body0]|k| |] fs1] eqn:E; try discriminate.
  cbn [fst] in H. injection H as -> ->.
  assert (Ex : map (lazy_expected guess) (lazy_order ML (example_form ML octet (inr (inr n, lorem)))) =
    [(mkFH ML (bs "text") None None, bs "Hello, world!"); (mkFH ML (bs "binary") None (Some octet), bs "Hello world in binary!");
     (mkFH ML (bs "file") (Some (bs "lorem_ipsum.txt")) (Some (guess LOREM)), retried lorem)]) by reflexivity.
  rewrite <- Ex. change 4 with (S (length (example_form ML octet (inr (inr n, lorem))))).
  eapply (C70_round_trip_partial ML guess trim g _ m body fs1 d t sz sz' fuel [] ms E); eauto.
  - constructor; [|constructor; [|constructor; [|constructor]]]; unfold lcalm; cbn; auto.
  - destruct Ho as (_ & _ & Po & _). destruct Hg as (_ & _ & Pg & _).
    constructor; [|constructor; [|constructor; [|constructor]]]; (split; [|cbn; auto]); cbn [describe_lazy l_data l_name].
    + apply sendable_part; auto; try reflexivity; [cbn; lia|]. apply absent_text. reflexivity.
    + apply sendable_part; auto; try reflexivity; [cbn; lia|]. eauto.
    + apply sendable_part; auto; try reflexivity; [cbn; lia|eauto|]. apply absent_text. reflexivity.
  - rewrite Ex. destruct Hex as [Hex|Hex]; [left|right; exact Hex]. cbn [map snd]. apply (exact_more _ _ _ [_;_] []); auto.
    constructor; [|constructor; [|constructor]]; apply Nat.ltb_lt; vm_compute; reflexivity.
Qed.

End Clients.

(** Both with a file of two lines, and what a server reads; without the file both panic. *)
Example C86_client_example :
  let guess := fun _ : path => bs "text/plain" in
  let lorem := [Chunk (bs "Lorem"); Fail KInterrupted; Chunk (CRLF ++ bs "--ipsum")] in
  let main lorem := hyper_client_main toy (bs "o/s") guess [] (plain_http [WAccept 3]) lorem in
  let b := boundary_of [] in
  good_type toy (bs "o/s") /\ good_type toy (guess LOREM) /\ source_data lorem = bs "Lorem" ++ CRLF ++ bs "--ipsum" /\
  find_bytes (source_data lorem) (delimiter b) = None /\
  fst (main (inr lorem)) = Ok tt /\ fst (main (inl (KOther 2))) = Panic /\
  fst (read_all toy true 4 (fun _ => 9) (with_body [Chunk (written (q_log (snd (main (inr lorem)))))] b)) =
    Ok (sent_form toy (bs "o/s") guess (source_data lorem) (bs "Hello world from binary!")) /\
  reqbuilder_main toy (bs "o/s") guess [] (inl (KOther 2)) = Panic /\
  match reqbuilder_main toy (bs "o/s") guess [] (inr (inr 13%N, [Chunk (source_data lorem)])) with
  | Ok (m, body) =>
      match body_bytes 1000 (fun _ => 50) body with
      | Ok d => mime2_show m = bs "multipart/form-data; boundary=" ++ b /\
          fst (read_all toy true 4 (fun _ => 9) (with_body [Chunk d] b)) =
            Ok [(mkFH toy (bs "text") None None, bs "Hello, world!"); (mkFH toy (bs "binary") None (Some (bs "o/s")), bs "Hello world in binary!");
                (mkFH toy (bs "file") (Some (bs "lorem_ipsum.txt")) (Some (bs "text/plain")), source_data lorem)]
      | _ => False
      end
  | _ => False
  end.
Proof.
  cbv zeta. assert (T : forall m, In m [bs "o/s"; bs "text/plain"] -> good_type toy m).
  { intros m [<-|[<-|[]]]; (split; [|split; [apply utf8_dec; reflexivity|split; [reflexivity|split; [reflexivity|cbn; lia]]]]);
      apply type_text; reflexivity. }
  split; [apply T; left; reflexivity|]. split; [apply T; right; left; reflexivity|].
  split; [vm_compute; reflexivity|]. split; [vm_compute; reflexivity|]. split; [vm_compute; reflexivity|]. split; [vm_compute; reflexivity|].
  split; [vm_compute; reflexivity|]. split; [vm_compute; reflexivity|]. vm_compute. auto.
Qed.

(** ** The example of the Iron middleware *)

(** Whatever is sent: given time it ends, without a panic; *)
Theorem C86_intercept_ends : forall ML show trim ev os_temp tries g q e,
  (forall fuel, fst (intercept_main ML show trim ev os_temp tries fuel g q e) <> Panic) /\
  exists fuel0, forall fuel, fuel0 <= fuel -> fst (intercept_main ML show trim ev os_temp tries fuel g q e) <> OutOfFuel.
Proof.
  intros ML show trim ev os_temp tries g q e. unfold intercept_main, before, read_request. cbn [ir_head intercept_default ic_temp ic_continue ir_entries].
  destruct (iron_boundary q) as [b|]; [|split; [|exists 0]; intros; discriminate].
  destruct (tempdir_in _ _ _ g e) as [[[dir|k] g1] e0]; [|split; [|exists 0]; intros; discriminate].
  assert (R0 : reached ML trim (hy_body q) b (with_body (hy_body q) b)) by (exists [], []; reflexivity). split.
  - intros fuel. pose proof (C46_no_panic ML trim intercept_default ev dir fuel g1 _ _ _ e0 R0) as H. fold intercept_default.
    destruct (read_request_strict _ _ _ _ _ _ _ _ _) as [[[en|]|x| |] e1]; cbn [fst] in *; try discriminate. congruence.
  - destruct (C46_ends ML trim intercept_default ev dir g1 _ _ _ e0 R0) as [fuel0 Hf]; [vm_compute; discriminate|].
    exists fuel0. intros fuel L. specialize (Hf fuel L). fold intercept_default.
    destruct (read_request_strict _ _ _ _ _ _ _ _ _) as [[[en|]|x| |] e1]; cbn [fst] in *; try discriminate. congruence.
Qed.

(** when it is done, the file system is as it was; *)
Theorem C86_intercept_clean : forall ML show trim os_temp tries fuel g q e x e', wf_fs (e_fs e) ->
  intercept_main ML show trim RmOk os_temp tries fuel g q e = (Ok x, e') -> forall p, e_fs e' p = e_fs e p.
Proof.
  intros ML show trim os_temp tries fuel g q e x e' W. unfold intercept_main, before. cbn [ir_head ir_entries].
  destruct (read_request ML trim intercept_default RmOk os_temp tries 0 fuel g _ _ e) as [y e1] eqn:R.
  pose proof (C63_nothing_left _ _ _ _ _ _ _ _ _ _ _ _ _ W R) as K.
  destruct y as [[en|]|y| |]; cbn [ir_entries]; intros H; try discriminate; injection H as _ <-; auto. apply K.
Qed.

(** a request that is not a form is told so; *)
Theorem C86_intercept_other : forall ML show trim ev os_temp tries fuel g q e, canonical_request q ->
  (forall b, ~ form_request (mkHyper Post (hy_type q) (hy_body q)) b) ->
  intercept_main ML show trim ev os_temp tries fuel g q e = (Ok (None, bs "Not a multipart request"), e).
Proof.
  intros ML show trim ev os_temp tries fuel g q e C N. unfold intercept_main. rewrite C82_other_requests; auto.
Qed.

(** a form of less than 16 fields, none of more than 2 MiB, is answered with the entries, which hold exactly its fields. *)
Theorem C86_intercept_form_partial : forall ML show trim ev os_temp tries g q e b l, canonical_request q ->
  form_request (mkHyper Post (hy_type q) (hy_body q)) b ->
  live (hy_body q) -> quiet (hy_body q) -> exact_chunks (delimiter b) (hy_body q) (map snd l) ->
  parts (head_block ML trim (delimiter b)) (delimiter b) (stream (hy_body q)) l ->
  0 < tries -> temp_ready e os_temp (bs "multipart-iron") g (length l) ->
  length l < 16 -> Forall (fun hc => (N.of_nat (length (snd hc)) <= 2 * 1024 * 1024)%N) l ->
  exists fuel0, forall fuel, fuel0 <= fuel -> exists en e1 e',
    intercept_main ML show trim ev os_temp tries fuel g q e = (Ok (None, show en), e') /\
    well_grouped en /\ fields_of en = length l /\ forall n, found en (e_fs e1) n = sent_as l n.
Proof.
  intros ML show trim ev os_temp tries g q e b l C Fr Hl Hq Hns P Lt T Ll Fs.
  destruct (C82_accepted_partial ML trim intercept_default ev ev os_temp tries 0 g (mkIron ML q None) e b l) as [fuel0 K]; auto.
  { vm_compute. discriminate. } { cbn [intercept_default ic_count]. lia. }
  exists fuel0. intros fuel L. destruct (K fuel L) as (en & e1 & H & R). exists en, e1. eexists. split; [|exact R].
  unfold intercept_main. rewrite H. reflexivity.
Qed.

(** No answer is sent with the status 200: neither the example nor the middleware sets one, and Iron then sends 404. *)
Theorem C86_never_200 : forall ML show trim ev os_temp tries fuel g q e x e',
  intercept_main ML show trim ev os_temp tries fuel g q e = (Ok x, e') -> fst (iron_sends x) = 404%N.
Proof.
  intros ML show trim ev os_temp tries fuel g q e x e'. unfold intercept_main.
  destruct (before _ _ _ _ _ _ _ _ _ _ _ _) as [[[u|y| |] q1] e1]; intros H; try discriminate; injection H as <- <-; [|reflexivity].
  unfold intercept_handler. destruct (ir_entries ML q1); reflexivity.
Qed.

(** So it is false that a form the example accepts is answered with 200: its two fields are saved, and the answer is 404. *)
Theorem C86_status_refuted : exists q l x e',
  let show en := bs "Entries: " ++ decimal (N.of_nat (fields_of en)) in
  parts (head_block toy true (delimiter (bs "b"))) (delimiter (bs "b")) (stream (hy_body q)) l /\ form_request q (bs "b") /\ length l = 2 /\
  intercept_main toy show true RmOk [bs "tmp"] 5 100 tmp_rng q tmp_env = (Ok x, e') /\
  iron_sends x = (404%N, bs "Entries: 2").
Proof.
  exists (mkHyper Post (Some (parsed_form (bs "b"))) two_chunks), two_list. do 2 eexists. cbv zeta. split; [exact two_parts|].
  split; [apply (C50_iron_partial (mkHyper Post (Some (parsed_form (bs "b"))) two_chunks)); [intros m E; injection E as <-; exact (parsed_canonical (bs "b"))|reflexivity]|].
  split; [reflexivity|]. split; vm_compute; reflexivity.
Qed.

(** The hypotheses of [C86_intercept_form_partial] hold of that request (those on the environment: [C82_example]); one of 16 fields is refused; another type. *)
Example C86_intercept_example :
  let q := mkHyper Post (Some (parsed_form (bs "b"))) two_chunks in
  let go q := fst (intercept_main toy (fun _ => bs "Entries") true RmOk [bs "tmp"] 5 100 tmp_rng q tmp_env) in
  canonical_request q /\ live two_chunks /\ quiet two_chunks /\ exact_chunks (delimiter (bs "b")) two_chunks (map snd two_list) /\
  go (mkHyper Post (Some (parsed_form (bs "b"))) (many 16)) = Ok (None, bs "File count limit reached for request. Limit: 16") /\
  go (mkHyper Post (Some (parsed_form (bs "b"))) (many 15)) = Ok (None, bs "Entries") /\
  go (mkHyper Post (Some (parsed_form (bs "b"))) [Chunk (bs "nothing")]) = Ok (None, bs "Error midway through request") /\
  go (mkHyper (OtherMethod (bs "GET")) None []) = Ok (None, bs "Not a multipart request") /\ canonical_request (mkHyper (OtherMethod (bs "GET")) None []) /\
  forall b, ~ form_request (mkHyper Post None []) b.
Proof.
  cbv zeta. split; [intros m E; injection E as <-; exact (parsed_canonical (bs "b"))|].
  split; [intros [H|[]]; discriminate|]. split; [intros k [H|[]]; discriminate|]. split.
  { left. intros t1 c t2 H. destruct t1 as [|e1 [|e2 t1]]; [|discriminate|discriminate].
    injection H as H _. apply (f_equal (fun l => List.last l 0%N)) in H. rewrite last_last in H. vm_compute in H. discriminate. }
  split; [vm_compute; reflexivity|]. split; [vm_compute; reflexivity|]. split; [vm_compute; reflexivity|]. split; [vm_compute; reflexivity|].
  split; [intros m E; discriminate|]. intros b (_ & t & s & ps & l & a & v & r & Q & _). discriminate.
Qed.

(** ** form_test *)

(** Every request, whatever its type and its body, is answered with the page, if that can be read and the client takes it; *)
Theorem C86_form_test : forall ML trim fuel src w q, ~ source_fails src -> good_dest w -> d_out w = [] ->
  length (stream (hy_body q)) < fuel -> form_test ML trim fuel (inr src) None w q = Responds 200 (source_data src).
Proof.
  intros ML trim fuel src w q Ns G O L. destruct (copy_ok _ _ _ dest_sound src Ns w G) as (w1 & E & _).
  destruct (copy_spec _ _ _ dest_sound _ _ _ _ E) as (d & Tk & _ & D). destruct (D eq_refl) as [-> _]. unfold took in Tk. rewrite O in Tk.
  unfold form_test. rewrite E, Tk. cbn [app]. unfold server_from_request. destruct (hyper_boundary q) as [b|]; [|reflexivity].
  destruct (foreach_entry _ _ _ _ _ _) as [[x l] r'] eqn:F. apply foreach_total in F; [|apply inv_from_reader|].
  2: { unfold with_body, rem. cbn. exact L. }
  destruct x; auto; now destruct F.
Qed.

(** otherwise it panics, having sent a part of the page if it was begun. *)
Theorem C86_form_test_fails : forall ML trim fuel page started w q x, d_out w = [] -> length (stream (hy_body q)) < fuel ->
  form_test ML trim fuel page started w q = x ->
  match x with
  | Responds n body => n = 200%N /\ started = None /\ exists src, page = inr src /\ ~ source_fails src /\ body = source_data src
  | Broken body => started = None /\ exists src, page = inr src /\ prefix_of body (source_data src)
  | Crashed => (exists k, page = inl k) \/ started <> None
  | _ => False
  end.
Proof.
  intros ML trim fuel page started w q x O L H.
  set (serve := match page, started with
    | inr src, None => match io_copy dest_write_all src w with (None, w1) => Responds 200 (d_out w1) | (Some _, w1) => Broken (d_out w1) end
    | _, _ => Crashed end).
  assert (E : x = serve).
  { subst x. unfold form_test, server_from_request. destruct (hyper_boundary q) as [b|]; [|reflexivity].
    destruct (foreach_entry _ _ _ _ _ _) as [[y l] r'] eqn:F. apply foreach_total in F; [|apply inv_from_reader|].
    2: { unfold with_body, rem. cbn. exact L. }
    destruct y; auto; now destruct F. }
  subst x. rewrite E. unfold serve. destruct page as [k|src]; [left; eauto|]. destruct started as [k|]; [right; discriminate|].
  destruct (io_copy dest_write_all src w) as [[k|] w1] eqn:C;
    destruct (copy_spec _ _ _ dest_sound _ _ _ _ C) as (d & Tk & Pf & D); unfold took in Tk; rewrite O in Tk; cbn [app] in Tk; rewrite Tk.
  - eauto.
  - destruct (D eq_refl) as [-> Ns]. eauto 6.
Qed.

(** A form, a form that breaks off, another request; a client that goes away; no page. *)
Example C86_form_test_example :
  let page := [Chunk (bs "<form"); Fail KInterrupted; Chunk (bs ">")] in
  let go page w q := form_test toy true 1000 page None w q in
  ~ source_fails page /\
  go (inr page) (mkDest [] [WAccept 2]) (mkHyper Post (Some (parsed_form (bs "b"))) two_chunks) = Responds 200 (bs "<form>") /\
  go (inr page) (mkDest [] []) (mkHyper Post (Some (parsed_form (bs "b"))) [Chunk (bs "--b" ++ CRLF)]) = Responds 200 (bs "<form>") /\
  go (inr page) (mkDest [] []) (mkHyper (OtherMethod (bs "GET")) None []) = Responds 200 (bs "<form>") /\
  go (inr page) (mkDest [] [WAccept 2; WFail (KOther 3)]) (mkHyper (OtherMethod (bs "GET")) None []) = Broken (bs "<f") /\
  go (inl (KOther 2)) (mkDest [] []) (mkHyper (OtherMethod (bs "GET")) None []) = Crashed.
Proof. cbv zeta. split; [cbn; tauto|]. repeat split; vm_compute; reflexivity. Qed.
