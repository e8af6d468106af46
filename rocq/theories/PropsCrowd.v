(** Property theorems about uploads at the same time (C105): all arrive. *)

From Verif Require Import Bytes BytesProofs Spec Io Boundary BoundaryProofs Utf8 Utf8Proofs Httparse Field FieldProofs
  ContentProofs DataProofs ShortProofs EntryProofs ReaderProofs Drive DriveProofs ReachProofs Rand Fs Save Savedir SaveProofs PhaseProofs SaveFacts
  TextProofs Toy PropsReader PropsSave EntriesProofs CompleteProofs PropsEntries PropsSavedir HeaderSpec HeaderProofs WireSpec Client ClientProofs WireProofs
  PropsClient Lazy LazyProofs PropsLazy Requests PropsRequests PropsUpload PropsAny Together TogetherProofs PropsTogether Lives LivesProofs PropsLives.

(** The limits have room for the fields, with two bytes to spare; writes may be short or interrupted but nothing fails; the first
    directory name is free, the file names of the request differ, and the model may make enough steps. *)
Definition roomy {ML} (f : fs) (l : life) (e : env) (u : list revent) (fields : list (field_headers ML * bytes)) : Prop :=
  let s := l_saver l in
  s_opts s = default_opts /\ s_policy s <> TForce /\ (N.min (s_size_limit s) (s_threshold s) < U64MAX)%N /\
  (N.of_nat (length fields) < s_count_limit s)%N /\ Forall (fun hc => (N.of_nat (length (snd hc) + 2) <= s_size_limit s)%N) fields /\
  Forall (fun w => match w with WAccept n => 0 < n | WFail k => k = KInterrupted end) (e_w e) /\ e_mkdir e = [] /\ e_open e = [] /\
  0 < l_tries l /\ (forall c, f [] <> Some (NFile c)) /\ f (l_base l ++ [l_prefix l ++ fst (random_alphanumeric 6 (l_rng l))]) = None /\
  (forall j k, j < k -> k < length fields -> fst (random_alphanumeric 12 (skipn (6 + 12 * j) (l_rng l))) <> fst (random_alphanumeric 12 (skipn (6 + 12 * k) (l_rng l)))) /\
  length (stream u) + length u + N.to_nat (N.min (s_size_limit s) (s_threshold s)) + length fields + 3 <= l_fuel l.

(** The life ended with all [fields]: under each name in order of arrival, with the contents that it saw and at most a CRLF as surplus. *)
Definition arrived {ML} (l : life) (fields : list (field_headers ML * bytes)) (disk : fs) (a : tale ML) : Prop :=
  exists en g r looks y F name, a = (AEntries ML (Full en) g r, looks, y) /\ well_grouped en /\ fields_of en = length fields /\
    en_dir ML en = l_base l ++ [l_prefix l ++ name] /\ looks = map (fun q => F (en_dir ML en ++ q)) (l_looks l) /\
    (forall n, Forall2 (fun sf hc => saved_as F (sf_headers ML sf, sf_data ML sf) hc) (fields_at en n) (filter (name_is n) fields)) /\
    ((l_end l = EDrop /\ In OKeep (l_ops l)) \/ l_end l = EIntoPath ->
     forall n, Forall2 (fun sf hc => saved_as disk (sf_headers ML sf, sf_data ML sf) hc) (fields_at en n) (filter (name_is n) fields)).

Theorem C105_arrives : forall ML t f ls turn_of i l e u b fields, usable t f -> in_base t ls ->
  nth_error ls i = Some (l, e) -> (forall n, exists m, n <= m /\ turn_of m = i) ->
  (forall k l' e', k <> i -> nth_error ls k = Some (l', e') -> forall p, tries_name l p -> ~ tries_name l' p) ->
  l_reader l = with_body u b -> live u -> quiet u -> parts (head_block ML (l_trim l) (delimiter b)) (delimiter b) (stream u) fields ->
  roomy f l e u fields ->
  exists n a, forall m, n <= m -> let s := turns (map turn_of (seq 0 m)) (born ML f ls) in
    (exists e1, nth_error (snd s) i = Some (PRet a, e1)) /\ arrived l fields (fst s) a.
Proof.
  intros ML t f ls turn_of i l e u b fields U B N Fair Apart R L Q P (O & Np & Ht & Hc & Hs & Hw & M & Op & Tr & Rt & Fr & Dn & Fu).
  destruct (B _ _ (nth_error_In _ _ N)) as (Bt & _).
  assert (Li : i < length ls) by (apply nth_error_Some; congruence).
  destruct (C104_fair ML f ls turn_of i Li Fair) as (n & a & Done). exists n, a. intros m Lm s.
  destruct (Done m Lm) as [e1 N1]. fold s in N1. split; [eauto|].
  destruct (C104_independent ML t f ls _ i l e a e1 U B N Apart N1) as (e' & Run & _).
  unfold set_fs in Run. rewrite M, Op in Run.
  unfold run_life in Run. rewrite R in Run.
  set (name := fst (random_alphanumeric 6 (l_rng l))) in *. set (dir := l_base l ++ [l_prefix l ++ name]) in *.
  assert (Fp : forall x c, t = x ++ c -> x <> [] -> f x = Some NDir) by (apply U).
  assert (Cd : create_dir dir (mkEnv f (e_w e) [] []) = (None, mkEnv (upd f dir (Some NDir)) (e_w e) [] [])).
  { unfold create_dir. assert (Rl : removelast dir = t) by (unfold dir; rewrite Bt; apply removelast_last). rewrite Rl. cbn [e_fs e_mkdir].
    destruct t as [|t1 t']; [now rewrite Fr|]. rewrite (Fp (t1 :: t') []); [now rewrite Fr|now rewrite app_nil_r|discriminate]. }
  assert (Td : tempdir_in (l_tries l) (l_prefix l) (l_base l) (l_rng l) (mkEnv f (e_w e) [] []) =
    (inl dir, skipn 6 (l_rng l), mkEnv (upd f dir (Some NDir)) (e_w e) [] [])).
  { destruct (l_tries l) as [|n']; [lia|]. cbn [tempdir_in]. pose proof (random_rest TEMPDIR_RAND (l_rng l)) as Rr.
    assert (En : fst (random_alphanumeric TEMPDIR_RAND (l_rng l)) = name) by reflexivity.
    destruct (random_alphanumeric TEMPDIR_RAND (l_rng l)) as [nm g1]. cbn [fst snd] in *. subst nm g1. fold dir. now rewrite Cd. }
  rewrite Td in Run. unfold with_temp_dir in Run.
  destruct (any_fuel ML (l_trim l) u b (l_saver l) (entries_new ML dir true) (skipn 6 (l_rng l)) (mkEnv (upd f dir (Some NDir)) (e_w e) [] []) fields)
    with (fuel := l_fuel l) as (en & g' & r' & e2 & log & W & E1 & F2); auto.
  { right. split; [split; [exact Hw|split; constructor]|]. intros k Lk. split.
    - split; [destruct dir; discriminate|]. cbn [e_fs en_dir entries_new]. split.
      + unfold upd. destruct (path_eq_dec (dir ++ [name_of (skipn 6 (l_rng l)) k]) dir) as [E|_].
        { apply (f_equal (@length _)) in E. rewrite app_length in E. cbn in E. lia. }
        destruct (f (dir ++ [name_of (skipn 6 (l_rng l)) k])) eqn:Ef; auto. exfalso. destruct U as [_ U2].
        unfold dir in Ef, Fr. rewrite Bt, <- app_assoc in Ef. rewrite Bt in Fr. cbn [app] in Ef. eapply U2; [rewrite Ef; discriminate|exact Fr].
      + intros q x E Nx c. unfold upd. destruct (path_eq_dec q dir) as [_|Nq]; [discriminate|].
        destruct (list_end x) as [->|(x' & z & ->)]; [congruence|]. rewrite app_assoc in E. apply app_inj_tail in E as [E _].
        destruct (list_end x') as [->|(x2 & z2 & ->)]; [rewrite app_nil_r in E; congruence|]. unfold dir in E. rewrite app_assoc in E.
        apply app_inj_tail in E as [E _]. rewrite Bt in E. destruct q as [|q1 q]; [apply Rt|]. rewrite (Fp _ _ E); discriminate.
    - intros j Lj. unfold name_of. rewrite !skipn_plus. apply Dn; auto. }
  { unfold mem_min. lia. }
  rewrite W in Run. cbn [last_dir] in Run. destruct (dir_finish _ _ _ _) as [y f'] in Run. injection Run as Ea _.
  rewrite <- Ea in N1.
  destruct (C104_seen ML t f ls _ i l e u b _ _ _ _ _ e1 fields en U B N N1 R L O P (or_introl eq_refl)) as (F & d & rest & nm & D1 & D2 & D3 & D4 & D5 & D6 & D7).
  rewrite (D5 eq_refl), app_nil_r in D4. subst d. exists en, g', r', (map (fun q => e_fs e2 (dir ++ q)) (l_looks l)), y, F, nm.
  split; auto.
  assert (Wg : well_grouped (recount_fields ML (entries_new ML dir true))) by (split; constructor).
  destruct (C45_grouping ML _ log [] Wg) as (Wg' & _ & _ & Fo). rewrite <- E1 in Wg', Fo. split; auto. split.
  { rewrite Fo. cbn. clear - F2. induction F2; cbn; auto. }
  split; [now rewrite Bt|]. split; auto.
Qed.

(** A field that the client sends as it is and the server reads back; see C69. *)
Definition fit ML octet guess gc (c : cfield (mime ML)) : Prop :=
  sendable ML (boundary_of gc) (describe ML octet guess c) /\
  forall m, sent_ctype octet guess c = Some m -> mime_parse ML (mime_show ML m) = Some m.

(** What a client, eager or lazy, has sent, and the fields of its form as the server should find them. *)
Inductive posted ML octet guess (gc : rng) : bytes -> list (field_headers ML * bytes) -> Prop :=
| posted_eager q cs q' : client ML octet guess gc q cs = (None, q') -> written (q_log q) = [] -> Forall (fit ML octet guess gc) cs ->
    posted ML octet guess gc (written (q_log q')) (map (expected octet guess) cs)
| posted_lazy q fs q' fs' : lazy_send ML guess gc fs q = (Ok tt, q', fs') -> written (q_log q) = [] ->
    Forall (fun f => kinds (fun k => k <> KInterrupted) (l_source ML f)) fs ->
    Forall (fun f => sendable ML (boundary_of gc) (describe_lazy ML guess f) /\ typed guess f) fs ->
    posted ML octet guess gc (written (q_log q')) (map (lazy_expected guess) (lazy_order ML fs)).

Lemma posted_parts ML octet guess trim gc w l : posted ML octet guess gc w l ->
  parts (head_block ML trim (delimiter (boundary_of gc))) (delimiter (boundary_of gc)) w l.
Proof.
  intros [q cs q' C W0 Ft|q fs q' fs' H W0 K F].
  - apply C19_wire in C as (ds & L & D). rewrite L, !written_app, W0, written_map, D. cbn [written app]. rewrite app_nil_r.
    rewrite <- (map_ext_in (fun c => received ML (describe ML octet guess c))).
    + rewrite <- (map_map (describe ML octet guess) (received ML)). apply wire_parts; [apply C56_alphanumeric|].
      apply Forall_map. eapply Forall_impl; [|exact Ft]. unfold fit. simpl. tauto.
    + intros c Hc. rewrite Forall_forall in Ft. apply expected_received. now apply Ft.
  - assert (Ne : fs <> []).
    { intros ->. unfold lazy_send, prepare in H. destruct (from_fields ML guess gc []) as [[x|p] g1] eqn:Z; [discriminate|].
      apply from_fields_ok in Z as (_ & _ & _ & _ & En & _). rewrite (boundary_empty p En) in H. discriminate. }
    apply C24_send in H as (len & ds & L & D); auto. rewrite L, !written_app, W0, written_map, D. cbn [written app]. rewrite app_nil_r.
    assert (Fo : Forall (fun f => sendable ML (boundary_of gc) (describe_lazy ML guess f) /\ typed guess f) (lazy_order ML fs)).
    { rewrite Forall_forall in *. intros f Hf. apply (proj1 (order_in ML _ _)) in Hf. auto. }
    rewrite <- (map_ext_in (fun f => received ML (describe_lazy ML guess f))).
    + rewrite <- (map_map (describe_lazy ML guess) (received ML)). apply lazy_parts; [apply C56_alphanumeric| |].
      * apply Forall_map. eapply Forall_impl; [|exact Fo]. simpl. tauto.
      * intros X. apply map_eq_nil, (proj1 (order_nil ML _)) in X. congruence.
    + intros f Hf. rewrite Forall_forall in Fo. apply lazy_received. exact (proj2 (Fo f Hf)).
Qed.

(** The life [l] reads what a client sent, in any pieces, and has room for it. *)
Definition upload ML octet guess (f : fs) (l : life) (e : env) (fields : list (field_headers ML * bytes)) : Prop :=
  exists gc u, posted ML octet guess gc (stream u) fields /\ live u /\ quiet u /\ l_reader l = with_body u (boundary_of gc) /\
    roomy f l e u fields.

Lemma all_of (P : nat -> nat -> Prop) k : (forall i, i < k -> exists n, forall m, n <= m -> P i m) ->
  exists n, forall m, n <= m -> forall i, i < k -> P i m.
Proof.
  induction k as [|k IH]; intros H; [exists 0; intros; lia|]. destruct IH as [n1 H1]; [auto|]. destruct (H k) as [n2 H2]; [lia|].
  exists (n1 + n2). intros m Lm i Li. destruct (Nat.eq_dec i k) as [->|]; [apply H2|apply H1]; lia.
Qed.

(** Any number of clients send their forms at once, each to a request with its own directory names.  If all get turns, all forms have
    arrived at some time, and stay; and if all directories are dropped or deleted, nothing is left of them. *)
Theorem C105_crowd : forall ML octet guess t f ls (forms : nat -> list (field_headers ML * bytes)) turn_of, usable t f -> in_base t ls ->
  (forall i n, i < length ls -> exists m, n <= m /\ turn_of m = i) ->
  (forall i k l l' e e' p, i <> k -> nth_error ls i = Some (l, e) -> nth_error ls k = Some (l', e') -> tries_name l p -> ~ tries_name l' p) ->
  (forall i l e, nth_error ls i = Some (l, e) -> upload ML octet guess f l e (forms i)) ->
  exists n, forall m, n <= m -> let s := turns (map turn_of (seq 0 m)) (born ML f ls) in
    (forall i l e, nth_error ls i = Some (l, e) ->
       exists a e1, nth_error (snd s) i = Some (PRet a, e1) /\ arrived l (forms i) (fst s) a) /\
    ((forall l e, In (l, e) ls -> cleared l) -> forall p, fst s p = f p).
Proof.
  intros ML octet guess t f ls forms turn_of U B Fair Apart Up.
  destruct (all_of (fun i m => forall l e, nth_error ls i = Some (l, e) ->
     exists a e1, nth_error (snd (turns (map turn_of (seq 0 m)) (born ML f ls))) i = Some (PRet a, e1) /\
       arrived l (forms i) (fst (turns (map turn_of (seq 0 m)) (born ML f ls))) a) (length ls)) as (n & H).
  - intros i Li. destruct (nth_error ls i) as [[l e]|] eqn:N; [|apply nth_error_None in N; lia].
    destruct (Up i l e N) as (gc & u & Po & Lu & Qu & R & Ro).
    destruct (C105_arrives ML t f ls turn_of i l e u (boundary_of gc) (forms i)) as (n & a & D); auto.
    + intros k l' e' Nk Nl p. exact (Apart i k l l' e e' p (fun X => Nk (eq_sym X)) N Nl).
    + eapply posted_parts; eauto.
    + exists n. intros m Lm l' e' E. injection E as <- <-. destruct (D m Lm) as [[e1 N1] Ar]. eauto.
  - exists n. intros m Lm s. assert (K := H m Lm). split.
    + intros i l e N. apply (K i) with (e := e); auto. apply nth_error_Some. congruence.
    + intros Cl. refine (proj2 (C104_clear ML t f ls (map turn_of (seq 0 m)) U B) _). intros i l e N. split; [exact (Cl l e (nth_error_In _ _ N))|].
      destruct (K i ltac:(apply nth_error_Some; congruence) l e N) as (a & e1 & N1 & _). eauto.
Qed.

(** An eager and a lazy client with small forms. *)
Definition eager_wire : bytes := written (q_log (snd (client toy (bs "o/s") any_guess [] (plain_http [WAccept 3]) some_fields))).
Definition lazy_wire : bytes := written (q_log (snd (fst (lazy_send toy any_guess [] some_form (plain_http [WAccept 7]))))).

Lemma lazy_sendable : Forall (fun f => sendable toy (boundary_of []) (describe_lazy toy any_guess f) /\ @typed toy any_guess f) some_form.
Proof.
  pose proof (fun s => absent_text (boundary_of []) s) as Fr.
  apply Forall_cons; [|apply Forall_cons; [|apply Forall_cons; [|apply Forall_nil]]]; (split; [|vm_compute; auto]); unfold sendable;
    cbn [describe_lazy some_form one_file one_stream one_text l_name l_data p_name p_fname p_ctype p_data free opt_filename rev app any_guess mime_show toy source_data].
  - split; [apply plain_text; vm_compute; congruence|]. split; [now apply ascii_text|].
    split; [split; [apply (plain_text "x.png"); vm_compute; congruence|now apply (ascii_text "x.png")]|].
    split; [split; [now apply (type_text "image/png")|split; [now apply (ascii_text "image/png")|discriminate]]|].
    split; [now apply Fr|]. split; [now apply (Fr (bs "x.png"))|]. split; [now apply (Fr (bs "image/png"))|].
    split; [now apply (Fr (bs "data"))|]. apply Nat.leb_le; vm_compute; reflexivity.
  - split; [apply plain_text; vm_compute; congruence|]. split; [now apply ascii_text|]. split; [exact I|].
    split; [split; [now apply (type_text "t/x")|split; [now apply (ascii_text "t/x")|discriminate]]|].
    split; [now apply Fr|]. split; [exact I|]. split; [now apply (Fr (bs "t/x"))|]. split; [now apply (Fr (bs "abcdefgh"))|].
    apply Nat.leb_le; vm_compute; reflexivity.
  - split; [apply plain_text; vm_compute; congruence|]. split; [now apply ascii_text|]. split; [exact I|]. split; [exact I|].
    split; [now apply Fr|]. split; [exact I|]. split; [exact I|]. split; [now apply Fr|].
    apply Nat.leb_le; vm_compute; reflexivity.
Qed.

Lemma eager_posted : posted toy (bs "o/s") any_guess [] eager_wire (map (@expected toy (bs "o/s") any_guess) some_fields).
Proof. apply posted_eager with (q := plain_http [WAccept 3]); [vm_compute; reflexivity|reflexivity|exact (proj1 C28_example)]. Qed.

Lemma lazy_posted : posted toy (bs "o/s") any_guess [] lazy_wire (map (@lazy_expected toy any_guess) (lazy_order toy some_form)).
Proof.
  apply posted_lazy with (q := plain_http [WAccept 7]) (fs' := snd (lazy_send toy any_guess [] some_form (plain_http [WAccept 7]))).
  - vm_compute. reflexivity.
  - reflexivity.
  - repeat constructor.
  - exact lazy_sendable.
Qed.

(** The two at once, in different pieces; both directories are dropped. *)
Definition pair_life (w : bytes) (n : N) (k : nat) : life :=
  mkLife true (mkSaver 5000 256 4 TTry default_opts) tmp (bs "m-") 2 1000 (repeat n 18 ++ repeat (n + 1)%N 12 ++ repeat (n + 2)%N 12)
    (with_body [Chunk (firstn k w); Chunk (skipn k w)] (boundary_of [])) [[repeat (alnum_char (n + 1)) 12]] [] EDrop [fun q => length q =? 2] RmOk.

Definition pair_lives : list (life * env) :=
  [(pair_life eager_wire 7 30, no_failures (fun _ => None)); (pair_life lazy_wire 10 50, no_failures (fun _ => None))].

Definition pair_forms (i : nat) : list (field_headers toy * bytes) :=
  match i with 0 => map (@expected toy (bs "o/s") any_guess) some_fields | _ => map (@lazy_expected toy any_guess) (lazy_order toy some_form) end.

Example C105_example :
  usable tmp only_tmp /\ in_base tmp pair_lives /\
  (forall i k l l' e e' p, i <> k -> nth_error pair_lives i = Some (l, e) -> nth_error pair_lives k = Some (l', e') -> tries_name l p -> ~ tries_name l' p) /\
  (forall i l e, nth_error pair_lives i = Some (l, e) -> upload toy (bs "o/s") any_guess only_tmp l e (pair_forms i) /\ cleared l) /\
  (forall i n, i < length pair_lives -> exists m, n <= m /\ Nat.modulo m 2 = i) /\
  let s := turns (map (fun m => Nat.modulo m 2) (seq 0 80)) (born toy only_tmp pair_lives) in
  map (fun qe => told (fst qe)) (snd s) =
    [Some ([SText (bs "text"); SBytes (bs "data")], [None]);
     Some ([SText (bs "text"); SFile (tmp ++ [bs "m-" ++ repeat 75%N 6; repeat 76%N 12]) 8; SBytes (bs "data")], [Some (NFile (bs "abcdefgh"))])].
Proof.
  split; [|split; [|split; [|split; [|split]]]].
  - apply C104_example.
  - intros l e [H|[H|[]]]; injection H as <- <-; cbn; auto.
  - intros i k l l' e e' p Nik Ni Nk (j & Lj & ->) (j' & Lj' & E).
    destruct i as [|[|i]], k as [|[|k]]; try (exfalso; apply Nik; reflexivity); try (destruct i; discriminate Ni); try (destruct k; discriminate Nk);
      injection Ni as <- <-; injection Nk as <- <-; change (l_tries _) with 2 in Lj, Lj';
      destruct j as [|[|j]], j' as [|[|j']]; try lia; vm_compute in E; discriminate.
  - assert (W : forall w n k (fields : list (field_headers toy * bytes)), In (n, k) [(7%N, 30); (10%N, 50)] -> length fields <= 3 -> length w <= 600 -> k < length w ->
      Forall (fun hc => length (snd hc) <= 90) fields -> posted toy (bs "o/s") any_guess [] w fields ->
      upload toy (bs "o/s") any_guess only_tmp (pair_life w n k) (no_failures (fun _ => None)) fields).
    { intros w n k fields Hn Ll Lw Lk Fl Po. exists [], [Chunk (firstn k w); Chunk (skipn k w)]. cbn [stream]. rewrite app_nil_r, firstn_skipn.
      split; auto. split.
      { assert (K0 : k <> 0) by (destruct Hn as [H|[H|[]]]; injection H as <- <-; discriminate).
        intros [X|[X|[]]]; injection X as X; apply (f_equal (@length _)) in X; rewrite ?firstn_length, ?skipn_length in X; cbn [length] in X; lia. }
      split; [intros x [X|[X|[]]]; discriminate|]. split; [reflexivity|].
      split; [reflexivity|]. split; [discriminate|]. split; [reflexivity|]. split; [cbn [pair_life l_saver s_count_limit]; lia|].
      split; [eapply Forall_impl; [|exact Fl]; cbn; intros; lia|]. split; [constructor|]. split; [reflexivity|]. split; [reflexivity|].
      split; [cbn; lia|]. split; [discriminate|]. split; [reflexivity|]. split.
      - intros i j Li Lj. destruct Hn as [H|[H|[]]]; injection H as <- <-; destruct j as [|[|[|j]]]; try lia; destruct i as [|[|[|i]]]; try lia; vm_compute; discriminate.
      - cbn [pair_life l_saver l_fuel s_size_limit s_threshold stream length]. rewrite app_nil_r, firstn_skipn. change (N.to_nat (N.min 5000 256)) with 256. lia. }
    intros i l e Ni. destruct i as [|[|i]]; [| |destruct i; discriminate Ni]; injection Ni as <- <-; (split; [|split; auto; right; split; auto; intros []]).
    + apply W; [left; reflexivity|apply Nat.leb_le; vm_compute; reflexivity|apply Nat.leb_le; vm_compute; reflexivity|apply Nat.ltb_lt; vm_compute; reflexivity|
        repeat (constructor; [apply Nat.leb_le; vm_compute; reflexivity|]); constructor|exact eager_posted].
    + apply W; [right; left; reflexivity|apply Nat.leb_le; vm_compute; reflexivity|apply Nat.leb_le; vm_compute; reflexivity|apply Nat.ltb_lt; vm_compute; reflexivity|
        repeat (constructor; [apply Nat.leb_le; vm_compute; reflexivity|]); constructor|exact lazy_posted].
  - intros i n Li. exists (2 * n + i). change (length pair_lives) with 2 in Li. split; [lia|]. rewrite Nat.add_comm, Nat.mul_comm, Nat.mod_add by lia. now apply Nat.mod_small.
  - vm_compute. reflexivity.
Qed.
