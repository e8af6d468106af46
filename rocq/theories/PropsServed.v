(** Property theorems about forms uploaded to a server with the Iron middleware at the same time (C108). *)

From Verif Require Import Bytes BytesProofs Spec Io Boundary BoundaryProofs Utf8 Utf8Proofs Httparse Field FieldProofs
  ContentProofs DataProofs ShortProofs EntryProofs ReaderProofs Drive DriveProofs ReachProofs Rand Fs Save Savedir SaveProofs PhaseProofs SaveFacts
  TextProofs Toy PropsReader PropsSave EntriesProofs CompleteProofs PropsEntries PropsSavedir HeaderSpec HeaderProofs WireSpec Client ClientProofs WireProofs
  PropsClient Lazy LazyProofs PropsLazy Requests PropsRequests PropsUpload PropsAny Iron IronProofs PropsIron PropsAnyway PropsOver Together TogetherProofs PropsTogether
  Lives LivesProofs PropsLives PropsCrowd Visits PropsVisits.

(** Every field is below the size limit, with two bytes to spare. *)
Definition fits {ML} (v : visit) (fields : list (field_headers ML * bytes)) : Prop :=
  Forall (fun hc => (N.of_nat (length (snd hc) + 2) <= ic_size (v_ic v))%N) fields.

(** Writes may be short or interrupted but nothing fails; the first directory name is free, the file names of the request differ, and
    the model may make enough steps. *)
Definition welcome {ML} (f : fs) (v : visit) (e : env) (fields : list (field_headers ML * bytes)) : Prop :=
  let ic := v_ic v in
  (ic_count ic <= U32MAX)%N /\ (ic_size ic < U64MAX)%N /\
  Forall (fun w => match w with WAccept n => 0 < n | WFail k => k = KInterrupted end) (e_w e) /\ e_mkdir e = [] /\ e_open e = [] /\
  0 < v_tries v /\ (forall c, f [] <> Some (NFile c)) /\ f (v_base v ++ [bs "multipart-iron" ++ fst (random_alphanumeric 6 (v_rng v))]) = None /\
  (forall j k, j < k -> k < length fields -> fst (random_alphanumeric 12 (skipn (6 + 12 * j) (v_rng v))) <> fst (random_alphanumeric 12 (skipn (6 + 12 * k) (v_rng v)))) /\
  length (stream (v_body v)) + length (v_body v) + N.to_nat (N.min (ic_size ic) 10240) + N.to_nat (ic_count ic) + 4 <= v_fuel v.

(** Accepted with all [fields]: under each name in order of arrival, with the contents that the handler can read, and at most a CRLF as surplus. *)
Definition served {ML} (v : visit) (fields : list (field_headers ML * bytes)) (a : reply ML) : Prop :=
  exists en looks F name, a = (Ok (Some en), looks) /\ well_grouped en /\ fields_of en = length fields /\
    dir_of en = Temp (v_base v ++ [bs "multipart-iron" ++ name]) /\ looks = map (fun q => F (v_base v ++ [bs "multipart-iron" ++ name] ++ q)) (v_looks v) /\
    forall n, Forall2 (fun sf hc => saved_as F (sf_headers ML sf, sf_data ML sf) hc) (fields_at en n) (filter (name_is n) fields).

(** Accepted if below the count limit, refused with the count error if not, or refused for the size of a field, which with two bytes
    more is over the limit.  The last is certain for the first field that is too large, if it is over the limit by more than the memory threshold
    (or the limit, if that is less), and the fields before it fit and are fewer than the count limit. *)
Definition decided {ML} (v : visit) (fields : list (field_headers ML * bytes)) (a : reply ML) : Prop :=
  let ic := v_ic v in
  ((served v fields a /\ (N.of_nat (length fields) < ic_count ic)%N) \/
   (a = (Err (ICountLimit ML (ic_count ic)), []) /\ (ic_count ic <= N.of_nat (length fields))%N) \/
   exists h c, a = (Err (ISizeLimit ML h), []) /\ In (h, c) fields /\ (ic_size ic < N.of_nat (length c + 2))%N) /\
  forall l1 h c l2, fields = l1 ++ (h, c) :: l2 -> fits v l1 -> (N.of_nat (length l1) < ic_count ic)%N ->
    (ic_size ic + N.min (ic_size ic) 10240 < N.of_nat (length c))%N -> a = (Err (ISizeLimit ML h), []).

Lemma strict_fuel ML trim ic ev dir fuel g u b e : (ic_count ic <= U32MAX)%N ->
  length (stream u) + length u + N.to_nat (N.min (ic_size ic) 10240) + N.to_nat (ic_count ic) + 4 <= fuel ->
  fst (read_request_strict ML trim ic ev dir fuel g (with_body u b) e) <> OutOfFuel.
Proof.
  intros Lc Lf. unfold read_request_strict, with_temp_dir.
  destruct (with_entries ML trim (iron_saver ic) fuel (entries_new ML dir true) g (with_body u b) e) as [[[y g'] r'] e2] eqn:W.
  unfold with_entries in W. destruct (read_entry ML trim (with_body u b)) as [res r1] eqn:E.
  pose proof (read_entry_inv ML _ _ _ _ (inv_from_reader u b) E) as (I1 & _ & _ & _ & N1 & N2).
  pose proof (enough_entry ML _ _ _ _ (inv_from_reader u b) E) as Le.
  change (enough (from_reader u b)) with (S (length (stream u) + length u)) in Le.
  assert (NF : y <> SFuel).
  { eapply loop_ends; [apply iron_mem|exact Lc|exact I1|exact N2| | |exact W]; change (s_count_limit (iron_saver ic)) with (ic_count ic);
      change (mem_min (iron_saver ic)) with (N.min (ic_size ic) 10240); lia. }
  destruct y as [en1|pe why|y| |]; try discriminate; [|congruence]. destruct why; try discriminate. now destruct (pe_partial ML pe) as [[h0 v0]|].
Qed.

(** On its own. *)
Lemma visit_decided ML t f v e b fields a e' : usable t f -> v_base v = t ->
  v_boundary v = Some b -> live (v_body v) -> quiet (v_body v) ->
  parts (head_block ML (v_trim v) (delimiter b)) (delimiter b) (stream (v_body v)) fields -> welcome f v e fields ->
  ic_continue (v_ic v) = false \/ (fits v fields /\ (N.of_nat (length fields) < ic_count (v_ic v))%N) ->
  run_visit ML v (set_fs f e) = (a, e') -> decided v fields a.
Proof.
  intros U Bt Bo L Q P (Lc & Lz & Hw & M & Op & Tr & Rt & Fr & Dn & Fu) Co Run.
  unfold set_fs in Run. rewrite M, Op in Run. apply (f_equal fst) in Run. change (fst (a, e')) with a in Run.
  unfold run_visit, read_request in Run. fold (v_base v) in Run. rewrite Bo in Run.
  set (name := fst (random_alphanumeric 6 (v_rng v))) in *. set (dir := v_base v ++ [bs "multipart-iron" ++ name]) in *.
  assert (Fp : forall x c, t = x ++ c -> x <> [] -> f x = Some NDir) by (apply U).
  assert (Cd : create_dir dir (mkEnv f (e_w e) [] []) = (None, mkEnv (upd f dir (Some NDir)) (e_w e) [] [])).
  { unfold create_dir. assert (Rl : removelast dir = t) by (unfold dir; rewrite Bt; apply removelast_last). rewrite Rl. cbn [e_fs e_mkdir].
    destruct t as [|t1 t']; [now rewrite Fr|]. rewrite (Fp (t1 :: t') []); [now rewrite Fr|now rewrite app_nil_r|discriminate]. }
  assert (Td : tempdir_in (v_tries v) (bs "multipart-iron") (v_base v) (v_rng v) (mkEnv f (e_w e) [] []) =
    (inl dir, skipn 6 (v_rng v), mkEnv (upd f dir (Some NDir)) (e_w e) [] [])).
  { destruct (v_tries v) as [|n']; [lia|]. cbn [tempdir_in]. pose proof (random_rest TEMPDIR_RAND (v_rng v)) as Rr.
    assert (En : fst (random_alphanumeric TEMPDIR_RAND (v_rng v)) = name) by reflexivity.
    destruct (random_alphanumeric TEMPDIR_RAND (v_rng v)) as [nm g1]. cbn [fst snd] in *. subst nm g1. fold dir. now rewrite Cd. }
  rewrite Td in Run.
  set (e0 := mkEnv (upd f dir (Some NDir)) (e_w e) [] []) in *.
  assert (Gf : good e0 /\ fresh_names e0 dir (skipn 6 (v_rng v)) (length fields)).
  { split; [split; [exact Hw|split; constructor]|]. intros k Lk. split.
    - split; [destruct dir; discriminate|]. unfold e0. cbn [e_fs]. split.
      + unfold upd. destruct (path_eq_dec (dir ++ [name_of (skipn 6 (v_rng v)) k]) dir) as [E|_].
        { apply (f_equal (@length _)) in E. rewrite app_length in E. cbn in E. lia. }
        destruct (f (dir ++ [name_of (skipn 6 (v_rng v)) k])) eqn:Ef; auto. exfalso. destruct U as [_ U2].
        unfold dir in Ef, Fr. rewrite Bt, <- app_assoc in Ef. rewrite Bt in Fr. cbn [app] in Ef. eapply U2; [rewrite Ef; discriminate|exact Fr].
      + intros q x E Nx c. unfold upd. destruct (path_eq_dec q dir) as [_|Nq]; [discriminate|].
        destruct (list_end x) as [->|(x' & z & ->)]; [congruence|]. rewrite app_assoc in E. apply app_inj_tail in E as [E _].
        destruct (list_end x') as [->|(x2 & z2 & ->)]; [rewrite app_nil_r in E; congruence|]. unfold dir in E. rewrite app_assoc in E.
        apply app_inj_tail in E as [E _]. rewrite Bt in E. destruct q as [|q1 q]; [apply Rt|]. rewrite (Fp _ _ E); discriminate.
    - intros j Lj. unfold name_of. rewrite !skipn_plus. apply Dn; auto. }
  destruct Gf as [Ge Fn].
  assert (Wg : well_grouped (entries_new ML dir true)) by (split; constructor).
  assert (Accept : forall en e2 log, a = (Ok (Some en), map (fun q => e_fs e2 (en_dir ML en ++ q)) (v_looks v)) ->
    en = pushes ML (entries_new ML dir true) log -> Forall2 (saved_as (e_fs e2)) log fields -> served v fields a).
  { intros en e2 log Ea E1 F2.
    assert (Ed : dir_of en = Temp dir) by (rewrite E1; apply pushes_dir_of). assert (Ep : en_dir ML en = dir) by (rewrite E1; apply pushes_dir).
    exists en, (map (fun q => e_fs e2 (en_dir ML en ++ q)) (v_looks v)), (e_fs e2), name. split; auto. split; [|split; [|split; [auto|split]]].
    - rewrite E1. exact (proj1 (C45_grouping ML _ log [] Wg)).
    - destruct (C45_grouping ML _ log [] Wg) as (_ & _ & _ & Fo). rewrite E1, Fo. cbn. clear - F2. induction F2; cbn; auto.
    - rewrite Ep. unfold dir. apply map_ext. intros q. now rewrite <- app_assoc.
    - intros n0. destruct (C45_grouping ML _ log n0 Wg) as (_ & Fa & _). rewrite E1, Fa.
      replace (fields_at (entries_new ML dir true) n0) with (@nil (saved_field ML)) by reflexivity.
      cbn [app]. clear - F2. unfold named.
      induction F2 as [|hv hc log l [H1 H2] F IH]; [constructor|]. cbn [filter]. unfold name_is at 1. rewrite H1.
      destruct (list_eq_dec N.eq_dec (fh_name ML (fst hc)) n0); [|exact IH]. constructor; [|exact IH]. split; auto. }
  destruct (ic_continue (v_ic v)) eqn:Ic.
  - destruct Co as [Co|[Hs Hc]]; [discriminate|].
    destruct (any_fuel ML (v_trim v) (v_body v) b (iron_saver (v_ic v)) (entries_new ML dir true) (skipn 6 (v_rng v)) e0 fields)
      with (fuel := v_fuel v) as (en & g' & r' & e2 & log & W & E1 & F2); auto.
    { discriminate. }
    { exact (iron_mem (v_ic v)). }
    { change (mem_min (iron_saver (v_ic v))) with (N.min (ic_size (v_ic v)) 10240). lia. }
    assert (R : read_request_lenient ML (v_trim v) (v_ic v) (v_rm v) dir (v_rounds v) (v_fuel v) (skipn 6 (v_rng v)) (with_body (v_body v) b) e0 = (Ok (Some en), e2)).
    { unfold read_request_lenient, with_temp_dir. now rewrite W. }
    rewrite R in Run. cbn [fst] in Run. split; [left; split; auto; exact (Accept en e2 log (eq_sym Run) E1 F2)|].
    intros l1 h c l2 -> _ _ Lh. exfalso. unfold fits in Hs. rewrite Forall_forall in Hs. specialize (Hs (h, c)). cbn [snd] in Hs.
    assert (Hi : In (h, c) (l1 ++ (h, c) :: l2)) by (apply in_or_app; right; left; reflexivity). specialize (Hs Hi). lia.
  - pose proof (strict_fuel ML (v_trim v) (v_ic v) (v_rm v) dir (v_fuel v) (skipn 6 (v_rng v)) (v_body v) b e0 Lc Fu) as NF.
    destruct (read_request_strict ML (v_trim v) (v_ic v) (v_rm v) dir (v_fuel v) (skipn 6 (v_rng v)) (with_body (v_body v) b) e0) as [x e3] eqn:H.
    split.
    + apply strict_outcome_any with (l := fields) in H as [->|[(en & log & -> & Lx & E1 & F2)|[[-> Lx]|(h & c & -> & Hi & Lx)]]]; auto; cbn [fst] in Run.
      * destruct NF. reflexivity.
      * left. split; auto. exact (Accept en e3 log (eq_sym Run) E1 F2).
      * right. right. exists h, c. auto.
    + intros l1 h c l2 El Fl Ll Lh.
      assert (Fn' : fresh_names e0 dir (skipn 6 (v_rng v)) (length l1 + 1)).
      { intros k Lk. apply Fn. rewrite El, app_length. cbn [length]. lia. }
      rewrite El in P.
      destruct (entries_cut_any ML (v_trim v) (v_body v) b (iron_saver (v_ic v)) dir true (skipn 6 (v_rng v)) e0 l1 h c l2) with (fuel := v_fuel v)
        as (en & w & g' & r' & e4 & W & _); auto.
      { apply iron_policy. }
      { exact (iron_mem (v_ic v)). }
      { change (mem_min (iron_saver (v_ic v))) with (N.min (ic_size (v_ic v)) 10240). lia. }
      unfold read_request_strict, with_temp_dir in H. rewrite W in H. injection H as <- _. now symmetry.
Qed.

Theorem C108_decided : forall ML t f vs turn_of i v e b fields, usable t f -> guests t vs ->
  nth_error vs i = Some (v, e) -> (forall n, exists m, n <= m /\ turn_of m = i) ->
  (forall k v' e', k <> i -> nth_error vs k = Some (v', e') -> forall p, may_try v p -> ~ may_try v' p) ->
  v_boundary v = Some b -> live (v_body v) -> quiet (v_body v) ->
  parts (head_block ML (v_trim v) (delimiter b)) (delimiter b) (stream (v_body v)) fields -> welcome f v e fields ->
  ic_continue (v_ic v) = false \/ (fits v fields /\ (N.of_nat (length fields) < ic_count (v_ic v))%N) ->
  exists n a, decided v fields a /\ forall m, n <= m -> exists e1, nth_error (snd (turns (map turn_of (seq 0 m)) (come ML f vs))) i = Some (PRet a, e1).
Proof.
  intros ML t f vs turn_of i v e b fields U G N Fair Apart Bo L Q P We Co.
  destruct (G _ _ (nth_error_In _ _ N)) as (Bt & _).
  assert (Li : i < length vs) by (apply nth_error_Some; congruence).
  destruct (C107_fair ML f vs turn_of i Li Fair) as (n & a & Done). exists n, a. split; [|exact Done].
  destruct (Done n (le_n n)) as [e1 N1]. destruct (C107_independent ML t f vs _ i v e a e1 U G N Apart N1) as (e' & Run & _).
  eapply visit_decided; eauto.
Qed.

(** The body of the request is what a client sent, in any pieces, and its boundary the client's. *)
Definition from_client ML octet guess (v : visit) (l : list (field_headers ML * bytes)) : Prop :=
  exists gc, posted ML octet guess gc (stream (v_body v)) l /\ v_boundary v = Some (boundary_of gc) /\ live (v_body v) /\ quiet (v_body v).

(** Any number of clients send their forms at once, each to a request with its own directory names.  If all get turns, then at some
    time all the requests are over, each decided by the number of its fields; the ones accepted have the form, and nothing is left on the disk. *)
Theorem C108_crowd : forall ML octet guess t f vs (forms : nat -> list (field_headers ML * bytes)) turn_of, usable t f -> guests t vs ->
  (forall i n, i < length vs -> exists m, n <= m /\ turn_of m = i) ->
  (forall i k v v' e e' p, i <> k -> nth_error vs i = Some (v, e) -> nth_error vs k = Some (v', e') -> may_try v p -> ~ may_try v' p) ->
  (forall i v e, nth_error vs i = Some (v, e) -> from_client ML octet guess v (forms i) /\ welcome f v e (forms i) /\ v_rm v = RmOk /\
     (ic_continue (v_ic v) = false \/ (fits v (forms i) /\ (N.of_nat (length (forms i)) < ic_count (v_ic v))%N))) ->
  exists n, forall m, n <= m -> let s := turns (map turn_of (seq 0 m)) (come ML f vs) in
    (forall i v e, nth_error vs i = Some (v, e) -> exists a e1, nth_error (snd s) i = Some (PRet a, e1) /\ decided v (forms i) a) /\
    forall p, fst s p = f p.
Proof.
  intros ML octet guess t f vs forms turn_of U G Fair Apart H.
  destruct (all_of (fun i m => forall v e, nth_error vs i = Some (v, e) ->
     exists a e1, nth_error (snd (turns (map turn_of (seq 0 m)) (come ML f vs))) i = Some (PRet a, e1) /\ decided v (forms i) a) (length vs)) as (n & K).
  - intros i Li. destruct (nth_error vs i) as [[v e]|] eqn:N; [|apply nth_error_None in N; lia].
    destruct (H i v e N) as ((gc & Po & Bo & Lu & Qu) & We & _ & Co).
    destruct (C108_decided ML t f vs turn_of i v e (boundary_of gc) (forms i)) as (n & a & D & Done); auto.
    + intros k v' e' Nk Nl p. exact (Apart i k v v' e e' p (fun X => Nk (eq_sym X)) N Nl).
    + eapply posted_parts; eauto.
    + exists n. intros m Lm v' e' E. injection E as <- <-. destruct (Done m Lm) as [e1 N1]. eauto.
  - exists n. intros m Lm s. assert (K' := K m Lm).
    assert (All : forall i v e, nth_error vs i = Some (v, e) -> exists a e1, nth_error (snd s) i = Some (PRet a, e1) /\ decided v (forms i) a).
    { intros i v e N. apply (K' i) with (e := e); auto. apply nth_error_Some. congruence. }
    split; [exact All|]. refine (proj2 (C107_clear ML t f vs (map turn_of (seq 0 m)) U G) _). intros i v e N.
    split; [apply (H i v e N)|]. destruct (All i v e N) as ([x looks] & e1 & N1 & D & _). exists x, looks, e1. split; auto.
    destruct D as [[(en & lk & F & nm & E & _) _]|[[E _]|(h & c & E & _)]]; injection E as -> _; discriminate.
Qed.

(** An eager client to a request with a limit of nine fields, the same form to one with a limit of two, a lazy client to one that continues,
    and the eager client to one with a size limit of one byte. *)
Definition guest (w : bytes) (size count : N) (c : bool) (n : N) (k : nat) : visit :=
  mkVisit true (mkIntercept None size count c) tmp 2 3 1000 (repeat n 18 ++ repeat (n + 1)%N 12 ++ repeat (n + 2)%N 12) (Some (boundary_of []))
    [Chunk (firstn k w); Chunk (skipn k w)] [] [fun q => length q =? 2] RmOk.

Definition four : list (visit * env) :=
  map (fun v => (v, no_failures (fun _ => None))) [guest eager_wire 100 9 false 7 30; guest eager_wire 100 2 false 10 50; guest lazy_wire 100 9 true 13 40; guest eager_wire 1 9 false 16 60].

Definition four_forms (i : nat) : list (field_headers toy * bytes) :=
  match i with 2 => map (@lazy_expected toy any_guess) (lazy_order toy some_form) | _ => map (@expected toy (bs "o/s") any_guess) some_fields end.

Example C108_example :
  usable tmp only_tmp /\ guests tmp four /\
  (forall i k v v' e e' p, i <> k -> nth_error four i = Some (v, e) -> nth_error four k = Some (v', e') -> may_try v p -> ~ may_try v' p) /\
  (forall i v e, nth_error four i = Some (v, e) -> from_client toy (bs "o/s") any_guess v (four_forms i) /\ welcome only_tmp v e (four_forms i) /\ v_rm v = RmOk /\
     (ic_continue (v_ic v) = false \/ (fits v (four_forms i) /\ (N.of_nat (length (four_forms i)) < ic_count (v_ic v))%N))) /\
  (forall i n, i < length four -> exists m, n <= m /\ Nat.modulo m 4 = i) /\
  map (fun qe => answered (fst qe)) (snd (turns (map (fun m => Nat.modulo m 4) (seq 0 120)) (come toy only_tmp four))) =
    [Some (inr (map Some [bs "text"; bs "data"], [])); Some (inl (ICountLimit toy 2)); Some (inr (map Some [bs "text"; bs "abcdefgh"; bs "data"], []));
     Some (inl (ISizeLimit toy (mkFH toy (bs "a") None None)))].
Proof.
  split; [exact (proj1 five_guests)|]. split; [|split; [|split; [|split]]].
  - intros v e [H|[H|[H|[H|[]]]]]; injection H as <- <-; cbn; auto.
  - intros i k v v' e e' p Nik Ni Nk (j & Lj & ->) (j' & Lj' & E).
    destruct i as [|[|[|[|i]]]], k as [|[|[|[|k]]]]; try (exfalso; apply Nik; reflexivity); try (destruct i; discriminate Ni); try (destruct k; discriminate Nk);
      injection Ni as <- <-; injection Nk as <- <-; change (v_tries _) with 2 in Lj, Lj';
      destruct j as [|[|j]], j' as [|[|j']]; try lia; vm_compute in E; discriminate.
  - assert (W : forall w size count c n k (l : list (field_headers toy * bytes)), In (n, k) [(7%N, 30); (10%N, 50); (13%N, 40); (16%N, 60)] -> length l <= 3 -> (size <= 100)%N -> (count <= 9)%N -> length w <= 600 ->
      welcome only_tmp (guest w size count c n k) (no_failures (fun _ => None)) l).
    { intros w size count c n k l Hn Ll Lz Lc Lw. split; [cbn; unfold U32MAX; lia|]. split; [cbn; unfold U64MAX; lia|].
      split; [constructor|]. split; [reflexivity|]. split; [reflexivity|]. split; [cbn; lia|]. split; [discriminate|].
      split; [reflexivity|]. split.
      - intros i j Li Lj. destruct Hn as [H|[H|[H|[H|[]]]]]; injection H as <- <-; destruct j as [|[|[|j]]]; try lia; destruct i as [|[|[|i]]]; try lia; vm_compute; discriminate.
      - cbn [guest v_body v_ic v_fuel ic_size ic_count stream length]. rewrite app_nil_r, firstn_skipn. lia. }
    assert (Cl : forall w l size count c n k, posted toy (bs "o/s") any_guess [] w l -> length w <> 0 -> k <> 0 -> k < length w ->
      from_client toy (bs "o/s") any_guess (guest w size count c n k) l).
    { intros w l size count c n k Po L0 K0 Lk. exists []. cbn [guest v_body v_boundary stream]. rewrite app_nil_r, firstn_skipn.
      split; auto. split; auto. split.
      - intros [X|[X|[]]]; injection X as X; apply (f_equal (@length _)) in X; rewrite ?firstn_length, ?skipn_length in X; cbn [length] in X; lia.
      - intros x [X|[X|[]]]; discriminate. }
    pose proof eager_posted as Pe. pose proof lazy_posted as Pl.
    intros i v e Ni. destruct i as [|[|[|[|i]]]]; [| | | |destruct i; discriminate Ni]; injection Ni as <- <-.
    + split; [apply Cl; [exact Pe|vm_compute; discriminate|discriminate|apply Nat.ltb_lt; vm_compute; reflexivity]|].
      split; [apply W; [left; reflexivity|apply Nat.leb_le; vm_compute; reflexivity|apply N.leb_le; reflexivity|apply N.leb_le; reflexivity|apply Nat.leb_le; vm_compute; reflexivity]|].
      split; [reflexivity|]. left. reflexivity.
    + split; [apply Cl; [exact Pe|vm_compute; discriminate|discriminate|apply Nat.ltb_lt; vm_compute; reflexivity]|].
      split; [apply W; [right; left; reflexivity|apply Nat.leb_le; vm_compute; reflexivity|apply N.leb_le; reflexivity|apply N.leb_le; reflexivity|apply Nat.leb_le; vm_compute; reflexivity]|].
      split; [reflexivity|]. left. reflexivity.
    + split; [apply Cl; [exact Pl|vm_compute; discriminate|discriminate|apply Nat.ltb_lt; vm_compute; reflexivity]|].
      split; [apply W; [right; right; left; reflexivity|apply Nat.leb_le; vm_compute; reflexivity|apply N.leb_le; reflexivity|apply N.leb_le; reflexivity|apply Nat.leb_le; vm_compute; reflexivity]|].
      split; [reflexivity|]. right. split; [|vm_compute; reflexivity].
      repeat (constructor; [apply N.leb_le; vm_compute; reflexivity|]); constructor.
    + split; [apply Cl; [exact Pe|vm_compute; discriminate|discriminate|apply Nat.ltb_lt; vm_compute; reflexivity]|].
      split; [apply W; [right; right; right; left; reflexivity|apply Nat.leb_le; vm_compute; reflexivity|apply N.leb_le; reflexivity|apply N.leb_le; reflexivity|apply Nat.leb_le; vm_compute; reflexivity]|].
      split; [reflexivity|]. left. reflexivity.
  - intros i n Li. exists (4 * n + i). change (length four) with 4 in Li. split; [lia|]. rewrite Nat.add_comm, Nat.mul_comm, Nat.mod_add by lia. now apply Nat.mod_small.
  - vm_compute. reflexivity.
Qed.
