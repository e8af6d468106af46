(** Property theorems for every chunking of the body (C76): what is delivered or saved is the content of a field, with at most the
    CRLF of the delimiter as surplus. *)

From Verif Require Import Bytes BytesProofs Spec Io Boundary BoundaryProofs Utf8 Utf8Proofs Httparse Field FieldProofs
  ContentProofs DataProofs EntryProofs ReaderProofs Drive DriveProofs ReachProofs Rand Fs Save SaveProofs PhaseProofs SaveFacts
  TextProofs Toy PropsReader PropsSave EntriesProofs CompleteProofs PropsEntries HeaderSpec HeaderProofs WireSpec Client ClientProofs WireProofs
  PropsClient Lazy LazyProofs PropsLazy Requests PropsRequests PropsUpload DataProofs Readers PropsReaders PropsForeach.

(** ** C76: any chunking, at most one CRLF as surplus *)

(** Reading a field until [Ok(0)], with any mix of calls and errors in between. *)
Theorem C76_read : forall ML trim t b h r os n ob r' c,
  at_field ML trim t b h r -> live t -> Forall data_op os -> 0 < n ->
  run ML trim (os ++ [ORead n]) r = (ob ++ [BRead ML (Ok [])], r') ->
  content (delimiter b) (rem r) c -> padded c (delivered ML ob).
Proof.
  intros ML trim t b h r os n ob r' c Hf Hl Hd Hn H Hc. pose proof Hc as (pre & post & FS & _).
  eapply content_padded; eauto. eapply C02_end; eauto.
Qed.

(** [read_to_end], called again after every error. *)
Theorem C76_to_end : forall ML trim t b h r fuel szs v v' r' c,
  at_field ML trim t b h r -> live t -> Forall (fun sz : nat -> nat => forall k, 0 < sz k) szs ->
  content (delimiter b) (rem r) c ->
  persist fuel szs r v = Some (v', r') -> exists w, v' = v ++ w /\ padded c w.
Proof.
  intros ML trim t b h r fuel szs v v' r' c Hf Hl H0 Hc H.
  apply (persist_run ML trim fuel (fun n => 0 < n) szs H0) in H as (os & j & ob & R & Fo & Pj & ->).
  assert (Fd : Forall data_op os) by (eapply Forall_impl; [|exact Fo]; intros o (i & -> & _); exact I).
  exists (delivered ML ob). split; auto. eapply C76_read; eauto.
Qed.

(** Saving a field in full. *)
Theorem C76_saved : forall ML trim t b h r s p fuel e v r' e' c,
  at_field ML trim t b h r -> live t -> s_opts s = default_opts ->
  content (delimiter b) (rem r) c ->
  with_path s p fuel r e = (Full v, r', e') ->
  exists w, readable v (e_fs e') = Some w /\ padded c w.
Proof.
  intros ML trim t b h r s p fuel e v r' e' c Hf Hl Ho Hc H. pose proof Hc as (pre & post & FS & _).
  destruct (C32_any_chunking_partial _ _ _ _ _ _ _ _ _ _ _ _ _ _ _ Hf Hl Ho FS H) as (w & Hw & P).
  exists w. split; auto. eapply content_padded; eauto.
Qed.

(** Reading saved data back: it can be opened, and gives the content with at most a CRLF as surplus once a read returns nothing. *)
Theorem C76_read_back : forall ML trim t b h r s p fuel e v r' e' c t',
  at_field ML trim t b h r -> live t -> s_opts s = default_opts ->
  content (delimiter b) (rem r) c -> with_path s p fuel r e = (Full v, r', e') ->
  stream t' = match e_fs e' p with Some (NFile w) => w | _ => [] end -> live t' ->
  exists d, open_data v (e_fs e') t' = Some d /\
    forall os xs out d' n out' d'', data_run os d = (xs, out, d') -> data_step (DRead (S n)) d' = (Ok [], out', d'') -> padded c out.
Proof.
  intros ML trim t b h r s p fuel e v r' e' c t' Hf Hl Ho Hc H St Lt.
  destruct (C76_saved _ _ _ _ _ _ _ _ _ _ _ _ _ _ Hf Hl Ho Hc H) as (w & Rd & P).
  destruct (proj2 (C67_open v (e_fs e') t')) as [d O].
  { destruct v as [y|y|q m]; eauto. right. cbn [readable] in Rd. destruct (e_fs e' q) as [[|z]|] eqn:E; try discriminate. eauto. }
  exists d. split; auto. intros os xs out d' n out' d'' R E. replace out with w; auto. symmetry.
  assert (Op : opens v (e_fs e') w d).
  { exists t'. split; [exact O|]. split; [exact Rd|]. intros q m ->. split; [|exact Lt].
    destruct (at_field_reached _ _ _ _ _ _ Hf) as (R1 & _).
    destruct (C31_file _ _ _ _ _ _ _ _ _ _ _ _ q m R1 Ho H) as [F _]. destruct (F eq_refl) as (w' & W & -> & _).
    cbn [readable] in Rd. rewrite W in *. injection Rd as <-. exact St. }
  refine (C67_complete _ _ _ _ _ _ _ _ _ _ _ Op R _ E). left. eauto.
Qed.

(** Visiting the fields with [foreach_entry]. *)
Theorem C76_foreach : forall ML trim f fuel t b x l r' L,
  live t -> (forall n h, Forall field_op (f n h)) ->
  parts (head_block ML trim (delimiter b)) (delimiter b) (stream t) L ->
  foreach_entry ML trim f fuel 0 (with_body t b) = (x, l, r') ->
  exists done rest, L = done ++ rest /\ (x = Ok tt -> rest = []) /\
    Forall2 (fun v hc => fst v = fst hc /\ prefix_of (delivered ML (snd v)) (snd hc ++ CRLF) /\
                         (saw_end (snd v) -> padded (snd hc) (delivered ML (snd v)))) l done.
Proof.
  intros ML trim f fuel t b x l r' L Hl Hf P H.
  destruct (foreach_prefix ML trim f t b Hf Hl fuel 0 (with_body t b) L x l r') as (d & rest & H1 & _ & H3 & _ & H4); auto.
  - exists [], []. reflexivity.
  - discriminate.
  - exists d, rest. split; [exact H1|]. split; [exact H3|exact H4].
Qed.

(** A saved field with the headers and, with at most a CRLF as surplus, the content of a field of the body. *)
Definition saved_as {ML} (f : fs) (hv : field_headers ML * saved) (hc : field_headers ML * bytes) : Prop :=
  fst hv = fst hc /\ exists w, readable (snd hv) f = Some w /\ padded (snd hc) w.

(** Saving a request, whatever the outcome. *)
Theorem C76_request : forall ML trim t b s fuel en g e x g' r' e' l en',
  live t -> s_opts s = default_opts ->
  parts (head_block ML trim (delimiter b)) (delimiter b) (stream t) l ->
  with_entries ML trim s fuel en g (with_body t b) e = (x, g', r', e') ->
  (x = Full en' \/ exists pe why, x = Part pe why /\ en' = pe_entries ML pe) ->
  exists log d rest, en' = pushes ML (recount_fields ML en) log /\ l = d ++ rest /\
    Forall2 (saved_as (e_fs e')) log d /\ (x = Full en' -> rest = []).
Proof.
  intros ML trim t b s fuel en g e x g' r' e' l en' Hl Ho P H Hx. unfold with_entries in H.
  destruct (read_entry ML trim (with_body t b)) as [res r1] eqn:E.
  assert (R0 : reached ML trim t b (with_body t b)) by (exists [], []; reflexivity).
  pose proof (read_entry_parts ML _ _ _ _ _ _ _ R0 ltac:(discriminate) (or_introl eq_refl) Hl P E) as N.
  pose proof (read_entry_keeps ML _ _ _ _ (inv_from_reader t b) E) as I1.
  destruct (loop_prefix_any ML _ _ _ _ _ Hl Ho _ _ _ _ _ _ _ _ _ _ I1 N H en') as (log & dn & rest & H1 & H2 & H3 & H4 & _).
  - destruct Hx as [->|(pe & why & -> & ->)]; reflexivity.
  - exists log, dn, rest. split; auto. split; auto. split; [|auto]. clear -H3.
    induction H3 as [|hv hc lv lc (E1 & w & E2 & E3 & _) F IH]; constructor; auto. split; eauto.
Qed.

(** With the bound on the steps: *)
Lemma any_fuel : forall ML trim t b s en g e l,
  live t -> quiet t -> s_opts s = default_opts -> s_policy s <> TForce ->
  (N.min (s_size_limit s) (s_threshold s) < U64MAX)%N ->
  parts (head_block ML trim (delimiter b)) (delimiter b) (stream t) l ->
  (N.of_nat (fields_of en + length l) < s_count_limit s)%N ->
  Forall (fun hc => (N.of_nat (length (snd hc) + 2) <= s_size_limit s)%N) l ->
  (Forall (fun hc => (N.of_nat (length (snd hc) + 2) <= s_threshold s)%N) l \/
   (good e /\ fresh_names e (en_dir ML en) g (length l))) ->
  forall fuel, S (length (stream t) + length t) + N.to_nat (mem_min s) + 1 + length l + 1 <= fuel ->
  exists en' g' r' e' log, with_entries ML trim s fuel en g (with_body t b) e = (Full en', g', r', e') /\
    en' = pushes ML (recount_fields ML en) log /\ Forall2 (saved_as (e_fs e')) log l.
Proof.
  intros ML trim t b s en g e l Hl Hq Ho Nf Hp P Hc Hs Hm.
  set (fuel0 := S (length (stream t) + length t) + N.to_nat (mem_min s) + 1).
  intros fuel Lf. change (fuel0 + length l + 1 <= fuel) in Lf.
  set (Q := fun (e : env) (g : rng) (l : list (field_headers ML * bytes)) =>
    Forall (fun hc => (N.of_nat (length (snd hc) + 2) <= s_size_limit s)%N) l /\
    (Forall (fun hc => (N.of_nat (length (snd hc) + 2) <= s_threshold s)%N) l \/
     (good e /\ fresh_names e (en_dir ML en) g (length l)))).
  destruct (with_entries ML trim s fuel en g (with_body t b) e) as [[[x g'] r'] e'] eqn:H.
  assert (F : exists en', x = Full en').
  { unfold with_entries in H. destruct (read_entry ML trim (with_body t b)) as [res r1] eqn:E.
    assert (R0 : reached ML trim t b (with_body t b)) by (exists [], []; reflexivity).
    pose proof (read_entry_parts ML _ _ _ _ _ _ _ R0 ltac:(discriminate) (or_introl eq_refl) Hl P E) as N.
    destruct (loop_complete ML trim t b s (en_dir ML en) fuel0 Q Hl Hq Ho) with (l := l) (fuel := fuel) (res := res)
      (en := recount_fields ML en) (g := g) (r := r1) (e := e) as (en' & g2 & r2 & e2 & K); auto.
    - clear - Hl Hq Ho Nf Hp. intros e g h c l r en0 fuel Hd [Q1 Q2] Hat Hco Lf.
      inversion Q1 as [|? ? S1 S2]; subst. cbn [snd] in S1.
      destruct (at_field_reached ML _ _ _ _ _ Hat) as (R0 & _). destruct (reached_inv ML _ _ _ _ R0) as (I & _ & _ & L & used & U).
      apply later_short in L. apply (f_equal (@length _)) in U. rewrite app_length in U.
      destruct (save_field ML s h en0 fuel g r e) as [[[y g1] r1] e1] eqn:E.
      apply save_field_path in E as [-> E]. rewrite Hd in E.
      set (s' := mkSaver (s_size_limit s) (s_count_limit s) (s_threshold s) (if Field.is_text ML h then s_policy s else TIgnore) (s_opts s)) in E.
      destruct Hco as (pre & post & FS & FC).
      assert (Lp : length pre <= length c + 2) by (destruct FC as [->|[-> _]]; [rewrite app_length; cbn; lia|lia]).
      destruct (with_path_any ML trim t b h r s' (en_dir ML en ++ [name_of g 0]) fuel e pre post) as (v & r2 & e2 & w & K & _ & _ & K1 & K2); auto using quiet_steady.
      + unfold s'. simpl. destruct (Field.is_text ML h); [exact Nf|discriminate].
      + unfold s'. cbn [s_size_limit]. lia.
      + destruct Q2 as [Q2|[G Fn]]; [left|right].
        * inversion Q2; subst. unfold mem_min, s'. simpl in *. lia.
        * split; auto. apply (Fn 0). simpl. lia.
      + unfold enough, fuel0, mem_min in *. unfold s'. cbn [s_size_limit s_threshold]. lia.
      + rewrite K in E. injection E as <- <- <-. exists v, (skipn RANDOM_FILENAME_LEN g), r2, e2. split; [reflexivity|].
        split; auto. destruct Q2 as [Q2|[G Fn]]; [left; now inversion Q2|right]. split; auto.
        eapply fresh_next; [exact Fn|].
        exact (with_path_fs s' _ _ _ _ _ _ _ I (Ho : s_opts s' = default_opts) K).
    - split; auto.
    - destruct (recount_right ML en) as [Rr Rt]. unfold counted_right in Rr. rewrite Rr, Rt. rewrite fields_total in Hc. lia.
    - lia.
    - rewrite K in H. injection H as <- _ _ _. eauto. }
  destruct F as [en' ->].
  destruct (C76_request ML trim t b s fuel en g e _ _ _ _ l en' Hl Ho P H) as (log & d & rest & H1 & H2 & H3 & H4); auto.
  rewrite (H4 eq_refl), app_nil_r in H2. subst l. exists en', g', r', e', log. auto.
Qed.

(** Completeness: with two bytes of room in the limits, every chunking is saved in full. *)
Theorem C76_request_full : forall ML trim t b s en g e l,
  live t -> quiet t -> s_opts s = default_opts -> s_policy s <> TForce ->
  (N.min (s_size_limit s) (s_threshold s) < U64MAX)%N ->
  parts (head_block ML trim (delimiter b)) (delimiter b) (stream t) l ->
  (N.of_nat (fields_of en + length l) < s_count_limit s)%N ->
  Forall (fun hc => (N.of_nat (length (snd hc) + 2) <= s_size_limit s)%N) l ->
  (Forall (fun hc => (N.of_nat (length (snd hc) + 2) <= s_threshold s)%N) l \/
   (good e /\ fresh_names e (en_dir ML en) g (length l))) ->
  exists fuel0, forall fuel, fuel0 <= fuel ->
  exists en' g' r' e' log, with_entries ML trim s fuel en g (with_body t b) e = (Full en', g', r', e') /\
    en' = pushes ML (recount_fields ML en) log /\ Forall2 (saved_as (e_fs e')) log l.
Proof.
  intros ML trim t b s en g e l Hl Hq Ho Nf Hp P Hc Hs Hm.
  eexists. intros fuel Lf. exact (any_fuel ML trim t b s en g e l Hl Hq Ho Nf Hp P Hc Hs Hm fuel Lf).
Qed.

(** From the client to the saved form. *)

Definition name_is {ML} (n : bytes) (hc : field_headers ML * bytes) : bool :=
  if list_eq_dec N.eq_dec (fh_name ML (fst hc)) n then true else false.

(** The form is saved with the names and headers of [l], in order under each name, and the contents with at most a CRLF as surplus. *)
Definition nearly_saved {ML} (l : list (field_headers ML * bytes)) (x : sres (entries ML) (partial_entries ML)) (e : env) : Prop :=
  exists en, x = Full en /\ well_grouped en /\ fields_of en = length l /\
    forall n, Forall2 (fun sf hc => saved_as (e_fs e) (sf_headers ML sf, sf_data ML sf) hc) (fields_at en n) (filter (name_is n) l).

(** As [suffices], with two bytes of room. *)
Definition spacious {ML} (s : saver) (e : env) (dir : path) (g : rng) (l : list (field_headers ML * bytes)) : Prop :=
  s_opts s = default_opts /\ s_policy s <> TForce /\ (N.min (s_size_limit s) (s_threshold s) < U64MAX)%N /\
  (N.of_nat (length l) < s_count_limit s)%N /\
  Forall (fun hc => (N.of_nat (length (snd hc) + 2) <= s_size_limit s)%N) l /\
  (Forall (fun hc => (N.of_nat (length (snd hc) + 2) <= s_threshold s)%N) l \/ (good e /\ fresh_names e dir g (length l))).

Lemma nearly_parts ML trim t b s dir temp g e l :
  live t -> quiet t -> spacious s e dir g l ->
  parts (head_block ML trim (delimiter b)) (delimiter b) (stream t) l ->
  exists fuel0, forall fuel, fuel0 <= fuel -> exists x g' r' e',
    with_entries ML trim s fuel (entries_new ML dir temp) g (with_body t b) e = (x, g', r', e') /\ nearly_saved l x e'.
Proof.
  intros Hl Hq (Ho & Nf & Hp & Hc & Hs & Hm) P.
  destruct (C76_request_full ML trim t b s (entries_new ML dir temp) g e l Hl Hq Ho Nf Hp P) as (fuel0 & F); auto.
  exists fuel0. intros fuel L. destruct (F fuel L) as (en' & g' & r' & e' & log & H & -> & F2).
  do 4 eexists. split; [exact H|]. eexists. split; [reflexivity|].
  assert (W : well_grouped (recount_fields ML (entries_new ML dir temp))) by (split; constructor).
  destruct (C45_grouping ML _ log [] W) as (W' & _ & _ & Fo). split; [exact W'|]. split.
  { rewrite Fo. cbn. clear - F2. induction F2; cbn; auto. }
  intros n. destruct (C45_grouping ML _ log n W) as (_ & Fa & _). rewrite Fa.
  replace (fields_at (recount_fields ML (entries_new ML dir temp)) n) with (@nil (saved_field ML)) by reflexivity.
  cbn [app]. clear - F2. unfold named.
  induction F2 as [|hv hc log l [H1 H2] F IH]; [constructor|]. cbn [filter]. unfold name_is at 1. rewrite H1.
  destruct (list_eq_dec N.eq_dec (fh_name ML (fst hc)) n); [|exact IH]. constructor; [|exact IH]. split; auto.
Qed.

Theorem C76_upload : forall ML octet guess trim gc q fs q' t s dir temp g e,
  client ML octet guess gc q fs = (None, q') -> written (q_log q) = [] ->
  Forall (fun f => sendable ML (boundary_of gc) (describe ML octet guess f) /\
    forall c, sent_ctype octet guess f = Some c -> mime_parse ML (mime_show ML c) = Some c) fs ->
  stream t = written (q_log q') -> live t -> quiet t ->
  spacious s e dir g (map (expected octet guess) fs) ->
  exists fuel0, forall fuel, fuel0 <= fuel -> exists x g' r' e',
    with_entries ML trim s fuel (entries_new ML dir temp) g (with_body t (boundary_of gc)) e = (x, g', r', e') /\
    nearly_saved (map (expected octet guess) fs) x e'.
Proof.
  intros ML octet guess trim gc q fs q' t s dir temp g e H W0 F St Hl Hq Hs.
  apply C19_wire in H as (ds & L & D).
  rewrite L, !written_app, W0, written_map, D in St. cbn [written app] in St. rewrite app_nil_r in St.
  apply nearly_parts; auto. rewrite St.
  rewrite <- (map_ext_in (fun f => received ML (describe ML octet guess f))).
  - rewrite <- (map_map (describe ML octet guess) (received ML)). apply wire_parts; [apply C56_alphanumeric|].
    apply Forall_map. eapply Forall_impl; [|exact F]. simpl. tauto.
  - intros f Hf. rewrite Forall_forall in F. apply expected_received. now apply F.
Qed.

(** A chunking that does give the surplus, for one field read and for a form uploaded and saved. *)
Example C76_example :
  (at_field toy true C03_t1 (bs "b") (mkFH toy (bs "a") None None) (first_field C03_t1) /\ live C03_t1 /\
   content (delimiter (bs "b")) (rem (first_field C03_t1)) (repeat 120%N 1023) /\
   exists r', persist 2000 [fun _ => 4096] (first_field C03_t1) [] = Some (repeat 120%N 1023 ++ CRLF, r')) /\
  (let t := [Chunk (firstn cut long_body); Chunk (skipn cut long_body)] in
   @spacious toy saver_new (no_failures (fun _ => None)) [bs "d"] [] (map (@expected toy (bs "o/s") any_guess) long_text) /\
   exists x g' r' e',
   with_entries toy true saver_new 2000 (entries_new toy [bs "d"] false) [] (with_body t (boundary_of [])) (no_failures (fun _ => None)) = (Full x, g', r', e') /\
   found x (e_fs e') (bs "a") = [(mkFH toy (bs "a") None None, Some (repeat 120%N 1023 ++ CRLF))]).
Proof.
  split.
  - split; [first_field|]. split; [intros [H|[H|[]]]; discriminate|]. split.
    + exists (repeat 120%N 1023 ++ CRLF), (DASHES ++ CRLF). split; [|left; reflexivity]. apply find_split; vm_compute; reflexivity.
    + eexists. vm_compute. reflexivity.
  - cbv zeta. split.
    + split; [reflexivity|]. split; [discriminate|]. split; [reflexivity|]. split; [reflexivity|]. split; [repeat constructor; vm_compute; discriminate|left; repeat constructor; vm_compute; discriminate].
    + do 4 eexists. split; vm_compute; reflexivity.
Qed.
