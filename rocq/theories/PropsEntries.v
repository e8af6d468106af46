(** Property theorems about saving a whole request (C41-C45, C58). *)

From Verif Require Import Bytes BytesProofs Spec Io Boundary BoundaryProofs Utf8 Utf8Proofs Httparse Field FieldProofs
  ContentProofs DataProofs ShortProofs EntryProofs ReaderProofs Drive DriveProofs ReachProofs Rand Fs Save SaveProofs PhaseProofs SaveFacts
  TextProofs Toy PropsReader PropsSave EntriesProofs CompleteProofs.

(** ** C58: saving succeeds when nothing fails *)

(** The full claim ("for all chunkings") is false of the code: with the chunks of C03 the saved data is two
    bytes longer than the field, and if the field has exactly [size_limit] bytes it is not even saved. *)
Theorem C58_refuted : exists t b h r s p e c,
  at_field toy true t b h r /\ live t /\ quiet t /\ content (delimiter b) (rem r) c /\
  s_opts s = default_opts /\ s_policy s <> TForce /\ (N.min (s_size_limit s) (s_threshold s) < U64MAX)%N /\
  (N.of_nat (length c) <= s_size_limit s)%N /\ good e /\ fresh_path e p /\
  (exists v r' e', with_path s p 2000 r e = (Part v RSize, r', e')) /\
  (exists v r' e', with_path saver_new p 2000 r e = (Full v, r', e') /\ readable v (e_fs e') = Some (c ++ CRLF)).
Proof.
  exists C03_t1, (bs "b"), (mkFH toy (bs "a") None None), (first_field C03_t1).
  exists (mkSaver 1023 256 10240 TTry default_opts), [bs "f"], (no_failures (fun _ => None)), (repeat 120%N 1023).
  split; [first_field|].
  split; [intros [H|[H|[]]]; discriminate|]. split; [intros k [H|[H|[]]]; discriminate|].
  split.
  { exists (repeat 120%N 1023 ++ CRLF), (DASHES ++ CRLF). split; [|left; reflexivity].
    apply find_split; vm_compute; reflexivity. }
  split; [reflexivity|]. split; [discriminate|]. split; [reflexivity|]. split; [vm_compute; discriminate|].
  split; [repeat constructor|]. split; [split; [discriminate|]; split; [reflexivity|]; intros q a _ _ x; discriminate|].
  split; do 3 eexists; [vm_compute; reflexivity|split; vm_compute; reflexivity].
Qed.

(** The part that holds.  A field of at most [size_limit] bytes is saved in full if the input is at most interrupted, the destination does
    not exist, no ancestor of it is a file and the system calls succeed; writes may be short or
    interrupted.  (Not for [force_text]; see C37 for that policy.) *)
Theorem C58_save_succeeds_partial : forall ML trim t b h r s p e c,
  at_field ML trim t b h r -> live t -> steady t -> exact_chunks (delimiter b) t [c] -> content (delimiter b) (rem r) c ->
  s_opts s = default_opts -> s_policy s <> TForce ->
  (s_policy s = TIgnore \/ (N.min (s_size_limit s) (s_threshold s) < U64MAX)%N) ->
  (N.of_nat (length c) <= s_size_limit s)%N -> good e -> fresh_path e p ->
  exists fuel0, forall fuel, fuel0 <= fuel ->
  exists v r' e', with_path s p fuel r e = (Full v, r', e') /\ readable v (e_fs e') = Some c.
Proof.
  intros ML trim t b h r s p e c Hf Hl Hq Hns Hc Ho Nf Hp Ls G Fp.
  exists (enough r + N.to_nat (mem_min s) + 1). intros fuel Lf.
  destruct (with_path_full ML trim t b h r s p fuel e c) as (v & r' & e' & H & R & _); auto.
  exists v, r', e'. auto.
Qed.

(** For every chunking: if the bytes up to the delimiter (the field and its CRLF) are within the limit, the
    save is complete; the CRLF may have become part of the data, nothing else. *)
Theorem C58_any_chunking_partial : forall ML trim t b h r s p e pre post,
  at_field ML trim t b h r -> live t -> steady t -> first_split (delimiter b) (rem r) pre post ->
  s_opts s = default_opts -> s_policy s <> TForce ->
  (s_policy s = TIgnore \/ (N.min (s_size_limit s) (s_threshold s) < U64MAX)%N) ->
  (N.of_nat (length pre) <= s_size_limit s)%N -> good e -> fresh_path e p ->
  exists fuel0, forall fuel, fuel0 <= fuel ->
  exists v r' e' w, with_path s p fuel r e = (Full v, r', e') /\ readable v (e_fs e') = Some w /\
    (pre = w \/ pre = w ++ CRLF).
Proof.
  intros ML trim t b h r s p e pre post Hf Hl Hq FS Ho Nf Hp Ls G Fp.
  exists (enough r + N.to_nat (mem_min s) + 1). intros fuel Lf.
  destruct (with_path_any ML trim t b h r s p fuel e pre post) as (v & r' & e' & w & H & R & P & _); auto.
  exists v, r', e', w. auto.
Qed.

Example C58_example :
  let e := mkEnv (fun q => if path_eq_dec q [bs "tmp"] then Some NDir else None) [WAccept 7; WFail KInterrupted; WAccept 900] [None] [None] in
  good e /\ fresh_path e [bs "tmp"; bs "x"; bs "f"] /\
  fst (fst (with_path big_saver [bs "tmp"; bs "x"; bs "f"] 100 (first_field big_chunks) e)) = Full (SFile [bs "tmp"; bs "x"; bs "f"] 3000).
Proof.
  cbv zeta. split; [repeat constructor; simpl; lia|]. split; [|vm_compute; reflexivity].
  split; [discriminate|]. split; [vm_compute; reflexivity|].
  intros q a E Na c F. cbn [e_fs] in F. destruct (path_eq_dec q [bs "tmp"]); discriminate.
Qed.

(** ** C41: only random names inside the directory *)
Theorem C41_files : forall ML trim t b r s fuel en g e x g' r' e',
  reached ML trim t b r -> s_opts s = default_opts ->
  with_entries ML trim s fuel en g r e = (x, g', r', e') ->
  forall q, e_fs e' q <> e_fs e q ->
    e_fs e q = None /\
    ((exists k, q = en_dir ML en ++ [fst (random_alphanumeric 12 (skipn (12 * k) g))]) \/
     (e_fs e' q = Some NDir /\ exists a, en_dir ML en = q ++ a)).
Proof.
  intros ML trim t b r s fuel en g e x g' r' e' Hr Ho H q Hq. pose proof (reached_inv _ _ _ _ _ Hr) as (I & _).
  unfold with_entries in H. destruct (read_entry ML trim r) as [res r1] eqn:E.
  pose proof (read_entry_keeps ML _ _ _ _ I E) as I1.
  apply loop_touched in H; auto. destruct (H q) as [Q|[Q K]]; [congruence|]. split; auto.
  destruct K as [[k ->]|(K1 & _ & K2)]; [left; exists k; reflexivity|auto].
Qed.

(** The names are 12 alphanumeric characters (so the file is directly inside the directory). *)
Theorem C41_names : forall g k,
  let n := fst (random_alphanumeric 12 (skipn (12 * k) g)) in
  length n = 12 /\ Forall (fun c => (48 <= c <= 57 \/ 65 <= c <= 90 \/ 97 <= c <= 122)%N) n.
Proof. intros g k. apply random_alnum. Qed.

(** [with_dir]: as above; in addition the missing ancestors of the directory are created. *)
Theorem C41_with_dir : forall ML trim t b r s dir fuel g e x g' r' e',
  reached ML trim t b r -> s_opts s = default_opts ->
  entries_with_dir ML trim s dir fuel g r e = (x, g', r', e') ->
  forall q, e_fs e' q <> e_fs e q ->
    e_fs e q = None /\
    ((exists k, q = dir ++ [fst (random_alphanumeric 12 (skipn (12 * k) g))]) \/
     (e_fs e' q = Some NDir /\ exists a, dir = q ++ a)).
Proof.
  intros ML trim t b r s dir fuel g e x g' r' e' Hr Ho H q Hq. unfold entries_with_dir in H.
  destruct (create_dir_all dir e) as [[k|] e1] eqn:C; apply create_dir_all_spec in C as (_ & _ & Md & _).
  - injection H as <- <- <- <-. destruct (Md q) as [Q|(Q1 & Q2 & a & c & _ & ->)]; [congruence|]. split; auto.
    right. split; auto. exists (a ++ [c]). reflexivity.
  - pose proof (reached_inv _ _ _ _ _ Hr) as (I & _).
    unfold with_entries in H. destruct (read_entry ML trim r) as [res r1] eqn:E.
    pose proof (read_entry_keeps ML _ _ _ _ I E) as I1.
    apply loop_touched in H; auto. cbn [en_dir recount_fields entries_new] in H.
    destruct (H q) as [Q|[Q K]].
    + rewrite Q in Hq |- *. destruct (Md q) as [Q'|(Q1 & Q2 & a & c & _ & ->)]; [congruence|]. split; auto.
      right. split; auto. exists (a ++ [c]). reflexivity.
    + split.
      * destruct (Md q) as [Q'|(Q1 & _)]; congruence.
      * destruct K as [[k ->]|(K1 & _ & K2)]; [left; exists k; reflexivity|auto].
Qed.

(** A field of 1000 bytes goes to a file under a random name, one of 6 bytes stays in memory. *)
Definition two_chunks : transport := [Chunk (toy_part (bs "a") (repeat 120%N 1000) ++ toy_part (bs "b") (bs "second") ++ toy_end)].
Definition tiny : saver := mkSaver 5000 256 10 TTry default_opts.

Example C41_example :
  let '(x, _, _, e') := entries_with_dir toy true tiny [bs "d"] 100 (repeat 7%N 24) (with_body two_chunks (bs "b")) (no_failures (fun _ => None)) in
  (exists en, x = Full en /\ en_count toy en = 2%N) /\
  e_fs e' [bs "d"] = Some NDir /\ e_fs e' [bs "d"; repeat 72%N 12] = Some (NFile (repeat 120%N 1000)).
Proof. vm_compute. split; [eexists; split; reflexivity|]. split; reflexivity. Qed.

(** ** C42: the count limit *)

(** The number of fields in [en]. *)
Definition fields_of {ML} (en : entries ML) : nat := length (concat (map snd (en_fields ML en))).

Lemma fields_total ML (en : entries ML) : fields_of en = total ML en.
Proof.
  unfold fields_of, total. induction (en_fields ML en) as [|[k l] fs IH]; cbn [map concat snd list_sum fold_right]; auto.
  rewrite app_length. rewrite IH. reflexivity.
Qed.

Theorem C42_count_limit : forall ML trim s fuel en g r e x g' r' e',
  (s_count_limit s < 2 ^ 32)%N ->
  with_entries ML trim s fuel en g r e = (x, g', r', e') ->
  match x with
  | Full en' => (N.of_nat (fields_of en') <= N.max (s_count_limit s) (N.of_nat (fields_of en)))%N
  | Part pe _ =>
      (N.of_nat (fields_of (pe_entries ML pe)) <= N.max (s_count_limit s) (N.of_nat (fields_of en)))%N /\
      (N.of_nat (fields_of (keep_partial ML pe)) <= N.max (s_count_limit s) (N.of_nat (fields_of en)))%N
  | _ => True
  end.
Proof. assert (B : forall n, (n < 2 ^ 32)%N -> (n <= U32MAX)%N) by (intros n H; unfold U32MAX; lia).
  intros ML trim s fuel en g r e x g' r' e' L H. unfold with_entries in H.
  destruct (read_entry ML trim r) as [res r1]. destruct (recount_right ML en) as [Rr Rt].
  apply loop_count in H; auto. rewrite Rt in H. destruct x as [en'|pe why| | |]; auto; rewrite !fields_total.
  - lia.
  - destruct H as [H _]. split; auto.
    assert (total ML (pe_entries ML pe) <= total ML (keep_partial ML pe)); [|lia].
    unfold keep_partial. destruct (pe_partial ML pe) as [[h [d|]]|]; auto. rewrite push_total. lia.
Qed.

Example C42_example :
  let '(x, _, _, _) := with_entries toy true (mkSaver 5000 1 5000 TTry default_opts) 100 (entries_new toy [bs "d"] false) []
                         (with_body two_chunks (bs "b")) (no_failures (fun _ => None)) in
  match x with Part pe RCount => fields_of (keep_partial toy pe) = 1 | _ => False end.
Proof. vm_compute. reflexivity. Qed.

(** ** C45: grouping by name *)

Fixpoint lookup {A} (k : bytes) (l : list (bytes * A)) : option A :=
  match l with
  | [] => None
  | (k', v) :: l' => if list_eq_dec N.eq_dec k' k then Some v else lookup k l'
  end.

(** The fields with a name, in order of arrival. *)
Definition named {ML} (n : bytes) (log : list (field_headers ML * saved)) : list (saved_field ML) :=
  map (fun hv => mkSF ML (fst hv) (snd hv)) (filter (fun hv => if list_eq_dec N.eq_dec (fh_name ML (fst hv)) n then true else false) log).

Definition fields_at {ML} (en : entries ML) (n : bytes) : list (saved_field ML) :=
  match lookup n (en_fields ML en) with Some l => l | None => [] end.

Definition well_grouped {ML} (en : entries ML) : Prop :=
  NoDup (map fst (en_fields ML en)) /\ Forall (fun kv => snd kv <> []) (en_fields ML en).

Lemma push_assoc_lookup ML l k f n :
  lookup n (push_assoc ML l k f) =
  if list_eq_dec N.eq_dec k n then Some (match lookup n l with Some fs => fs ++ [f] | None => [f] end) else lookup n l.
Proof.
  induction l as [|[k' fs] l IH]; cbn [push_assoc lookup].
  - destruct (list_eq_dec N.eq_dec k n); auto.
  - destruct (beq k' k) eqn:B.
    + apply beq_eq in B as ->. cbn [lookup]. destruct (list_eq_dec N.eq_dec k n); auto.
    + cbn [lookup]. rewrite IH. destruct (list_eq_dec N.eq_dec k' n) as [->|Nk]; auto.
      destruct (list_eq_dec N.eq_dec k n) as [->|]; auto. rewrite (proj2 (beq_eq n n) eq_refl) in B. discriminate.
Qed.

Lemma push_assoc_keys ML l k f x : In x (map fst (push_assoc ML l k f)) <-> x = k \/ In x (map fst l).
Proof.
  induction l as [|[k' fs] l IH]; cbn [push_assoc map In fst]; [intuition|].
  destruct (beq k' k) eqn:B; cbn [map In fst].
  - apply beq_eq in B as ->. intuition.
  - rewrite IH. intuition.
Qed.

Lemma push_assoc_grouped ML l k f : NoDup (map fst l) /\ Forall (fun kv => snd kv <> []) l ->
  NoDup (map fst (push_assoc ML l k f)) /\ Forall (fun kv => snd kv <> []) (push_assoc ML l k f).
Proof.
  induction l as [|[k' fs] l IH]; cbn [push_assoc]; intros [N F].
  - split; [repeat constructor; auto|]. repeat constructor. discriminate.
  - inversion N as [|? ? N1 N2]; subst. inversion F as [|? ? F1 F2]; subst.
    destruct (beq k' k) eqn:B.
    + split; [exact N|]. constructor; auto. cbn [snd]. destruct fs; discriminate.
    + destruct (IH (conj N2 F2)) as [H1 H2]. split; cbn [map fst].
      * constructor; auto. rewrite push_assoc_keys. intros [->|H]; [|auto].
        rewrite (proj2 (beq_eq k k) eq_refl) in B. discriminate.
      * constructor; auto.
Qed.

(** Saving more fields appends them, in order, under their names, and changes nothing else. *)
Theorem C45_grouping : forall ML (en : entries ML) log n,
  well_grouped en ->
  let en' := pushes ML en log in
  well_grouped en' /\ fields_at en' n = fields_at en n ++ named n log /\
  (en_count ML en = N.min (N.of_nat (fields_of en)) (2 ^ 32 - 1) -> en_count ML en' = N.min (N.of_nat (fields_of en')) (2 ^ 32 - 1)) /\
  fields_of en' = fields_of en + length log.
Proof. change (2 ^ 32 - 1)%N with U32MAX.
  intros ML en log n. revert en. induction log as [|[h v] log IH]; intros en W.
  - cbn. split; auto. split; [now rewrite app_nil_r|]. split; auto.
  - cbn zeta in *. change (pushes ML en ((h, v) :: log)) with (pushes ML (push_field ML en h v) log).
    destruct (IH (push_field ML en h v)) as (H1 & H2 & H3 & H4).
    { apply push_assoc_grouped. exact W. }
    assert (Ft : fields_of (push_field ML en h v) = S (fields_of en)) by (rewrite !fields_total; apply push_total).
    split; auto. split; [|split].
    + rewrite H2. unfold fields_at, push_field, named. cbn [en_fields filter fst snd]. rewrite push_assoc_lookup.
      destruct (list_eq_dec N.eq_dec (fh_name ML h) n); auto. destruct (lookup n (en_fields ML en)); cbn [map fst snd]; [|auto].
      rewrite <- app_assoc. reflexivity.
    + intros Hc. apply H3. rewrite Ft. cbn [en_count push_field]. rewrite Hc. lia.
    + rewrite H4, Ft. simpl. lia.
Qed.

(** Every result of saving a request is of this form. *)
Theorem C45_entries : forall ML trim s fuel en g r e x g' r' e',
  with_entries ML trim s fuel en g r e = (x, g', r', e') ->
  match x with
  | Full en' => exists log, en' = pushes ML (recount_fields ML en) log
  | Part pe _ => exists log, pe_entries ML pe = pushes ML (recount_fields ML en) log
  | _ => True
  end.
Proof.
  intros ML trim s fuel en g r e x g' r' e' H. unfold with_entries in H.
  destruct (read_entry ML trim r) as [res r1]. pose proof (loop_pushes ML _ _ _ _ _ _ _ _ _ _ _ _ H) as P.
  destruct x as [en'|pe why| | |]; auto; apply P; reflexivity.
Qed.

Example C45_example :
  let en := pushes toy (entries_new toy [] false)
    [(mkFH toy (bs "a") None None, SText (bs "1")); (mkFH toy (bs "b") None None, SText (bs "2"));
     (mkFH toy (bs "a") None None, SText (bs "3"))] in
  map (sf_data toy) (fields_at en (bs "a")) = [SText (bs "1"); SText (bs "3")] /\ en_count toy en = 3%N /\
  length (en_fields toy en) = 2.
Proof. vm_compute. repeat split; reflexivity. Qed.

(** ** C43: requests within the limits are saved in full *)

(** False of the code: one field, limit one. *)
Theorem C43_refuted : exists t s l en pe g' r' e',
  parts (head_block toy true (delimiter (bs "b"))) (delimiter (bs "b")) (stream t) l /\ live t /\ quiet t /\
  (N.of_nat (length l) <= s_count_limit s)%N /\ fields_of en = 0 /\
  with_entries toy true s 100 en [] (with_body t (bs "b")) (no_failures (fun _ => None)) = (Part pe RCount, g', r', e') /\
  fields_of (pe_entries toy pe) = length l.
Proof.
  exists [Chunk (one_field (bs "x"))], (mkSaver 5000 1 5000 TTry default_opts), [(mkFH toy (bs "a") None None, bs "x")],
    (entries_new toy [] false).
  do 4 eexists.
  split; [|split; [intros [H|[]]; discriminate|split; [intros k [H|[]]; discriminate|]]].
  { apply parts_field with (pre := []) (x := toy_head (bs "a")) (rest := bs "x" ++ CRLF ++ toy_end).
    + apply find_split; vm_compute; reflexivity.
    + split; [|apply Nat.leb_le; vm_compute; reflexivity].
      eexists. split; [intros y; vm_compute; reflexivity|]. split; vm_compute; reflexivity.
    + exists (toy_head (bs "a") ++ bs "x" ++ CRLF), (DASHES ++ CRLF). split; [|left; reflexivity].
      apply find_split; vm_compute; reflexivity.
    + apply parts_end with (pre := bs "x" ++ CRLF) (q := CRLF). apply find_split; vm_compute; reflexivity. }
  split; [vm_compute; discriminate|]. split; [reflexivity|]. split; [vm_compute; reflexivity|reflexivity].
Qed.

(** What is saved, in every case: the first fields of the body with exactly their contents, and all of
    them if the result is Full.  [d] are the fields saved, [rest] those not saved. *)
Theorem C43_exact_partial : forall ML trim t b s fuel en g e x g' r' e' l en',
  live t -> exact_chunks (delimiter b) t (map snd l) -> s_opts s = default_opts ->
  parts (head_block ML trim (delimiter b)) (delimiter b) (stream t) l ->
  with_entries ML trim s fuel en g (with_body t b) e = (x, g', r', e') ->
  (x = Full en' \/ exists pe why, x = Part pe why /\ en' = pe_entries ML pe) ->
  exists log d rest, en' = pushes ML (recount_fields ML en) log /\ l = d ++ rest /\
    Forall2 (fun hv hc => fst hv = fst hc /\ readable (snd hv) (e_fs e') = Some (snd hc)) log d /\
    (x = Full en' -> rest = []).
Proof.
  intros ML trim t b s fuel en g e x g' r' e' l en' Hl Hns Ho P H Hx. unfold with_entries in H.
  destruct (read_entry ML trim (with_body t b)) as [res r1] eqn:E.
  assert (R0 : reached ML trim t b (with_body t b)) by (exists [], []; reflexivity).
  pose proof (read_entry_parts ML _ _ _ _ _ _ _ R0 ltac:(discriminate) (or_introl eq_refl) Hl P E) as N.
  pose proof (read_entry_keeps ML _ _ _ _ (inv_from_reader t b) E) as I1.
  destruct (loop_prefix ML _ _ _ _ _ Hl Ho _ _ _ _ _ _ _ _ _ _ Hns I1 N H en') as (log & dn & rest & H1 & H2 & H3 & H4 & _).
  - destruct Hx as [->|(pe & why & -> & ->)]; reflexivity.
  - exists log, dn, rest. auto.
Qed.

(** *** Completeness: below the count limit *)

Lemma loop_complete ML trim t b s dir fuel0 (Q : env -> rng -> list (field_headers ML * bytes) -> Prop) :
  live t -> quiet t -> s_opts s = default_opts ->
  (forall e g h c l r en fuel, en_dir ML en = dir -> Q e g ((h, c) :: l) -> at_field ML trim t b h r ->
     content (delimiter b) (rem r) c -> fuel0 <= fuel ->
     exists v g1 r1 e1, save_field ML s h en fuel g r e = (Full v, g1, r1, e1) /\ Q e1 g1 l) ->
  forall l fuel res en g r e, next_state ML trim t b res r l -> Q e g l -> en_dir ML en = dir ->
  (en_count ML en + N.of_nat (length l) < s_count_limit s)%N -> fuel0 + length l < fuel ->
  exists en' g' r' e', entries_loop ML trim s fuel res en g r e = (Full en', g', r', e').
Proof.
  intros Hl Hq Ho Step. induction l as [|[h0 c0] l IH]; intros fuel res en g r e N HQ Hd Hc Hf;
    (destruct fuel as [|fuel]; [lia|]); cbn [entries_loop].
  - rewrite (proj2 (N.ltb_lt _ _)) by (simpl in Hc; lia).
    destruct res as [[h|]|y| |]; simpl in N; try tauto; [destruct N as (c & l' & Q0 & _); discriminate|]. eauto.
  - rewrite (proj2 (N.ltb_lt _ _)) by lia.
    destruct res as [[h|]|y| |]; simpl in N; try tauto; [|discriminate].
    destruct N as (c & l' & Q0 & Hat & Hco & P). injection Q0 as -> -> ->.
    destruct (Step e g h c l' r en (S fuel)) as (v & g1 & r1 & e1 & E & HQ1); auto; [simpl in Hf; lia|].
    rewrite E. destruct (save_step_any ML _ _ _ _ _ _ _ _ _ _ _ _ _ _ _ _ Hat Hl Ho Hco P E) as (_ & R1 & S1 & Z1 & P1).
    destruct (read_entry ML trim r1) as [res' r2] eqn:Re.
    pose proof (read_entry_parts ML _ _ _ _ _ _ _ R1 S1 (or_intror Z1) Hl P1 Re) as N.
    apply IH; auto; cbn [length] in *; [|lia]. cbn [en_count push_field]. lia.
Qed.

Lemma later_short x y : later x y -> length x <= length y.
Proof. intros [u ->]. rewrite app_length. lia. Qed.

(** Destinations for [n] fields: nothing exists there, no ancestor is a file, and the names are distinct. *)
Definition fresh_names (e : env) (dir : path) (g : rng) (n : nat) : Prop :=
  forall k, k < n -> fresh_path e (dir ++ [name_of g k]) /\ forall j, j < k -> name_of g j <> name_of g k.

Lemma fresh_next e e1 dir g n :
  fresh_names e dir g (S n) ->
  (forall q, e_fs e1 q = e_fs e q \/
    (e_fs e q = None /\ (q = dir ++ [name_of g 0] \/ (e_fs e1 q = Some NDir /\ q <> [] /\ exists a c, dir ++ [name_of g 0] = q ++ a ++ [c])))) ->
  fresh_names e1 dir (skipn RANDOM_FILENAME_LEN g) n.
Proof.
  intros F T k Lk. rewrite name_of_next. destruct (F (S k)) as [(F1 & F2 & F3) F4]; [lia|]. split.
  - split; [auto|]. split.
    + destruct (T (dir ++ [name_of g (S k)])) as [Q|(_ & [Q|(_ & _ & a & c & Q)])]; [congruence| |].
      * apply app_inj_tail in Q as [_ Q]. destruct (F4 0 ltac:(lia)). auto.
      * exfalso. apply (f_equal (@length _)) in Q. rewrite !app_length in Q. simpl in Q. lia.
    + intros q a E Na c H. destruct (T q) as [Q|(_ & [Q|(Q & _)])]; [|subst q|congruence].
      * rewrite Q in H. exact (F3 q a E Na c H).
      * apply (f_equal (@length _)) in E. rewrite !app_length in E. destruct a; [congruence|simpl in E; lia].
  - intros j Lj. rewrite name_of_next. apply F4. lia.
Qed.

(** With the bound on the steps: *)
Lemma full_fuel : forall ML trim t b s en g e l,
  live t -> quiet t -> exact_chunks (delimiter b) t (map snd l) -> s_opts s = default_opts -> s_policy s <> TForce ->
  (N.min (s_size_limit s) (s_threshold s) < U64MAX)%N ->
  parts (head_block ML trim (delimiter b)) (delimiter b) (stream t) l ->
  (N.of_nat (fields_of en + length l) < s_count_limit s)%N ->
  Forall (fun hc => (N.of_nat (length (snd hc)) <= s_size_limit s)%N) l ->
  (Forall (fun hc => (N.of_nat (length (snd hc)) <= s_threshold s)%N) l \/
   (good e /\ fresh_names e (en_dir ML en) g (length l))) ->
  forall fuel, S (length (stream t) + length t) + N.to_nat (mem_min s) + 1 + length l + 1 <= fuel ->
  exists en' g' r' e' log, with_entries ML trim s fuel en g (with_body t b) e = (Full en', g', r', e') /\
    en' = pushes ML (recount_fields ML en) log /\
    Forall2 (fun hv hc => fst hv = fst hc /\ readable (snd hv) (e_fs e') = Some (snd hc)) log l.
Proof.
  intros ML trim t b s en g e l Hl Hq Hns Ho Nf Hp P Hc Hs Hm.
  set (fuel0 := S (length (stream t) + length t) + N.to_nat (mem_min s) + 1).
  intros fuel Lf. change (fuel0 + length l + 1 <= fuel) in Lf.
  set (Q := fun (e : env) (g : rng) (l : list (field_headers ML * bytes)) =>
    exact_chunks (delimiter b) t (map snd l) /\
    Forall (fun hc => (N.of_nat (length (snd hc)) <= s_size_limit s)%N) l /\
    (Forall (fun hc => (N.of_nat (length (snd hc)) <= s_threshold s)%N) l \/
     (good e /\ fresh_names e (en_dir ML en) g (length l)))).
  destruct (with_entries ML trim s fuel en g (with_body t b) e) as [[[x g'] r'] e'] eqn:H.
  assert (F : exists en', x = Full en').
  { unfold with_entries in H. destruct (read_entry ML trim (with_body t b)) as [res r1] eqn:E.
    assert (R0 : reached ML trim t b (with_body t b)) by (exists [], []; reflexivity).
    pose proof (read_entry_parts ML _ _ _ _ _ _ _ R0 ltac:(discriminate) (or_introl eq_refl) Hl P E) as N.
    destruct (loop_complete ML trim t b s (en_dir ML en) fuel0 Q Hl Hq Ho) with (l := l) (fuel := fuel) (res := res)
      (en := recount_fields ML en) (g := g) (r := r1) (e := e) as (en' & g2 & r2 & e2 & K); auto.
    - clear - Hl Hq Ho Nf Hp. intros e g h c l r en0 fuel Hd (Hns & Q1 & Q2) Hat Hco Lf.
      inversion Q1 as [|? ? S1 S2]; subst. cbn [snd] in S1.
      destruct (at_field_reached ML _ _ _ _ _ Hat) as (R0 & _). destruct (reached_inv ML _ _ _ _ R0) as (I & _ & _ & L & used & U).
      apply later_short in L. apply (f_equal (@length _)) in U. rewrite app_length in U.
      destruct (save_field ML s h en0 fuel g r e) as [[[y g1] r1] e1] eqn:E.
      apply save_field_path in E as [-> E]. rewrite Hd in E.
      set (s' := mkSaver (s_size_limit s) (s_count_limit s) (s_threshold s) (if is_text ML h then s_policy s else TIgnore) (s_opts s)) in E.
      destruct (with_path_full ML trim t b h r s' (en_dir ML en ++ [name_of g 0]) fuel e c) as (v & r2 & e2 & K & _ & K1 & K2); auto using quiet_steady; [eapply exact_head; exact Hns| | | |].
      + unfold s'. simpl. destruct (is_text ML h); [exact Nf|discriminate].
      + destruct Q2 as [Q2|[G Fn]]; [left|right].
        * inversion Q2; subst. unfold mem_min, s'. simpl in *. lia.
        * split; auto. apply (Fn 0). simpl. lia.
      + unfold enough, fuel0, mem_min in *. unfold s'. cbn [s_size_limit s_threshold]. lia.
      + rewrite K in E. injection E as <- <- <-. exists v, (skipn RANDOM_FILENAME_LEN g), r2, e2. split; [reflexivity|].
        split; [eapply exact_tail; exact Hns|]. split; auto. destruct Q2 as [Q2|[G Fn]]; [left; now inversion Q2|right]. split; auto.
        eapply fresh_next; [exact Fn|].
        exact (with_path_fs s' _ _ _ _ _ _ _ I (Ho : s_opts s' = default_opts) K).
    - split; auto.
    - destruct (recount_right ML en) as [Rr Rt]. unfold counted_right in Rr. rewrite Rr, Rt. rewrite fields_total in Hc. lia.
    - lia.
    - rewrite K in H. injection H as <- _ _ _. eauto. }
  destruct F as [en' ->].
  destruct (C43_exact_partial ML trim t b s fuel en g e _ _ _ _ l en' Hl Hns Ho P H) as (log & d & rest & H1 & H2 & H3 & H4); auto.
  rewrite (H4 eq_refl), app_nil_r in H2. subst l. exists en', g', r', e', log. auto.
Qed.

(** If the number of fields is below the limit, no field is too large and nothing fails, then the result is
    Full and has all the fields.  Missing from the property: the number of fields equal to the limit (see
    C43_refuted), [force_text] (see C37) and bodies with a line end split between two reads (see C03). *)
Theorem C43_full_partial : forall ML trim t b s en g e l,
  live t -> quiet t -> exact_chunks (delimiter b) t (map snd l) -> s_opts s = default_opts -> s_policy s <> TForce ->
  (N.min (s_size_limit s) (s_threshold s) < U64MAX)%N ->
  parts (head_block ML trim (delimiter b)) (delimiter b) (stream t) l ->
  (N.of_nat (fields_of en + length l) < s_count_limit s)%N ->
  Forall (fun hc => (N.of_nat (length (snd hc)) <= s_size_limit s)%N) l ->
  (Forall (fun hc => (N.of_nat (length (snd hc)) <= s_threshold s)%N) l \/
   (good e /\ fresh_names e (en_dir ML en) g (length l))) ->
  exists fuel0, forall fuel, fuel0 <= fuel ->
  exists en' g' r' e' log, with_entries ML trim s fuel en g (with_body t b) e = (Full en', g', r', e') /\
    en' = pushes ML (recount_fields ML en) log /\
    Forall2 (fun hv hc => fst hv = fst hc /\ readable (snd hv) (e_fs e') = Some (snd hc)) log l.
Proof.
  intros ML trim t b s en g e l Hl Hq Hns Ho Nf Hp P Hc Hs Hm.
  eexists. intros fuel Lf. exact (full_fuel ML trim t b s en g e l Hl Hq Hns Ho Nf Hp P Hc Hs Hm fuel Lf).
Qed.

Definition two_list : list (field_headers toy * bytes) :=
  [(mkFH toy (bs "a") None None, repeat 120%N 1000); (mkFH toy (bs "b") None None, bs "second")].

Lemma two_parts : parts (head_block toy true (delimiter (bs "b"))) (delimiter (bs "b")) (stream two_chunks) two_list.
Proof.
  apply parts_field with (pre := []) (x := toy_head (bs "a")) (rest := repeat 120%N 1000 ++ CRLF ++ toy_part (bs "b") (bs "second") ++ toy_end).
  - apply find_split; vm_compute; reflexivity.
  - split; [|apply Nat.leb_le; vm_compute; reflexivity].
    eexists. split; [intros y; vm_compute; reflexivity|]. split; vm_compute; reflexivity.
  - exists (toy_head (bs "a") ++ repeat 120%N 1000 ++ CRLF), (CRLF ++ toy_head (bs "b") ++ bs "second" ++ CRLF ++ toy_end).
    split; [|left; reflexivity]. apply find_split; vm_compute; reflexivity.
  - apply parts_field with (pre := repeat 120%N 1000 ++ CRLF) (x := toy_head (bs "b")) (rest := bs "second" ++ CRLF ++ toy_end).
    + apply find_split; vm_compute; reflexivity.
    + split; [|apply Nat.leb_le; vm_compute; reflexivity].
      eexists. split; [intros y; vm_compute; reflexivity|]. split; vm_compute; reflexivity.
    + exists (toy_head (bs "b") ++ bs "second" ++ CRLF), (DASHES ++ CRLF). split; [|left; reflexivity].
      apply find_split; vm_compute; reflexivity.
    + apply parts_end with (pre := bs "second" ++ CRLF) (q := CRLF). apply find_split; vm_compute; reflexivity.
Qed.

(** The hypotheses hold of a body with two fields, one of them saved to a file. *)
Example C43_example :
  let e := no_failures (fun q => if path_eq_dec q [bs "d"] then Some NDir else None) in
  let g := repeat 7%N 12 ++ repeat 8%N 12 in
  let en := entries_new toy [bs "d"] false in
  live two_chunks /\ quiet two_chunks /\ exact_chunks (delimiter (bs "b")) two_chunks (map snd two_list) /\
  (N.of_nat (fields_of en + length two_list) < s_count_limit tiny)%N /\
  Forall (fun hc => (N.of_nat (length (snd hc)) <= s_size_limit tiny)%N) two_list /\
  good e /\ fresh_names e (en_dir toy en) g (length two_list).
Proof.
  cbv zeta. split; [intros [H|[]]; discriminate|]. split; [intros k [H|[]]; discriminate|]. split.
  { left. intros t1 c t2 H. destruct t1 as [|e1 [|e2 t1]]; [|discriminate|discriminate].
    injection H as H _. apply (f_equal (fun l => List.last l 0%N)) in H. rewrite last_last in H. vm_compute in H. discriminate. }
  split; [vm_compute; reflexivity|]. split; [repeat constructor; vm_compute; discriminate|].
  split; [repeat constructor|].
  intros k Lk. change (length two_list) with 2 in Lk. split.
  - split; [discriminate|]. cbn [e_fs no_failures en_dir entries_new]. split.
    + destruct (path_eq_dec _ _) as [Q|]; auto. discriminate Q.
    + intros q a _ _ c F. cbn [e_fs no_failures] in F. destruct (path_eq_dec q [bs "d"]); discriminate.
  - intros j Lj. assert (k = 1) by lia. assert (j = 0) by lia. subst. vm_compute. discriminate.
Qed.

(** ** C44: resuming after the count limit *)

(** False: the field read before the limit is noticed is dropped. *)
Theorem C44_refuted : exists t s l pe g1 r1 e1 en2 g2 r2 e2,
  parts (head_block toy true (delimiter (bs "b"))) (delimiter (bs "b")) (stream t) l /\ length l = 2 /\ live t /\ quiet t /\
  with_entries toy true s 100 (entries_new toy [bs "d"] false) [] (with_body t (bs "b")) (no_failures (fun _ => None)) =
    (Part pe RCount, g1, r1, e1) /\
  fields_of (pe_entries toy pe) = 1 /\
  with_entries toy true s 100 (entries_new toy [bs "d"] false) g1 r1 e1 = (Full en2, g2, r2, e2) /\
  fields_of en2 = 0.
Proof.
  exists two_chunks, (mkSaver 5000 1 5000 TTry default_opts), two_list. do 8 eexists.
  split; [exact two_parts|]. split; [reflexivity|].
  split; [intros [H|[]]; discriminate|]. split; [intros k [H|[]]; discriminate|].
  split; [vm_compute; reflexivity|]. split; [vm_compute; reflexivity|]. split; vm_compute; reflexivity.
Qed.

(** What does hold: exactly one field is lost.  The first call saves [d]; if [(h, c)] is the next field, then
    any later call (with any entries, limits and file system) saves fields from just after [(h, c)] on, and
    all of these if it ends with Full. *)
Theorem C44_one_lost_partial : forall ML trim t b s fuel en g e pe g1 r1 e1 l,
  live t -> quiet t -> exact_chunks (delimiter b) t (map snd l) -> s_opts s = default_opts ->
  parts (head_block ML trim (delimiter b)) (delimiter b) (stream t) l ->
  with_entries ML trim s fuel en g (with_body t b) e = (Part pe RCount, g1, r1, e1) ->
  exists log d rest, pe_entries ML pe = pushes ML (recount_fields ML en) log /\ l = d ++ rest /\
    Forall2 (fun hv hc => fst hv = fst hc /\ readable (snd hv) (e_fs e1) = Some (snd hc)) log d /\
    forall hc rest', rest = hc :: rest' ->
    forall s2 fuel2 en2 g2 e2 x g3 r3 e3 en3, s_opts s2 = default_opts ->
      with_entries ML trim s2 fuel2 en2 g2 r1 e2 = (x, g3, r3, e3) ->
      (x = Full en3 \/ exists pe why, x = Part pe why /\ en3 = pe_entries ML pe) ->
      exists log2 d2 rest2, en3 = pushes ML (recount_fields ML en2) log2 /\ rest' = d2 ++ rest2 /\
        Forall2 (fun hv hc => fst hv = fst hc /\ readable (snd hv) (e_fs e3) = Some (snd hc)) log2 d2 /\
        (x = Full en3 -> rest2 = []).
Proof.
  intros ML trim t b s fuel en g e pe g1 r1 e1 l Hl Hq Hns Ho P H. unfold with_entries in H.
  destruct (read_entry ML trim (with_body t b)) as [res r0] eqn:E.
  assert (R0 : reached ML trim t b (with_body t b)) by (exists [], []; reflexivity).
  pose proof (read_entry_parts ML _ _ _ _ _ _ _ R0 ltac:(discriminate) (or_introl eq_refl) Hl P E) as N.
  pose proof (read_entry_keeps ML _ _ _ _ (inv_from_reader t b) E) as I1.
  destruct (loop_prefix ML _ _ _ _ _ Hl Ho _ _ _ _ _ _ _ _ _ _ Hns I1 N H (pe_entries ML pe) eq_refl)
    as (log & dn & rest & H1 & H2 & H3 & _ & H5).
  exists log, dn, rest. split; auto. split; auto. split; auto.
  intros hc rest' -> s2 fuel2 en2 g2 e2 x g3 r3 e3 en3 Ho2 K Hx.
  destruct (H5 pe Hq eq_refl) as [Q|(h & c & l' & Q & Hat & P')]; [discriminate|]. injection Q as -> ->.
  destruct (at_field_reached ML _ _ _ _ _ Hat) as (R1 & S1 & _).
  unfold with_entries in K. destruct (read_entry ML trim r1) as [res2 r2] eqn:E2.
  pose proof (reached_inv ML _ _ _ _ R1) as (J & _).
  pose proof (read_entry_keeps ML _ _ _ _ J E2) as J2.
  pose proof (read_entry_ok ML _ _ _ _ _ _ _ R1 S1 P' E2) as N2.
  assert (G : got ML x = Some en3) by (destruct Hx as [->|(pe' & why & -> & ->)]; reflexivity).
  destruct res2 as [o|y| |].
  - assert (Hns2 : exact_chunks (delimiter b) t (map snd l')).
    { rewrite H2, map_app in Hns. eapply exact_incl; [|exact Hns]. intros z Hz. apply in_or_app. right. now right. }
    destruct (loop_prefix ML _ _ _ _ _ Hl Ho2 _ _ _ _ _ _ _ _ _ _ Hns2 J2 N2 K en3 G) as (log2 & d2 & rest2 & Q1 & Q2 & Q3 & Q4 & _).
    exists log2, d2, rest2. auto.
  - exists [], [], l'. assert (Z : en3 = recount_fields ML en2 /\ x <> Full en3).
    { destruct fuel2 as [|fuel2]; cbn [entries_loop] in K; [injection K as <- _ _ _; discriminate G|].
      destruct (_ <? _)%N; injection K as <- _ _ _; injection G as <-; split; auto; discriminate. }
    destruct Z as [-> Z]. split; [reflexivity|]. split; [reflexivity|]. split; [constructor|]. intros Q. contradiction.
  - exfalso. apply (read_entry_inv ML trim r1 _ _ J) in E2. tauto.
  - exfalso. apply (read_entry_inv ML trim r1 _ _ J) in E2. tauto.
Qed.

Definition three_chunks : transport :=
  [Chunk (toy_part (bs "a") (bs "first") ++ toy_part (bs "b") (bs "second") ++ toy_part (bs "c") (bs "third") ++ toy_end)].

(** Three fields, limit one: the second call saves the third field; the second field is lost. *)
Example C44_example :
  let s := mkSaver 5000 1 5000 TTry default_opts in
  let '(x1, g1, r1, e1) := with_entries toy true s 100 (entries_new toy [bs "d"] false) [] (with_body three_chunks (bs "b")) (no_failures (fun _ => None)) in
  let '(x2, _, _, _) := with_entries toy true (mkSaver 5000 9 5000 TTry default_opts) 100 (entries_new toy [bs "d"] false) g1 r1 e1 in
  match x1, x2 with
  | Part pe RCount, Full en2 =>
      map (sf_data toy) (fields_at (pe_entries toy pe) (bs "a")) = [SText (bs "first")] /\
      map (sf_data toy) (fields_at en2 (bs "b")) = [] /\ map (sf_data toy) (fields_at en2 (bs "c")) = [SText (bs "third")]
  | _, _ => False
  end.
Proof. vm_compute. repeat split; reflexivity. Qed.
