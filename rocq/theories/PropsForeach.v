(** Property theorems about visiting all entries with [foreach_entry] (C73). *)

From Verif Require Import Bytes BytesProofs Spec Io Boundary BoundaryProofs Utf8 Utf8Proofs Httparse Field FieldProofs
  ContentProofs DataProofs ShortProofs EntryProofs ReaderProofs Drive DriveProofs ReachProofs Rand Fs Save SaveProofs PhaseProofs SaveFacts
  TextProofs Toy PropsReader PropsSave EntriesProofs.

(** ** C73: [foreach_entry] visits every field once, in order *)

(** The callback saw the end of the field. *)
Definition saw_end {ML} (ob : list (obs ML)) : Prop :=
  exists ob', ob = ob' ++ [BRead ML (Ok [])] \/ ob = ob' ++ [BFill ML (Ok [])].

(** Calls on the field; an empty buffer would not see the end. *)
Definition field_op (o : op) : Prop := data_op o /\ o <> ORead 0.

Lemma field_ops os : Forall field_op os -> Forall data_op os.
Proof. apply Forall_impl. now intros o [H _]. Qed.

Lemma run_end ML trim os r ob r' : Forall field_op os -> run ML trim os r = (ob, r') -> saw_end ob ->
  exists os1 ob1 r1 r2 n, (exists o y, os = os1 ++ [o] /\ ob = ob1 ++ [y]) /\ Forall data_op os1 /\ run ML trim os1 r = (ob1, r1) /\ delivered ML ob = delivered ML ob1 /\
    0 < n /\ read n r1 = (Ok [], r2) /\ idx r2 = idx r' /\ st r2 = st r'.
Proof.
  intros Ho H (ob' & E).
  assert (Nn : os <> []).
  { intros ->. cbn in H. injection H as <- _. destruct E as [E|E]; symmetry in E; apply app_eq_nil in E as [_ E]; discriminate. }
  destruct (exists_last Nn) as (os1 & o & ->). apply Forall_app in Ho as [Ho1 Ho]. apply Forall_inv in Ho.
  apply run_app in H as (ob1 & r1 & ob2 & H1 & H2 & ->). cbn [run] in H2.
  destruct (step ML trim o r1) as [y r2] eqn:F. injection H2 as <- <-.
  assert (E' : ob1 = ob' /\ (y = BRead ML (Ok []) \/ y = BFill ML (Ok []))).
  { destruct E as [E|E]; apply app_inj_tail in E as [-> ->]; auto. }
  destruct E' as [<- Y].
  assert (D : delivered ML (ob1 ++ [y]) = delivered ML ob1).
  { unfold delivered. rewrite flat_map_app. destruct Y as [-> | ->]; simpl; now rewrite app_nil_r. }
  destruct o as [n| |n|n|]; cbn [step] in F.
  - destruct (read n r1) as [x q] eqn:R. injection F as <- <-. destruct Y as [Y|Y]; [|discriminate]. injection Y as ->.
    exists os1, ob1, r1, q, n. split; [eauto|]. split; [now apply field_ops|]. split; auto. split; auto. split; auto.
    destruct n; [destruct Ho as [_ Ho]; now elim Ho|lia].
  - destruct (read_to_boundary r1) as [x q] eqn:R. injection F as <- <-. destruct Y as [Y|Y]; [discriminate|]. injection Y as ->.
    exists os1, ob1, r1, (consume 0 q), 1. split; [eauto|]. split; [now apply field_ops|]. split; auto. split; auto. split; [lia|].
    split; [unfold read; now rewrite R|]. cbn. split; auto. lia.
  - injection F as <- <-. destruct Y; discriminate.
  - injection F as <- <-. destruct Y; discriminate.
  - destruct Ho as [[] _].
Qed.

Lemma run_snoc ML trim os o r ob r1 y r2 : run ML trim os r = (ob, r1) -> step ML trim o r1 = (y, r2) ->
  run ML trim (os ++ [o]) r = (ob ++ [y], r2).
Proof.
  revert r ob; induction os as [|o' os IH]; intros r ob; cbn [run app].
  - intros H E; injection H as <- <-. now rewrite E.
  - destruct (step ML trim o' r) as [x q]. destruct (run ML trim os q) as [ob' q'] eqn:F. intros H E; injection H as <- <-.
    now rewrite (IH _ _ F E).
Qed.

Lemma found_split r pre post : inv r -> st r = BoundaryRead -> first_split (bnd r) (rem r) pre post -> idx r <= length pre.
Proof.
  intros I S FS. destruct (verify_boundary r) as [x q] eqn:E.
  destruct (verify_boundary_spec _ _ _ I S E) as (_ & _ & _ & _ & pre' & post' & FS' & L & _).
  destruct (first_split_fun _ _ _ _ _ _ FS FS') as [-> _]. lia.
Qed.

(** A visit of a field with the content [snd y]: data in order, all of it if the end was seen. *)
Definition visits {ML} (x : field_headers ML * list (obs ML)) (y : field_headers ML * bytes) : Prop :=
  fst x = fst y /\ prefix_of (delivered ML (snd x)) (snd y) /\ (saw_end (snd x) -> delivered ML (snd x) = snd y).

(** The same for every chunking: at most the CRLF of the delimiter more. *)
Definition visits_any {ML} (x : field_headers ML * list (obs ML)) (y : field_headers ML * bytes) : Prop :=
  fst x = fst y /\ prefix_of (delivered ML (snd x)) (snd y ++ CRLF) /\ (saw_end (snd x) -> padded (snd y) (delivered ML (snd x))).

Section Visit.
Context (ML : mime_lib) (trim : bool) (f : nat -> field_headers ML -> list op) (t : transport) (b : bytes).
Context (Hf : forall n h, Forall field_op (f n h)) (Hl : live t).

Lemma foreach_prefix fuel : forall n r L x l r', reached ML trim t b r -> st r <> AtEnd ->
  parts (head_block ML trim (delimiter b)) (delimiter b) (rem r) L ->
  foreach_entry ML trim f fuel n r = (x, l, r') ->
  exists done rest, L = done ++ rest /\ map fst l = map fst done /\ (x = Ok tt -> rest = []) /\
    (no_split_crlf (delimiter b) t \/ exact_chunks (delimiter b) t (map snd L) /\ (forall n h, Forall keeps_min (f n h)) /\
       Forall (fun v => lawful ML false (snd v)) l -> Forall2 visits l done) /\ Forall2 visits_any l done.
Proof.
  induction fuel as [|fuel IH]; intros n r L x l r' R S P; cbn [foreach_entry].
  { intros H; injection H as <- <- <-. exists [], L. repeat split; auto. discriminate. }
  destruct (read_entry ML trim r) as [y r1] eqn:E.
  pose proof (read_entry_ok ML _ _ _ _ _ _ _ R S P E) as N.
  destruct y as [[h|]|y| |].
  2: { intros H; injection H as <- <- <-. simpl in N. subst L. exists [], []. repeat split; auto. }
  2-4: intros H; injection H as <- <- <-; exists [], L; repeat split; auto; discriminate.
  destruct N as (c & L' & -> & Hat & Hc & P').
  destruct (run ML trim (f n h) r1) as [ob r2] eqn:F.
  destruct (foreach_entry ML trim f fuel (Datatypes.S n) r2) as [[x' l'] r3] eqn:K.
  intros H; injection H as <- <- <-.
  pose proof (field_ops _ (Hf n h)) as Hd.
  pose proof (field_state _ _ _ _ _ _ _ _ _ Hat Hd F) as (I2 & _ & S2 & B2 & _ & _ & R2).
  destruct (at_field_reached _ _ _ _ _ _ Hat) as (R1 & S1 & _).
  pose proof (reached_inv _ _ _ _ _ R1) as (I1 & _ & B1 & _).
  pose proof (run_data ML _ _ _ _ _ I1 Hd F) as (_ & K2 & _). destruct (K2 S1) as [Sk _]. rewrite B1 in Sk.
  assert (P2 : parts (head_block ML trim (delimiter b)) (delimiter b) (rem r2) L') by (eapply parts_skipped; eauto; discriminate).
  destruct (IH _ _ _ _ _ _ R2 S2 P2 K) as (dn & rest & -> & M & X & V & Va).
  exists ((h, c) :: dn), rest. split; auto. split; [cbn; now rewrite M|]. split; auto.
  split; cycle 1.
  { constructor; auto. pose proof Hc as (pre & post & FS & FC). split; [reflexivity|]. cbn [fst snd]. split.
    - destruct (C02_prefix _ _ _ _ _ _ _ _ _ _ _ Hat Hd F FS) as (rest' & E' & _).
      assert (Q : exists y, c ++ CRLF = pre ++ y) by (destruct FC as [->|[-> _]]; [exists []; now rewrite app_nil_r|eauto]).
      destruct Q as [y Q]. exists (rest' ++ y). now rewrite Q, E', app_assoc.
    - intros Se. destruct (run_end _ _ _ _ _ _ (Hf n h) F Se) as (os1 & ob1 & q1 & q2 & m & (o1 & y1 & Eo & Ey) & Hd1 & F1 & -> & Hm & Rd & _).
      eapply content_padded; eauto. eapply C02_end; eauto. eapply run_snoc; eauto. cbn [step]. now rewrite Rd. }
  intros Hns.
  assert (Hx : exact_ops ML (delimiter b) t (f n h) ob c).
  { destruct Hns as [Hns|(Hns & Hk & Hw)]; [now left|right]. split; [exact (exact_head _ _ _ _ Hns)|]. split; auto. now inversion Hw. }
  constructor.
  2: { apply V. destruct Hns as [Hns|(Hns & Hk & Hw)]; [now left|right]. split; [exact (exact_tail _ _ _ _ Hns)|]. split; auto. now inversion Hw. }
  unfold visits. cbn [fst snd]. split; auto.
  split.
  - destruct (field_exact ML _ _ _ _ _ _ _ _ _ Hat Hx Hd F Hc) as (c' & -> & _). exists c'. reflexivity.
  - intros Se. destruct (run_end _ _ _ _ _ _ (Hf n h) F Se) as (os1 & ob1 & q1 & q2 & m & (o1 & y1 & Eo & Ey) & Hd1 & F1 & -> & Hm & Rd & _).
    eapply (exact_end ML trim t b h r1 os1 m ob1 q2); eauto.
    { destruct Hx as [Hx|(Hx & Hk & Hw)]; [now left|right]. split; auto. rewrite Eo in Hk. apply Forall_app in Hk as [Hk _].
      rewrite Ey in Hw. apply lawful_prefix in Hw. auto. }
    eapply run_snoc; eauto. cbn [step]. now rewrite Rd.
Qed.

Lemma foreach_complete fuel : quiet t -> forall n r L x l r', reached ML trim t b r -> st r <> AtEnd ->
  (st r = Searching \/ idx r + length (bnd r) + 4 <= Nat.max (length (bnd r) * 2) MIN_BUF_SIZE) ->
  parts (head_block ML trim (delimiter b)) (delimiter b) (rem r) L -> length L < fuel ->
  foreach_entry ML trim f fuel n r = (x, l, r') ->
  (forall i h ob c, nth_error l i = Some (h, ob) -> nth_error L i = Some (h, c) -> saw_end ob \/ length c + length b + 8 <= MIN_BUF_SIZE) ->
  x = Ok tt.
Proof.
  intros Hq. induction fuel as [|fuel IH]; intros n r L x l r' R S Hi P Lf; [lia|]. cbn [foreach_entry].
  destruct (read_entry ML trim r) as [y r1] eqn:E.
  pose proof (reached_inv _ _ _ _ _ R) as (I & Nr & B & Lt & _).
  pose proof (read_entry_ok ML _ _ _ _ _ _ _ R S P E) as N.
  assert (Er : exists o, y = Ok o).
  { pose proof (live_later _ _ Lt Hl) as Hl'. pose proof (quiet_later _ _ Lt Hq) as Hq'. pose proof P as P0. rewrite <- B in P0.
    inversion P0 as [R0 pre' q' FS'|R0 pre' z rest h' c l' FS' ((hs' & Hp' & Hcp' & Hph') & Hm) Hc Hrest]; subst.
    - destruct (read_entry_last ML trim r pre' q') as (r2 & E2); auto. rewrite E2 in E. injection E as <- _. eauto.
    - destruct (read_entry_field ML trim r pre' z rest (z ++ c) hs') as (r2 & E2 & _); auto.
      { rewrite app_length. lia. }
      rewrite E2, Hph' in E. injection E as <- _. eauto. }
  destruct Er as [[h|] ->].
  2: { intros H; injection H as <- _ _. auto. }
  destruct N as (c & L' & -> & Hat & Hc & P').
  destruct (run ML trim (f n h) r1) as [ob r2] eqn:F.
  destruct (foreach_entry ML trim f fuel (Datatypes.S n) r2) as [[x' l'] r3] eqn:K.
  intros H; injection H as <- <- <-. intros Hs.
  pose proof (field_ops _ (Hf n h)) as Hd.
  pose proof (field_state _ _ _ _ _ _ _ _ _ Hat Hd F) as (I2 & N2 & S2 & B2 & L2 & M2 & R2).
  destruct (at_field_reached _ _ _ _ _ _ Hat) as (R1 & S1 & _).
  pose proof (reached_inv _ _ _ _ _ R1) as (I1 & _ & B1 & _).
  pose proof (run_data ML _ _ _ _ _ I1 Hd F) as (_ & K2 & _). destruct (K2 S1) as [Sk _]. rewrite B1 in Sk.
  assert (P2 : parts (head_block ML trim (delimiter b)) (delimiter b) (rem r2) L') by (eapply parts_skipped; eauto; discriminate).
  assert (Hi2 : st r2 = Searching \/ idx r2 + length (bnd r2) + 4 <= Nat.max (length (bnd r2) * 2) MIN_BUF_SIZE).
  { destruct (Hs 0 h ob c eq_refl eq_refl) as [Se|Sm].
    - destruct (run_end _ _ _ _ _ _ (Hf n h) F Se) as (os1 & ob1 & q1 & q2 & m & (o1 & y1 & Eo & Ey) & Hd1 & F1 & _ & Hm & Rd & <- & <-).
      pose proof (field_state _ _ _ _ _ _ _ _ _ Hat Hd1 F1) as (J1 & _ & T1 & C1 & L1 & M1 & _).
      pose proof (read_empty _ _ _ J1 T1 Hm Rd (live_later _ _ L1 Hl) M1) as (_ & _ & Z & _). rewrite Z.
      right. pose proof (min_after (bnd r2) (dashed_length _ (proj1 I2))). lia.
    - destruct (st r2) eqn:S3; auto; [|now elim S2]. right.
      destruct Hc as (pre & post & FS & FC).
      destruct (skipped_split_inv _ _ _ _ _ _ Sk FS) as (pre' & -> & FS'). rewrite <- B2 in FS'.
      pose proof (found_split _ _ _ I2 S3 FS') as Z.
      assert (Lc : length (delivered ML ob ++ pre') <= length c + 2) by (destruct FC as [Q|[-> _]]; [rewrite Q, app_length; cbn; lia|lia]).
      rewrite app_length in Lc. rewrite B2. unfold delimiter. rewrite app_length. change (length DASHES) with 2. lia. }
  eapply (IH _ _ _ _ _ _ R2 S2 Hi2 P2); eauto; [cbn in Lf; lia|]. intros i. exact (Hs (Datatypes.S i)).
Qed.

End Visit.

(** Whatever the callback does with the fields and whatever the input does (except transient ends): the entries visited are the
    first fields of the body, each once and in order, and all of them if [foreach_entry] returns [Ok]. *)
Theorem C73_in_order : forall ML trim f fuel t b x l r' L,
  live t -> (forall n h, Forall field_op (f n h)) ->
  parts (head_block ML trim (delimiter b)) (delimiter b) (stream t) L ->
  foreach_entry ML trim f fuel 0 (with_body t b) = (x, l, r') ->
  exists done rest, L = done ++ rest /\ map fst l = map fst done /\ (x = Ok tt -> rest = []).
Proof.
  intros ML trim f fuel t b x l r' L Hl Hf P H.
  destruct (foreach_prefix ML trim f t b Hf Hl fuel 0 (with_body t b) L x l r') as (d & rest & H1 & H2 & H3 & _); auto.
  - exists [], []. reflexivity.
  - discriminate.
  - exists d, rest. auto.
Qed.

(** The data the callback gets, under the conditions of C03: no border inside the CRLF of a delimiter; or only after
    contents below 1023 bytes, the minimum buffer size is not lowered and consume() is only called after a fill or read. *)
Theorem C73_data_partial : forall ML trim f fuel t b x l r' L,
  live t -> (forall n h, Forall field_op (f n h)) ->
  parts (head_block ML trim (delimiter b)) (delimiter b) (stream t) L ->
  foreach_entry ML trim f fuel 0 (with_body t b) = (x, l, r') ->
  no_split_crlf (delimiter b) t \/
    exact_chunks (delimiter b) t (map snd L) /\ (forall n h, Forall keeps_min (f n h)) /\ Forall (fun v => lawful ML false (snd v)) l ->
  exists done rest, L = done ++ rest /\ (x = Ok tt -> rest = []) /\
    Forall2 (fun v hc => fst v = fst hc /\ prefix_of (delivered ML (snd v)) (snd hc) /\
                         (saw_end (snd v) -> delivered ML (snd v) = snd hc)) l done.
Proof.
  intros ML trim f fuel t b x l r' L Hl Hf P H Hns.
  destruct (foreach_prefix ML trim f t b Hf Hl fuel 0 (with_body t b) L x l r') as (d & rest & H1 & _ & H3 & H4 & _); auto.
  - exists [], []. reflexivity.
  - discriminate.
  - exists d, rest. split; [exact H1|]. split; [exact H3|]. auto.
Qed.

(** False of the code: a callback that ignores its fields stops [foreach_entry] with an error (as in C09). *)
Theorem C73_refuted : exists t L e l r',
  live t /\ quiet t /\ parts (head_block toy true (delimiter (bs "b"))) (delimiter (bs "b")) (stream t) L /\ length L = 2 /\
  foreach_entry toy true (fun _ _ => []) 100 0 (with_body t (bs "b")) = (Err e, l, r') /\ length l = 1.
Proof.
  exists C09_t, [(mkFH toy (bs "a") None None, repeat 120%N 1100); (mkFH toy (bs "c") None None, bs "y")]. do 3 eexists.
  split; [intros [H|[H|[]]]; discriminate|]. split; [intros k [H|[H|[]]]; discriminate|].
  split; cycle 1.
  { split; [reflexivity|]. split; vm_compute; reflexivity. }
  apply parts_field with (pre := []) (x := toy_head (bs "a")) (rest := repeat 120%N 1100 ++ CRLF ++ bs "--b" ++ CRLF ++ toy_head (bs "c") ++ bs "y" ++ CRLF ++ toy_end).
  - apply find_split; vm_compute; reflexivity.
  - split; [|apply Nat.leb_le; vm_compute; reflexivity].
    eexists. split; [intros y; vm_compute; reflexivity|]. split; vm_compute; reflexivity.
  - exists (toy_head (bs "a") ++ repeat 120%N 1100 ++ CRLF), (CRLF ++ toy_head (bs "c") ++ bs "y" ++ CRLF ++ toy_end).
    split; [|left; vm_compute; reflexivity]. apply find_split; vm_compute; reflexivity.
  - apply parts_field with (pre := repeat 120%N 1100 ++ CRLF) (x := toy_head (bs "c")) (rest := bs "y" ++ CRLF ++ toy_end).
    + apply find_split; vm_compute; reflexivity.
    + split; [|apply Nat.leb_le; vm_compute; reflexivity].
      eexists. split; [intros y; vm_compute; reflexivity|]. split; vm_compute; reflexivity.
    + exists (toy_head (bs "c") ++ bs "y" ++ CRLF), (DASHES ++ CRLF). split; [|left; reflexivity].
      apply find_split; vm_compute; reflexivity.
    + eapply parts_end with (pre := bs "y" ++ CRLF) (q := CRLF). apply find_split; vm_compute; reflexivity.
Qed.

(** What holds: all fields are visited and [Ok] is returned, if each is read to its end or is small (at most 1016 - |boundary| bytes). *)
Theorem C73_all_partial : forall ML trim f t b x l r' L,
  live t -> quiet t -> (forall n h, Forall field_op (f n h)) ->
  parts (head_block ML trim (delimiter b)) (delimiter b) (stream t) L ->
  foreach_entry ML trim f (S (length L)) 0 (with_body t b) = (x, l, r') ->
  (forall i h ob c, nth_error l i = Some (h, ob) -> nth_error L i = Some (h, c) ->
     saw_end ob \/ length c + length b + 8 <= 1024) ->
  x = Ok tt /\ map fst l = map fst L.
Proof.
  intros ML trim f t b x l r' L Hl Hq Hf P H Hs.
  assert (R0 : reached ML trim t b (with_body t b)) by (exists [], []; reflexivity).
  assert (X : x = Ok tt).
  { eapply (foreach_complete ML trim f t b Hf Hl (S (length L)) Hq 0 (with_body t b) L x l r'); eauto; try discriminate. }
  split; auto.
  destruct (foreach_prefix ML trim f t b Hf Hl (S (length L)) 0 (with_body t b) L x l r') as (d & rest & H1 & H2 & H3 & _); auto; [discriminate|].
  rewrite H2, H1, (H3 X), app_nil_r. reflexivity.
Qed.

(** Three fields: the first is read byte by byte to its end, the second ignored, the third read in part. *)
Example C73_example :
  let t := [Chunk (toy_part (bs "a") (bs "xy") ++ toy_part (bs "b") (bs "second") ++ toy_part (bs "c") (bs "third") ++ toy_end)] in
  let f := fun n (_ : field_headers toy) => match n with 0 => [ORead 1; ORead 1; ORead 1] | 1 => [] | _ => [OFill; OConsume 2] end in
  (forall n h, Forall field_op (f n h)) /\
  let '(x, l, _) := foreach_entry toy true f 4 0 (with_body t (bs "b")) in
  x = Ok tt /\ map (fun v => (fh_name toy (fst v), delivered toy (snd v))) l = [(bs "a", bs "xy"); (bs "b", []); (bs "c", bs "th")] /\
  match l with (_, ob) :: _ => saw_end ob | [] => False end.
Proof.
  cbv zeta. split.
  - intros [|[|n]] h; repeat constructor; try discriminate; exact I.
  - vm_compute. split; [reflexivity|]. split; [reflexivity|]. eexists [_; _]. left. reflexivity.
Qed.
