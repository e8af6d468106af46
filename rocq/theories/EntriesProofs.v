(** The loop that saves a whole request. *)

From Verif Require Import Bytes BytesProofs Spec Io Boundary BoundaryProofs Utf8 Utf8Proofs Httparse Field FieldProofs
  ContentProofs DataProofs ShortProofs EntryProofs ReaderProofs Drive DriveProofs ReachProofs Rand Fs Save SaveProofs PhaseProofs SaveFacts
  TextProofs Toy PropsReader PropsSave.

Lemma moved_skipped r d r' : inv r -> st r <> AtEnd -> moved r d r' ->
  skipped (bnd r) (rem r) d (rem r') /\ st r' <> AtEnd.
Proof.
  intros Hi Hs M. induction M as [r|r d r1 x r2 M IH E|n r d r0 x r1 M IH E L].
  - split; auto. apply skipped_nil.
  - destruct (IH Hi Hs) as [K S1]. pose proof (moved_spec _ _ _ M Hi) as (I1 & _).
    apply read_to_boundary_spec in E as (_ & R & _ & _ & _ & _ & K1 & K2 & _); auto. rewrite R. split; auto.
    destruct (st r1) eqn:Q; [apply K2; auto| |congruence]. destruct K1 as [-> _]; congruence.
  - destruct (IH Hi Hs) as [K S0]. pose proof (moved_spec _ _ _ M Hi) as (I0 & _ & B0 & _).
    apply read_to_boundary_spec in E as (I1 & R & B1 & _ & _ & _ & K1 & K2 & _); auto. rewrite B0 in B1.
    assert (S1 : st r1 <> AtEnd) by (destruct (st r0) eqn:Q; [apply K2; auto|destruct K1 as [-> _]; congruence|congruence]).
    rewrite <- R in K. split; [|exact S1]. eapply skipped_trans; [exact K|]. rewrite <- B1.
    pose proof (consume_skipped n r1 I1 S1) as C. replace (Nat.min n (idx r1)) with n in C by lia. exact C.
Qed.

Lemma ended_moved r d r' : ended r d r' -> moved r d r'.
Proof. intros (r0 & M & E). eapply mv_fill; eauto. Qed.

(** * Random names *)

Lemma random_rest n g : snd (random_alphanumeric n g) = skipn n g.
Proof.
  revert g; induction n as [|n IH]; intros g; cbn [random_alphanumeric]; auto. unfold draw.
  specialize (IH (tl g)). destruct (random_alphanumeric n (tl g)) as [s g2]. simpl in *. rewrite IH.
  destruct g; simpl; auto. now rewrite skipn_nil.
Qed.

Definition alnum (c : byte) : Prop := (48 <= c <= 57 \/ 65 <= c <= 90 \/ 97 <= c <= 122)%N.

Lemma alnum_char_alnum n : alnum (alnum_char n).
Proof.
  unfold alnum_char. assert (L : N.to_nat (n mod 62) < length ALNUM).
  { change (length ALNUM) with 62. pose proof (N.mod_upper_bound n 62 ltac:(lia)). lia. }
  assert (F : Forall alnum ALNUM).
  { unfold ALNUM, alnum. apply Forall_forall. intros x H. vm_compute in H.
    repeat (destruct H as [<-|H]; [lia|]). destruct H. }
  rewrite Forall_forall in F. apply F. now apply nth_In.
Qed.

Lemma random_alnum n g : length (fst (random_alphanumeric n g)) = n /\ Forall alnum (fst (random_alphanumeric n g)).
Proof.
  revert g; induction n as [|n IH]; intros g; cbn [random_alphanumeric]; [split; [reflexivity|constructor]|]. unfold draw.
  specialize (IH (tl g)). destruct (random_alphanumeric n (tl g)) as [s g2]. simpl in *. destruct IH as [L F].
  split; [congruence|]. constructor; auto. apply alnum_char_alnum.
Qed.

Section WithMime.
Context (ML : mime_lib).

Definition pushes (en : entries ML) (log : list (field_headers ML * saved)) : entries ML :=
  fold_left (fun en hv => push_field ML en (fst hv) (snd hv)) log en.

Lemma pushes_dir log : forall en, en_dir ML (pushes en log) = en_dir ML en.
Proof. induction log as [|hv log IH]; intros en; auto. cbn [pushes fold_left]. apply (IH (push_field ML en (fst hv) (snd hv))). Qed.

Definition got (x : sres (entries ML) (partial_entries ML)) : option (entries ML) :=
  match x with Full en => Some en | Part pe _ => Some (pe_entries ML pe) | _ => None end.

(** Whatever happens, the entries are the old ones with some fields appended. *)
Lemma loop_pushes trim s fuel : forall res en g r e x g' r' e',
  entries_loop ML trim s fuel res en g r e = (x, g', r', e') ->
  forall en', got x = Some en' -> exists log, en' = pushes en log.
Proof.
  induction fuel as [|fuel IH]; intros res en g r e x g' r' e'; cbn [entries_loop].
  { intros H; injection H as <- <- <- <-. discriminate. }
  assert (Nil : exists log, en = pushes en log) by (exists []; reflexivity).
  destruct (en_count ML en <? s_count_limit s)%N eqn:C.
  2: { intros H; injection H as <- <- <- <-. intros en' G; injection G as <-. auto. }
  destruct res as [[h|]|y| |].
  2-5: intros H; injection H as <- <- <- <-; intros en' G; try discriminate; injection G as <-; auto.
  destruct (save_field ML s h en (S fuel) g r e) as [[[y g1] r1] e1] eqn:E.
  destruct y as [v|v why|y| |].
  2-5: intros H; injection H as <- <- <- <-; intros en' G; try discriminate; injection G as <-; auto.
  destruct (read_entry ML trim r1) as [res' r2] eqn:Re. intros H en' G.
  destruct (IH _ _ _ _ _ _ _ _ _ H _ G) as [log ->]. exists ((h, v) :: log). reflexivity.
Qed.

(** The number of fields. *)
Definition total (en : entries ML) : nat := list_sum (map (fun kv => length (snd kv)) (en_fields ML en)).

Lemma push_assoc_total l k f : list_sum (map (fun kv => length (snd kv)) (push_assoc ML l k f)) =
  S (list_sum (map (fun kv : bytes * list (saved_field ML) => length (snd kv)) l)).
Proof.
  induction l as [|[k' fs] l IH]; cbn [push_assoc]; auto.
  destruct (beq k' k); simpl; [rewrite app_length; simpl; lia|]. rewrite IH. lia.
Qed.

Lemma push_total en h d : total (push_field ML en h d) = S (total en).
Proof. apply push_assoc_total. Qed.

Definition counted_right (en : entries ML) : Prop := en_count ML en = N.min (N.of_nat (total en)) U32MAX.

Lemma recount_right en : counted_right (recount_fields ML en) /\ total (recount_fields ML en) = total en.
Proof. unfold counted_right, recount_fields, total. simpl. split; auto. lia. Qed.

Lemma push_right en h d : counted_right en -> counted_right (push_field ML en h d).
Proof. unfold counted_right. intros H. rewrite push_total. cbn [en_count push_field]. rewrite H. lia. Qed.

Lemma loop_count trim s fuel : (s_count_limit s <= U32MAX)%N -> forall res en g r e x g' r' e',
  counted_right en -> entries_loop ML trim s fuel res en g r e = (x, g', r', e') ->
  match x with
  | Full en' => (N.of_nat (total en') < N.max (s_count_limit s) (N.of_nat (total en)))%N /\ counted_right en'
  | Part pe why => (N.of_nat (total (keep_partial ML pe)) <= N.max (s_count_limit s) (N.of_nat (total en)))%N /\
      counted_right (pe_entries ML pe)
  | _ => True
  end.
Proof.
  intros Hl. induction fuel as [|fuel IH]; intros res en g r e x g' r' e' Hc; cbn [entries_loop].
  { intros H; injection H as <- <- <- <-. auto. }
  destruct (en_count ML en <? s_count_limit s)%N eqn:C.
  2: { apply N.ltb_ge in C. intros H; injection H as <- <- <- <-. cbn [keep_partial pe_partial pe_entries].
       split; [lia|auto]. }
  apply N.ltb_lt in C. rewrite Hc in C.
  destruct res as [[h|]|y| |].
  2-5: intros H; injection H as <- <- <- <-; cbn [keep_partial pe_partial pe_entries]; auto.
  2: { split; [lia|auto]. }
  2: { split; [lia|auto]. }
  destruct (save_field ML s h en (S fuel) g r e) as [[[y g1] r1] e1] eqn:E.
  destruct y as [v|v why|y| |].
  2-5: intros H; injection H as <- <- <- <-; cbn [keep_partial pe_partial pe_entries]; auto.
  - destruct (read_entry ML trim r1) as [res' r2] eqn:Re. intros H.
    apply IH in H; [|now apply push_right]. rewrite push_total in H.
    destruct x as [en'|pe why'| | |]; auto.
    + destruct H as [H H1]. split; auto. lia.
    + destruct H as [H H1]. split; auto. lia.
  - split; [rewrite push_total; lia|auto].
  - split; [lia|auto].
Qed.

(** * File system *)

Lemma with_path_moved s p fuel r e x r' e' : inv r -> with_path s p fuel r e = (x, r', e') -> exists d, moved r d r'.
Proof.
  intros I H. apply with_path_cases in H as [(_ & d & M & _)|(ob & r1 & b0 & M & _ & _ & _ & _ & _ & H)]; eauto.
  pose proof (moved_spec _ _ _ M I) as (J & _).
  apply save_disk_spec in H as (d & M1 & _); auto. exists (ob ++ d). eapply moved_trans; eauto.
Qed.

Lemma with_path_reason s p fuel r e v why r' e' : inv r -> with_path s p fuel r e = (Part v why, r', e') -> why <> RCount.
Proof.
  intros I H ->. apply with_path_cases in H as [(_ & d & _ & _ & X)|(ob & r1 & b0 & M & _ & _ & _ & _ & _ & H)]; auto.
  - destruct v; simpl in X; try tauto.
    + destruct X as (_ & _ & _ & [(Q & _)|[(Q & _)|(? & Q & _)]]); discriminate.
    + destruct X as (_ & [(Q & _)|(? & Q & _)]); discriminate.
  - pose proof (moved_spec _ _ _ M I) as (J & _).
    apply save_disk_spec in H as (d & M1 & _ & _ & _ & [(_ & (k & Q) & _)|(w & _ & X)]); auto; [discriminate|].
    destruct X as [(_ & _ & [(Q & _)|[(? & Q & _)|(? & Q)]])|(_ & _ & _ & _ & ? & Q)]; discriminate.
Qed.

Lemma with_path_fs s p fuel r e x r' e' : inv r -> s_opts s = default_opts -> with_path s p fuel r e = (x, r', e') ->
  forall q, e_fs e' q = e_fs e q \/
    (e_fs e q = None /\ (q = p \/ (e_fs e' q = Some NDir /\ q <> [] /\ exists a c, p = q ++ a ++ [c]))).
Proof.
  intros I Ho H q.
  apply with_path_cases in H as [(-> & _)|(ob & r1 & b0 & M & _ & _ & _ & _ & _ & H)]; auto.
  pose proof (moved_spec _ _ _ M I) as (J1 & R0 & _).
  apply save_disk_spec in H as (d & M1 & N & _ & (f1 & Md & Fp & Fo) & X); auto.
  destruct (path_eq_dec q p) as [->|Nq].
  - destruct X as [(-> & _)|(w & (base & Ob & _) & _)]; auto. rewrite Ho in Ob.
    destruct Ob as [(Fn & _)|(c & _ & Ob & _)]; [auto|discriminate].
  - rewrite (Fo _ Nq). destruct (Md q) as [->|(Q1 & Q2 & a & c & Q3 & Q4)]; auto.
    right. split; auto. right. split; auto. split; auto. eauto.
Qed.

(** The name of the file used for the [k]-th field saved. *)
Definition name_of (g : rng) (k : nat) : bytes := fst (random_alphanumeric RANDOM_FILENAME_LEN (skipn (RANDOM_FILENAME_LEN * k) g)).

Definition touched (dir : path) (g : rng) (e e' : env) : Prop :=
  forall q, e_fs e' q = e_fs e q \/
    (e_fs e q = None /\
     ((exists k, q = dir ++ [name_of g k]) \/ (e_fs e' q = Some NDir /\ q <> [] /\ exists a, dir = q ++ a))).

Lemma skipn_plus {A} n m (l : list A) : skipn n (skipn m l) = skipn (m + n) l.
Proof.
  revert l; induction m as [|m IH]; intros l; auto. destruct l; simpl; [now rewrite skipn_nil|apply IH].
Qed.

Lemma name_of_next g k : name_of (skipn RANDOM_FILENAME_LEN g) k = name_of g (S k).
Proof. unfold name_of. rewrite skipn_plus. do 3 f_equal. lia. Qed.

Lemma save_field_path s h en fuel g r e x g1 r1 e1 : save_field ML s h en fuel g r e = (x, g1, r1, e1) ->
  g1 = skipn RANDOM_FILENAME_LEN g /\
  with_path (mkSaver (s_size_limit s) (s_count_limit s) (s_threshold s) (if is_text ML h then s_policy s else TIgnore) (s_opts s))
    (en_dir ML en ++ [name_of g 0]) fuel r e = (x, r1, e1).
Proof.
  unfold save_field, with_dir, rand_filename, name_of. rewrite Nat.mul_0_r, skipn_O.
  pose proof (random_rest RANDOM_FILENAME_LEN g) as E.
  destruct (random_alphanumeric RANDOM_FILENAME_LEN g) as [nm g2]. simpl in E. cbn [fst].
  destruct (with_path _ _ _ _ _) as [[y r2] e2]. intros H; injection H as -> -> -> ->. auto.
Qed.

Lemma save_field_touched s h en fuel g r e x g1 r1 e1 : inv r -> s_opts s = default_opts ->
  save_field ML s h en fuel g r e = (x, g1, r1, e1) -> touched (en_dir ML en) g e e1.
Proof.
  intros I Ho H. apply save_field_path in H as [_ H]. intros q.
  pose proof (fun Q => with_path_fs _ _ _ _ _ _ _ _ I Q H) as Fs. specialize (Fs Ho).
  destruct (Fs q) as [Q|(Q1 & [->|(Q2 & Q3 & a & c & Q4)])]; auto.
  - right. split; auto. left. eauto.
  - right. split; auto. right. split; auto. split; auto. rewrite app_assoc in Q4. apply app_inj_tail in Q4 as [-> _]. eauto.
Qed.

Lemma touched_then dir g e e1 e' : touched dir g e e1 -> touched dir (skipn RANDOM_FILENAME_LEN g) e1 e' -> touched dir g e e'.
Proof.
  intros T1 T2 q. destruct (T2 q) as [Q|(Q & K)].
  - rewrite Q. destruct (T1 q) as [Q'|(Q' & [K|K])]; auto.
  - right. split.
    + destruct (T1 q) as [Q'|(Q' & _)]; congruence.
    + destruct K as [[k ->]|K]; auto. left. exists (S k). now rewrite name_of_next.
Qed.

Lemma touched_files dir g e e' q c : touched dir g e e' -> e_fs e q = Some (NFile c) -> e_fs e' q = Some (NFile c).
Proof. intros T F. destruct (T q) as [Q|[Q _]]; congruence. Qed.

Lemma read_entry_keeps trim r x r' : inv r -> read_entry ML trim r = (x, r') -> inv r'.
Proof. intros I E. now apply (read_entry_inv ML trim r _ _ I) in E. Qed.

Lemma loop_touched trim s fuel : s_opts s = default_opts -> forall res en g r e x g' r' e',
  inv r -> entries_loop ML trim s fuel res en g r e = (x, g', r', e') -> touched (en_dir ML en) g e e'.
Proof.
  intros Ho. induction fuel as [|fuel IH]; intros res en g r e x g' r' e' I; cbn [entries_loop].
  { intros H; injection H as <- <- <- <-. left; auto. }
  destruct (en_count ML en <? s_count_limit s)%N eqn:C.
  2: { intros H; injection H as <- <- <- <-. left; auto. }
  destruct res as [[h|]|y| |].
  2-5: intros H; injection H as <- <- <- <-; left; auto.
  destruct (save_field ML s h en (S fuel) g r e) as [[[y g1] r1] e1] eqn:E.
  pose proof (save_field_touched _ _ _ _ _ _ _ _ _ _ _ I Ho E) as T.
  destruct y as [v|v why|y| |].
  2-5: intros H; injection H as <- <- <- <-; exact T.
  destruct (read_entry ML trim r1) as [res' r2] eqn:Re. intros H.
  apply save_field_path in E as [-> E]. apply with_path_moved in E as [d M]; auto.
  pose proof (moved_spec _ _ _ M I) as (I1 & _). pose proof (read_entry_keeps _ _ _ _ I1 Re) as I2.
  apply IH in H; auto. cbn [en_dir push_field] in H. eapply touched_then; eauto.
Qed.

(** * The fields of the body *)

Definition next_state (trim : bool) (t : transport) (b : bytes) (res : res eerr (option (field_headers ML))) (r : breader)
    (l : list (field_headers ML * bytes)) : Prop :=
  match res with
  | Ok (Some h) => exists c l', l = (h, c) :: l' /\ at_field ML trim t b h r /\ content (delimiter b) (rem r) c /\
                   parts (head_block ML trim (delimiter b)) (delimiter b) (rem r) l'
  | Ok None => l = []
  | _ => ~ quiet t
  end.

(** What a successful [read_entry] finds. *)
Lemma read_entry_ok trim t b r l x r1 : reached ML trim t b r -> st r <> AtEnd ->
  parts (head_block ML trim (delimiter b)) (delimiter b) (rem r) l -> read_entry ML trim r = (x, r1) ->
  match x with Ok _ => next_state trim t b x r1 l | _ => True end.
Proof.
  intros Hr Hs P E. pose proof (reached_inv _ _ _ _ _ Hr) as (I & Nr & B & L & _).
  destruct x as [[h|]|y| |]; simpl; auto.
  - destruct (read_entry_sound ML _ _ _ _ I Hs E) as (pre & q & hs & FS & Hp & Hcp & Hph). rewrite B in FS.
    inversion P as [R pre' q' FS'|R pre' y rest h' c l' FS' ((hs' & Hp' & Hcp' & Hph') & _) Hc Hrest]; subst.
    + destruct (first_split_fun _ _ _ _ _ _ FS FS') as [_ Q]. discriminate.
    + destruct (first_split_fun _ _ _ _ _ _ FS FS') as [_ Q]. injection Q as ->.
      rewrite Hp' in Hp. injection Hp as -> ->. rewrite Hph' in Hph. injection Hph as ->.
      exists c, l'. split; auto. split; [|split; [eapply content_strip; eauto|auto]].
      destruct Hr as (os & ob & Hr). exists os, ob, r. auto.
  - unfold read_entry in E.
    destruct (consume_boundary (set_min_buf_size MIN_BUF_SIZE r)) as [y q1] eqn:F.
    pose proof (consume_boundary_spec _ _ _ (inv_set_min MIN_BUF_SIZE r I) F) as (J1 & _ & _ & _ & _ & N).
    cbn [st set_min_buf_size] in N. specialize (N Hs).
    destruct y as [[|]|e| |]; try discriminate.
    { destruct (read_headers ML trim q1) as [[| | |] q2]; discriminate. }
    destruct N as (pre & q & FS & _). cbn [bnd set_min_buf_size rem buf src] in FS. unfold rem in FS. cbn [buf src set_min_buf_size] in FS.
    fold (rem r) in FS. rewrite B in FS.
    inversion P as [R pre' q' FS'|R pre' z rest h' c l' FS' _ Hc Hrest]; subst; auto.
    destruct (first_split_fun _ _ _ _ _ _ FS FS') as [_ Q]. discriminate.
Qed.

Lemma read_entry_parts trim t b r l x r1 : reached ML trim t b r -> st r <> AtEnd -> (st r = Searching \/ idx r = 0) -> live t ->
  parts (head_block ML trim (delimiter b)) (delimiter b) (rem r) l -> read_entry ML trim r = (x, r1) ->
  next_state trim t b x r1 l.
Proof.
  intros Hr Hs Hi Hl P E. pose proof (reached_inv _ _ _ _ _ Hr) as (I & Nr & B & L & _).
  assert (Er : quiet t -> exists o, x = Ok o).
  { intros Hq. assert (Hi' : st r = Searching \/ idx r + length (bnd r) + 4 <= Nat.max (length (bnd r) * 2) MIN_BUF_SIZE).
    { destruct Hi as [Hi|Hi]; auto. right. rewrite Hi.
      pose proof (min_after (bnd r) (dashed_length _ (proj1 I))). lia. }
    pose proof (live_later _ _ L Hl) as Hl'. pose proof (quiet_later _ _ L Hq) as Hq'. rewrite <- B in P.
    inversion P as [R pre' q' FS'|R pre' y rest h' c l' FS' ((hs' & Hp' & Hcp' & Hph') & Hm) Hc Hrest]; subst.
    - destruct (read_entry_last ML trim r pre' q') as (r2 & E2); auto. rewrite E2 in E. injection E as <- _. eauto.
    - destruct (read_entry_field ML trim r pre' y rest (y ++ c) hs') as (r2 & E2 & _); auto.
      { rewrite app_length. lia. }
      rewrite E2, Hph' in E. injection E as <- _. eauto. }
  pose proof (read_entry_ok _ _ _ _ _ _ _ Hr Hs P E) as K.
  destruct x as [o|y| |]; auto; intros Hq; destruct (Er Hq) as [o Q]; discriminate.
Qed.

(** For every chunking: the content, with at most the CRLF of the delimiter as surplus. *)
Lemma content_padded D R c pre post w : content D R c -> first_split D R pre post -> pre = w \/ pre = w ++ CRLF -> padded c w.
Proof.
  intros (pre' & post' & FS' & FC) FS Hw. destruct (first_split_fun _ _ _ _ _ _ FS FS') as [<- _]. unfold padded.
  destruct FC as [E|[-> N]].
  - destruct Hw as [<-|Hw]; [now right|]. left. rewrite E in Hw. now apply app_inv_tail in Hw.
  - destruct Hw as [->|Hw]; [now left|]. now elim (N w).
Qed.

Lemma ended_padded trim t b h r d r' c : at_field ML trim t b h r -> live t -> ended r d r' ->
  content (delimiter b) (rem r) c -> padded c d /\ (exact_chunks (delimiter b) t [c] -> d = c).
Proof.
  intros Hf Hl En Hc. split.
  - pose proof Hc as (pre & post & FS & _). eapply content_padded; eauto. eapply ended_pre; eauto.
  - intros Hns. eapply ended_content; eauto.
Qed.

(** A field saved in full: what is stored is its content and the reader is at the rest of the body. *)
Lemma save_step_any trim t b h r s en fuel g e v g1 r1 e1 c l :
  at_field ML trim t b h r -> live t -> s_opts s = default_opts ->
  content (delimiter b) (rem r) c -> parts (head_block ML trim (delimiter b)) (delimiter b) (rem r) l ->
  save_field ML s h en fuel g r e = (Full v, g1, r1, e1) ->
  (exists w, readable v (e_fs e1) = Some w /\ padded c w /\ (exact_chunks (delimiter b) t [c] -> w = c)) /\
  reached ML trim t b r1 /\ st r1 <> AtEnd /\ idx r1 = 0 /\
  parts (head_block ML trim (delimiter b)) (delimiter b) (rem r1) l.
Proof.
  intros Hf Hl Ho Hc P H. apply save_field_path in H as [_ H].
  pose proof (at_field_inv _ _ _ _ _ _ Hf) as I.
  destruct (at_field_reached _ _ _ _ _ _ Hf) as (R0 & S0 & _).
  pose proof (reached_inv _ _ _ _ _ R0) as (_ & _ & B0 & _).
  apply full_ended in H as (w & Hw & En & _); auto.
  destruct (ended_padded _ _ _ _ _ _ _ _ Hf Hl En Hc) as [Pw Ew]. split; [exists w; auto|].
  pose proof (ended_moved _ _ _ En) as M.
  destruct (moved_field ML _ _ _ _ _ _ _ Hf M) as (I1 & _ & S1 & B1 & L1 & M1 & R1 & _).
  split; auto. split; auto. split.
  - destruct En as (r0 & M0 & E0).
    destruct (moved_field ML _ _ _ _ _ _ _ Hf M0) as (I2 & _ & S2 & B2 & L2 & M2 & _).
    pose proof (read_empty _ _ _ I2 S2 Nat.lt_0_1 (fill_empty_read _ _ E0) (live_later _ _ L2 Hl) M2) as (_ & _ & Z & _). exact Z.
  - destruct (moved_skipped _ _ _ I S0 M) as [K _]. rewrite B0 in K.
    eapply parts_skipped; eauto. discriminate.
Qed.

Lemma save_step trim t b h r s en fuel g e v g1 r1 e1 c l :
  at_field ML trim t b h r -> live t -> exact_chunks (delimiter b) t [c] -> s_opts s = default_opts ->
  content (delimiter b) (rem r) c -> parts (head_block ML trim (delimiter b)) (delimiter b) (rem r) l ->
  save_field ML s h en fuel g r e = (Full v, g1, r1, e1) ->
  readable v (e_fs e1) = Some c /\ reached ML trim t b r1 /\ st r1 <> AtEnd /\ idx r1 = 0 /\
  parts (head_block ML trim (delimiter b)) (delimiter b) (rem r1) l.
Proof.
  intros Hf Hl Hns Ho Hc P H.
  destruct (save_step_any _ _ _ _ _ _ _ _ _ _ _ _ _ _ _ _ Hf Hl Ho Hc P H) as ((w & Hw & _ & E) & K).
  rewrite (E Hns) in Hw. auto.
Qed.

Definition stored_as (e : env) (hv : field_headers ML * saved) (hc : field_headers ML * bytes) : Prop :=
  fst hv = fst hc /\ readable (snd hv) (e_fs e) = Some (snd hc).

Definition stored_padded (t : transport) (b : bytes) (e : env) (hv : field_headers ML * saved) (hc : field_headers ML * bytes) : Prop :=
  fst hv = fst hc /\ exists w, readable (snd hv) (e_fs e) = Some w /\ padded (snd hc) w /\ (exact_chunks (delimiter b) t [snd hc] -> w = snd hc).

Lemma readable_kept dir g e e' v c : touched dir g e e' -> readable v (e_fs e) = Some c -> readable v (e_fs e') = Some c.
Proof.
  intros T. destruct v as [w|w|q n]; auto. cbn [readable].
  destruct (e_fs e q) as [[|w]|] eqn:F; try discriminate. intros H; injection H as ->.
  now rewrite (touched_files _ _ _ _ _ _ T F).
Qed.

(** The saved fields are the first fields of the body, with their contents. *)
Lemma loop_prefix_any trim t b s fuel : live t -> s_opts s = default_opts ->
  forall l res en g r e x g' r' e', inv r ->
  next_state trim t b res r l -> entries_loop ML trim s fuel res en g r e = (x, g', r', e') ->
  forall en', got x = Some en' -> exists log done rest,
    en' = pushes en log /\ l = done ++ rest /\ Forall2 (stored_padded t b e') log done /\
    (x = Full en' -> rest = []) /\
    (forall pe, quiet t -> x = Part pe RCount -> rest = [] \/
       exists h c l', rest = (h, c) :: l' /\ at_field ML trim t b h r' /\
         parts (head_block ML trim (delimiter b)) (delimiter b) (rem r') l').
Proof.
  intros Hl Ho. induction fuel as [|fuel IH]; intros l res en g r e x g' r' e' I Hst; cbn [entries_loop].
  { intros H; injection H as <- <- <- <-. discriminate. }
  destruct (en_count ML en <? s_count_limit s)%N eqn:C.
  2: { intros H; injection H as <- <- <- <-. intros en' G; injection G as <-.
       exists [], [], l. split; [reflexivity|]. split; [reflexivity|]. split; [constructor|]. split; [discriminate|].
       intros pe Hq _. destruct res as [[h|]|y| |]; simpl in Hst; try tauto. right.
       destruct Hst as (c & l' & -> & Hf & _ & P). exists h, c, l'. auto. }
  assert (Stop : forall pe why, why <> RCount -> (x, g', r', e') = (Part pe why, g', r', e') -> pe_entries ML pe = en ->
    forall en', got x = Some en' -> exists log done rest,
    en' = pushes en log /\ l = done ++ rest /\ Forall2 (stored_padded t b e') log done /\
    (x = Full en' -> rest = []) /\
    (forall pe, quiet t -> x = Part pe RCount -> rest = [] \/
       exists h c l', rest = (h, c) :: l' /\ at_field ML trim t b h r' /\
         parts (head_block ML trim (delimiter b)) (delimiter b) (rem r') l')).
  { intros pe why Nw E1 E2 en' G. injection E1 as ->. injection G as <-. rewrite E2.
    exists [], [], l. split; [reflexivity|]. split; [reflexivity|]. split; [constructor|]. split; [discriminate|].
    intros pe' _ Q. injection Q as _ Q. congruence. }
  destruct res as [[h|]|y| |].
  2: { intros H; injection H as <- <- <- <-. intros en' G; injection G as <-. simpl in Hst. subst l.
       exists [], [], []. split; [reflexivity|]. split; [reflexivity|]. split; [constructor|]. split; [auto|]. discriminate. }
  2: { intros H; injection H as <- <- <- <-. eapply Stop; [|reflexivity|reflexivity]. discriminate. }
  2-3: intros H; injection H as <- <- <- <-; discriminate.
  destruct (save_field ML s h en (S fuel) g r e) as [[[y g1] r1] e1] eqn:E.
  simpl in Hst. destruct Hst as (c & l' & -> & Hf & Hc & P).
  destruct y as [v|v why|y| |].
  2: { apply save_field_path in E as [_ E]. apply with_path_reason in E; auto.
       intros H; injection H as <- <- <- <-. eapply Stop; [|reflexivity|reflexivity]. exact E. }
  2: { intros H; injection H as <- <- <- <-. eapply Stop; [|reflexivity|reflexivity]. discriminate. }
  2-3: intros H; injection H as <- <- <- <-; discriminate.
  destruct (save_step_any _ _ _ _ _ _ _ _ _ _ _ _ _ _ _ _ Hf Hl Ho Hc P E) as ((w & Rd & Pw & Ew) & R1 & S1 & Z1 & P1).
  destruct (read_entry ML trim r1) as [res' r2] eqn:Re. intros H en' G.
  pose proof (reached_inv _ _ _ _ _ R1) as (I1 & _).
  pose proof (read_entry_keeps _ _ _ _ I1 Re) as I2.
  pose proof (read_entry_parts _ _ _ _ _ _ _ R1 S1 (or_intror Z1) Hl P1 Re) as N.
  pose proof (loop_touched _ _ _ Ho _ _ _ _ _ _ _ _ _ I2 H) as T.
  destruct (IH _ _ _ _ _ _ _ _ _ _ I2 N H _ G) as (log & dn & rest & -> & -> & F & Q1 & Q2).
  exists ((h, v) :: log), ((h, c) :: dn), rest. split; [reflexivity|]. split; [reflexivity|]. split; [|auto].
  constructor; auto. split; auto. exists w. simpl. split; [eapply readable_kept; eauto|auto].
Qed.

Lemma loop_prefix trim t b s fuel : live t -> s_opts s = default_opts ->
  forall l res en g r e x g' r' e', exact_chunks (delimiter b) t (map snd l) -> inv r ->
  next_state trim t b res r l -> entries_loop ML trim s fuel res en g r e = (x, g', r', e') ->
  forall en', got x = Some en' -> exists log done rest,
    en' = pushes en log /\ l = done ++ rest /\ Forall2 (stored_as e') log done /\
    (x = Full en' -> rest = []) /\
    (forall pe, quiet t -> x = Part pe RCount -> rest = [] \/
       exists h c l', rest = (h, c) :: l' /\ at_field ML trim t b h r' /\
         parts (head_block ML trim (delimiter b)) (delimiter b) (rem r') l').
Proof.
  intros Hl Ho l res en g r e x g' r' e' Hns I N H en' G.
  destruct (loop_prefix_any _ _ _ _ _ Hl Ho _ _ _ _ _ _ _ _ _ _ I N H _ G) as (log & dn & rest & H1 & H2 & F & H3).
  exists log, dn, rest. split; auto. split; auto. split; auto.
  subst l. rewrite map_app in Hns. apply (exact_incl _ _ _ (map snd dn)) in Hns; [|intros z Hz; apply in_or_app; now left].
  clear -F Hns. induction F as [|hv hc lv lc (E1 & w & E2 & _ & E3) F IH]; constructor; eauto using exact_tail.
  split; auto. rewrite E2. f_equal. apply E3. eapply exact_head; eauto.
Qed.

End WithMime.
