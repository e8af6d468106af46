(** Property theorems about bodies that break off (C81). *)

From Verif Require Import Bytes BytesProofs Spec Io Boundary BoundaryProofs Utf8 Utf8Proofs Httparse Field FieldProofs
  ContentProofs DataProofs ShortProofs HttparseProofs EntryProofs ReaderProofs Drive DriveProofs ReachProofs Rand Fs Save SaveProofs PhaseProofs SaveFacts
  TextProofs Toy PropsReader PropsSave EntriesProofs PropsEntries HeaderSpec HeaderProofs PropsHeader WireSpec Client ClientProofs WireProofs PropsClient
  Lazy LazyProofs PropsLazy Drive DataProofs PropsForeach TruncProofs.

(** ** C81: a body that breaks off *)

(** No call can tell a body that has ended from one that has stalled: after [k] more reads that return nothing, any [X] may
    follow. *)
Theorem C81_indistinguishable : forall ML trim os t b, exists k, forall n X,
  fst (run ML trim os (with_body (t ++ repeat (Chunk []) (k + n) ++ X) b)) = fst (run ML trim os (with_body t b)).
Proof.
  intros ML trim os t b. destruct (run_ext ML trim os (with_body t b) (inv_from_reader t b)) as (k & E). exists k. intros n X.
  rewrite <- ext_with_body, E. reflexivity.
Qed.

Section Cut.
Context (ML : mime_lib) (trim : bool) (t : transport) (b : bytes) (q : bytes).
Notation D := (delimiter b).

Lemma reached_ext r : reached ML trim t b r -> exists k, forall n X, reached ML trim (t ++ repeat (Chunk []) (k + n) ++ X) b (ext n X r).
Proof.
  intros (os & ob & H). destruct (run_ext ML trim os (with_body t b) (inv_from_reader t b)) as (k & E). rewrite H in E. cbn [fst snd] in E.
  exists k. intros n X. exists os, ob. rewrite <- ext_with_body. apply E.
Qed.

Lemma cut_entry r l x r1 : reached ML trim t b r -> st r <> AtEnd ->
  parts (head_block ML trim D) D (rem r ++ q) l -> read_entry ML trim r = (x, r1) ->
  match x with
  | Ok (Some h) => exists c l', l = (h, c) :: l' /\ at_field ML trim t b h r1 /\ content D (rem r1 ++ q) c /\
                     parts (head_block ML trim D) D (rem r1 ++ q) l'
  | Ok None => l = []
  | _ => True
  end.
Proof.
  intros R S P E. destruct (reached_ext _ R) as (k & K). pose proof (reached_inv _ _ _ _ _ R) as (I & _).
  destruct (read_entry_ext ML trim r I) as (k2 & E2). rewrite E in E2. cbn [fst snd] in E2. specialize (E2 0 [Chunk q]).
  specialize (K (k2 + 0) [Chunk q]).
  pose proof (read_entry_ok ML trim _ b (ext (k2 + 0) [Chunk q] r) l x (ext 0 [Chunk q] r1) K S) as O.
  rewrite rem_ext in O. cbn [stream] in O. rewrite app_nil_r in O. specialize (O P E2).
  destruct x as [[h|]|y| |]; auto. destruct O as (c & l' & -> & _ & Hc & P').
  rewrite rem_ext in Hc, P'. cbn [stream] in Hc, P'. rewrite app_nil_r in Hc, P'.
  exists c, l'. split; auto. split; [|auto]. destruct R as (os & ob & R). exists os, ob, r. auto.
Qed.

Lemma cut_skipped h r os ob r' : at_field ML trim t b h r -> Forall data_op os -> run ML trim os r = (ob, r') ->
  skipped D (rem r ++ q) (delivered ML ob) (rem r' ++ q).
Proof.
  intros Hf Hd H. destruct (at_field_reached _ _ _ _ _ _ Hf) as (R & S & _). destruct (reached_ext _ R) as (k & K).
  pose proof (reached_inv _ _ _ _ _ R) as (I & _).
  destruct (run_ext ML trim os r I) as (k2 & E2). rewrite H in E2. cbn [fst snd] in E2. specialize (E2 0 [Chunk q]).
  specialize (K (k2 + 0) [Chunk q]). pose proof (reached_inv _ _ _ _ _ K) as (I1 & _ & B1 & _).
  pose proof (run_data ML _ _ _ _ _ I1 Hd E2) as (_ & Y & _). destruct (Y S) as [Y1 _]. rewrite B1, !rem_ext in Y1.
  cbn [stream] in Y1. now rewrite app_nil_r in Y1.
Qed.

Lemma cut_prefix R w R' c : skipped D (R ++ q) w (R' ++ q) -> content D (R ++ q) c -> prefix_of w (c ++ CRLF).
Proof.
  intros Sk (pre & post & FS & FC). destruct (skipped_split_inv _ _ _ _ _ _ Sk FS) as (rest & -> & _).
  destruct FC as [<-|[-> _]]; [exists rest; reflexivity|exists (rest ++ CRLF); now rewrite app_assoc].
Qed.

(** The content of a field whose delimiter has arrived. *)
Lemma cut_content R c pre post : content D (R ++ q) c -> first_split D R pre post -> content D R c.
Proof.
  intros (p & z & FS & FC) FS'. pose proof (first_split_epilogue _ _ _ _ q FS') as FS2.
  destruct (first_split_fun _ _ _ _ _ _ FS FS2) as [-> _]. exists pre, post. auto.
Qed.

(** An entry or the end was found: the delimiter has arrived. *)
Lemma entry_delimiter r x r1 : reached ML trim t b r -> st r <> AtEnd -> read_entry ML trim r = (Ok x, r1) ->
  exists pre post, first_split D (rem r) pre post.
Proof.
  intros R S E. pose proof (reached_inv _ _ _ _ _ R) as (I & _ & B & _). rewrite <- B.
  destruct x as [h|].
  - destruct (read_entry_sound ML _ _ _ _ I S E) as (pre & z & _ & FS & _). eauto.
  - unfold read_entry in E. destruct (consume_boundary (set_min_buf_size MIN_BUF_SIZE r)) as [y r2] eqn:F.
    pose proof (consume_boundary_spec _ _ _ (inv_set_min MIN_BUF_SIZE r I) F) as (_ & _ & _ & _ & _ & V). specialize (V S).
    destruct y as [[|]|e| |]; try discriminate; [destruct (read_headers ML trim r2) as [[]]; discriminate|].
    simpl in V. firstorder.
Qed.

Lemma cut_end r r1 : reached ML trim t b r -> st r <> AtEnd -> read_entry ML trim r = (Ok None, r1) ->
  parts (head_block ML trim D) D (rem r) [].
Proof.
  intros R S E. pose proof (reached_inv _ _ _ _ _ R) as (I & _ & B & _).
  unfold read_entry in E. destruct (consume_boundary (set_min_buf_size MIN_BUF_SIZE r)) as [y r2] eqn:F.
  pose proof (consume_boundary_spec _ _ _ (inv_set_min MIN_BUF_SIZE r I) F) as (_ & _ & _ & _ & _ & V). specialize (V S).
  destruct y as [[|]|e| |]; try discriminate; [destruct (read_headers ML trim r2) as [[]]; discriminate|].
  simpl in V. rewrite B in V. destruct V as (pre & z & FS & _). exact (parts_end _ _ _ _ z FS).
Qed.

(** Fields found in what has arrived are fields of what has arrived. *)
Lemma cut_field r l h c r1 pre2 post2 : reached ML trim t b r -> st r <> AtEnd ->
  parts (head_block ML trim D) D (rem r ++ q) ((h, c) :: l) -> read_entry ML trim r = (Ok (Some h), r1) ->
  first_split D (rem r1) pre2 post2 ->
  parts (head_block ML trim D) D (rem r1) l -> parts (head_block ML trim D) D (rem r) ((h, c) :: l).
Proof.
  intros R S P E FS2 P'. pose proof (reached_inv _ _ _ _ _ R) as (I & _ & B & _).
  destruct (read_entry_sound ML _ _ _ _ I S E) as (pre & z & hs & FS & Hp & Hcp & Hph). rewrite B in FS.
  inversion P as [|R0 pre' y rest h' c' l' FS' Hh Hc Hrest]; subst.
  pose proof (first_split_epilogue _ _ _ _ q FS) as FS1.
  destruct (first_split_fun _ _ _ _ _ _ FS1 FS') as [<- Q]. rewrite <- app_assoc in Q. apply app_inv_head in Q.
  destruct (parse_headers_done _ _ _ _ _ Hp) as (y1 & -> & _ & Hy1).
  pose proof Hh as ((hs' & Hy & _) & _).
  assert (Er : rest = rem r1 ++ q).
  { pose proof (Hy rest) as K1. rewrite <- Q, <- app_assoc, Hy1 in K1. now injection K1. }
  subst rest. rewrite <- app_assoc in Q. apply app_inv_tail in Q. subst y1.
  eapply parts_field; eauto.
  destruct Hc as (p & z & FSc & FC).
  pose proof (first_split_epilogue _ _ _ _ q FS2) as FS3.
  assert (Ep : exists p2, p = y ++ p2).
  { destruct FC as [->|[<- _]]; [exists (c ++ CRLF); now rewrite app_assoc|eauto]. }
  destruct Ep as (p2 & ->).
  assert (Es : first_split D (rem r1 ++ q) p2 z).
  { apply first_split_iff in FSc as [F1 F2]. apply first_split_iff. split.
    - rewrite <- app_assoc in F1. now apply app_inv_head in F1.
    - intros j Hj. specialize (F2 (length y + j)). rewrite app_length in F2. rewrite skipn_app in F2.
      rewrite skipn_all2 in F2 by lia. replace (length y + j - length y) with j in F2 by lia. apply F2. lia. }
  destruct (first_split_fun _ _ _ _ _ _ FS3 Es) as [<- <-].
  exists (y ++ pre2), post2. split; auto. split.
  - destruct FS2 as [-> _]. now rewrite app_assoc.
  - intros j Oj. apply FSc. rewrite app_assoc. destruct Oj as (u & v & O1 & O2). exists u, (v ++ q). split; auto. rewrite O1, <- !app_assoc. reflexivity.
Qed.

Lemma parts_unskipped R w R' l : skipped D R w R' -> parts (head_block ML trim D) D R' l -> parts (head_block ML trim D) D R l.
Proof.
  intros K P. destruct P as [R' pre z FS|R' pre x rest h d l FS Hh Hc P].
  - eapply parts_end. eapply skipped_split; eauto.
  - eapply parts_field; eauto. eapply skipped_split; eauto.
Qed.

Lemma parts_split R l : parts (head_block ML trim D) D R l -> exists pre post, first_split D R pre post.
Proof. intros P. destruct P; eauto. Qed.

(** What a callback got of the field [y], which may have been cut off. *)
Definition visits_cut (x : field_headers ML * list (obs ML)) (y : field_headers ML * bytes) : Prop :=
  fst x = fst y /\ prefix_of (delivered ML (snd x)) (snd y ++ CRLF).

Context (f : nat -> field_headers ML -> list op) (Hf : forall n h, Forall field_op (f n h)).

Lemma foreach_cut fuel : forall n r L x l r', reached ML trim t b r -> st r <> AtEnd ->
  parts (head_block ML trim D) D (rem r ++ q) L -> foreach_entry ML trim f fuel n r = (x, l, r') ->
  exists dn rest, L = dn ++ rest /\ Forall2 visits_cut l dn /\ (x = Ok tt -> rest = [] /\ parts (head_block ML trim D) D (rem r) L) /\
    (live t -> forall i v hc, nth_error l i = Some v -> nth_error dn i = Some hc -> S i < length l \/ x = Ok tt ->
       saw_end (snd v) -> padded (snd hc) (delivered ML (snd v)) /\
       (exact_ops ML D t (f (n + i) (fst v)) (snd v) (snd hc) -> delivered ML (snd v) = snd hc)).
Proof.
  induction fuel as [|fuel IH]; intros n r L x l r' R S P; cbn [foreach_entry].
  { intros H; injection H as <- <- <-. exists [], L. split; auto. split; [constructor|]. split; [discriminate|]. intros _ [|i] v hc K; discriminate. }
  destruct (read_entry ML trim r) as [y r1] eqn:E. pose proof (cut_entry _ _ _ _ R S P E) as N.
  destruct y as [[h|]|y| |].
  2: { intros H; injection H as <- <- <-. subst L. exists [], []. split; auto. split; [constructor|]. split; [split; auto; eapply cut_end; eauto|]. intros _ [|i] v hc K; discriminate. }
  2-4: intros H; injection H as <- <- <-; exists [], L; split; auto; split; [constructor|]; split; [discriminate|]; intros _ [|i] v hc K; discriminate.
  destruct N as (c & L' & -> & Hat & Hc & P').
  destruct (run ML trim (f n h) r1) as [ob r2] eqn:F.
  destruct (foreach_entry ML trim f fuel (Datatypes.S n) r2) as [[x' l'] r3] eqn:K.
  intros H; injection H as <- <- <-.
  pose proof (field_ops _ (Hf n h)) as Hd.
  pose proof (field_state _ _ _ _ _ _ _ _ _ Hat Hd F) as (I2 & _ & S2 & B2 & _ & _ & R2).
  destruct (at_field_reached _ _ _ _ _ _ Hat) as (R1 & S1 & _).
  pose proof (reached_inv _ _ _ _ _ R1) as (I1 & _ & B1 & _).
  pose proof (cut_skipped _ _ _ _ _ Hat Hd F) as Sk.
  pose proof (run_data ML _ _ _ _ _ I1 Hd F) as (_ & K2 & _). destruct (K2 S1) as [Sk0 _]. rewrite B1 in Sk0.
  assert (P2 : parts (head_block ML trim D) D (rem r2 ++ q) L') by (eapply parts_skipped; eauto; discriminate).
  destruct (IH _ _ _ _ _ _ R2 S2 P2 K) as (dn & rest & -> & V & X & Ex).
  exists ((h, c) :: dn), rest. split; auto. split; [constructor; auto; split; [reflexivity|eapply cut_prefix; eauto]|]. split.
  { intros Hx. destruct (X Hx) as [-> Px]. split; auto. pose proof (parts_unskipped _ _ _ _ Sk0 Px) as Px'.
    destruct (parts_split _ _ Px') as (p1 & p2 & FSx). eapply cut_field; eauto. }
  intros Hl i v hc. destruct i as [|i]; cbn [nth_error].
  2: { cbn [length]. rewrite Nat.add_succ_r. intros Hv Hy Hi. apply (Ex Hl i v hc Hv Hy). destruct Hi; [left; lia|auto]. }
  intros Hv Hy Hi; injection Hv as <-; injection Hy as <-. cbn [fst snd]. rewrite Nat.add_0_r. intros Se.
  assert (Fs : exists pre post, first_split D (rem r2) pre post).
  { destruct fuel as [|fuel]; cbn [foreach_entry] in K; [injection K as <- <- <-; destruct Hi as [Hi|Hi]; [cbn in Hi; lia|discriminate]|].
    destruct (read_entry ML trim r2) as [z r4] eqn:Z. destruct z as [z|z| |].
    2-4: injection K as <- <- <-; destruct Hi as [Hi|Hi]; [cbn in Hi; lia|discriminate].
    exact (entry_delimiter _ _ _ R2 S2 Z). }
  destruct Fs as (pre & post & FS).
  pose proof (skipped_split _ _ _ _ _ _ Sk0 FS) as FS1.
  pose proof (cut_content _ _ _ _ Hc FS1) as Hc1.
  destruct (run_end _ _ _ _ _ _ (Hf n h) F Se) as (os1 & ob1 & q1 & q2 & m & (o1 & y1 & Eo & Ey) & Hd1 & F1 & -> & Hm & Rd & _).
  split.
  - eapply content_padded; eauto. eapply C02_end; eauto. eapply run_snoc; eauto. cbn [step]. now rewrite Rd.
  - intros Hx. eapply (exact_end ML trim t b h r1 os1 m ob1 q2); eauto.
    { destruct Hx as [Hx|(Hx & Hk & Hw)]; [now left|right]. split; auto. rewrite Eo in Hk. apply Forall_app in Hk as [Hk _].
      rewrite Ey in Hw. apply lawful_prefix in Hw. auto. }
    eapply run_snoc; eauto. cbn [step]. now rewrite Rd.
Qed.

End Cut.

Section CutSave.
Context (ML : mime_lib) (trim : bool) (t : transport) (b : bytes) (q : bytes).
Notation D := (delimiter b).

(** A field saved from a body that may break off in it. *)
Definition stored_cut (e : env) (hv : field_headers ML * saved) (hc : field_headers ML * bytes) : Prop :=
  fst hv = fst hc /\ exists w, readable (snd hv) (e_fs e) = Some w /\ prefix_of w (snd hc ++ CRLF).

(** The save went on after the last field that is among the entries: it found the end, or the headers of another field. *)
Definition went_on (x : sres (entries ML) (partial_entries ML)) : Prop :=
  (exists en, x = Full en) \/ exists pe why hd, x = Part pe why /\ pe_partial ML pe = Some hd.

Lemma loop_cut s fuel : s_opts s = default_opts ->
  forall l res en g r0 r e x g' r' e', reached ML trim t b r0 -> st r0 <> AtEnd -> parts (head_block ML trim D) D (rem r0 ++ q) l ->
  read_entry ML trim r0 = (res, r) -> entries_loop ML trim s fuel res en g r e = (x, g', r', e') ->
  forall en', got ML x = Some en' -> exists log dn rest,
    en' = pushes ML en log /\ l = dn ++ rest /\ Forall2 (stored_cut e') log dn /\
    (x = Full en' -> rest = [] /\ parts (head_block ML trim D) D (rem r0) l) /\
    (log <> [] \/ went_on x -> exists y, res = Ok y) /\
    (live t -> forall i hv hc, nth_error log i = Some hv -> nth_error dn i = Some hc -> S i < length log \/ went_on x ->
       exists w, readable (snd hv) (e_fs e') = Some w /\ padded (snd hc) w /\ (exact_chunks D t [snd hc] -> w = snd hc)).
Proof.
  intros Ho. induction fuel as [|fuel IH]; intros l res en g r0 r e x g' r' e' R0 S0 P0 E0; cbn [entries_loop].
  { intros H; injection H as <- <- <- <-. discriminate. }
  pose proof (cut_entry ML trim t b q _ _ _ _ R0 S0 P0 E0) as Hst.
  assert (Stop : forall en', en' = en -> (x = Full en' -> l = [] /\ parts (head_block ML trim D) D (rem r0) l) -> (went_on x -> exists y, res = Ok y) -> exists log dn rest,
    en' = pushes ML en log /\ l = dn ++ rest /\ Forall2 (stored_cut e') log dn /\
    (x = Full en' -> rest = [] /\ parts (head_block ML trim D) D (rem r0) l) /\
    (log <> [] \/ went_on x -> exists y, res = Ok y) /\
    (live t -> forall i hv hc, nth_error log i = Some hv -> nth_error dn i = Some hc -> S i < length log \/ went_on x ->
       exists w, readable (snd hv) (e_fs e') = Some w /\ padded (snd hc) w /\ (exact_chunks D t [snd hc] -> w = snd hc))).
  { intros en' -> Hx Hw. exists [], [], l. split; [reflexivity|]. split; [reflexivity|]. split; [constructor|]. split; [tauto|].
    split; [intros [?|?]; auto; congruence|]. intros _ [|i] hv hc K; discriminate. }
  destruct (en_count ML en <? s_count_limit s)%N eqn:C.
  2: { intros H; injection H as <- <- <- <-. intros en' G; injection G as <-. apply Stop; [reflexivity|discriminate|].
       intros [(z & Z)|(pe & why & hd & Z & Zp)]; [discriminate|]. injection Z as <- _. discriminate. }
  destruct res as [[h|]|y| |].
  2: { intros H; injection H as <- <- <- <-. intros en' G; injection G as <-. simpl in Hst. apply Stop; eauto.
       intros _. split; auto. subst l. eapply cut_end; eauto. }
  2: { intros H; injection H as <- <- <- <-. intros en' G; injection G as <-. apply Stop; [reflexivity|discriminate|].
       intros [(z & Z)|(pe & why & hd & Z & Zp)]; [discriminate|]. injection Z as <- _. discriminate. }
  2-3: intros H; injection H as <- <- <- <-; discriminate.
  destruct (save_field ML s h en (S fuel) g r e) as [[[y g1] r1] e1] eqn:E.
  destruct y as [v|v why|y| |].
  2-3: intros H; injection H as <- <- <- <-; intros en' G; injection G as <-; apply Stop; [reflexivity|discriminate|eauto].
  2-3: intros H; injection H as <- <- <- <-; discriminate.
  clear Stop.
  destruct Hst as (c & l' & -> & Hf & Hc & P).
  destruct (read_entry ML trim r1) as [res' r2] eqn:Re. intros H en' G.
  apply save_field_path in E as [_ E]. apply full_ended in E as (w & Rd & En & _); auto; [|exact (at_field_inv ML _ _ _ _ _ Hf)].
  pose proof (ended_moved _ _ _ En) as M.
  destruct (moved_run ML trim _ _ _ M) as (os & ob & Hd & Ru & Dl & _).
  pose proof (cut_skipped ML trim t b q _ _ _ _ _ Hf Hd Ru) as Sk. rewrite Dl in Sk.
  destruct (moved_field ML _ _ _ _ _ _ _ Hf M) as (I1 & _ & S1 & _ & _ & _ & R1 & _).
  assert (P1 : parts (head_block ML trim D) D (rem r1 ++ q) l') by (eapply parts_skipped; eauto; discriminate).
  pose proof (read_entry_keeps ML _ _ _ _ I1 Re) as I2.
  pose proof (loop_touched ML _ _ _ Ho _ _ _ _ _ _ _ _ _ I2 H) as T.
  destruct (IH _ _ _ _ _ _ _ _ _ _ _ R1 S1 P1 Re H _ G) as (log & dn & rest & -> & -> & F & Q1 & Q2 & Q3).
  pose proof (readable_kept _ _ _ _ _ _ T Rd) as Rd'.
  exists ((h, v) :: log), ((h, c) :: dn), rest. split; [reflexivity|]. split; [reflexivity|]. split.
  { constructor; auto. split; auto. exists w. split; auto. eapply cut_prefix; eauto. }
  pose proof (at_field_inv ML _ _ _ _ _ Hf) as I0.
  destruct (at_field_reached ML _ _ _ _ _ Hf) as (Rf & Sf & _). pose proof (reached_inv ML _ _ _ _ Rf) as (_ & _ & B0 & _).
  destruct (moved_skipped _ _ _ I0 Sf M) as [Sk0 _]. rewrite B0 in Sk0.
  split.
  { intros Hx. destruct (Q1 Hx) as [-> Px]. split; auto. pose proof (parts_unskipped ML trim b _ _ _ _ Sk0 Px) as Px'.
    destruct (parts_split ML trim b _ _ Px') as (p1 & p2 & FSx). eapply cut_field; eauto. }
  split; [eauto|].
  intros Hl i hv hc. destruct i as [|i]; cbn [nth_error].
  2: { cbn [length]. intros Hv Hy Hi. apply (Q3 Hl i hv hc Hv Hy). destruct Hi; [left; lia|auto]. }
  intros Hv Hy Hi; injection Hv as <-; injection Hy as <-. cbn [fst snd]. exists w. split; auto.
  assert (Fs : exists y, res' = Ok y).
  { apply Q2. destruct Hi as [Hi|Hi]; auto. left. intros ->. cbn in Hi. lia. }
  destruct Fs as (y & ->).
  destruct (entry_delimiter ML trim t b _ _ _ R1 S1 Re) as (pre & post & FS).
  pose proof (skipped_split _ _ _ _ _ _ Sk0 FS) as FS1.
  pose proof (cut_content b q _ _ _ _ Hc FS1) as Hc1.
  exact (ended_padded ML trim t b h r w r1 c Hf Hl En Hc1).
Qed.

End CutSave.

(** The body [stream t ++ q] has the fields [L], but only [stream t] arrives.  The fields that [foreach_entry] visits are the first
    ones of [L], and each callback gets a prefix of the content (and at most the CRLF of the delimiter).  A field that is read to the
    end and is not the last one visited is complete.  Success is reported only if what has arrived has all the fields. *)
Theorem C81_visits : forall ML trim f fuel t b q x l r' L,
  (forall n h, Forall field_op (f n h)) ->
  parts (head_block ML trim (delimiter b)) (delimiter b) (stream t ++ q) L ->
  foreach_entry ML trim f fuel 0 (with_body t b) = (x, l, r') ->
  exists dn rest, L = dn ++ rest /\
    Forall2 (fun v hc => fst v = fst hc /\ prefix_of (delivered ML (snd v)) (snd hc ++ CRLF)) l dn /\
    (x = Ok tt -> rest = [] /\ parts (head_block ML trim (delimiter b)) (delimiter b) (stream t) L) /\
    (live t -> forall i v hc, nth_error l i = Some v -> nth_error dn i = Some hc -> S i < length l \/ x = Ok tt ->
       saw_end (snd v) -> padded (snd hc) (delivered ML (snd v)) /\
       (exact_ops ML (delimiter b) t (f i (fst v)) (snd v) (snd hc) -> delivered ML (snd v) = snd hc)).
Proof.
  intros ML trim f fuel t b q x l r' L Hf P H.
  refine (foreach_cut ML trim t b q f Hf fuel 0 (with_body t b) L x l r' _ _ P H); [exists [], []; reflexivity|discriminate].
Qed.

(** The same for saving.  [went_on x]: the save found the end or the headers of another field after the last of the entries. *)
Theorem C81_saved : forall ML trim t b q s fuel en g e x g' r' e' L en',
  s_opts s = default_opts ->
  parts (head_block ML trim (delimiter b)) (delimiter b) (stream t ++ q) L ->
  with_entries ML trim s fuel en g (with_body t b) e = (x, g', r', e') ->
  (x = Full en' \/ exists pe why, x = Part pe why /\ en' = pe_entries ML pe) ->
  exists log dn rest, en' = pushes ML (recount_fields ML en) log /\ L = dn ++ rest /\
    Forall2 (fun hv hc => fst hv = fst hc /\ exists w, readable (snd hv) (e_fs e') = Some w /\ prefix_of w (snd hc ++ CRLF)) log dn /\
    (x = Full en' -> rest = [] /\ parts (head_block ML trim (delimiter b)) (delimiter b) (stream t) L) /\
    (live t -> forall i hv hc, nth_error log i = Some hv -> nth_error dn i = Some hc -> S i < length log \/ went_on ML x ->
       exists w, readable (snd hv) (e_fs e') = Some w /\ padded (snd hc) w /\ (exact_chunks (delimiter b) t [snd hc] -> w = snd hc)).
Proof.
  intros ML trim t b q s fuel en g e x g' r' e' L en' Ho P H Hx. unfold with_entries in H.
  destruct (read_entry ML trim (with_body t b)) as [res r1] eqn:E.
  destruct (loop_cut ML trim t b q s fuel Ho L res (recount_fields ML en) g (with_body t b) r1 e x g' r' e') with (en' := en')
    as (log & dn & rest & H1 & H2 & H3 & H4 & _ & H5); auto.
  - exists [], []. reflexivity.
  - discriminate.
  - destruct Hx as [->|(pe & why & -> & ->)]; reflexivity.
  - exists log, dn, rest. auto.
Qed.

(** Why the last entry is left out: the body breaks off in its only field, and the field is
    among the saved entries as if it were complete. *)
Theorem C81_last_incomplete : exists t q L pe why g' r' e' h v c,
  live t /\ quiet t /\ parts (head_block toy true (delimiter (bs "b"))) (delimiter (bs "b")) (stream t ++ q) L /\
  with_entries toy true saver_new 100 (entries_new toy [bs "d"] false) [] (with_body t (bs "b")) (no_failures (fun _ => None)) = (Part pe why, g', r', e') /\
  fields_at (pe_entries toy pe) (bs "a") = [mkSF toy h v] /\ pe_partial toy pe = None /\ L = [(h, c)] /\
  readable v (e_fs e') <> Some c /\ readable v (e_fs e') <> Some (c ++ CRLF).
Proof.
  exists cut_chunks, (bs "ld" ++ CRLF ++ toy_end), [(mkFH toy (bs "a") None None, bs "hello world")]. do 8 eexists.
  split; [intros [H|[]]; discriminate|]. split; [intros k [H|[]]; discriminate|].
  split.
  { apply parts_field with (pre := []) (x := toy_head (bs "a")) (rest := bs "hello world" ++ CRLF ++ toy_end).
    - apply find_split; vm_compute; reflexivity.
    - split; [|apply Nat.leb_le; vm_compute; reflexivity]. eexists. split; [intros y; vm_compute; reflexivity|]. split; vm_compute; reflexivity.
    - exists (toy_head (bs "a") ++ bs "hello world" ++ CRLF), (DASHES ++ CRLF). split; [|left; reflexivity].
      apply find_split; vm_compute; reflexivity.
    - eapply parts_end with (pre := bs "hello world" ++ CRLF) (q := CRLF). apply find_split; vm_compute; reflexivity. }
  split; [vm_compute; reflexivity|]. split; [vm_compute; reflexivity|]. split; [reflexivity|]. split; [reflexivity|].
  split; vm_compute; discriminate.
Qed.

(** The body of the crate's own client, cut anywhere. *)

Lemma wire_cut ML trim b z l : alnums b -> Forall (sendable ML b) l ->
  forall pre, (pre = [] \/ exists x, absent (delimiter b) x /\ pre = x ++ CRLF) ->
  forall R q L, R ++ q = pre ++ body b z l -> parts (head_block ML trim (delimiter b)) (delimiter b) R L -> length q <= length z.
Proof.
  intros A F. induction F as [|p l (Pn & Un & Pf & Pc & Fn & Ff & Fc & Fd & Hlen) F IH]; intros pre Hpre R q L E P.
  - assert (FS : first_split (delimiter b) (R ++ q) pre (DASHES ++ z)).
    { rewrite E. unfold body. cbn [map concat app]. destruct Hpre as [->|(x & X & ->)]; [exact (split_start (delimiter b) _)|].
      rewrite <- app_assoc. now apply split_crlf. }
    destruct P as [R p0 z0 FS0|R p0 x rest h c l FS0 _ _ _]; apply (first_split_epilogue _ _ _ _ q) in FS0;
      destruct (first_split_fun _ _ _ _ _ _ FS FS0) as [_ Q]; [|discriminate].
    injection Q as ->. rewrite app_length. lia.
  - assert (Eb : body b z (p :: l) = delimiter b ++ CRLF ++ p_head p ++ ((p_data p ++ CRLF) ++ body b z l)).
    { unfold body. cbn [map concat]. repeat rewrite <- app_assoc. reflexivity. }
    assert (FS : first_split (delimiter b) (R ++ q) pre (CRLF ++ p_head p ++ ((p_data p ++ CRLF) ++ body b z l))).
    { rewrite E, Eb. destruct Hpre as [->|(x & X & ->)]; [exact (split_start (delimiter b) _)|].
      rewrite <- app_assoc. now apply split_crlf. }
    assert (Hp : exists hs, forall y, parse_headers trim HEADER_LEN (p_head p ++ y) = HDone hs y).
    { exists (text_headers (p_name p) (p_fname p) (p_ctype p)). intros y.
      assert (Pf' : match p_fname p with Some f => plain f | None => True end) by (destruct (p_fname p); tauto).
      assert (Pc' : match p_ctype p with Some m => ctype_text m | None => True end)
             by (destruct (p_ctype p); [exact (proj1 Pc)|exact I]).
      apply (parse_headers_block trim (head_text (p_name p) (p_fname p) (p_ctype p))); [exact (head_text_block trim _ _ _ Pn Pf' Pc')|].
      unfold HEADER_LEN, text_headers. destruct (p_ctype p); simpl; lia. }
    destruct Hp as (hs & Hp).
    destruct P as [R p0 z0 FS0|R p0 x rest h c L FS0 ((hs' & Hx & _) & _) _ P]; apply (first_split_epilogue _ _ _ _ q) in FS0;
      destruct (first_split_fun _ _ _ _ _ _ FS FS0) as [_ Q]; [discriminate|].
    replace ((CRLF ++ x ++ rest) ++ q) with (CRLF ++ x ++ rest ++ q) in Q by (now rewrite <- !app_assoc). apply app_inv_head in Q.
    pose proof (Hp ((p_data p ++ CRLF) ++ body b z l)) as K. rewrite Q, Hx in K. injection K as _ K.
    eapply (IH (p_data p ++ CRLF)); [right; exists (p_data p); auto|exact K|exact P].
Qed.

(** If [foreach_entry] or a save reports success, all that can be missing is the line end after the closing delimiter. *)
Theorem C81_upload : forall ML octet guess trim gc q fs q' t miss,
  client ML octet guess gc q fs = (None, q') -> written (q_log q) = [] ->
  Forall (fun f => sendable ML (boundary_of gc) (describe ML octet guess f) /\
    forall c, sent_ctype octet guess f = Some c -> mime_parse ML (mime_show ML c) = Some c) fs ->
  stream t ++ miss = written (q_log q') ->
  (forall f fuel l r', (forall n h, Forall field_op (f n h)) ->
     foreach_entry ML trim f fuel 0 (with_body t (boundary_of gc)) = (Ok tt, l, r') -> length miss <= 2) /\
  (forall s fuel en g e en' g' r' e', s_opts s = default_opts ->
     with_entries ML trim s fuel en g (with_body t (boundary_of gc)) e = (Full en', g', r', e') -> length miss <= 2).
Proof.
  intros ML octet guess trim gc q fs q' t miss H W0 F St.
  apply C19_wire in H as (ds & L & D).
  rewrite L, !written_app, W0, written_map, D in St. cbn [written app] in St. rewrite app_nil_r in St.
  assert (Fs : Forall (sendable ML (boundary_of gc)) (map (describe ML octet guess) fs)).
  { apply Forall_map. eapply Forall_impl; [|exact F]. simpl. tauto. }
  assert (P : parts (head_block ML trim (delimiter (boundary_of gc))) (delimiter (boundary_of gc)) (stream t ++ miss)
                (map (received ML) (map (describe ML octet guess) fs))).
  { rewrite St. apply wire_parts; [apply C56_alphanumeric|exact Fs]. }
  assert (K : forall l, parts (head_block ML trim (delimiter (boundary_of gc))) (delimiter (boundary_of gc)) (stream t) l -> length miss <= 2).
  { intros l Pl. rewrite wire_body in St.
    exact (wire_cut ML trim _ CRLF _ (C56_alphanumeric gc) Fs [] (or_introl eq_refl) _ _ _ St Pl). }
  split.
  - intros f fuel l r' Hf E. destruct (C81_visits _ _ _ _ _ _ _ _ _ _ _ Hf P E) as (dn & rest & _ & _ & X & _).
    destruct (X eq_refl) as [_ X']. eauto.
  - intros s fuel en g e en' g' r' e' Ho E. destruct (C81_saved _ _ _ _ _ _ _ _ _ _ _ _ _ _ _ en' Ho P E (or_introl eq_refl)) as (log & dn & rest & _ & _ & _ & X & _).
    destruct (X eq_refl) as [_ X']. eauto.
Qed.

(** For the lazy client nothing can be missing. *)
Theorem C81_upload_lazy : forall ML guess trim gc q fs q' fs' t miss,
  lazy_send ML guess gc fs q = (Ok tt, q', fs') -> written (q_log q) = [] ->
  Forall (fun f => kinds (fun k => k <> KInterrupted) (l_source ML f)) fs ->
  Forall (fun f => sendable ML (boundary_of gc) (describe_lazy ML guess f)) fs ->
  stream t ++ miss = written (q_log q') ->
  (forall f fuel l r', (forall n h, Forall field_op (f n h)) ->
     foreach_entry ML trim f fuel 0 (with_body t (boundary_of gc)) = (Ok tt, l, r') -> miss = []) /\
  (forall s fuel en g e en' g' r' e', s_opts s = default_opts ->
     with_entries ML trim s fuel en g (with_body t (boundary_of gc)) e = (Full en', g', r', e') -> miss = []).
Proof.
  intros ML guess trim gc q fs q' fs' t miss H W0 Ki F St.
  assert (Ne : fs <> []).
  { intros ->. unfold lazy_send, prepare in H. destruct (from_fields ML guess gc []) as [[e|s] g1] eqn:Z; [discriminate|].
    apply from_fields_ok in Z as (_ & _ & _ & _ & En & _). rewrite (boundary_empty s En) in H. discriminate. }
  apply C24_send in H as (len & ds & L & D); auto.
  rewrite L, !written_app, W0, written_map, D in St. cbn [written app] in St. rewrite app_nil_r in St.
  assert (Fs : Forall (sendable ML (boundary_of gc)) (map (describe_lazy ML guess) (lazy_order ML fs))).
  { apply Forall_map. rewrite Forall_forall in *. intros f Hf. apply (proj1 (order_in ML _ _)) in Hf. auto. }
  assert (No : map (describe_lazy ML guess) (lazy_order ML fs) <> []).
  { intros X. apply map_eq_nil, (proj1 (order_nil ML _)) in X. congruence. }
  assert (P : parts (head_block ML trim (delimiter (boundary_of gc))) (delimiter (boundary_of gc)) (stream t ++ miss)
                (map (received ML) (map (describe_lazy ML guess) (lazy_order ML fs)))).
  { rewrite St. apply lazy_parts; [apply C56_alphanumeric|exact Fs|exact No]. }
  assert (K : forall l, parts (head_block ML trim (delimiter (boundary_of gc))) (delimiter (boundary_of gc)) (stream t) l -> miss = []).
  { intros l Pl. unfold lazy_body_of in St. rewrite lazy_body in St by exact No.
    assert (Q : length miss <= length (@nil byte)).
    { refine (wire_cut ML trim _ [] _ (C56_alphanumeric gc) Fs CRLF _ _ _ _ St Pl). right. exists []. split; [apply absent_nil|reflexivity]. }
    destruct miss; [reflexivity|cbn in Q; lia]. }
  split.
  - intros f fuel l r' Hf E. destruct (C81_visits _ _ _ _ _ _ _ _ _ _ _ Hf P E) as (dn & rest & _ & _ & X & _).
    destruct (X eq_refl) as [_ X']. eauto.
  - intros s fuel en g e en' g' r' e' Ho E. destruct (C81_saved _ _ _ _ _ _ _ _ _ _ _ _ _ _ _ en' Ho P E (or_introl eq_refl)) as (log & dn & rest & _ & _ & _ & X & _).
    destruct (X eq_refl) as [_ X']. eauto.
Qed.

(** Two fields, cut in the second: both are visited and the loop ends with an error; the first is complete. *)
Definition cut_two : transport := [Chunk (toy_part (bs "a") (bs "one")); Chunk (bs "--b" ++ CRLF ++ toy_head (bs "c") ++ bs "tw")].

Example C81_example :
  parts (head_block toy true (delimiter (bs "b"))) (delimiter (bs "b")) (stream cut_two ++ bs "o" ++ CRLF ++ toy_end)
    [(mkFH toy (bs "a") None None, bs "one"); (mkFH toy (bs "c") None None, bs "two")] /\
  (exists x r', foreach_entry toy true (fun _ _ => [ORead 10; ORead 10]) 100 0 (with_body cut_two (bs "b")) =
     (Err x, [(mkFH toy (bs "a") None None, [BRead toy (Ok (bs "one")); BRead toy (Ok [])]);
              (mkFH toy (bs "c") None None, [BRead toy (Ok (bs "tw")); BRead toy (Ok [])])], r')) /\
  (exists pe why g' r' e', with_entries toy true saver_new 100 (entries_new toy [bs "d"] false) [] (with_body cut_two (bs "b")) (no_failures (fun _ => None))
     = (Part pe why, g', r', e') /\ map (@sf_data toy) (fields_at (pe_entries toy pe) (bs "a")) = [SText (bs "one")]).
Proof.
  split; [|split; [do 2 eexists; vm_compute; reflexivity|do 5 eexists; split; vm_compute; reflexivity]].
  apply parts_field with (pre := []) (x := toy_head (bs "a")) (rest := bs "one" ++ CRLF ++ bs "--b" ++ CRLF ++ toy_head (bs "c") ++ bs "two" ++ CRLF ++ toy_end).
  - apply find_split; vm_compute; reflexivity.
  - split; [|apply Nat.leb_le; vm_compute; reflexivity]. eexists. split; [intros y; vm_compute; reflexivity|]. split; vm_compute; reflexivity.
  - exists (toy_head (bs "a") ++ bs "one" ++ CRLF), (CRLF ++ toy_head (bs "c") ++ bs "two" ++ CRLF ++ toy_end).
    split; [|left; vm_compute; reflexivity]. apply find_split; vm_compute; reflexivity.
  - apply parts_field with (pre := bs "one" ++ CRLF) (x := toy_head (bs "c")) (rest := bs "two" ++ CRLF ++ toy_end).
    + apply find_split; vm_compute; reflexivity.
    + split; [|apply Nat.leb_le; vm_compute; reflexivity]. eexists. split; [intros y; vm_compute; reflexivity|]. split; vm_compute; reflexivity.
    + exists (toy_head (bs "c") ++ bs "two" ++ CRLF), (DASHES ++ CRLF). split; [|left; reflexivity]. apply find_split; vm_compute; reflexivity.
    + eapply parts_end with (pre := bs "two" ++ CRLF) (q := CRLF). apply find_split; vm_compute; reflexivity.
Qed.

(** An upload that lacks the last CRLF, and one that lacks one byte more. *)
Example C81_upload_example :
  let q' := snd (client toy (bs "o/s") any_guess [] (plain_http []) some_fields) in
  let n := length (written (q_log q')) in
  fst (client toy (bs "o/s") any_guess [] (plain_http []) some_fields) = None /\
  (exists l r', foreach_entry toy true (fun _ _ => [ORead 50; ORead 50]) 100 0 (with_body [Chunk (firstn (n - 2) (written (q_log q')))] (boundary_of [])) = (Ok tt, l, r')) /\
  (exists x l r', foreach_entry toy true (fun _ _ => [ORead 50; ORead 50]) 100 0 (with_body [Chunk (firstn (n - 3) (written (q_log q')))] (boundary_of [])) = (Err x, l, r')).
Proof. cbv zeta. split; [vm_compute; reflexivity|]. split; [do 2 eexists; vm_compute; reflexivity|do 3 eexists; vm_compute; reflexivity]. Qed.
