(** Property theorems about interrupted and resumed saving (C71, C72). *)

From Verif Require Import Bytes BytesProofs Spec Io Boundary BoundaryProofs Utf8 Utf8Proofs Httparse Field FieldProofs
  ContentProofs DataProofs ShortProofs EntryProofs ReaderProofs Drive DriveProofs ReachProofs Rand Fs Save SaveProofs PhaseProofs SaveFacts
  TextProofs Toy PropsReader PropsSave EntriesProofs CompleteProofs PropsEntries InterruptProofs.

(** ** C71: interrupted reads do not show in what is saved *)

(** [calm_r r] is the reader [r] with the interrupted reads removed from its input.  A save that ends gives with the
    interruptions the same result, the same files and the same rest of the input as without. *)
Theorem C71_saved : forall ML trim t b r s p fuel e x r' e',
  reached ML trim t b r -> steady t -> with_path s p fuel r e = (x, r', e') -> x <> SFuel ->
  with_path s p fuel (calm_r r) e = (x, calm_r r', e').
Proof.
  intros ML trim t b r s p fuel e x r' e' Hr Hq H N. pose proof (reached_inv _ _ _ _ _ Hr) as (I & _ & _ & L & _).
  destruct (agree_path s p e fuel r I (steady_later _ _ L Hq)) as (_ & K & _).
  unfold envless in K. rewrite H in K. specialize (K (x, e') r' eq_refl N).
  destruct (with_path s p fuel (calm_r r) e) as [[y q] e2]. now injection K as -> -> ->.
Qed.

(** Conversely, what is saved without the interruptions is saved with them. *)
Theorem C71_still_saved : forall ML trim t b r s p fuel e x q e',
  reached ML trim t b r -> steady t -> with_path s p fuel (calm_r r) e = (x, q, e') -> x <> SFuel ->
  exists r', with_path s p (fuel + length t) r e = (x, r', e') /\ calm_r r' = q.
Proof.
  intros ML trim t b r s p fuel e x q e' Hr Hq H N. pose proof (reached_inv _ _ _ _ _ Hr) as (I & _ & _ & L & _).
  destruct (agree_path s p e fuel r I (steady_later _ _ L Hq)) as (_ & _ & K).
  unfold envless in K. rewrite H in K.
  destruct (K (x, e') q (length t) (later_short _ _ L) eq_refl N) as (r' & K1 & K2).
  exists r'. destruct (with_path s p (fuel + length t) r e) as [[y q'] e2]. now injection K1 as -> -> ->.
Qed.

(** The same for [write_to] and any writer. *)
Theorem C71_written : forall ML trim t b r W (wb : W -> bytes -> sres nat nat * W) s fuel w x w' r',
  reached ML trim t b r -> steady t -> write_to wb s fuel w r = (x, w', r') -> x <> SFuel ->
  write_to wb s fuel w (calm_r r) = (x, w', calm_r r').
Proof.
  intros ML trim t b r W wb s fuel w x w' r' Hr Hq H N. pose proof (reached_inv _ _ _ _ _ Hr) as (I & _ & _ & L & _).
  destruct (agree_write_to wb s w fuel r I (steady_later _ _ L Hq)) as (_ & K & _). exact (K (x, w') r' H N).
Qed.

Theorem C71_still_written : forall ML trim t b r W (wb : W -> bytes -> sres nat nat * W) s fuel w x w' q,
  reached ML trim t b r -> steady t -> write_to wb s fuel w (calm_r r) = (x, w', q) -> x <> SFuel ->
  exists r', write_to wb s (fuel + length t) w r = (x, w', r') /\ calm_r r' = q.
Proof.
  intros ML trim t b r W wb s fuel w x w' q Hr Hq H N. pose proof (reached_inv _ _ _ _ _ Hr) as (I & _ & _ & L & _).
  destruct (agree_write_to wb s w fuel r I (steady_later _ _ L Hq)) as (_ & _ & K).
  exact (K (x, w') q (length t) (later_short _ _ L) H N).
Qed.

Lemma calm_again r : calm_r (calm_r r) = calm_r r.
Proof. unfold calm_r. cbn. f_equal. induction (src r) as [|[c|k] t IH]; simpl; congruence. Qed.

Lemma calm_steady t : steady (calm t).
Proof. intros k H. apply filter_In in H as [_ H]. discriminate. Qed.

Lemma calm_short t : length (calm t) <= length t.
Proof. induction t as [|[c|k] t IH]; simpl; lia. Qed.

Lemma calm_more s p e r fuel n x r' e' : inv r -> length (src r) <= n ->
  with_path s p fuel (calm_r r) e = (x, r', e') -> x <> SFuel ->
  with_path s p (fuel + n) (calm_r r) e = (x, r', e').
Proof.
  intros I L H N. pose proof (calm_inv _ I) as I'.
  destruct (agree_path s p e fuel (calm_r r) I' (calm_steady _)) as (_ & _ & K).
  destruct (agree_path s p e (fuel + n) (calm_r r) I' (calm_steady _)) as (_ & K' & _). rewrite calm_again in *.
  unfold envless in K, K'. rewrite H in K. destruct (K (x, e') r' n) as (q & Q1 & Q2); auto.
  { cbn [calm_r src]. pose proof (calm_short (src r)). lia. }
  destruct (with_path s p (fuel + n) (calm_r r) e) as [[y q'] e2]. pose proof (K' _ _ Q1 N) as Q3.
  congruence.
Qed.

(** So two schedules of interruptions of the same input give the same. *)
Theorem C71_any_interruptions : forall ML trim t1 t2 b1 b2 r1 r2 s p fuel1 fuel2 e x1 r1' e1 x2 r2' e2,
  reached ML trim t1 b1 r1 -> steady t1 -> reached ML trim t2 b2 r2 -> steady t2 -> calm_r r1 = calm_r r2 ->
  with_path s p fuel1 r1 e = (x1, r1', e1) -> x1 <> SFuel -> with_path s p fuel2 r2 e = (x2, r2', e2) -> x2 <> SFuel ->
  x1 = x2 /\ e1 = e2 /\ calm_r r1' = calm_r r2'.
Proof.
  intros ML trim t1 t2 b1 b2 r1 r2 s p fuel1 fuel2 e x1 r1' e1 x2 r2' e2 R1 Q1 R2 Q2 C H1 N1 H2 N2.
  pose proof (reached_inv _ _ _ _ _ R1) as (I1 & _). pose proof (reached_inv _ _ _ _ _ R2) as (I2 & _).
  pose proof (C71_saved _ _ _ _ _ _ _ _ _ _ _ _ R1 Q1 H1 N1) as K1.
  pose proof (C71_saved _ _ _ _ _ _ _ _ _ _ _ _ R2 Q2 H2 N2) as K2.
  apply (calm_more _ _ _ _ _ (fuel2 + length (src r1) + length (src r2))) in K1; [|exact I1|lia|exact N1].
  apply (calm_more _ _ _ _ _ (fuel1 + length (src r1) + length (src r2))) in K2; [|exact I2|lia|exact N2].
  rewrite C in K1.
  replace (fuel2 + (fuel1 + length (src r1) + length (src r2))) with (fuel1 + (fuel2 + length (src r1) + length (src r2))) in K2 by lia.
  rewrite K1 in K2. split; [congruence|]. split; congruence.
Qed.

(** A field of 2500 bytes in two chunks with interruptions, saved partly in memory and then to disk. *)
Definition bumpy : transport :=
  [Chunk (bs "--b" ++ CRLF ++ toy_head (bs "a") ++ repeat 120%N 1500); Fail KInterrupted; Fail KInterrupted;
   Chunk (repeat 121%N 1000 ++ CRLF ++ toy_end); Fail KInterrupted].

Example C71_example :
  at_field toy true bumpy (bs "b") (mkFH toy (bs "a") None None) (first_field bumpy) /\ steady bumpy /\ ~ quiet bumpy /\
  let s := mkSaver 5000 10 1200 TTry default_opts in
  let '(x, r, e) := with_path s [bs "f"] 100 (first_field bumpy) (no_failures (fun _ => None)) in
  let '(x', r', e') := with_path s [bs "f"] 100 (calm_r (first_field bumpy)) (no_failures (fun _ => None)) in
  x = Full (SFile [bs "f"] 2500) /\ x' = x /\ r' = calm_r r /\
  readable (SFile [bs "f"] 2500) (e_fs e) = Some (repeat 120%N 1500 ++ repeat 121%N 1000) /\
  readable (SFile [bs "f"] 2500) (e_fs e') = Some (repeat 120%N 1500 ++ repeat 121%N 1000).
Proof.
  split; [first_field|]. split; [intros k; cbn; intuition congruence|].
  split; [intros Q; apply (Q KInterrupted); right; left; reflexivity|].
  vm_compute. repeat split; reflexivity.
Qed.

(** Not so between the fields: saving a whole request stops at an interrupted read
    while a delimiter or a header is looked for. *)
Theorem C71_request_refuted : exists t s en' g' r' e' pe g2 r2 e2,
  steady t /\ live t /\
  with_entries toy true s 100 (entries_new toy [bs "d"] false) [] (with_body (calm t) (bs "b")) (no_failures (fun _ => None)) =
    (Full en', g', r', e') /\ fields_of en' = 2 /\
  with_entries toy true s 100 (entries_new toy [bs "d"] false) [] (with_body t (bs "b")) (no_failures (fun _ => None)) =
    (Part pe (RIo (XEntry (EBnd (ETransport KInterrupted)))), g2, r2, e2) /\ fields_of (pe_entries toy pe) = 0.
Proof.
  exists [Chunk (toy_part (bs "a") (bs "first") ++ bs "--b" ++ CRLF); Fail KInterrupted; Chunk (toy_head (bs "b") ++ bs "second" ++ CRLF ++ toy_end)].
  exists (mkSaver 5000 9 5000 TTry default_opts). do 8 eexists.
  split; [intros k; cbn; intuition congruence|]. split; [intros [H|[H|[H|[]]]]; discriminate|].
  split; [vm_compute; reflexivity|]. split; [vm_compute; reflexivity|]. split; vm_compute; reflexivity.
Qed.

(** ** C72: what is left of a field that was saved in part can be saved by a second call *)

(** The data saved, the bytes lost (only when writing the part held in memory to the file failed) and the rest. *)
Lemma part_moved s p fuel r e v why r' e' : inv r -> s_opts s = default_opts -> with_path s p fuel r e = (Part v why, r', e') ->
  exists w lost, readable v (e_fs e') = Some w /\ moved r (w ++ lost) r' /\
    (lost = [] \/ ((exists k, why = RIo (XDst k)) /\ ((mem_min s < U64MAX)%N -> (N.of_nat (length (w ++ lost)) <= mem_min s)%N))).
Proof.
  intros I Ho H.
  apply with_path_cases in H as [(-> & d & M & _ & X)|(ob & r1 & b0 & M & _ & _ & _ & _ & Lm & H)]; auto.
  { exists d, []. rewrite app_nil_r. destruct v as [w|w|]; simpl in X; try tauto; destruct X as [-> _]; auto. }
  pose proof (moved_spec _ _ _ M I) as (J1 & _).
  apply save_disk_spec in H as (d & M1 & _ & _ & _ & [(_ & (k & Q) & _)|(w & (base & Ob & St) & X)]); auto; [discriminate|].
  rewrite Ho in Ob, St. destruct Ob as [(_ & _ & ->)|(c & _ & Ob & _)]; [|discriminate].
  cbn [o_append default_opts] in St. unfold put in St. rewrite firstn_O, skipn_nil, app_nil_r in St. cbn [app] in St.
  destruct X as [(-> & -> & _)|(-> & -> & (lost & _ & ->) & -> & K)]; cbn [readable]; rewrite St.
  - exists (ob ++ d), []. rewrite app_nil_r. split; auto. split; auto. eapply moved_trans; eauto.
  - exists w, lost. auto.
Qed.

(** The entries of the rest of a body, starting inside a field. *)
Lemma entries_onward ML trim t b s fuel en g r e x g' r' e' l en' :
  live t -> exact_chunks (delimiter b) t (map snd l) -> s_opts s = default_opts -> reached ML trim t b r -> st r <> AtEnd ->
  parts (head_block ML trim (delimiter b)) (delimiter b) (rem r) l ->
  with_entries ML trim s fuel en g r e = (x, g', r', e') -> got ML x = Some en' ->
  exists log d rest, en' = pushes ML (recount_fields ML en) log /\ l = d ++ rest /\
    Forall2 (fun hv hc => fst hv = fst hc /\ readable (snd hv) (e_fs e') = Some (snd hc)) log d /\
    (x = Full en' -> rest = []).
Proof.
  intros Hl Hns Ho R S P H G. unfold with_entries in H. destruct (read_entry ML trim r) as [res r2] eqn:E.
  pose proof (reached_inv ML _ _ _ _ R) as (J & _).
  pose proof (read_entry_keeps ML _ _ _ _ J E) as J2.
  pose proof (read_entry_ok ML _ _ _ _ _ _ _ R S P E) as N2.
  destruct res as [o|y| |].
  - destruct (loop_prefix ML _ _ _ _ _ Hl Ho _ _ _ _ _ _ _ _ _ _ Hns J2 N2 H en' G) as (log & d & rest & Q1 & Q2 & Q3 & Q4 & _).
    exists log, d, rest. auto.
  - exists [], [], l. assert (Z : en' = recount_fields ML en /\ x <> Full en').
    { destruct fuel as [|fuel]; cbn [entries_loop] in H; [injection H as <- _ _ _; discriminate G|].
      destruct (_ <? _)%N; injection H as <- _ _ _; injection G as <-; split; auto; discriminate. }
    destruct Z as [-> Z]. split; [reflexivity|]. split; [reflexivity|]. split; [constructor|]. intros Q. contradiction.
  - exfalso. apply (read_entry_inv ML trim r _ _ J) in E. tauto.
  - exfalso. apply (read_entry_inv ML trim r _ _ J) in E. tauto.
Qed.

(** False of the code: if the file takes only 10 bytes of the 1024 read into memory, the others are gone. *)
Theorem C72_refuted : exists t s e pe k g1 r1 e1 h v w v2 w2 r2 e2 c,
  live t /\ quiet t /\ s_opts s = default_opts /\
  parts (head_block toy true (delimiter (bs "b"))) (delimiter (bs "b")) (stream t) [(h, c)] /\
  with_entries toy true s 100 (entries_new toy [bs "d"] false) [] (with_body t (bs "b")) e = (Part pe (RIo (XDst k)), g1, r1, e1) /\
  pe_partial toy pe = Some (h, Some v) /\ readable v (e_fs e1) = Some w /\
  with_path saver_new [bs "rest"] 100 r1 e1 = (Full v2, r2, e2) /\ readable v2 (e_fs e2) = Some w2 /\
  length w + length w2 + 1014 = length c.
Proof.
  exists limit_chunks, (mkSaver 5000 9 1030 TTry default_opts), (mkEnv (fun _ => None) [WAccept 10; WFail (KOther 28)] [] []).
  do 12 eexists. exists (repeat 120%N 1024 ++ repeat 121%N 1400).
  split; [intros [H|[H|[]]]; discriminate|]. split; [intros k [H|[H|[]]]; discriminate|]. split; [reflexivity|].
  split; cycle 1.
  { split; [vm_compute; reflexivity|]. split; [vm_compute; reflexivity|]. split; [vm_compute; reflexivity|].
    split; [vm_compute; reflexivity|]. split; vm_compute; reflexivity. }
  apply parts_field with (pre := []) (x := toy_head (bs "a")) (rest := repeat 120%N 1024 ++ repeat 121%N 1400 ++ CRLF ++ toy_end).
  + apply find_split; vm_compute; reflexivity.
  + split; [|apply Nat.leb_le; vm_compute; reflexivity].
    eexists. split; [intros y; vm_compute; reflexivity|]. split; vm_compute; reflexivity.
  + exists (toy_head (bs "a") ++ repeat 120%N 1024 ++ repeat 121%N 1400 ++ CRLF), (DASHES ++ CRLF). split; [|left; vm_compute; reflexivity].
    apply find_split; vm_compute; reflexivity.
  + eapply parts_end with (pre := repeat 120%N 1024 ++ repeat 121%N 1400 ++ CRLF) (q := CRLF). apply find_split; vm_compute; reflexivity.
Qed.

(** After a successful look at the field nothing is read from the input until something is consumed. *)
Lemma moved_nothing r d r0 : inv r -> (exists b, read_to_boundary r = (Ok b, r)) -> moved r d r0 -> d = [] -> r0 = r.
Proof.
  intros I Hb M. induction M as [r|r d r1 x r2 M IH E|n r d r1 x r2 M IH E L]; intros Hd; auto.
  - specialize (IH I Hb Hd). subst r1. destruct Hb as [b Hb]. congruence.
  - apply app_eq_nil in Hd as [-> Hd]. specialize (IH I Hb eq_refl). subst r1.
    assert (r2 = r) as -> by (destruct Hb as [b Hb]; congruence).
    assert (Z : n = 0).
    { pose proof (f_equal (@length _) Hd) as Q. rewrite firstn_length in Q. cbn [length] in Q.
      destruct I as (_ & Q2 & _). lia. }
    subst n. destruct r; unfold consume; simpl. now rewrite Nat.sub_0_r.
Qed.

(** An error reported by saving: nothing of the field is consumed, unless the file could not be written. *)
Lemma err_moved s p fuel r e y r' e' : inv r -> live (src r) -> with_path s p fuel r e = (SErr y, r', e') ->
  exists lost, moved r lost r' /\
    (lost = [] \/ ((exists k, y = XDst k) /\ ((mem_min s < U64MAX)%N -> (N.of_nat (length lost) <= mem_min s)%N))).
Proof.
  intros I Hl H.
  apply with_path_cases in H as [(-> & d & M & _ & X)|(ob & r1 & b0 & M & Pe & Nb & _ & _ & Lm & H)]; auto.
  { simpl in X. destruct X as (-> & _). exists []. auto. }
  pose proof (moved_spec _ _ _ M I) as (J1 & _).
  apply save_disk_spec in H as (d & M1 & _ & _ & _ & [(_ & (k & Q) & -> & ->)|(w & _ & -> & [(_ & -> & _ & k & ->)|(-> & b & -> & B)])]); auto.
  - injection Q as ->. exists ob. split; auto. right. split; eauto.
  - exists ob. split; auto. right. split; eauto.
  - exfalso. destruct Pe as (q & Mq & Eq). destruct B as (q2 & M2 & E2 & _).
    pose proof (moved_spec _ _ _ Mq I) as (Jq & _ & _ & _ & Lq).
    pose proof (fill_again _ _ _ Jq (live_later _ _ Lq Hl) Eq) as F.
    rewrite (moved_nothing _ _ _ J1 (ex_intro _ _ F) M2 eq_refl) in E2. congruence.
Qed.

Theorem C72_error_partial : forall ML trim t b h r s p fuel e y r1 e1 c,
  at_field ML trim t b h r -> live t -> exact_chunks (delimiter b) t [c] -> content (delimiter b) (rem r) c ->
  with_path s p fuel r e = (SErr y, r1, e1) ->
  exists lost,
    (lost = [] \/ ((exists k, y = XDst k) /\
       ((N.min (s_size_limit s) (s_threshold s) < U64MAX)%N ->
        (N.of_nat (length lost) <= N.min (s_size_limit s) (s_threshold s))%N))) /\
    forall s2 p2 fuel2 e2 v2 r2 e3, s_opts s2 = default_opts ->
      with_path s2 p2 fuel2 r1 e2 = (Full v2, r2, e3) -> exists w2, readable v2 (e_fs e3) = Some w2 /\ c = lost ++ w2.
Proof.
  intros ML trim t b h r s p fuel e y r1 e1 c Hf Hl Hns Hc H.
  pose proof (at_field_inv _ _ _ _ _ _ Hf) as I. destruct (at_field_reached ML _ _ _ _ _ Hf) as (R & _).
  pose proof (reached_inv ML _ _ _ _ R) as (_ & _ & _ & L & _).
  apply err_moved in H as (lost & M & X); auto; [|eapply live_later; eauto]. exists lost. split; auto.
  intros s2 p2 fuel2 e2 v2 r2 e3 Ho2 H. pose proof (moved_spec _ _ _ M I) as (I1 & _).
  apply full_ended in H as (w2 & Hw2 & En & _); auto. exists w2. split; auto.
  symmetry. eapply ended_content; eauto. eapply pending_app; eauto.
Qed.

(** For a field: the first call saves [w], the second the rest. *)
Theorem C72_field_partial : forall ML trim t b h r s p fuel e v why r1 e1 c,
  at_field ML trim t b h r -> live t -> exact_chunks (delimiter b) t [c] -> s_opts s = default_opts ->
  content (delimiter b) (rem r) c ->
  with_path s p fuel r e = (Part v why, r1, e1) ->
  exists w lost, readable v (e_fs e1) = Some w /\
    (lost = [] \/ ((exists k, why = RIo (XDst k)) /\
       ((N.min (s_size_limit s) (s_threshold s) < U64MAX)%N ->
        (N.of_nat (length (w ++ lost)) <= N.min (s_size_limit s) (s_threshold s))%N))) /\
    forall s2 p2 fuel2 e2 v2 r2 e3, s_opts s2 = default_opts ->
      with_path s2 p2 fuel2 r1 e2 = (Full v2, r2, e3) ->
      exists w2, readable v2 (e_fs e3) = Some w2 /\ c = w ++ lost ++ w2 /\ (e2 = e1 -> readable v (e_fs e3) = Some w).
Proof.
  intros ML trim t b h r s p fuel e v why r1 e1 c Hf Hl Hns Ho Hc H.
  pose proof (at_field_inv _ _ _ _ _ _ Hf) as I.
  apply part_moved in H as (w & lost & Hw & M & X); auto. exists w, lost. split; auto. split; auto.
  intros s2 p2 fuel2 e2 v2 r2 e3 Ho2 H. pose proof (moved_spec _ _ _ M I) as (I1 & _).
  pose proof (with_path_fs _ _ _ _ _ _ _ _ I1 Ho2 H) as Fs.
  apply full_ended in H as (w2 & Hw2 & En & _); auto. exists w2. split; auto. split.
  - rewrite app_assoc. symmetry. eapply ended_content; eauto. eapply pending_app; eauto.
  - intros ->. destruct v as [z|z|q n]; auto. cbn [readable] in *. destruct (Fs q) as [->|(Q & _)]; auto. rewrite Q in Hw. discriminate.
Qed.

(** Where saving a request stops inside a field. *)
Lemma loop_stopped ML trim t b s fuel : live t -> s_opts s = default_opts ->
  forall l res en g r e pe why g' r' e' h dest, exact_chunks (delimiter b) t (map snd l) -> inv r -> next_state ML trim t b res r l ->
  entries_loop ML trim s fuel res en g r e = (Part pe why, g', r', e') -> pe_partial ML pe = Some (h, dest) ->
  exists log d c l' s' p f r0 e0 y, pe_entries ML pe = pushes ML en log /\ l = d ++ (h, c) :: l' /\
    Forall2 (stored_as ML e') log d /\ at_field ML trim t b h r0 /\ content (delimiter b) (rem r0) c /\
    parts (head_block ML trim (delimiter b)) (delimiter b) (rem r0) l' /\
    s_opts s' = default_opts /\ s_size_limit s' = s_size_limit s /\ s_threshold s' = s_threshold s /\
    with_path s' p f r0 e0 = (y, r', e') /\
    match dest with Some v => y = Part v why | None => exists x, y = SErr x /\ why = RIo x end.
Proof.
  intros Hl Ho. induction fuel as [|fuel IH]; intros l res en g r e pe why g' r' e' h dest Hns I Hst; cbn [entries_loop].
  { discriminate. }
  destruct (en_count ML en <? s_count_limit s)%N eqn:C.
  2: { intros H; injection H as <- <- <- <- <-. discriminate. }
  destruct res as [[h0|]|y| |].
  2: discriminate.
  2: { intros H; injection H as <- <- <- <- <-. discriminate. }
  2-3: discriminate.
  destruct (save_field ML s h0 en (S fuel) g r e) as [[[y g1] r1] e1] eqn:E.
  simpl in Hst. destruct Hst as (c & l' & -> & Hf & Hc & P).
  destruct y as [v|v why0|y| |].
  2-3: apply save_field_path in E as [_ E]; intros H; injection H as <- <- <- <- <-; intros Q; injection Q as <- <-;
    exists [], [], c, l'; do 6 eexists; split; [reflexivity|]; split; [reflexivity|]; split; [constructor|]; split; [exact Hf|];
    split; [exact Hc|]; split; [exact P|]; split; [|split; [|split; [|split; [exact E|eauto]]]]; auto.
  2-3: discriminate.
  destruct (save_step ML _ _ _ _ _ _ _ _ _ _ _ _ _ _ _ _ Hf Hl (exact_head _ _ _ _ Hns) Ho Hc P E) as (Rd & R1 & S1 & Z1 & P1).
  destruct (read_entry ML trim r1) as [res' r2] eqn:Re. intros H Q.
  pose proof (reached_inv _ _ _ _ _ R1) as (I1 & _).
  pose proof (read_entry_keeps ML _ _ _ _ I1 Re) as I2.
  pose proof (read_entry_parts ML _ _ _ _ _ _ _ R1 S1 (or_intror Z1) Hl P1 Re) as N.
  pose proof (loop_touched ML _ _ _ Ho _ _ _ _ _ _ _ _ _ I2 H) as T.
  destruct (IH _ _ _ _ _ _ _ _ _ _ _ _ _ (exact_tail _ _ _ _ Hns) I2 N H Q) as (log & d & c' & l2 & s' & p & f & r0 & e0 & y & K1 & -> & K3 & K4).
  exists ((h0, v) :: log), ((h0, c) :: d), c', l2, s', p, f, r0, e0, y. split; [exact K1|]. split; [reflexivity|]. split; [|exact K4].
  constructor; auto. split; auto. simpl. eapply readable_kept; eauto.
Qed.

(** For a request: the fields before are saved; of the field [h] with content [c] the first part [w] is saved; the source of the
    partially saved field can be saved again, giving the rest; then [with_entries] goes on with the following fields. *)
Theorem C72_request_partial : forall ML trim t b s fuel en g e pe why g1 r1 e1 l h dest,
  live t -> exact_chunks (delimiter b) t (map snd l) -> s_opts s = default_opts ->
  parts (head_block ML trim (delimiter b)) (delimiter b) (stream t) l ->
  with_entries ML trim s fuel en g (with_body t b) e = (Part pe why, g1, r1, e1) ->
  pe_partial ML pe = Some (h, dest) ->
  exists log d c l' w lost, pe_entries ML pe = pushes ML (recount_fields ML en) log /\ l = d ++ (h, c) :: l' /\
    Forall2 (fun hv hc => fst hv = fst hc /\ readable (snd hv) (e_fs e1) = Some (snd hc)) log d /\
    match dest with Some v => readable v (e_fs e1) = Some w | None => w = [] end /\
    (lost = [] \/ ((exists k, why = RIo (XDst k)) /\
       ((N.min (s_size_limit s) (s_threshold s) < U64MAX)%N ->
        (N.of_nat (length (w ++ lost)) <= N.min (s_size_limit s) (s_threshold s))%N))) /\
    forall s2 p2 fuel2 e2 v2 r2 e3, s_opts s2 = default_opts ->
      with_path s2 p2 fuel2 r1 e2 = (Full v2, r2, e3) ->
      exists w2, readable v2 (e_fs e3) = Some w2 /\ c = w ++ lost ++ w2 /\ (forall v, dest = Some v -> e2 = e1 -> readable v (e_fs e3) = Some w) /\
      forall s3 fuel3 en3 g3 e4 x g4 r4 e5 en4, s_opts s3 = default_opts ->
        with_entries ML trim s3 fuel3 en3 g3 r2 e4 = (x, g4, r4, e5) ->
        (x = Full en4 \/ exists pe why, x = Part pe why /\ en4 = pe_entries ML pe) ->
        exists log2 d2 rest, en4 = pushes ML (recount_fields ML en3) log2 /\ l' = d2 ++ rest /\
          Forall2 (fun hv hc => fst hv = fst hc /\ readable (snd hv) (e_fs e5) = Some (snd hc)) log2 d2 /\
          (x = Full en4 -> rest = []).
Proof.
  intros ML trim t b s fuel en g e pe why g1 r1 e1 l h dest Hl Hns Ho P H Q. unfold with_entries in H.
  destruct (read_entry ML trim (with_body t b)) as [res r0] eqn:E.
  assert (R0 : reached ML trim t b (with_body t b)) by (exists [], []; reflexivity).
  pose proof (read_entry_parts ML _ _ _ _ _ _ _ R0 ltac:(discriminate) (or_introl eq_refl) Hl P E) as N.
  pose proof (read_entry_keeps ML _ _ _ _ (inv_from_reader t b) E) as I1.
  destruct (loop_stopped ML _ _ _ _ _ Hl Ho _ _ _ _ _ _ _ _ _ _ _ _ _ Hns I1 N H Q)
    as (log & d & c & l' & s' & p & f & q & e0 & y & K1 & K2 & K3 & Hf & Hc & P' & Ho' & Z1 & Z2 & K4 & K5).
  pose proof (at_field_inv _ _ _ _ _ _ Hf) as J. destruct (at_field_reached ML _ _ _ _ _ Hf) as (Rq & Sq & _).
  pose proof (reached_inv ML _ _ _ _ Rq) as (_ & _ & B & L & _).
  assert (Hnc : exact_chunks (delimiter b) t [c]) by (rewrite K2 in Hns; exact (exact_mid _ _ _ _ _ Hns)).
  assert (X : exists w lost, match dest with Some v => readable v (e_fs e1) = Some w | None => w = [] end /\
    (lost = [] \/ ((exists k, why = RIo (XDst k)) /\
       ((N.min (s_size_limit s) (s_threshold s) < U64MAX)%N ->
        (N.of_nat (length (w ++ lost)) <= N.min (s_size_limit s) (s_threshold s))%N))) /\
    forall s2 p2 fuel2 e2 v2 r2 e3, s_opts s2 = default_opts ->
      with_path s2 p2 fuel2 r1 e2 = (Full v2, r2, e3) ->
      exists w2, readable v2 (e_fs e3) = Some w2 /\ c = w ++ lost ++ w2 /\ (forall v, dest = Some v -> e2 = e1 -> readable v (e_fs e3) = Some w)).
  { destruct dest as [v|].
    - subst y. destruct (C72_field_partial _ _ _ _ _ _ _ _ _ _ _ _ _ _ _ Hf Hl Hnc Ho' Hc K4) as (w & lost & Hw & Hlost & Next).
      rewrite Z1, Z2 in Hlost. exists w, lost. split; auto. split; auto.
      intros s2 p2 fuel2 e2 v2 r2 e3 Ho2 H2. destruct (Next _ _ _ _ _ _ _ Ho2 H2) as (w2 & W1 & W2 & W3).
      exists w2. split; auto. split; auto. intros v' Q'. injection Q' as <-. exact W3.
    - destruct K5 as (x & -> & ->).
      destruct (C72_error_partial _ _ _ _ _ _ _ _ _ _ _ _ _ _ Hf Hl Hnc Hc K4) as (lost & Hlost & Next).
      rewrite Z1, Z2 in Hlost. exists [], lost. split; auto. split; [destruct Hlost as [|((k & ->) & ?)]; eauto|].
      intros s2 p2 fuel2 e2 v2 r2 e3 Ho2 H2. destruct (Next _ _ _ _ _ _ _ Ho2 H2) as (w2 & W1 & W2).
      exists w2. split; auto. split; auto. discriminate. }
  destruct X as (w & lost & Hw & Hlost & Next).
  exists log, d, c, l', w, lost. split; auto. split; auto. split; [exact K3|]. split; auto. split; auto.
  intros s2 p2 fuel2 e2 v2 r2 e3 Ho2 H2. destruct (Next _ _ _ _ _ _ _ Ho2 H2) as (w2 & W1 & W2 & W3).
  exists w2. split; auto. split; auto. split; auto.
  intros s3 fuel3 en3 g3 e4 x g4 r4 e5 en4 Ho3 H3 Hx.
  assert (G : got ML x = Some en4) by (destruct Hx as [->|(pe' & why' & -> & ->)]; reflexivity).
  destruct (with_path_moved _ _ _ _ _ _ _ _ J K4) as (d1 & M).
  pose proof (moved_spec _ _ _ M J) as (J1 & _).
  destruct (with_path_moved _ _ _ _ _ _ _ _ J1 H2) as (d' & M').
  pose proof (moved_trans _ _ _ _ _ M M') as M2.
  destruct (moved_field ML _ _ _ _ _ _ _ Hf M2) as (_ & _ & S2 & _ & _ & _ & R2 & _).
  destruct (moved_skipped _ _ _ J Sq M2) as [K _]. rewrite B in K.
  eapply entries_onward; eauto; [rewrite K2 in Hns; exact (exact_rest _ _ _ _ _ Hns)|]. eapply parts_skipped; eauto. discriminate.
Qed.

(** Three fields: a small one, one of 2500 bytes and a small one. *)
Definition long_second : transport :=
  [Chunk (toy_part (bs "a") (bs "first") ++ bs "--b" ++ CRLF ++ toy_head (bs "b") ++ repeat 120%N 1500);
   Chunk (repeat 121%N 1000 ++ CRLF); Chunk (toy_part (bs "c") (bs "third") ++ toy_end)].

(** With a size limit of 2000 the second field is saved in part; the rest of it and then the third field can be saved. *)
Example C72_example :
  let s := mkSaver 2000 9 1200 TTry default_opts in
  let '(x1, g1, r1, e1) := with_entries toy true s 100 (entries_new toy [bs "d"] false) [] (with_body long_second (bs "b")) (no_failures (fun _ => None)) in
  let '(x2, r2, e2) := with_path saver_new [bs "rest"] 100 r1 e1 in
  let '(x3, _, _, e3) := with_entries toy true saver_new 100 (entries_new toy [bs "d"] false) g1 r2 e2 in
  match x1, x2, x3 with
  | Part pe RSize, Full v2, Full en3 =>
      match pe_partial toy pe with
      | Some (h, Some v) =>
          fh_name toy h = bs "b" /\ map (sf_data toy) (fields_at (pe_entries toy pe) (bs "a")) = [SText (bs "first")] /\
          match readable v (e_fs e1), readable v2 (e_fs e2) with
          | Some w, Some w2 => w ++ w2 = repeat 120%N 1500 ++ repeat 121%N 1000 /\ 0 < length w /\ 0 < length w2
          | _, _ => False
          end /\ map (sf_data toy) (fields_at en3 (bs "c")) = [SText (bs "third")]
      | _ => False
      end
  | _, _, _ => False
  end.
Proof. vm_compute. repeat split; try reflexivity; repeat constructor. Qed.
