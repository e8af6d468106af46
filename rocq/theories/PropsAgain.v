(** Property theorems: resuming after a partial save, any number of times and for every chunking (C101). *)

From Verif Require Import Bytes BytesProofs Spec Io Boundary BoundaryProofs Utf8 Utf8Proofs Httparse Field FieldProofs
  ContentProofs DataProofs ShortProofs EntryProofs ReaderProofs Drive DriveProofs ReachProofs Rand Fs Save SaveProofs PhaseProofs SaveFacts
  TextProofs Toy PropsReader PropsSave EntriesProofs CompleteProofs PropsEntries InterruptProofs PropsResume IronProofs PropsAny.

(** ** C101 *)

(** A series of attempts to save what is left of a field, each where the one before has stopped, to any paths and
    with any builders. *)
Inductive tries : breader -> env -> list (saver * sres saved saved) -> breader -> env -> Prop :=
| tries_none r e : tries r e [] r e
| tries_more s p fuel r e x r1 e1 l r2 e2 : s_opts s = default_opts -> with_path s p fuel r e = (x, r1, e1) -> x <> SFuel ->
    tries r1 e1 l r2 e2 -> tries r e ((s, x) :: l) r2 e2.

(** What an attempt says it has saved. *)
Definition left_by (f : fs) (x : sres saved saved) (w : bytes) : Prop :=
  match x with Full v | Part v _ => readable v f = Some w | SErr _ => w = [] | _ => False end.

(** Only if writing fails something may be lost, and with what was saved it is no more than is kept in memory. *)
Definition lost_by (s : saver) (x : sres saved saved) (w lost : bytes) : Prop :=
  lost = [] \/ ((exists k, x = SErr (XDst k) \/ exists v, x = Part v (RIo (XDst k))) /\
    ((N.min (s_size_limit s) (s_threshold s) < U64MAX)%N -> (N.of_nat (length (w ++ lost)) <= N.min (s_size_limit s) (s_threshold s))%N)).

Definition in_order (l : list (bytes * bytes)) : bytes := concat (map (fun wl => fst wl ++ snd wl) l).

Lemma try_moved s p fuel r e x r1 e1 : inv r -> live (src r) -> s_opts s = default_opts -> with_path s p fuel r e = (x, r1, e1) -> x <> SFuel ->
  exists w lost, left_by (e_fs e1) x w /\ lost_by s x w lost /\ moved r (w ++ lost) r1 /\
    (forall v, x = Full v -> ended r (w ++ lost) r1).
Proof.
  intros I Hl Ho H Nf. pose proof (with_path_no_panic _ _ _ _ _ _ _ _ I H) as Np.
  destruct x as [v|v why|y| |]; try congruence.
  - destruct (full_ended _ _ _ _ _ _ _ _ I Ho H) as (w & Rd & En & _). exists w, []. rewrite app_nil_r.
    split; [exact Rd|]. split; [now left|]. split; [|auto]. destruct En as (r0 & M & E). eapply mv_fill; eauto.
  - destruct (part_moved _ _ _ _ _ _ _ _ _ I Ho H) as (w & lost & Rd & M & X). exists w, lost.
    split; [exact Rd|]. split; [destruct X as [->|((k & ->) & X)]; [now left|right; eauto]|]. split; auto. discriminate.
  - destruct (err_moved _ _ _ _ _ _ _ _ I Hl H) as (lost & M & X). exists [], lost.
    split; [reflexivity|]. split; [destruct X as [->|((k & ->) & X)]; [now left|right; eauto]|]. split; auto. discriminate.
Qed.

Lemma left_kept s p fuel r e x r1 e1 y w : inv r -> s_opts s = default_opts -> with_path s p fuel r e = (x, r1, e1) ->
  left_by (e_fs e) y w -> left_by (e_fs e1) y w.
Proof.
  intros I Ho H. pose proof (with_path_fs _ _ _ _ _ _ _ _ I Ho H) as Fs.
  assert (K : forall v, readable v (e_fs e) = Some w -> readable v (e_fs e1) = Some w).
  { intros [z|z|q n]; auto. cbn [readable]. intros Rd. destruct (Fs q) as [->|(Q & _)]; auto. rewrite Q in Rd. discriminate. }
  destruct y; cbn [left_by]; auto.
Qed.

Lemma tries_left r e l r2 e2 y w : tries r e l r2 e2 -> inv r -> left_by (e_fs e) y w -> left_by (e_fs e2) y w.
Proof.
  induction 1 as [r e|s p fuel r e x r1 e1 l r2 e2 Ho H Nf T IH]; intros I L; auto.
  destruct (with_path_moved _ _ _ _ _ _ _ _ I H) as (d & M). apply IH; [apply (moved_spec _ _ _ M I)|]. eapply left_kept; eauto.
Qed.

Lemma tries_moved r e l r2 e2 : tries r e l r2 e2 -> inv r -> live (src r) ->
  exists wl, Forall2 (fun sx p => left_by (e_fs e2) (snd sx) (fst p) /\ lost_by (fst sx) (snd sx) (fst p) (snd p)) l wl /\
    moved r (in_order wl) r2 /\ (forall l1 s v, l = l1 ++ [(s, Full v)] -> ended r (in_order wl) r2).
Proof.
  induction 1 as [r e|s p fuel r e x r1 e1 l r2 e2 Ho H Nf T IH]; intros I Hl.
  { exists []. split; [constructor|]. split; [constructor|]. intros l1 s v Q. symmetry in Q. now apply app_eq_nil in Q as [_ Q]. }
  destruct (try_moved _ _ _ _ _ _ _ _ I Hl Ho H Nf) as (w & lost & L1 & L2 & M & En).
  pose proof (moved_spec _ _ _ M I) as (I1 & _ & _ & _ & Lt).
  destruct (IH I1 (live_later _ _ Lt Hl)) as (wl & F & M2 & En2). exists ((w, lost) :: wl). cbn [in_order map concat fst snd].
  split; [constructor; auto; cbn [fst snd]; split; auto; eapply tries_left; eauto|].
  split; [eapply moved_trans; eauto|]. intros [|sx l1] s0 v Q.
  - injection Q as _ -> ->. inversion T; subst. inversion F; subst. cbn [in_order map concat]. rewrite app_nil_r. eapply En; eauto.
  - injection Q as _ Q. destruct (En2 _ _ _ Q) as (r0 & K1 & K2). exists r0. split; auto. eapply moved_trans; eauto.
Qed.

(** Any number of attempts on a field with content [c]: what they have saved (it can all be read at the end) and
    lost is, in order, the start of the content; and once one of them has saved all the rest, it is the content,
    perhaps with the CRLF before the delimiter. *)
Theorem C101_field : forall ML trim t b h r c e l r2 e2,
  at_field ML trim t b h r -> live t -> content (delimiter b) (rem r) c -> tries r e l r2 e2 ->
  exists wl, Forall2 (fun sx p => left_by (e_fs e2) (snd sx) (fst p) /\ lost_by (fst sx) (snd sx) (fst p) (snd p)) l wl /\
    prefix_of (in_order wl) (c ++ CRLF) /\
    (forall l1 s v, l = l1 ++ [(s, Full v)] -> padded c (in_order wl)).
Proof.
  intros ML trim t b h r c e l r2 e2 Hf Hl Hc T.
  pose proof (at_field_inv _ _ _ _ _ _ Hf) as I. destruct (at_field_reached ML _ _ _ _ _ Hf) as (R & _).
  pose proof (reached_inv ML _ _ _ _ R) as (_ & _ & _ & L & _).
  destruct (tries_moved _ _ _ _ _ T I (live_later _ _ L Hl)) as (wl & F & M & En). exists wl. split; auto.
  pose proof Hc as (pre & post & FS & FC). split.
  - destruct (moved_prefix ML _ _ _ _ _ _ _ _ _ Hf M FS) as (u & E & _).
    destruct (content_padded _ _ _ _ _ _ Hc FS (or_introl eq_refl)) as [P|P]; rewrite P in E.
    + exists (u ++ CRLF). rewrite E. now rewrite app_assoc.
    + exists u. exact E.
  - intros l1 s v Q. eapply content_padded; eauto. eapply ended_pre; eauto.
Qed.

(** If no attempt fails on its destination, nothing is lost. *)
Theorem C101_lossless : forall ML trim t b h r c e l s v r2 e2,
  at_field ML trim t b h r -> live t -> content (delimiter b) (rem r) c -> tries r e (l ++ [(s, Full v)]) r2 e2 ->
  Forall (fun sx => forall k, snd sx <> SErr (XDst k) /\ forall v, snd sx <> Part v (RIo (XDst k))) l ->
  exists ws w, Forall2 (fun sx w => left_by (e_fs e2) (snd sx) w) l ws /\ readable v (e_fs e2) = Some w /\ padded c (concat ws ++ w).
Proof.
  intros ML trim t b h r c e l s v r2 e2 Hf Hl Hc T Fk.
  destruct (C101_field _ _ _ _ _ _ _ _ _ _ _ Hf Hl Hc T) as (wl & F & _ & P). specialize (P l s v eq_refl).
  apply Forall2_app_inv_l in F as (wl1 & wl2 & F1 & F2 & ->). inversion F2 as [|? p ? ? (Q1 & Q2) F3]; subst. inversion F3; subst.
  destruct p as [w lost]. cbn [fst snd left_by] in *.
  assert (Z : lost = []) by (destruct Q2 as [|((k & [Q2|(u & Q2)]) & _)]; [auto|discriminate|discriminate]). subst lost.
  exists (map fst wl1), w. split; [|split; [exact Q1|]].
  - clear - F1. induction F1 as [|? ? ? ? (Q & _) F IH]; constructor; auto.
  - assert (E : in_order wl1 = concat (map fst wl1)).
    { clear - F1 Fk. induction F1 as [|sx [u lo] l wl (Q & L) F IH]; [reflexivity|]. inversion Fk as [|? ? K1 K2]; subst.
      unfold in_order in *. cbn [map concat fst snd] in *. rewrite (IH K2). f_equal.
      destruct L as [->|((k & [L|(v & L)]) & _)]; [apply app_nil_r| |]; destruct (K1 k) as [X1 X2]; [contradiction|]. now destruct (X2 v). }
    unfold in_order in P. rewrite map_app, concat_app in P. cbn [map concat fst snd] in P. rewrite !app_nil_r in P.
    change (padded c (in_order wl1 ++ w)) in P. rewrite E in P. exact P.
Qed.

(** Where saving a request stops inside a field. *)
Lemma loop_stopped_any ML trim t b s fuel : live t -> s_opts s = default_opts ->
  forall l res en g r e pe why g' r' e' h dest, inv r -> next_state ML trim t b res r l ->
  entries_loop ML trim s fuel res en g r e = (Part pe why, g', r', e') -> pe_partial ML pe = Some (h, dest) ->
  exists log d c l' s' p f r0 e0 y, pe_entries ML pe = pushes ML en log /\ l = d ++ (h, c) :: l' /\
    Forall2 (saved_as (e_fs e')) log d /\ at_field ML trim t b h r0 /\ content (delimiter b) (rem r0) c /\
    parts (head_block ML trim (delimiter b)) (delimiter b) (rem r0) l' /\
    s_opts s' = default_opts /\ s_size_limit s' = s_size_limit s /\ s_threshold s' = s_threshold s /\
    with_path s' p f r0 e0 = (y, r', e') /\
    match dest with Some v => y = Part v why | None => exists x, y = SErr x /\ why = RIo x end.
Proof.
  intros Hl Ho. induction fuel as [|fuel IH]; intros l res en g r e pe why g' r' e' h dest I Hst; cbn [entries_loop].
  { discriminate. }
  destruct (en_count ML en <? s_count_limit s)%N eqn:C.
  2: { intros H; injection H as <- <- <- <- <-. discriminate. }
  destruct res as [[h0|]|y| |].
  2: discriminate.
  2: { intros H; injection H as <- <- <- <- <-. discriminate. }
  2-3: discriminate.
  destruct (save_field ML s h0 en (S fuel) g r e) as [[[y g1] r1] e1] eqn:E.
  simpl in Hst. destruct Hst as (c & l' & -> & Hf & Hc & P).
  destruct y as [v|v why0|y| |].
  2-3: apply save_field_path in E as [_ E]; intros H; injection H as <- <- <- <- <-; intros Q; injection Q as <- <-;
    exists [], [], c, l'; do 6 eexists; split; [reflexivity|]; split; [reflexivity|]; split; [constructor|]; split; [exact Hf|];
    split; [exact Hc|]; split; [exact P|]; split; [|split; [|split; [|split; [exact E|eauto]]]]; auto.
  2-3: discriminate.
  destruct (save_step_any ML _ _ _ _ _ _ _ _ _ _ _ _ _ _ _ _ Hf Hl Ho Hc P E) as ((w & Rd & Pw & _) & R1 & S1 & Z1 & P1).
  destruct (read_entry ML trim r1) as [res' r2] eqn:Re. intros H Q.
  pose proof (reached_inv _ _ _ _ _ R1) as (I1 & _).
  pose proof (read_entry_keeps ML _ _ _ _ I1 Re) as I2.
  pose proof (read_entry_parts ML _ _ _ _ _ _ _ R1 S1 (or_intror Z1) Hl P1 Re) as N.
  pose proof (loop_touched ML _ _ _ Ho _ _ _ _ _ _ _ _ _ I2 H) as T.
  destruct (IH _ _ _ _ _ _ _ _ _ _ _ _ _ I2 N H Q) as (log & d & c' & l2 & s' & p & f & r0 & e0 & y & K1 & -> & K3 & K4).
  exists ((h0, v) :: log), ((h0, c) :: d), c', l2, s', p, f, r0, e0, y. split; [exact K1|]. split; [reflexivity|]. split; [|exact K4].
  constructor; auto. split; auto. exists w. split; auto. simpl. eapply readable_kept; eauto.
Qed.

(** Going on with the entries behind a field that was left anywhere. *)
Lemma onward_any ML trim t b s fuel en g r e x g' r' e' l en' :
  live t -> s_opts s = default_opts -> reached ML trim t b r -> st r <> AtEnd ->
  parts (head_block ML trim (delimiter b)) (delimiter b) (rem r) l ->
  with_entries ML trim s fuel en g r e = (x, g', r', e') -> got ML x = Some en' ->
  exists log d rest, en' = pushes ML (recount_fields ML en) log /\ l = d ++ rest /\
    Forall2 (saved_as (e_fs e')) log d /\ (x = Full en' -> rest = []).
Proof.
  intros Hl Ho R S P H G. unfold with_entries in H. destruct (read_entry ML trim r) as [res r2] eqn:E.
  pose proof (reached_inv ML _ _ _ _ R) as (J & _).
  pose proof (read_entry_keeps ML _ _ _ _ J E) as J2.
  pose proof (read_entry_ok ML _ _ _ _ _ _ _ R S P E) as N2.
  destruct res as [o|y| |].
  - destruct (loop_prefix_any ML _ _ _ _ _ Hl Ho _ _ _ _ _ _ _ _ _ _ J2 N2 H en' G) as (log & d & rest & Q1 & Q2 & Q3 & Q4 & _).
    exists log, d, rest. split; auto. split; auto. split; auto.
    clear - Q3. induction Q3 as [|hv hc log d (E1 & w & E2 & E3 & _) F IH]; constructor; auto. split; eauto.
  - exists [], [], l. assert (Z : en' = recount_fields ML en /\ x <> Full en').
    { destruct fuel as [|fuel]; cbn [entries_loop] in H; [injection H as <- _ _ _; discriminate G|].
      destruct (_ <? _)%N; injection H as <- _ _ _; injection G as <-; split; auto; discriminate. }
    destruct Z as [-> Z]. split; [reflexivity|]. split; [reflexivity|]. split; [constructor|]. intros Q. contradiction.
  - exfalso. apply (read_entry_inv ML trim r _ _ J) in E. tauto.
  - exfalso. apply (read_entry_inv ML trim r _ _ J) in E. tauto.
Qed.

(** A request whose saving stops inside a field [h]: the fields before it are saved; the field can be saved in any
    number of further attempts, with the part saved first it is as in [C101_field]; and whether or not they came
    to its end, [with_entries] goes on with the next field. *)
Theorem C101_request : forall ML trim t b s fuel en g e pe why g1 r1 e1 l h dest,
  live t -> s_opts s = default_opts ->
  parts (head_block ML trim (delimiter b)) (delimiter b) (stream t) l ->
  with_entries ML trim s fuel en g (with_body t b) e = (Part pe why, g1, r1, e1) ->
  pe_partial ML pe = Some (h, dest) ->
  exists log d c l', pe_entries ML pe = pushes ML (recount_fields ML en) log /\ l = d ++ (h, c) :: l' /\
    Forall2 (saved_as (e_fs e1)) log d /\
    forall as_ r2 e2, tries r1 e1 as_ r2 e2 ->
    (exists w lost wl, match dest with Some v => readable v (e_fs e2) = Some w | None => w = [] end /\
       (lost = [] \/ ((exists k, why = RIo (XDst k)) /\
          ((N.min (s_size_limit s) (s_threshold s) < U64MAX)%N ->
           (N.of_nat (length (w ++ lost)) <= N.min (s_size_limit s) (s_threshold s))%N))) /\
       Forall2 (fun sx p => left_by (e_fs e2) (snd sx) (fst p) /\ lost_by (fst sx) (snd sx) (fst p) (snd p)) as_ wl /\
       prefix_of (w ++ lost ++ in_order wl) (c ++ CRLF) /\
       (forall l1 s v, as_ = l1 ++ [(s, Full v)] -> padded c (w ++ lost ++ in_order wl))) /\
    forall s3 fuel3 en3 g3 e4 x g4 r4 e5 en4, s_opts s3 = default_opts ->
      with_entries ML trim s3 fuel3 en3 g3 r2 e4 = (x, g4, r4, e5) ->
      (x = Full en4 \/ exists pe why, x = Part pe why /\ en4 = pe_entries ML pe) ->
      exists log2 d2 rest, en4 = pushes ML (recount_fields ML en3) log2 /\ l' = d2 ++ rest /\
        Forall2 (saved_as (e_fs e5)) log2 d2 /\ (x = Full en4 -> rest = []).
Proof.
  intros ML trim t b s fuel en g e pe why g1 r1 e1 l h dest Hl Ho P H Q. unfold with_entries in H.
  destruct (read_entry ML trim (with_body t b)) as [res r0] eqn:E.
  assert (R0 : reached ML trim t b (with_body t b)) by (exists [], []; reflexivity).
  pose proof (read_entry_parts ML _ _ _ _ _ _ _ R0 ltac:(discriminate) (or_introl eq_refl) Hl P E) as N.
  pose proof (read_entry_keeps ML _ _ _ _ (inv_from_reader t b) E) as I1.
  destruct (loop_stopped_any ML _ _ _ _ _ Hl Ho _ _ _ _ _ _ _ _ _ _ _ _ _ I1 N H Q)
    as (log & d & c & l' & s' & p & f & q & e0 & y & K1 & K2 & K3 & Hf & Hc & P' & Ho' & Z1 & Z2 & K4 & K5).
  exists log, d, c, l'. split; auto. split; auto. split; auto.
  intros as_ r2 e2 T.
  assert (Nf : y <> SFuel) by (destruct dest; [subst y; discriminate|destruct K5 as (x & -> & _); discriminate]).
  pose proof (tries_more _ _ _ _ _ _ _ _ _ _ _ Ho' K4 Nf T) as T2.
  split.
  - destruct (C101_field _ _ _ _ _ _ _ _ _ _ _ Hf Hl Hc T2) as (wl & F & Pw & Pl).
    inversion F as [|? [w lost] ? wl2 (L1 & L2) F2]; subst wl; subst. cbn [fst snd] in L1, L2.
    change (in_order ((w, lost) :: wl2)) with ((w ++ lost) ++ in_order wl2) in *. rewrite <- app_assoc in *.
    exists w, lost, wl2. split; [destruct dest; [subst y; exact L1|destruct K5 as (x & -> & _); exact L1]|].
    split; [|split; auto; split; auto].
    + unfold lost_by in L2. rewrite Z1, Z2 in L2. destruct L2 as [->|((k & L2) & B)]; auto. right. split; auto. exists k.
      destruct dest as [v|]; [subst y|destruct K5 as (x & -> & ->)]; destruct L2 as [L2|(u & L2)]; try discriminate; now injection L2 as ->.
    + intros l1 s1 v1 ->. eapply (Pl (_ :: l1)). reflexivity.
  - intros s3 fuel3 en3 g3 e4 x g4 r4 e5 en4 Ho3 H3 Hx.
    assert (G : got ML x = Some en4) by (destruct Hx as [->|(pe' & why' & -> & ->)]; reflexivity).
    pose proof (at_field_inv _ _ _ _ _ _ Hf) as J. destruct (at_field_reached ML _ _ _ _ _ Hf) as (Rq & Sq & _).
    pose proof (reached_inv ML _ _ _ _ Rq) as (_ & _ & B & L & _).
    destruct (tries_moved _ _ _ _ _ T2 J (live_later _ _ L Hl)) as (wl & _ & M2 & _).
    destruct (moved_field ML _ _ _ _ _ _ _ Hf M2) as (_ & _ & S2 & _ & _ & _ & R2 & _).
    destruct (moved_skipped _ _ _ J Sq M2) as [K _]. rewrite B in K.
    eapply onward_any; eauto. eapply parts_skipped; eauto. discriminate.
Qed.

(** Three attempts on a field whose last CRLF is divided: each saves a part, the last one with the CRLF. *)
Definition again_chunks : transport :=
  [Chunk (bs "--b" ++ CRLF ++ toy_head (bs "a") ++ repeat 120%N 1200); Chunk (repeat 121%N 1100); Chunk (repeat 122%N 1050);
   Chunk (repeat 123%N 1100 ++ [CR]); Chunk ([LF] ++ bs "--b--" ++ CRLF)].

Example C101_example :
  let e := no_failures (fun q => if path_eq_dec q [bs "d"] then Some NDir else None) in
  let '(x1, g1, r1, e1) := with_entries toy true (mkSaver 1300 9 5000 TTry default_opts) 100 (entries_new toy [bs "d"] true) (repeat 7%N 12)
    (with_body again_chunks (bs "b")) e in
  let s2 := mkSaver 1060 9 0 TIgnore default_opts in
  let '(x2, r2, e2) := with_path s2 [bs "d"; bs "x"] 100 r1 e1 in
  let '(x3, r3, e3) := with_path saver_new [bs "d"; bs "y"] 100 r2 e2 in
  live again_chunks /\ tries r1 e1 [(s2, x2); (saver_new, x3)] r3 e3 /\
  match x1, x2, x3 with
  | Part pe RSize, Part v2 RSize, Full v3 =>
      match pe_partial toy pe with
      | Some (h, Some v1) => readable v1 (e_fs e3) = Some (repeat 120%N 1200 ++ repeat 121%N 1100) /\
          readable v2 (e_fs e3) = Some (repeat 122%N 1050) /\ readable v3 (e_fs e3) = Some (repeat 123%N 1100 ++ CRLF)
      | _ => False
      end
  | _, _, _ => False
  end.
Proof.
  cbv zeta.
  destruct (with_entries toy true (mkSaver 1300 9 5000 TTry default_opts) 100 (entries_new toy [bs "d"] true) (repeat 7%N 12)
    (with_body again_chunks (bs "b")) (no_failures (fun q => if path_eq_dec q [bs "d"] then Some NDir else None))) as [[[x1 g1] r1] e1] eqn:E1.
  destruct (with_path (mkSaver 1060 9 0 TIgnore default_opts) [bs "d"; bs "x"] 100 r1 e1) as [[x2 r2] e2] eqn:E2.
  destruct (with_path saver_new [bs "d"; bs "y"] 100 r2 e2) as [[x3 r3] e3] eqn:E3.
  split; [intros [H|[H|[H|[H|[H|[]]]]]]; discriminate|].
  assert (K : match x1, x2, x3 with
  | Part pe RSize, Part v2 RSize, Full v3 =>
      match pe_partial toy pe with
      | Some (h, Some v1) => readable v1 (e_fs e3) = Some (repeat 120%N 1200 ++ repeat 121%N 1100) /\
          readable v2 (e_fs e3) = Some (repeat 122%N 1050) /\ readable v3 (e_fs e3) = Some (repeat 123%N 1100 ++ CRLF)
      | _ => False
      end
  | _, _, _ => False
  end).
  { vm_compute in E1. injection E1 as <- <- <- <-. vm_compute in E2. injection E2 as <- <- <-. vm_compute in E3. injection E3 as <- <- <-.
    vm_compute. auto. }
  split; auto. econstructor; [reflexivity|exact E2| |econstructor; [reflexivity|exact E3| |constructor]].
  - intros ->. destruct x1 as [|? []| | |]; try contradiction.
  - intros ->. destruct x1 as [|? []| | |], x2 as [|? []| | |]; try contradiction.
Qed.
