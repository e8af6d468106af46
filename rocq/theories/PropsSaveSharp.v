(** Which bodies are saved exactly whatever the chunking (C98): those whose contents are all shorter than 1023 bytes. *)

From Verif Require Import Bytes BytesProofs Spec Io Boundary BoundaryProofs Utf8 Utf8Proofs Httparse HttparseProofs Field
  FieldProofs ContentProofs DataProofs ShortProofs EntryProofs ReaderProofs Drive DriveProofs ReachProofs Rand Fs Save SaveProofs PhaseProofs SaveFacts
  TextProofs Toy PropsReader PropsSave EntriesProofs CompleteProofs PropsEntries HeaderSpec HeaderProofs WireSpec Client ClientProofs WireProofs
  PropsClient Lazy LazyProofs PropsLazy Mock PropsMock Requests PropsRequests PropsUpload PropsShort PropsForeach PropsMinBuf PropsAny PropsAnyway PropsSharp.

(** ** Reading whole buffers *)

(** Fills, each followed by taking all of what was shown; in a text phase ([u]) taking less only if it is not UTF-8. *)
Inductive gulps : bool -> breader -> breader -> Prop :=
| gu_refl u r : gulps u r r
| gu_fill u r r1 x r2 : gulps u r r1 -> read_to_boundary r1 = (x, r2) -> gulps u r r2
| gu_all r r1 d r2 : gulps false r r1 -> read_to_boundary r1 = (Ok d, r2) -> gulps false r (consume (length d) r2)
| gu_text r r1 d r2 n : gulps true r r1 -> read_to_boundary r1 = (Ok d, r2) -> n <= length d -> utf8_string (firstn n d) ->
    (n < length d -> ~ utf8_string d) -> gulps true r (consume n r2).

Lemma gulps_moved u r r' : gulps u r r' -> inv r -> exists d, moved r d r'.
Proof.
  induction 1 as [u r|u r r1 x r2 G IH E|r r1 d r2 G IH E|r r1 d r2 n G IH E L U V]; intros Hi.
  - exists []. apply mv_refl.
  - destruct (IH Hi) as (d & Md). exists d. eapply mv_fill; eauto.
  - destruct (IH Hi) as (d' & Md). pose proof (moved_spec _ _ _ Md Hi) as (I1 & _).
    pose proof (fill_moved _ _ _ (length d) I1 E (le_n _)) as F. eexists. eapply moved_trans; eauto.
  - destruct (IH Hi) as (d' & Md). pose proof (moved_spec _ _ _ Md Hi) as (I1 & _).
    pose proof (fill_moved _ _ _ n I1 E L) as F. eexists. eapply moved_trans; eauto.
Qed.

(** What is buffered or to come up to the CR: [c] and the CR; the last chunk of it is [y]. *)
Definition waiting (M : nat) (y : bytes) (tz : transport) (r : breader) (c : bytes) : Prop :=
  exists ts, src r = ts ++ tz /\ buf r ++ stream ts = c ++ [CR] /\ (ts = [] \/ exists ts', ts = ts' ++ [Chunk y]) /\ M <= length c + 1.

Section Gulp.
Context (M : nat) (y : bytes) (tz : transport) (D post : bytes)
  (Hy : M <= length y) (HM : length D * 2 <= M) (HD : dashed D) (HC : ~ In CR D) (Etz : stream tz = LF :: D ++ post).

Lemma waiting_rem r c : waiting M y tz r c -> rem r = c ++ CRLF ++ D ++ post.
Proof. intros (ts & Es & Eb & _). unfold rem. rewrite Es, stream_app, app_assoc, Eb, Etz. now rewrite <- app_assoc. Qed.

Lemma fill_waiting r x r1 c : inv r -> bnd r = D -> minb r = M -> st r <> AtEnd -> waiting M y tz r c ->
  (forall i, occurs_at D (rem r) i -> length (c ++ CRLF) <= i) ->
  read_to_boundary r = (x, r1) -> waiting M y tz r1 c /\
  forall d, x = Ok d -> d = buf r1 /\ buf r1 = c ++ [CR] \/ exists c1, c = buf r1 ++ c1 /\ M <= length c1 + 1.
Proof.
  intros Hi HB Hm Hs W FS F. pose proof (waiting_rem _ _ W) as Er. destruct W as (ts & Es & Eb & Ht & Lc).
  pose proof (dashed_length _ HD) as LD.
  pose proof (read_to_boundary_spec _ _ _ Hi F) as (I1 & R1 & B1 & M1 & L1 & _ & K1 & K2 & X).
  assert (Nb : forall (b : bytes) w, rem r = b ++ w -> length b <= length c + 1 -> forall j, starts_with (skipn j b) D = false).
  { intros b w E Lb j. destruct (starts_with (skipn j b) D) eqn:Q; [|reflexivity]. exfalso.
    apply sw_iff in Q as (v & Q). assert (Lj : j <= length b).
    { destruct (le_lt_dec j (length b)); auto. rewrite skipn_all2 in Q by blia. destruct D; [cbn in LD; blia|discriminate]. }
    assert (O : occurs_at D (rem r) j).
    { exists (firstn j b), (v ++ w). rewrite firstn_length_le by exact Lj. split; auto.
      rewrite E. rewrite <- (firstn_skipn j b) at 1. rewrite Q, <- !app_assoc. reflexivity. }
    apply FS in O. rewrite app_length in O. cbn [length CRLF] in O.
    apply (f_equal (@length _)) in Q. rewrite skipn_length, app_length in Q. blia. }
  assert (St : forall q, inv q -> rem q = rem r -> bnd q = D -> st q <> AtEnd -> length (buf q) <= length c + 1 -> st q = Searching).
  { intros q (_ & _ & Iq) Rq Bq Sq Lq. destruct (st q) eqn:S0; auto; [|congruence]. exfalso.
    destruct Iq as (p & (_ & P & _) & _). rewrite Bq in P. rewrite (Nb (buf q) (stream (src q))) in P; [discriminate|now rewrite <- Rq|exact Lq]. }
  assert (Lb : M <= length (buf r ++ stream ts)) by (rewrite Eb, app_length; cbn [length]; blia).
  destruct (boundary_src _ _ _ F) as (e & Fe). pose proof Fe as Fe'. rewrite Es in Fe'.
  destruct (fill_keep _ _ _ _ _ _ _ _ (Nat.eq_le_incl _ _ Hm) Lb Fe') as (ts1 & E1).
  assert (Eb1 : buf r1 ++ stream ts1 = c ++ [CR]).
  { apply (app_inv_tail (stream tz)). rewrite <- app_assoc, <- stream_app, <- E1. change (buf r1 ++ stream (src r1)) with (rem r1). rewrite R1, Er, Etz.
    now rewrite <- app_assoc. }
  assert (Ht1 : ts1 = [] \/ exists ts', ts1 = ts' ++ [Chunk y]).
  { destruct (fill_reads _ _ _ _ _ _ Fe') as (used & Eu & _). rewrite E1, app_assoc in Eu. apply app_inv_tail in Eu.
    destruct ts1 as [|ev ts1 _] using rev_ind; [now left|right]. rewrite app_assoc in Eu.
    destruct Ht as [Ht|(ts' & Ht)]; rewrite Ht in Eu.
    - symmetry in Eu. apply app_eq_nil in Eu as [_ Eu]. discriminate.
    - apply app_inj_tail in Eu as [_ <-]. eauto. }
  split; [exists ts1; auto|]. intros d ->.
  assert (Lb1 : length (buf r1) <= length c + 1).
  { apply (f_equal (@length _)) in Eb1. rewrite !app_length in Eb1. cbn [length] in Eb1. blia. }
  assert (Sr1 : st r1 <> AtEnd).
  { destruct (st r) eqn:Sr; [apply K2; auto| |congruence]. destruct (K1 ltac:(discriminate)). congruence. }
  assert (S1 : st r1 = Searching) by (apply St; auto; congruence).
  assert (S0 : st r = Searching).
  { destruct (st r) eqn:Sr; auto; destruct (K1 ltac:(discriminate)); congruence. }
  destruct Ht1 as [->|(ts2 & ->)].
  - left. cbn [stream] in Eb1. rewrite app_nil_r in Eb1. split; [|exact Eb1].
    unfold read_to_boundary in F. rewrite Fe in F. destruct e as [kk|]; [discriminate|]. rewrite S0 in F.
    destruct (search_step (buf r1) (bnd r) (idx r)) as [[i s]|] eqn:SS; [|discriminate]. injection F as F0 F1.
    rewrite HB, Eb1 in SS. rewrite whole_yield in SS; auto.
    + injection SS as <- _. rewrite <- F0, Eb1. apply firstn_all.
    + intros j. apply (Nb _ (stream tz)); [|rewrite app_length; cbn [length]; blia]. rewrite Er, Etz. now rewrite <- app_assoc.
    + destruct Hi as (_ & Hi & _). assert (Lr : length (buf r) <= length (c ++ [CR])); [|blia]. rewrite <- Eb, app_length. blia.
  - right. rewrite stream_app in Eb1. cbn [stream] in Eb1. rewrite app_nil_r in Eb1.
    destruct y as [|y0 y' _] using rev_ind; [cbn in Hy; blia|]. rewrite !app_assoc in Eb1. apply app_inj_tail in Eb1 as [<- _].
    exists (stream ts2 ++ y'). split; [now rewrite <- app_assoc|]. rewrite app_length in *. cbn [length] in Hy. blia.
Qed.

End Gulp.

(** The loops of [with_path] read that way when the field is saved in full. *)
Lemma copy_gulps {W} (wb : W -> bytes -> sres nat nat * W) : (forall w x n w', wb w x = (Full n, w') -> n = length x) ->
  forall fuel total w r x w' r' r0, try_read_buf wb fuel total w r = (x, w', r') -> gulps false r0 r ->
  match x with
  | Full _ => gulps false r0 r'
  | Part _ _ => (forall w z n why w', wb w z = (Part n why, w') -> n = 0) -> gulps false r0 r'
  | _ => True
  end.
Proof.
  intros Hw. induction fuel as [|fuel IH]; intros total w r x w' r' r0; cbn [try_read_buf]; [intros H; injection H as <- <- <-; auto|].
  destruct (read_to_boundary r) as [z r1] eqn:E. intros H G. pose proof (gu_fill _ _ _ _ _ G E) as G1.
  destruct z as [[|a d]|e| |].
  - injection H as <- <- <-. exact G1.
  - destruct (wb w (a :: d)) as [q w1] eqn:F. destruct q as [n|n why|e| |].
    + rewrite (Hw _ _ _ _ F) in H. eapply IH; [exact H|]. exact (gu_all _ _ _ _ G E).
    + injection H as <- <- <-. intros Hp. rewrite (Hp _ _ _ _ _ F), consume_0. exact G1.
    + injection H as <- <- <-. auto.
    + injection H as <- <- <-. exact I.
    + injection H as <- <- <-. exact I.
  - destruct (iokind_eqb (berr_kind e) KInterrupted); [eapply IH; eauto|].
    destruct (total =? 0)%N; injection H as <- <- <-; auto.
  - injection H as <- <- <-. exact I.
  - injection H as <- <- <-. exact I.
Qed.

Lemma limited_whole {W} limit (wb : W -> bytes -> sres nat nat * W) : (forall w x n w', wb w x = (Full n, w') -> n = length x) ->
  forall w x n w', limited limit wb w x = (Full n, w') -> n = length x.
Proof.
  intros Hw [cp w] x n [cp' w']. unfold limited. destruct (_ <? _)%N; [discriminate|]. destruct (wb w x) as [q w1] eqn:F.
  intros H; injection H as -> <- <-. eauto.
Qed.

Lemma mem_gulps s fuel ob r x r' r0 : save_mem s fuel ob r = (x, r') -> gulps false r0 r ->
  match x with Full _ | Part _ RSize => gulps false r0 r' | _ => True end.
Proof.
  unfold save_mem, try_copy_limited.
  match goal with |- context [try_read_buf ?a ?b ?c ?d ?e] => destruct (try_read_buf a b c d e) as [[q [cp w]] r1] eqn:E end.
  intros H G. injection H as <- <-.
  apply (copy_gulps _) with (r0 := r0) in E; [|apply limited_whole; intros w0 z n w1 K; now injection K as <- _|exact G].
  destruct q as [n|n why|e| |]; auto.
  - destruct why; auto. apply E. intros [cp0 w0] z n0 why [cp1 w1]. unfold limited, mem_buf. destruct (_ <? _)%N; [|discriminate].
    intros K. now injection K as <- _ _ _.
  - now destruct w.
Qed.

Lemma file_whole w x n w' : Save.write_file w x = (Full n, w') -> n = length x.
Proof.
  destruct w as [h e]. unfold Save.write_file. destruct (try_write_all (e_w e) x 0) as [q ws] eqn:E. intros H. injection H as H _. subst q.
  apply try_write_all_spec in E. cbn in E. tauto.
Qed.

Lemma disk_gulps s p fuel ob r e v r' e' r0 : save_disk s p fuel ob r e = (Full v, r', e') -> gulps false r0 r -> gulps false r0 r'.
Proof.
  unfold save_disk. destruct (create_dir_all p e) as [[k|] e1]; [discriminate|].
  destruct (open_file (s_opts s) p e1) as [[h|k] e2]; [|discriminate].
  destruct (Save.write_file (h, e2) ob) as [q [h1 e3]]. destruct q as [n|n why|k| |]; cbn [smap]; try discriminate.
  destruct (write_to Save.write_file s fuel (h1, e3) r) as [[z [h4 e4]] r1] eqn:E. intros H G. destruct z; cbn [smap] in H; try discriminate.
  injection H as _ <- _. unfold write_to in E. destruct (s_size_limit s <? U64MAX)%N.
  - unfold try_copy_limited in E.
    match type of E with context [try_read_buf ?a ?b ?c ?d ?e] => destruct (try_read_buf a b c d e) as [[q [cp w]] r2] eqn:F end.
    injection E as -> _ <-. apply (copy_gulps _ (limited_whole _ _ file_whole)) with (r0 := r0) in F; auto.
  - apply (copy_gulps _ file_whole) with (r0 := r0) in E; auto.
Qed.

Lemma rest_gulps s p fuel ob r e v r' e' : save_rest s p fuel ob r e = (Full v, r', e') -> gulps false r r'.
Proof.
  unfold save_rest. destruct (save_mem s fuel ob r) as [q r1] eqn:E. apply mem_gulps with (r0 := r) in E; [|apply gu_refl].
  destruct q as [w|w why|k| |]; try discriminate; [intros H; injection H as _ <- _; exact E|].
  destruct why; try discriminate. destruct (cmp_size_limit s (length w)); [discriminate|]. intros H. eapply disk_gulps; eauto.
Qed.

Lemma text_loop lim : forall fuel total w r x w' r' r0, try_read_buf (limited lim text_buf) fuel total w r = (x, w', r') -> gulps true r0 r ->
  match x with Full _ | Part _ _ => gulps true r0 r' | _ => True end.
Proof.
  induction fuel as [|fuel IH]; intros total w r x w' r' r0; cbn [try_read_buf]; [intros H; injection H as <- _ _; auto|].
  destruct (read_to_boundary r) as [z r3] eqn:E. intros H G. pose proof (gu_fill _ _ _ _ _ G E) as G1.
  destruct z as [[|a d]|e| |].
  - injection H as <- _ <-. exact G1.
  - unfold limited in H at 1. destruct w as [cp0 w0]. destruct (_ <? _)%N; [injection H as <- _ <-; now rewrite consume_0|].
    unfold text_buf in H at 1. destruct (valid_utf8 (a :: d)) eqn:V.
    + eapply IH; [exact H|]. eapply gu_text; [exact G|exact E|blia| |blia]. rewrite firstn_all. now apply valid_utf8_iff.
    + assert (V' : ~ utf8_string (a :: d)) by (intros U; apply valid_utf8_iff in U; congruence).
      destruct (length (a :: d) <? 4).
      * injection H as <- _ <-. now rewrite consume_0.
      * eapply IH; [exact H|]. eapply gu_text; [exact G|exact E|apply valid_up_to_le|apply valid_prefix_utf8|auto].
  - destruct (iokind_eqb (berr_kind e) KInterrupted); [eapply IH; eauto|].
    destruct (total =? 0)%N; injection H as <- _ <-; auto.
  - injection H as <- _ _. exact I.
  - injection H as <- _ _. exact I.
Qed.

Lemma text_gulps s fuel r x r' : save_text s fuel r = (x, r') -> match x with Full _ | Part _ RSize | Part _ RUtf8 => gulps true r r' | _ => True end.
Proof.
  unfold save_text, try_copy_limited.
  match goal with |- context [try_read_buf ?a ?b ?c ?d ?e] => destruct (try_read_buf a b c d e) as [[q [cp w]] r1] eqn:E end.
  intros H. injection H as <- <-. apply text_loop with (r0 := r) in E; [|apply gu_refl]. destruct q as [|? []| | |]; auto.
Qed.

Lemma path_gulps s p fuel r e v r' e' : with_path s p fuel r e = (Full v, r', e') ->
  gulps false r r' \/ s_policy s <> TIgnore /\ exists r1, gulps true r r1 /\ gulps false r1 r'.
Proof.
  unfold with_path. destruct (save_text s fuel r) as [q r1] eqn:E. apply text_gulps in E.
  assert (K : forall P, P <> TIgnore ->
    match q with
    | Full t => (Full (SText t), r1, e)
    | Part t RSize => if cmp_size_limit s (length t) then (Part (SText t) RSize, r1, e) else save_rest s p fuel t r1 e
    | Part t RUtf8 => match P with TForce => (Part (SText t) RUtf8, r1, e) | _ => save_rest s p fuel t r1 e end
    | Part t why => (Part (SText t) why, r1, e)
    | SErr x => (SErr x, r1, e)
    | SPanic => (SPanic, r1, e)
    | SFuel => (SFuel, r1, e)
    end = (Full v, r', e') -> exists r1, gulps true r r1 /\ gulps false r1 r').
  { intros P NP. destruct q as [w|w why|k| |]; try discriminate.
    - intros H; injection H as _ <- _. exists r1. split; [exact E|apply gu_refl].
    - destruct why; try discriminate.
      + destruct (cmp_size_limit s (length w)); [discriminate|]. intros H. exists r1. split; [exact E|]. eapply rest_gulps; eauto.
      + destruct P; [|discriminate|congruence]. intros H. exists r1. split; [exact E|]. eapply rest_gulps; eauto. }
  destruct (s_policy s) eqn:P.
  - intros H. right. split; [discriminate|]. apply (K TTry); [discriminate|exact H].
  - intros H. right. split; [discriminate|]. apply (K TForce); [discriminate|exact H].
  - intros H. left. eapply rest_gulps; eauto.
Qed.

Section Field.
Context (ML : mime_lib) (trim : bool) (t : transport) (b : bytes) (y : bytes) (tz : transport) (post : bytes)
  (Hl : live t) (HC : ~ In CR b) (Hy : effective (delimiter b) 1024 <= length y) (Etz : stream tz = LF :: delimiter b ++ post).

Let M := effective (delimiter b) 1024.
Let D := delimiter b.

Lemma delimiter_no_cr : ~ In CR (delimiter b).
Proof. unfold delimiter. intros Z. apply in_app_or in Z as [Z|Z]; [|auto]. destruct Z as [Z|[Z|[]]]; discriminate. Qed.

(** Either the CR is still to come, or it was taken without the LF. *)
Lemma gulps_waiting : forall u r r', gulps u r r' -> forall h r0 m0 c, at_field ML trim t b h r0 -> moved r0 m0 r -> waiting M y tz r c ->
  (forall i, occurs_at D (rem r) i -> length (c ++ CRLF) <= i) -> (u = true -> utf8_string c) ->
  (exists d c', c = d ++ c' /\ waiting M y tz r' c' /\ (u = true -> utf8_string c')) \/ length (rem r') <= 1 + length (D ++ post).
Proof.
  assert (HM : length D * 2 <= M) by (unfold M, D, effective; blia).
  assert (HD : dashed D) by (eexists; reflexivity).
  assert (Step : forall u r r1 x r2 h r0 m0 c, gulps u r r1 -> at_field ML trim t b h r0 -> moved r0 m0 r -> waiting M y tz r c ->
    (forall i, occurs_at D (rem r) i -> length (c ++ CRLF) <= i) ->
    (exists d c', c = d ++ c' /\ waiting M y tz r1 c' /\ (u = true -> utf8_string c')) \/ length (rem r1) <= 1 + length (D ++ post) ->
    read_to_boundary r1 = (x, r2) ->
    (inv r2 /\ exists d c', c = d ++ c' /\ waiting M y tz r2 c' /\ (u = true -> utf8_string c') /\
       forall w, x = Ok w -> w = firstn (length w) (buf r2) /\ length w = idx r2 /\
         (w = c' ++ [CR] /\ buf r2 = c' ++ [CR] \/ exists c1, c' = buf r2 ++ c1 /\ M <= length c1 + 1)) \/
    inv r2 /\ length (rem r2) <= 1 + length (D ++ post)).
  { intros u r r1 x r2 h r0 m0 c G Hf Mv0 W FS K E. pose proof (moved_spec _ _ _ Mv0 (at_field_inv ML _ _ _ _ _ Hf)) as (I0 & _).
    destruct (gulps_moved _ _ _ G I0) as (m & Mv). pose proof (moved_spec _ _ _ Mv I0) as (_ & R1 & _).
    destruct (moved_field ML _ _ _ _ _ _ _ Hf (moved_trans _ _ _ _ _ Mv0 Mv)) as (I1 & _ & S1 & B1 & _ & _ & _ & _ & M1).
    destruct (at_field_reached ML _ _ _ _ _ Hf) as (R0 & _). pose proof (reached_inv ML _ _ _ _ R0) as (_ & _ & B0 & _).
    pose proof (read_to_boundary_spec _ _ _ I1 E) as (I2 & R2 & _ & _ & _ & _ & _ & _ & X).
    destruct K as [(d & c' & -> & W1 & U1)|K]; [left|right; split; auto; now rewrite R2]. split; auto.
    assert (Mr : minb r1 = M) by (rewrite M1, B0; unfold M, effective; change MIN_BUF_SIZE with 1024; blia).
    assert (FS1 : forall i, occurs_at D (rem r1) i -> length (c' ++ CRLF) <= i).
    { intros i O. assert (Em : d = m).
      { rewrite (waiting_rem M y tz D post Etz _ _ W), (waiting_rem M y tz D post Etz _ _ W1), <- app_assoc in R1. now apply app_inv_tail in R1. }
      subst m. assert (O' : occurs_at D (rem r) (length d + i)).
      { destruct O as (a & v & Ea & La). exists (d ++ a), v. rewrite R1, Ea, app_length, <- app_assoc. split; auto. }
      apply FS in O'. rewrite <- app_assoc, app_length in O'. blia. }
    destruct (fill_waiting M y tz D post Hy HM HD delimiter_no_cr Etz r1 x r2 c' I1 B1 Mr S1 W1 FS1 E) as (W2 & Q).
    exists d, c'. split; auto. split; auto. split; auto. intros w ->. destruct X as (Ew & _).
    assert (Lw : length w = idx r2) by (rewrite Ew, firstn_length; destruct I2 as (_ & I2 & _); blia).
    split; [rewrite Ew at 1; now rewrite Lw|]. split; [exact Lw|].
    destruct (Q w eq_refl) as [[Q1 Q2]|Q1]; [left; split; congruence|right; exact Q1]. }
  assert (Less : forall n r, inv r -> length (rem r) <= 1 + length (D ++ post) -> length (rem (consume n r)) <= 1 + length (D ++ post)).
  { intros n r I1 L1. pose proof (consume_spec n _ I1) as (_ & R & _). rewrite R, app_length in L1. blia. }
  assert (Take : forall r n c c1, inv r -> waiting M y tz r c -> c = buf r ++ c1 -> M <= length c1 + 1 -> n <= idx r ->
    waiting M y tz (consume n r) (skipn n c)).
  { intros r n c c1 I1 (ts & E1 & E2 & E3 & E4) -> L1 Ln.
    pose proof (consume_spec n _ I1) as (_ & _ & _ & _ & Es & _). rewrite E1 in Es. exists ts. split; auto.
    assert (Lb : n <= length (buf r)) by (destruct I1 as (_ & I1 & _); blia).
    assert (Eb : buf (consume n r) = skipn n (buf r)) by (unfold consume; cbn [buf]; now rewrite Nat.min_l by exact Ln).
    rewrite Eb, skipn_app. replace (n - length (buf r)) with 0 by blia. cbn [skipn].
    split; [|split; [exact E3|rewrite app_length; blia]].
    rewrite <- app_assoc in E2 |- *. apply app_inv_head in E2. now rewrite E2. }
  induction 1 as [v r|v r r1 x r2 G IH E|r r1 d r2 G IH E|r r1 d r2 n G IH E L U V]; intros h r0 m0 c Hf Mv W FS Hu.
  - left. exists [], c. auto.
  - destruct (Step _ _ _ _ _ _ _ _ _ G Hf Mv W FS (IH _ _ _ _ Hf Mv W FS Hu) E) as [(_ & d & c' & -> & W2 & U2 & _)|[_ K]]; [left; eauto|right; exact K].
  - destruct (Step _ _ _ _ _ _ _ _ _ G Hf Mv W FS (IH _ _ _ _ Hf Mv W FS Hu) E) as [(I2 & d' & c' & -> & W2 & _ & Q)|[I2 K]]; [|right; now apply Less].
    destruct (Q d eq_refl) as (Ed & Ld & [[Q1 Q2]|(c1 & Q1 & Q2)]).
    + right. pose proof (consume_spec (length d) _ I2) as (_ & R & _). rewrite Ld, Nat.min_id in R.
      apply (f_equal (@length _)) in R. rewrite app_length in R.
      rewrite (waiting_rem M y tz D post Etz _ _ W2) in R. rewrite firstn_length, Q2 in R.
      assert (Lc : idx r2 = length (c' ++ [CR])) by (rewrite <- Ld, Q1; reflexivity).
      rewrite <- Ld in R. rewrite !app_length in *. cbn [length CRLF] in *. blia.
    + left. exists (d' ++ firstn (length d) c'), (skipn (length d) c'). rewrite <- app_assoc, firstn_skipn. split; auto. split; [|discriminate].
      eapply Take; eauto. blia.
  - destruct (Step _ _ _ _ _ _ _ _ _ G Hf Mv W FS (IH _ _ _ _ Hf Mv W FS Hu) E) as [(I2 & d' & c' & -> & W2 & U2 & Q)|[I2 K]]; [|right; now apply Less].
    destruct (Q d eq_refl) as (Ed & Ld & [[Q1 Q2]|(c1 & Q1 & Q2)]).
    + right. assert (n = length d) as ->.
      { destruct (Nat.eq_dec n (length d)) as [|Nn]; auto. exfalso. apply V; [blia|]. rewrite Q1. apply utf8_string_app; auto.
        apply valid_utf8_iff. reflexivity. }
      pose proof (consume_spec (length d) _ I2) as (_ & R & _). rewrite Ld, Nat.min_id in R.
      apply (f_equal (@length _)) in R. rewrite app_length in R.
      rewrite (waiting_rem M y tz D post Etz _ _ W2) in R. rewrite firstn_length, Q2 in R.
      assert (Lc : idx r2 = length (c' ++ [CR])) by (rewrite <- Ld, Q1; reflexivity).
      rewrite <- Ld in R. rewrite !app_length in *. cbn [length CRLF] in *. blia.
    + left. exists (d' ++ firstn n c'), (skipn n c'). rewrite <- app_assoc, firstn_skipn. split; auto. split; [eapply Take; eauto; blia|].
      intros _. apply (utf8_cancel (firstn n c')); [|rewrite firstn_skipn; auto].
      rewrite Q1, firstn_app. rewrite Ed in U. rewrite firstn_firstn, Nat.min_l in U by exact L.
      replace (n - length (buf r2)) with 0 by (destruct I2 as (_ & I2 & _); blia). cbn [firstn]. now rewrite app_nil_r.
Qed.


(** A field with that end, saved in full. *)
Lemma field_surplus h r ts s p fuel e v r' e' c : at_field ML trim t b h r -> src r = ts ++ tz -> held M y r ts ->
  rem r = c ++ CRLF ++ D ++ post -> content D (rem r) c -> M <= length c + 1 -> s_opts s = default_opts -> (s_policy s <> TIgnore -> utf8_string c) ->
  with_path s p fuel r e = (Full v, r', e') -> readable v (e_fs e') = Some (c ++ CRLF).
Proof.
  intros Hf Es Hh Er Hc Lc Ho Hu H. pose proof (at_field_inv ML _ _ _ _ _ Hf) as I0.
  assert (W : waiting M y tz r c).
  { exists ts. split; auto. split; [|split; [|exact Lc]].
    - apply (app_inv_tail (stream tz)). rewrite <- app_assoc, <- stream_app, <- Es. change (buf r ++ stream (src r)) with (rem r).
      rewrite Er, Etz. now rewrite <- app_assoc.
    - destruct Hh as [[-> _]|Hh]; auto. }
  assert (FS : forall i, occurs_at D (rem r) i -> length (c ++ CRLF) <= i).
  { destruct Hc as (pre & post1 & (F1 & F2) & F3). destruct F3 as [F3|[F3 _]].
    - intros i Hi. rewrite <- F3. now apply F2.
    - exfalso. subst pre. rewrite Er in F1. apply app_inv_head in F1. discriminate. }
  assert (K : (exists d c', c = d ++ c' /\ waiting M y tz r' c') \/ length (rem r') <= 1 + length (D ++ post)).
  { destruct (path_gulps _ _ _ _ _ _ _ _ H) as [G|(NP & r1 & G & G')].
    - destruct (gulps_waiting _ _ _ G h r [] c Hf (mv_refl r) W FS) as [(d & c' & E1 & W1 & _)|K]; [discriminate|left; eauto|right; exact K].
    - destruct (gulps_moved _ _ _ G I0) as (m & Mv). pose proof (moved_spec _ _ _ Mv I0) as (I1 & R1 & _).
      destruct (gulps_waiting _ _ _ G h r [] c Hf (mv_refl r) W FS) as [(d & c' & -> & W1 & _)|K]; [auto| |].
      + assert (Em : d = m).
        { rewrite (waiting_rem M y tz D post Etz _ _ W), (waiting_rem M y tz D post Etz _ _ W1), <- app_assoc in R1. now apply app_inv_tail in R1. }
        subst m.
        assert (FS1 : forall i, occurs_at D (rem r1) i -> length (c' ++ CRLF) <= i).
        { intros i O. assert (O' : occurs_at D (rem r) (length d + i)).
          { destruct O as (a & q & Ea & La). exists (d ++ a), q. rewrite R1, Ea, app_length, <- app_assoc. split; auto. }
          apply FS in O'. rewrite <- app_assoc, app_length in O'. blia. }
        destruct (gulps_waiting _ _ _ G' h r d c' Hf Mv W1 FS1) as [(d2 & c2 & -> & W2 & _)|K]; [discriminate| |right; exact K].
        left. exists (d ++ d2), c2. split; [now rewrite app_assoc|exact W2].
      + right. destruct (gulps_moved _ _ _ G' I1) as (m' & Mv'). pose proof (moved_spec _ _ _ Mv' I1) as (_ & R2 & _).
        rewrite R2, app_length in K. blia. }
  apply full_ended in H as (w & Hw & En & _); auto. rewrite Hw. f_equal.
  destruct (ended_padded ML _ _ _ _ _ _ _ _ Hf Hl En Hc) as [[Pw|Pw] _]; [exfalso|exact Pw]. subst w.
  pose proof (moved_spec _ _ _ (ended_moved _ _ _ En) I0) as (_ & R & _).
  rewrite Er in R. apply app_inv_head in R.
  destruct K as [(d & c' & E1 & W1)|K].
  - rewrite (waiting_rem M y tz D post Etz _ _ W1) in R. destruct W1 as (_ & _ & _ & _ & W1).
    apply (f_equal (@length _)) in R. rewrite !app_length in R. assert (LM : 1024 <= M) by (unfold M, effective; blia). blia.
  - rewrite <- R, app_length in K. cbn [length CRLF] in K. blia.
Qed.

Lemma moved_nsteps r d r' : moved r d r' -> nsteps r r'.
Proof. induction 1 as [r|r d r1 x r2 G IH E|n r d r1 x r2 G IH E L]; eauto using n_refl, n_fill, n_cons. Qed.

Lemma step_held h r ts s en fuel g e v g1 r1 e1 : at_field ML trim t b h r -> src r = ts ++ tz -> held M y r ts ->
  save_field ML s h en fuel g r e = (Full v, g1, r1, e1) -> M + length (stream tz) <= length (rem r1) ->
  exists ts1, src r1 = ts1 ++ tz /\ held M y r1 ts1.
Proof.
  intros Hf Es Hh H Lr. pose proof (at_field_inv ML _ _ _ _ _ Hf) as I0. apply save_field_path in H as [_ H].
  apply with_path_moved in H as [d Mv]; auto.
  destruct (at_field_reached ML _ _ _ _ _ Hf) as (R0 & _ & M0). pose proof (reached_inv ML _ _ _ _ R0) as (_ & _ & B0 & _).
  destruct (nsteps_held M y tz _ _ (moved_nsteps _ _ _ Mv) I0) with (ts := ts) as (_ & ts1 & E1 & H1); eauto.
  rewrite M0, B0. unfold M, effective. change MIN_BUF_SIZE with 1024. blia.
Qed.

(** Where the loop is: at the field [hc], or at an earlier one. *)
Definition before (r : breader) (res : res eerr (option (field_headers ML))) (l1 : list (field_headers ML * bytes)) (hc : field_headers ML * bytes)
    (l2 : list (field_headers ML * bytes)) (q : bytes) : Prop :=
  exists h c ts, res = Ok (Some h) /\ at_field ML trim t b h r /\ content D (rem r) c /\ src r = ts ++ tz /\ held M y r ts /\
    match l1 with
    | [] => hc = (h, c) /\ rem r = q /\ parts (head_block ML trim D) D q l2
    | hc0 :: l1' => hc0 = (h, c) /\ form_at (head_block ML trim D) D (rem r) l1' hc l2 q
    end.

Lemma loop_surplus s (Hq : quiet t) (Ho : s_opts s = default_opts) (hc : field_headers ML * bytes) l2 q :
  q = snd hc ++ CRLF ++ D ++ post -> M <= length (snd hc) + 1 -> (Field.is_text ML (fst hc) = true -> s_policy s <> TIgnore -> utf8_string (snd hc)) ->
  forall fuel l1 res en g r e en' g' r' e', before r res l1 hc l2 q ->
  entries_loop ML trim s fuel res en g r e = (Full en', g', r', e') ->
  exists log1 v log2, en' = pushes ML en (log1 ++ (fst hc, v) :: log2) /\ Forall2 (saved_as (e_fs e')) log1 l1 /\
    Forall2 (saved_as (e_fs e')) log2 l2 /\ readable v (e_fs e') = Some (snd hc ++ CRLF).
Proof.
  intros Eq Lc Hu.
  assert (Lq : M + length (stream tz) <= length q).
  { rewrite Eq, Etz, !app_length. fold D. cbn [length CRLF]. rewrite app_length. blia. }
  induction fuel as [|fuel IH]; intros l1 res en g r e en' g' r' e'; cbn [entries_loop]; [discriminate|].
  intros (h & c & ts & -> & Hf & Hc & Es & Hh & K).
  destruct (en_count ML en <? s_count_limit s)%N; [|discriminate].
  destruct (save_field ML s h en (S fuel) g r e) as [[[z g1] r1] e1] eqn:E. destruct z as [v|v why|k| |]; try discriminate.
  destruct (read_entry ML trim r1) as [res1 r2] eqn:Re. intros H.
  destruct l1 as [|hc0 l1].
  - destruct K as (-> & Er & P). cbn [fst snd] in *. rewrite <- Er in P.
    destruct (save_step_any ML _ _ _ _ _ _ _ _ _ _ _ _ _ _ _ _ Hf Hl Ho Hc P E) as (_ & R1 & S1 & Z1 & P1).
    assert (Rd : readable v (e_fs e1) = Some (c ++ CRLF)).
    { pose proof (save_field_path ML _ _ _ _ _ _ _ _ _ _ _ E) as [_ E'].
      eapply (field_surplus h r ts _ _ _ _ _ _ _ c Hf Es Hh); [congruence|exact Hc|exact Lc| | |exact E'].
      - exact Ho.
      - cbn [s_policy]. destruct (Field.is_text ML h); [auto|congruence]. }
    pose proof (reached_inv ML _ _ _ _ R1) as (I1 & _).
    pose proof (read_entry_keeps ML _ _ _ _ I1 Re) as I2.
    pose proof (read_entry_parts ML _ _ _ _ _ _ _ R1 S1 (or_intror Z1) Hl P1 Re) as Nx.
    pose proof (loop_touched ML _ _ _ Ho _ _ _ _ _ _ _ _ _ I2 H) as T.
    destruct (loop_prefix_any ML _ _ _ _ _ Hl Ho _ _ _ _ _ _ _ _ _ _ I2 Nx H en' eq_refl) as (log & dn & rest & -> & E2 & F & Q1 & _).
    rewrite (Q1 eq_refl), app_nil_r in E2. subst dn.
    exists [], v, log. split; [reflexivity|]. split; [constructor|]. split; [|eapply readable_kept; eauto].
    clear -F. induction F as [|hv hc0 lv lc (E1 & w & E2 & E3 & _) F IH]; constructor; auto. split; eauto.
  - destruct K as (-> & Fm).
    destruct (save_step_any ML _ _ _ _ _ _ _ _ _ _ _ _ _ _ _ _ Hf Hl Ho Hc (form_parts _ _ _ _ _ _ _ Fm) E) as ((w & Rw & Pw & _) & R1 & S1 & Z1 & P1).
    assert (Fm1 : form_at (head_block ML trim D) D (rem r1) l1 hc l2 q).
    { pose proof (save_field_path ML _ _ _ _ _ _ _ _ _ _ _ E) as [_ E'].
      destruct (at_field_reached ML _ _ _ _ _ Hf) as (R0 & S0 & _). pose proof (reached_inv ML _ _ _ _ R0) as (I0 & _ & B0 & _).
      apply with_path_moved in E' as [d Mv]; auto. destruct (moved_skipped _ _ _ I0 S0 Mv) as [Q _]. rewrite B0 in Q.
      eapply form_skipped; eauto. discriminate. }
    assert (Ls : forall R lx, form_at (head_block ML trim D) D R lx hc l2 q -> M + length (stream tz) <= length R).
    { intros R lx F. destruct (form_suffix _ _ _ _ _ _ _ F) as (u & ->). rewrite app_length. blia. }
    destruct (step_held _ _ _ _ _ _ _ _ _ _ _ _ Hf Es Hh E (Ls _ _ Fm1)) as (ts1 & Es1 & Hh1).
    assert (B1 : before r2 res1 l1 hc l2 q).
    { inversion Fm1 as [R pre x rest h1 c1 l0 FS Hx Hc1 P|R pre x rest h1 c1 l0 hc1 l3 q0 FS Hx Hc1 Fm2]; subst.
      - destruct (entry_held ML trim t b (fun _ => M + length y) y tz Hl Hq Hy (fun _ => le_n _) r1 ts1 pre x _ h1 c1 l2 R1 S1 (or_intror Z1) FS Hx Hc1 P Es1 Hh1 Lq)
          as (r3 & ts3 & E3 & R3 & Hf3 & Hc3 & Es3 & Hh3).
        rewrite E3 in Re. injection Re as <- <-. exists h1, c1, ts3. split; auto. split; auto. split; [unfold D; now rewrite R3|]. auto.
      - destruct (entry_held ML trim t b (fun _ => M + length y) y tz Hl Hq Hy (fun _ => le_n _) r1 ts1 pre x rest h1 c1 _ R1 S1 (or_intror Z1) FS Hx Hc1
          (form_parts _ _ _ _ _ _ _ Fm2) Es1 Hh1 (Ls _ _ Fm2)) as (r3 & ts3 & E3 & R3 & Hf3 & Hc3 & Es3 & Hh3).
        rewrite E3 in Re. injection Re as <- <-. exists h1, c1, ts3. split; auto. split; auto. split; [unfold D; now rewrite R3|].
        split; auto. split; auto. split; auto. now rewrite R3. }
    pose proof (reached_inv ML _ _ _ _ R1) as (I1 & _). pose proof (read_entry_keeps ML _ _ _ _ I1 Re) as I2.
    pose proof (loop_touched ML _ _ _ Ho _ _ _ _ _ _ _ _ _ I2 H) as T.
    destruct (IH _ _ _ _ _ _ _ _ _ _ B1 H) as (log1 & v1 & log2 & -> & F1 & F2 & Rd).
    exists ((h, v) :: log1), v1, log2. split; [reflexivity|]. split; [|auto].
    constructor; auto. split; auto. exists w. cbn [snd]. split; [eapply readable_kept; eauto|exact Pw].
Qed.

End Field.

(** ** C98 *)

(** A body saved in full from a chunking in which a chunk of at least the minimum buffer size ends between the CR and the LF after a
    content that is long enough (and UTF-8, if it is tried as text): that field is saved with the CRLF, whatever the other chunks,
    the limits, the threshold between memory and disk, and the short or interrupted writes are. *)
Theorem C98_surplus : forall ML trim t b s fuel en g e en' g' r' e' ts y tz post l1 h c l2,
  live t -> quiet t -> ~ In CR b -> t = ts ++ Chunk y :: tz -> stream tz = LF :: delimiter b ++ post ->
  form_at (head_block ML trim (delimiter b)) (delimiter b) (stream t) l1 (h, c) l2 (c ++ CRLF ++ delimiter b ++ post) ->
  effective (delimiter b) 1024 <= length y -> effective (delimiter b) 1024 <= length c + 1 ->
  (Field.is_text ML h = true -> s_policy s <> TIgnore -> utf8_string c) -> s_opts s = default_opts ->
  with_entries ML trim s fuel en g (with_body t b) e = (Full en', g', r', e') ->
  exists log1 v log2, en' = pushes ML (recount_fields ML en) (log1 ++ (h, v) :: log2) /\ readable v (e_fs e') = Some (c ++ CRLF) /\
    Forall2 (saved_as (e_fs e')) log1 l1 /\ Forall2 (saved_as (e_fs e')) log2 l2.
Proof.
  intros ML trim t b s fuel en g e en' g' r' e' ts y tz post l1 h c l2 Hl Hq HC Et Etz Fm Hy Lc Hu Ho H.
  unfold with_entries in H. destruct (read_entry ML trim (with_body t b)) as [res r1] eqn:Re.
  assert (R0 : reached ML trim t b (with_body t b)) by (exists [], []; reflexivity).
  set (M := effective (delimiter b) 1024) in *. set (q := c ++ CRLF ++ delimiter b ++ post) in *.
  assert (Lq : M + length (stream tz) <= length q).
  { unfold q. rewrite Etz, !app_length. cbn [length CRLF]. rewrite app_length. blia. }
  assert (Es : src (with_body t b) = (ts ++ [Chunk y]) ++ tz) by (rewrite <- app_assoc; exact Et).
  assert (Hh : held M y (with_body t b) (ts ++ [Chunk y])) by (right; eauto).
  assert (B : before ML trim t b y tz r1 res l1 (h, c) l2 q).
  { change (stream t) with (rem (with_body t b)) in Fm.
    inversion Fm as [R pre x rest h1 c1 l0 FS Hx Hc1 P|R pre x rest h1 c1 l0 hc1 l3 q0 FS Hx Hc1 Fm2]; subst R.
    - subst. destruct (entry_held ML trim _ b (fun _ => M + length y) y tz Hl Hq Hy (fun _ => le_n _) _ _ pre x _ h c l2 R0 ltac:(discriminate) (or_introl eq_refl)
        FS Hx Hc1 P Es Hh Lq) as (r3 & ts3 & E3 & R3 & Hf3 & Hc3 & Es3 & Hh3).
      rewrite E3 in Re. injection Re as <- <-. exists h, c, ts3. split; auto. split; auto. split; [now rewrite R3|]. auto.
    - subst hc1 l3 q0 l1. destruct (form_suffix _ _ _ _ _ _ _ Fm2) as (u & Eu).
      destruct (entry_held ML trim _ b (fun _ => M + length y) y tz Hl Hq Hy (fun _ => le_n _) _ _ pre x rest h1 c1 _ R0 ltac:(discriminate) (or_introl eq_refl)
        FS Hx Hc1 (form_parts _ _ _ _ _ _ _ Fm2) Es Hh) as (r3 & ts3 & E3 & R3 & Hf3 & Hc3 & Es3 & Hh3).
      { rewrite Eu, app_length. fold M. blia. }
      rewrite E3 in Re. injection Re as <- <-. exists h1, c1, ts3. split; auto. split; auto. split; [now rewrite R3|].
      split; auto. split; auto. split; auto. now rewrite R3. }
  destruct (loop_surplus ML trim t b y tz post Hl HC Hy Etz s Hq Ho (h, c) l2 q eq_refl Lc Hu _ _ _ _ _ _ _ _ _ _ _ B H)
    as (log1 & v & log2 & E1 & F1 & F2 & Rd).
  exists log1, v, log2. auto.
Qed.

Lemma two_lengths {A B} (R : A -> B -> Prop) l l' : Forall2 R l l' -> length l = length l'.
Proof. induction 1; cbn [length]; congruence. Qed.

Lemma two_impl {A B} (R Q : A -> B -> Prop) l l' : (forall a b, R a b -> Q a b) -> Forall2 R l l' -> Forall2 Q l l'.
Proof. intros H. induction 1; constructor; auto. Qed.

Lemma found_each ML (f : fs) n : forall (log : list (field_headers ML * saved)) (l : list (field_headers ML * bytes)),
  Forall2 (fun hv hc => fst hv = fst hc) log l ->
  map (fun sf => (sf_headers ML sf, readable (sf_data ML sf) f)) (named n log) = sent_as l n ->
  Forall2 (fun hv hc => fh_name ML (fst hc) = n -> readable (snd hv) f = Some (snd hc)) log l.
Proof.
  unfold named, sent_as. induction 1 as [|hv hc log l H1 F IH]; [constructor|]. cbn [filter]. rewrite H1.
  destruct (list_eq_dec N.eq_dec (fh_name ML (fst hc)) n) as [En|Nn]; cbn [map sf_headers sf_data].
  - intros E. injection E as _ E1 E2. constructor; auto.
  - intros E. constructor; [now intros|auto].
Qed.

(** A body is saved exactly for every chunking if and only if all of its contents are shorter than 1023 bytes.  [suffices]: the limits
    allow the form and the disk works.  The fields that are tried as text are UTF-8. *)
Theorem C98_exactly : forall ML trim b s dir temp g e P z l,
  ~ In CR b -> length b <= 510 -> suffices s e dir g l ->
  Forall (fun hc => Field.is_text ML (fst hc) = true -> s_policy s <> TIgnore -> utf8_string (snd hc)) l ->
  rfc (head_block ML trim (delimiter b)) (delimiter b) z l -> (forall i, occurs_at (delimiter b) (P ++ z) i -> length P <= i) ->
  ((forall t, stream t = P ++ z -> live t -> quiet t -> exists fuel0, forall fuel, fuel0 <= fuel -> exists x g' r' e',
      with_entries ML trim s fuel (entries_new ML dir temp) g (with_body t b) e = (x, g', r', e') /\ saved_form l x e') <->
   Forall (fun hc => length (snd hc) < 1023) l).
Proof.
  intros ML trim b s dir temp g e P z l HC Lb Hs Hu Hz HP.
  assert (LD : length (delimiter b) = length b + 2).
  { change (2 + length b = length b + 2). apply Nat.add_comm. }
  assert (EM : effective (delimiter b) 1024 = Nat.pow 2 10).
  { unfold effective. change (Nat.pow 2 10) with 1024. rewrite LD. lia. }
  split.
  - intros A. apply Forall_forall. intros [h c] Hin. cbn [snd]. destruct (le_lt_dec 1023 (length c)) as [Lc|]; [exfalso|assumption].
    assert (Huc : Field.is_text ML h = true -> s_policy s <> TIgnore -> utf8_string c).
    { rewrite Forall_forall in Hu. exact (Hu _ Hin). }
    apply in_split in Hin as (l1 & l2 & ->). destruct (rfc_form _ _ _ _ Hz P l1 h c l2 HP eq_refl) as (a & post & E & Fm).
    set (w := a ++ c ++ [CR]). set (n := length w - Nat.pow 2 10). set (y := skipn n w). set (lf := LF :: delimiter b ++ post).
    set (ts := match firstn n w with [] => [] | v => [Chunk v] end).
    assert (Lw : Nat.pow 2 10 <= length w).
    { unfold w. rewrite !app_length. cbn [length]. change (Nat.pow 2 10) with 1024. blia. }
    assert (Ly : length y = Nat.pow 2 10) by (unfold y; rewrite skipn_length; unfold n; blia).
    assert (Ets : stream ts = firstn n w).
    { unfold ts. destruct (firstn n w) as [|v0 v]; [reflexivity|]. cbn [stream]. now rewrite app_nil_r. }
    assert (Et : stream (ts ++ Chunk y :: [Chunk lf]) = P ++ z).
    { rewrite stream_app, Ets. cbn [stream]. rewrite app_nil_r, app_assoc. unfold y. rewrite firstn_skipn. rewrite E. unfold w, lf.
      rewrite <- !app_assoc. reflexivity. }
    assert (Hl : live (ts ++ Chunk y :: [Chunk lf])).
    { intros Z. apply in_app_or in Z as [Z|[Z|[Z|[]]]].
      - unfold ts in Z. destruct (firstn n w) as [|v0 v]; [destruct Z|]. destruct Z as [Z|[]]; discriminate.
      - injection Z as Z. rewrite Z in Ly. discriminate.
      - discriminate. }
    assert (Hq : quiet (ts ++ Chunk y :: [Chunk lf])).
    { intros k Z. apply in_app_or in Z as [Z|[Z|[Z|[]]]]; try discriminate.
      unfold ts in Z. destruct (firstn n w) as [|v0 v]; [destruct Z|]. destruct Z as [Z|[]]; discriminate. }
    destruct (A _ Et Hl Hq) as (fuel0 & F). destruct (F fuel0 (le_n _)) as (x & g' & r' & e' & H & en & -> & Wg & Fo & Ff).
    destruct (C98_surplus ML trim _ b s fuel0 (entries_new ML dir temp) g e en g' r' e' ts y [Chunk lf] post l1 h c l2 Hl Hq HC eq_refl)
      as (log1 & v & log2 & Ee & Rd & F1 & F2); auto.
    + cbn [stream]. now rewrite app_nil_r.
    + rewrite Et. exact Fm.
    + rewrite EM, Ly. blia.
    + rewrite EM. change (Nat.pow 2 10) with 1024. blia.
    + apply Hs.
    + assert (W : well_grouped (recount_fields ML (entries_new ML dir temp))) by (split; constructor).
      destruct (C45_grouping ML _ (log1 ++ (h, v) :: log2) (fh_name ML h) W) as (_ & Fa & _). rewrite <- Ee in Fa.
      replace (fields_at (recount_fields ML (entries_new ML dir temp)) (fh_name ML h)) with (@nil (saved_field ML)) in Fa by reflexivity.
      cbn [app] in Fa. specialize (Ff (fh_name ML h)). unfold found in Ff. rewrite Fa in Ff.
      apply found_each in Ff.
      * apply Forall2_app_inv_l in Ff as (k1 & k2 & G1 & G2 & Ek). inversion G2 as [|hv hc lv lc G3 G4]; subst.
        assert (Lk : length k1 = length l1).
        { exact (eq_trans (eq_sym (two_lengths _ _ _ G1)) (two_lengths _ _ _ F1)). }
        apply app_inj_length in Ek as [_ Ek]; [|exact (eq_sym Lk)].
        injection Ek as <- _. specialize (G3 eq_refl). cbn [fst snd] in G3. rewrite Rd in G3. injection G3 as G3.
        apply (f_equal (@length _)) in G3. rewrite app_length in G3. cbn [length CRLF] in G3. blia.
      * apply Forall2_app; [|constructor; [reflexivity|]]; (eapply two_impl; [|eassumption]); intros ? ? [Q _]; exact Q.
  - intros F t Et Hl Hq. apply C77_saved; auto. rewrite Et. eapply rfc_parts; eauto.
Qed.

(** The form of [C95_exactly_example] with the default builder: with 1023 bytes some chunking is not saved exactly, with 1022 all are. *)
Example C98_exactly_example :
  let c n := repeat 120%N n in
  let exact n := forall t, stream t = CRLF ++ sharp_body (c n) -> live t -> quiet t -> exists fuel0, forall fuel, fuel0 <= fuel -> exists x g' r' e',
    with_entries toy true saver_new fuel (entries_new toy [bs "d"] false) [] (with_body t (bs "b")) (no_failures (fun _ => None)) = (x, g', r', e') /\
    saved_form (sharp_list (c n)) x e' in
  @suffices toy saver_new (no_failures (fun _ => None)) [bs "d"] [] (sharp_list (c 1023)) /\ ~ exact 1023 /\ exact 1022.
Proof.
  cbv zeta.
  assert (HC : ~ In CR (bs "b")) by (intros [Z|[]]; discriminate).
  assert (Lb : length (bs "b") <= 510) by (apply Nat.leb_le; reflexivity).
  assert (Q : forall n, n = 1022 \/ n = 1023 ->
    @suffices toy saver_new (no_failures (fun _ => None)) [bs "d"] [] (sharp_list (repeat 120%N n)) /\
    Forall (fun hc : field_headers toy * bytes => Field.is_text toy (fst hc) = true -> s_policy saver_new <> TIgnore -> utf8_string (snd hc)) (sharp_list (repeat 120%N n)) /\
    forall i, occurs_at (delimiter (bs "b")) (CRLF ++ sharp_body (repeat 120%N n)) i -> length CRLF <= i).
  { intros n Hn. split; [|split].
    - split; [reflexivity|]. split; [discriminate|]. split; [reflexivity|]. split; [reflexivity|].
      split; [|left]; repeat apply Forall_cons; try apply Forall_nil; cbn [snd]; apply N.leb_le; destruct Hn as [->| ->]; vm_compute; reflexivity.
    - repeat apply Forall_cons; try apply Forall_nil; intros _ _; apply valid_utf8_iff; destruct Hn as [->| ->]; vm_compute; reflexivity.
    - apply find_least. destruct Hn as [->| ->]; vm_compute; reflexivity. }
  destruct (Q 1023 (or_intror eq_refl)) as (S3 & U3 & F3). destruct (Q 1022 (or_introl eq_refl)) as (S2 & U2 & F2).
  split; [exact S3|]. split.
  - intros A. apply (C98_exactly toy true (bs "b") saver_new [bs "d"] false [] _ CRLF _ _ HC Lb S3 U3 (sharp_rfc 1023 ltac:(auto)) F3) in A.
    pose proof (proj1 (Forall_forall _ _) A (mkFH toy (bs "b") None None, repeat 120%N 1023) (or_intror (or_introl eq_refl))) as A2.
    cbn [snd] in A2. pose proof (repeat_length 120%N 1023). blia.
  - apply (C98_exactly toy true (bs "b") saver_new [bs "d"] false [] _ CRLF _ _ HC Lb S2 U2 (sharp_rfc 1022 ltac:(auto)) F2).
    repeat apply Forall_cons; try apply Forall_nil; cbn [snd]; try (apply Nat.ltb_lt; reflexivity).
Qed.

(** The chunking of [C95_surplus_example], with a threshold of 100 bytes and a write that takes 7 bytes: the file has the CRLF. *)
Example C98_surplus_example :
  let c := repeat 120%N 1023 in
  let t := [Chunk (sharp_head (bs "a") ++ bs "one" ++ CRLF); Chunk (sharp_head (bs "b")); Chunk (c ++ [CR]); Chunk (LF :: sharp_tail)] in
  exists en g' r' f e',
    with_entries toy true (mkSaver (8 * 1024 * 1024) 256 100 TTry default_opts) 200 (entries_new toy [bs "d"] false) [] (with_body t (bs "b"))
      (mkEnv (fun _ => None) [WAccept 7] [] []) = (Full en, g', r', e') /\
    en_fields toy en = [(bs "a", [mkSF toy (mkFH toy (bs "a") None None) (SText (bs "one"))]);
      (bs "b", [mkSF toy (mkFH toy (bs "b") None None) (SFile f 1025)]); (bs "c", [mkSF toy (mkFH toy (bs "c") None None) (SText (bs "three"))])] /\
    readable (SFile f 1025) (e_fs e') = Some (c ++ CRLF) /\ valid_utf8 c = true.
Proof. do 5 eexists. split; [vm_compute; reflexivity|]. split; [vm_compute; reflexivity|]. split; vm_compute; reflexivity. Qed.
