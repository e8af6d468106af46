(** What a sequence of data calls delivers. *)

From Verif Require Import Bytes BytesProofs Spec Io Boundary BoundaryProofs Utf8 Httparse Field FieldProofs ContentProofs.

Section WithMime.
Context (ML : mime_lib).

(** Bytes handed to the user by one call: what [read] returned, what [consume] took from the buffer. *)
Definition delivered1 (b : obs ML) : bytes :=
  match b with
  | BRead _ (Ok out) => out
  | BConsumed _ d => d
  | _ => []
  end.

Definition delivered (bs : list (obs ML)) : bytes := flat_map delivered1 bs.

(** Calls on the current field only. *)
Definition data_op (o : op) : Prop := match o with ONext => False | _ => True end.

Lemma step_data trim o r b r' :
  inv r -> data_op o -> step ML trim o r = (b, r') ->
  rem r = delivered1 b ++ rem r' /\
  (st r <> AtEnd -> skipped (bnd r) (rem r) (delivered1 b) (rem r') /\ st r' <> AtEnd) /\
  (st r = AtEnd -> delivered1 b = [] /\ st r' = AtEnd).
Proof.
  intros Hinv Ho. destruct o as [n| |n|n|]; cbn [step]; [| | | |destruct Ho].
  - destruct (read n r) as [x r1] eqn:E. intros H; injection H as <- <-.
    pose proof (read_spec _ _ _ _ Hinv E) as (J1 & J2 & J3 & J4 & J5).
    destruct x as [out|e| |]; try tauto; cbn [delivered1].
    + destruct J5 as (J5 & J6 & J7 & r1' & b & J8 & J9 & J10). split; auto. split; auto.
      intros Hs. pose proof (read_to_boundary_spec _ _ _ Hinv J8) as (I1 & _ & _ & _ & _ & _ & K1 & _ & X).
      destruct K1 as [K1 K2]; [congruence|]. destruct Hinv as (_ & _ & Hz). rewrite Hs in Hz.
      destruct X as [X _]. rewrite K2, Hz in X. simpl in X. subst b. rewrite firstn_nil in J9. subst out.
      split; auto. subst r1. simpl. congruence.
    + destruct J5 as (k & -> & J5 & J6 & J7). rewrite J6. split; auto. split.
      * intros Hs. split; [apply skipped_nil|auto].
      * intros Hs. split; auto. unfold read in E.
        destruct (read_to_boundary r) as [y r1'] eqn:F.
        pose proof (read_to_boundary_spec _ _ _ Hinv F) as (_ & _ & _ & _ & _ & _ & K1 & _ & _).
        destruct K1 as [K1 _]; [congruence|]. destruct y; try discriminate; injection E; intros; subst; congruence.
  - destruct (read_to_boundary r) as [x r1] eqn:E. intros H; injection H as <- <-.
    pose proof (read_to_boundary_spec _ _ _ Hinv E) as (I1 & R1 & B1 & M1 & L1 & _ & K1 & K2 & X).
    cbn [delivered1]. rewrite R1. split; auto. split.
    + intros Hs. split; [apply skipped_nil|].
      destruct (st r) eqn:S; auto. destruct K1 as [K1 _]; congruence.
    + intros Hs. destruct K1 as [K1 _]; [congruence|]. split; auto. congruence.
  - intros H; injection H as <- <-. cbn [delivered1].
    pose proof (consume_spec n r Hinv) as (I1 & R & B & M & S & T & X & _).
    split; auto. split.
    + intros Hs. split; [now apply consume_skipped|congruence].
    + intros Hs. split; [|congruence]. destruct Hinv as (_ & _ & Hz). rewrite Hs in Hz. rewrite Hz.
      rewrite Nat.min_0_r. reflexivity.
  - intros H; injection H as <- <-. cbn [delivered1]. split; auto. split; auto.
    intros Hs. split; [apply skipped_nil|auto].
Qed.

Lemma run_data trim os r bs r' :
  inv r -> Forall data_op os -> run ML trim os r = (bs, r') ->
  rem r = delivered bs ++ rem r' /\
  (st r <> AtEnd -> skipped (bnd r) (rem r) (delivered bs) (rem r') /\ st r' <> AtEnd) /\
  (st r = AtEnd -> delivered bs = [] /\ st r' = AtEnd).
Proof.
  revert r bs; induction os as [|o os IH]; intros r bs Hinv Hd; cbn [run].
  - intros H; injection H as <- <-. simpl. split; auto. split; auto. intros. split; [apply skipped_nil|auto].
  - inversion Hd as [|? ? Ho Hos]; subst.
    destruct (step ML trim o r) as [b r1] eqn:E. destruct (run ML trim os r1) as [bs1 r2] eqn:F.
    intros H; injection H as <- <-.
    pose proof (step_inv ML _ _ _ _ _ Hinv E) as (J1 & J2 & _).
    apply step_data in E as (E1 & E2 & E3); auto.
    apply IH in F as (F1 & F2 & F3); auto.
    cbn [delivered flat_map]. fold (delivered bs1). split; [|split].
    + rewrite E1, F1, app_assoc. reflexivity.
    + intros Hs. destruct (E2 Hs) as [E4 E5]. destruct (F2 E5) as [F4 F5]. split; auto.
      rewrite J2 in F4. eapply skipped_trans; eauto.
    + intros Hs. destruct (E3 Hs) as [E4 E5]. destruct (F3 E5) as [F4 F5]. rewrite E4, F4. auto.
Qed.

(** * End of field *)

Lemma crlf_tail_unique (a b : bytes) : a ++ CRLF = b ++ CRLF -> a = b.
Proof. apply app_inv_tail. Qed.

Lemma read_empty n r r' :
  inv r -> st r <> AtEnd -> 0 < n -> read n r = (Ok [], r') -> live (src r) -> length (bnd r) + 2 <= minb r ->
  (forall pre post, first_split (bnd r) (rem r) pre post -> pre = [] \/ pre = CRLF) /\
  (absent (bnd r) (rem r) -> src r' = [] /\ length (rem r) <= length (bnd r) + 1) /\
  idx r' = 0 /\ rem r' = rem r.
Proof.
  intros Hinv Hst Hn H Hl Hm. unfold read in H.
  destruct (read_to_boundary r) as [y r1] eqn:E.
  pose proof (read_to_boundary_spec _ _ _ Hinv E) as (I1 & R1 & B1 & M1 & L1 & _ & K1 & K2 & X).
  destruct y as [b|e| |]; try discriminate. injection H as Hb Hr.
  assert (b = []).
  { destruct b; auto. destruct n; [lia|discriminate]. }
  subst b. assert (idx r1 = 0).
  { destruct X as [X _]. symmetry in X. apply (f_equal (@length _)) in X. rewrite firstn_length in X. simpl in X.
    destruct I1 as (_ & I1 & _). lia. }
  assert (Hr' : rem r' = rem r1 /\ src r' = src r1 /\ idx r' = 0).
  { rewrite <- Hr, firstn_nil. unfold rem, consume. cbn. rewrite H. auto. }
  destruct Hr' as (Hr1 & Hr2 & Hr3).
  assert (Hst1 : st r1 <> AtEnd).
  { destruct (st r) eqn:S0; [auto|destruct K1 as [K1 _]; congruence|congruence]. }
  pose proof (dashed_nonnil _ (proj1 Hinv)) as HD0.
  assert (Hfin : idx r' = 0 /\ rem r' = rem r) by (rewrite Hr1, R1; auto).
  destruct (st r1) eqn:S1; [| |congruence].
  - destruct X as (_ & X1 & X2). destruct (X2 eq_refl) as [X3 X4].
    assert (Hsrc : src r1 = []).
    { destruct X1 as [X1|[X1|X1]]; [lia|auto|exfalso; auto]. }
    assert (Hrem : rem r = buf r1).
    { rewrite <- R1. unfold rem. rewrite Hsrc. simpl. apply app_nil_r. }
    split; [|split; [|exact Hfin]].
    + intros pre post FS. exfalso. apply first_split_at in FS. rewrite Hrem, X4 in FS. discriminate.
    + intros _. split; [congruence|]. rewrite Hrem. lia.
  - destruct I1 as (_ & _ & I2). rewrite S1 in I2. destruct I2 as (p & Hp & Hfirst).
    rewrite B1 in *. rewrite R1 in Hfirst.
    assert (ER : rem r = buf r1 ++ stream (src r1)) by (rewrite <- R1; reflexivity).
    destruct (found_split _ _ _ _ _ _ HD0 ER Hp Hfirst) as [FS FL].
    split; [|split; [|exact Hfin]].
    + intros pre post FS'. destruct (first_split_fun _ _ _ _ _ _ FS FS') as [<- <-].
      destruct Hp as (P1 & P2 & [P3|[P3 P4]]).
      * left. rewrite P3, H. reflexivity.
      * right. rewrite P3, H. rewrite H in P4. apply firstn_sw; auto.
    + intros Ha. exfalso. apply (Ha p). apply occurs_at_sw'; auto.
      rewrite ER. destruct Hp as (P1 & P2 & _). rewrite skipn_app_le by lia. now apply sw_app.
Qed.

(** * Exact content *)

Lemma content_skip D R d R' c :
  skipped D R d R' -> content D R c ->
  (forall c0 post, first_split D R (c0 ++ CRLF) post -> length d <= length c0) ->
  exists c', c = d ++ c' /\ content D R' c'.
Proof.
  intros K (pre & post & FS & [-> | [-> Hno]]) Hd.
  - pose proof (skipped_split_inv _ _ _ _ _ _ K FS) as (pre' & E & FS').
    specialize (Hd _ _ FS).
    exists (skipn (length d) c).
    assert (E1 : c = d ++ skipn (length d) c).
    { assert (F : firstn (length d) (c ++ CRLF) = firstn (length d) (d ++ pre')) by congruence.
      rewrite !firstn_app_le, firstn_all in F by lia. rewrite <- F at 1. now rewrite firstn_skipn. }
    split; auto. exists pre', post. split; auto. left.
    rewrite E1, <- app_assoc in E. apply app_inv_head in E. auto.
  - pose proof (skipped_split_inv _ _ _ _ _ _ K FS) as (pre' & E & FS').
    exists pre'. split; auto. exists pre', post. split; auto. right. split; auto.
    intros c' ->. apply (Hno (d ++ c')). rewrite E. now rewrite app_assoc.
Qed.

Lemma step_content_strict trim o r b r' c :
  inv r -> strict r -> (forall x r1, read_to_boundary r = (x, r1) -> strict r1) ->
  st r <> AtEnd -> data_op o -> step ML trim o r = (b, r') ->
  content (bnd r) (rem r) c ->
  exists c', c = delivered1 b ++ c' /\ content (bnd r) (rem r') c'.
Proof.
  intros Hinv Hs Hu Hst Ho H Hc.
  pose proof (step_data _ _ _ _ _ Hinv Ho H) as (_ & K & _). destruct (K Hst) as [K1 K2].
  eapply content_skip; eauto.
  intros c0 post FS.
  destruct o as [n| |n|n|]; cbn [step] in H; [| | | |destruct Ho].
  - destruct (read n r) as [x r1] eqn:E. injection H as <- <-.
    unfold read in E. destruct (read_to_boundary r) as [y r1'] eqn:F.
    assert (Hs1 : strict r1') by (first [exact (Hu _ _ F) | exact (Hu _ _ eq_refl)]).
    pose proof (read_to_boundary_spec _ _ _ Hinv F) as (I1 & R1 & B1 & M1 & L1 & _ & KK & K2' & X).
    assert (Hst1 : st r1' <> AtEnd).
    { destruct (st r) eqn:S0; [auto|destruct KK as [KK _]; congruence|congruence]. }
    destruct y as [bb|e| |]; injection E as <- <-; cbn [delivered1 length]; try lia.
    destruct X as [-> _]. rewrite !firstn_length.
    specialize (Hs1 Hst1 c0 post). rewrite B1, R1 in Hs1. specialize (Hs1 FS). lia.
  - destruct (read_to_boundary r) as [y r1'] eqn:F. injection H as <- <-. simpl. lia.
  - injection H as <- <-. simpl. rewrite firstn_length. specialize (Hs Hst c0 post FS). lia.
  - injection H as <- <-. simpl. lia.
Qed.

Lemma step_content trim o r b r' c :
  inv r -> unsplit r -> strict r -> st r <> AtEnd -> data_op o -> step ML trim o r = (b, r') ->
  content (bnd r) (rem r) c ->
  exists c', c = delivered1 b ++ c' /\ content (bnd r) (rem r') c'.
Proof. intros Hinv Hu Hs. apply step_content_strict; auto. intros x r1 F. eapply strict_fill; eauto. Qed.

Lemma run_content trim os r bs r' c :
  inv r -> unsplit r -> strict r -> st r <> AtEnd -> Forall data_op os -> run ML trim os r = (bs, r') ->
  content (bnd r) (rem r) c ->
  exists c', c = delivered bs ++ c' /\ content (bnd r) (rem r') c'.
Proof.
  revert r bs c; induction os as [|o os IH]; intros r bs c Hinv Hu Hs Hst Hd; cbn [run].
  - intros H Hc; injection H as <- <-. exists c. auto.
  - inversion Hd as [|? ? Ho Hos]; subst.
    destruct (step ML trim o r) as [b r1] eqn:E. destruct (run ML trim os r1) as [bs1 r2] eqn:F.
    intros H Hc; injection H as <- <-.
    pose proof (step_inv ML _ _ _ _ _ Hinv E) as (J1 & J2 & _).
    pose proof (step_steps ML _ _ _ _ _ Hinv E) as S.
    pose proof (step_data _ _ _ _ _ Hinv Ho E) as (_ & K & _). destruct (K Hst) as [K1 K2].
    destruct (step_content _ _ _ _ _ c Hinv Hu Hs Hst Ho E Hc) as (c1 & -> & Hc1).
    rewrite <- J2 in Hc1.
    destruct (IH r1 bs1 c1) as (c2 & -> & Hc2); eauto using steps_unsplit, steps_strict.
    exists c2. rewrite <- J2. split; auto. cbn [delivered flat_map]. now rewrite app_assoc.
Qed.

(** After a fill the cursor is before the CRLF, or exactly between CR and LF at the end of the buffer. *)
Lemma fill_between r b r' c post :
  inv r -> near r -> read_to_boundary r = (Ok b, r') -> st r <> AtEnd ->
  first_split (bnd r) (rem r) (c ++ CRLF) post ->
  idx r' <= length c \/ between r' c.
Proof.
  intros Hinv Hn H Hst FS.
  pose proof (read_to_boundary_spec _ _ _ Hinv H) as (I1 & R1 & B1 & M1 & L1 & _ & K1 & K2 & X).
  destruct (st r) eqn:Est; [| |congruence].
  2: { destruct K1 as [K1 K3]; [congruence|]. rewrite K3.
       destruct (Hn ltac:(congruence) _ _ FS) as [F1 F2]. auto. }
  unfold read_to_boundary in H.
  destruct (fill_buf (minb r) (buf r) (src r)) as [[e bb] t] eqn:E.
  apply fill_buf_spec in E as (cc & used & -> & Esrc & <- & _ & _).
  destruct e as [k|]; [discriminate|].
  rewrite Est in H.
  destruct (search_step (buf r ++ stream used) (bnd r) (idx r)) as [[i s]|] eqn:E; [|discriminate].
  injection H as <- <-. unfold between. cbn [idx st set_idx_st set_source buf src bnd] in *.
  destruct Hinv as (HD & Hix & Hno). rewrite Est in Hno.
  assert (ER : rem r = (buf r ++ stream used) ++ stream t).
  { unfold rem. rewrite Esrc, stream_app, app_assoc. reflexivity. }
  rewrite ER in *.
  apply (search_step_content _ _ _ (stream t) _ _ c post) in E; auto.
  rewrite app_length. lia.
Qed.

(** Reads smaller than the minimum buffer size are exact whatever the chunking. *)
Definition small_read (m : nat) (o : op) : Prop :=
  match o with ORead n => n < m | OFill => True | _ => False end.

Lemma step_content_small trim o r b r' c :
  inv r -> near r -> live (src r) -> st r <> AtEnd -> small_read (minb r) o -> step ML trim o r = (b, r') ->
  content (bnd r) (rem r) c ->
  exists c', c = delivered1 b ++ c' /\ content (bnd r) (rem r') c'.
Proof.
  intros Hinv Hn Hl Hst Ho H Hc.
  assert (Hd : data_op o) by (destruct o; simpl in *; tauto).
  pose proof (step_data _ _ _ _ _ Hinv Hd H) as (_ & K & _). destruct (K Hst) as [K1 K2].
  eapply content_skip; eauto.
  intros c0 post FS.
  destruct o as [n| |n|n|]; cbn [step] in H; simpl in Ho; try tauto.
  - destruct (read n r) as [x r1] eqn:E. injection H as <- <-.
    unfold read in E. destruct (read_to_boundary r) as [y r1'] eqn:F.
    pose proof (read_to_boundary_spec _ _ _ Hinv F) as (I1 & R1 & B1 & M1 & L1 & _ & KK & K2' & X).
    destruct y as [bb|e| |]; injection E as <- <-; cbn [delivered1 length]; try lia.
    destruct X as (-> & X1 & _). rewrite !firstn_length.
    destruct (fill_between _ _ _ _ _ Hinv Hn F Hst FS) as [G|(_ & G1 & G2 & _ & G3)]; [lia|].
    destruct X1 as [X1|[X1|X1]]; [lia| |exfalso; auto].
    rewrite X1 in G3. discriminate.
  - destruct (read_to_boundary r) as [y r1'] eqn:F. injection H as <- <-. simpl. lia.
Qed.

Lemma run_content_small trim os r bs r' c :
  inv r -> near r -> live (src r) -> st r <> AtEnd -> Forall (small_read (minb r)) os ->
  run ML trim os r = (bs, r') ->
  content (bnd r) (rem r) c ->
  exists c', c = delivered bs ++ c' /\ content (bnd r) (rem r') c'.
Proof.
  revert r bs c; induction os as [|o os IH]; intros r bs c Hinv Hn Hl Hst Hd; cbn [run].
  - intros H Hc; injection H as <- <-. exists c. auto.
  - inversion Hd as [|? ? Ho Hos]; subst.
    destruct (step ML trim o r) as [b r1] eqn:E. destruct (run ML trim os r1) as [bs1 r2] eqn:F.
    intros H Hc; injection H as <- <-.
    assert (Hdo : data_op o) by (destruct o; simpl in *; tauto).
    pose proof (step_inv ML _ _ _ _ _ Hinv E) as (J1 & J2 & J3 & _).
    pose proof (step_steps ML _ _ _ _ _ Hinv E) as S.
    pose proof (step_data _ _ _ _ _ Hinv Hdo E) as (_ & K & _). destruct (K Hst) as [K1 K2].
    assert (Hm : minb r1 = minb r).
    { destruct o as [n| |n|n|]; cbn [step] in E; simpl in Ho; try tauto.
      - destruct (read n r) as [x rr] eqn:G. injection E as <- <-. apply read_spec in G; auto. tauto.
      - destruct (read_to_boundary r) as [x rr] eqn:G. injection E as <- <-. apply read_to_boundary_spec in G; auto. tauto. }
    assert (Hos' : Forall (small_read (minb r1)) os) by (rewrite Hm; auto).
    destruct (step_content_small _ _ _ _ _ c Hinv Hn Hl Hst Ho E Hc) as (c1 & -> & Hc1).
    rewrite <- J2 in Hc1.
    destruct (IH r1 bs1 c1) as (c2 & -> & Hc2); eauto using steps_near, live_later.
    exists c2. rewrite <- J2. split; auto. cbn [delivered flat_map]. now rewrite app_assoc.
Qed.

Lemma content_end D R c : content D R c -> (forall pre post, first_split D R pre post -> pre = [] \/ pre = CRLF) -> c = [].
Proof.
  intros (pre & post & FS & Hf) H. destruct (H _ _ FS) as [-> | ->]; destruct Hf as [Hf|[-> Hf]]; auto.
  - destruct c; discriminate.
  - change CRLF with ([] ++ CRLF) in Hf at 1. apply app_inv_tail in Hf. auto.
  - exfalso. apply (Hf []). reflexivity.
Qed.

End WithMime.
