(** Saving from a field: consequences of the loop lemmas for reachable states, and termination. *)

From Verif Require Import Bytes BytesProofs Spec Io Boundary BoundaryProofs Utf8 Utf8Proofs Httparse Field FieldProofs
  ContentProofs DataProofs ShortProofs EntryProofs ReaderProofs Drive DriveProofs ReachProofs PropsReader Rand Fs Save SaveProofs PhaseProofs.

Section WithMime.
Context (ML : mime_lib).

Lemma moved_field trim t b h r d r' : at_field ML trim t b h r -> moved r d r' ->
  inv r' /\ near r' /\ st r' <> AtEnd /\ bnd r' = delimiter b /\ later (src r') t /\
  length (bnd r') + 2 <= minb r' /\ reached ML trim t b r' /\ rem r = d ++ rem r' /\ minb r' = Nat.max (length (bnd r) * 2) MIN_BUF_SIZE.
Proof.
  intros Hf M. destruct (moved_run ML trim _ _ _ M) as (os & ob & Hd & H & _).
  pose proof (field_state _ _ _ _ _ _ _ _ _ Hf Hd H) as F.
  destruct (at_field_reached _ _ _ _ _ _ Hf) as (R1 & _ & Mn). pose proof (reached_inv _ _ _ _ _ R1) as (I1 & _).
  pose proof (moved_spec _ _ _ M I1) as (_ & R & _ & Mb & _).
  rewrite <- Mb in Mn. tauto.
Qed.

Lemma at_field_inv trim t b h r : at_field ML trim t b h r -> inv r.
Proof. intros H. apply (moved_field _ _ _ _ _ [] r H). apply mv_refl. Qed.

Lemma moved_prefix trim t b h r d r' pre post : at_field ML trim t b h r -> moved r d r' ->
  first_split (delimiter b) (rem r) pre post ->
  exists rest, pre = d ++ rest /\ first_split (delimiter b) (rem r') rest post.
Proof.
  intros Hf M FS. destruct (moved_run ML trim _ _ _ M) as (os & ob & Hd & H & <- & Hk & Hw).
  eapply C02_prefix; eauto.
Qed.

Lemma moved_content trim t b h r d r' c : at_field ML trim t b h r -> exact_chunks (delimiter b) t [c] -> moved r d r' ->
  content (delimiter b) (rem r) c -> exists c', c = d ++ c' /\ content (delimiter b) (rem r') c'.
Proof.
  intros Hf Hns M Hc. destruct (moved_run ML trim _ _ _ M) as (os & ob & Hd & H & <- & Hk & Hw).
  eapply field_exact; eauto. right. auto.
Qed.

Lemma fill_empty_read r r1 : read_to_boundary r = (Ok [], r1) -> read 1 r = (Ok [], r1).
Proof. intros E. unfold read. rewrite E. simpl. now rewrite consume_0. Qed.

Lemma ended_pre trim t b h r d r' pre post : at_field ML trim t b h r -> live t -> ended r d r' ->
  first_split (delimiter b) (rem r) pre post -> pre = d \/ pre = d ++ CRLF.
Proof.
  intros Hf Hl (r0 & M & E) FS.
  destruct (moved_prefix _ _ _ _ _ _ _ _ _ Hf M FS) as (rest & -> & FS').
  destruct (moved_field _ _ _ _ _ _ _ Hf M) as (I0 & _ & S0 & B0 & L0 & M0 & _).
  pose proof (read_empty _ _ _ I0 S0 Nat.lt_0_1 (fill_empty_read _ _ E) (live_later _ _ L0 Hl) M0) as (Z & _).
  rewrite B0 in Z. destruct (Z _ _ FS') as [-> | ->]; [left; now rewrite app_nil_r|auto].
Qed.

Lemma ended_content trim t b h r d r' c : at_field ML trim t b h r -> live t -> exact_chunks (delimiter b) t [c] ->
  ended r d r' -> content (delimiter b) (rem r) c -> d = c.
Proof.
  intros Hf Hl Hns (r0 & M & E) Hc.
  destruct (moved_content _ _ _ _ _ _ _ _ Hf Hns M Hc) as (c' & -> & Hc').
  destruct (moved_field _ _ _ _ _ _ _ Hf M) as (I0 & _ & S0 & B0 & L0 & M0 & _).
  pose proof (read_empty _ _ _ I0 S0 Nat.lt_0_1 (fill_empty_read _ _ E) (live_later _ _ L0 Hl) M0) as (Z & _).
  rewrite B0 in Z. rewrite (content_end _ _ _ Hc' Z). now rewrite app_nil_r.
Qed.

End WithMime.

Lemma pending_moved r d r' b : inv r -> pending r d r' b -> moved r (d ++ b) (consume (length b) r').
Proof.
  intros Hi (r0 & M & E). pose proof (moved_spec _ _ _ M Hi) as (I0 & _).
  eapply moved_trans; eauto. pose proof (fill_moved _ _ _ (length b) I0 E (le_n _)) as F. now rewrite firstn_all in F.
Qed.

(** * Termination *)

Lemma limited_all_ends {W} limit (wb : W -> bytes -> sres nat nat * W) : all_or_stop wb ->
  forall w b n w1, b <> [] -> limited limit wb w b = (Full n, w1) -> n <= length b /\ 0 < n.
Proof.
  intros Ha [c w] b n [c1 w1] Nb. unfold limited.
  destruct (limit <? sat_add c (N.of_nat (length b)))%N; [discriminate|].
  destruct (wb w b) as [y w2] eqn:E. intros H; injection H as -> <- <-. apply Ha in E. subst n.
  destruct b; simpl; [congruence|lia].
Qed.

Lemma copies_fuel {W} (R : W -> bytes -> W -> Prop) wb : copies R wb -> forall w b x w1, wb w b = (x, w1) -> x <> SFuel.
Proof. intros Hc w b x w1 E. apply Hc in E. tauto. Qed.

Definition enough (r : breader) : nat := S (length (rem r) + length (src r)).

Lemma write_to_ends {W} (R : W -> bytes -> W -> Prop) wb s fuel w r x w' r' :
  writes R -> copies R wb -> all_or_stop wb -> inv r -> enough r <= fuel ->
  write_to wb s fuel w r = (x, w', r') -> x <> SFuel.
Proof.
  intros HR Hc Ha Hi L. unfold enough in L. unfold write_to. destruct (s_size_limit s <? U64MAX)%N.
  - unfold try_copy_limited.
    destruct (try_read_buf (limited (s_size_limit s) wb) fuel 0 (0%N, w) r) as [[y [c w1]] r1] eqn:E.
    intros H; injection H as <- <- <-. revert E.
    apply (try_read_buf_ends (fun _ => 0) (fun _ => True)); auto; try lia.
    + intros w0 b n w2 _ Nb F. destruct (limited_all_ends _ _ Ha _ _ _ _ Nb F). split; auto.
    + apply (copies_fuel _ _ (limited_copies (s_size_limit s) R wb HR Hc)).
  - apply (try_read_buf_ends (fun _ => 0) (fun _ => True)); auto; try lia.
    + intros w0 b n w2 _ Nb F. apply Ha in F. subst n. split; auto. split; auto. left. destruct b; simpl; [congruence|lia].
    + apply (copies_fuel _ _ Hc).
Qed.

Lemma save_mem_ends s fuel ob r x r' : inv r -> enough r <= fuel -> save_mem s fuel ob r = (x, r') -> x <> SFuel.
Proof.
  intros Hi L. unfold enough in L. unfold save_mem, try_copy_limited.
  match goal with |- context [try_read_buf ?a ?b ?c ?d ?e] => destruct (try_read_buf a b c d e) as [[y [cc w]] r1] eqn:E end.
  intros H; injection H as <- <-.
  assert (y <> SFuel).
  { revert E. apply (try_read_buf_ends (fun _ => 0) (fun _ => True)); auto; try lia.
    - intros w0 b n w2 _ Nb F. destruct (limited_all_ends _ _ mem_all _ _ _ _ Nb F). split; auto.
    - apply (copies_fuel _ _ (limited_copies _ appended mem_buf writes_appended mem_copies)). }
  destruct y; try discriminate; try congruence. destruct w; discriminate.
Qed.

(** The text phase may read the same bytes again, but counts them every time. *)
Lemma save_text_ends s fuel r x r' : inv r -> (mem_min s < U64MAX)%N ->
  enough r + N.to_nat (mem_min s) + 1 <= fuel -> save_text s fuel r = (x, r') -> x <> SFuel.
Proof.
  intros Hi Lm L. unfold enough in L. unfold save_text, try_copy_limited.
  replace (mem_limit s 0) with (mem_min s) by (unfold mem_limit, mem_min; lia).
  match goal with |- context [try_read_buf ?a ?b ?c ?d ?e] => destruct (try_read_buf a b c d e) as [[y [cc w]] r1] eqn:E end.
  intros H; injection H as <- <-.
  assert (y <> SFuel).
  { revert E. apply (try_read_buf_ends (fun q => N.to_nat (mem_min s + 1 - fst q)) (fun q => fst q <= mem_min s)%N); auto; cbn [fst]; try lia.
    - intros [c w0] b n [c1 w2] Hw Nb F. cbn [fst] in *. unfold limited in F.
      destruct (mem_min s <? sat_add c (N.of_nat (length b)))%N eqn:Lt; [discriminate|]. apply N.ltb_ge in Lt.
      destruct (text_buf w0 b) as [z w3] eqn:G. injection F as -> <- <-.
      destruct (text_copies _ _ _ _ G) as (A & _). cbn [accepted] in A.
      split; [exact Lt|]. split; [exact A|]. right.
      assert (0 < length b) by (destruct b; simpl; [congruence|lia]). unfold sat_add in *. lia.
    - apply (copies_fuel _ _ (limited_copies _ _ _ writes_appended_text text_copies)). }
  destruct y; congruence.
Qed.

Lemma enough_moved r d r' : inv r -> moved r d r' -> enough r' <= enough r.
Proof.
  intros Hi M. apply moved_spec in M as (_ & R & _ & _ & [u L]); auto. unfold enough. rewrite R, L, !app_length. lia.
Qed.

Lemma save_disk_ends s p fuel ob r e x r' e' : inv r -> enough r <= fuel ->
  save_disk s p fuel ob r e = (x, r', e') -> x <> SFuel.
Proof.
  intros Hi L. unfold save_disk. destruct (create_dir_all p e) as [[k|] e1]; [intros H; injection H as <- <- <-; discriminate|].
  destruct (open_file (s_opts s) p e1) as [[h|k] e2]; [|intros H; injection H as <- <- <-; discriminate].
  destruct (write_file (h, e2) ob) as [y [h1 e3]] eqn:Wf. apply (copies_fuel _ _ file_copies) in Wf.
  destruct y; cbn [smap]; try (intros H; injection H as <- <- <-); try congruence; try discriminate.
  destruct (write_to write_file s fuel (h1, e3) r) as [[z [h4 e4]] r1] eqn:Wt.
  apply (write_to_ends _ _ _ _ _ _ _ _ _ writes_file file_copies file_all Hi L) in Wt.
  intros H; injection H as <- <- <-. destruct z; cbn [smap]; congruence.
Qed.

Lemma save_rest_ends s p fuel ob r e x r' e' : inv r -> enough r <= fuel ->
  save_rest s p fuel ob r e = (x, r', e') -> x <> SFuel.
Proof.
  intros Hi L. unfold save_rest. destruct (save_mem s fuel ob r) as [y r1] eqn:E.
  pose proof (save_mem_ends _ _ _ _ _ _ Hi L E) as N.
  apply save_mem_spec in E as (d & M & _); auto.
  pose proof (enough_moved _ _ _ Hi M). pose proof (moved_spec _ _ _ M Hi) as (I1 & _).
  destruct y as [w|w why|y| |]; try (intros H0; injection H0 as <- <- <-; discriminate); try congruence.
  destruct why; try (intros H0; injection H0 as <- <- <-; discriminate).
  destruct (cmp_size_limit s (length w)); [intros H0; injection H0 as <- <- <-; discriminate|].
  apply save_disk_ends; auto. lia.
Qed.

Lemma with_path_ends s p fuel r e x r' e' : inv r ->
  (s_policy s = TIgnore \/ (mem_min s < U64MAX)%N) -> enough r + N.to_nat (mem_min s) + 1 <= fuel ->
  with_path s p fuel r e = (x, r', e') -> x <> SFuel.
Proof.
  intros Hi Hp L. unfold with_path.
  assert (R : forall t r1, inv r1 -> enough r1 <= enough r -> save_rest s p fuel t r1 e = (x, r', e') -> x <> SFuel).
  { intros t r1 I1 L1. apply save_rest_ends; auto. lia. }
  destruct (s_policy s); [| |apply R; auto].
  all: destruct Hp as [Hp|Hp]; [discriminate|].
  all: destruct (save_text s fuel r) as [y r1] eqn:E.
  all: pose proof (save_text_ends _ _ _ _ _ Hi Hp L E) as N.
  all: apply save_text_spec in E as (d & M & _); auto.
  all: pose proof (enough_moved _ _ _ Hi M); pose proof (moved_spec _ _ _ M Hi) as (I1 & _).
  all: destruct y as [w|w why|y| |]; try (intros H0; injection H0 as <- <- <-; discriminate); try congruence.
  all: destruct why; try (intros H0; injection H0 as <- <- <-; discriminate); try (apply R; assumption).
  all: destruct (cmp_size_limit s (length w)); [intros H0; injection H0 as <- <- <-; discriminate|apply R; assumption].
Qed.
