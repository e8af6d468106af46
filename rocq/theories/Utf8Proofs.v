(** The validator accepts exactly the concatenations of encoded scalar values. *)

From Verif Require Import Bytes BytesProofs Spec Utf8.
From Coq Require Import ZArith.

Ltac Zify.zify_post_hook ::= Z.div_mod_to_equations.

Lemma in_range_iff lo hi x : in_range lo hi x = true <-> (lo <= x <= hi)%N.
Proof. unfold in_range. rewrite andb_true_iff, !N.leb_le. lia. Qed.

Lemma two_iff a b : utf8_two a b = true <->
  exists c, (128 <= c < 2048)%N /\ a = (192 + c / 64)%N /\ b = (128 + c mod 64)%N.
Proof.
  unfold utf8_two. rewrite andb_true_iff, !in_range_iff. split.
  - intros [H1 H2]. exists ((a - 192) * 64 + (b - 128))%N. repeat split; lia.
  - intros (c & H & -> & ->). lia.
Qed.

Lemma three_iff a b c : utf8_three a b c = true <->
  exists x, (2048 <= x < 65536)%N /\ scalar x /\ a = (224 + x / 4096)%N /\
    b = (128 + (x / 64) mod 64)%N /\ c = (128 + x mod 64)%N.
Proof.
  unfold utf8_three, scalar.
  rewrite andb_true_iff, !orb_true_iff, !andb_true_iff, !in_range_iff, !N.eqb_eq. split.
  - intros [H1 H2]. exists ((a - 224) * 4096 + (b - 128) * 64 + (c - 128))%N.
    repeat split; lia.
  - intros (x & H & S & -> & -> & ->). split; [|lia].
    assert (x / 4096 = x / 64 / 64)%N by (rewrite N.div_div; auto; lia). lia.
Qed.

Lemma four_iff a b c d : utf8_four a b c d = true <->
  exists x, (65536 <= x < 1114112)%N /\ a = (240 + x / 262144)%N /\ b = (128 + (x / 4096) mod 64)%N /\
    c = (128 + (x / 64) mod 64)%N /\ d = (128 + x mod 64)%N.
Proof.
  unfold utf8_four.
  rewrite !andb_true_iff, !orb_true_iff, !andb_true_iff, !in_range_iff, !N.eqb_eq. split.
  - intros [[H1 H2] H3].
    exists ((a - 240) * 262144 + (b - 128) * 4096 + (c - 128) * 64 + (d - 128))%N.
    repeat split; lia.
  - intros (x & H & -> & -> & -> & ->). lia.
Qed.

Lemma encode_head c :
  scalar c -> forall t, exists n, n = length (encode_char c) /\ 0 < n /\
  valid_up_to (encode_char c ++ t) = n + valid_up_to t.
Proof.
  intros Hs t. unfold encode_char.
  destruct (c <? 128)%N eqn:E1.
  { exists 1. simpl. rewrite E1. auto. }
  destruct (c <? 2048)%N eqn:E2.
  { exists 2. split; auto. split; [lia|].
    assert (utf8_two (192 + c / 64) (128 + c mod 64) = true) by (apply two_iff; exists c; lia).
    cbn [app valid_up_to]. rewrite H. destruct (192 + c / 64 <? 128)%N eqn:E; [lia|]. reflexivity. }
  destruct (c <? 65536)%N eqn:E3.
  { exists 3. split; auto. split; [lia|].
    assert (H : utf8_three (224 + c / 4096) (128 + (c / 64) mod 64) (128 + c mod 64) = true)
      by (apply three_iff; exists c; repeat split; auto; lia).
    cbn [app valid_up_to]. rewrite H.
    destruct (224 + c / 4096 <? 128)%N eqn:E; [lia|].
    destruct (utf8_two (224 + c / 4096) (128 + (c / 64) mod 64)) eqn:F; [|reflexivity].
    exfalso. unfold utf8_two in F. rewrite andb_true_iff, !in_range_iff in F. lia. }
  exists 4. split; auto. split; [lia|].
  assert (H : utf8_four (240 + c / 262144) (128 + (c / 4096) mod 64) (128 + (c / 64) mod 64) (128 + c mod 64) = true)
    by (apply four_iff; exists c; destruct Hs; repeat split; lia).
  cbn [app valid_up_to]. rewrite H.
  destruct (240 + c / 262144 <? 128)%N eqn:E; [lia|].
  destruct (utf8_two (240 + c / 262144) (128 + (c / 4096) mod 64)) eqn:F.
  { exfalso. unfold utf8_two in F. rewrite andb_true_iff, !in_range_iff in F. lia. }
  destruct (utf8_three (240 + c / 262144) (128 + (c / 4096) mod 64) (128 + (c / 64) mod 64)) eqn:G; [|reflexivity].
  exfalso. unfold utf8_three in G.
  rewrite andb_true_iff, !orb_true_iff, !andb_true_iff, !in_range_iff, !N.eqb_eq in G.
  assert (240 <= 240 + c / 262144)%N by (generalize (c / 262144)%N; intros; lia).
  lia.
Qed.

Lemma utf8_prefix_valid cs t :
  Forall scalar cs ->
  valid_up_to (concat (map encode_char cs) ++ t) = length (concat (map encode_char cs)) + valid_up_to t.
Proof.
  induction 1 as [|c cs Hc _ IH]; simpl; auto.
  rewrite <- app_assoc. destruct (encode_head c Hc (concat (map encode_char cs) ++ t)) as (n & -> & _ & ->).
  rewrite IH, app_length. lia.
Qed.

Lemma valid_prefix_utf8 b : utf8_string (firstn (valid_up_to b) b).
Proof.
  remember (length b) as n eqn:Hn. revert b Hn.
  induction n as [n IH] using lt_wf_ind. intros b ->.
  assert (Step : forall c k t, scalar c -> length (encode_char c) = k -> 0 < k -> b = encode_char c ++ t ->
     utf8_string (firstn (k + valid_up_to t) b)).
  { intros c k t Hc Hk Hk0 ->.
    destruct (IH (length t)) with (b := t) as (cs & H1 & H2); auto.
    { rewrite app_length. lia. }
    exists (c :: cs). split; auto. simpl. rewrite <- H2.
    rewrite firstn_app, Hk. rewrite firstn_all2 by lia. f_equal. f_equal. lia. }
  destruct b as [|a t]; [exists []; auto|]. cbn [valid_up_to].
  destruct (a <? 128)%N eqn:E1.
  { apply (Step a 1 t); auto; unfold scalar, encode_char; rewrite ?E1; auto. lia. }
  destruct t as [|b1 t1]; [exists []; auto|].
  destruct (utf8_two a b1) eqn:E2.
  { apply two_iff in E2 as (c & H1 & -> & ->).
    apply (Step c 2 t1); auto; unfold scalar, encode_char; try (destruct (c <? 128)%N eqn:?; [lia|]);
      try (destruct (c <? 2048)%N eqn:?; [|lia]); auto. lia. }
  destruct t1 as [|b2 t2]; [exists []; auto|].
  destruct (utf8_three a b1 b2) eqn:E3.
  { apply three_iff in E3 as (c & H1 & Hs & -> & -> & ->).
    apply (Step c 3 t2); auto; unfold encode_char; try (destruct (c <? 128)%N eqn:?; [lia|]);
      try (destruct (c <? 2048)%N eqn:?; [lia|]); try (destruct (c <? 65536)%N eqn:?; [|lia]); auto. }
  destruct t2 as [|b3 t3]; [exists []; auto|].
  destruct (utf8_four a b1 b2 b3) eqn:E4; [|exists []; auto].
  apply four_iff in E4 as (c & H1 & -> & -> & -> & ->).
  apply (Step c 4 t3); auto; unfold scalar, encode_char; try (destruct (c <? 128)%N eqn:?; [lia|]);
      try (destruct (c <? 2048)%N eqn:?; [lia|]); try (destruct (c <? 65536)%N eqn:?; [lia|]); auto; lia.
Qed.

Lemma valid_up_to_le b : valid_up_to b <= length b.
Proof.
  remember (length b) as n eqn:Hn. revert b Hn.
  induction n as [n IH] using lt_wf_ind. intros b ->.
  destruct b as [|a t]; simpl; [lia|].
  destruct (a <? 128)%N; [specialize (IH (length t)); simpl in IH; specialize (IH ltac:(lia) t eq_refl); lia|].
  destruct t as [|b1 t1]; [simpl; lia|].
  destruct (utf8_two a b1); [specialize (IH (length t1)); simpl in *; specialize (IH ltac:(lia) t1 eq_refl); lia|].
  destruct t1 as [|b2 t2]; [simpl; lia|].
  destruct (utf8_three a b1 b2); [specialize (IH (length t2)); simpl in *; specialize (IH ltac:(lia) t2 eq_refl); lia|].
  destruct t2 as [|b3 t3]; [simpl; lia|].
  destruct (utf8_four a b1 b2 b3); [specialize (IH (length t3)); simpl in *; specialize (IH ltac:(lia) t3 eq_refl); lia|].
  lia.
Qed.

Theorem valid_utf8_iff b : valid_utf8 b = true <-> utf8_string b.
Proof.
  unfold valid_utf8. rewrite Nat.eqb_eq. split.
  - intros H. pose proof (valid_prefix_utf8 b) as V. now rewrite H, firstn_all in V.
  - intros (cs & H1 & ->). pose proof (utf8_prefix_valid cs [] H1) as V.
    rewrite app_nil_r in V. rewrite V. simpl. lia.
Qed.

(** [valid_up_to] is the longest valid prefix. *)
Theorem valid_up_to_longest b p t : b = p ++ t -> utf8_string p -> length p <= valid_up_to b.
Proof. intros -> (cs & H1 & ->). rewrite utf8_prefix_valid; auto. lia. Qed.

Lemma utf8_string_app a b : utf8_string a -> utf8_string b -> utf8_string (a ++ b).
Proof.
  intros (x & Hx & ->) (y & Hy & ->). exists (x ++ y). split; [apply Forall_app; auto|].
  now rewrite map_app, concat_app.
Qed.

Lemma utf8_string_nil : utf8_string [].
Proof. exists []. auto. Qed.
