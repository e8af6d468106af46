(** Lemmas on byte strings. *)

From Verif Require Import Bytes Spec.

Lemma beq_eq a b : beq a b = true <-> a = b.
Proof.
  revert b; induction a as [|x a IH]; intros [|y b]; simpl; split; intros H; try congruence; auto.
  - apply andb_true_iff in H as [H1 H2]. apply N.eqb_eq in H1. apply IH in H2. congruence.
  - injection H as -> ->. rewrite N.eqb_refl. simpl. now apply IH.
Qed.

Lemma sw_iff b p : starts_with b p = true <-> exists t, b = p ++ t.
Proof.
  revert b; induction p as [|x p IH]; intros b.
  - split; [exists b; reflexivity | intros _; destruct b; reflexivity].
  - destruct b as [|y b].
    + split; [discriminate|]. intros [t H]; discriminate.
    + simpl. rewrite andb_true_iff, N.eqb_eq, IH. split.
      * intros [-> [t ->]]. eauto.
      * intros [t H]. injection H as -> ->. eauto.
Qed.

Lemma sw_false_iff b p : starts_with b p = false <-> ~ exists t, b = p ++ t.
Proof. rewrite <- sw_iff. destruct (starts_with b p); split; congruence. Qed.

Lemma sw_app b p t : starts_with b p = true -> starts_with (b ++ t) p = true.
Proof. rewrite !sw_iff. intros [u ->]. exists (u ++ t). now rewrite app_assoc. Qed.

Lemma sw_length b p : starts_with b p = true -> length p <= length b.
Proof. rewrite sw_iff. intros [u ->]. rewrite app_length. lia. Qed.

Lemma sw_app_inv b p t :
  length p <= length b -> starts_with (b ++ t) p = true -> starts_with b p = true.
Proof.
  rewrite !sw_iff. intros Hl [u H].
  exists (skipn (length p) b).
  assert (E : firstn (length p) (b ++ t) = firstn (length p) (p ++ u)) by congruence.
  rewrite firstn_app, (firstn_app (length p) p u) in E.
  replace (length p - length b) with 0 in E by lia.
  rewrite Nat.sub_diag, !firstn_O, !app_nil_r, firstn_all in E.
  rewrite <- E at 1. now rewrite firstn_skipn.
Qed.

(** A needle that starts in [b] but ends beyond it has the rest of [b] as a fragment. *)
Lemma sw_straddle b p t :
  length b <= length p -> starts_with (b ++ t) p = true -> starts_with p b = true.
Proof.
  rewrite !sw_iff. intros Hl [u H].
  exists (skipn (length b) p).
  assert (E : firstn (length b) (b ++ t) = firstn (length b) (p ++ u)) by congruence.
  rewrite firstn_app, (firstn_app (length b) p u) in E.
  replace (length b - length p) with 0 in E by lia.
  rewrite Nat.sub_diag, !firstn_O, !app_nil_r, firstn_all in E.
  rewrite E at 1. now rewrite firstn_skipn.
Qed.

Lemma skipn_app_le {A} i (b t : list A) : i <= length b -> skipn i (b ++ t) = skipn i b ++ t.
Proof. intros H. rewrite skipn_app. now replace (i - length b) with 0 by lia. Qed.

Lemma firstn_app_le {A} i (b t : list A) : i <= length b -> firstn i (b ++ t) = firstn i b.
Proof.
  intros H. rewrite firstn_app. replace (i - length b) with 0 by lia.
  now rewrite firstn_O, app_nil_r.
Qed.

Lemma occurs_at_sw d r i :
  occurs_at d r i <-> i <= length r /\ starts_with (skipn i r) d = true.
Proof.
  unfold occurs_at. rewrite sw_iff. split.
  - intros (a & b & -> & <-). split.
    + rewrite app_length. lia.
    + exists b. rewrite skipn_app, skipn_all, Nat.sub_diag. reflexivity.
  - intros [Hi [t H]]. exists (firstn i r), t. split.
    + rewrite <- H. now rewrite firstn_skipn.
    + rewrite firstn_length. lia.
Qed.

Lemma occurs_at_sw' d r i :
  d <> [] -> occurs_at d r i <-> starts_with (skipn i r) d = true.
Proof.
  intros Hd. rewrite occurs_at_sw. split; [tauto|]. intros H. split; auto.
  destruct (le_lt_dec i (length r)); auto.
  rewrite skipn_all2 in H by lia. destruct d; simpl in H; congruence.
Qed.

Lemma find_bytes_some h n i :
  find_bytes h n = Some i ->
  i + length n <= length h /\ starts_with (skipn i h) n = true /\
  forall j, j < i -> starts_with (skipn j h) n = false.
Proof.
  revert i; induction h as [|x h IH]; intros i; cbn [find_bytes].
  - destruct (starts_with [] n) eqn:E; intros H; [|discriminate].
    injection H as <-. destruct n as [|y n]; [|simpl in E; discriminate E].
    repeat split; auto. intros; lia.
  - destruct (starts_with (x :: h) n) eqn:E; intros H.
    + injection H as <-. simpl. split; [apply sw_length in E; simpl in *; lia|].
      split; auto. intros; lia.
    + destruct (find_bytes h n) as [k|]; [|discriminate]. injection H as <-.
      destruct (IH k eq_refl) as (H1 & H2 & H3). simpl. repeat split; auto; try lia.
      intros [|j] Hj; simpl; auto. apply H3. lia.
Qed.

Lemma find_bytes_none h n :
  find_bytes h n = None -> forall j, j <= length h -> starts_with (skipn j h) n = false.
Proof.
  induction h as [|x h IH]; cbn [find_bytes].
  - destruct (starts_with [] n) eqn:E; [discriminate|]. intros _ j Hj.
    destruct j; auto.
  - destruct (starts_with (x :: h) n) eqn:E; [discriminate|].
    destruct (find_bytes h n); [discriminate|]. intros _ [|j] Hj; simpl; auto.
    apply IH; auto. simpl in Hj. lia.
Qed.

Lemma find_bytes_complete h n i :
  starts_with (skipn i h) n = true -> i <= length h ->
  (forall j, j < i -> starts_with (skipn j h) n = false) -> find_bytes h n = Some i.
Proof.
  intros H1 Hi H2. destruct (find_bytes h n) as [k|] eqn:E.
  - apply find_bytes_some in E as (K1 & K2 & K3). f_equal.
    destruct (lt_eq_lt_dec k i) as [[L|L]|L]; auto.
    + rewrite H2 in K2; auto. discriminate.
    + rewrite K3 in H1; auto. discriminate.
  - eapply find_bytes_none in E; eauto. congruence.
Qed.

Lemma length_skipn {A} n (l : list A) : length (skipn n l) = length l - n.
Proof. apply skipn_length. Qed.

Lemma skipn_skipn' {A} a b (l : list A) : skipn a (skipn b l) = skipn (b + a) l.
Proof.
  revert l; induction b as [|b IH]; intros l; simpl; auto.
  destruct l; auto. now rewrite skipn_nil.
Qed.

Lemma slice_length a b l : a <= b -> b <= length l -> length (slice a b l) = b - a.
Proof. intros. unfold slice. rewrite firstn_length, skipn_length. lia. Qed.

Lemma firstn_sw b p n : starts_with b p = true -> n = length p -> firstn n b = p.
Proof.
  rewrite sw_iff. intros [t ->] ->. rewrite firstn_app, Nat.sub_diag, firstn_all, firstn_O.
  apply app_nil_r.
Qed.

Lemma firstn_eq_sw b p n : n = length p -> firstn n b = p -> starts_with b p = true.
Proof. intros -> H. apply sw_iff. exists (skipn (length p) b). rewrite <- H at 1. now rewrite firstn_skipn. Qed.

(** First split as a search. *)
Lemma first_split_iff d r pre post :
  first_split d r pre post <->
  r = pre ++ d ++ post /\ forall i, i < length pre -> starts_with (skipn i r) d = false.
Proof.
  unfold first_split. split; intros [H1 H2]; split; auto.
  - intros i Hi. destruct (starts_with (skipn i r) d) eqn:E; auto.
    assert (occurs_at d r i).
    { apply occurs_at_sw. split; auto. rewrite H1, app_length. lia. }
    apply H2 in H. lia.
  - intros i Hi. apply occurs_at_sw in Hi as [Hi1 Hi2].
    destruct (le_lt_dec (length pre) i); auto. rewrite H2 in Hi2; auto. discriminate.
Qed.

Lemma first_split_fun d r p1 q1 p2 q2 :
  first_split d r p1 q1 -> first_split d r p2 q2 -> p1 = p2 /\ q1 = q2.
Proof.
  intros [H1 H2] [H3 H4].
  assert (length p1 = length p2).
  { assert (occurs_at d r (length p1)) by (exists p1, q1; auto).
    assert (occurs_at d r (length p2)) by (exists p2, q2; auto).
    apply Nat.le_antisymm; auto. }
  rewrite H1 in H3.
  assert (p1 = p2 /\ d ++ q1 = d ++ q2) as [-> E].
  { clear -H H3. revert p2 H H3. induction p1; intros [|y p2]; simpl; intros; try discriminate; auto.
    injection H3 as -> E. destruct (IHp1 p2) as [-> ?]; auto. }
  split; auto. eapply app_inv_head; eauto.
Qed.

Lemma app_inj_length {A} (a b c d : list A) :
  length a = length c -> a ++ b = c ++ d -> a = c /\ b = d.
Proof.
  revert c; induction a as [|x a IH]; intros [|y c]; simpl; intros; try discriminate; auto.
  injection H0 as -> E. destruct (IH c) as [-> ->]; auto.
Qed.

Lemma find_first_split d r :
  d <> [] ->
  match find_bytes r d with
  | Some i => first_split d r (firstn i r) (skipn (i + length d) r)
  | None => absent d r
  end.
Proof.
  intros Hd. destruct (find_bytes r d) as [i|] eqn:E.
  - apply find_bytes_some in E as (H1 & H2 & H3). apply first_split_iff. split.
    + assert (H2' := H2). apply sw_iff in H2' as [t Ht].
      rewrite <- skipn_skipn'. rewrite Ht, skipn_app, skipn_all, Nat.sub_diag. simpl.
      rewrite <- Ht. now rewrite firstn_skipn.
    + intros j. rewrite firstn_length. intros. apply H3. lia.
  - intros i Hi. apply occurs_at_sw in Hi as [Hi1 Hi2].
    eapply find_bytes_none in E; eauto. congruence.
Qed.

Lemma find_split d r pre post :
  find_bytes r d = Some (length pre) -> r = pre ++ d ++ post -> first_split d r pre post.
Proof.
  intros F E. split; auto. intros i Hi. destruct (Nat.le_gt_cases (length pre) i) as [|L]; auto.
  apply find_bytes_some in F as (_ & _ & F). specialize (F _ L).
  apply occurs_at_sw in Hi as [_ Hi]. congruence.
Qed.

Lemma split_or_absent d r : d <> [] -> (exists pre post, first_split d r pre post) \/ absent d r.
Proof. intros H. pose proof (find_first_split d r H) as F. destruct (find_bytes r d); eauto. Qed.
