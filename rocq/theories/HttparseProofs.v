(** The header parser looks only at the bytes it consumes. *)

From Verif Require Import Bytes BytesProofs Httparse.

Lemma scan_name_done acc b name rest :
  scan_name acc b = HDone name rest ->
  exists x, b = x ++ rest /\ x <> [] /\ forall y, scan_name acc (x ++ y) = HDone name y.
Proof.
  revert acc; induction b as [|c b IH]; intros acc; simpl; [discriminate|].
  destruct (c =? 58)%N eqn:E.
  - intros H; injection H as <- <-. exists [c]. repeat split; try discriminate. intros y. simpl. now rewrite E.
  - destruct (name_token c) eqn:F; [|discriminate]. intros H. apply IH in H as (x & -> & _ & H).
    exists (c :: x). repeat split; try discriminate. intros y. simpl. now rewrite E, F.
Qed.

Lemma scan_name_err acc b e : scan_name acc b = HErr e -> forall y, scan_name acc (b ++ y) = HErr e.
Proof.
  revert acc; induction b as [|c b IH]; intros acc; simpl; [discriminate|].
  destruct (c =? 58)%N; [discriminate|]. destruct (name_token c); auto.
Qed.

Lemma scan_value_done acc b v rest :
  scan_value acc b = HDone v rest ->
  exists x, b = x ++ rest /\ x <> [] /\ forall y, scan_value acc (x ++ y) = HDone v y.
Proof.
  revert acc; induction b as [|c b IH]; intros acc; simpl; [discriminate|].
  destruct (value_token c) eqn:E.
  - intros H. apply IH in H as (x & -> & _ & H).
    exists (c :: x). repeat split; try discriminate. intros y. simpl. now rewrite E.
  - destruct (c =? CR)%N eqn:F.
    + destruct b as [|d b]; [discriminate|]. destruct (d =? LF)%N eqn:G; [|discriminate].
      intros H; injection H as <- <-. exists [c; d]. repeat split; try discriminate.
      intros y. simpl. now rewrite E, F, G.
    + destruct (c =? LF)%N eqn:G; [|discriminate].
      intros H; injection H as <- <-. exists [c]. repeat split; try discriminate.
      intros y. simpl. now rewrite E, F, G.
Qed.

Lemma scan_value_err acc b e : scan_value acc b = HErr e -> forall y, scan_value acc (b ++ y) = HErr e.
Proof.
  revert acc; induction b as [|c b IH]; intros acc; simpl; [discriminate|].
  destruct (value_token c); auto. destruct (c =? CR)%N.
  - destruct b as [|d b]; [discriminate|]. simpl. destruct (d =? LF)%N; auto; discriminate.
  - destruct (c =? LF)%N; auto. discriminate.
Qed.

Lemma skip_blanks_app b :
  skip_blanks b <> [] ->
  exists x, b = x ++ skip_blanks b /\ forall y, skip_blanks (x ++ y) = skip_blanks y.
Proof.
  induction b as [|c b IH]; simpl; [congruence|].
  destruct (blank c) eqn:E.
  - intros H. apply IH in H as (x & H1 & H2). exists (c :: x). split; [simpl; congruence|].
    intros y. simpl. now rewrite E.
  - intros _. exists []. auto.
Qed.

Lemma skip_blanks_cons c b : blank c = false -> skip_blanks (c :: b) = c :: b.
Proof. simpl. now intros ->. Qed.

Lemma skip_blanks_head b c t : skip_blanks b = c :: t -> blank c = false.
Proof.
  induction b as [|d b IH]; simpl; [discriminate|]. destruct (blank d) eqn:E; auto.
  intros H; injection H as <- _; auto.
Qed.

Lemma value_part_done t1 v t2 :
  scan_value [] (skip_blanks t1) = HDone v t2 ->
  exists x, t1 = x ++ t2 /\ forall y, scan_value [] (skip_blanks (x ++ y)) = HDone v y.
Proof.
  intros H. destruct (skip_blanks t1) as [|c w] eqn:E; [discriminate|].
  apply scan_value_done in H as (x & Hx & Hn & Hy).
  destruct (skip_blanks_app t1) as (z & Hz1 & Hz2); [rewrite E; discriminate|].
  exists (z ++ x). split.
  - rewrite Hz1, E, Hx. now rewrite app_assoc.
  - intros y. rewrite <- app_assoc, Hz2.
    destruct x as [|c' x]; [congruence|]. simpl in Hx. injection Hx as <- _.
    change ((c :: x) ++ y) with (c :: (x ++ y)). rewrite skip_blanks_cons by (eapply skip_blanks_head; eauto).
    apply Hy.
Qed.

Lemma value_part_err t1 e :
  scan_value [] (skip_blanks t1) = HErr e -> forall y, scan_value [] (skip_blanks (t1 ++ y)) = HErr e.
Proof.
  intros H y. destruct (skip_blanks t1) as [|c w] eqn:E; [discriminate|].
  destruct (skip_blanks_app t1) as (z & Hz1 & Hz2); [rewrite E; discriminate|].
  rewrite Hz1, E, <- app_assoc, Hz2.
  change ((c :: w) ++ y) with (c :: (w ++ y)). rewrite skip_blanks_cons by (eapply skip_blanks_head; eauto).
  change (c :: w ++ y) with ((c :: w) ++ y). now apply scan_value_err.
Qed.

(** A completed parse consumed a prefix [x] and would do the same whatever follows [x]. *)
Lemma parse_headers_done trim slots b hs rest :
  parse_headers trim slots b = HDone hs rest ->
  exists x, b = x ++ rest /\ x <> [] /\ forall y, parse_headers trim slots (x ++ y) = HDone hs y.
Proof.
  revert b hs rest; induction slots as [|slots IH]; intros b hs rest; destruct b as [|c b]; simpl; try discriminate.
  - destruct (c =? CR)%N eqn:E1.
    { destruct b as [|d b]; [discriminate|]. destruct (d =? LF)%N eqn:E2; [|discriminate].
      intros H; injection H as <- <-. exists [c; d]. repeat split; try discriminate. intros y. simpl. now rewrite E1, E2. }
    destruct (c =? LF)%N eqn:E2.
    { intros H; injection H as <- <-. exists [c]. repeat split; try discriminate. intros y. simpl. now rewrite E1, E2. }
    destruct (negb (name_token c)); discriminate.
  - destruct (c =? CR)%N eqn:E1.
    { destruct b as [|d b]; [discriminate|]. destruct (d =? LF)%N eqn:E2; [|discriminate].
      intros H; injection H as <- <-. exists [c; d]. repeat split; try discriminate. intros y. simpl. now rewrite E1, E2. }
    destruct (c =? LF)%N eqn:E2.
    { intros H; injection H as <- <-. exists [c]. repeat split; try discriminate. intros y. simpl. now rewrite E1, E2. }
    destruct (negb (name_token c)) eqn:E3; [discriminate|].
    destruct (scan_name [c] b) as [|e|name t1] eqn:F1; try discriminate.
    destruct (scan_value [] (skip_blanks t1)) as [|e|v t2] eqn:F2; try discriminate.
    destruct (parse_headers trim slots t2) as [|e|hs' t3] eqn:F3; try discriminate.
    intros H; injection H as <- <-.
    apply scan_name_done in F1 as (x1 & -> & _ & G1).
    apply value_part_done in F2 as (x2 & -> & G2).
    apply IH in F3 as (x3 & -> & _ & G3).
    exists (c :: x1 ++ x2 ++ x3). repeat split; try discriminate.
    + simpl. now rewrite <- !app_assoc.
    + intros y. simpl. rewrite E1, E2, E3. rewrite <- !app_assoc, G1, G2, G3. reflexivity.
Qed.

Lemma parse_headers_err trim slots b e :
  parse_headers trim slots b = HErr e -> forall y, parse_headers trim slots (b ++ y) = HErr e.
Proof.
  revert b; induction slots as [|slots IH]; intros b; destruct b as [|c b]; simpl; try discriminate; intros H y.
  - destruct (c =? CR)%N.
    { destruct b as [|d b]; [discriminate|]. simpl. destruct (d =? LF)%N; auto; discriminate. }
    destruct (c =? LF)%N; [discriminate|]. destruct (negb (name_token c)); auto.
  - destruct (c =? CR)%N.
    { destruct b as [|d b]; [discriminate|]. simpl. destruct (d =? LF)%N; auto; discriminate. }
    destruct (c =? LF)%N; [discriminate|]. destruct (negb (name_token c)); auto.
    destruct (scan_name [c] b) as [|e'|name t1] eqn:F1; try discriminate.
    { injection H as ->. now rewrite (scan_name_err _ _ _ F1). }
    apply scan_name_done in F1 as (x1 & -> & _ & G1). rewrite <- app_assoc, G1.
    destruct (scan_value [] (skip_blanks t1)) as [|e'|v t2] eqn:F2; try discriminate.
    { injection H as ->. now rewrite (value_part_err _ _ F2). }
    apply value_part_done in F2 as (x2 & -> & G2). rewrite <- app_assoc, G2.
    destruct (parse_headers trim slots t2) as [|e'|hs' t3] eqn:F3; try discriminate.
    injection H as ->. now rewrite (IH _ F3).
Qed.

(** The number of headers never exceeds the number of slots, and the values have no control
    characters. *)
Lemma parse_headers_slots trim slots b hs rest :
  parse_headers trim slots b = HDone hs rest -> length hs <= slots.
Proof.
  revert b hs rest; induction slots as [|slots IH]; intros b hs rest; destruct b as [|c b]; simpl; try discriminate.
  - destruct (c =? CR)%N.
    { destruct b as [|d b]; [discriminate|]. destruct (d =? LF)%N; [|discriminate]. intros H; injection H as <- <-. auto. }
    destruct (c =? LF)%N. { intros H; injection H as <- <-. auto. }
    destruct (negb (name_token c)); discriminate.
  - destruct (c =? CR)%N.
    { destruct b as [|d b]; [discriminate|]. destruct (d =? LF)%N; [|discriminate]. intros H; injection H as <- <-. simpl. lia. }
    destruct (c =? LF)%N. { intros H; injection H as <- <-. simpl. lia. }
    destruct (negb (name_token c)); [discriminate|].
    destruct (scan_name [c] b) as [|e|name t1]; try discriminate.
    destruct (scan_value [] (skip_blanks t1)) as [|e|v t2]; try discriminate.
    destruct (parse_headers trim slots t2) as [|e|hs' t3] eqn:F3; try discriminate.
    intros H; injection H as <- <-. apply IH in F3. simpl. lia.
Qed.
