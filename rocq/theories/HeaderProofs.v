(** The header parser against the grammar; [Content-Disposition]; UTF-8. *)

From Verif Require Import Bytes BytesProofs Spec HeaderSpec Io Boundary Utf8 Utf8Proofs Httparse HttparseProofs Field.

(** * Character classes *)

Lemma below_all (P : N -> bool) k :
  forallb P (map N.of_nat (seq 0 k)) = true -> forall c, (c < N.of_nat k)%N -> P c = true.
Proof.
  intros H c Hc. rewrite forallb_forall in H. apply H. apply in_map_iff. exists (N.to_nat c).
  split; [lia|]. apply in_seq. lia.
Qed.

Lemma name_token_iff c : name_token c = true <-> tchar c.
Proof.
  set (l := bs "!#$%&'*+-.^_`|~0123456789ABCDEFGHIJKLMNOPQRSTUVWXYZabcdefghijklmnopqrstuvwxyz").
  assert (A : (c < 128)%N -> Bool.eqb (name_token c) (if in_dec N.eq_dec c l then true else false) = true).
  { apply (below_all (fun c => Bool.eqb (name_token c) (if in_dec N.eq_dec c l then true else false)) 128).
    vm_compute. reflexivity. }
  assert (B : Forall (fun d => (d < 128)%N) l).
  { apply Forall_forall. intros d Hd. apply N.ltb_lt.
    assert (Q : forallb (fun d => d <? 128)%N l = true) by (vm_compute; reflexivity).
    rewrite forallb_forall in Q. auto. }
  unfold tchar. fold l. destruct (N.lt_ge_cases c 128) as [L|L].
  - specialize (A L). destruct (in_dec _ _ _); apply eqb_prop in A; rewrite A; split; auto; discriminate.
  - split.
    + unfold name_token. rewrite !orb_true_iff, !andb_true_iff, !N.leb_le, !N.eqb_eq. lia.
    + intros H. exfalso. rewrite Forall_forall in B. specialize (B _ H). simpl in B. lia.
Qed.

Lemma value_token_iff c : value_token c = true <-> vchar c.
Proof. unfold value_token, vchar. rewrite orb_true_iff, andb_true_iff, negb_true_iff, N.eqb_eq, N.leb_le, N.eqb_neq. tauto. Qed.

Lemma blank_iff c : blank c = true <-> space c.
Proof. unfold blank, space. rewrite orb_true_iff, !N.eqb_eq. tauto. Qed.

Lemma blank_false c : blank c = false <-> ~ space c.
Proof. rewrite <- blank_iff. destruct (blank c); split; congruence. Qed.

Lemma tchar_not_colon c : name_token c = true -> (c =? 58)%N = false.
Proof. intros H. apply N.eqb_neq. intros ->. vm_compute in H. discriminate. Qed.

(** * The scanner and the grammar *)

Lemma scan_name_text n acc t : Forall tchar n -> scan_name acc (n ++ bs ":" ++ t) = HDone (rev acc ++ n) t.
Proof.
  intros H. revert acc. induction H as [|c n Hc _ IH]; intros acc.
  - simpl. now rewrite app_nil_r.
  - apply name_token_iff in Hc. cbn [app scan_name]. rewrite (tchar_not_colon c Hc), Hc.
    cbn [app] in IH. rewrite IH. simpl. now rewrite <- app_assoc.
Qed.

Lemma scan_name_inv acc b name rest : scan_name acc b = HDone name rest ->
  exists n, b = n ++ bs ":" ++ rest /\ name = rev acc ++ n /\ Forall tchar n.
Proof.
  revert acc; induction b as [|c b IH]; intros acc; cbn [scan_name]; [discriminate|].
  destruct (c =? 58)%N eqn:E.
  - intros H; injection H as <- <-. apply N.eqb_eq in E as ->. exists []. simpl. rewrite app_nil_r. auto.
  - destruct (name_token c) eqn:F; [|discriminate]. intros H. apply IH in H as (n & -> & -> & Hn).
    exists (c :: n). split; auto. split; [simpl; now rewrite <- app_assoc|]. constructor; auto. now apply name_token_iff.
Qed.

Lemma scan_value_text v acc e t : Forall vchar v -> eol e -> scan_value acc (v ++ e ++ t) = HDone (rev acc ++ v) t.
Proof.
  intros H He. revert acc. induction H as [|c v Hc _ IH]; intros acc.
  - rewrite app_nil_r. destruct He as [->| ->]; reflexivity.
  - apply value_token_iff in Hc. cbn [app scan_value]. rewrite Hc, IH. simpl. now rewrite <- app_assoc.
Qed.

Lemma scan_value_inv acc b val rest : scan_value acc b = HDone val rest ->
  exists v e, b = v ++ e ++ rest /\ val = rev acc ++ v /\ Forall vchar v /\ eol e.
Proof.
  revert acc; induction b as [|c b IH]; intros acc; cbn [scan_value]; [discriminate|].
  destruct (value_token c) eqn:E.
  - intros H. apply IH in H as (v & e & -> & -> & Hv & He). exists (c :: v), e.
    split; auto. split; [simpl; now rewrite <- app_assoc|]. split; auto. constructor; auto. now apply value_token_iff.
  - destruct (c =? CR)%N eqn:F.
    + destruct b as [|d b]; [discriminate|]. destruct (d =? LF)%N eqn:G; [|discriminate].
      intros H; injection H as <- <-. apply N.eqb_eq in F as ->. apply N.eqb_eq in G as ->.
      exists [], CRLF. rewrite app_nil_r. repeat split; auto. left; auto.
    + destruct (c =? LF)%N eqn:G; [|discriminate]. intros H; injection H as <- <-. apply N.eqb_eq in G as ->.
      exists [], [LF]. rewrite app_nil_r. repeat split; auto. right; auto.
Qed.

Lemma skip_blanks_text w t : Forall space w -> ~ starts_spaced t -> skip_blanks (w ++ t) = t.
Proof.
  induction 1 as [|c w Hc _ IH]; intros Ht.
  - destruct t as [|c t]; auto. simpl. destruct (blank c) eqn:E; auto.
    exfalso. apply Ht. exists c, t. split; auto. now apply blank_iff.
  - apply blank_iff in Hc. simpl. rewrite Hc. auto.
Qed.

Lemma skip_blanks_inv b : exists w, b = w ++ skip_blanks b /\ Forall space w /\ ~ starts_spaced (skip_blanks b).
Proof.
  induction b as [|c b (w & H1 & H2 & H3)]; simpl.
  - exists []. repeat split; auto. intros (? & ? & H & _); discriminate.
  - destruct (blank c) eqn:E.
    + exists (c :: w). simpl. split; [congruence|]. split; auto. constructor; auto. now apply blank_iff.
    + exists []. repeat split; auto. intros (d & t & H & Hs). injection H as <- <-. apply blank_iff in Hs. congruence.
Qed.

Lemma trim_end_kept val : kept true val (trim_end val).
Proof.
  unfold kept, trim_end. destruct (skip_blanks_inv (rev val)) as (w & H1 & H2 & H3).
  exists (rev w). split; [|split].
  - rewrite <- rev_app_distr, <- H1. now rewrite rev_involutive.
  - apply Forall_rev. auto.
  - intros (c & t & H & Hs). apply H3. apply (f_equal (@rev N)) in H. rewrite rev_involutive, rev_app_distr in H.
    exists c, (rev t). auto.
Qed.

Lemma kept_fun trim val v v' : kept trim val v -> kept trim val v' -> v = v'.
Proof.
  destruct trim; simpl; [|congruence].
  intros (w & H1 & H2 & H3) (w' & H1' & H2' & H3').
  assert (A : forall v w, val = v ++ w -> Forall space w -> ~ ends_spaced v -> trim_end val = v).
  { clear. intros v w -> Hw Hv. unfold trim_end. rewrite rev_app_distr, skip_blanks_text, rev_involutive; auto.
    - apply Forall_rev; auto.
    - intros (c & t & H & Hs). apply Hv. exists c, (rev t). split; auto.
      apply (f_equal (@rev N)) in H. now rewrite rev_involutive in H. }
  rewrite <- (A v w), <- (A v' w'); auto.
Qed.

Lemma kept_trim trim val : kept trim val (if trim then trim_end val else val).
Proof. destruct trim; [apply trim_end_kept|reflexivity]. Qed.

Lemma parse_headers_block trim x hs : header_block trim x hs ->
  forall slots y, length hs <= slots -> parse_headers trim slots (x ++ y) = HDone hs y.
Proof.
  induction 1 as [e He|n w val v e x hs Hn0 Hn Hw Hv Hs Hk He Hb IH]; intros slots y Hl.
  - destruct slots; destruct He as [->| ->]; reflexivity.
  - destruct slots as [|slots]; [simpl in Hl; lia|]. destruct n as [|c n]; [congruence|].
    inversion Hn as [|? ? Hc Hn']; subst. apply name_token_iff in Hc as Hc'.
    repeat rewrite <- app_assoc. cbn [app parse_headers].
    assert (E1 : (c =? CR)%N = false) by (apply N.eqb_neq; intros ->; vm_compute in Hc'; discriminate).
    assert (E2 : (c =? LF)%N = false) by (apply N.eqb_neq; intros ->; vm_compute in Hc'; discriminate).
    rewrite E1, E2, Hc'. cbn [negb].
    pose proof (scan_name_text n [c] (w ++ val ++ e ++ x ++ y) Hn') as S1. cbn [app] in S1.
    replace (scan_name [c] _) with (HDone (c :: n) (w ++ val ++ e ++ x ++ y)) by (symmetry; exact S1).
    rewrite skip_blanks_text; auto.
    + rewrite (scan_value_text val [] e (x ++ y) Hv He). cbn [rev app]. rewrite IH by (simpl in Hl; lia).
      now rewrite (kept_fun trim val _ v (kept_trim trim val) Hk).
    + intros (d & t & H & Hd). destruct val as [|d' val].
      * destruct He as [->| ->]; simpl in H; injection H as <- _; unfold space in Hd; vm_compute in Hd; destruct Hd; discriminate.
      * simpl in H. injection H as <- _. apply Hs. exists d', val. auto.
Qed.

Lemma parse_headers_inv trim slots b hs rest : parse_headers trim slots b = HDone hs rest ->
  exists x, b = x ++ rest /\ header_block trim x hs /\ length hs <= slots.
Proof.
  intros H. pose proof (parse_headers_slots _ _ _ _ _ H) as Hl.
  cut (exists x, b = x ++ rest /\ header_block trim x hs); [intros (x & ? & ?); eauto|]. clear Hl.
  revert b hs rest H; induction slots as [|slots IH]; intros b hs rest; destruct b as [|c b]; cbn [parse_headers]; try discriminate.
  - destruct (c =? CR)%N eqn:E1.
    { destruct b as [|d b]; [discriminate|]. destruct (d =? LF)%N eqn:E2; [|discriminate].
      apply N.eqb_eq in E1 as ->. apply N.eqb_eq in E2 as ->.
      intros H; injection H as <- <-. exists CRLF. split; auto. constructor. left; auto. }
    destruct (c =? LF)%N eqn:E2.
    { apply N.eqb_eq in E2 as ->. intros H; injection H as <- <-. exists [LF]. split; auto. constructor. right; auto. }
    destruct (negb (name_token c)); discriminate.
  - destruct (c =? CR)%N eqn:E1.
    { destruct b as [|d b]; [discriminate|]. destruct (d =? LF)%N eqn:E2; [|discriminate].
      apply N.eqb_eq in E1 as ->. apply N.eqb_eq in E2 as ->.
      intros H; injection H as <- <-. exists CRLF. split; auto. constructor. left; auto. }
    destruct (c =? LF)%N eqn:E2.
    { apply N.eqb_eq in E2 as ->. intros H; injection H as <- <-. exists [LF]. split; auto. constructor. right; auto. }
    destruct (name_token c) eqn:E3; cbn [negb]; [|discriminate].
    destruct (scan_name [c] b) as [|e|name t1] eqn:E4; try discriminate.
    destruct (scan_value [] (skip_blanks t1)) as [|e|v t2] eqn:E5; try discriminate.
    destruct (parse_headers trim slots t2) as [|e|hs' t3] eqn:E6; try discriminate.
    intros H; injection H as <- <-.
    apply scan_name_inv in E4 as (n & -> & -> & Hn).
    apply scan_value_inv in E5 as (val & e & Hval & -> & Hv & He).
    apply IH in E6 as (x & -> & Hb).
    destruct (skip_blanks_inv t1) as (w & Hw1 & Hw2 & Hw3).
    exists ((c :: n) ++ bs ":" ++ w ++ val ++ e ++ x). split.
    + rewrite Hw1, Hval. repeat rewrite <- app_assoc. reflexivity.
    + apply (hb_line trim (c :: n) w val); auto; try discriminate.
      * constructor; auto. now apply name_token_iff.
      * rewrite Hval in Hw3. intros (d & t & -> & Hd). apply Hw3. exists d, (t ++ e ++ x ++ t3). split; auto.
      * apply kept_trim.
Qed.

Lemma header_block_fun trim x hs y x' hs' y' :
  header_block trim x hs -> header_block trim x' hs' -> x ++ y = x' ++ y' -> hs = hs' /\ y = y'.
Proof.
  intros H H' E.
  pose proof (parse_headers_block _ _ _ H (length hs + length hs') y ltac:(lia)) as P.
  pose proof (parse_headers_block _ _ _ H' (length hs + length hs') y' ltac:(lia)) as P'.
  rewrite E in P. rewrite P in P'. injection P' as <- <-. auto.
Qed.

(** * Header names *)

Lemma lower_variant x y : lower x = lower y <-> case_variant x y.
Proof.
  unfold lower, case_variant.
  destruct ((65 <=? x) && (x <=? 90))%N eqn:E1; destruct ((65 <=? y) && (y <=? 90))%N eqn:E2; lia.
Qed.

Lemma eq_ignore_case_iff a b : eq_ignore_case a b = true <-> same_name a b.
Proof.
  unfold eq_ignore_case, same_name. rewrite beq_eq. revert b; induction a as [|x a IH]; intros [|y b]; simpl; split; intros H;
    try discriminate; try (inversion H; fail); auto.
  - injection H as H1 H2. constructor; [now apply lower_variant|]. now apply IH.
  - inversion H as [|? ? ? ? H1 H2]; subst. apply lower_variant in H1. apply IH in H2. congruence.
Qed.

Lemma find_header_some hs name v : find_header hs name = Some v <-> header_value hs name v.
Proof.
  unfold find_header, header_value. induction hs as [|[n w] hs IH]; simpl.
  - split; [discriminate|]. intros (l & n & r & H & _). destruct l; discriminate.
  - destruct (eq_ignore_case n name) eqn:E.
    + simpl. split.
      * intros H; injection H as ->. exists [], n, hs. split; auto. split; [now apply eq_ignore_case_iff|]. intros h [].
      * intros (l & n' & r & H & Hn & Hl). destruct l as [|h l].
        { injection H as -> -> ->. reflexivity. }
        injection H as <- ->. exfalso. apply (Hl (n, w)); [left; auto|]. now apply eq_ignore_case_iff.
    + rewrite IH. split.
      * intros (l & n' & r & -> & Hn & Hl). exists ((n, w) :: l), n', r. split; auto. split; auto.
        intros h [<-|Hh]; auto. simpl. intros Hs. apply eq_ignore_case_iff in Hs. congruence.
      * intros (l & n' & r & H & Hn & Hl). destruct l as [|h l].
        { injection H as -> -> ->. apply eq_ignore_case_iff in Hn. congruence. }
        injection H as <- ->. exists l, n', r. split; auto. split; auto. intros h Hh. apply Hl. right; auto.
Qed.

Lemma same_name_cong a b c : same_name a b -> eq_ignore_case a c = eq_ignore_case b c.
Proof.
  intros H. unfold eq_ignore_case. f_equal. induction H as [|x y a b H1 _ IH]; simpl; auto.
  apply lower_variant in H1. congruence.
Qed.

Lemma find_header_same hs hs' name : same_headers hs hs' -> find_header hs name = find_header hs' name.
Proof.
  unfold find_header. induction 1 as [|[n v] [n' v'] hs hs' [H1 H2] _ IH]; simpl; auto.
  simpl in H1, H2. subst v'. rewrite (same_name_cong _ _ name H1). destruct (eq_ignore_case n' name); auto.
Qed.

Lemma parse_field_headers_same ML hs hs' : same_headers hs hs' -> parse_field_headers ML hs = parse_field_headers ML hs'.
Proof.
  intros H. unfold parse_field_headers, parse_content_disp, parse_content_type.
  now rewrite !(find_header_same _ _ _ H).
Qed.

(** * Finding and cutting *)

Lemma sw_one (x : byte) (s : bytes) (c : byte) : starts_with (x :: s) [c] = (x =? c)%N.
Proof. cbn [starts_with]. destruct s; now rewrite andb_true_r. Qed.

Lemma find_byte_some (c : byte) (a t : bytes) : ~ In c a -> find_bytes (a ++ c :: t) [c] = Some (length a).
Proof.
  induction a as [|x a IH]; intros H.
  - cbn [app find_bytes]. now rewrite sw_one, N.eqb_refl.
  - cbn [app find_bytes length]. rewrite sw_one. destruct (x =? c)%N eqn:E; [apply N.eqb_eq in E; subst; exfalso; apply H; left; auto|].
    rewrite IH; auto. intros Hi. apply H. right; auto.
Qed.

Lemma find_byte_none (c : byte) (a : bytes) : ~ In c a -> find_bytes a [c] = None.
Proof.
  induction a as [|x a IH]; intros H; auto.
  cbn [find_bytes]. rewrite sw_one. destruct (x =? c)%N eqn:E; [apply N.eqb_eq in E; subst; exfalso; apply H; left; auto|].
  rewrite IH; auto. intros Hi. apply H. right; auto.
Qed.

Lemma find_byte_inv (c : byte) (s : bytes) :
  match find_bytes s [c] with
  | Some i => ~ In c (firstn i s) /\ s = firstn i s ++ c :: skipn (S i) s
  | None => ~ In c s
  end.
Proof.
  induction s as [|x s IH]; [simpl; auto|].
  cbn [find_bytes]. rewrite sw_one. destruct (x =? c)%N eqn:E; simpl.
  - apply N.eqb_eq in E as ->. split; auto.
  - apply N.eqb_neq in E. destruct (find_bytes s [c]); simpl.
    + destruct IH as [H1 H2]. split; [intros [H|H]; auto|]. simpl in H2. congruence.
    + intros [H|H]; auto.
Qed.

Definition cut (t : bytes) : Prop := t = [] \/ exists u, t = SEMI :: u.

Lemma get_str_after_at needle hay a s t :
  hay = a ++ needle ++ s ++ t -> find_bytes hay needle = Some (length a) -> ~ In SEMI s -> cut t ->
  get_str_after needle SEMI hay = Some (s, t).
Proof.
  intros -> F Hs Ht. unfold get_str_after. rewrite F.
  assert (S1 : skipn (length a + length needle) (a ++ needle ++ s ++ t) = s ++ t).
  { rewrite app_assoc, skipn_app, skipn_all2 by (rewrite app_length; lia).
    rewrite app_length, Nat.sub_diag. reflexivity. }
  rewrite S1.
  assert (E : match find_bytes (s ++ t) [SEMI] with
              | Some e => e + (length a + length needle)
              | None => length (a ++ needle ++ s ++ t) end = length a + length needle + length s).
  { destruct Ht as [->|[u ->]].
    - rewrite app_nil_r, find_byte_none by auto. rewrite !app_length. lia.
    - rewrite find_byte_some by auto. lia. }
  rewrite E. f_equal. f_equal.
  - unfold slice. rewrite S1. replace (_ + _ + length s - _) with (length s) by lia.
    now rewrite firstn_app, Nat.sub_diag, firstn_all, firstn_O, app_nil_r.
  - rewrite <- skipn_skipn', S1, skipn_app, skipn_all, Nat.sub_diag. reflexivity.
Qed.

Lemma get_str_after_inv needle hay s t :
  get_str_after needle SEMI hay = Some (s, t) ->
  exists a, hay = a ++ needle ++ s ++ t /\ ~ In SEMI s /\ cut t /\
    find_bytes hay needle = Some (length a).
Proof.
  unfold get_str_after. destruct (find_bytes hay needle) as [i|] eqn:F; [|discriminate].
  pose proof F as F'. apply find_bytes_some in F' as (L & S1 & _). apply sw_iff in S1 as [u S1].
  assert (Hh : hay = firstn i hay ++ needle ++ u) by (rewrite <- S1; symmetry; apply firstn_skipn).
  assert (La : length (firstn i hay) = i) by (rewrite firstn_length; lia).
  assert (S2 : skipn (i + length needle) hay = u).
  { rewrite <- skipn_skipn', S1, skipn_app, skipn_all, Nat.sub_diag. reflexivity. }
  rewrite S2. pose proof (find_byte_inv SEMI u) as B.
  intros H. injection H as <- <-.
  assert (E : slice (i + length needle)
        (match find_bytes u [SEMI] with Some e => e + (i + length needle) | None => length hay end) hay
      = match find_bytes u [SEMI] with Some e => firstn e u | None => u end).
  { unfold slice. rewrite S2. destruct (find_bytes u [SEMI]) as [e|].
    - f_equal. lia.
    - apply firstn_all2. rewrite Hh, !app_length. lia. }
  assert (E2 : skipn (match find_bytes u [SEMI] with Some e => e + (i + length needle) | None => length hay end) hay
      = match find_bytes u [SEMI] with Some e => skipn e u | None => [] end).
  { destruct (find_bytes u [SEMI]) as [e|].
    - now rewrite Nat.add_comm, <- skipn_skipn', S2.
    - apply skipn_all. }
  rewrite E, E2. exists (firstn i hay). rewrite La. clear E E2. revert B. destruct (find_bytes u [SEMI]) as [e|]; intros B.
  - rewrite firstn_skipn. destruct B as [B1 B2]. repeat split; auto. right. exists (skipn (S e) u).
    apply (app_inv_head (firstn e u)). rewrite firstn_skipn. exact B2.
  - rewrite app_nil_r. repeat split; auto. left; auto.
Qed.

(** * Quotes *)

Lemma drop_byte_inv c s : exists q, s = q ++ drop_byte c s /\ Forall (eq c) q.
Proof.
  induction s as [|x s (q & H1 & H2)]; simpl.
  - exists []. auto.
  - destruct (x =? c)%N eqn:E.
    + apply N.eqb_eq in E as ->. exists (c :: q). simpl. split; [congruence|auto].
    + exists []. auto.
Qed.

Lemma drop_byte_keep c s : (forall t, s <> c :: t) -> drop_byte c s = s.
Proof.
  destruct s as [|x s]; simpl; auto. intros H. destruct (x =? c)%N eqn:E; auto.
  apply N.eqb_eq in E as ->. exfalso. apply (H s); auto.
Qed.

Lemma trim_quotes_inv s : exists q1 q2, s = q1 ++ trim_quotes s ++ q2 /\ Forall (eq QUOTE) q1 /\ Forall (eq QUOTE) q2.
Proof.
  unfold trim_quotes. destruct (drop_byte_inv QUOTE s) as (q1 & H1 & Q1).
  destruct (drop_byte_inv QUOTE (rev (drop_byte QUOTE s))) as (q2 & H2 & Q2).
  exists q1, (rev q2). split; [|split; auto; apply Forall_rev; auto].
  rewrite <- rev_app_distr, <- H2, rev_involutive. auto.
Qed.

Lemma trim_quotes_quoted s :
  (forall t, s <> 34%N :: t) -> (forall t, s <> t ++ [34%N]) -> trim_quotes (quoted s) = s.
Proof.
  intros H1 H2. unfold trim_quotes, quoted. change (bs """") with [QUOTE].
  destruct s as [|x s]; [reflexivity|].
  assert (D1 : drop_byte QUOTE ([QUOTE] ++ (x :: s) ++ [QUOTE]) = (x :: s) ++ [QUOTE]).
  { cbn [app drop_byte]. rewrite N.eqb_refl. destruct (x =? QUOTE)%N eqn:E; auto.
    apply N.eqb_eq in E as ->. exfalso. apply (H1 s). reflexivity. }
  transitivity (rev (drop_byte QUOTE (rev ((x :: s) ++ [QUOTE])))); [f_equal; f_equal; f_equal; exact D1|].
  rewrite rev_app_distr. cbn [rev app drop_byte]. rewrite N.eqb_refl.
  change (rev s ++ [x]) with (rev (x :: s)). rewrite drop_byte_keep; [apply rev_involutive|].
  intros t E. apply (f_equal (@rev N)) in E. rewrite rev_involutive in E. simpl in E. eapply H2; eauto.
Qed.

(** * White space *)

Lemma white_chars_iff w : In w white_chars <-> exists c, In c white_scalars /\ w = encode_char c.
Proof.
  assert (E : white_chars = map encode_char white_scalars) by (vm_compute; reflexivity).
  rewrite E, in_map_iff. split; intros (c & H1 & H2); exists c; auto.
Qed.

Lemma strip_all_inv ws fuel s : exists l, s = concat l ++ strip_all ws fuel s /\ Forall (fun w => In w ws) l.
Proof.
  revert s; induction fuel as [|fuel IH]; intros s; simpl.
  - exists []. auto.
  - unfold strip_one. destruct (find (fun w => starts_with s w) ws) as [w|] eqn:F.
    + apply find_some in F as [F1 F2]. apply sw_iff in F2 as [t ->].
      rewrite skipn_app, skipn_all, Nat.sub_diag. simpl.
      destruct (IH t) as (l & H1 & H2). exists (w :: l). simpl. split; auto. now rewrite <- app_assoc, <- H1.
    + exists []. auto.
Qed.

Lemma white_space_concat l : Forall (fun w => In w white_chars) l -> white_space (concat l).
Proof.
  induction 1 as [|w l Hw _ (cs & H1 & H2)]; simpl.
  - exists []. auto.
  - apply white_chars_iff in Hw as (c & Hc & ->). exists (c :: cs). split; [constructor; auto|]. simpl. congruence.
Qed.

Lemma rev_concat {A} (l : list (list A)) : rev (concat l) = concat (map (@rev A) (rev l)).
Proof.
  induction l as [|x l IH]; simpl; auto.
  rewrite rev_app_distr, IH, map_app, concat_app. simpl. now rewrite app_nil_r.
Qed.

Lemma trim_white_inv s : exists w1 w2, s = w1 ++ trim_white s ++ w2 /\ white_space w1 /\ white_space w2.
Proof.
  unfold trim_white. set (s1 := strip_all white_chars (length s) s).
  destruct (strip_all_inv white_chars (length s) s) as (l1 & H1 & L1). fold s1 in H1.
  destruct (strip_all_inv (map (@rev _) white_chars) (length s1) (rev s1)) as (l2 & H2 & L2).
  set (s2 := strip_all (map (@rev _) white_chars) (length s1) (rev s1)) in *.
  exists (concat l1), (rev (concat l2)). split; [|split].
  - rewrite <- rev_app_distr, <- H2, rev_involutive. auto.
  - apply white_space_concat; auto.
  - rewrite rev_concat. apply white_space_concat. apply Forall_forall. intros w Hw.
    apply in_map_iff in Hw as (w' & <- & Hw). apply in_rev in Hw. rewrite Forall_forall in L2.
    apply L2 in Hw. apply in_map_iff in Hw as (w & <- & Hw). now rewrite rev_involutive.
Qed.

(** No code is the beginning of another one. *)
Definition prefix_free (ws : list bytes) : bool :=
  forallb (fun a => forallb (fun b => implb (starts_with a b) (beq a b)) ws) ws.

Lemma strip_one_code ws w x : prefix_free ws = true -> In w ws -> strip_one ws (w ++ x) = Some x.
Proof.
  intros F Hw. unfold strip_one. destruct (find (fun w0 => starts_with (w ++ x) w0) ws) as [w'|] eqn:E.
  - apply find_some in E as [E1 E2]. apply sw_iff in E2 as [t E2].
    unfold prefix_free in F. rewrite forallb_forall in F.
    assert (K : forall a b, In a ws -> In b ws -> starts_with a b = true -> a = b).
    { intros a b Ha Hb Hs. specialize (F a Ha). rewrite forallb_forall in F. specialize (F b Hb). rewrite Hs in F. now apply beq_eq. }
    assert (w = w') as <-.
    { destruct (Nat.le_ge_cases (length w) (length w')) as [L|L].
      - symmetry. apply K; auto. apply sw_iff. exists (skipn (length w) w').
        apply (f_equal (firstn (length w))) in E2. rewrite firstn_app, firstn_all, Nat.sub_diag, firstn_O, app_nil_r in E2.
        rewrite firstn_app in E2. replace (length w - length w') with 0 in E2 by lia. rewrite firstn_O, app_nil_r in E2.
        transitivity (firstn (length w) w' ++ skipn (length w) w'); [symmetry; apply firstn_skipn|congruence].
      - apply K; auto. apply sw_iff. exists (skipn (length w') w).
        apply (f_equal (firstn (length w'))) in E2. rewrite (firstn_app _ w' t), firstn_all, Nat.sub_diag, firstn_O, app_nil_r in E2.
        rewrite firstn_app in E2. replace (length w' - length w) with 0 in E2 by lia. rewrite firstn_O, app_nil_r in E2.
        transitivity (firstn (length w') w ++ skipn (length w') w); [symmetry; apply firstn_skipn|congruence]. }
    now rewrite skipn_app, skipn_all, Nat.sub_diag.
  - eapply find_none in E; eauto. cbn beta in E. apply sw_false_iff in E. exfalso. apply E. now exists x.
Qed.

Lemma strip_all_codes ws l x fuel : prefix_free ws = true -> Forall (fun w => In w ws) l -> strip_one ws x = None ->
  length l <= fuel -> strip_all ws fuel (concat l ++ x) = x.
Proof.
  intros F Hl Hx. revert fuel. induction Hl as [|w l Hw _ IH]; intros fuel L.
  - destruct fuel as [|fuel]; cbn [concat app strip_all]; auto. now rewrite Hx.
  - destruct fuel as [|fuel]; [cbn [length] in L; lia|]. cbn [concat strip_all length] in *. rewrite <- app_assoc.
    rewrite strip_one_code by auto. apply IH. lia.
Qed.

Lemma white_space_inv w : white_space w -> exists l, w = concat l /\ Forall (fun c => In c white_chars) l.
Proof.
  intros (cs & H & ->). exists (map encode_char cs). split; auto. apply Forall_map. eapply Forall_impl; [|exact H].
  intros c Hc. apply white_chars_iff. exists c. auto.
Qed.

Lemma codes_length l : Forall (fun c => In c white_chars) l -> length l <= length (concat l).
Proof.
  induction 1 as [|w l Hw _ IH]; auto. cbn [concat length]. rewrite app_length.
  enough (length w <> 0) by lia. intros E. apply length_zero_iff_nil in E as ->.
  vm_compute in Hw. repeat (destruct Hw as [Hw|Hw]; [discriminate|]). destruct Hw.
Qed.

(** A word that neither begins nor ends with white space is what trimming leaves. *)
Lemma trim_white_word w1 w2 s : white_space w1 -> white_space w2 ->
  (forall y, strip_one white_chars (s ++ y) = None) -> (forall y, strip_one (map (@rev _) white_chars) (rev s ++ y) = None) ->
  trim_white (w1 ++ s ++ w2) = s.
Proof.
  intros W1 W2 H1 H2. apply white_space_inv in W1 as (l1 & -> & L1). apply white_space_inv in W2 as (l2 & -> & L2).
  assert (E1 : strip_all white_chars (length (concat l1 ++ s ++ concat l2)) (concat l1 ++ s ++ concat l2) = s ++ concat l2).
  { apply strip_all_codes; auto. apply codes_length in L1. rewrite app_length. lia. }
  unfold trim_white. rewrite E1, rev_app_distr, rev_concat.
  rewrite strip_all_codes; [apply rev_involutive|vm_compute; reflexivity| | |].
  - apply Forall_forall. intros w Hw. apply in_map_iff in Hw as (w' & <- & Hw). apply in_map. apply in_rev in Hw.
    rewrite Forall_forall in L2. auto.
  - rewrite <- (app_nil_r (rev s)). apply H2.
  - pose proof (codes_length _ L2). rewrite map_length, rev_length.
    rewrite app_length. unfold bytes, byte in *. lia.
Qed.

Lemma white_no_semi w : white_space w -> ~ In SEMI w.
Proof.
  intros W. apply white_space_inv in W as (l & -> & L). intros H. apply in_concat in H as (c & Hc & H).
  rewrite Forall_forall in L. apply L in Hc. vm_compute in Hc.
  repeat (destruct Hc as [<-|Hc]; [vm_compute in H; repeat (destruct H as [H|H]; [discriminate|]); destruct H|]). destruct Hc.
Qed.

(** Every value of type form-data with a name parameter is accepted. *)
Lemma parse_content_disp_ok hs v ps i :
  header_value hs (bs "Content-Disposition") v -> form_data v ps -> occurs_at (bs "name=") ps i ->
  exists name fname, parse_content_disp hs = Ok (name, fname).
Proof.
  intros Hv (w1 & w2 & E & W1 & W2) (a & z & Ei & _).
  unfold parse_content_disp. apply find_header_some in Hv as ->.
  assert (S1 : split_once v SEMI = Some (w1 ++ bs "form-data" ++ w2, SEMI :: ps)).
  { unfold split_once. replace v with ((w1 ++ bs "form-data" ++ w2) ++ SEMI :: ps) by (rewrite E, <- !app_assoc; reflexivity).
    rewrite find_byte_some.
    - now rewrite firstn_app, firstn_all, Nat.sub_diag, firstn_O, app_nil_r, skipn_app, skipn_all, Nat.sub_diag.
    - intros H. apply in_app_iff in H as [H|H]; [exact (white_no_semi _ W1 H)|]. apply in_app_iff in H as [H|H]; [|exact (white_no_semi _ W2 H)].
      vm_compute in H. repeat (destruct H as [H|H]; [discriminate|]). destruct H. }
  rewrite S1, trim_white_word by (auto; intros; reflexivity).
  replace (beq (bs "form-data") (bs "form-data")) with true by reflexivity. cbn [negb].
  destruct (get_str_after (bs "name=") SEMI (SEMI :: ps)) as [[s t]|] eqn:G; [eauto|].
  unfold get_str_after in G. pose proof (find_first_split (bs "name=") (SEMI :: ps) ltac:(discriminate)) as P.
  destruct (find_bytes (SEMI :: ps) (bs "name=")); [discriminate|]. exfalso. apply (P (S (length a))). exists (SEMI :: a), z. rewrite Ei. auto.
Qed.

(** * What a parsed [Content-Disposition] was *)

Lemma parse_content_disp_inv hs name fname :
  parse_content_disp hs = Ok (name, fname) ->
  exists v ps, header_value hs (bs "Content-Disposition") v /\ form_data v ps /\
    exists a s t, ps = a ++ bs "name=" ++ s ++ t /\ (forall i, occurs_at (bs "name=") ps i -> length a <= i) /\
    ~ In SEMI s /\ cut t /\ name = trim_quotes s /\
    match fname with
    | None => absent (bs "filename=") t
    | Some f => exists a' s' t', first_split (bs "filename=") t a' (s' ++ t') /\ ~ In SEMI s' /\ cut t' /\ f = trim_quotes s'
    end.
Proof.
  unfold parse_content_disp. destruct (find_header hs (bs "Content-Disposition")) as [v|] eqn:F; [|discriminate].
  unfold split_once. pose proof (find_byte_inv SEMI v) as B.
  revert B. destruct (find_bytes v [SEMI]) as [i|]; intros B; [|discriminate].
  destruct B as [B1 B2].
  destruct (beq (trim_white (firstn i v)) (bs "form-data")) eqn:E; cbn [negb]; [|discriminate].
  apply beq_eq in E.
  assert (Hs : skipn i v = SEMI :: skipn (S i) v).
  { apply (app_inv_head (firstn i v)). rewrite firstn_skipn. exact B2. }
  rewrite Hs. set (ps := skipn (S i) v) in *.
  destruct (get_str_after (bs "name=") SEMI (SEMI :: ps)) as [[s t]|] eqn:G; [|discriminate].
  apply get_str_after_inv in G as (a & G1 & G2 & G3 & G4).
  destruct a as [|x a]; [discriminate|]. simpl in G1. injection G1 as <- G1.
  intros H. injection H as <- <-.
  exists v, ps. split; [now apply find_header_some|]. split.
  { destruct (trim_white_inv (firstn i v)) as (w1 & w2 & W & W1 & W2). rewrite E in W.
    exists w1, w2. split; auto. rewrite B2 at 1. rewrite W. repeat rewrite <- app_assoc. reflexivity. }
  exists a, s, t. split; [exact G1|]. split.
  { intros j (u & z & Hj & <-). apply find_bytes_some in G4 as (_ & _ & G4).
    destruct (Nat.le_gt_cases (length a) (length u)) as [|L]; auto.
    specialize (G4 (S (length u)) ltac:(simpl; lia)). simpl skipn in G4. rewrite Hj in G4.
    rewrite skipn_app, skipn_all, Nat.sub_diag in G4. simpl app in G4.
    apply sw_false_iff in G4. exfalso. apply G4. exists z. reflexivity. }
  split; auto. split; auto. split; auto.
  destruct (get_str_after (bs "filename=") SEMI t) as [[s' t']|] eqn:K.
  - apply get_str_after_inv in K as (a' & K1 & K2 & K3 & K4).
    exists a', s', t'. split; auto. apply find_split; auto.
  - unfold get_str_after in K. pose proof (find_first_split (bs "filename=") t ltac:(discriminate)) as P.
    revert P K. destruct (find_bytes t (bs "filename=")); [discriminate|auto].
Qed.

(** [name="N"], then any further parameters without "filename=", then possibly [filename="F"] and more. *)
Definition params (mid : bytes) (fname : option bytes) (tail : bytes) : bytes :=
  mid ++ match fname with Some f => bs "; filename=" ++ quoted f ++ tail | None => [] end.

Lemma quoted_no_semi s : ~ In SEMI s -> ~ In SEMI (quoted s).
Proof.
  intros H Hi. unfold quoted in Hi. apply in_app_or in Hi as [[Hi|[]]|Hi]; [discriminate|].
  apply in_app_or in Hi as [Hi|[Hi|[]]]; [auto|discriminate].
Qed.

Lemma find_shift h n a i :
  find_bytes h n = Some i -> (forall j, j < length a -> starts_with (skipn j (a ++ h)) n = false) ->
  find_bytes (a ++ h) n = Some (length a + i).
Proof.
  intros F Ha. apply find_bytes_some in F as (L & S1 & S2). apply find_bytes_complete.
  - rewrite <- skipn_skipn', skipn_app, skipn_all, Nat.sub_diag. exact S1.
  - rewrite app_length. lia.
  - intros j Hj. destruct (Nat.lt_ge_cases j (length a)) as [K|K]; auto.
    rewrite skipn_app, skipn_all2 by lia. apply S2. lia.
Qed.

(** A needle without the byte [c] cannot straddle a [c]. *)
Lemma no_straddle n mid c h :
  ~ In c n -> absent n mid -> forall j, j < length mid -> starts_with (skipn j (mid ++ c :: h)) n = false.
Proof.
  intros Hc Ha j Hj. destruct (starts_with (skipn j (mid ++ c :: h)) n) eqn:E; auto. exfalso.
  rewrite skipn_app_le in E by lia.
  destruct (Nat.le_gt_cases (length n) (length (skipn j mid))) as [L|L].
  - apply sw_app_inv in E; auto. apply (Ha j). apply occurs_at_sw. split; auto. lia.
  - apply sw_iff in E as [t E].
    assert (Hin : In c (firstn (length n) (n ++ t))).
    { rewrite <- E. rewrite firstn_app. apply in_or_app. right.
      destruct (length n - length (skipn j mid)) eqn:Q; [lia|]. left; auto. }
    rewrite firstn_app, Nat.sub_diag, firstn_all, firstn_O, app_nil_r in Hin. auto.
Qed.

Lemma parse_content_disp_written hs name mid fname tail :
  header_value hs (bs "Content-Disposition") (bs "form-data; name=" ++ quoted name ++ params mid fname tail) ->
  ~ In SEMI name -> (forall t, name <> 34%N :: t) -> (forall t, name <> t ++ [34%N]) ->
  cut mid -> cut tail -> absent (bs "filename=") mid ->
  match fname with
  | Some f => ~ In SEMI f /\ (forall t, f <> 34%N :: t) /\ (forall t, f <> t ++ [34%N])
  | None => True
  end ->
  parse_content_disp hs = Ok (name, fname).
Proof.
  intros Hv N1 N2 N3 Hmid Htail Ha Hf. apply find_header_some in Hv.
  unfold parse_content_disp. rewrite Hv. unfold split_once.
  set (X := quoted name ++ params mid fname tail).
  change (bs "form-data; name=" ++ X) with (bs "form-data" ++ SEMI :: bs " name=" ++ X).
  rewrite find_byte_some by (vm_compute; intuition discriminate).
  rewrite firstn_app, firstn_all, Nat.sub_diag, firstn_O, app_nil_r.
  rewrite skipn_app, skipn_all, Nat.sub_diag.
  replace (beq (trim_white (bs "form-data")) (bs "form-data")) with true by (vm_compute; reflexivity).
  cbn [negb]. change ([] ++ skipn 0 (SEMI :: bs " name=" ++ X)) with (bs "; " ++ bs "name=" ++ X).
  assert (Hc : cut (params mid fname tail)).
  { unfold params. destruct Hmid as [->|[u ->]].
    - destruct fname as [f|]; [right; eexists; reflexivity|left; reflexivity].
    - right. eexists. reflexivity. }
  rewrite (get_str_after_at (bs "name=") _ (bs "; ") (quoted name) (params mid fname tail)); auto.
  2: { apply quoted_no_semi; auto. }
  rewrite trim_quotes_quoted by auto. f_equal. f_equal.
  destruct fname as [f|].
  - unfold params. change (bs "; filename=" ++ quoted f ++ tail) with (bs "; " ++ bs "filename=" ++ quoted f ++ tail).
    destruct Hf as (F1 & F2 & F3).
    rewrite (get_str_after_at (bs "filename=") _ (mid ++ bs "; ") (quoted f) tail); auto.
    + f_equal. apply trim_quotes_quoted; auto.
    + rewrite <- app_assoc. reflexivity.
    + rewrite app_length. apply find_shift; [reflexivity|].
      change (bs "; " ++ bs "filename=" ++ quoted f ++ tail) with (SEMI :: (bs " filename=" ++ quoted f ++ tail)).
      apply no_straddle; auto. vm_compute. intuition discriminate.
    + apply quoted_no_semi; auto.
  - unfold params. rewrite app_nil_r. unfold get_str_after.
    pose proof (find_first_split (bs "filename=") mid ltac:(discriminate)) as P.
    revert P. destruct (find_bytes mid (bs "filename=")) as [i|]; intros P; auto.
    destruct P as [P _]. exfalso. apply (Ha (length (firstn i mid))). exists (firstn i mid), (skipn (i + length (bs "filename=")) mid). auto.
Qed.

(** The reverse order: the name is taken from the file name. *)
Lemma parse_content_disp_reversed hs name fname :
  header_value hs (bs "Content-Disposition") (bs "form-data; filename=" ++ quoted fname ++ bs "; name=" ++ quoted name) ->
  ~ In SEMI fname -> (forall t, fname <> 34%N :: t) -> (forall t, fname <> t ++ [34%N]) ->
  absent (bs "filename=") (bs "; name=" ++ quoted name) ->
  parse_content_disp hs = Ok (fname, None).
Proof.
  intros Hv N1 N2 N3 Ha. apply find_header_some in Hv.
  unfold parse_content_disp. rewrite Hv. unfold split_once.
  set (X := quoted fname ++ bs "; name=" ++ quoted name).
  change (bs "form-data; filename=" ++ X) with (bs "form-data" ++ SEMI :: bs " filename=" ++ X).
  rewrite find_byte_some by (vm_compute; intuition discriminate).
  rewrite firstn_app, firstn_all, Nat.sub_diag, firstn_O, app_nil_r.
  rewrite skipn_app, skipn_all, Nat.sub_diag.
  replace (beq (trim_white (bs "form-data")) (bs "form-data")) with true by (vm_compute; reflexivity).
  cbn [negb]. change ([] ++ skipn 0 (SEMI :: bs " filename=" ++ X)) with (bs "; file" ++ bs "name=" ++ X).
  rewrite (get_str_after_at (bs "name=") _ (bs "; file") (quoted fname) (bs "; name=" ++ quoted name)); auto.
  - rewrite trim_quotes_quoted by auto. f_equal. f_equal. unfold get_str_after.
    pose proof (find_first_split (bs "filename=") (bs "; name=" ++ quoted name) ltac:(discriminate)) as P.
    revert P. destruct (find_bytes (bs "; name=" ++ quoted name) (bs "filename=")) as [i|]; intros P; auto.
    destruct P as [P _]. exfalso. eapply Ha. eexists _, _. split; [exact P|reflexivity].
  - apply quoted_no_semi; auto.
  - right. eexists. reflexivity.
Qed.

(** * UTF-8 and ASCII cuts *)

Lemma encode_ascii c : scalar c -> (exists x, In x (encode_char c) /\ (x < 128)%N) -> encode_char c = [c] /\ (c < 128)%N.
Proof.
  intros Hs (x & Hx & L). unfold encode_char in *.
  destruct (c <? 128)%N eqn:E1; [split; auto; lia|]. exfalso.
  destruct (c <? 2048)%N eqn:E2; [|destruct (c <? 65536)%N eqn:E3]; cbn [In] in Hx; intuition lia.
Qed.

Lemma utf8_cut a c b : (c < 128)%N -> utf8_string (a ++ c :: b) -> utf8_string a /\ utf8_string b.
Proof.
  intros L (cs & Hs & E). revert a E. induction Hs as [|x cs Hx Hs IH]; intros a E; simpl in E.
  - destruct a; discriminate.
  - destruct (Nat.le_gt_cases (length (encode_char x)) (length a)) as [Q|Q].
    + assert (exists a', a = encode_char x ++ a') as [a' ->].
      { exists (skipn (length (encode_char x)) a).
        assert (F : firstn (length (encode_char x)) (a ++ c :: b) = encode_char x).
        { rewrite E, firstn_app, Nat.sub_diag, firstn_all, firstn_O. apply app_nil_r. }
        rewrite firstn_app_le in F by auto. rewrite <- F at 1. now rewrite firstn_skipn. }
      rewrite <- app_assoc in E. apply app_inv_head in E. destruct (IH _ E) as [H1 H2]. split; auto.
      apply utf8_string_app; auto. exists [x]. split; [constructor; auto|]. simpl. now rewrite app_nil_r.
    + destruct (encode_ascii x Hx) as [F1 F2].
      { exists c. split; auto.
        assert (F : firstn (length (encode_char x)) (a ++ c :: b) = encode_char x).
        { rewrite E, firstn_app, Nat.sub_diag, firstn_all, firstn_O. apply app_nil_r. }
        rewrite <- F, firstn_app. apply in_or_app. right. destruct (length (encode_char x) - length a) eqn:K; [lia|left; auto]. }
      rewrite F1 in E. destruct a as [|y a].
      * injection E as -> ->. split; [apply utf8_string_nil|]. exists cs. auto.
      * rewrite F1 in Q. simpl in Q. lia.
Qed.

Lemma utf8_cuts n : Forall (fun c => (c < 128)%N) n -> n <> [] ->
  forall a b, utf8_string (a ++ n ++ b) -> utf8_string a /\ utf8_string b.
Proof.
  induction 1 as [|c n Hc Hn IH]; intros Hn0 a b H; [congruence|].
  cbn [app] in H. pose proof (utf8_cut _ _ _ Hc H) as [H1 H2]. split; auto.
  destruct n as [|d n]; auto. destruct (IH ltac:(discriminate) [] b H2); auto.
Qed.

Lemma utf8_strip_left q s : Forall (eq QUOTE) q -> utf8_string (q ++ s) -> utf8_string s.
Proof.
  intros Hq H. destruct q as [|c q]; auto.
  apply (utf8_cuts (c :: q) ltac:(eapply Forall_impl; [|exact Hq]; intros d <-; reflexivity) ltac:(discriminate) [] s H).
Qed.

Lemma utf8_strip_right q s : Forall (eq QUOTE) q -> utf8_string (s ++ q) -> utf8_string s.
Proof.
  intros Hq H. destruct q as [|c q]; [now rewrite app_nil_r in H|].
  apply (utf8_cuts (c :: q) ltac:(eapply Forall_impl; [|exact Hq]; intros d <-; reflexivity) ltac:(discriminate) s []).
  now rewrite app_nil_r.
Qed.

Lemma utf8_trim_quotes s : utf8_string s -> utf8_string (trim_quotes s).
Proof.
  intros H. destruct (trim_quotes_inv s) as (q1 & q2 & E & H1 & H2). rewrite E in H.
  apply (utf8_strip_right q2); auto. apply (utf8_strip_left q1); auto.
Qed.

Lemma utf8_until s t : cut t -> utf8_string (s ++ t) -> utf8_string s /\ utf8_string t.
Proof.
  intros [->|[u ->]] H.
  - rewrite app_nil_r in H. split; auto. apply utf8_string_nil.
  - destruct (utf8_cut s SEMI u ltac:(reflexivity) H) as [H1 H2]. split; auto.
    apply (utf8_string_app [SEMI] u); auto. exists [SEMI]. split; [repeat constructor; reflexivity|reflexivity].
Qed.

Lemma copy_headers_iff hs : copy_headers hs = true <-> Forall (fun h => utf8_string (snd h)) hs.
Proof. unfold copy_headers. rewrite forallb_forall, Forall_forall. split; intros H h Hh; apply valid_utf8_iff; auto. Qed.

Lemma parse_content_disp_utf8 hs name fname :
  Forall (fun h => utf8_string (snd h)) hs -> parse_content_disp hs = Ok (name, fname) ->
  utf8_string name /\ match fname with Some f => utf8_string f | None => True end.
Proof.
  intros Hu H. apply parse_content_disp_inv in H as (v & ps & Hv & (w1 & w2 & E & _) & a & s & t & P & _ & _ & Ht & -> & Hf).
  assert (Uv : utf8_string v).
  { destruct Hv as (l & n & r & -> & _). apply Forall_app in Hu as [_ Hu]. inversion Hu; auto. }
  assert (A : forall m x y, utf8_string (x ++ bs m ++ y) -> Forall (fun c => (c < 128)%N) (bs m) -> bs m <> [] -> utf8_string y).
  { intros m x y U1 U2 U3. exact (proj2 (utf8_cuts _ U2 U3 _ _ U1)). }
  rewrite E in Uv. replace (w1 ++ _) with ((w1 ++ bs "form-data" ++ w2) ++ bs ";" ++ ps) in Uv
    by (repeat rewrite <- app_assoc; reflexivity).
  apply A in Uv; [|repeat constructor|discriminate]. rewrite P in Uv.
  apply A in Uv; [|repeat constructor|discriminate].
  apply utf8_until in Uv as [U1 U2]; auto. split; [now apply utf8_trim_quotes|].
  destruct fname as [f|]; auto. destruct Hf as (a' & s' & t' & [E' _] & _ & Ht' & ->).
  rewrite E' in U2. apply A in U2; [|repeat constructor|discriminate].
  apply utf8_until in U2 as [U3 _]; auto. now apply utf8_trim_quotes.
Qed.
