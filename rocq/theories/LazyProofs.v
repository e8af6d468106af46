(** Lemmas on the lazy client. *)

From Verif Require Import Bytes BytesProofs Spec Io Boundary BoundaryProofs Utf8 Field Rand Fs HeaderSpec WireSpec Client ClientProofs Lazy.

(** What a cursor still has. *)
Definition rest (c : cursor) : bytes := skipn (c_pos c) (c_data c).
Definition inside (c : cursor) : Prop := c_pos c <= length (c_data c).

Lemma rest_length c : inside c -> length (rest c) = length (c_data c) - c_pos c.
Proof. intros _. apply skipn_length. Qed.

Lemma at_end_rest c : inside c -> cursor_at_end c = match rest c with [] => true | _ => false end.
Proof.
  intros H. pose proof (rest_length c H) as L. unfold cursor_at_end, inside in *.
  destruct (rest c); simpl in L; destruct (Nat.eqb_spec (c_pos c) (length (c_data c))); auto; lia.
Qed.

Lemma cursor_read_spec n c d c1 : cursor_read n c = (d, c1) -> inside c ->
  d = firstn n (rest c) /\ rest c1 = skipn n (rest c) /\ inside c1 /\ c_data c1 = c_data c.
Proof.
  unfold cursor_read. intros H I. injection H as <- <-. unfold inside in *. fold (rest c).
  assert (L : length (rest c) = length (c_data c) - c_pos c) by (apply skipn_length).
  split; auto. unfold rest at 1. cbn [c_data c_pos]. rewrite firstn_length, L. split; [|split; auto; lia].
  unfold rest. destruct (Nat.le_gt_cases n (length (c_data c) - c_pos c)).
  - rewrite Nat.min_l by lia. now rewrite skipn_skipn'.
  - rewrite Nat.min_r by lia. rewrite !skipn_all2; auto; [rewrite skipn_length|]; lia.
Qed.

(** Sources. *)
Lemma source_read_spec n t x t1 : source_read n t = (x, t1) -> 0 < n ->
  match x with
  | inr [] => retried t = []
  | inr d => retried t = d ++ retried t1 /\ length d <= n /\ transport_size t1 + length d <= transport_size t
  | inl k => retried t = retried t1 /\ transport_size t1 < transport_size t
  end /\ (calm t -> (exists d, x = inr d) /\ (x <> inr [] -> calm t1)).
Proof.
  intros H N. destruct t as [|[c|k] t]; cbn [source_read] in H.
  - injection H as <- <-. split; auto. intros _. split; eauto. congruence.
  - destruct (Nat.leb_spec (length c) n) as [L|L]; injection H as <- <-.
    + destruct c as [|c0 c].
      * cbn [retried]. split; auto. intros _. split; eauto. intros []; reflexivity.
      * unfold transport_size. cbn [retried stream length calm]. rewrite app_length. cbn [length] in *. split; [split; auto; split; lia|]. eauto.
    + destruct c as [|c0 c]; [cbn in L; lia|]. destruct n as [|n]; [lia|]. cbn [firstn skipn].
      assert (E : c = firstn n c ++ skipn n c) by (symmetry; apply firstn_skipn).
      cbn [length] in L. assert (L2 : length (firstn n c) = n) by (apply firstn_length_le; lia).
      assert (L3 : length (skipn n c) = length c - n) by apply skipn_length.
      destruct (skipn n c) as [|e0 e] eqn:K; [cbn [length] in L3; lia|].
      unfold transport_size. cbn [retried stream length calm]. rewrite !app_length. cbn [length].
      split; [split; [|split]|].
      * cbn [app]. f_equal. rewrite E at 1. now rewrite <- app_assoc.
      * lia.
      * cbn [length] in *. lia.
      * cbn [calm]. eauto.
  - injection H as <- <-. unfold transport_size. cbn [retried stream length calm]. split; [split; auto; lia|tauto].
Qed.

(** Fields. *)
Definition field_rest (f : pfield) : bytes := rest (f_header f) ++ retried (f_stream f).
Definition field_left (f : pfield) : nat := length (rest (f_header f)) + transport_size (f_stream f).

Lemma field_read_spec n f x f1 : field_read n f = (x, f1) -> 0 < n -> inside (f_header f) ->
  inside (f_header f1) /\
  match x with
  | inr [] => field_rest f = []
  | inr d => field_rest f = d ++ field_rest f1 /\ length d <= n /\ field_left f1 + length d <= field_left f
  | inl k => field_rest f = field_rest f1 /\ field_left f1 < field_left f
  end /\ (calm (f_stream f) -> (exists d, x = inr d) /\ (x <> inr [] -> calm (f_stream f1))).
Proof.
  intros H N I. unfold field_read in H. rewrite at_end_rest in H by auto. unfold field_rest, field_left.
  destruct (rest (f_header f)) as [|h0 h] eqn:R; cbn [negb] in H.
  - destruct (source_read n (f_stream f)) as [y t] eqn:E. injection H as <- <-. cbn [f_header f_stream]. split; auto.
    apply source_read_spec in E as [E1 E2]; auto. rewrite R. cbn [app length]. split; [|exact E2].
    destruct y as [k|[|d0 d]]; auto.
  - destruct (cursor_read n (f_header f)) as [d c] eqn:E. apply cursor_read_spec in E as (E1 & E2 & E3 & E4); auto.
    injection H as <- <-. cbn [f_header f_stream]. split; auto. rewrite R in E1, E2. rewrite E2.
    assert (D : d <> []) by (rewrite E1; destruct n; [lia|discriminate]).
    destruct d as [|d0 d]; [congruence|]. rewrite E1. split.
    + rewrite app_assoc, firstn_skipn, firstn_length, skipn_length. split; auto. split; lia.
    + intros C. split; eauto.
Qed.

(** What is still to come. *)
Definition pending (s : prepared) : bytes :=
  if cursor_at_end (s_end s) then []
  else rest (s_text s) ++ concat (map field_rest (s_streams s)) ++ rest (s_end s).

Definition left_over (s : prepared) : nat :=
  length (rest (s_text s)) + list_sum (map field_left (s_streams s)) + length (rest (s_end s)).

Definition valid (s : prepared) : Prop :=
  inside (s_text s) /\ inside (s_end s) /\ Forall (fun f => inside (f_header f)) (s_streams s).

Definition all_calm (s : prepared) : Prop := Forall (fun f => calm (f_stream f)) (s_streams s).

Definition same (s s1 : prepared) : Prop :=
  c_data (s_end s1) = c_data (s_end s) /\ s_len s1 = s_len s.

Lemma same_refl s : same s s.
Proof. split; auto. Qed.

Lemma same_trans a b c : same a b -> same b c -> same a c.
Proof. unfold same. intuition congruence. Qed.

Lemma firstn_nonempty (n : nat) (b : bytes) : 0 < n -> b <> [] -> firstn n b <> [].
Proof. destruct n, b; simpl; try lia; congruence. Qed.

Lemma loop_spec fuel : forall n acc s x s1, read_loop fuel n acc s = (x, s1) -> valid s -> length acc <= n ->
  n - length acc + length (s_streams s) < fuel ->
  valid s1 /\ same s s1 /\
  match x with
  | Ok d => exists e, d = acc ++ e /\ length d <= n /\ pending s = e ++ pending s1 /\ (length d = n \/ pending s1 = []) /\
      left_over s1 + length e <= left_over s
  | Err k => exists lost, pending s = lost ++ pending s1 /\ length acc + length lost < n /\ left_over s1 + length lost < left_over s
  | _ => False
  end /\ (all_calm s -> (exists d, x = Ok d) /\ all_calm s1).
Proof.
  induction fuel as [|fuel IH]; intros n acc s x s1 H V L Hf; [lia|]. cbn [read_loop] in H.
  destruct V as (V1 & V2 & V3).
  destruct (Nat.ltb_spec (length acc) n) as [La|La]; cbn [andb] in H.
  2:{ injection H as <- <-. split; [unfold valid; auto|]. split; [apply same_refl|]. split; [|eauto].
      exists []. rewrite app_nil_r. cbn [app length]. split; auto. split; [lia|]. split; auto. split; [left; lia|lia]. }
  destruct (cursor_at_end (s_end s)) eqn:Ee; cbn [negb] in H.
  { injection H as <- <-. split; [unfold valid; auto|]. split; [apply same_refl|]. split; [|eauto].
    exists []. rewrite app_nil_r. unfold pending. rewrite Ee. cbn [app length]. split; auto. split; [lia|]. split; auto. split; [auto|lia]. }
  rewrite (at_end_rest (s_text s)) in H by auto.
  destruct (rest (s_text s)) as [|r0 r] eqn:Rt; cbn [negb] in H.
  - destruct (s_streams s) as [|f fs] eqn:Fs.
    + (* closing delimiter *)
      destruct (cursor_read (n - length acc) (s_end s)) as [d c] eqn:E. apply cursor_read_spec in E as (E1 & E2 & E3 & E4); auto.
      pose proof Ee as Ee0. rewrite at_end_rest in Ee by auto.
      assert (D : d <> []) by (rewrite E1; apply firstn_nonempty; [lia|]; destruct (rest (s_end s)); [discriminate|congruence]).
      assert (Ld : length d <= n - length acc) by (rewrite E1, firstn_length; lia).
      assert (L1 : 1 <= length d) by (destruct d; [congruence|simpl; lia]).
      assert (P : pending s = d ++ pending (mkPrep (s_text s) [] c (s_len s))).
      { unfold pending. rewrite Ee0, Rt, Fs. cbn [s_end s_text s_streams map concat app]. rewrite Rt. cbn [app].
        rewrite (at_end_rest c) by auto. rewrite E1, <- (firstn_skipn (n - length acc) (rest (s_end s))) at 1. rewrite E2.
        destruct (skipn (n - length acc) (rest (s_end s))); reflexivity. }
      assert (Lo : left_over (mkPrep (s_text s) [] c (s_len s)) + length d = left_over s).
      { unfold left_over. cbn [s_end s_text s_streams map list_sum fold_right]. rewrite Fs, E2, E1. cbn [map list_sum fold_right].
        rewrite firstn_length, skipn_length. lia. }
      apply IH in H; [|unfold valid; cbn; auto|rewrite app_length; lia|rewrite app_length; cbn [s_streams length] in *; lia].
      destruct H as (H1 & H2 & H3 & H4). split; auto. split; [eapply same_trans; [|exact H2]; split; auto|]. split.
      * destruct x as [y|k| |]; auto.
        -- destruct H3 as (e & -> & H5 & H6 & H7 & H8). exists (d ++ e). rewrite app_assoc. split; auto. split; auto.
           rewrite P, H6, app_assoc. split; auto. split; auto. rewrite app_length. lia.
        -- destruct H3 as (l & H5 & H6 & H7). exists (d ++ l). rewrite P, H5, app_assoc. rewrite !app_length in *. split; auto. split; lia.
      * intros _. apply H4. constructor.
    + (* a stream *)
      pose proof (Forall_inv V3) as Vf. pose proof (Forall_inv_tail V3) as Vfs. cbn beta in Vf.
      destruct (field_read (n - length acc) f) as [y f1] eqn:E. apply field_read_spec in E as (E1 & E2 & E3); [|lia|auto].
      destruct y as [k|[|d0 d]].
      * (* failed *)
        injection H as <- <-. destruct E2 as [E2 E4]. split; [unfold valid; cbn; auto|]. split; [split; auto|]. split.
        -- exists []. unfold pending, left_over. cbn [s_end s_text s_streams map concat app length list_sum fold_right]. rewrite Ee, Rt, Fs.
           cbn [app map concat list_sum fold_right length]. rewrite E2. split; auto. split; lia.
        -- intros C. unfold all_calm in C. rewrite Fs in C. apply Forall_inv in C. destruct (E3 C) as [[d Hd] _]. discriminate.
      * (* at its end *)
        assert (P : pending s = pending (mkPrep (s_text s) fs (s_end s) (s_len s))).
        { unfold pending. cbn [s_end s_text s_streams]. rewrite Ee, Fs. cbn [map concat]. now rewrite E2. }
        assert (Lo : left_over (mkPrep (s_text s) fs (s_end s) (s_len s)) <= left_over s).
        { unfold left_over. cbn [s_end s_text s_streams]. rewrite Fs. cbn [map list_sum fold_right]. fold (list_sum (map field_left fs)). lia. }
        apply IH in H; [|unfold valid; cbn; auto|auto|cbn [s_streams length] in *; lia].
        destruct H as (H1 & H2 & H3 & H4). split; auto. split; [eapply same_trans; [|exact H2]; split; auto|]. split.
        -- rewrite P. destruct x as [y|k| |]; auto.
           ++ destruct H3 as (e & H3). exists e. intuition lia.
           ++ destruct H3 as (e & H3). exists e. intuition lia.
        -- intros C. apply H4. unfold all_calm in *. rewrite Fs in C. now apply Forall_inv_tail in C.
      * set (D := d0 :: d) in *. destruct E2 as (E2 & E4 & E5). assert (L1 : 1 <= length D) by (simpl; lia).
        assert (P : pending s = D ++ pending (mkPrep (s_text s) (f1 :: fs) (s_end s) (s_len s))).
        { unfold pending. cbn [s_end s_text s_streams]. rewrite Ee, Fs, Rt. cbn [map concat app]. now rewrite E2, <- !app_assoc. }
        assert (Lo : left_over (mkPrep (s_text s) (f1 :: fs) (s_end s) (s_len s)) + length D <= left_over s).
        { unfold left_over. cbn [s_end s_text s_streams]. rewrite Fs. cbn [map list_sum fold_right]. lia. }
        apply IH in H; [|unfold valid; cbn; auto|rewrite app_length; lia|rewrite app_length; cbn [s_streams length] in *; lia].
        destruct H as (H1 & H2 & H3 & H4). split; auto. split; [eapply same_trans; [|exact H2]; split; auto|]. split.
        -- destruct x as [y|k| |]; auto.
           ++ destruct H3 as (e & -> & H5 & H6 & H7 & H8). exists (D ++ e). rewrite app_assoc. split; auto. split; auto.
              rewrite P, H6, app_assoc. split; auto. split; auto. rewrite app_length. lia.
           ++ destruct H3 as (l & H5 & H6 & H7). exists (D ++ l). rewrite P, H5, app_assoc. rewrite !app_length in *. split; auto. split; lia.
        -- intros C. apply H4. unfold all_calm in *. rewrite Fs in C. cbn [s_streams]. inversion_clear C. constructor; auto.
           apply E3; auto. discriminate.
  - (* text *)
    destruct (cursor_read (n - length acc) (s_text s)) as [d c] eqn:E. apply cursor_read_spec in E as (E1 & E2 & E3 & E4); auto.
    assert (D : d <> []) by (rewrite E1, Rt; apply firstn_nonempty; [lia|congruence]).
    assert (Ld : length d <= n - length acc) by (rewrite E1, firstn_length; lia).
    assert (L1 : 1 <= length d) by (destruct d; [congruence|simpl; lia]).
    assert (P : pending s = d ++ pending (mkPrep c (s_streams s) (s_end s) (s_len s))).
    { unfold pending. cbn [s_end s_text s_streams]. rewrite Ee, E2, E1, (app_assoc (firstn _ _)), firstn_skipn. reflexivity. }
    assert (Lo : left_over (mkPrep c (s_streams s) (s_end s) (s_len s)) + length d = left_over s).
    { unfold left_over. cbn [s_end s_text s_streams]. rewrite E2, E1, firstn_length, skipn_length. lia. }
    apply IH in H; [|unfold valid; cbn; auto|rewrite app_length; lia|rewrite app_length; cbn [s_streams length] in *; lia].
    destruct H as (H1 & H2 & H3 & H4). split; auto. split; [eapply same_trans; [|exact H2]; split; auto|]. split.
    + destruct x as [y|k| |]; auto.
      * destruct H3 as (e & -> & H5 & H6 & H7 & H8). exists (d ++ e). rewrite app_assoc. split; auto. split; auto.
        rewrite P, H6, app_assoc. split; auto. split; auto. rewrite app_length. lia.
      * destruct H3 as (l & H5 & H6 & H7). exists (d ++ l). rewrite P, H5, app_assoc. rewrite !app_length in *. split; auto. split; lia.
    + intros C. apply H4. exact C.
Qed.

(** One call of [read]. *)
Lemma read_spec n s x s1 : lazy_read n s = (x, s1) -> valid s ->
  valid s1 /\ same s s1 /\
  match x with
  | Ok d => pending s = d ++ pending s1 /\ length d <= n /\ (length d = n \/ pending s1 = []) /\ left_over s1 + length d <= left_over s
  | Err k => exists lost, pending s = lost ++ pending s1 /\ length lost < n /\ left_over s1 + length lost < left_over s
  | _ => False
  end /\ (all_calm s -> (exists d, x = Ok d) /\ all_calm s1).
Proof.
  unfold lazy_read. intros H V. destruct (Nat.eqb_spec n 0) as [->|N].
  - injection H as <- <-. split; auto. split; [apply same_refl|]. split; [|eauto]. cbn [app length]. split; auto. split; [lia|]. split; [auto|lia].
  - apply loop_spec in H; [|auto|cbn; lia|cbn [length]; lia]. destruct H as (H1 & H2 & H3 & H4). split; auto. split; auto. split; auto.
    destruct x as [d|k| |]; auto.
    + destruct H3 as (e & -> & H5 & H6 & H7 & H8). cbn [app] in *. tauto.
Qed.

Lemma read_calm n s : valid s -> all_calm s ->
  exists s1, lazy_read n s = (Ok (firstn n (pending s)), s1) /\ pending s1 = skipn n (pending s) /\ valid s1 /\ all_calm s1 /\ same s s1 /\
    left_over s1 + length (firstn n (pending s)) <= left_over s.
Proof.
  intros V C. destruct (lazy_read n s) as [x s1] eqn:E. apply read_spec in E as (V1 & S1 & E & F); auto.
  destruct (F C) as [[d ->] C1]. destruct E as (P & L & Q & Lo). exists s1. rewrite P. destruct Q as [Q|Q].
  - rewrite firstn_app_le, skipn_app_le by lia. rewrite firstn_all2, skipn_all2 by lia. cbn [app]. auto 10.
  - rewrite Q, app_nil_r, firstn_all2, skipn_all2 by lia. auto 10.
Qed.

(** All failures of the sources are of the kinds [K]. *)
Definition kinds (K : iokind -> Prop) (t : transport) : Prop := Forall (fun e => match e with Fail k => K k | _ => True end) t.
Definition all_kinds (K : iokind -> Prop) (s : prepared) : Prop := Forall (fun f => kinds K (f_stream f)) (s_streams s).

Lemma source_read_kinds K n t x t1 : source_read n t = (x, t1) -> kinds K t ->
  kinds K t1 /\ match x with inl k => K k | _ => True end.
Proof.
  unfold kinds. intros H F. destruct t as [|[c|k] t]; cbn [source_read] in H.
  - injection H as <- <-. auto.
  - destruct (length c <=? n); injection H as <- <-; split; auto; inversion_clear F; auto.
  - injection H as <- <-. inversion_clear F. auto.
Qed.

Lemma loop_kinds K fuel : forall n acc s x s1, read_loop fuel n acc s = (x, s1) -> all_kinds K s ->
  all_kinds K s1 /\ match x with Err k => K k | _ => True end.
Proof.
  unfold all_kinds. induction fuel as [|fuel IH]; intros n acc s x s1 H F; cbn [read_loop] in H; [injection H as <- <-; auto|].
  destruct ((length acc <? n) && negb (cursor_at_end (s_end s))); [|injection H as <- <-; auto].
  destruct (negb (cursor_at_end (s_text s))).
  - destruct (cursor_read _ _) as [d c]. apply IH in H; auto.
  - destruct (s_streams s) as [|f fs].
    + destruct (cursor_read _ _) as [d c]. apply IH in H; auto.
    + apply Forall_cons_iff in F as [F1 F2]. unfold field_read in H. destruct (negb (cursor_at_end (f_header f))).
      * destruct (cursor_read _ _) as [[|d0 d] c]; apply IH in H; auto; cbn [s_streams]; auto.
      * destruct (source_read _ _) as [y t] eqn:E. apply (source_read_kinds K) in E as [E1 E2]; auto.
        destruct y as [k|[|d0 d]]; [injection H as <- <-|apply IH in H|apply IH in H]; cbn [s_streams]; auto.
Qed.

Lemma read_kinds K n s x s1 : lazy_read n s = (x, s1) -> all_kinds K s -> all_kinds K s1 /\ match x with Err k => K k | _ => True end.
Proof. unfold lazy_read. destruct (n =? 0); [intros H; injection H as <- <-; auto|apply loop_kinds]. Qed.

(** ** Copying *)
Lemma copy_terminates fuel : forall n s q x s1 q1, copy_prepared fuel n s q = (x, s1, q1) -> 0 < n -> valid s -> left_over s < fuel ->
  x <> OutOfFuel /\ x <> Panic.
Proof.
  induction fuel as [|fuel IH]; intros n s q x s1 q1 H N V L; [lia|]. cbn [copy_prepared] in H.
  destruct (lazy_read n s) as [y s2] eqn:E. apply read_spec in E as (V2 & _ & E & _); auto. destruct y as [[|d0 d]|k| |]; try tauto.
  - injection H as <- <- <-. split; discriminate.
  - destruct E as (_ & _ & _ & E). cbn [length] in E. destruct (http_write_all q (d0 :: d)) as [[k|] q2].
    + injection H as <- <- <-. split; discriminate.
    + apply IH in H; auto. lia.
  - destruct E as (l & _ & _ & E). destruct (iokind_eqb k KInterrupted); [|injection H as <- <- <-; split; discriminate].
    apply IH in H; auto. lia.
Qed.

Lemma copy_prefix fuel : forall n s q x s1 q1, copy_prepared fuel n s q = (x, s1, q1) -> 0 < n -> valid s ->
  all_kinds (fun k => k <> KInterrupted) s ->
  exists d, http_took q d q1 /\ prefix_of d (pending s) /\ (x = Ok tt -> d = pending s).
Proof.
  induction fuel as [|fuel IH]; intros n s q x s1 q1 H N V K; cbn [copy_prepared] in H.
  { injection H as <- <- <-. exists []. split; [apply took_nil|]. split; [apply prefix_nil|discriminate]. }
  assert (Stop : forall y s2, y <> Ok tt -> (y, s2, q) = (x, s1, q1) ->
    exists d, http_took q d q1 /\ prefix_of d (pending s) /\ (x = Ok tt -> d = pending s)).
  { intros y s2 Y X. injection X as <- <- <-. exists []. split; [apply took_nil|]. split; [apply prefix_nil|congruence]. }
  destruct (lazy_read n s) as [y s2] eqn:E. pose proof (read_kinds _ _ _ _ _ E K) as [K2 Ky].
  apply read_spec in E as (V2 & _ & E & _); auto. destruct y as [[|d0 d]|k| |].
  - injection H as <- <- <-. exists []. split; [apply took_nil|]. split; [apply prefix_nil|]. intros _.
    destruct E as (E & _ & [E'|E'] & _); [cbn [length] in E'; lia|]. now rewrite E, E'.
  - destruct E as (E & _). destruct (http_write_all q (d0 :: d)) as [[k|] q2] eqn:W; unfold http_write_all in W; apply write_all_took in W as (w & T & P & D).
    + injection H as <- <- <-. exists w. split; auto. split; [|discriminate]. rewrite E. now apply prefix_more.
    + apply IH in H as (d' & T' & P' & D'); auto. exists ((d0 :: d) ++ d'). rewrite (D eq_refl) in T. split; [eapply took_trans; eauto|].
      rewrite E. split; [now apply prefix_app|]. intros X. now rewrite (D' X).
  - destruct k; cbn [iokind_eqb] in H; try congruence; (eapply Stop; [|exact H]; discriminate).
  - eapply Stop; [|exact H]; discriminate.
  - eapply Stop; [|exact H]; discriminate.
Qed.

Lemma copy_calm fuel : forall n s q, 0 < n -> valid s -> all_calm s -> http_good q -> left_over s < fuel ->
  exists s1 q1, copy_prepared fuel n s q = (Ok tt, s1, q1) /\ http_took q (pending s) q1 /\ http_good q1.
Proof.
  induction fuel as [|fuel IH]; intros n s q N V C G L; [lia|]. cbn [copy_prepared].
  destruct (read_calm n s V C) as (s1 & E & P & V1 & C1 & _ & Lo). rewrite E.
  destruct (firstn n (pending s)) as [|d0 d] eqn:F.
  - exists s1, q. split; auto. split; auto. destruct (pending s); [apply took_nil|]. destruct n; [lia|discriminate].
  - destruct (write_all_good (q_sched q) G (d0 :: d) q) as (q1 & W & G1). unfold http_write_all. rewrite W.
    cbn [length] in Lo. destruct (IH n s1 q1 N V1 C1 G1) as (s2 & q2 & E2 & T2 & G2); [lia|]. exists s2, q2. split; auto. split; auto.
    apply write_all_took in W as (w & T & _ & D). rewrite (D eq_refl) in T.
    rewrite <- (firstn_skipn n (pending s)), F, <- P. eapply took_trans; eauto.
Qed.

(** ** Preparing *)
Section WithMime.
Context (ML : mime_lib) (octet : mime ML) (guess : path -> mime ML).

Definition is_text (f : lfield (mime ML)) : bool := match l_data f with LText _ => true | _ => false end.

(** The order of the fields in the body: the texts, then the others in reverse. *)
Definition lazy_order (fs : lazy_form (mime ML)) : lazy_form (mime ML) :=
  filter is_text fs ++ rev (filter (fun f => negb (is_text f)) fs).

(** The source of a field. *)
Definition l_source (f : lfield (mime ML)) : transport :=
  match l_data f with
  | LText t => [Chunk t]
  | LFile _ (inr (_, src)) => src
  | LFile _ (inl _) => []
  | LStream _ _ src => src
  end.

(** A field as it should appear in the body. *)
Definition describe_lazy (f : lfield (mime ML)) : part :=
  match l_data f with
  | LText t => mkPart (l_name f) None None t
  | LFile p _ => mkPart (l_name f) (opt_filename p) (Some (mime_show ML (guess p))) (retried (l_source f))
  | LStream fn ct _ => mkPart (l_name f) fn (Some (mime_show ML ct)) (retried (l_source f))
  end.

(** A file that cannot be opened or measured. *)
Definition lfails (f : lfield (mime ML)) (k : iokind) : Prop :=
  match l_data f with
  | LFile _ (inl k') | LFile _ (inr (inl k', _)) => k = k'
  | _ => False
  end.

Definition prep_field (B : bytes) (f : lfield (mime ML)) : pfield :=
  match l_data f with
  | LText t => mkPF (cursor_new []) []
  | LFile p _ => from_stream ML (l_name f) B (guess p) (opt_filename p) (l_source f)
  | LStream fn ct _ => from_stream ML (l_name f) B ct fn (l_source f)
  end.

(** The length that is counted for a field. *)
Definition counted (B : bytes) (f : lfield (mime ML)) : N :=
  match l_data f with
  | LFile _ (inr (inr n, _)) => n + N.of_nat (length (c_data (f_header (prep_field B f))))
  | _ => 0
  end%N.

Definition is_stream (f : lfield (mime ML)) : bool := match l_data f with LStream _ _ _ => true | _ => false end.

Definition lazy_part (B : bytes) (p : part) : bytes := B ++ CRLF ++ p_head p ++ p_data p.

Lemma text_part B name t :
  B ++ CRLF ++ bs "Content-Disposition: form-data; name=""" ++ name ++ bs """" ++ CRLF ++ CRLF ++ t = lazy_part B (mkPart name None None t).
Proof. unfold lazy_part, p_head, head_text, disp_value, quoted. cbn [p_name p_fname p_ctype p_data]. rewrite !app_nil_l, <- !app_assoc. reflexivity. Qed.

Lemma stream_part name B ct fn src :
  c_data (f_header (from_stream ML name B ct fn src)) ++ retried src = lazy_part B (mkPart name fn (Some (mime_show ML ct)) (retried src)).
Proof.
  unfold from_stream, lazy_part, p_head, head_text, disp_value, quoted. cbn [p_name p_fname p_ctype p_data f_header cursor_new c_data].
  destruct fn; rewrite ?app_nil_l, <- !app_assoc; reflexivity.
Qed.

Lemma prepared_part B f : is_text f = false ->
  field_rest (prep_field B f) = lazy_part B (describe_lazy f) /\ inside (f_header (prep_field B f)) /\
  f_stream (prep_field B f) = l_source f /\ c_pos (f_header (prep_field B f)) = 0.
Proof.
  unfold is_text, prep_field, describe_lazy, field_rest, rest, l_source. destruct f as [n [t|p o|fn ct src]]; cbn [l_data l_name]; [discriminate| |]; intros _.
  - rewrite <- stream_part. cbn [from_stream f_header cursor_new c_pos skipn f_stream]. split; auto. split; [|split; auto]. unfold inside. cbn. lia.
  - rewrite <- stream_part. cbn [from_stream f_header cursor_new c_pos skipn f_stream]. split; auto. split; [|split; auto]. unfold inside. cbn. lia.
Qed.

Definition sumN (l : list N) : N := fold_right N.add 0%N l.

Lemma fields_loop B fs : forall text streams len use,
  match from_fields_loop ML guess B fs text streams len use with
  | inl e => exists l1 f l2 k, fs = l1 ++ f :: l2 /\ (forall f' k', In f' l1 -> ~ lfails f' k') /\ lfails f k /\ e = (Some (l_name f), k)
  | inr (text', streams', len', use') =>
      (forall f' k', In f' fs -> ~ lfails f' k') /\
      text' = text ++ concat (map (lazy_part B) (map describe_lazy (filter is_text fs))) /\
      streams' = rev (map (prep_field B) (filter (fun f => negb (is_text f)) fs)) ++ streams /\
      len' = (len + sumN (map (counted B) fs))%N /\ use' = use && negb (existsb is_stream fs)
  end.
Proof.
  induction fs as [|f fs IH]; intros text streams len use; cbn [from_fields_loop].
  { cbn. rewrite app_nil_r, andb_true_r, N.add_0_r. intuition. }
  assert (Step : forall text1 streams1 len1 use1, (forall k, ~ lfails f k) ->
    text1 ++ concat (map (lazy_part B) (map describe_lazy (filter is_text fs))) =
      text ++ concat (map (lazy_part B) (map describe_lazy (filter is_text (f :: fs)))) ->
    rev (map (prep_field B) (filter (fun f => negb (is_text f)) fs)) ++ streams1 =
      rev (map (prep_field B) (filter (fun f => negb (is_text f)) (f :: fs))) ++ streams ->
    len1 = (len + counted B f)%N -> use1 = use && negb (is_stream f) ->
    match from_fields_loop ML guess B fs text1 streams1 len1 use1 with
    | inl e => exists l1 f0 l2 k, f :: fs = l1 ++ f0 :: l2 /\ (forall f' k', In f' l1 -> ~ lfails f' k') /\ lfails f0 k /\ e = (Some (l_name f0), k)
    | inr (text', streams', len', use') =>
        (forall f' k', In f' (f :: fs) -> ~ lfails f' k') /\
        text' = text ++ concat (map (lazy_part B) (map describe_lazy (filter is_text (f :: fs)))) /\
        streams' = rev (map (prep_field B) (filter (fun f => negb (is_text f)) (f :: fs))) ++ streams /\
        len' = (len + sumN (map (counted B) (f :: fs)))%N /\ use' = use && negb (existsb is_stream (f :: fs))
    end).
  { intros text1 streams1 len1 use1 Nf H1 H2 H3 H4. specialize (IH text1 streams1 len1 use1).
    destruct (from_fields_loop ML guess B fs text1 streams1 len1 use1) as [e|[[[t' s'] l'] u']].
    - destruct IH as (l1 & f0 & l2 & k & -> & N1 & F & ->). exists (f :: l1), f0, l2, k. split; auto. split; auto.
      intros f' k' [<-|K]; auto.
    - destruct IH as (N1 & -> & -> & -> & ->). split; [intros f' k' [<-|K]; auto|]. split; auto. split; auto.
      cbn [map sumN fold_right existsb]. fold (sumN (map (counted B) fs)). rewrite H3, H4, negb_orb. split; [lia|now rewrite andb_assoc]. }
  destruct f as [n [t|p o|fn ct src]] eqn:Ef; cbn [l_data l_name].
  - apply Step; [intros k K; exact K|rewrite text_part, <- app_assoc; reflexivity|reflexivity| |].
    + unfold counted. cbn [l_data]. lia.
    + cbn. now rewrite andb_true_r.
  - unfold from_path, mime_filename. destruct o as [k|[[k|m] src]].
    + exists [], f, fs, k. rewrite Ef. split; auto. split; [intros ? ? []|]. split; reflexivity.
    + exists [], f, fs, k. rewrite Ef. split; auto. split; [intros ? ? []|]. split; reflexivity.
    + apply Step; [intros k K; exact K|reflexivity| |reflexivity|].
      * cbn [filter is_text l_data negb map rev]. rewrite <- app_assoc. reflexivity.
      * cbn. now rewrite andb_true_r.
  - apply Step; [intros k K; exact K|reflexivity| | |].
    + cbn [filter is_text l_data negb map rev]. rewrite <- app_assoc. reflexivity.
    + unfold counted. cbn [l_data]. lia.
    + cbn. now rewrite andb_false_r.
Qed.

Lemma lazy_wire_parts b l : l <> [] ->
  lazy_wire b l = concat (map (lazy_part (CRLF ++ DASHES ++ b)) l) ++ (CRLF ++ DASHES ++ b) ++ DASHES.
Proof.
  intros N. unfold lazy_wire, lazy_part. change crlf with CRLF. change dashes with DASHES. destruct l as [|p l]; [congruence|]. rewrite <- !app_assoc. reflexivity.
Qed.

Lemma order_nil fs : lazy_order fs = [] <-> fs = [].
Proof.
  split; [|intros ->; reflexivity]. destruct fs as [|f fs]; auto. unfold lazy_order. cbn [filter]. destruct (is_text f); cbn [negb]; [discriminate|].
  cbn [rev]. intros H. apply app_eq_nil in H as [_ H]. apply app_eq_nil in H as [_ H]. discriminate.
Qed.

Lemma lazy_part_nonempty b p : lazy_part (CRLF ++ DASHES ++ b) p <> [].
Proof. discriminate. Qed.

Lemma order_in f fs : In f (lazy_order fs) <-> In f fs.
Proof.
  unfold lazy_order. rewrite in_app_iff, <- in_rev, !filter_In. destruct (is_text f); simpl; intuition congruence.
Qed.

Definition start (s : prepared) : Prop :=
  c_pos (s_text s) = 0 /\ c_pos (s_end s) = 0 /\ Forall (fun f => c_pos (f_header f) = 0) (s_streams s).

Lemma from_fields_ok g fs s g1 : from_fields ML guess g fs = (inr s, g1) ->
  let b := fst (gen_boundary g) in
  (forall f k, In f fs -> ~ lfails f k) /\ valid s /\ start s /\
  pending s = lazy_wire b (map describe_lazy (lazy_order fs)) /\
  c_data (s_end s) = (match fs with [] => [] | _ => (CRLF ++ DASHES ++ b) ++ DASHES end) /\
  map f_stream (s_streams s) = map l_source (rev (filter (fun f => negb (is_text f)) fs)) /\
  s_len s = if existsb is_stream fs then None
            else Some (sumN (map (counted (CRLF ++ DASHES ++ b)) fs) + N.of_nat (length (c_data (s_end s))))%N.
Proof.
  unfold from_fields. destruct (gen_boundary g) as [b g2]. cbn [fst]. remember (CRLF ++ DASHES ++ b) as B eqn:EB.
  pose proof (fields_loop B fs [] [] 0%N true) as H.
  destruct (from_fields_loop ML guess B fs [] [] 0%N true) as [e|[[[text streams] len] use]]; [discriminate|].
  destruct H as (Nf & -> & -> & -> & ->). rewrite app_nil_r, app_nil_l, N.add_0_l. cbn [andb].
  set (T := concat (map (lazy_part B) (map describe_lazy (filter is_text fs)))).
  set (S := rev (map (prep_field B) (filter (fun f => negb (is_text f)) fs))).
  intros X. injection X as <- <-. cbn [s_text s_streams s_end s_len].
  assert (NT : forall f, In f (rev (filter (fun f => negb (is_text f)) fs)) -> is_text f = false).
  { intros f Hf. apply in_rev in Hf. apply filter_In in Hf as [_ Hf]. now apply negb_true_iff in Hf. }
  assert (SE : S = map (prep_field B) (rev (filter (fun f => negb (is_text f)) fs))) by (unfold S; now rewrite map_rev).
  assert (CE : (match T, S with [], [] => [] | _, _ => B ++ DASHES end) = match fs with [] => [] | _ => B ++ DASHES end).
  { destruct fs as [|f fs']; [reflexivity|]. unfold T, S. cbn [filter]. destruct (is_text f); cbn [negb map concat].
    - destruct (lazy_part B (describe_lazy f)) eqn:Z; [rewrite EB in Z; now apply lazy_part_nonempty in Z|]. reflexivity.
    - cbn [map rev].
      assert (Any : forall (t : bytes) (l : list pfield) x (y : bytes), match t, l ++ [x] with [], [] => [] | _, _ => y end = y)
        by (intros [|] [|] x y; reflexivity).
      apply Any. }
  rewrite CE. split; [exact Nf|]. split; [|split; [|split; [|split; [|split]]]].
  - split; [|split]; try (unfold inside; cbn; lia). rewrite SE. apply Forall_map, Forall_forall. intros f Hf. now apply prepared_part, NT.
  - split; [|split]; auto. rewrite SE. apply Forall_map, Forall_forall. intros f Hf. now apply prepared_part, NT.
  - unfold pending. cbn [s_text s_streams s_end]. 
    assert (Ne : fs = [] \/ fs <> []) by (destruct fs; [left; reflexivity|right; discriminate]).
    destruct Ne as [Ne|Ne]; [unfold lazy_order; rewrite Ne; reflexivity|].
    replace (match fs with [] => [] | _ => B ++ DASHES end) with (B ++ DASHES) by (destruct fs; congruence).
    rewrite at_end_rest by (unfold inside; cbn; lia). unfold rest at 1. cbn [cursor_new c_pos c_data skipn].
    replace (match B ++ DASHES with [] => true | _ => false end) with false by (now rewrite EB). cbn iota.
    rewrite lazy_wire_parts by (intros X; apply map_eq_nil, (proj1 (order_nil _)) in X; congruence). rewrite <- EB.
    unfold rest. cbn [cursor_new c_pos c_data skipn]. rewrite SE, map_map.
    rewrite (map_ext_in _ (fun f => lazy_part B (describe_lazy f))) by (intros f Hf; now apply prepared_part, NT).
    unfold lazy_order. rewrite !map_app, concat_app, <- map_map. unfold T. rewrite <- !app_assoc. reflexivity.
  - reflexivity.
  - rewrite SE, map_map. apply map_ext_in. intros f Hf. now apply prepared_part, NT.
  - destruct (existsb is_stream fs); reflexivity.
Qed.

Lemma from_fields_cases g fs :
  match from_fields ML guess g fs with
  | (inl e, _) => exists l1 f l2 k, fs = l1 ++ f :: l2 /\ (forall f' k', In f' l1 -> ~ lfails f' k') /\ lfails f k /\ e = (Some (l_name f), k)
  | (inr _, _) => forall f k, In f fs -> ~ lfails f k
  end.
Proof.
  unfold from_fields. destruct (gen_boundary g) as [b g2]. pose proof (fields_loop (CRLF ++ DASHES ++ b) fs [] [] 0%N true) as H.
  destruct (from_fields_loop ML guess (CRLF ++ DASHES ++ b) fs [] [] 0%N true) as [e|[[[text streams] len] use]]; [exact H|].
  exact (proj1 H).
Qed.

Lemma start_left s : start s -> left_over s = prepared_size s.
Proof.
  intros (S1 & S2 & S3). unfold left_over, prepared_size, rest. rewrite S1, S2. cbn [skipn]. f_equal. f_equal. f_equal.
  apply map_ext_in. intros f Hf. rewrite Forall_forall in S3. unfold field_left, field_size, rest. now rewrite (S3 f Hf).
Qed.

(** In terms of the form. *)
Definition lcalm (f : lfield (mime ML)) : Prop := calm (l_source f).

Lemma prepared_calm fs s : map f_stream (s_streams s) = map l_source (rev (filter (fun f => negb (is_text f)) fs)) ->
  Forall lcalm fs -> all_calm s.
Proof.
  intros E C. unfold all_calm. apply (Forall_map f_stream calm). rewrite E. apply Forall_map, Forall_forall. intros f Hf. apply in_rev, filter_In in Hf as [Hf _].
  rewrite Forall_forall in C. now apply C.
Qed.

Lemma prepared_kinds K fs s : map f_stream (s_streams s) = map l_source (rev (filter (fun f => negb (is_text f)) fs)) ->
  Forall (fun f => kinds K (l_source f)) fs -> all_kinds K s.
Proof.
  intros E C. unfold all_kinds. apply (Forall_map f_stream (kinds K)). rewrite E. apply Forall_map, Forall_forall. intros f Hf. apply in_rev, filter_In in Hf as [Hf _].
  rewrite Forall_forall in C. now apply C.
Qed.

End WithMime.

Lemma calm_source_data t : calm t -> retried t = source_data t.
Proof. induction t as [|[[|c0 c]|k] t IH]; cbn [calm retried source_data]; auto; intros H; [now rewrite IH|tauto]. Qed.
