(** Facts about programs on the disk: run alone they are the functions of [Save], and what the others do to one of
    them is no more than what its own system calls could have answered. *)

From Verif Require Import Bytes BytesProofs Io Boundary Utf8 Httparse Field Rand Fs Save Savedir PhaseProofs Together.

(** ** Alone *)

Lemma solo_bind {A B} (q : prog A) (f : A -> prog B) : forall e, solo (pbind q f) e = let '(a, e1) := solo q e in solo (f a) e1.
Proof.
  induction q as [a|p l k IH|o p k IH|h b k IH|p k IH|ev p k IH|p k IH]; intros e; cbn [pbind solo].
  - reflexivity.
  - destruct (do_dir p l e) as [x e1]. apply IH.
  - destruct (open_file o p e) as [x e1]. apply IH.
  - destruct (do_write h b e) as [x e1]. apply IH.
  - destruct (create_dir p e) as [x e1]. apply IH.
  - destruct (do_remove ev p e) as [x e1]. apply IH.
  - apply IH.
Qed.

Lemma solo_step {A} (q : prog A) e : solo q e = let '(q1, e1) := step q e in solo q1 e1.
Proof. destruct q as [a|p l k|o p k|h b k|p k|ev p k|p k]; cbn [solo step]; auto; [destruct (do_dir p l e)|destruct (open_file o p e)|destruct (do_write h b e)|destruct (create_dir p e)|destruct (do_remove ev p e)]; reflexivity. Qed.

Definition esame (e e1 : env) : Prop :=
  (forall p, e_fs e p = e_fs e1 p) /\ e_w e = e_w e1 /\ e_mkdir e = e_mkdir e1 /\ e_open e = e_open e1.

Definition hsame (h h1 : handle) : Prop :=
  h_path h = h_path h1 /\ h_append h = h_append h1 /\ (h_append h = false -> h_pos h = h_pos h1).

Definition in_file (h : handle) (e : env) : Prop :=
  match e_fs e (h_path h) with Some (NFile c) => h_append h = true \/ h_pos h <= length c | _ => True end.

Lemma esame_refl e : esame e e.
Proof. repeat split; reflexivity. Qed.

Lemma hsame_refl h : hsame h h.
Proof. repeat split; reflexivity. Qed.

Lemma upd_same (f f1 : fs) p n : (forall q, f q = f1 q) -> forall q, upd f p n q = upd f1 p n q.
Proof. intros H q. unfold upd. destruct (path_eq_dec q p); auto. Qed.

Ltac es := split; [|split; [|split]]; cbn [set_fs e_fs e_w e_mkdir e_open]; auto; try congruence; try (now apply upd_same).

Lemma mkdirs_w done todo : forall e x e1, mkdirs done todo e = (x, e1) -> e_w e1 = e_w e.
Proof.
  revert done. induction todo as [|c t IH]; intros done e x e1; cbn [mkdirs].
  { intros H; injection H as _ <-. reflexivity. }
  destruct (e_fs e (done ++ [c])) as [[|b]|]; [eauto|intros H; injection H as _ <-; reflexivity|].
  destruct (e_mkdir e) as [|[k|] m]; [|intros H; injection H as _ <-; reflexivity|]; intros H; apply IH in H; exact H.
Qed.

Lemma pmkdirs_same todo : forall done e e1 x e1', esame e e1 -> mkdirs done todo e1 = (x, e1') ->
  exists e', solo (pmkdirs done todo) e = (x, e') /\ esame e' e1'.
Proof.
  induction todo as [|c t IH]; intros done e e1 x e1' Hs; cbn [mkdirs pmkdirs solo].
  { intros H; injection H as <- <-. eauto. }
  pose proof Hs as (F & W & M & O). unfold do_dir. rewrite (F (done ++ [c])), M.
  destruct (e_fs e1 (done ++ [c])) as [[|b]|].
  - apply IH; auto.
  - intros H; injection H as <- <-. destruct t; cbn [solo]; eauto.
  - destruct (e_mkdir e1) as [|[k|] m] eqn:Em.
    + apply IH. es.
    + intros H; injection H as <- <-. cbn [solo]. eexists. split; [reflexivity|]. es.
    + apply IH. es.
Qed.

Lemma open_same o p e e1 x e1' : esame e e1 -> open_file o p e1 = (x, e1') ->
  exists e', open_file o p e = (x, e') /\ esame e' e1' /\ e_w e1' = e_w e1 /\ (forall h, x = inl h -> h_path h = p /\ h_pos h = 0).
Proof.
  intros (F & W & M & O). unfold open_file. rewrite O.
  assert (S0 : esame e e1) by es.
  destruct (o_append o && o_truncate o && negb (o_create_new o)).
  { intros H; injection H as <- <-. eexists. split; [reflexivity|]. split; auto. split; auto. discriminate. }
  assert (S1 : esame (mkEnv (e_fs e) (e_w e) (e_mkdir e) (tl (e_open e1))) (mkEnv (e_fs e1) (e_w e1) (e_mkdir e1) (tl (e_open e1)))) by es.
  assert (S2 : forall n, esame (set_fs (upd (e_fs e) p n) (mkEnv (e_fs e) (e_w e) (e_mkdir e) (tl (e_open e1))))
    (set_fs (upd (e_fs e1) p n) (mkEnv (e_fs e1) (e_w e1) (e_mkdir e1) (tl (e_open e1))))) by (intros n; es).
  assert (Bad : forall k : iokind, (inr k : handle + iokind, mkEnv (e_fs e1) (e_w e1) (e_mkdir e1) (tl (e_open e1))) = (x, e1') ->
    exists e', (inr k : handle + iokind, mkEnv (e_fs e) (e_w e) (e_mkdir e) (tl (e_open e1))) = (x, e') /\ esame e' e1' /\ e_w e1' = e_w e1 /\
      (forall h, x = inl h -> h_path h = p /\ h_pos h = 0)).
  { intros k H; injection H as <- <-. eexists. split; [reflexivity|]. split; auto. split; auto. discriminate. }
  assert (Good : forall a b, esame b a -> e_w a = e_w e1 -> (inl (mkHandle p 0 (o_append o)) : handle + iokind, a) = (x, e1') ->
    exists e', (inl (mkHandle p 0 (o_append o)) : handle + iokind, b) = (x, e') /\ esame e' e1' /\ e_w e1' = e_w e1 /\
      (forall h, x = inl h -> h_path h = p /\ h_pos h = 0)).
  { intros a b Sb Wa H; injection H as <- <-. exists b. split; [reflexivity|]. split; auto. split; auto. intros h E; injection E as <-. auto. }
  destruct (e_open e1) as [|[k|] m]; [|apply Bad|]; cbn [tl] in *.
  all: destruct p as [|c p]; [apply Bad|]; rewrite (F (c :: p)); destruct (e_fs e1 (c :: p)) as [[|b]|]; [apply Bad| |];
    [destruct (o_create_new o); [apply Bad|destruct (o_truncate o); apply Good; auto]
    |destruct (o_create_new o || o_create o); [apply Good; auto|apply Bad]].
Qed.

Lemma file_put_same h h1 d e e1 h1' e1' : hsame h h1 -> esame e e1 -> file_put h1 d e1 = (h1', e1') ->
  exists h' e', file_put h d e = (h', e') /\ hsame h' h1' /\ esame e' e1'.
Proof.
  intros (P & Ap & Ps) (F & W & M & O). unfold file_put. rewrite P, (F (h_path h1)), Ap.
  destruct (e_fs e1 (h_path h1)) as [[|c]|].
  1, 3: intros H; injection H as <- <-; do 2 eexists; split; [reflexivity|]; split; repeat split; auto.
  assert (Q : (if h_append h1 then length c else h_pos h) = (if h_append h1 then length c else h_pos h1)).
  { destruct (h_append h1); auto. }
  rewrite Q. intros H; injection H as <- <-. do 2 eexists. split; [reflexivity|]. split; repeat split; auto.
  cbn [set_fs e_fs]. now apply upd_same.
Qed.

Lemma file_put_in h d e h' e' : in_file h e -> file_put h d e = (h', e') ->
  in_file h' e' /\ e_w e' = e_w e /\ h_path h' = h_path h.
Proof.
  intros Hi. unfold file_put, in_file in *. destruct (e_fs e (h_path h)) as [[|c]|] eqn:F.
  1, 3: intros H; injection H as <- <-; rewrite F; auto.
  intros H; injection H as <- <-. cbn [h_path h_append h_pos set_fs e_fs e_w]. unfold upd.
  destruct (path_eq_dec (h_path h) (h_path h)) as [_|Ne]; [|congruence]. split; auto.
  destruct (h_append h); [auto|]. right. rewrite put_length by (destruct Hi; [discriminate|lia]). lia.
Qed.

Lemma file_put_app h d d' e h1 e1 h2 e2 : in_file h e -> file_put h (d ++ d') e = (h2, e2) -> file_put h d e = (h1, e1) ->
  exists h' e', file_put h1 d' e1 = (h', e') /\ hsame h' h2 /\ esame e' e2.
Proof.
  intros Hi. unfold in_file, file_put in *. destruct (e_fs e (h_path h)) as [[|c]|] eqn:F.
  1, 3: intros H1 H2; injection H1 as <- <-; injection H2 as <- <-; rewrite F;
    do 2 eexists; split; [reflexivity|]; split; [apply hsame_refl|apply esame_refl].
  intros H1 H2; injection H1 as <- <-; injection H2 as <- <-. cbn [h_path h_append h_pos set_fs e_fs].
  unfold upd at 1. destruct (path_eq_dec (h_path h) (h_path h)) as [_|Ne]; [|congruence].
  set (pos := if h_append h then length c else h_pos h) in *.
  assert (Lp : pos <= length c) by (unfold pos; destruct (h_append h); [lia|destruct Hi; [discriminate|lia]]).
  assert (E : (if h_append h then length (put c pos d) else pos + length d) = pos + length d).
  { unfold pos. destruct (h_append h); [rewrite put_length by lia; lia|reflexivity]. }
  rewrite E. do 2 eexists. split; [reflexivity|]. split.
  - repeat split; cbn [h_path h_append h_pos]; auto. intros _. rewrite app_length. lia.
  - repeat split; auto. intros q. cbn [set_fs e_fs]. unfold upd. destruct (path_eq_dec q (h_path h)); auto.
    now rewrite put_app.
Qed.

Lemma file_put_nil h e h1 e1 : file_put h [] e = (h1, e1) -> in_file h e -> hsame h h1 /\ esame e e1.
Proof.
  unfold file_put. destruct (e_fs e (h_path h)) as [[|c]|] eqn:F.
  1, 3: intros H _; injection H as <- <-; split; [apply hsame_refl|apply esame_refl].
  intros H _; injection H as <- <-. rewrite put_nil. split.
  - repeat split; auto. cbn [h_pos]. intros ->. simpl. lia.
  - repeat split; auto. intros q. cbn [set_fs e_fs]. unfold upd. destruct (path_eq_dec q (h_path h)); congruence.
Qed.

Lemma esame_trans e1 e2 e3 : esame e1 e2 -> esame e2 e3 -> esame e1 e3.
Proof. intros (A1 & A2 & A3 & A4) (B1 & B2 & B3 & B4). repeat split; try congruence. Qed.

Lemma hsame_trans h1 h2 h3 : hsame h1 h2 -> hsame h2 h3 -> hsame h1 h3.
Proof. intros (A1 & A2 & A3) (B1 & B2 & B3). repeat split; try congruence. intros E. rewrite A3, B3; congruence. Qed.

Definition with_w (ws : list wevent) (e : env) : env := mkEnv (e_fs e) ws (e_mkdir e) (e_open e).

Lemma file_put_w h d e ws : file_put h d (with_w ws e) = let '(h1, e1) := file_put h d e in (h1, with_w ws e1).
Proof. unfold file_put, with_w. cbn [e_fs]. destruct (e_fs e (h_path h)) as [[|c]|]; reflexivity. Qed.

Lemma pwrite_all_same wf : forall b h h1 e e1 total x ws h1' e1', hsame h h1 -> esame e e1 -> in_file h1 e1 ->
  length (e_w e1) < wf -> try_write_all (e_w e1) b total = (x, ws) ->
  file_put h1 (firstn (accepted x - total) b) (with_w ws e1) = (h1', e1') ->
  exists h' e', solo (pwrite_all wf h b total) e = ((x, h'), e') /\ hsame h' h1' /\ esame e' e1' /\ length ws <= length (e_w e1).
Proof.
  induction wf as [|wf IH]; intros b h h1 e e1 total x ws h1' e1' Hh He Hi Hl; [lia|].
  assert (Hin : forall ws', in_file h1 (with_w ws' e1)) by (intros; exact Hi).
  destruct b as [|z b].
  { assert (Q : try_write_all (e_w e1) [] total = (Full total, e_w e1)) by (destruct (e_w e1); reflexivity).
    rewrite Q. intros H; injection H as <- <-. cbn [pwrite_all solo accepted]. rewrite Nat.sub_diag. intros H.
    apply file_put_nil in H as [Ha Hb]; auto.
    exists h, e. split; [reflexivity|]. split; [eapply hsame_trans; eauto|]. split; [|lia].
    eapply esame_trans; eauto. }
  remember (z :: b) as c eqn:Ec. assert (Lc : 0 < length c) by (rewrite Ec; simpl; lia).
  assert (Up : pwrite_all (S wf) h c total = PWrite h c (fun xh =>
            let '(x, h1) := xh in
            match x with
            | inr k =>
                if iokind_eqb k KInterrupted then pwrite_all wf h1 c total
                else if total =? 0 then PRet (SErr (XDst k), h1) else PRet (Part total (RIo (XDst k)), h1)
            | inl m =>
                if m =? 0 then (if total =? 0 then PRet (SErr (XDst KWriteZero), h1) else PRet (Part total (RIo (XDst KWriteZero)), h1))
                else pwrite_all wf h1 (skipn m c) (total + m)
            end)) by (rewrite Ec; reflexivity).
  rewrite Up. clear Up. cbn [solo]. unfold do_write. destruct He as (F & W & M & O). rewrite W.
  destruct (e_w e1) as [|[n|k] s] eqn:Ew.
  - assert (Q : try_write_all [] c total = (Full (total + length c), [])) by (rewrite Ec; reflexivity).
    rewrite Q. intros H; injection H as <- <-. cbn [accepted]. replace (total + length c - total) with (length c) by lia.
    rewrite firstn_all. cbn [tl]. intros H.
    assert (Hs : esame (mkEnv (e_fs e) [] (e_mkdir e) (e_open e)) (with_w [] e1)) by es.
    destruct (file_put_same _ _ _ _ _ _ _ Hh Hs H) as (h' & e' & -> & Ha & Hb).
    destruct (length c =? 0) eqn:Z; [apply Nat.eqb_eq in Z; lia|]. rewrite skipn_all.
    exists h', e'. split; [|auto]. destruct wf; reflexivity.
  - assert (Q : try_write_all (WAccept n :: s) c total = let m := Nat.min n (length c) in
          if m =? 0 then (if total =? 0 then (SErr (XDst KWriteZero), s) else (Part total (RIo (XDst KWriteZero)), s))
          else try_write_all s (skipn m c) (total + m)) by (rewrite Ec; reflexivity).
    rewrite Q. cbv zeta. clear Q. cbn [tl]. set (m := Nat.min n (length c)).
    assert (Hs : esame (mkEnv (e_fs e) s (e_mkdir e) (e_open e)) (with_w s e1)) by es.
    destruct (m =? 0) eqn:Z.
    + cbn [solo]. destruct (total =? 0) eqn:T; intros H; injection H as <- <-; cbn [accepted solo].
      * intros H. rewrite Nat.sub_0_l, firstn_O in H. apply file_put_nil in H as [Ha Hb]; auto.
        do 2 eexists. split; [reflexivity|]. split; [eapply hsame_trans; eauto|]. split; [eapply esame_trans; eauto|]. cbn [length]. lia.
      * intros H. rewrite Nat.sub_diag, firstn_O in H. apply file_put_nil in H as [Ha Hb]; auto.
        do 2 eexists. split; [reflexivity|]. split; [eapply hsame_trans; eauto|]. split; [eapply esame_trans; eauto|]. cbn [length]. lia.
    + apply Nat.eqb_neq in Z. intros H1 H2.
      destruct (file_put h1 (firstn m c) (with_w s e1)) as [h2 e2] eqn:P2.
      destruct (file_put_same _ _ _ _ _ _ _ Hh Hs P2) as (h' & e' & -> & Ha & Hb).
      cbn [solo]. destruct (m =? 0) eqn:Z'; [apply Nat.eqb_eq in Z'; lia|]. clear Z'.
      destruct (file_put_in _ _ _ _ _ (Hin s) P2) as (Hi2 & W2 & _). cbn [with_w e_w] in W2.
      assert (Ta : total + m <= accepted x \/ accepted x = 0).
      { clear - H1 Z. revert H1. generalize (skipn m c) as y. generalize (total + m) as t0. intros t0 y. revert s t0 y.
        assert (K : forall s t0 y x ws, try_write_all s y t0 = (x, ws) -> t0 <= accepted x \/ accepted x = 0).
        { clear. induction s as [|[n|k] s IH]; intros t0 y x ws; destruct y as [|z y]; cbn [try_write_all];
            try (intros H; injection H as <- <-; simpl; lia).
          - destruct (Nat.min n (length (z :: y)) =? 0); [destruct (t0 =? 0); intros H; injection H as <- <-; simpl; lia|].
            intros H. apply IH in H. lia.
          - destruct (iokind_eqb k KInterrupted); [apply IH|].
            destruct (t0 =? 0); intros H; injection H as <- <-; simpl; lia. }
        intros s t0 y H. eapply K; eauto. }
      assert (Tx : exists n', accepted x = total + m + n').
      { destruct Ta as [Ta|Ta]; [exists (accepted x - (total + m)); lia|exfalso].
        assert (K : forall s t0 y x ws, t0 <> 0 -> try_write_all s y t0 = (x, ws) -> accepted x <> 0).
        { clear. induction s as [|[n|k] s IH]; intros t0 y x ws T0; destruct y as [|z y]; cbn [try_write_all];
            try (intros H; injection H as <- <-; simpl; lia).
          - destruct (Nat.min n (length (z :: y)) =? 0); [destruct (Nat.eqb_spec t0 0); intros H; injection H as <- <-; simpl; lia|].
            intros H. apply IH in H; lia.
          - destruct (iokind_eqb k KInterrupted); [apply IH; auto|].
            destruct (Nat.eqb_spec t0 0); intros H; injection H as <- <-; simpl; lia. }
        apply (K s (total + m) (skipn m c) x ws); auto. lia. }
      destruct Tx as [n' Tx].
      replace (accepted x - total) with (m + n') in H2 by lia.
      assert (Fs : firstn (m + n') c = firstn m c ++ firstn n' (skipn m c)).
      { rewrite <- (firstn_skipn m c) at 1. assert (Lm : length (firstn m c) = m) by (rewrite firstn_length; unfold m; lia).
        rewrite firstn_app, Lm. rewrite (firstn_all2 (firstn m c)) by lia. f_equal. f_equal. lia. }
      rewrite Fs in H2. rewrite file_put_w in H2, P2.
      destruct (file_put h1 (firstn m c ++ firstn n' (skipn m c)) e1) as [h3 e3] eqn:P3. injection H2 as <- <-.
      destruct (file_put h1 (firstn m c) e1) as [h4 e4] eqn:P4. injection P2 as <- <-.
      destruct (file_put_app _ _ _ _ _ _ _ _ Hi P3 P4) as (h5 & e5 & P5 & Hc & Hd).
      destruct (IH (skipn m c) h' h4 e' (with_w s e4) (total + m) x ws h5 (with_w ws e5)) as (h'' & e'' & Q1 & Q2 & Q3 & Q4); auto.
      * cbn [with_w e_w]. cbn [length] in Hl. lia.
      * replace (accepted x - (total + m)) with n' by lia. change (with_w ws (with_w s e4)) with (with_w ws e4).
        rewrite file_put_w, P5. reflexivity.
      * exists h'', e''. split; auto. split; [eapply hsame_trans; eauto|]. split.
        { eapply esame_trans; eauto. destruct Hd as (D1 & D2 & D3 & D4). repeat split; auto. }
        cbn [with_w e_w] in Q4. cbn [length]. lia.
  - assert (Q : try_write_all (WFail k :: s) c total =
          if iokind_eqb k KInterrupted then try_write_all s c total
          else if total =? 0 then (SErr (XDst k), s) else (Part total (RIo (XDst k)), s)) by (rewrite Ec; reflexivity).
    rewrite Q. clear Q. cbn [tl solo].
    assert (Hs : esame (mkEnv (e_fs e) s (e_mkdir e) (e_open e)) (with_w s e1)) by es.
    destruct (iokind_eqb k KInterrupted).
    + intros H1 H2. destruct (IH c h h1 (mkEnv (e_fs e) s (e_mkdir e) (e_open e)) (with_w s e1) total x ws h1' e1') as (h'' & e'' & Q1 & Q2 & Q3 & Q4); auto.
      { cbn [with_w e_w]. cbn [length] in Hl. lia. }
      exists h'', e''. split; auto. split; auto. split; auto. cbn [with_w e_w] in Q4. cbn [length]. lia.
    + destruct (total =? 0) eqn:T; intros H; injection H as <- <-; cbn [accepted solo].
      * intros H. rewrite Nat.sub_0_l, firstn_O in H. apply file_put_nil in H as [Ha Hb]; auto.
        do 2 eexists. split; [reflexivity|]. split; [eapply hsame_trans; eauto|]. split; [eapply esame_trans; eauto|]. cbn [length]. lia.
      * intros H. rewrite Nat.sub_diag, firstn_O in H. apply file_put_nil in H as [Ha Hb]; auto.
        do 2 eexists. split; [reflexivity|]. split; [eapply hsame_trans; eauto|]. split; [eapply esame_trans; eauto|]. cbn [length]. lia.
Qed.

(** The copying loop, for a closure that agrees with a program. *)
Lemma pread_same {W W1} (RW : W -> env -> W1 -> Prop) (f : W -> bytes -> prog (sres nat nat * W)) (f1 : W1 -> bytes -> sres nat nat * W1) :
  (forall w e w1 b x w1', RW w e w1 -> f1 w1 b = (x, w1') -> exists w' e', solo (f w b) e = ((x, w'), e') /\ RW w' e' w1') ->
  forall fuel total w e w1 r x w1' r1, RW w e w1 -> try_read_buf f1 fuel total w1 r = (x, w1', r1) ->
  exists w' e', solo (ptry_read_buf f fuel total w r) e = ((x, w', r1), e') /\ RW w' e' w1'.
Proof.
  intros Hf. induction fuel as [|fuel IH]; intros total w e w1 r x w1' r1 Hw; cbn [try_read_buf ptry_read_buf].
  { intros H; injection H as <- <- <-. exists w, e. split; [reflexivity|auto]. }
  destruct (read_to_boundary r) as [y r2].
  destruct y as [b|y| |].
  - destruct b as [|z b]; [intros H; injection H as <- <- <-; exists w, e; split; [reflexivity|auto]|].
    rewrite solo_bind. destruct (f1 w1 (z :: b)) as [v w2] eqn:F. destruct (Hf _ _ _ _ _ _ Hw F) as (w3 & e3 & -> & H3).
    destruct v; [apply IH; auto|..]; intros H; injection H as <- <- <-; exists w3, e3; split; auto; reflexivity.
  - destruct (iokind_eqb (berr_kind y) KInterrupted); [apply IH; auto|].
    destruct (total =? 0)%N; intros H; injection H as <- <- <-; exists w, e; split; auto; reflexivity.
  - intros H; injection H as <- <- <-. exists w, e. split; [reflexivity|auto].
  - intros H; injection H as <- <- <-. exists w, e. split; [reflexivity|auto].
Qed.

Definition on_file (wf : nat) (h : handle) (e : env) (w : handle * env) : Prop :=
  hsame h (fst w) /\ esame e (snd w) /\ in_file (fst w) (snd w) /\ length (e_w (snd w)) < wf.

Lemma pwrite_file_same wf h e w b x w' : on_file wf h e w -> write_file w b = (x, w') ->
  exists h' e', solo (pwrite_all wf h b 0) e = ((x, h'), e') /\ on_file wf h' e' w'.
Proof.
  intros (Hh & He & Hi & Hl). unfold write_file. destruct w as [h1 e1]. cbn [fst snd] in *.
  destruct (try_write_all (e_w e1) b 0) as [y ws] eqn:T.
  change (mkEnv (e_fs e1) ws (e_mkdir e1) (e_open e1)) with (with_w ws e1).
  destruct (file_put h1 (firstn (accepted y) b) (with_w ws e1)) as [h2 e2] eqn:P. intros H; injection H as <- <-.
  destruct (pwrite_all_same wf b h h1 e e1 0 y ws h2 e2 Hh He Hi Hl T) as (h' & e' & Q1 & Q2 & Q3 & Q4).
  { now rewrite Nat.sub_0_r. }
  exists h', e'. split; auto. destruct (file_put_in h1 _ (with_w ws e1) _ _ Hi P) as (Hi2 & W2 & _).
  split; auto. split; auto. split; auto. cbn [snd]. rewrite W2. cbn [with_w e_w]. lia.
Qed.

Lemma pwrite_to_same wf s fuel h e w r x w' r1 : on_file wf h e w -> write_to write_file s fuel w r = (x, w', r1) ->
  exists e', solo (pwrite_to wf s fuel h r) e = ((x, r1), e') /\ esame e' (snd w') /\ length (e_w (snd w')) < wf.
Proof.
  intros Hw. unfold write_to, pwrite_to, try_copy_limited. destruct (s_size_limit s <? U64MAX)%N.
  - destruct (try_read_buf (limited (s_size_limit s) write_file) fuel 0%N (0%N, w) r) as [[y [n w2]] r2] eqn:E.
    intros H; injection H as <- <- <-.
    apply (pread_same (fun a e0 (b : N * (handle * env)) => fst a = fst b /\ on_file wf (snd a) e0 (snd b))
             (plimited (s_size_limit s) (fun h b => pwrite_all wf h b 0)) (limited (s_size_limit s) write_file))
      with (w := (0%N, h)) (e := e) in E.
    + destruct E as ([m h'] & e' & E & _ & Hh). exists e'. rewrite solo_bind, E. split; [reflexivity|]. split; apply Hh.
    + intros [a h'] e0 [a1 w0] b v [a2 w3] [Ea Hw0]. cbn [fst snd] in *. subst a1. unfold limited, plimited.
      destruct (s_size_limit s <? sat_add a (N.of_nat (length b)))%N.
      { intros H; injection H as <- <- <-. exists (a, h'), e0. cbn [solo]. split; auto. }
      destruct (write_file w0 b) as [v' w4] eqn:Wf. intros H; injection H as <- <- <-.
      destruct (pwrite_file_same _ _ _ _ _ _ _ Hw0 Wf) as (h4 & e4 & Q & Hw4).
      exists (sat_add a (N.of_nat (length b)), h4), e4. rewrite solo_bind, Q. split; auto.
    + split; auto.
  - intros E. apply (pread_same (on_file wf) (fun h b => pwrite_all wf h b 0) write_file) with (w := h) (e := e) in E; auto.
    + destruct E as (h' & e' & E & Hh). exists e'. rewrite solo_bind, E. split; [reflexivity|]. split; apply Hh.
    + intros h0 e0 w1 b v w1' H1 H2. eapply pwrite_file_same; eauto.
Qed.

(** [e] and [e1] are the same and have fewer than [wf] events for [write]. *)
Definition room (wf : nat) (e e1 : env) : Prop := esame e e1 /\ length (e_w e1) < wf.

Lemma psave_disk_same wf s p fuel ob r e e1 x r1 e1' : room wf e e1 -> save_disk s p fuel ob r e1 = (x, r1, e1') ->
  exists e', solo (psave_disk wf s p fuel ob r) e = ((x, r1), e') /\ room wf e' e1'.
Proof.
  intros [He Hl]. unfold save_disk, psave_disk, create_dir_all, pcreate_dir_all. rewrite solo_bind.
  destruct (mkdirs [] (removelast p) e1) as [y e2] eqn:M.
  destruct (pmkdirs_same _ _ _ _ _ _ He M) as (e3 & -> & S3). pose proof (mkdirs_w _ _ _ _ _ M) as W2.
  destruct y as [k|].
  { intros H; injection H as <- <- <-. exists e3. split; [reflexivity|]. split; auto. now rewrite W2. }
  cbn [solo]. destruct (open_file (s_opts s) p e2) as [y e4] eqn:O.
  destruct (open_same _ _ _ _ _ _ S3 O) as (e5 & -> & S5 & W5 & H5).
  destruct y as [h|k].
  2: { intros H; injection H as <- <- <-. exists e5. split; [reflexivity|]. split; auto. now rewrite W5, W2. }
  destruct (H5 h eq_refl) as [Hp H0].
  destruct (write_file (h, e4) ob) as [y w6] eqn:Wf. rewrite solo_bind.
  assert (Of : on_file wf h e5 (h, e4)).
  { split; [apply hsame_refl|]. split; auto. split; [|cbn [snd]; now rewrite W5, W2].
    unfold in_file. cbn [fst snd]. rewrite H0. destruct (e_fs e4 (h_path h)) as [[]|]; auto. right. lia. }
  destruct (pwrite_file_same _ _ _ _ _ _ _ Of Wf) as (h7 & e7 & -> & Of7).
  destruct w6 as [h6 e6]. pose proof Of7 as (_ & S7 & _ & L7). cbn [snd] in S7, L7.
  destruct y as [n|n why|k| |]; cbn [smap].
  2-5: intros H; injection H as <- <- <-; exists e7; split; [reflexivity|split; auto].
  destruct (write_to write_file s fuel (h6, e6) r) as [[y w8] r8] eqn:E. rewrite solo_bind.
  destruct (pwrite_to_same _ _ _ _ _ _ _ _ _ _ Of7 E) as (e9 & -> & S9 & L9).
  destruct w8 as [h8 e8]. intros H; injection H as <- <- <-. exists e9. split; [reflexivity|split; auto].
Qed.

Lemma psave_rest_same wf s p fuel ob r e e1 x r1 e1' : room wf e e1 -> save_rest s p fuel ob r e1 = (x, r1, e1') ->
  exists e', solo (psave_rest wf s p fuel ob r) e = ((x, r1), e') /\ room wf e' e1'.
Proof.
  intros R. unfold save_rest, psave_rest. destruct (save_mem s fuel ob r) as [y r2].
  destruct y as [b|b why|k| |]; [|destruct why|..].
  3: destruct (cmp_size_limit s (length b)); [|now apply psave_disk_same].
  all: intros H; injection H as <- <- <-; exists e; split; [reflexivity|auto].
Qed.

Lemma pwith_path_same wf s p fuel r e e1 x r1 e1' : room wf e e1 -> with_path s p fuel r e1 = (x, r1, e1') ->
  exists e', solo (pwith_path wf s p fuel r) e = ((x, r1), e') /\ room wf e' e1'.
Proof.
  intros R. unfold with_path, pwith_path. destruct (s_policy s); [| |now apply psave_rest_same].
  all: destruct (save_text s fuel r) as [y r2]; destruct y as [b|b why|k| |]; [|destruct why|..].
  all: try destruct (cmp_size_limit s (length b)); try now apply psave_rest_same.
  all: intros H; injection H as <- <- <-; exists e; split; [reflexivity|auto].
Qed.

Lemma psave_field_same ML wf s h en fuel g r e e1 x g1 r1 e1' : room wf e e1 -> save_field ML s h en fuel g r e1 = (x, g1, r1, e1') ->
  exists e', solo (psave_field ML wf s h en fuel g r) e = ((x, g1, r1), e') /\ room wf e' e1'.
Proof.
  intros R. unfold save_field, psave_field, with_dir, pwith_dir. destruct (rand_filename g) as [name g2].
  match goal with |- context [with_path ?a ?b ?c ?d ?f] => destruct (with_path a b c d f) as [[y r2] e2] eqn:E end.
  intros H; injection H as <- <- <- <-. destruct (pwith_path_same _ _ _ _ _ _ _ _ _ _ R E) as (e3 & Q & R3).
  exists e3. rewrite solo_bind, Q. split; [reflexivity|auto].
Qed.

Lemma pentries_loop_same ML wf trim s fuel : forall res en g r e e1 x g1 r1 e1', room wf e e1 ->
  entries_loop ML trim s fuel res en g r e1 = (x, g1, r1, e1') ->
  exists e', solo (pentries_loop ML wf trim s fuel res en g r) e = ((x, g1, r1), e') /\ room wf e' e1'.
Proof.
  induction fuel as [|fuel IH]; intros res en g r e e1 x g1 r1 e1' R; cbn [entries_loop pentries_loop].
  { intros H; injection H as <- <- <- <-. exists e. split; [reflexivity|auto]. }
  destruct (en_count ML en <? s_count_limit s)%N.
  2: { intros H; injection H as <- <- <- <-. exists e. split; [reflexivity|auto]. }
  destruct res as [[h|]|y| |].
  2-5: intros H; injection H as <- <- <- <-; exists e; split; [reflexivity|auto].
  destruct (save_field ML s h en (S fuel) g r e1) as [[[y g2] r2] e2] eqn:E.
  destruct (psave_field_same _ _ _ _ _ _ _ _ _ _ _ _ _ _ R E) as (e3 & Q & R3). rewrite solo_bind, Q.
  destruct y as [v|v why|y| |].
  2-5: intros H; injection H as <- <- <- <-; exists e3; split; [reflexivity|auto].
  destruct (read_entry ML trim r2) as [res' r3]. apply IH. exact R3.
Qed.

(** A job on its own is the one of [Save]. *)
Lemma job_same ML wf j e e1 : room wf e e1 ->
  let '(a, e1') := run_job ML j e1 in exists e', solo (job_prog ML wf j) e = (a, e') /\ room wf e' e1'.
Proof.
  intros R. destruct j as [s p fuel r|trim s fuel en g r|trim s dir fuel g r]; cbn [run_job job_prog]; rewrite solo_bind.
  - destruct (with_path s p fuel r e1) as [[x r1] e1'] eqn:E.
    destruct (pwith_path_same _ _ _ _ _ _ _ _ _ _ R E) as (e2 & -> & R2). exists e2. split; [reflexivity|auto].
  - destruct (with_entries ML trim s fuel en g r e1) as [[[x g1] r1] e1'] eqn:E. unfold with_entries in E. unfold pwith_entries.
    destruct (read_entry ML trim r) as [res r2].
    destruct (pentries_loop_same _ _ _ _ _ _ _ _ _ _ _ _ _ _ _ R E) as (e2 & -> & R2). exists e2. split; [reflexivity|auto].
  - destruct (entries_with_dir ML trim s dir fuel g r e1) as [[[x g1] r1] e1'] eqn:E.
    unfold entries_with_dir, create_dir_all in E. unfold pentries_with_dir, pcreate_dir_all. rewrite solo_bind.
    destruct (mkdirs [] (removelast dir) e1) as [y e2] eqn:M. pose proof R as [He Hl].
    destruct (pmkdirs_same _ _ _ _ _ _ He M) as (e3 & -> & S3). pose proof (mkdirs_w _ _ _ _ _ M) as W2.
    assert (R3 : room wf e3 e2) by (split; auto; now rewrite W2).
    destruct y as [k|].
    + injection E as <- <- <- <-. exists e3. split; [reflexivity|auto].
    + unfold with_entries in E. unfold pwith_entries. destruct (read_entry ML trim r) as [res r2].
      destruct (pentries_loop_same _ _ _ _ _ _ _ _ _ _ _ _ _ _ _ R3 E) as (e4 & -> & R4). exists e4. split; [reflexivity|auto].
Qed.

(** ** What programs write to *)

(** [H] are the files the program has opened: it opens files only anew and writes only to those it has opened. *)
Fixpoint safe {A} (H : list path) (q : prog A) (Q : list path -> A -> Prop) : Prop :=
  match q with
  | PRet a => Q H a
  | PDir p l k => forall x, safe H (k x) Q
  | POpen o p k => o_create_new o = true /\ (forall h, h_path h = p -> safe (p :: H) (k (inl h)) Q) /\ forall e, safe H (k (inr e)) Q
  | PWrite h b k => In (h_path h) H /\ forall x h', h_path h' = h_path h -> safe H (k (x, h')) Q
  | PTemp _ _ => False
  | PRemove _ _ _ => False
  | PLook _ _ => False
  end.

Lemma safe_bind {A B} (q : prog A) (f : A -> prog B) (Q : list path -> A -> Prop) Q' : (forall H a, Q H a -> safe H (f a) Q') ->
  forall H, safe H q Q -> safe H (pbind q f) Q'.
Proof.
  intros Hf. induction q as [a|p l k IH|o p k IH|h b k IH|p k IH|ev p k IH|p k IH]; intros H; cbn [safe pbind]; auto.
  - intros (Ho & H1 & H2). auto.
  - intros (Ho & H1). auto.
Qed.

Lemma safe_mkdirs todo : forall done H, safe H (pmkdirs done todo) (fun H' _ => H' = H).
Proof. induction todo as [|c t IH]; intros done H; cbn [pmkdirs safe]; auto. intros [k|]; [reflexivity|apply IH]. Qed.

Lemma safe_write_all wf : forall h b total H, In (h_path h) H ->
  safe H (pwrite_all wf h b total) (fun H' xh => H' = H /\ h_path (snd xh) = h_path h).
Proof.
  induction wf as [|wf IH]; intros h b total H Hh; destruct b as [|z b]; cbn [pwrite_all safe snd]; auto.
  split; auto. intros x h' Hp.
  assert (K : forall b t, safe H (pwrite_all wf h' b t) (fun H' xh => H' = H /\ h_path (snd xh) = h_path h)).
  { intros b' t. rewrite <- Hp. apply IH. now rewrite Hp. }
  destruct x as [m|k].
  - destruct (m =? 0); [destruct (total =? 0); cbn [safe snd]; auto|apply K].
  - destruct (iokind_eqb k KInterrupted); [apply K|]. destruct (total =? 0); cbn [safe snd]; auto.
Qed.

Lemma safe_read {W} (P : W -> Prop) (f : W -> bytes -> prog (sres nat nat * W)) H :
  (forall w b, P w -> safe H (f w b) (fun H' xw => H' = H /\ P (snd xw))) ->
  forall fuel total w r, P w -> safe H (ptry_read_buf f fuel total w r) (fun H' _ => H' = H).
Proof.
  intros Hf. induction fuel as [|fuel IH]; intros total w r Hw; cbn [ptry_read_buf safe]; auto.
  destruct (read_to_boundary r) as [y r2]. destruct y as [b|y| |]; cbn [safe]; auto.
  - destruct b as [|z b]; [reflexivity|]. eapply safe_bind; [|apply Hf; exact Hw].
    intros H' [x w1] [-> Hp]. cbn [snd] in Hp. destruct x; cbn [safe]; auto.
  - destruct (iokind_eqb (berr_kind y) KInterrupted); auto. destruct (total =? 0)%N; reflexivity.
Qed.

Lemma safe_write_to wf s fuel h r H : In (h_path h) H -> safe H (pwrite_to wf s fuel h r) (fun H' _ => H' = H).
Proof.
  intros Hh. unfold pwrite_to. destruct (s_size_limit s <? U64MAX)%N.
  - eapply safe_bind with (Q := fun H' _ => H' = H); [intros H' [[x w] r1] ->; reflexivity|].
    apply safe_read with (P := fun w : N * handle => h_path (snd w) = h_path h); auto.
    intros [n h'] b Hp. cbn [snd] in Hp. unfold plimited.
    destruct (s_size_limit s <? sat_add n (N.of_nat (length b)))%N; [cbn [safe snd]; auto|].
    eapply safe_bind; [|apply safe_write_all; now rewrite Hp].
    intros H' [x w1] [-> Hq]. cbn [safe snd] in *. split; congruence.
  - eapply safe_bind with (Q := fun H' _ => H' = H); [intros H' [[x w] r1] ->; reflexivity|].
    apply safe_read with (P := fun h' : handle => h_path h' = h_path h); auto.
    intros h' b Hp. rewrite <- Hp. apply safe_write_all. now rewrite Hp.
Qed.

Lemma safe_with_path wf s p fuel r H : o_create_new (s_opts s) = true -> safe H (pwith_path wf s p fuel r) (fun _ _ => True).
Proof.
  intros Ho.
  assert (Dk : forall ob r, safe H (psave_disk wf s p fuel ob r) (fun _ _ => True)).
  { intros ob r2. unfold psave_disk. eapply safe_bind; [|apply safe_mkdirs]. cbv beta. intros H' [k|] ->; cbn [safe]; auto.
    split; auto. split; [|cbn [safe]; auto]. intros h Hp.
    eapply safe_bind; [|apply safe_write_all; simpl; auto]. intros H' [x h1] [-> Hq]. cbn [snd] in Hq.
    destruct x as [n|n why|e| |]; cbn [smap safe]; auto.
    eapply safe_bind; [|apply safe_write_to; rewrite Hq; simpl; auto]. intros H' [y r1] ->. exact Logic.I. }
  assert (Rs : forall ob r, safe H (psave_rest wf s p fuel ob r) (fun _ _ => True)).
  { intros ob r2. unfold psave_rest. destruct (save_mem s fuel ob r2) as [y r1]. destruct y as [b|b []|k| |]; cbn [safe]; auto.
    destruct (cmp_size_limit s (length b)); cbn [safe]; auto. }
  unfold pwith_path. destruct (s_policy s); auto;
  (destruct (save_text s fuel r) as [y r1]; destruct y as [b|b []|k| |]; cbn [safe]; auto;
    destruct (cmp_size_limit s (length b)); cbn [safe]; auto).
Qed.

Lemma safe_loop ML wf trim s fuel : o_create_new (s_opts s) = true -> forall res en g r H,
  safe H (pentries_loop ML wf trim s fuel res en g r) (fun _ _ => True).
Proof.
  intros Ho. induction fuel as [|fuel IH]; intros res en g r H; cbn [pentries_loop safe]; auto.
  destruct (en_count ML en <? s_count_limit s)%N; cbn [safe]; auto.
  destruct res as [[h|]|y| |]; cbn [safe]; auto.
  apply safe_bind with (Q := fun _ _ => True).
  - intros H' [[y g1] r1] _. destruct y as [v|v why|y| |]; cbn [safe]; auto. destruct (read_entry ML trim r1). apply IH.
  - unfold psave_field, pwith_dir. destruct (rand_filename g) as [name g2].
    eapply safe_bind; [|apply safe_with_path; exact Ho]. intros H' [x r1] _. exact Logic.I.
Qed.

Lemma safe_job ML wf j H : o_create_new (s_opts (job_saver ML j)) = true -> safe H (job_prog ML wf j) (fun _ _ => True).
Proof.
  intros Ho. destruct j as [s p fuel r|trim s fuel en g r|trim s dir fuel g r]; cbn [job_saver job_prog] in *;
    (apply safe_bind with (Q := fun _ _ => True); [intros H' z _; repeat destruct z as [z ?]; exact Logic.I|]).
  - now apply safe_with_path.
  - unfold pwith_entries. destruct (read_entry ML trim r). now apply safe_loop.
  - unfold pentries_with_dir. apply safe_bind with (Q := fun _ _ => True).
    + intros H' [k|] _; [exact Logic.I|]. unfold pwith_entries. destruct (read_entry ML trim r). now apply safe_loop.
    + unfold pcreate_dir_all. generalize (@nil bytes) as d, (removelast dir) as t.
      clear. intros d t; revert d. induction t as [|c t IH]; intros d; cbn [pmkdirs safe]; auto. intros [k|]; [exact Logic.I|apply IH].
Qed.

(** ** Together *)

Lemma turns_app {A} (a b : list nat) : forall s : pool A, turns (a ++ b) s = turns b (turns a s).
Proof. induction a as [|i a IH]; intros s; cbn [app turns]; auto. Qed.

Lemma nth_set {X} (l : list X) : forall i j x, nth_error (set_nth i x l) j =
  if Nat.eq_dec i j then match nth_error l j with Some _ => Some x | None => None end else nth_error l j.
Proof.
  induction l as [|y l IH]; intros i j x.
  { destruct i, j; cbn [set_nth nth_error]; destruct (Nat.eq_dec _ _); reflexivity. }
  destruct i as [|i], j as [|j]; cbn [set_nth nth_error]; auto.
  rewrite IH. destruct (Nat.eq_dec i j), (Nat.eq_dec (S i) (S j)); auto; lia.
Qed.

Lemma set_length {X} (l : list X) : forall i x, length (set_nth i x l) = length l.
Proof. induction l as [|y l IH]; intros [|i] x; cbn [set_nth length]; auto. Qed.

(** ** Answers *)

(** [mk] is what a program hears when the disk has [m] to say: its answers in their order, [None] when there are no more, and in between any
    number of answers [x] with [X x]. *)
Inductive hears (X : option iokind -> Prop) : list (option iokind) -> list (option iokind) -> Prop :=
| hears_rest m : hears X m m
| hears_own mk m : hears X mk (tl m) -> hears X (hd None m :: mk) m
| hears_more x mk m : X x -> hears X mk m -> hears X (x :: mk) m.

Definition never (x : option iokind) : Prop := False.

(** That something exists already, if [C] holds. *)
Definition taken (C : Prop) (x : option iokind) : Prop := x = Some KAlreadyExists /\ C.

(** A run of answers [mk0] that takes the disk's from [m] to [m']. *)
Definition spends (X : option iokind -> Prop) (mk0 m m' : list (option iokind)) : Prop := forall mk, hears X mk m' -> hears X (mk0 ++ mk) m.

Lemma spends_nil X m : spends X [] m m.
Proof. intros mk H. exact H. Qed.

Lemma spends_own X m : spends X [hd None m] m (tl m).
Proof. intros mk H. cbn [app]. now constructor. Qed.

Lemma spends_more (X : option iokind -> Prop) x m : X x -> spends X [x] m m.
Proof. intros c mk H. cbn [app]. now constructor. Qed.

Lemma spends_app X l1 l2 m m1 m2 : spends X l1 m m1 -> spends X l2 m1 m2 -> spends X (l1 ++ l2) m m2.
Proof. intros H1 H2 mk H. rewrite <- app_assoc. auto. Qed.

Lemma hears_weaken (X Y : option iokind -> Prop) mk m : (forall x, X x -> Y x) -> hears X mk m -> hears Y mk m.
Proof. intros H. induction 1; constructor; auto. Qed.

(** Lists that say the same, and nothing after their end. *)
Definition alike (m m1 : list (option iokind)) : Prop := forall k, nth k m None = nth k m1 None.

Lemma alike_hd m m1 : alike m m1 -> hd None m = hd None m1.
Proof. intros H. specialize (H 0). destruct m, m1; exact H. Qed.

Lemma alike_tl m m1 : alike m m1 -> alike (tl m) (tl m1).
Proof. intros H k. specialize (H (S k)). destruct m, m1, k; exact H. Qed.

Lemma hears_alike mk m : hears never mk m -> alike mk m.
Proof. induction 1 as [m|mk m _ IH|x mk m []]; intros [|k]; auto; [now destruct m|]. cbn [nth]. rewrite IH. destruct m, k; reflexivity. Qed.

Lemma hears_nothing mk m : hears (eq None) mk m -> m = [] -> alike mk [].
Proof.
  induction 1 as [m|mk m _ IH|x mk m <- _ IH]; intros E k; [now rewrite E|..]; subst m; (destruct k as [|k]; [reflexivity|]); cbn [nth hd tl] in *;
  rewrite IH by auto; now destruct k.
Qed.

(** Only what the lists of the environment say matters, not how long they go on saying nothing. *)
Definition lulled (e e1 : env) : Prop :=
  e_fs e = e_fs e1 /\ e_w e = e_w e1 /\ alike (e_mkdir e) (e_mkdir e1) /\ alike (e_open e) (e_open e1).

Lemma lulled_solo {A} (q : prog A) : forall e e1, lulled e e1 -> fst (solo q e) = fst (solo q e1) /\ lulled (snd (solo q e)) (snd (solo q e1)).
Proof.
  assert (Next : forall X (call : env -> X * env) (k : X -> prog A), (forall x e e1, lulled e e1 -> fst (solo (k x) e) = fst (solo (k x) e1) /\ lulled (snd (solo (k x) e)) (snd (solo (k x) e1))) ->
     (forall e e1, lulled e e1 -> fst (call e) = fst (call e1) /\ lulled (snd (call e)) (snd (call e1))) ->
     forall e e1, lulled e e1 -> fst (let '(x, e') := call e in solo (k x) e') = fst (let '(x, e') := call e1 in solo (k x) e') /\
       lulled (snd (let '(x, e') := call e in solo (k x) e')) (snd (let '(x, e') := call e1 in solo (k x) e'))).
  { intros X call k Hk Hc e e1 L. destruct (Hc e e1 L) as [H1 H2]. destruct (call e) as [x e'], (call e1) as [x1 e1']. cbn [fst snd] in *. subst x1. auto. }
  assert (Fin : forall f w mk mk1 op op1, alike mk mk1 -> alike op op1 -> lulled (mkEnv f w mk op) (mkEnv f w mk1 op1)).
  { intros. repeat split; auto. }
  induction q as [a|p l k IH|o p k IH|h b k IH|p k IH|ev p k IH|p k IH]; cbn [solo]; [auto|apply Next; auto..|];
  intros [f w mk op] [f1 w1 mk1 op1] (E1 & E2 & F1 & F2); cbn [e_fs e_w e_mkdir e_open] in *; subst f1 w1;
  pose proof (alike_hd _ _ F1) as H1; pose proof (alike_hd _ _ F2) as H2; pose proof (alike_tl _ _ F1) as T1; pose proof (alike_tl _ _ F2) as T2.
  - unfold do_dir. cbn [e_fs e_mkdir e_w e_open]. destruct (f p) as [[|c]|]; cbn [fst snd]; auto.
    destruct mk as [|[x|] mk], mk1 as [|[x1|] mk1]; try discriminate; cbn [hd tl] in *; try (injection H1 as <-); unfold set_fs; cbn [fst snd e_fs e_mkdir e_w e_open]; auto.
  - unfold open_file. cbn [e_fs e_mkdir e_w e_open]. destruct (o_append o && o_truncate o && negb (o_create_new o)); [cbn [fst snd]; auto|].
    destruct op as [|[x|] op], op1 as [|[x1|] op1]; try discriminate; cbn [hd tl] in *; try (injection H2 as <-); try solve [cbn [fst snd]; auto];
    (destruct p as [|p1 p]; [|destruct (f (p1 :: p)) as [[|c]|]; [|destruct (o_create_new o); [|destruct (o_truncate o)]|destruct (o_create_new o || o_create o)]]);
    unfold set_fs; cbn [fst snd tl e_fs e_mkdir e_w e_open]; auto.
  - unfold do_write, file_put. cbn [e_fs e_mkdir e_w e_open].
    destruct w as [|[n|x] w]; [|destruct (Nat.min n (length b) =? 0)|]; cbn [e_fs e_mkdir e_w e_open];
    try destruct (f (h_path h)) as [[|c]|]; unfold set_fs; cbn [fst snd e_fs e_mkdir e_w e_open]; auto.
  - unfold create_dir. cbn [e_fs e_mkdir e_w e_open].
    destruct mk as [|[x|] mk], mk1 as [|[x1|] mk1]; try discriminate; cbn [hd tl] in *; try (injection H1 as <-);
    repeat (match goal with |- context [match ?x with _ => _ end] => destruct x end);
    unfold set_fs; cbn [fst snd e_fs e_mkdir e_w e_open]; auto.
  - unfold do_remove. cbn [e_fs]. destruct (remove_dir_all ev p f) as [x f']. unfold set_fs. cbn [fst snd e_fs e_mkdir e_w e_open]. auto.
  - cbn [e_fs]. apply IH. auto.
Qed.

(** The next call of [q] needs [p] not to be there, or not to be a file. *)
Definition wants {A} (q : prog A) (p : path) (n : node) : Prop :=
  match q with
  | POpen _ p' _ => p' = p
  | PDir p' _ _ => p' = p /\ exists c, n = NFile c
  | _ => False
  end.

(** In the history [h] it was [j] that made [p]. *)
Definition made {A} (s0 : pool A) (h : list nat) (j : nat) (p : path) : Prop :=
  exists h1 h2, h = h1 ++ j :: h2 /\ fst (turns h1 s0) p = None /\ fst (turns (h1 ++ [j]) s0) p <> None.

(** In the history [h] the turn of [i] came when another had just taken a path that it needs. *)
Definition clash {A} (s0 : pool A) (h : list nat) (i : nat) : Prop :=
  exists h1 h2 q e p n j, h = h1 ++ i :: h2 /\ nth_error (snd (turns h1 s0)) i = Some (q, e) /\ wants q p n /\
    fst (turns h1 s0) p = Some n /\ fst s0 p = None /\ j <> i /\ made s0 h1 j p.

Lemma made_more {A} (s0 : pool A) h j p i : made s0 h j p -> made s0 (h ++ [i]) j p.
Proof. intros (h1 & h2 & -> & M). exists h1, (h2 ++ [i]). split; auto. now rewrite <- app_assoc. Qed.

Lemma clash_more {A} (s0 : pool A) h j i : clash s0 h i -> clash s0 (h ++ [j]) i.
Proof. intros (h1 & h2 & q & e & p & n & k & -> & C). exists h1, (h2 ++ [j]), q, e, p, n, k. split; auto. now rewrite <- app_assoc. Qed.

#[local] Hint Resolve spends_nil : core.

(** How [i] sees the disk: [G i], what it would find alone. *)
Definition thread_ok {A} (s0 : pool A) (h : list nat) (H : nat -> list path) (g : fs) (f : fs) (i : nat) (q0 : prog A) (e0 : env) (q : prog A) (e : env) : Prop :=
  safe (H i) q (fun _ _ => True) /\
  (exists mkp opp, (forall mk op, solo q0 (mkEnv (fst s0) (e_w e0) (mkp ++ mk) (opp ++ op)) = solo q (mkEnv g (e_w e) mk op)) /\
     (clash s0 h i \/ spends (eq None) mkp (e_mkdir e0) (e_mkdir e) /\ spends never opp (e_open e0) (e_open e))) /\
  (forall p, In p (H i) -> exists c, g p = Some (NFile c)) /\
  (forall p n, g p = Some n -> f p = Some n) /\
  (forall j p, j <> i -> In p (H j) -> g p = None) /\
  (forall p n, fst s0 p = Some n -> g p = Some n) /\
  (forall p c, g p = Some (NFile c) -> fst s0 p = Some (NFile c) \/ In p (H i)).

Definition pool_ok {A} (s0 : pool A) (h : list nat) (H : nat -> list path) (G : nat -> fs) : Prop :=
  let s := turns h s0 in
  (forall p n, fst s0 p = Some n -> fst s p = Some n) /\
  (forall i p, In p (H i) -> fst s0 p = None /\ i < length (snd s0)) /\
  length (snd s) = length (snd s0) /\
  (forall p n, fst s p = Some n -> fst s0 p = None -> exists j, G j p <> None /\ made s0 h j p) /\
  forall i q0 e0 q e, nth_error (snd s0) i = Some (q0, e0) -> nth_error (snd s) i = Some (q, e) ->
    thread_ok s0 h H (G i) (fst s) i q0 e0 q e.

(** What a call of [write] does to a file. *)
Lemma do_write_file hd b ws c : exists x h1 ws' c', h_path h1 = h_path hd /\ forall f, f (h_path hd) = Some (NFile c) ->
  exists f', (forall mk op, do_write hd b (mkEnv f ws mk op) = (x, h1, mkEnv f' ws' mk op)) /\ forall q, f' q = upd f (h_path hd) (Some (NFile c')) q.
Proof.
  assert (Keep : forall f, f (h_path hd) = Some (NFile c) -> forall q, f q = upd f (h_path hd) (Some (NFile c)) q).
  { intros f Hf q. unfold upd. destruct (path_eq_dec q (h_path hd)); congruence. }
  unfold do_write. cbn [e_w].
  destruct ws as [|[n|k] ws]; cbn [tl].
  - do 4 eexists. split; [shelve|]. intros f Hf. unfold file_put. cbn [e_fs]. rewrite Hf. unfold set_fs. cbn [e_fs e_mkdir e_open e_w].
    eexists. split; [intros mk op; reflexivity|]. reflexivity.
    Unshelve. reflexivity.
  - destruct (Nat.min n (length b) =? 0).
    + do 4 eexists. split; [reflexivity|]. intros f Hf. exists f. split; [intros mk op; reflexivity|]. now apply Keep.
    + do 4 eexists. split; [shelve|]. intros f Hf. unfold file_put. cbn [e_fs]. rewrite Hf. unfold set_fs. cbn [e_fs e_mkdir e_open e_w].
      eexists. split; [intros mk op; reflexivity|]. reflexivity.
      Unshelve. reflexivity.
  - do 4 eexists. split; [reflexivity|]. intros f Hf. exists f. split; [intros mk op; reflexivity|]. now apply Keep.
Qed.

(** One call of thread [i]. *)
Lemma call_ok {A} (s0 : pool A) h H G i q0 e0 q e q' e' : pool_ok s0 h H G ->
  nth_error (snd s0) i = Some (q0, e0) -> nth_error (snd (turns h s0)) i = Some (q, e) ->
  step q (set_fs (fst (turns h s0)) e) = (q', e') ->
  exists Hi g', incl (H i) Hi /\ (forall p, In p Hi -> In p (H i) \/ fst (turns h s0) p = None) /\
    (forall p, e_fs e' p = fst (turns h s0) p \/ (fst (turns h s0) p = None /\ e_fs e' p <> None /\ g' p <> None) \/ (In p (H i) /\ e_fs e' p <> None)) /\
    (forall p, G i p <> None -> g' p <> None) /\
    thread_ok s0 (h ++ [i]) (fun j => if Nat.eq_dec j i then Hi else H j) g' (e_fs e') i q0 e0 q' e'.
Proof.
  intros (O1 & O2 & O3 & O4 & O5) Hn0 Hn. set (f := fst (turns h s0)) in *.
  destruct (O5 _ _ _ _ _ Hn0 Hn) as (Sf & (mkp & opp & Eq & Nf) & Tb & Tc & Td & Th & Tg). set (g := G i) in *.
  assert (Cl : forall p n, wants q p n -> f p = Some n -> g p = None -> clash s0 (h ++ [i]) i).
  { intros p n Hw Hp Hg. assert (F0 : fst s0 p = None).
    { destruct (fst s0 p) as [m|] eqn:F0; auto. rewrite (Th _ _ F0) in Hg. discriminate. }
    destruct (O4 p n Hp F0) as (j & Gj & Mj). exists h, [], q, e, p, n, j. split; auto. split; auto. split; auto. split; auto. split; auto.
    split; auto. intros ->. apply Gj. exact Hg. }
  assert (HH : forall Hi, (if Nat.eq_dec i i then Hi else H i) = Hi) by (intros; destruct (Nat.eq_dec i i); congruence).
  assert (Later : forall mk' op' e', clash s0 (h ++ [i]) i \/ spends (eq None) mk' (e_mkdir e) (e_mkdir e') /\ spends never op' (e_open e) (e_open e') ->
    clash s0 (h ++ [i]) i \/ spends (eq None) (mkp ++ mk') (e_mkdir e0) (e_mkdir e') /\ spends never (opp ++ op') (e_open e0) (e_open e')).
  { intros mk' op' e1 [Q|[Q1 Q2]]; auto. destruct Nf as [Q|[Q3 Q4]]; [left; now apply clash_more|]. right. split; eapply spends_app; eauto. }
  (* nothing new on the disk *)
  assert (Same : forall q' e' mk' op', safe (H i) q' (fun _ _ => True) -> e_w e' = e_w e ->
    (forall mk op, solo q (mkEnv g (e_w e) (mk' ++ mk) (op' ++ op)) = solo q' (mkEnv g (e_w e) mk op)) -> e_fs e' = f ->
    (clash s0 (h ++ [i]) i \/ spends (eq None) mk' (e_mkdir e) (e_mkdir e') /\ spends never op' (e_open e) (e_open e')) ->
    exists Hi g', incl (H i) Hi /\ (forall p, In p Hi -> In p (H i) \/ f p = None) /\
    (forall p, e_fs e' p = f p \/ (f p = None /\ e_fs e' p <> None /\ g' p <> None) \/ (In p (H i) /\ e_fs e' p <> None)) /\
    (forall p, g p <> None -> g' p <> None) /\
    thread_ok s0 (h ++ [i]) (fun j => if Nat.eq_dec j i then Hi else H j) g' (e_fs e') i q0 e0 q' e').
  { intros q1 e1 mk' op' S1 W1 E1 F1 Q1. exists (H i), g. split; [apply incl_refl|]. split; auto. rewrite F1. split; auto. split; auto.
    unfold thread_ok. rewrite HH. split; auto. split.
    { exists (mkp ++ mk'), (opp ++ op'). split; auto. intros mk op. rewrite <- !app_assoc, Eq, W1. apply E1. }
    split; auto. split; auto. split; auto.
    intros j p Nj. destruct (Nat.eq_dec j i) as [->|_]; [congruence|]. now apply Td. }
  (* a new node *)
  assert (New : forall q' e' mk' op' p n Hi, f p = None \/ (f p = Some NDir /\ n = NDir) -> g p = None ->
    (n = NDir /\ Hi = H i \/ n = NFile [] /\ Hi = p :: H i /\ f p = None) ->
    safe Hi q' (fun _ _ => True) -> e_w e' = e_w e ->
    (forall mk op, solo q (mkEnv g (e_w e) (mk' ++ mk) (op' ++ op)) = solo q' (mkEnv (upd g p (Some n)) (e_w e) mk op)) ->
    (forall x, e_fs e' x = upd f p (Some n) x) ->
    spends (eq None) mk' (e_mkdir e) (e_mkdir e') -> spends never op' (e_open e) (e_open e') ->
    exists Hi g', incl (H i) Hi /\ (forall p, In p Hi -> In p (H i) \/ f p = None) /\
    (forall p, e_fs e' p = f p \/ (f p = None /\ e_fs e' p <> None /\ g' p <> None) \/ (In p (H i) /\ e_fs e' p <> None)) /\
    (forall p, g p <> None -> g' p <> None) /\
    thread_ok s0 (h ++ [i]) (fun j => if Nat.eq_dec j i then Hi else H j) g' (e_fs e') i q0 e0 q' e').
  { intros q1 e1 mk' op' p n Hi Fp Gp Kn S1 W1 E1 F1 Q1 Q2. exists Hi, (upd g p (Some n)).
    assert (Np : forall j, ~ In p (H j)).
    { intros j Hj. destruct (Nat.eq_dec j i) as [->|Nj]; [destruct (Tb _ Hj); congruence|].
      destruct (nth_error (snd s0) j) as [[qj ej]|] eqn:Nj0.
      - destruct (nth_error (snd (turns h s0)) j) as [[qj' ej']|] eqn:Nj1.
        + destruct (O5 _ _ _ _ _ Nj0 Nj1) as (_ & _ & Tb' & Tc' & _). destruct (Tb' _ Hj) as [c Hc]. apply Tc' in Hc.
          fold f in Hc. destruct Fp as [Fp|[Fp _]]; congruence.
        + apply nth_error_None in Nj1. assert (j < length (snd s0)) by (apply nth_error_Some; congruence). lia.
      - exfalso. revert Hj. apply nth_error_None in Nj0. intros Hj. apply O2 in Hj. lia. }
    split; [destruct Kn as [[_ ->]|(_ & -> & _)]; [apply incl_refl|apply incl_tl, incl_refl]|].
    split.
    { intros x Hx. destruct Kn as [[_ ->]|(_ & -> & Fn)]; auto. destruct Hx as [<-|Hx]; auto. }
    split.
    { intros x. rewrite F1. unfold upd. destruct (path_eq_dec x p) as [->|_]; auto.
      destruct Fp as [Fp|[Fp ->]]; [right; left|left; auto]. split; auto. split; discriminate. }
    split.
    { intros x Hx. unfold upd. destruct (path_eq_dec x p); [discriminate|auto]. }
    unfold thread_ok. rewrite HH. split; auto. split.
    { exists (mkp ++ mk'), (opp ++ op'). split; auto. intros mk op. rewrite <- !app_assoc, Eq, W1. apply E1. }
    split.
    { intros x Hx. unfold upd. destruct (path_eq_dec x p) as [->|Nx].
      - destruct Kn as [[_ ->]|(-> & _)]; [exfalso; eapply Np; eauto|eauto].
      - apply Tb. destruct Kn as [[_ ->]|(_ & -> & _)]; auto. destruct Hx; congruence. }
    split.
    { intros x m. rewrite F1. unfold upd. destruct (path_eq_dec x p) as [->|Nx]; auto. }
    split.
    { intros j x Nj. destruct (Nat.eq_dec j i) as [->|_]; [congruence|]. intros Hx. unfold upd.
      destruct (path_eq_dec x p) as [->|Nx]; [exfalso; eapply Np; eauto|eauto]. }
    split.
    { intros x m Hx. apply Th in Hx. unfold upd. destruct (path_eq_dec x p) as [->|Nx]; [congruence|auto]. }
    intros x c. unfold upd. destruct (path_eq_dec x p) as [->|Nx].
    - intros Q; injection Q as ->. right. destruct Kn as [[Q _]|(_ & -> & _)]; [discriminate|left; auto].
    - intros Hx. apply Tg in Hx. destruct Hx as [Hx|Hx]; auto. right. destruct Kn as [[_ ->]|(_ & -> & _)]; [auto|right; auto]. }
  destruct q as [a|p l k|o p k|hd b k|p k|ev p k|p k]; cbn [step safe] in *; [| | | |contradiction|contradiction|contradiction].
  - intros H1; injection H1 as <- <-. apply Same with (mk' := []) (op' := []); auto.
  - unfold do_dir. cbn [set_fs e_fs e_mkdir e_w e_open]. fold f. destruct (f p) as [[|c]|] eqn:Fp.
    + intros H1; injection H1 as <- <-. destruct (g p) as [n|] eqn:Gp.
      * pose proof (Tc _ _ Gp) as Q. rewrite Fp in Q. injection Q as <-.
        apply Same with (mk' := []) (op' := []); auto.
        intros mk op. cbn [solo app]. unfold do_dir. cbn [e_fs]. now rewrite Gp.
      * apply New with (mk' := [None]) (op' := []) (p := p) (n := NDir) (Hi := H i); auto.
        { intros mk op. cbn [solo app]. unfold do_dir. cbn [e_fs e_mkdir e_w e_open]. now rewrite Gp. }
        { intros x. cbn [set_fs e_fs]. unfold upd. destruct (path_eq_dec x p); congruence. }
        now apply spends_more.
    + intros H1; injection H1 as <- <-. destruct (g p) as [n|] eqn:Gp.
      * pose proof (Tc _ _ Gp) as Q. rewrite Fp in Q. injection Q as <-.
        apply Same with (mk' := []) (op' := []); auto.
        intros mk op. cbn [solo app]. unfold do_dir. cbn [e_fs]. now rewrite Gp.
      * apply Same with (mk' := [Some (if l then KAlreadyExists else KOther 20)]) (op' := []); auto.
        { intros mk op. cbn [solo app]. unfold do_dir. cbn [e_fs e_mkdir e_w e_open]. now rewrite Gp. }
        left. apply Cl with (p := p) (n := NFile c); auto. cbn [wants]. eauto.
    + assert (Gp : g p = None) by (destruct (g p) as [n|] eqn:Gp; auto; apply Tc in Gp; congruence).
      destruct (e_mkdir e) as [|[kk|] m] eqn:Em; intros H1; injection H1 as <- <-.
      * apply New with (mk' := [None]) (op' := []) (p := p) (n := NDir) (Hi := H i); auto.
        { intros mk op. cbn [solo app]. unfold do_dir. cbn [e_fs e_mkdir e_w e_open]. now rewrite Gp. }
        cbn [set_fs e_mkdir]. rewrite ?Em. apply (spends_own _ []).
      * apply Same with (mk' := [Some kk]) (op' := []); auto.
        { intros mk op. cbn [solo app]. unfold do_dir. cbn [e_fs e_mkdir e_w e_open]. now rewrite Gp. }
        right. split; auto. apply (spends_own _ (Some kk :: m)).
      * apply New with (mk' := [None]) (op' := []) (p := p) (n := NDir) (Hi := H i); auto.
        { intros mk op. cbn [solo app]. unfold do_dir. cbn [e_fs e_mkdir e_w e_open]. now rewrite Gp. }
        apply (spends_own _ (None :: m)).
  - destruct Sf as (Ho & S1 & S2).
    assert (Fail : forall kk f ws mk op, open_file o p (mkEnv f ws mk (Some kk :: op)) = (inr kk, mkEnv f ws mk op)).
    { intros kk f1 ws mk op. unfold open_file. cbn [e_open e_fs e_w e_mkdir tl]. now rewrite Ho, andb_false_r. }
    unfold open_file at 1. cbn [set_fs e_fs e_mkdir e_w e_open]. rewrite Ho, andb_false_r. fold f.
    assert (Own : forall x m, e_open e = x :: m \/ e_open e = [] /\ x = None /\ m = [] -> spends never [x] (e_open e) m).
    { intros x m [->|(-> & -> & ->)]; [apply (spends_own _ (x :: m))|apply (spends_own _ [])]. }
    (* the open of a path with something there, which the disk lets through *)
    assert (Lost : forall kk n (c : bytes) (p' : path) e', p = c :: p' -> f p = Some n ->
      (n = NDir /\ kk = KOther 21 \/ (exists c, n = NFile c) /\ kk = KAlreadyExists) -> e_fs e' = f -> e_w e' = e_w e ->
      e_mkdir e' = e_mkdir e -> (e_open e = None :: e_open e' \/ e_open e = [] /\ @None iokind = None /\ e_open e' = []) ->
      exists Hi g', incl (H i) Hi /\ (forall p, In p Hi -> In p (H i) \/ f p = None) /\
      (forall p, e_fs e' p = f p \/ (f p = None /\ e_fs e' p <> None /\ g' p <> None) \/ (In p (H i) /\ e_fs e' p <> None)) /\
      (forall p, g p <> None -> g' p <> None) /\
      thread_ok s0 (h ++ [i]) (fun j => if Nat.eq_dec j i then Hi else H j) g' (e_fs e') i q0 e0 (k (inr kk)) e').
    { intros kk n c p' e1 Ep Fp Kn F1 W1 M1 P1. destruct (g p) as [m|] eqn:Gp.
      - pose proof (Tc _ _ Gp) as Q. rewrite Fp in Q. injection Q as <-.
        apply Same with (mk' := []) (op' := [None]); auto.
        + intros mk op. cbn [solo app]. unfold open_file. cbn [e_open e_fs e_w e_mkdir tl]. rewrite Ho, andb_false_r. subst p. rewrite Gp.
          destruct Kn as [[-> ->]|[[d ->] ->]]; reflexivity.
        + right. rewrite M1. split; auto.
      - apply Same with (mk' := []) (op' := [Some kk]); auto.
        + intros mk op. cbn [solo app]. now rewrite Fail.
        + left. eapply Cl; [|exact Fp|exact Gp]. reflexivity. }
    intros H1. destruct (e_open e) as [|[kk|] m] eqn:Eo; cbn [tl] in *.
    2: { injection H1 as <- <-. apply Same with (mk' := []) (op' := [Some kk]); auto.
         intros mk op. cbn [solo app]. now rewrite Fail. }
    all: destruct p as [|c p].
    1, 3: injection H1 as <- <-; apply Same with (mk' := []) (op' := [None]); auto;
      try (intros mk op; cbn [solo app]; unfold open_file; cbn [e_open e_fs e_w e_mkdir tl]; now rewrite Ho, andb_false_r); right; split; auto; apply Own; auto.
    all: destruct (f (c :: p)) as [[|d]|] eqn:Fp; [| |cbn [orb] in H1]; injection H1 as <- <-.
    1, 4: apply (Lost _ NDir c p); auto.
    1, 3: apply (Lost _ (NFile d) c p); eauto.
    all: assert (Gp : g (c :: p) = None) by (destruct (g (c :: p)) as [n|] eqn:Gp; auto; apply Tc in Gp; congruence).
    all: apply New with (mk' := []) (op' := [None]) (p := c :: p) (n := NFile []) (Hi := (c :: p) :: H i); auto.
    all: try (intros mk op; cbn [solo app]; unfold open_file; cbn [e_open e_fs e_w e_mkdir tl]; rewrite Ho, andb_false_r, Gp; reflexivity).
    all: apply Own; cbn [set_fs e_open tl]; auto.
  - destruct Sf as (Hin & S1). destruct (Tb _ Hin) as [c Gc]. pose proof (Tc _ _ Gc) as Fc. fold f in Fc.
    destruct (do_write_file hd b (e_w e) c) as (x & h1 & ws & c' & Hp & K).
    destruct (K f Fc) as (f' & D1 & U1). destruct (K g Gc) as (g' & D2 & U2).
    change (set_fs f e) with (mkEnv f (e_w e) (e_mkdir e) (e_open e)). rewrite D1. intros H1; injection H1 as <- <-.
    set (P := h_path hd) in *.
    exists (H i), g'. cbn [e_fs e_w e_mkdir e_open]. split; [apply incl_refl|]. split; auto. split.
    { intros y. rewrite U1. unfold upd. destruct (path_eq_dec y P) as [->|Ny]; auto. right. right. split; auto. discriminate. }
    split.
    { intros y Hy. rewrite U2. unfold upd. destruct (path_eq_dec y P); [discriminate|auto]. }
    unfold thread_ok. cbn [e_fs e_w e_mkdir e_open]. rewrite HH. split; auto. split.
    { exists mkp, opp. split; [intros mk op; rewrite Eq; cbn [solo]; now rewrite D2|]. destruct Nf as [Nf|Nf]; auto. left. now apply clash_more. }
    split.
    { intros y Hy. rewrite U2. unfold upd. destruct (path_eq_dec y P); eauto. }
    split.
    { intros y n. rewrite U1, U2. unfold upd. destruct (path_eq_dec y P); auto. }
    split.
    { intros j y Nj. destruct (Nat.eq_dec j i) as [->|_]; [congruence|]. intros Hy. rewrite U2. unfold upd.
      destruct (path_eq_dec y P) as [->|_]; [|eauto]. exfalso. rewrite (Td _ _ Nj Hy) in Gc. discriminate. }
    split.
    { intros y n Hy. rewrite U2. unfold upd. destruct (path_eq_dec y P) as [->|_]; [|auto]. destruct (O2 _ _ Hin). congruence. }
    intros y d. rewrite U2. unfold upd. destruct (path_eq_dec y P) as [->|_]; [auto|eauto].
Qed.

Lemma turn_ok {A} (s0 : pool A) h H G i : pool_ok s0 h H G -> exists H' G', pool_ok s0 (h ++ [i]) H' G'.
Proof.
  intros Hok. pose proof Hok as (O1 & O2 & O3 & O4 & O5).
  assert (Et : turns (h ++ [i]) s0 = turn i (turns h s0)) by (rewrite turns_app; reflexivity).
  unfold turn in Et.
  destruct (nth_error (snd (turns h s0)) i) as [[q e]|] eqn:Hn.
  2: { exists H, G. unfold pool_ok. rewrite Et. split; auto. split; auto. split; auto. split.
       { intros p n Hp H0. destruct (O4 p n Hp H0) as (j & Gj & Mj). exists j. split; auto. now apply made_more. }
       intros j q0 e0 q e H0 H1. destruct (O5 _ _ _ _ _ H0 H1) as (K1 & (mkp & opp & K2 & K8) & K3 & K4 & K5 & K6 & K7).
       split; [assumption|]. split; [|auto]. exists mkp, opp. split; auto. destruct K8; auto. left. now apply clash_more. }
  destruct (nth_error (snd s0) i) as [[q0 e0]|] eqn:Hn0.
  2: { apply nth_error_None in Hn0. assert (i < length (snd (turns h s0))) by (apply nth_error_Some; congruence). lia. }
  destruct (step q (set_fs (fst (turns h s0)) e)) as [q' e'] eqn:St.
  destruct (call_ok _ _ _ _ _ _ _ _ _ _ _ Hok Hn0 Hn St) as (Hi & g' & I1 & I2 & I3 & I4 & Th).
  set (f := fst (turns h s0)) in *.
  exists (fun j => if Nat.eq_dec j i then Hi else H j), (fun j => if Nat.eq_dec j i then g' else G j).
  unfold pool_ok. rewrite Et. cbn [fst snd].
  assert (Grow : forall p n, f p = Some n -> e_fs e' p <> None).
  { intros p n Hp. destruct (I3 p) as [Q|[(Q & _)|(_ & Q)]]; congruence. }
  split.
  { intros p n Hp. destruct (I3 p) as [Q|[(Q & _)|(Q & _)]].
    - rewrite Q. auto.
    - rewrite (O1 _ _ Hp) in Q. discriminate.
    - destruct (O2 _ _ Q) as [Q1 _]. congruence. }
  split.
  { intros j p. destruct (Nat.eq_dec j i) as [->|Nj]; [|auto]. intros Hp. apply I2 in Hp as [Hp|Hp]; [auto|].
    split; [destruct (fst s0 p) as [n|] eqn:F0; auto; apply O1 in F0; fold f in F0; congruence|]. apply nth_error_Some. congruence. }
  split; [rewrite set_length; auto|]. split.
  { intros p n Hp H0. destruct (f p) as [m|] eqn:Fp.
    - destruct (O4 p m Fp H0) as (j & Gj & Mj). exists j. split; [|now apply made_more].
      destruct (Nat.eq_dec j i) as [->|]; auto.
    - exists i. destruct (Nat.eq_dec i i) as [_|]; [|congruence]. split.
      + destruct (I3 p) as [Q|[(_ & _ & Q)|(Q & _)]]; [congruence|auto|].
        apply I4. destruct (O5 _ _ _ _ _ Hn0 Hn) as (_ & _ & Tb & _). destruct (Tb _ Q). congruence.
      + exists h, []. split; auto. split; auto. rewrite Et. cbn [fst]. congruence. }
  intros k q1 e1 q2 e2 H1 H2. rewrite nth_set in H2. destruct (Nat.eq_dec i k) as [<-|Nk].
  - rewrite Hn in H2. injection H2 as <- <-. rewrite Hn0 in H1. injection H1 as <- <-.
    destruct (Nat.eq_dec i i) as [_|]; [exact Th|congruence].
  - destruct (O5 _ _ _ _ _ H1 H2) as (K1 & (mkp & opp & K2 & K8) & K3 & K4 & K5 & K6 & K7). fold f in K4.
    destruct (Nat.eq_dec k i) as [->|_]; [congruence|].
    unfold thread_ok. destruct (Nat.eq_dec k i) as [->|_]; [congruence|].
    split; auto. split; [exists mkp, opp; split; auto; destruct K8; auto; left; now apply clash_more|]. split; auto. split.
    { intros p n Hp. destruct (I3 p) as [Q|[(Q & _)|(Q & _)]].
      - rewrite Q. auto.
      - rewrite (K4 _ _ Hp) in Q. discriminate.
      - rewrite (K5 i p) in Hp; [discriminate|congruence|auto]. }
    split.
    { intros j p Nj. destruct (Nat.eq_dec j i) as [->|_]; [|now apply K5]. intros Hp. apply I2 in Hp as [Hp|Hp]; [eapply K5; eauto|].
      destruct (G k p) as [n|] eqn:Gp; auto. apply K4 in Gp. congruence. }
    split; auto.
Qed.

Lemma pool_start {A} (s0 : pool A) : (forall i q e, nth_error (snd s0) i = Some (q, e) -> safe [] q (fun _ _ => True)) ->
  pool_ok s0 [] (fun _ => []) (fun _ => fst s0).
Proof.
  intros Hs. unfold pool_ok. cbn [turns]. split; auto. split; [intros i p []|]. split; auto. split; [congruence|].
  intros i q0 e0 q e H1 H2. rewrite H1 in H2. injection H2 as <- <-.
  split; [eapply Hs; eauto|]. split; [exists [], []; split; auto|]. split; [intros p []|]. split; auto. split; [intros j p _ []|].
  split; auto.
Qed.

Lemma pool_all {A} (s0 : pool A) : (forall i q e, nth_error (snd s0) i = Some (q, e) -> safe [] q (fun _ _ => True)) ->
  forall h, exists H G, pool_ok s0 h H G.
Proof.
  intros Hs. induction h as [|i h IH] using rev_ind; [do 2 eexists; now apply pool_start|].
  destruct IH as (H & G & Hok). eapply turn_ok; eauto.
Qed.
