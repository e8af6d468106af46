(** Property theorems about the resources that a request can take (C85): the reader's buffer, the memory and the
    disk space of what is saved. *)

From Verif Require Import Bytes BytesProofs Spec Io Boundary BoundaryProofs Utf8 Utf8Proofs Httparse Field FieldProofs
  ContentProofs DataProofs ShortProofs EntryProofs ReaderProofs Drive DriveProofs ReachProofs Toy PropsReader Rand Fs Save SaveProofs
  PhaseProofs SaveFacts TextProofs PropsSave EntriesProofs CompleteProofs PropsEntries.

(** ** The buffer *)

(** No read returns more than [K] bytes (the free space in the buffer: at most its capacity). *)
Definition reads_at_most (K : nat) (t : transport) : Prop :=
  Forall (fun ev => match ev with Chunk c => length c <= K | Fail _ => True end) t.

Section Buffer.
Context (K M : nat).

Definition small (r : breader) : Prop :=
  length (buf r) < M + K /\ reads_at_most K (src r) /\ minb r <= M /\ 2 * length (bnd r) <= M.

Lemma fill_small m t : m <= M -> forall b x b' t', reads_at_most K t -> length b < M + K ->
  fill_buf m b t = (x, b', t') -> length b' < M + K /\ reads_at_most K t'.
Proof.
  intros Lm. induction t as [|ev t IH]; intros b x b' t' Ht Lb; cbn [fill_buf].
  - destruct (m <=? length b); intros H; injection H as _ <- <-; auto.
  - destruct (m <=? length b) eqn:L; [intros H; injection H as _ <- <-; auto|]. apply Nat.leb_gt in L.
    inversion Ht as [|? ? H1 H2]; subst. destruct ev as [c|k].
    + destruct c as [|y c]; [intros H; injection H as _ <- <-; auto|]. apply IH; auto. rewrite app_length. lia.
    + intros H; injection H as _ <- <-; auto.
Qed.

Lemma read_to_boundary_small r x r' : small r -> read_to_boundary r = (x, r') -> small r' /\ forall d, x = Ok d -> length d < M + K.
Proof.
  intros (H1 & H2 & H3 & H4). unfold read_to_boundary.
  destruct (fill_buf (minb r) (buf r) (src r)) as [[y b] t] eqn:F.
  apply fill_small in F as [F1 F2]; auto.
  assert (C : forall n, length (firstn n b) < M + K) by (intros n; rewrite firstn_length; lia).
  destruct y as [k|]; [|destruct (st r)].
  - intros H; injection H as <- <-. unfold small. simpl. split; auto; discriminate.
  - destruct (search_step b (bnd r) (idx r)) as [[i s]|]; intros H; injection H as <- <-; unfold small; simpl;
      (split; [auto|]); intros d Q; try discriminate; injection Q as <-; auto.
  - destruct (length b <? idx r); intros H; injection H as <- <-; unfold small; simpl; (split; [auto|]); intros d Q; try discriminate;
      injection Q as <-; auto.
  - destruct (length b <? idx r); intros H; injection H as <- <-; unfold small; simpl; (split; [auto|]); intros d Q; try discriminate;
      injection Q as <-; auto.
Qed.

Lemma consume_small n r : small r -> small (consume n r).
Proof. intros (H1 & H2 & H3 & H4). unfold small, consume. simpl. rewrite skipn_length. repeat split; auto. lia. Qed.

Lemma set_min_small n r : n <= M -> small r -> small (set_min_buf_size n r).
Proof. intros L (H1 & H2 & H3 & H4). unfold small, set_min_buf_size. cbn [buf src minb bnd]. repeat split; auto. lia. Qed.

Lemma skip_small fuel : forall r x r', small r -> skip_to_boundary fuel r = (x, r') -> small r'.
Proof.
  induction fuel as [|fuel IH]; intros r x r' H; cbn [skip_to_boundary].
  - destruct (st r); intros Q; injection Q as _ <-; auto.
  - destruct (st r); [|intros Q; injection Q as _ <-; auto|intros Q; injection Q as _ <-; auto].
    destruct (read_to_boundary r) as [y r1] eqn:E. apply read_to_boundary_small in E as [E _]; auto.
    destruct y as [d|k| |]; try (intros Q; injection Q as _ <-; auto; fail).
    destruct (_ && _)%bool; [intros Q; injection Q as _ <-; auto|]. apply IH. now apply consume_small.
Qed.

Lemma verify_small r x r' : small r -> verify_boundary r = (x, r') -> small r'.
Proof.
  intros (H1 & H2 & H3 & H4). unfold verify_boundary.
  destruct (fill_buf (minb r) (buf r) (src r)) as [[y b] t] eqn:F. apply fill_small in F as [F1 F2]; auto.
  assert (G : forall r', buf r' = b /\ src r' = t /\ minb r' = minb r /\ bnd r' = bnd r -> small r')
    by (intros r0 (Q1 & Q2 & Q3 & Q4); unfold small; rewrite Q1, Q2, Q3, Q4; auto).
  destruct y as [k|]; [intros H; injection H as _ <-; apply G; simpl; auto|].
  cbv zeta. repeat match goal with |- (if ?c then _ else _) = _ -> _ => destruct c; [intros H; injection H as _ <-; apply G; simpl; auto; fail|] end.
  destruct (slice _ _ b) as [|u [|v [|w l]]]; try (intros H; injection H as _ <-; apply G; simpl; auto; fail).
  destruct (_ && _)%bool; [|destruct (_ && _)%bool]; intros H; injection H as _ <-; try (apply G; simpl; auto; fail);
    unfold small; cbn [buf src minb bnd]; repeat split; auto; rewrite skipn_length; lia.
Qed.

Lemma consume_boundary_small r x r' : small r -> consume_boundary r = (x, r') -> small r'.
Proof.
  intros H. unfold consume_boundary. destruct (st r); [| |intros Q; injection Q as _ <-; auto].
  all: destruct (skip_to_boundary _ r) as [y r1] eqn:E; apply skip_small in E; auto; destruct y; try (intros Q; injection Q as _ <-; auto; fail);
    now apply verify_small.
Qed.

Lemma with_headers_small trim fuel : forall n r x r', small r -> with_headers trim fuel n r = (x, r') ->
  small r' /\ forall hs, x = Ok hs -> exists b rest, length b < M + K /\ parse_headers trim HEADER_LEN b = HDone hs rest.
Proof.
  induction fuel as [|fuel IH]; intros n r x r' H; cbn [with_headers].
  { intros Q; injection Q as <- <-. split; [auto|discriminate]. }
  destruct (read_to_boundary r) as [y r1] eqn:E. apply read_to_boundary_small in E as [E Ey]; auto.
  destruct y as [d|k| |]; try (intros Q; injection Q as <- <-; split; [auto|discriminate]).
  destruct (length d =? n); [intros Q; injection Q as <- <-; split; [auto|discriminate]|].
  destruct (parse_headers trim HEADER_LEN d) as [|z|hs rest] eqn:P.
  - apply IH; auto.
  - intros Q; injection Q as <- <-; split; [auto|discriminate].
  - destruct (copy_headers hs); intros Q; injection Q as <- <-.
    + split; [now apply consume_small|]. intros hs' Q. injection Q as <-. eauto.
    + split; [auto|discriminate].
Qed.

(** The values that httparse finds lie in the buffer. *)
Lemma skip_blanks_length b : length (skip_blanks b) <= length b.
Proof. induction b as [|c b IH]; simpl; [lia|]. destruct (blank c); simpl; lia. Qed.

Lemma scan_name_length b : forall acc n rest, scan_name acc b = HDone n rest -> length rest <= length b.
Proof.
  induction b as [|c b IH]; intros acc n rest; cbn [scan_name]; [discriminate|].
  destruct (c =? 58)%N; [intros H; injection H as _ <-; simpl; lia|]. destruct (name_token c); [|discriminate].
  intros H. apply IH in H. simpl. lia.
Qed.

Lemma scan_value_length b : forall acc v rest, scan_value acc b = HDone v rest -> length v + length rest <= length acc + length b.
Proof.
  induction b as [|c b IH]; intros acc v rest; cbn [scan_value]; [discriminate|].
  destruct (value_token c); [intros H; apply IH in H; simpl in *; lia|].
  destruct (c =? CR)%N.
  - destruct b as [|d b]; [discriminate|]. destruct (d =? LF)%N; [|discriminate]. intros H; injection H as <- <-. rewrite rev_length. simpl. lia.
  - destruct (c =? LF)%N; [|discriminate]. intros H; injection H as <- <-. rewrite rev_length. simpl. lia.
Qed.

Lemma parse_headers_length trim slots : forall b hs rest, parse_headers trim slots b = HDone hs rest ->
  Forall (fun h : bytes * bytes => length (snd h) <= length b) hs.
Proof.
  assert (A : forall c b b' n t1 v t2, scan_name [c] b' = HDone n t1 -> scan_value [] (skip_blanks t1) = HDone v t2 -> b = c :: b' ->
    length v + length t2 < length b).
  { intros c b b' n t1 v t2 H1 H2 ->. apply scan_name_length in H1. apply scan_value_length in H2.
    pose proof (skip_blanks_length t1). simpl in *. lia. }
  induction slots as [|slots IH]; intros b hs rest; destruct b as [|c b]; cbn [parse_headers]; try discriminate.
  all: destruct (c =? CR)%N; [destruct b as [|d b']; [discriminate|]; destruct (d =? LF)%N; [|discriminate]; intros H; injection H as <- _; constructor|].
  all: destruct (c =? LF)%N; [intros H; injection H as <- _; constructor|].
  all: destruct (negb (name_token c)); try discriminate.
  destruct (scan_name [c] b) as [| |n t1] eqn:E1; try discriminate.
  destruct (scan_value [] (skip_blanks t1)) as [| |v t2] eqn:E2; try discriminate.
  destruct (parse_headers trim slots t2) as [| |hs' t3] eqn:E3; try discriminate. intros H; injection H as <- _.
  pose proof (A c (c :: b) b n t1 v t2 E1 E2 eq_refl) as L. apply IH in E3. constructor.
  - simpl snd. destruct trim; [|lia]. unfold trim_end. rewrite rev_length. pose proof (skip_blanks_length (rev v)) as Q.
    rewrite rev_length in Q. lia.
  - eapply Forall_impl; [|exact E3]. intros h Q. cbv beta in *. lia.
Qed.

Lemma drop_byte_length c s : length (drop_byte c s) <= length s.
Proof. induction s as [|x s IH]; simpl; [lia|]. destruct (x =? c)%N; simpl; lia. Qed.

Lemma trim_quotes_length s : length (trim_quotes s) <= length s.
Proof.
  unfold trim_quotes. rewrite rev_length. pose proof (drop_byte_length QUOTE (rev (drop_byte QUOTE s))) as A.
  rewrite rev_length in A. pose proof (drop_byte_length QUOTE s). lia.
Qed.

Lemma get_str_after_length n d s v rest : get_str_after n d s = Some (v, rest) -> length v + length rest <= length s.
Proof.
  unfold get_str_after. destruct (find_bytes s n) as [i|]; [|discriminate].
  set (stop := match _ with Some _ => _ | None => _ end). clearbody stop.
  intros H; injection H as <- <-. unfold slice. rewrite firstn_length, !skipn_length. lia.
Qed.

(** The bytes of the name and the file name of a field. *)
Definition names_length {ML} (h : field_headers ML) : nat :=
  length (fh_name ML h) + match fh_filename ML h with Some f => length f | None => 0 end.

Lemma headers_length ML hs h n : Forall (fun p : bytes * bytes => length (snd p) <= n) hs ->
  parse_field_headers ML hs = Ok h -> names_length h <= n.
Proof.
  intros L. unfold parse_field_headers. destruct (parse_content_disp hs) as [[nm fn]|e| |] eqn:E; try discriminate.
  destruct (parse_content_type ML hs); try discriminate. intros H; injection H as <-. unfold names_length. simpl.
  revert E. unfold parse_content_disp, find_header. destruct (find _ hs) as [[a0 v]|] eqn:F; [|discriminate]. simpl.
  apply find_some in F as [F _]. rewrite Forall_forall in L. apply L in F. simpl in F.
  unfold split_once. destruct (find_bytes v [SEMI]) as [i|]; [|discriminate].
  destruct (negb _); [discriminate|].
  destruct (get_str_after (bs "name=") SEMI (skipn i v)) as [[n0 aft]|] eqn:G; [|discriminate].
  apply get_str_after_length in G. rewrite skipn_length in G.
  intros H; injection H as <- <-. pose proof (trim_quotes_length n0).
  destruct (get_str_after (bs "filename=") SEMI aft) as [[f0 aft']|] eqn:G'; [|lia].
  apply get_str_after_length in G'. pose proof (trim_quotes_length f0). lia.
Qed.

Context (ML : mime_lib).

Lemma read_entry_small trim r x r' : 1024 <= M -> small r -> read_entry ML trim r = (x, r') ->
  small r' /\ forall h, x = Ok (Some h) -> names_length h < M + K.
Proof.
  intros LM H. unfold read_entry. apply (set_min_small MIN_BUF_SIZE) in H; [|unfold MIN_BUF_SIZE; exact LM].
  destruct (consume_boundary _) as [y r1] eqn:E. apply consume_boundary_small in E; auto.
  destruct y as [[]|e| |]; try (intros Q; injection Q as <- <-; split; [auto|discriminate]).
  unfold read_headers. destruct (with_headers trim _ 0 r1) as [z r2] eqn:W. apply with_headers_small in W as [W1 W2]; auto.
  destruct z as [hs|e| |]; try (intros Q; injection Q as <- <-; split; [auto|discriminate]).
  destruct (W2 hs eq_refl) as (b & rest & B1 & B2). apply parse_headers_length in B2.
  destruct (parse_field_headers ML hs) as [h|e| |] eqn:P; intros Q; injection Q as <- <-; (split; [auto|]); intros h' Q; try discriminate.
  injection Q as <-. apply (headers_length _ _ _ _ B2) in P. lia.
Qed.

Lemma read_small n r x r' : small r -> read n r = (x, r') -> small r'.
Proof.
  intros H. unfold read. destruct (read_to_boundary r) as [y r1] eqn:E. apply read_to_boundary_small in E as [E _]; auto.
  destruct y; intros Q; injection Q as _ <-; auto. now apply consume_small.
Qed.

(** No call sets the size above [M]. *)
Definition asks_at_most (os : list op) : Prop := Forall (fun o => match o with OSetMin n => n <= M | _ => True end) os.

Lemma run_small trim os : 1024 <= M -> asks_at_most os -> forall r l r', small r -> run ML trim os r = (l, r') ->
  small r' /\ forall h, In (BNext ML (Ok (Some h))) l -> names_length h < M + K.
Proof.
  intros LM. induction os as [|o os IH]; intros A r l r' H; cbn [run].
  { intros Q; injection Q as <- <-. split; [auto|intros h []]. }
  inversion A as [|? ? A1 A2]; subst. destruct (step ML trim o r) as [b r1] eqn:E.
  assert (Q : small r1 /\ forall h, b = BNext ML (Ok (Some h)) -> names_length h < M + K).
  { revert E. destruct o as [n| |n|n|]; cbn [step].
    - destruct (read n r) as [y r2] eqn:E. apply read_small in E; auto. intros Q; injection Q as <- <-. split; [auto|discriminate].
    - destruct (read_to_boundary r) as [y r2] eqn:E. apply read_to_boundary_small in E as [E _]; auto.
      intros Q; injection Q as <- <-. split; [auto|discriminate].
    - intros Q; injection Q as <- <-. split; [now apply consume_small|discriminate].
    - intros Q; injection Q as <- <-. split; [now apply set_min_small|discriminate].
    - destruct (read_entry ML trim r) as [y r2] eqn:E. apply read_entry_small in E as [E1 E2]; auto.
      intros Q; injection Q as <- <-. split; [auto|]. intros h Q. injection Q as ->. auto. }
  destruct Q as [Q1 Q2]. destruct (run ML trim os r1) as [l' r2] eqn:R. apply IH in R as [R1 R2]; auto.
  intros Q; injection Q as <- <-. split; [auto|]. intros h [->|I]; auto.
Qed.

End Buffer.

(** C85: whatever is sent and whatever is called, the bytes that the reader holds stay below the largest size the
    caller asked for (or the default, or twice the boundary) plus the size of one read; and so do the names it hands out. *)
Theorem C85_buffer ML trim K M t b os l r :
  reads_at_most K t -> asks_at_most M os -> 1024 <= M -> 2 * (2 + length b) <= M ->
  run ML trim os (with_body t b) = (l, r) ->
  length (buf r) < M + K /\ forall h, In (BNext ML (Ok (Some h))) l -> names_length h < M + K.
Proof.
  intros H1 H2 H3 H4 H5. eapply run_small in H5 as [H5 H6]; eauto; [split; [apply H5|exact H6]|].
  unfold small, with_body, from_reader. cbn [buf src minb bnd]. unfold MIN_BUF_SIZE. rewrite app_length. simpl length.
  repeat split; auto; lia.
Qed.

(** ** What a request holds while and after it is saved *)

(** The bytes of a saved field that are in memory: its names, and its contents if they are not in a file. *)
Definition weight {ML} (f : saved_field ML) : nat :=
  names_length (sf_headers ML f) + match sf_data ML f with SText w | SBytes w => length w | SFile _ _ => 0 end.

Definition held {ML} (en : entries ML) : nat :=
  list_sum (map (fun kv => list_sum (map weight (snd kv))) (en_fields ML en)).

(** From [f] to [f'] new directories have appeared on the way to [dir], and new files of at most [m] bytes at [ps] in it. *)
Definition grown (dir : path) (m : N) (ps : list path) (f f' : fs) : Prop :=
  forall q, f' q = f q \/ (f q = None /\ f' q = Some NDir /\ exists a, dir = q ++ a) \/
    (f q = None /\ In q ps /\ (exists nm, q = dir ++ [nm]) /\ exists c, f' q = Some (NFile c) /\ (N.of_nat (length c) <= m)%N).

Lemma moved_small K M r d r' : moved r d r' -> small K M r -> small K M r'.
Proof.
  induction 1 as [r|r d r1 x r2 Mv IH E|n r d r1 x r2 Mv IH E L]; intros Hs; auto.
  - apply read_to_boundary_small with (K := K) (M := M) in E as [E _]; auto.
  - apply read_to_boundary_small with (K := K) (M := M) in E as [E _]; auto. now apply consume_small.
Qed.

(** One field: what is kept in memory, and what happens to the file system, however the save ends. *)
Lemma save_field_bound ML s h en fuel g r e x g1 r1 e1 : inv r -> s_opts s = default_opts ->
  save_field ML s h en fuel g r e = (x, g1, r1, e1) ->
  (exists d, moved r d r1) /\
  ((mem_min s < U64MAX)%N -> forall v, (x = Full v \/ exists why, x = Part v why) -> is_memory v = true -> (saved_size v <= mem_min s)%N) /\
  ((s_size_limit s < U64MAX)%N -> grown (en_dir ML en) (s_size_limit s + mem_min s) [en_dir ML en ++ [name_of g 0]] (e_fs e) (e_fs e1)).
Proof.
  intros I Ho H. apply save_field_path in H as [_ H].
  set (s' := mkSaver (s_size_limit s) (s_count_limit s) (s_threshold s) (if is_text ML h then s_policy s else TIgnore) (s_opts s)) in H.
  split; [eapply with_path_moved; eauto|].
  change (mem_min s) with (mem_min s'). change (s_size_limit s) with (s_size_limit s').
  apply with_path_cases in H as [(-> & d & M & B & X)|(ob & r2 & b0 & M & _ & _ & _ & _ & B & H)]; auto.
  { split; [|intros _ q; auto]. intros L v Hv Hm. specialize (B L).
    destruct Hv as [->|[why ->]]; destruct v; simpl in *; try discriminate; destruct X as [-> _]; exact B. }
  pose proof (moved_spec _ _ _ M I) as (J1 & R0 & _).
  apply save_disk_spec in H as (d & M1 & Np & Bd & (f1 & Md & Fp & Fo) & X); auto.
  split.
  - intros _ v Hv Hm. exfalso. destruct X as [(_ & (k & ->) & _)|(w & _ & X)].
    { destruct Hv as [Hv|[why Hv]]; discriminate. }
    destruct Hv as [->|[why ->]].
    + destruct X as (_ & -> & _). discriminate.
    + destruct X as [(_ & -> & _)|(_ & _ & _ & -> & _)]; discriminate.
  - intros L q. specialize (Bd L). assert (Lm : (mem_min s' < U64MAX)%N) by (unfold mem_min; lia). specialize (B Lm).
    destruct (path_eq_dec q (en_dir ML en ++ [name_of g 0])) as [->|Nq].
    + destruct X as [(-> & _)|(w & (base & Ob & Ef) & X)]; auto. change (s_opts s') with (s_opts s) in Ob, Ef. rewrite Ho in Ob, Ef.
      destruct Ob as [(Fn & _ & ->)|(c & _ & Ob & _)]; [|discriminate].
      right. right. split; [exact Fn|]. split; [left; reflexivity|]. split; [eauto|]. exists w. split; [rewrite Ef; f_equal; f_equal|].
      { unfold put. simpl. now rewrite skipn_nil, app_nil_r. }
      destruct x as [v|v why|y| |].
      * destruct X as [-> _]. rewrite app_length. lia.
      * destruct X as [(-> & _)|(_ & _ & (t & _ & Et) & _)]; [rewrite app_length; lia|]. rewrite Et, app_length in B. lia.
      * destruct X as [_ [(-> & _)|(-> & _)]]; simpl; lia.
      * destruct X.
      * rewrite X, app_length. lia.
    + rewrite (Fo _ Nq). destruct (Md q) as [->|(Q1 & Q2 & a & c & Q3 & Q4)]; auto.
      right. left. split; auto. split; auto. rewrite app_assoc in Q4. apply app_inj_tail in Q4 as [-> _]. eauto.
Qed.

Lemma grown_then dir m ps ps' f f1 f' : grown dir m ps f f1 -> grown dir m ps' f1 f' -> grown dir m (ps ++ ps') f f'.
Proof.
  intros G1 G2 q. destruct (G2 q) as [E|[(E1 & E2 & E3)|(E1 & E2 & E3 & c & E4 & E5)]].
  - rewrite E. destruct (G1 q) as [H|[H|(H1 & H2 & H3 & H4)]]; auto. right. right. repeat split; auto. apply in_or_app. auto.
  - right. left. repeat split; auto. destruct (G1 q) as [H|[(_ & H & _)|(_ & _ & _ & c & H & _)]]; congruence.
  - right. right. repeat split; auto; [|apply in_or_app; auto|eauto].
    destruct (G1 q) as [H|[(_ & H & _)|(_ & _ & _ & c' & H & _)]]; congruence.
Qed.

Lemma push_assoc_held ML (l : list (bytes * list (saved_field ML))) k f :
  list_sum (map (fun kv => list_sum (map weight (snd kv))) (push_assoc ML l k f)) =
  weight f + list_sum (map (fun kv => list_sum (map weight (snd kv))) l).
Proof.
  induction l as [|[k' fs] l IH]; cbn [push_assoc].
  - simpl. lia.
  - destruct (beq k' k); cbn [map snd list_sum fold_right]; [|unfold list_sum in *; simpl in *; rewrite IH; lia].
    rewrite map_app, list_sum_app. unfold list_sum. simpl. lia.
Qed.

Lemma push_held ML (en : entries ML) h d : held (push_field ML en h d) = weight (mkSF ML h d) + held en.
Proof. apply push_assoc_held. Qed.

Section Loop.
Context (ML : mime_lib) (trim : bool) (s : saver) (K M : nat).
Context (LM : 1024 <= M) (Ho : s_opts s = default_opts) (Lc : (s_count_limit s <= U32MAX)%N).

(** The most that one saved field holds. *)
Definition per_field : N := N.of_nat (M + K) + mem_min s.

Lemma weight_bound h v : names_length h < M + K -> (is_memory v = true -> (saved_size v <= mem_min s)%N) ->
  (N.of_nat (weight (mkSF ML h v)) <= per_field)%N.
Proof.
  intros H1 H2. unfold weight, per_field. cbn [sf_headers sf_data].
  destruct v as [w|w|]; simpl in H2; try specialize (H2 eq_refl); lia.
Qed.

Lemma loop_bound fuel : forall res en g r e x g' r' e', inv r -> small K M r -> counted_right ML en ->
  (forall h, res = Ok (Some h) -> names_length h < M + K) ->
  entries_loop ML trim s fuel res en g r e = (x, g', r', e') ->
  exists n : nat, (N.of_nat n <= s_count_limit s - N.of_nat (total ML en))%N /\ small K M r' /\
    ((mem_min s < U64MAX)%N ->
     match x with
     | Full en' => (N.of_nat (held en') <= N.of_nat n * per_field + N.of_nat (held en))%N
     | Part pe _ => (N.of_nat (held (keep_partial ML pe)) <= N.of_nat n * per_field + N.of_nat (held en))%N
     | _ => True
     end) /\
    ((s_size_limit s < U64MAX)%N -> exists ps, length ps <= n /\ grown (en_dir ML en) (s_size_limit s + mem_min s) ps (e_fs e) (e_fs e')).
Proof.
  induction fuel as [|fuel IH]; intros res en g r e x g' r' e' I Sm Cr Nm; cbn [entries_loop].
  { intros H; injection H as <- <- <- <-. exists 0. split; [lia|]. split; [auto|]. split; [auto|].
    intros _. exists []. split; [auto|]. intros q; auto. }
  assert (G0 : forall q, e_fs e q = e_fs e q \/ (e_fs e q = None /\ e_fs e q = Some NDir /\ exists a, en_dir ML en = q ++ a) \/
    (e_fs e q = None /\ In q [] /\ (exists nm, q = en_dir ML en ++ [nm]) /\
     exists c, e_fs e q = Some (NFile c) /\ (N.of_nat (length c) <= s_size_limit s + mem_min s)%N)) by auto.
  destruct (en_count ML en <? s_count_limit s)%N eqn:C.
  2: { intros H; injection H as <- <- <- <-. exists 0. split; [lia|]. split; [auto|].
       split; [cbn [keep_partial pe_partial pe_entries]; lia|]. intros _. exists []. split; auto. }
  apply N.ltb_lt in C. rewrite Cr in C.
  destruct res as [[h|]|y| |].
  2-5: intros H; injection H as <- <- <- <-; exists 0; (split; [lia|]); (split; [auto|]);
       (split; [cbn [keep_partial pe_partial pe_entries]; try lia; auto|]); intros _; exists []; (split; [auto|exact G0]).
  destruct (save_field ML s h en (S fuel) g r e) as [[[y g1] r1] e1] eqn:E.
  destruct (save_field_bound _ _ _ _ _ _ _ _ _ _ _ _ I Ho E) as ((d & Mv) & Bm & Bd).
  pose proof (moved_small _ _ _ _ _ Mv Sm) as Sm1. destruct (moved_spec _ _ _ Mv I) as (I1 & _).
  specialize (Nm h eq_refl).
  destruct y as [v|v why|y| |].
  2-5: intros H; injection H as <- <- <- <-; exists 1; (split; [lia|]); (split; [exact Sm1|]); split;
       [intros L; cbn [keep_partial pe_partial pe_entries]; try lia; auto
       |intros L; eexists; split; [|exact (Bd L)]; auto].
  2: { rewrite push_held. pose proof (weight_bound h v Nm) as W. specialize (W (Bm L v (or_intror (ex_intro _ why eq_refl)))).
       lia. }
  destruct (read_entry ML trim r1) as [res' r2] eqn:Re. intros H.
  pose proof (read_entry_keeps ML _ _ _ _ I1 Re) as I2.
  apply read_entry_small with (K := K) (M := M) in Re as [Sm2 Nm2]; auto.
  apply IH in H as (n & N1 & N2 & N3 & N4); auto; [|now apply push_right].
  rewrite push_total in N1. exists (S n). split; [lia|]. split; [auto|]. split.
  - intros L. specialize (N3 L). pose proof (weight_bound h v Nm (Bm L v (or_introl eq_refl))) as W.
    rewrite push_held in N3. destruct x as [en'|pe why| | |]; auto; lia.
  - intros L. destruct (N4 L) as (ps & P1 & P2). exists ((en_dir ML en ++ [name_of g 0]) :: ps). split; [simpl; lia|].
    exact (grown_then _ _ [_] _ _ _ _ (Bd L) P2).
Qed.

End Loop.

(** C85: whatever is sent, however it arrives and whatever fails, saving a request holds at most [count_limit] times
    the memory limit and the size of the reader's buffer, and writes at most [count_limit] files of bounded size; and
    the reader's buffer stays bounded throughout. *)
Theorem C85_saving ML trim s fuel en g t b e x g' r' e' K M :
  reads_at_most K t -> 1024 <= M -> 2 * (2 + length b) <= M -> s_opts s = default_opts -> (s_count_limit s <= U32MAX)%N ->
  with_entries ML trim s fuel en g (with_body t b) e = (x, g', r', e') ->
  exists n : nat, (N.of_nat n <= s_count_limit s - N.of_nat (total ML en))%N /\
    length (buf r') < M + K /\
    ((N.min (s_size_limit s) (s_threshold s) < U64MAX)%N ->
     forall en', (x = Full en' \/ exists pe why, x = Part pe why /\ en' = keep_partial ML pe) ->
     (N.of_nat (held en') <= N.of_nat n * (N.of_nat (M + K) + N.min (s_size_limit s) (s_threshold s)) + N.of_nat (held en))%N) /\
    ((s_size_limit s < U64MAX)%N -> exists ps, length ps <= n /\
     grown (en_dir ML en) (s_size_limit s + N.min (s_size_limit s) (s_threshold s)) ps (e_fs e) (e_fs e')).
Proof.
  intros H1 H2 H3 Ho Lc H. unfold with_entries in H.
  destruct (read_entry ML trim (with_body t b)) as [res r1] eqn:E.
  assert (S0 : small K M (with_body t b)).
  { unfold small, with_body, from_reader. cbn [buf src minb bnd]. unfold MIN_BUF_SIZE. rewrite app_length. simpl length. repeat split; auto; lia. }
  pose proof (read_entry_keeps ML _ _ _ _ (inv_from_reader t b) E) as I1.
  apply read_entry_small with (K := K) (M := M) in E as [S1 N1]; auto.
  destruct (recount_right ML en) as [C1 C2].
  apply (loop_bound ML trim s K M H2 Ho Lc) in H as (n & A1 & A2 & A3 & A4); auto.
  rewrite C2 in A1. exists n. split; [exact A1|]. split; [apply A2|]. split; [|exact A4].
  intros L en' Hx. specialize (A3 L). destruct Hx as [->|(pe & why & -> & ->)]; exact A3.
Qed.

(** The same with the settings of [Multipart::save] and a boundary of the lengths in use: the numbers. *)
Theorem C85_default ML trim fuel dir tmp g t b e x g' r' e' K :
  reads_at_most K t -> length b <= 510 ->
  with_entries ML trim saver_new fuel (entries_new ML dir tmp) g (with_body t b) e = (x, g', r', e') ->
  length (buf r') < 1024 + K /\
  (forall en', (x = Full en' \/ exists pe why, x = Part pe why /\ en' = keep_partial ML pe) ->
     (N.of_nat (held en') <= 256 * (11264 + N.of_nat K))%N) /\
  exists ps, length ps <= 256 /\ grown dir 8398848 ps (e_fs e) (e_fs e').
Proof.
  intros H1 H2 H. apply (C85_saving ML trim saver_new _ _ _ _ _ _ _ _ _ _ K 1024) in H as (n & A1 & A2 & A3 & A4); auto; try lia.
  2: { vm_compute. discriminate. }
  change (s_count_limit saver_new) with 256%N in A1. change (total ML (entries_new ML dir tmp)) with 0 in A1.
  split; [exact A2|]. split.
  - intros en' Hx. specialize (A3 eq_refl en' Hx).
    change (N.min (s_size_limit saver_new) (s_threshold saver_new)) with 10240%N in A3.
    change (held (entries_new ML dir tmp)) with 0 in A3.
    eapply N.le_trans; [exact A3|]. rewrite N.add_0_r. apply N.mul_le_mono; lia.
  - destruct (A4 eq_refl) as (ps & P1 & P2). exists ps. split; [lia|]. exact P2.
Qed.

(** Reads of at most 40 bytes; four fields of 30 bytes, of which two are allowed, and a memory limit of 10 bytes:
    two names are held, two files are written, the third field is refused. *)
Fixpoint chop (n fuel : nat) (l : bytes) : transport :=
  match fuel, l with
  | S f, _ :: _ => Chunk (firstn n l) :: chop n f (skipn n l)
  | _, _ => []
  end.

Example C85_example :
  let s := mkSaver 100 2 10 TTry default_opts in
  let part k := toy_part k (repeat 120%N 30) in
  let body := part (bs "a") ++ part (bs "b") ++ part (bs "c") ++ part (bs "d") ++ toy_end in
  let t := chop 40 100 body in
  let e := no_failures (fun q => if path_eq_dec q [bs "d"] then Some NDir else None) in
  let '(x, _, r, e') := with_entries toy true s 200 (entries_new toy [bs "d"] false) (repeat 7%N 12 ++ repeat 8%N 12) (with_body t (bs "b")) e in
  reads_at_most 40 t /\ stream t = body /\ length (buf r) = 120 /\
  match x with
  | Part pe RCount => held (keep_partial toy pe) = 2 /\ total toy (keep_partial toy pe) = 2
  | _ => False
  end /\
  e_fs e' [bs "d"; repeat 72%N 12] = Some (NFile (repeat 120%N 30)) /\
  e_fs e' [bs "d"; repeat 73%N 12] = Some (NFile (repeat 120%N 30)).
Proof.
  cbv zeta. destruct (with_entries _ _ _ _ _ _ _ _) as [[[x g'] r] e'] eqn:E.
  vm_compute in E. injection E as <- _ <- <-.
  split; [|repeat split; vm_compute; reflexivity].
  unfold reads_at_most. apply Forall_forall. intros ev. vm_compute (chop _ _ _).
  cbn [In]. intros H. repeat (destruct H as [<-|H]; [simpl; lia|]). destruct H.
Qed.
