(** The closures passed to the copy loop, and the phases of [with_path]. *)

From Verif Require Import Bytes BytesProofs Spec Io Boundary BoundaryProofs Utf8 Utf8Proofs Httparse Field FieldProofs
  ContentProofs DataProofs Rand Fs Save SaveProofs.

Lemma N_of_length {A} (l : list A) n : (N.of_nat (length l) <= n)%N -> length l <= N.to_nat n.
Proof. lia. Qed.

(** * Memory *)

Definition appended (w d w' : bytes) : Prop := w' = w ++ d.

Lemma writes_appended : writes appended.
Proof.
  split; unfold appended; intros; subst; [now rewrite app_nil_r|now rewrite app_assoc].
Qed.

Lemma mem_copies : copies appended mem_buf.
Proof.
  intros w b x w1 H. injection H as <- <-. cbn [accepted]. rewrite firstn_all. unfold appended.
  repeat split; auto; discriminate.
Qed.

(** * Text *)

Definition appended_text (w d w' : bytes) : Prop := w' = w ++ d /\ utf8_string d.

Lemma writes_appended_text : writes appended_text.
Proof.
  split; unfold appended_text.
  - intros w. rewrite app_nil_r. split; auto. apply utf8_string_nil.
  - intros w d w1 d' w2 [-> H1] [-> H2]. split; [now rewrite app_assoc|now apply utf8_string_app].
Qed.

Lemma text_copies : copies appended_text text_buf.
Proof.
  intros w b x w1. unfold text_buf, appended_text.
  destruct (valid_utf8 b) eqn:V.
  { intros H; injection H as <- <-. cbn [accepted]. rewrite firstn_all. apply valid_utf8_iff in V. repeat split; auto; discriminate. }
  destruct (length b <? 4) eqn:L; intros H; injection H as <- <-; cbn [accepted].
  - rewrite firstn_O, app_nil_r. repeat split; try lia; try discriminate. apply utf8_string_nil.
  - pose proof (valid_up_to_le b). repeat split; try lia; try discriminate. apply valid_prefix_utf8.
Qed.

(** * Writers *)

Lemma try_write_all_spec sched : forall b total x s,
  try_write_all sched b total = (x, s) ->
  x <> SPanic /\ x <> SFuel /\
  match x with
  | Full n => n = total + length b
  | Part n why => total <= n < total + length b /\ 0 < n /\ exists k, why = RIo (XDst k)
  | SErr e => total = 0 /\ b <> [] /\ exists k, e = XDst k
  | _ => False
  end.
Proof.
  induction sched as [|[n|k] sched IH]; intros b total x s; destruct b as [|a b0]; cbn [try_write_all];
    try (intros H; injection H as <- <-; repeat split; try discriminate; simpl; lia).
  - remember (a :: b0) as b eqn:Eb. assert (0 < length b) by (subst; simpl; lia).
    destruct (Nat.min n (length b) =? 0) eqn:M.
    + apply Nat.eqb_eq in M. destruct (total =? 0) eqn:T; intros Q; injection Q as <- <-.
      * apply Nat.eqb_eq in T. repeat split; try discriminate; auto; [subst; discriminate|eauto].
      * apply Nat.eqb_neq in T. repeat split; try discriminate; try lia. eauto.
    + apply Nat.eqb_neq in M. intros Q. apply IH in Q as (Q1 & Q2 & Q3).
      split; auto. split; auto. rewrite skipn_length in Q3.
      destruct x; auto; [lia| |lia]. split; [lia|]. tauto.
  - remember (a :: b0) as b eqn:Eb. assert (0 < length b) by (subst; simpl; lia).
    destruct (iokind_eqb k KInterrupted).
    + intros Q. apply IH in Q. exact Q.
    + destruct (total =? 0) eqn:T; intros Q; injection Q as <- <-.
      * apply Nat.eqb_eq in T. repeat split; try discriminate; auto; [subst; discriminate|eauto].
      * apply Nat.eqb_neq in T. repeat split; try discriminate; try lia. eauto.
Qed.

Lemma try_write_all_accepted sched b x s : try_write_all sched b 0 = (x, s) -> accepted x <= length b.
Proof. intros H. apply try_write_all_spec in H as (_ & _ & H). destruct x; simpl; lia. Qed.

Definition dest_took (w : dest) (d : bytes) (w' : dest) : Prop := d_out w' = d_out w ++ d.

Lemma writes_dest : writes dest_took.
Proof.
  split; unfold dest_took; intros; [now rewrite app_nil_r|congruence || (rewrite H0, H; now rewrite app_assoc)].
Qed.

Lemma dest_copies : copies dest_took write_dest.
Proof.
  intros w b x w1. unfold write_dest. destruct (try_write_all (d_sched w) b 0) as [y s] eqn:E.
  intros H; injection H as <- <-. pose proof (try_write_all_accepted _ _ _ _ E).
  apply try_write_all_spec in E as (E1 & E2 & _). repeat split; auto.
Qed.

(** Files. *)
Definition at_pos (h : handle) (c : bytes) : nat := if h_append h then length c else h_pos h.

Definition file_took (s : handle * env) (d : bytes) (s' : handle * env) : Prop :=
  let '(h, e) := s in let '(h', e') := s' in
  h_path h' = h_path h /\ h_append h' = h_append h /\ e_mkdir e' = e_mkdir e /\ e_open e' = e_open e /\
  (forall q, q <> h_path h -> e_fs e' q = e_fs e q) /\
  (forall c, e_fs e (h_path h) = Some (NFile c) -> at_pos h c <= length c ->
     exists c', c' = put c (at_pos h c) d /\ e_fs e' (h_path h) = Some (NFile c') /\ at_pos h' c' = at_pos h c + length d).

Lemma put_length c p d : p <= length c -> length (put c p d) = Nat.max (length c) (p + length d).
Proof. intros H. unfold put. rewrite !app_length, firstn_length, skipn_length. lia. Qed.

Lemma put_nil c p : put c p [] = c.
Proof. unfold put. simpl. rewrite Nat.add_0_r. apply firstn_skipn. Qed.

Lemma skipn_skipn {A} (l : list A) : forall a b, skipn a (skipn b l) = skipn (b + a) l.
Proof.
  intros a b. revert l. induction b as [|b IH]; intros l; [reflexivity|].
  destruct l; simpl; [now rewrite skipn_nil|apply IH].
Qed.

Lemma put_app c p d d' : p <= length c -> put (put c p d) (p + length d) d' = put c p (d ++ d').
Proof.
  intros H. unfold put. rewrite app_length.
  rewrite firstn_app, firstn_firstn, firstn_length.
  replace (Nat.min (p + length d) p) with p by lia.
  replace (p + length d - Nat.min p (length c)) with (length d) by lia.
  rewrite firstn_app, firstn_all, Nat.sub_diag, firstn_O, app_nil_r, <- !app_assoc. f_equal. f_equal. f_equal.
  rewrite app_assoc, skipn_app, skipn_all2 by (rewrite app_length, firstn_length; lia).
  rewrite app_length, firstn_length, skipn_skipn. simpl. f_equal. lia.
Qed.

Lemma put_end c d : put c (length c) d = c ++ d.
Proof. unfold put. rewrite firstn_all, skipn_all2 by lia. now rewrite app_nil_r. Qed.

Lemma writes_file : writes file_took.
Proof.
  split.
  - intros [h e]. unfold file_took. do 5 (split; [auto|]). intros c Hc Hp. exists c. rewrite put_nil. simpl. auto.
  - intros [h e] d [h1 e1] d' [h2 e2]. unfold file_took.
    intros (P1 & A1 & M1 & O1 & Q1 & F1) (P2 & A2 & M2 & O2 & Q2 & F2).
    do 4 (split; [congruence|]). split.
    { intros q Hq. rewrite Q2 by congruence. auto. }
    intros c Hc Hp. destruct (F1 c Hc Hp) as (c1 & -> & G1 & G2).
    rewrite P1 in F2. destruct (F2 _ G1) as (c2 & -> & G3 & G4).
    { rewrite G2, put_length by lia. lia. }
    exists (put c (at_pos h c) (d ++ d')). split; auto.
    rewrite <- put_app by lia. rewrite G2 in *. split; auto. rewrite G4, app_length. lia.
Qed.

Lemma upd_same f p n : upd f p n p = n.
Proof. unfold upd. destruct (path_eq_dec p p); congruence. Qed.

Lemma upd_other f p n q : q <> p -> upd f p n q = f q.
Proof. unfold upd. destruct (path_eq_dec q p); congruence. Qed.

Lemma file_copies : copies file_took write_file.
Proof.
  intros [h e] b x [h1 e1]. unfold write_file. destruct (try_write_all (e_w e) b 0) as [y s] eqn:E.
  intros H; injection H as <- H. pose proof (try_write_all_accepted _ _ _ _ E) as A.
  apply try_write_all_spec in E as (E1 & E2 & _). split; [exact A|]. split; [|auto].
  set (d := firstn (accepted y) b) in *. clearbody d. unfold file_put in H. cbn [e_fs] in H.
  unfold file_took.
  destruct (e_fs e (h_path h)) as [[|c]|] eqn:Ef; injection H as <- <-; cbn [h_path h_append e_mkdir e_open e_fs set_fs];
    do 4 (split; [reflexivity|]).
  - split; [auto|congruence].
  - split; [intros q Hq; now apply upd_other|].
    intros c' Hc Hp. injection Hc as <-. exists (put c (at_pos h c) d). split; auto.
    unfold at_pos in *. rewrite upd_same. split; [reflexivity|]. cbn [h_append h_pos].
    destruct (h_append h); auto. rewrite put_end, app_length. lia.
  - split; [auto|congruence].
Qed.

(** All writers accept a whole buffer or stop. *)
Definition all_or_stop {W} (wb : W -> bytes -> sres nat nat * W) : Prop :=
  forall w b n w1, wb w b = (Full n, w1) -> n = length b.

Lemma mem_all : all_or_stop mem_buf.
Proof. intros w b n w1 H. injection H as <- _. reflexivity. Qed.

Lemma dest_all : all_or_stop write_dest.
Proof.
  intros w b n w1. unfold write_dest. destruct (try_write_all (d_sched w) b 0) as [y s] eqn:E.
  intros H; injection H as -> _. apply try_write_all_spec in E as (_ & _ & E). simpl in E. auto.
Qed.

Lemma file_all : all_or_stop write_file.
Proof.
  intros [h e] b n w1. unfold write_file. destruct (try_write_all (e_w e) b 0) as [y s] eqn:E.
  intros H; injection H as -> _. apply try_write_all_spec in E as (_ & _ & E). simpl in E. auto.
Qed.

(** * The limit *)

Lemma sat_add_0 c : (c <= U64MAX)%N -> sat_add c 0 = c.
Proof. unfold sat_add. lia. Qed.

Lemma sat_add_assoc a b c : sat_add (sat_add a b) c = sat_add a (b + c).
Proof. unfold sat_add. lia. Qed.

(** Whatever the closure does. *)
Definition within {W} (limit : N) (R : W -> bytes -> W -> Prop) (s : N * W) (d : bytes) (s' : N * W) : Prop :=
  R (snd s) d (snd s') /\
  ((limit < U64MAX)%N -> (fst s <= limit)%N -> (fst s + N.of_nat (length d) <= fst s' <= limit)%N).

Lemma writes_within {W} limit (R : W -> bytes -> W -> Prop) : writes R -> writes (within limit R).
Proof.
  intros H. split.
  - intros [c w]. split; [apply H|]. simpl. lia.
  - intros [c w] d [c1 w1] d' [c2 w2] [H1 H2] [H3 H4]. split; [eapply H; eauto|].
    cbn [fst snd] in *. intros L L1. specialize (H2 L L1). specialize (H4 L). rewrite app_length. lia.
Qed.

Lemma limited_copies {W} limit (R : W -> bytes -> W -> Prop) wb :
  writes R -> copies R wb -> copies (within limit R) (limited limit wb).
Proof.
  intros HR Hc [c w] b x [c1 w1]. unfold limited.
  destruct (limit <? sat_add c (N.of_nat (length b)))%N eqn:L.
  - intros H; injection H as <- <- <-. cbn [accepted]. split; [lia|]. split; [|split; discriminate].
    rewrite firstn_O. apply writes_within; auto.
  - destruct (wb w b) as [y w2] eqn:E. intros H; injection H as <- <- <-.
    destruct (Hc _ _ _ _ E) as (A1 & A2 & A3 & A4). split; [exact A1|]. split; [|auto].
    split; [exact A2|]. cbn [fst]. intros L1 L2. apply N.ltb_ge in L. rewrite firstn_length.
    unfold sat_add in *. lia.
Qed.

(** Accepted buffers. *)
Definition counted {W} (R : W -> bytes -> W -> Prop) (s : N * W) (d : bytes) (s' : N * W) : Prop :=
  R (snd s) d (snd s') /\ ((fst s <= U64MAX)%N -> fst s' = sat_add (fst s) (N.of_nat (length d))).

Lemma writes_counted {W} (R : W -> bytes -> W -> Prop) : writes R -> writes (counted R).
Proof.
  intros H. split.
  - intros [c w]. split; [apply H|]. simpl. intros. now rewrite sat_add_0.
  - intros [c w] d [c1 w1] d' [c2 w2] [H1 H2] [H3 H4]. split; [eapply H; eauto|].
    cbn [fst snd] in *. intros L. rewrite H4.
    + rewrite H2 by auto. rewrite sat_add_assoc, app_length. f_equal. lia.
    + rewrite H2 by auto. unfold sat_add. lia.
Qed.

Lemma limited_full {W} limit (R : W -> bytes -> W -> Prop) wb :
  copies R wb -> all_or_stop wb -> copies_full (counted R) (limited limit wb).
Proof.
  intros Hc Ha [c w] b n [c1 w1]. unfold limited.
  destruct (limit <? sat_add c (N.of_nat (length b)))%N eqn:L; [discriminate|].
  destruct (wb w b) as [y w2] eqn:E. intros H; injection H as -> <- <-.
  pose proof (Ha _ _ _ _ E) as ->. destruct (Hc _ _ _ _ E) as (_ & A2 & _). cbn [accepted] in A2.
  split; [exact A2|]. cbn [fst]. rewrite firstn_all. auto.
Qed.

Lemma copies_all {W} (R : W -> bytes -> W -> Prop) wb : copies R wb -> copies_full R wb.
Proof. intros Hc w b n w1 E. apply Hc in E. simpl in E. tauto. Qed.

(** * [try_copy_limited] *)

(** Why a limited copy of a writer stopped early. *)
Definition stopped {W} (wb : W -> bytes -> sres nat nat * W) (limit : N) (r : breader) (w : W) (d : bytes) (r' : breader)
    (w' : W) (why : reason) : Prop :=
  (why = RSize /\ exists b, b <> [] /\ pending r d r' b /\ (limit < N.of_nat (length d) + N.of_nat (length b))%N) \/
  (exists e, why = RIo (XSrc e) /\ broke r d r' e /\ d <> []) \/
  (exists w0 b y, b <> [] /\ wb w0 b = (y, w') /\ match y with Part _ why' => why = why' | SErr e => why = RIo e | _ => False end).

Lemma copy_limited_spec {W} (R : W -> bytes -> W -> Prop) wb limit fuel w r x w' r' :
  writes R -> copies R wb -> all_or_stop wb -> inv r ->
  try_copy_limited wb limit fuel w r = (x, w', r') ->
  exists d, moved r d r' /\ R w d w' /\ x <> SPanic /\
    ((limit < U64MAX)%N -> (N.of_nat (length d) <= limit)%N) /\
    match x with
    | Full n => n = N.of_nat (length d) /\ ended r d r'
    | Part n why => n = N.of_nat (length d) /\ stopped wb limit r w d r' w' why
    | SErr e => d = [] /\ exists b, e = XSrc b /\ broke r [] r' b
    | SPanic => False
    | SFuel => True
    end.
Proof.
  intros HR Hc Ha Hi. unfold try_copy_limited.
  destruct (try_read_buf (limited limit wb) fuel 0 (0%N, w) r) as [[y [c w1]] r1] eqn:E.
  intros H; injection H as <- <- <-.
  pose proof (try_read_buf_copies (within limit R) (counted R) _ _
    (writes_within limit R HR) (limited_copies limit R wb HR Hc) (writes_counted R HR) (limited_full limit R wb Hc Ha)
    _ _ _ _ _ _ Hi E) as (d & D1 & [D2 D3] & D4 & D5).
  exists d. split; [exact D1|]. split; [exact D2|]. split; [exact D4|]. cbn [fst snd] in *.
  split; [intros L; specialize (D3 L); lia|].
  destruct y as [n|n why|e| |]; auto.
  - destruct D5 as (-> & D5 & _). split; auto.
  - destruct D5 as [-> D5]. split; [reflexivity|].
    destruct D5 as [(d0 & r0 & [c0 w0] & b & r2 & z & K1 & [K2 K3] & K4 & K5 & K6 & K7 & -> & K8)|(e & -> & K1 & K2)].
    + cbn [fst snd] in *. unfold limited in K6.
      destruct (limit <? sat_add c0 (N.of_nat (length b)))%N eqn:L.
      * injection K6 as <- <- <-. cbn [accepted] in *. rewrite firstn_O, app_nil_r in K7. subst d0 why. left. split; auto.
        exists b. split; auto. split; [exists r0; split; auto; now rewrite consume_0|].
        apply N.ltb_lt in L. rewrite K3 in L by (unfold U64MAX; lia). unfold sat_add in L. lia.
      * destruct (wb w0 b) as [z' w2] eqn:F. injection K6 as <- <- <-. right; right. exists w0, b, z'. auto.
    + right; left. exists e. split; auto. split; auto. intros ->. simpl in K2. lia.
  - destruct D5 as (-> & _ & D5). split; auto.
Qed.

(** * [write_to] *)

Lemma write_to_spec {W} (R : W -> bytes -> W -> Prop) wb s fuel w r x w' r' :
  writes R -> copies R wb -> all_or_stop wb -> inv r ->
  write_to wb s fuel w r = (x, w', r') ->
  exists d, moved r d r' /\ R w d w' /\ x <> SPanic /\
    ((s_size_limit s < U64MAX)%N -> (N.of_nat (length d) <= s_size_limit s)%N) /\
    match x with
    | Full n => n = N.of_nat (length d) /\ ended r d r'
    | Part n why => n = N.of_nat (length d) /\ stopped wb (s_size_limit s) r w d r' w' why
    | SErr e => d = [] /\ exists b, e = XSrc b /\ broke r [] r' b
    | SPanic => False
    | SFuel => True
    end.
Proof.
  intros HR Hc Ha Hi. unfold write_to. destruct (s_size_limit s <? U64MAX)%N eqn:L.
  { now apply copy_limited_spec. }
  intros H.
  pose proof (try_read_buf_copies R R _ _ HR Hc HR (copies_all _ _ Hc) _ _ _ _ _ _ Hi H) as (d & D1 & D2 & D3 & D4).
  exists d. split; [exact D1|]. split; [exact D2|]. split; [exact D3|].
  apply N.ltb_ge in L. split; [lia|].
  destruct x as [n|n why|e| |]; auto.
  - destruct D4 as (-> & D4 & _). split; auto.
  - destruct D4 as [-> D4]. split; [reflexivity|].
    destruct D4 as [(d0 & r0 & w0 & b & r2 & z & K1 & K2 & K4 & K5 & K6 & K7 & -> & K8)|(e & -> & K1 & K2)].
    + right; right. exists w0, b, z. auto.
    + right; left. exists e. split; auto. split; auto. intros ->. simpl in K2. lia.
  - destruct D4 as (-> & _ & D4). split; auto.
Qed.

(** * Memory phases *)

Lemma save_mem_spec s fuel ob r x r' :
  inv r -> save_mem s fuel ob r = (x, r') ->
  exists d, moved r d r' /\ x <> SPanic /\
    ((mem_limit s (N.of_nat (length ob)) < U64MAX)%N -> (N.of_nat (length d) <= mem_limit s (N.of_nat (length ob)))%N) /\
    match x with
    | Full w => w = ob ++ d /\ ended r d r'
    | Part w why => w = ob ++ d /\
       ((why = RSize /\ exists b, b <> [] /\ pending r d r' b /\
          (mem_limit s (N.of_nat (length ob)) < N.of_nat (length d) + N.of_nat (length b))%N) \/
        exists e, why = RIo (XSrc e) /\ broke r d r' e /\ w <> [])
    | SErr e => d = [] /\ ob = [] /\ exists b, e = XSrc b /\ broke r [] r' b
    | SPanic => False
    | SFuel => True
    end.
Proof.
  intros Hi. unfold save_mem.
  destruct (try_copy_limited mem_buf (mem_limit s (N.of_nat (length ob))) fuel ob r) as [[y w] r1] eqn:E.
  pose proof (copy_limited_spec appended mem_buf _ _ _ _ _ _ _ writes_appended mem_copies mem_all Hi E)
    as (d & D1 & D2 & D3 & D4 & D5).
  unfold appended in D2. intros H; injection H as <- <-. exists d. split; [exact D1|].
  split; [destruct y as [| |e| |]; try discriminate; [destruct w; discriminate|congruence]|].
  split; [exact D4|].
  destruct y as [n|n why|e| |]; auto.
  - split; [exact D2|tauto].
  - split; [exact D2|]. destruct D5 as [_ [(-> & D5)|[(e & -> & D5 & D6)|(w0 & b & y & _ & D6 & D7)]]].
    + left. auto.
    + right. exists e. split; auto. split; auto. subst w. destruct ob; auto. discriminate.
    + injection D6 as <- _. destruct D7.
  - destruct D5 as (-> & b & -> & D5). destruct w as [|a w].
    + split; auto. symmetry in D2. apply app_eq_nil in D2 as [-> _]. eauto.
    + split; auto. right. exists b. split; auto. split; auto. discriminate.
Qed.

Lemma save_text_spec s fuel r x r' :
  inv r -> save_text s fuel r = (x, r') ->
  exists d, moved r d r' /\ x <> SPanic /\ utf8_string d /\
    ((mem_limit s 0 < U64MAX)%N -> (N.of_nat (length d) <= mem_limit s 0)%N) /\
    match x with
    | Full w => w = d /\ ended r d r'
    | Part w why => w = d /\
       ((why = RSize /\ exists b, b <> [] /\ pending r d r' b /\ (mem_limit s 0 < U64MAX)%N) \/
        (why = RUtf8 /\ exists b, b <> [] /\ pending r d r' b /\ length b < 4 /\ ~ utf8_string b) \/
        exists e, why = RIo (XSrc e) /\ broke r d r' e /\ w <> [])
    | SErr e => d = [] /\ exists b, e = XSrc b /\ broke r [] r' b
    | SPanic => False
    | SFuel => True
    end.
Proof.
  intros Hi. unfold save_text, try_copy_limited.
  match goal with |- context [try_read_buf ?a ?b ?c ?d ?e] => destruct (try_read_buf a b c d e) as [[y [cc w]] r1] eqn:E end.
  pose proof (limited_copies (mem_limit s 0) _ _ writes_appended_text text_copies) as LC.
  pose proof (writes_within (mem_limit s 0) _ writes_appended_text) as LW.
  pose proof (try_read_buf_copies _ _ _ _ LW LC LW (copies_all _ _ LC) _ _ _ _ _ _ Hi E)
    as (d & D1 & [[D2 D2'] D3] & D4 & D5).
  cbn [fst snd app] in D2, D3. subst w.
  intros H; cbv beta iota zeta in H; injection H as <- <-. exists d. split; [exact D1|].
  split; [destruct y; congruence|]. split; [exact D2'|]. split; [intros L; specialize (D3 L); lia|].
  destruct y as [n|n why|e| |]; auto.
  - tauto.
  - split; auto. destruct D5 as [-> [(d0 & r0 & [c0 w0] & b & r2 & z & K1 & _ & K4 & K5 & K6 & K7 & K9 & K8)|(e & -> & K1 & K2)]].
    + unfold limited in K6. destruct (mem_limit s 0 <? sat_add c0 (N.of_nat (length b)))%N eqn:L.
      * injection K6 as <- <- <-. cbn [accepted] in *. rewrite firstn_O, app_nil_r in K7. rewrite consume_0 in K9. subst d0 r1 why.
        left. split; auto. exists b. split; auto. split; [exists r0; auto|].
        apply N.ltb_lt in L. unfold sat_add in L. lia.
      * unfold text_buf in K6. destruct (valid_utf8 b) eqn:V; [injection K6 as <- _; destruct K8|].
        destruct (length b <? 4) eqn:L4; injection K6 as <- _; [|destruct K8].
        cbn [accepted] in *. rewrite firstn_O, app_nil_r in K7. rewrite consume_0 in K9. subst d0 r1 why.
        right; left. split; auto. exists b. split; auto. split; [exists r0; auto|]. apply Nat.ltb_lt in L4.
        split; auto. intros U. apply valid_utf8_iff in U. congruence.
    + right; right. exists e. split; auto. split; auto. intros ->. simpl in K2. lia.
  - destruct D5 as (-> & _ & D5). auto.
Qed.

(** [with_path] either stays in memory or switches to the disk. *)
Definition mem_min (s : saver) : N := N.min (s_size_limit s) (s_threshold s).

Definition in_memory (s : saver) (r : breader) (x : sres saved saved) (d : bytes) (r' : breader) : Prop :=
  match x with
  | Full (SText t) => t = d /\ utf8_string d /\ ended r d r' /\ s_policy s <> TIgnore
  | Full (SBytes t) => t = d /\ ended r d r'
  | Full (SFile _ _) => False
  | Part (SText t) why => t = d /\ utf8_string d /\ s_policy s <> TIgnore /\
      ((why = RSize /\ (s_size_limit s <= N.of_nat (length d))%N /\ exists b, b <> [] /\ pending r d r' b) \/
       (why = RUtf8 /\ s_policy s = TForce /\ exists b, b <> [] /\ pending r d r' b /\ length b < 4 /\ ~ utf8_string b) \/
       exists e, why = RIo (XSrc e) /\ broke r d r' e /\ d <> [])
  | Part (SBytes t) why => t = d /\
      ((why = RSize /\ (s_size_limit s <= N.of_nat (length d))%N /\ exists b, b <> [] /\ pending r d r' b) \/
       exists e, why = RIo (XSrc e) /\ broke r d r' e /\ d <> [])
  | Part (SFile _ _) _ => False
  | SErr e => d = [] /\ exists b, e = XSrc b /\ broke r [] r' b
  | SPanic => False
  | SFuel => True
  end.

Definition spills (s : saver) (p : path) (fuel : nat) (r : breader) (e : env) (x : sres saved saved) (r' : breader) (e' : env) : Prop :=
  exists ob r1 b, moved r ob r1 /\ pending r ob r1 b /\ b <> [] /\
    (mem_min s < N.of_nat (length ob) + N.of_nat (length b))%N /\ (N.of_nat (length ob) < s_size_limit s)%N /\
    ((mem_min s < U64MAX)%N -> (N.of_nat (length ob) <= mem_min s)%N) /\
    save_disk s p fuel ob r1 e = (x, r', e').

Lemma broke_app r d r1 d' r2 e : moved r d r1 -> broke r1 d' r2 e -> broke r (d ++ d') r2 e.
Proof. intros M (r0 & K1 & K2). exists r0. split; auto. eapply moved_trans; eauto. Qed.

Lemma pending_app r d r1 d' r2 b : moved r d r1 -> pending r1 d' r2 b -> pending r (d ++ d') r2 b.
Proof. intros M (r0 & K1 & K2). exists r0. split; auto. eapply moved_trans; eauto. Qed.

Lemma save_rest_cases s p fuel r0 ob r e x r' e' :
  inv r0 -> inv r -> moved r0 ob r -> ((mem_min s < U64MAX)%N -> (N.of_nat (length ob) <= mem_min s)%N) ->
  save_rest s p fuel ob r e = (x, r', e') ->
  (e' = e /\ exists d, moved r0 d r' /\ ((mem_min s < U64MAX)%N -> (N.of_nat (length d) <= mem_min s)%N) /\ in_memory s r0 x d r') \/
  spills s p fuel r0 e x r' e'.
Proof.
  intros Hi0 Hi M Hob. unfold save_rest. destruct (save_mem s fuel ob r) as [y r1] eqn:E.
  apply save_mem_spec in E as (d & D1 & D2 & D3 & D4); auto.
  pose proof (moved_trans _ _ _ _ _ M D1) as M1.
  assert (Lim : (mem_min s < U64MAX)%N -> (N.of_nat (length (ob ++ d)) <= mem_min s)%N).
  { intros L. specialize (Hob L). rewrite app_length. unfold mem_limit in D3. fold (mem_min s) in D3. lia. }
  destruct y as [w|w why|y| |]; try (intros H; injection H as <- <- <-); try tauto.
  - left. split; auto. exists (ob ++ d). split; [exact M1|]. split; [exact Lim|]. destruct D4 as [-> D4]. simpl. split; auto.
    unfold ended in *. eapply pending_app; eauto.
  - destruct D4 as [-> [(-> & b & B1 & B2 & B3)|(y & -> & B1 & B2)]].
    + unfold cmp_size_limit. pose proof (pending_app _ _ _ _ _ _ M B2) as P.
      destruct (s_size_limit s <=? N.of_nat (length (ob ++ d)))%N eqn:L.
      * intros H; injection H as <- <- <-. apply N.leb_le in L. left. split; auto. exists (ob ++ d). split; [exact M1|].
        split; [exact Lim|]. cbn [in_memory]. split; auto. left. split; auto. split; auto. eauto.
      * intros H. right. exists (ob ++ d), r1, b. apply N.leb_gt in L.
        split; [exact M1|]. split; [exact P|]. split; [exact B1|]. split; [|split; [exact L|split; [exact Lim|exact H]]].
        unfold mem_limit in B3. fold (mem_min s) in B3. rewrite app_length. lia.
    + intros H; injection H as <- <- <-. left. split; auto. exists (ob ++ d). split; [exact M1|]. split; [exact Lim|].
      cbn [in_memory]. split; auto. right. exists y. split; auto. split; auto. exact (broke_app _ _ _ _ _ _ M B1).
  - left. split; auto. exists (ob ++ d). split; [exact M1|]. split; [exact Lim|].
    destruct D4 as (-> & -> & b & -> & D4). cbn [in_memory app]. split; auto. exists b. split; auto.
    exact (broke_app _ _ _ _ _ _ M D4).
  - left. split; auto. exists (ob ++ d). split; [exact M1|]. split; [exact Lim|]. exact I.
Qed.

Lemma with_path_cases s p fuel r e x r' e' :
  inv r -> with_path s p fuel r e = (x, r', e') ->
  (e' = e /\ exists d, moved r d r' /\ ((mem_min s < U64MAX)%N -> (N.of_nat (length d) <= mem_min s)%N) /\ in_memory s r x d r') \/
  spills s p fuel r e x r' e'.
Proof.
  intros Hi. unfold with_path.
  assert (Ign : save_rest s p fuel [] r e = (x, r', e') -> 
    (e' = e /\ exists d, moved r d r' /\ ((mem_min s < U64MAX)%N -> (N.of_nat (length d) <= mem_min s)%N) /\ in_memory s r x d r') \/
    spills s p fuel r e x r' e').
  { apply save_rest_cases; auto; [apply mv_refl|simpl; lia]. }
  destruct (s_policy s) eqn:P; [| |exact Ign]; clear Ign.
  all: destruct (save_text s fuel r) as [y r1] eqn:E;
    apply save_text_spec in E as (d & D1 & D2 & D3 & D4 & D5); auto;
    unfold mem_limit in D4, D5; rewrite N.sub_0_r in D4, D5; fold (mem_min s) in D4, D5;
    pose proof (moved_spec _ _ _ D1 Hi) as (I1 & _);
    destruct y as [w|w why|y| |]; try (intros H; injection H as <- <- <-); try tauto;
    try (left; split; [reflexivity|]; exists d; split; [exact D1|]; split; [exact D4|]; cbn [in_memory]; rewrite P;
         destruct D5 as [-> D5]; repeat split; auto; discriminate);
    try (left; split; [reflexivity|]; exists d; split; [exact D1|]; split; [exact D4|]; first [exact I|exact D5]).
  all: destruct D5 as [-> [(-> & b & B1 & B2 & _)|[(-> & b & B1 & B2 & B3 & B4)|(y & -> & B1 & B2)]]].
  all: unfold cmp_size_limit.
  all: try (destruct (s_size_limit s <=? N.of_nat (length d))%N eqn:L).
  all: try (intros H; now apply (save_rest_cases s p fuel r d r1) in H).
  all: intros H; injection H as <- <- <-; left; split; [reflexivity|]; exists d; split; [exact D1|]; split; [exact D4|];
    cbn [in_memory]; rewrite P; split; [reflexivity|]; split; [exact D3|]; split; [discriminate|].
  all: try (left; apply N.leb_le in L; split; [reflexivity|]; split; [exact L|]; exists b; split; assumption).
  all: try (right; right; exists y; repeat split; assumption).
  all: right; left; split; [reflexivity|]; split; [reflexivity|]; exists b; repeat split; assumption.
Qed.

(** * The disk phase *)

(** Only directories leading to [q] are created. *)
Definition made_dirs (p : path) (f f' : fs) : Prop :=
  forall q, f' q = f q \/ (f q = None /\ f' q = Some NDir /\ exists a c, q <> [] /\ p = q ++ a ++ [c]).

Lemma mkdirs_spec todo : forall done e k e',
  mkdirs done todo e = (k, e') ->
  e_w e' = e_w e /\ e_open e' = e_open e /\
  (forall q, e_fs e' q = e_fs e q \/
     (e_fs e q = None /\ e_fs e' q = Some NDir /\ exists a b, a <> [] /\ todo = a ++ b /\ q = done ++ a)).
Proof.
  induction todo as [|c t IH]; intros dn e k e'; cbn [mkdirs].
  { intros H; injection H as <- <-. auto. }
  assert (Go : forall e1, e_w e1 = e_w e -> e_open e1 = e_open e ->
    (e_fs e1 = e_fs e \/ (e_fs e (dn ++ [c]) = None /\ e_fs e1 = upd (e_fs e) (dn ++ [c]) (Some NDir))) ->
    mkdirs (dn ++ [c]) t e1 = (k, e') ->
    e_w e' = e_w e /\ e_open e' = e_open e /\
    (forall q, e_fs e' q = e_fs e q \/
     (e_fs e q = None /\ e_fs e' q = Some NDir /\ exists a b, a <> [] /\ c :: t = a ++ b /\ q = dn ++ a))).
  { intros e1 W1 O1 F1 H. apply IH in H as (W2 & O2 & F2). split; [congruence|]. split; [congruence|].
    intros q. destruct (F2 q) as [Q|(Q1 & Q2 & a & b & Na & Et & Eq)].
    - rewrite Q. destruct F1 as [->|[Fn ->]]; [auto|].
      destruct (path_eq_dec q (dn ++ [c])) as [->|Nq].
      + right. rewrite upd_same. split; auto. split; auto. exists [c], t. split; [discriminate|]. auto.
      + left. now apply upd_other.
    - right. split; [|split; [exact Q2|]].
      + destruct F1 as [F1|[Fn F1]]; [now rewrite F1 in Q1|].
        rewrite F1 in Q1. destruct (path_eq_dec q (dn ++ [c])) as [->|Nq]; [rewrite upd_same in Q1; discriminate|].
        now rewrite upd_other in Q1.
      + exists (c :: a), b. split; [discriminate|]. split; [simpl; congruence|]. rewrite Eq, <- app_assoc. reflexivity. }
  destruct (e_fs e (dn ++ [c])) as [[|f]|] eqn:F.
  - apply Go; auto.
  - intros H; injection H as <- <-. auto.
  - destruct (e_mkdir e) as [|[k'|] m] eqn:M.
    + apply Go; auto.
    + intros H; injection H as <- <-. simpl. auto.
    + apply Go; auto.
Qed.

Lemma create_dir_all_spec p e k e' : create_dir_all p e = (k, e') ->
  e_w e' = e_w e /\ e_open e' = e_open e /\ made_dirs p (e_fs e) (e_fs e') /\ e_fs e' p = e_fs e p.
Proof.
  unfold create_dir_all. intros H. apply mkdirs_spec in H as (W & O & F). split; auto. split; auto.
  assert (G : made_dirs p (e_fs e) (e_fs e')).
  { intros q. destruct (F q) as [Q|(Q1 & Q2 & a & b & Na & Et & Eq)]; auto. right. split; auto. split; auto.
    simpl in Eq. subst a.
    destruct (list_eq_dec (list_eq_dec N.eq_dec) p []) as [->|Np].
    - simpl in Et. symmetry in Et. apply app_eq_nil in Et as [Et _]. congruence.
    - exists b, (last p []). split; auto. rewrite app_assoc, <- Et. now apply app_removelast_last. }
  split; auto. destruct (G p) as [Q|(_ & _ & a & c & _ & Q)]; auto. exfalso.
  apply (f_equal (@length _)) in Q. rewrite !app_length in Q. simpl in Q. lia.
Qed.

(** What [open] does to the destination: [base] is what the file contains afterwards. *)
Definition opened (o : oopts) (f : fs) (p : path) (base : bytes) : Prop :=
  (f p = None /\ (o_create_new o || o_create o)%bool = true /\ base = []) \/
  (exists c, f p = Some (NFile c) /\ o_create_new o = false /\ base = if o_truncate o then [] else c).

Lemma open_file_spec o p e x e' : open_file o p e = (x, e') ->
  e_w e' = e_w e /\ (forall q, q <> p -> e_fs e' q = e_fs e q) /\
  match x with
  | inl h => h = mkHandle p 0 (o_append o) /\ exists base, opened o (e_fs e) p base /\ e_fs e' p = Some (NFile base)
  | inr _ => e_fs e' = e_fs e
  end.
Proof.
  unfold open_file. set (e1 := mkEnv (e_fs e) (e_w e) (e_mkdir e) (tl (e_open e))).
  assert (Go : (match p, e_fs e p with
      | [], _ => (inr (KOther 21), e1)
      | _, Some NDir => (inr (KOther 21), e1)
      | _, Some (NFile c) =>
          if o_create_new o then (inr KAlreadyExists, e1)
          else (inl (mkHandle p 0 (o_append o)), if o_truncate o then set_fs (upd (e_fs e) p (Some (NFile []))) e1 else e1)
      | _, None =>
          if o_create_new o || o_create o
          then (inl (mkHandle p 0 (o_append o)), set_fs (upd (e_fs e) p (Some (NFile []))) e1)
          else (inr (KOther 2), e1)
      end = (x, e')) -> 
    e_w e' = e_w e /\ (forall q, q <> p -> e_fs e' q = e_fs e q) /\
    match x with
    | inl h => h = mkHandle p 0 (o_append o) /\ exists base, opened o (e_fs e) p base /\ e_fs e' p = Some (NFile base)
    | inr _ => e_fs e' = e_fs e
    end).
  { destruct p as [|c p]; [intros H; injection H as <- <-; auto|].
    remember (c :: p) as q eqn:Eq. clear Eq. destruct (e_fs e q) as [[|f]|] eqn:F.
    - intros H; injection H as <- <-; auto.
    - destruct (o_create_new o) eqn:C; intros H; injection H as <- <-; auto.
      split; [destruct (o_truncate o); auto|].
      split; [intros q' Hq; destruct (o_truncate o); auto; simpl; now apply upd_other|].
      split; auto. exists (if o_truncate o then [] else f). split.
      + right. exists f. auto.
      + destruct (o_truncate o); simpl; [apply upd_same|exact F].
    - destruct (o_create_new o || o_create o)%bool eqn:C; intros H; injection H as <- <-; auto.
      split; auto. split; [intros q' Hq; simpl; now apply upd_other|]. split; auto. exists [].
      split; [left; auto|]. simpl. apply upd_same. }
  destruct (o_append o && o_truncate o && negb (o_create_new o))%bool; [intros H; injection H as <- <-; auto|].
  destruct (e_open e) as [|[k|] m]; [destruct p; exact Go| |destruct p; exact Go]. intros H; injection H as <- <-; auto.
Qed.

(** The destination file contains [w], written by this save. *)
Definition stored (o : oopts) (p : path) (f f' : fs) (w : bytes) : Prop :=
  exists base, opened o f p base /\ f' p = Some (NFile (put base (if o_append o then length base else 0) w)).

Lemma save_disk_spec s p fuel ob r e x r' e' :
  inv r -> save_disk s p fuel ob r e = (x, r', e') ->
  exists d, moved r d r' /\ x <> SPanic /\
    ((s_size_limit s < U64MAX)%N -> (N.of_nat (length d) <= s_size_limit s)%N) /\
    (exists f1, made_dirs p (e_fs e) f1 /\ f1 p = e_fs e p /\ forall q, q <> p -> e_fs e' q = f1 q) /\
    ((e_fs e' p = e_fs e p /\ (exists k, x = SErr (XDst k)) /\ r' = r /\ d = []) \/
     exists w, stored (s_opts s) p (e_fs e) (e_fs e') w /\
       match x with
       | Full v => w = ob ++ d /\ v = SFile p (sat_add (N.of_nat (length ob)) (N.of_nat (length d))) /\ ended r d r'
       | Part v why =>
           (w = ob ++ d /\ v = SFile p (sat_add (N.of_nat (length ob)) (N.of_nat (length d))) /\
            ((why = RSize /\ exists b, b <> [] /\ pending r d r' b /\
                (s_size_limit s < N.of_nat (length d) + N.of_nat (length b))%N) \/
             (exists y, why = RIo (XSrc y) /\ broke r d r' y) \/ exists k, why = RIo (XDst k))) \/
           (d = [] /\ r' = r /\ (exists t, t <> [] /\ ob = w ++ t) /\ v = SFile p (N.of_nat (length w)) /\ exists k, why = RIo (XDst k))
       | SErr y => d = [] /\
           ((w = [] /\ r' = r /\ ob <> [] /\ exists k, y = XDst k) \/ (w = ob /\ exists b, y = XSrc b /\ broke r [] r' b))
       | SPanic => False
       | SFuel => w = ob ++ d
       end).
Proof.
  intros Hi. unfold save_disk. destruct (create_dir_all p e) as [[k|] e1] eqn:C.
  { apply create_dir_all_spec in C as (W1 & O1 & M1 & P1). intros H; injection H as <- <- <-.
    exists []. split; [apply mv_refl|]. split; [discriminate|]. split; [simpl; lia|].
    split; [exists (e_fs e1); auto|]. left. eauto. }
  apply create_dir_all_spec in C as (W1 & O1 & M1 & P1).
  destruct (open_file (s_opts s) p e1) as [[h|k] e2] eqn:O.
  2: { apply open_file_spec in O as (W2 & N2 & F2). intros H; injection H as <- <- <-.
    exists []. split; [apply mv_refl|]. split; [discriminate|]. split; [simpl; lia|].
    split; [exists (e_fs e1); auto|]. left. rewrite F2. eauto. }
  apply open_file_spec in O as (W2 & N2 & -> & base & Ob & Fb).
  set (h0 := mkHandle p 0 (o_append (s_opts s))).
  destruct (write_file (h0, e2) ob) as [y [h1 e3]] eqn:Wf.
  pose proof (file_copies _ _ _ _ Wf) as (A1 & A2 & A3 & A4).
  assert (Ob' : opened (s_opts s) (e_fs e) p base).
  { unfold opened in *. rewrite P1 in Ob. exact Ob. }
  assert (Hp0 : at_pos h0 base <= length base) by (unfold at_pos, h0; simpl; destruct (o_append (s_opts s)); lia).
  assert (St : forall d s', file_took (h0, e2) d s' -> 
     (exists f1, made_dirs p (e_fs e) f1 /\ f1 p = e_fs e p /\ forall q, q <> p -> e_fs (snd s') q = f1 q) /\
     stored (s_opts s) p (e_fs e) (e_fs (snd s')) d).
  { intros d [h' e4] (T1 & T2 & T3 & T4 & T5 & T6). cbn [snd]. change (h_path h0) with p in *.
    split; [exists (e_fs e1); split; auto; split; auto; intros q Hq; rewrite T5; auto|].
    destruct (T6 base Fb Hp0) as (c' & -> & T7 & _). exists base. auto. }
  unfold write_file in Wf.
  destruct (try_write_all (e_w e2) ob 0) as [y' sch] eqn:Tw. injection Wf as -> Wf.
  apply try_write_all_spec in Tw as (_ & _ & Tw). clear Wf.
  destruct y as [n|n why|y| |]; try congruence; cbn [smap accepted] in *.
  - simpl in Tw. subst n. rewrite firstn_all in A2.
    destruct (write_to write_file s fuel (h1, e3) r) as [[z [h4 e4]] r1] eqn:Wt.
    pose proof (write_to_spec file_took write_file _ _ _ _ _ _ _ writes_file file_copies file_all Hi Wt)
      as (d & D1 & D2 & D3 & D4 & D5).
    pose proof (w_app _ writes_file _ _ _ _ _ A2 D2) as A3'.
    destruct (St _ _ A3') as [St1 St2]. cbn [snd] in *.
    intros H; injection H as <- <- <-. exists d. split; [exact D1|].
    split; [destruct z; cbn [smap]; congruence|]. split; [exact D4|]. split; [exact St1|].
    right. exists (ob ++ d). split; [exact St2|].
    destruct z as [m|m why|y| |]; cbn [smap]; auto.
    + destruct D5 as [-> D5]. split; auto.
    + destruct D5 as [-> D5]. left. split; auto. split; auto.
      destruct D5 as [(-> & D5)|[(y & -> & D5 & _)|(w0 & b & y & B1 & B2 & B3)]].
      * left. auto.
      * right; left. eauto.
      * right; right. destruct w0 as [h5 e5]. unfold write_file in B2.
        destruct (try_write_all (e_w e5) b 0) as [y' sch'] eqn:Tw'. injection B2 as -> _.
        apply try_write_all_spec in Tw' as (_ & _ & Tw').
        destruct y as [|? why'|y| |]; try tauto; simpl in Tw'; subst why; destruct Tw' as (_ & _ & k & ->); eauto.
    + destruct D5 as (-> & b & -> & D5). split; auto. right. rewrite app_nil_r. split; auto. eauto.
  - simpl in Tw. destruct Tw as (Tw & Tn & k & ->). destruct (St _ _ A2) as [St1 St2]. cbn [snd] in *.
    intros H; injection H as <- <- <-. exists []. split; [apply mv_refl|]. split; [discriminate|].
    split; [simpl; lia|]. split; [exact St1|]. right. exists (firstn n ob). split; [exact St2|]. right.
    split; auto. split; auto. split; [|split; [rewrite firstn_length; f_equal; lia|eauto]].
    exists (skipn n ob). split; [|now rewrite firstn_skipn]. intros E. apply (f_equal (@length _)) in E.
    rewrite skipn_length in E. simpl in E. lia.
  - destruct Tw as (_ & Nob & k & ->). rewrite firstn_O in A2. destruct (St _ _ A2) as [St1 St2]. cbn [snd] in *.
    intros H; injection H as <- <- <-. exists []. split; [apply mv_refl|]. split; [discriminate|].
    split; [simpl; lia|]. split; [exact St1|]. right. exists []. split; [exact St2|]. split; auto. left. eauto.
Qed.
