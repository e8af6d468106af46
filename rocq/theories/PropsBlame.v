(** What the errors of saving are (C96): the first call of the reader, of [mkdir], [open] or [write] that fails ends the save
    and is the error that is reported; no failure is passed over, except that of looking for one field more than allowed. *)

From Verif Require Import Bytes BytesProofs Spec Io Boundary BoundaryProofs Utf8 Httparse Field FieldProofs
  ContentProofs DataProofs ShortProofs EntryProofs ReaderProofs Drive DriveProofs ReachProofs Rand Fs Save SaveProofs PhaseProofs SaveFacts
  Toy PropsReader PropsSave EntriesProofs PropsEntries.

(** ** Specification *)

(** The I/O error in the result of a save. *)
Definition complaint {S P} (x : sres S P) : option ioerr :=
  match x with
  | Part _ (RIo y) => Some y
  | SErr y => Some y
  | _ => None
  end.

(** Calls after which copying goes on. *)
Definition fine_read (v : revent) : Prop := match v with Chunk _ => True | Fail k => k = KInterrupted end.
Definition fine_put (v : wevent) : Prop := match v with WAccept n => 0 < n | WFail k => k = KInterrupted end.

(** The calls made were all fine. *)
Definition all_fine {A} (fine : A -> Prop) (l l' : list A) : Prop := exists u, l = u ++ l' /\ Forall fine u.

(** The last call made, and only that one, was [v]. *)
Definition stopped {A} (fine : A -> Prop) (l : list A) (v : A) (l' : list A) : Prop := exists u, l = u ++ v :: l' /\ Forall fine u.

(** What is in the way of creating the file [p]: a file where a directory should be (EEXIST, or ENOTDIR further up), a directory
    in its place (EISDIR), a file in its place although a new one is wanted, none although one is wanted, or options
    that exclude each other (EINVAL). *)
Definition in_the_way (o : oopts) (p : path) (f : fs) (k : iokind) : Prop :=
  (exists q c d, q <> [] /\ removelast p = q ++ d /\ f q = Some (NFile c) /\ (d = [] /\ k = KAlreadyExists \/ d <> [] /\ k = KOther 20)) \/
  ((p = [] \/ f p = Some NDir) /\ k = KOther 21) \/
  (o_create_new o = true /\ (exists c, f p = Some (NFile c)) /\ k = KAlreadyExists) \/
  (o_create_new o = false /\ o_create o = false /\ f p = None /\ k = KOther 2) \/
  (o_create_new o = false /\ o_append o = true /\ o_truncate o = true /\ k = KOther 22).

(** The calls of the file system made between [e] and [e'] all succeeded. *)
Definition disk_fine (e e' : env) : Prop :=
  all_fine fine_put (e_w e) (e_w e') /\ all_fine (eq None) (e_mkdir e) (e_mkdir e') /\ all_fine (eq None) (e_open e) (e_open e').

(** A call of [write] that ends copying with an error of kind [k]. *)
Definition bad_put (w w' : list wevent) (k : iokind) : Prop :=
  (k <> KInterrupted /\ stopped fine_put w (WFail k) w') \/ (k = KWriteZero /\ stopped fine_put w (WAccept 0) w').

(** All but the last succeeded, which failed with [k] to write, create a directory or open the file [p]; or something was in the way. *)
Definition disk_failed (o : oopts) (p : path) (e e' : env) (k : iokind) : Prop :=
  (bad_put (e_w e) (e_w e') k /\ all_fine (eq None) (e_mkdir e) (e_mkdir e') /\ all_fine (eq None) (e_open e) (e_open e')) \/
  (all_fine fine_put (e_w e) (e_w e') /\ stopped (eq None) (e_mkdir e) (Some k) (e_mkdir e') /\ all_fine (eq None) (e_open e) (e_open e')) \/
  (all_fine fine_put (e_w e) (e_w e') /\ all_fine (eq None) (e_mkdir e) (e_mkdir e') /\ stopped (eq None) (e_open e) (Some k) (e_open e')) \/
  (disk_fine e e' /\ in_the_way o p (e_fs e') k).

(** ** Sequences of calls *)

Lemma fine_refl {A} (fine : A -> Prop) l : all_fine fine l l.
Proof. exists []. split; auto. Qed.

Lemma fine_trans {A} (fine : A -> Prop) l l1 l2 : all_fine fine l l1 -> all_fine fine l1 l2 -> all_fine fine l l2.
Proof. intros (u & -> & F) (v & -> & G). exists (u ++ v). rewrite app_assoc. split; auto. apply Forall_app; auto. Qed.

Lemma fine_stopped {A} (fine : A -> Prop) l l1 v l2 : all_fine fine l l1 -> stopped fine l1 v l2 -> stopped fine l v l2.
Proof. intros (u & -> & F) (w & -> & G). exists (u ++ w). rewrite <- app_assoc. split; auto. apply Forall_app; auto. Qed.

Lemma fine_one {A} (fine : A -> Prop) v l : fine v -> all_fine fine (v :: l) l.
Proof. intros F. exists [v]. split; auto. Qed.

Lemma stopped_fine {A} (fine : A -> Prop) l v l' : stopped fine l v l' -> fine v -> all_fine fine l l'.
Proof. intros (u & -> & F) V. exists (u ++ [v]). rewrite <- app_assoc. split; auto. apply Forall_app; auto. Qed.

Lemma fill_calls min b t k b' t' : fill_buf min b t = (k, b', t') ->
  match k with None => all_fine fine_read t t' | Some k => stopped fine_read t (Fail k) t' end.
Proof.
  revert b. induction t as [|[[|c l]|q] t IH]; intros b; cbn [fill_buf]; destruct (min <=? length b);
    try (intros H; injection H as <- <- <-; try apply fine_refl; try (apply fine_one; exact I)).
  intros H. apply IH in H. destruct k; [eapply fine_stopped|eapply fine_trans]; eauto; apply fine_one; exact I.
Qed.

Lemma rtb_calls r x r' : read_to_boundary r = (x, r') ->
  match x with
  | Err e => exists k, e = ETransport k /\ stopped fine_read (src r) (Fail k) (src r')
  | _ => all_fine fine_read (src r) (src r')
  end.
Proof.
  unfold read_to_boundary. destruct (fill_buf (minb r) (buf r) (src r)) as [[k b] t] eqn:E. apply fill_calls in E.
  destruct k as [k|]; [intros H; injection H as <- <-; cbn [src set_source]; eauto|].
  destruct (st r).
  - destruct (search_step b (bnd r) (idx r)) as [[i s]|]; intros H; injection H as <- <-; exact E.
  - destruct (length b <? idx r); intros H; injection H as <- <-; exact E.
  - destruct (length b <? idx r); intros H; injection H as <- <-; exact E.
Qed.

(** ** Copying *)

(** What a copying closure does: [ok] relates the states around calls that went well, [ko] those around one that failed. *)
Definition closure {W} (ok : W -> W -> Prop) (ko : W -> W -> iokind -> Prop) (wb : W -> bytes -> sres nat nat * W) : Prop :=
  forall w b x w', wb w b = (x, w') ->
    match complaint x with None => ok w w' | Some (XDst k) => ko w w' k | _ => False end.

(** The outcome of copying from a field. *)
Definition copied {W} (ok : W -> W -> Prop) (ko : W -> W -> iokind -> Prop) (t t' : transport) (w w' : W) (y : option ioerr) : Prop :=
  match y with
  | None => all_fine fine_read t t' /\ ok w w'
  | Some (XSrc (ETransport k)) => k <> KInterrupted /\ stopped fine_read t (Fail k) t' /\ ok w w'
  | Some (XDst k) => all_fine fine_read t t' /\ ko w w' k
  | _ => False
  end.

Lemma try_read_buf_calls {W} (ok : W -> W -> Prop) ko wb : closure ok ko wb ->
  (forall w, ok w w) -> (forall w w1 w2, ok w w1 -> ok w1 w2 -> ok w w2) -> (forall w w1 w2 k, ok w w1 -> ko w1 w2 k -> ko w w2 k) ->
  forall fuel total w r x w' r', try_read_buf wb fuel total w r = (x, w', r') -> copied ok ko (src r) (src r') w w' (complaint x).
Proof.
  intros C Rf Tr Tk. induction fuel as [|fuel IH]; intros total w r x w' r'; cbn [try_read_buf].
  { intros H; injection H as <- <- <-. split; [apply fine_refl|apply Rf]. }
  destruct (read_to_boundary r) as [y r1] eqn:E. pose proof (rtb_calls _ _ _ E) as K.
  assert (Step : forall w1 r2 z, all_fine fine_read (src r) (src r2) -> ok w w1 -> copied ok ko (src r2) (src r') w1 w' z ->
            copied ok ko (src r) (src r') w w' z).
  { intros w1 r2 z A B D. destruct z as [[[q| | |]|q|q]|]; cbn [copied] in *; auto.
    - destruct D as (D1 & D2 & D3). split; auto. split; [eapply fine_stopped; eauto|eauto].
    - destruct D as (D1 & D2). split; [eapply fine_trans; eauto|eauto].
    - destruct D as (D1 & D2). split; [eapply fine_trans; eauto|eauto]. }
  destruct y as [b|e| |].
  - destruct b as [|c b].
    { intros H; injection H as <- <- <-. split; auto. }
    destruct (wb w (c :: b)) as [y w1] eqn:Ew. pose proof (C _ _ _ _ Ew) as Cy.
    destruct y as [n|n why|e| |]; cbn [complaint] in Cy.
    + intros H. eapply Step; [| |eapply IH; exact H]; auto.
    + intros H; injection H as <- <- <-. cbn [complaint]. destruct why as [| |[q|q|q]|]; cbn [copied] in *; auto; try tauto; split; auto.
    + intros H; injection H as <- <- <-. cbn [complaint]. destruct e as [q|q|q]; cbn [copied] in *; auto; tauto.
    + intros H; injection H as <- <- <-. split; auto.
    + intros H; injection H as <- <- <-. split; auto.
  - destruct K as (k & -> & K). cbn [berr_kind]. destruct (iokind_eqb k KInterrupted) eqn:Ek.
    { apply iokind_eqb_true in Ek as ->. intros H. eapply Step; [| |eapply IH; exact H]; auto.
      eapply stopped_fine; [exact K|reflexivity]. }
    assert (Nk : k <> KInterrupted) by (intros ->; discriminate).
    destruct (total =? 0)%N; intros H; injection H as <- <- <-; cbn; auto.
  - intros H; injection H as <- <- <-. split; auto.
  - intros H; injection H as <- <- <-. split; auto.
Qed.

Lemma limited_calls {W} (ok : W -> W -> Prop) ko wb limit : closure ok ko wb -> (forall w, ok w w) ->
  closure (fun a b : N * W => ok (snd a) (snd b)) (fun a b => ko (snd a) (snd b)) (limited limit wb).
Proof.
  intros C Rf [n w] b x [n' w']. unfold limited. destruct (limit <? _)%N.
  { intros H; injection H as <- <- <-. apply Rf. }
  destruct (wb w b) as [y w1] eqn:E. intros H; injection H as <- <- <-. exact (C _ _ _ _ E).
Qed.

Lemma copied_snd {W} (ok : W -> W -> Prop) ko t t' a b y :
  copied (fun a b : N * W => ok (snd a) (snd b)) (fun a b => ko (snd a) (snd b)) t t' a b y -> copied ok ko t t' (snd a) (snd b) y.
Proof. destruct y as [[[q| | |]|q|q]|]; cbn; auto. Qed.

Lemma try_copy_calls {W} (ok : W -> W -> Prop) ko wb : closure ok ko wb ->
  (forall w, ok w w) -> (forall w w1 w2, ok w w1 -> ok w1 w2 -> ok w w2) -> (forall w w1 w2 k, ok w w1 -> ko w1 w2 k -> ko w w2 k) ->
  forall limit fuel w r x w' r', try_copy_limited wb limit fuel w r = (x, w', r') -> copied ok ko (src r) (src r') w w' (complaint x).
Proof.
  intros C Rf Tr Tk limit fuel w r x w' r'. unfold try_copy_limited.
  destruct (try_read_buf (limited limit wb) fuel 0 (0%N, w) r) as [[y [n w1]] r1] eqn:E.
  intros H; injection H as <- <- <-.
  apply (try_read_buf_calls (fun a b : N * W => ok (snd a) (snd b)) (fun a b => ko (snd a) (snd b))) in E.
  - apply copied_snd in E. exact E.
  - now apply limited_calls.
  - intros; apply Rf.
  - intros ? ? ? A B. exact (Tr _ _ _ A B).
  - intros ? ? ? k A B. exact (Tk _ _ _ _ A B).
Qed.

Lemma write_to_calls {W} (ok : W -> W -> Prop) ko wb : closure ok ko wb ->
  (forall w, ok w w) -> (forall w w1 w2, ok w w1 -> ok w1 w2 -> ok w w2) -> (forall w w1 w2 k, ok w w1 -> ko w1 w2 k -> ko w w2 k) ->
  forall s fuel w r x w' r', write_to wb s fuel w r = (x, w', r') -> copied ok ko (src r) (src r') w w' (complaint x).
Proof.
  intros C Rf Tr Tk s fuel w r x w' r'. unfold write_to. destruct (_ <? _)%N; intros H.
  - eapply try_copy_calls; eauto.
  - eapply try_read_buf_calls; eauto.
Qed.

(** ** Writing *)

Lemma try_write_all_calls sched b total x s' : try_write_all sched b total = (x, s') ->
  match complaint x with None => all_fine fine_put sched s' | Some (XDst k) => bad_put sched s' k | _ => False end.
Proof.
  revert b total. induction sched as [|[n|k] s IH]; intros b total; destruct b as [|c b]; cbn [try_write_all];
    try (intros H; injection H as <- <-; apply fine_refl).
  - destruct n as [|n]; cbn [Nat.min length Nat.eqb].
    + assert (B : bad_put (WAccept 0 :: s) s KWriteZero) by (right; split; auto; exists []; split; auto).
      destruct (total =? 0); intros H; injection H as <- <-; exact B.
    + intros H. apply IH in H. destruct (complaint x) as [[q|q|q]|]; auto.
      * destruct H as [(A & B)|(A & B)]; [left|right]; split; auto; (eapply fine_stopped; [|exact B]); apply fine_one; cbn; lia.
      * eapply fine_trans; [|exact H]. apply fine_one. cbn. lia.
  - destruct (iokind_eqb k KInterrupted) eqn:Ek.
    + apply iokind_eqb_true in Ek as ->. intros H. apply IH in H. destruct (complaint x) as [[q|q|q]|]; auto.
      * destruct H as [(A & B)|(A & B)]; [left|right]; split; auto; (eapply fine_stopped; [|exact B]); apply fine_one; reflexivity.
      * eapply fine_trans; [|exact H]. apply fine_one. reflexivity.
    + assert (B : bad_put (WFail k :: s) s k) by (left; split; [intros ->; discriminate|exists []; split; auto]).
      destruct (total =? 0); intros H; injection H as <- <-; exact B.
Qed.

Lemma bad_put_trans w w1 w2 k : all_fine fine_put w w1 -> bad_put w1 w2 k -> bad_put w w2 k.
Proof. intros A [(B & C)|(B & C)]; [left|right]; split; auto; eapply fine_stopped; eauto. Qed.

Lemma write_dest_closure : closure (fun d d' => all_fine fine_put (d_sched d) (d_sched d')) (fun d d' => bad_put (d_sched d) (d_sched d')) write_dest.
Proof.
  intros w b x w'. unfold write_dest. destruct (try_write_all (d_sched w) b 0) as [y s] eqn:E.
  intros H; injection H as <- <-. cbn [d_sched]. exact (try_write_all_calls _ _ _ _ _ E).
Qed.

(** Nothing but writing happens to an open file. *)
Definition file_ok (a b : handle * env) : Prop :=
  all_fine fine_put (e_w (snd a)) (e_w (snd b)) /\ e_mkdir (snd b) = e_mkdir (snd a) /\ e_open (snd b) = e_open (snd a).
Definition file_ko (a b : handle * env) (k : iokind) : Prop :=
  bad_put (e_w (snd a)) (e_w (snd b)) k /\ e_mkdir (snd b) = e_mkdir (snd a) /\ e_open (snd b) = e_open (snd a).

Lemma file_put_calls h d e : e_w (snd (file_put h d e)) = e_w e /\ e_mkdir (snd (file_put h d e)) = e_mkdir e /\
  e_open (snd (file_put h d e)) = e_open e.
Proof. unfold file_put. destruct (e_fs e (h_path h)) as [[|c]|]; cbn; auto. Qed.

Lemma write_file_closure : closure file_ok file_ko write_file.
Proof.
  intros [h e] b x w'. unfold write_file. destruct (try_write_all (e_w e) b 0) as [y s] eqn:E.
  apply try_write_all_calls in E. intros H; injection H as <- <-.
  destruct (file_put_calls h (firstn (accepted y) b) (mkEnv (e_fs e) s (e_mkdir e) (e_open e))) as (A & B & C).
  destruct (complaint y) as [[q|q|q]|]; auto; (split; [|split]); cbn [snd]; rewrite ?A, ?B, ?C; cbn [e_w e_mkdir e_open]; auto.
Qed.

Lemma write_file_to s fuel w r x w' r' : write_to write_file s fuel w r = (x, w', r') -> copied file_ok file_ko (src r) (src r') w w' (complaint x).
Proof.
  apply write_to_calls.
  - apply write_file_closure.
  - intros; split; [apply fine_refl|auto].
  - intros ? ? ? (A & B & C) (D & E & F). split; [eapply fine_trans; eauto|split; congruence].
  - intros ? ? ? k (A & B & C) (D & E & F). split; [eapply bad_put_trans; eauto|split; congruence].
Qed.

Lemma mem_closure : closure (fun _ _ => True) (fun _ _ _ => False) mem_buf.
Proof. intros w b x w' H. injection H as <- <-. exact I. Qed.

Lemma text_closure : closure (fun _ _ => True) (fun _ _ _ => False) text_buf.
Proof.
  intros w b x w'. unfold text_buf. destruct (valid_utf8 b); [intros H; injection H as <- <-; exact I|].
  destruct (length b <? 4); intros H; injection H as <- <-; exact I.
Qed.

(** Reading into memory. *)
Definition read_in (t t' : transport) (y : option ioerr) : Prop :=
  match y with
  | None => all_fine fine_read t t'
  | Some (XSrc (ETransport k)) => k <> KInterrupted /\ stopped fine_read t (Fail k) t'
  | _ => False
  end.

Lemma copied_in {W} t t' (w w' : W) y : copied (fun _ _ => True) (fun _ _ _ => False) t t' w w' y -> read_in t t' y.
Proof. destruct y as [[[q| | |]|q|q]|]; cbn; tauto. Qed.

Lemma save_mem_calls s fuel ob r x r' : save_mem s fuel ob r = (x, r') -> read_in (src r) (src r') (complaint x).
Proof.
  unfold save_mem. destruct (try_copy_limited mem_buf _ fuel ob r) as [[y w] r1] eqn:E.
  apply (try_copy_calls _ _ _ mem_closure) in E; auto. apply copied_in in E.
  intros H; injection H as <- <-. destruct y as [n|n why|e| |]; auto. destruct w; auto.
Qed.

Lemma save_text_calls s fuel r x r' : save_text s fuel r = (x, r') -> read_in (src r) (src r') (complaint x).
Proof.
  unfold save_text. destruct (try_copy_limited text_buf _ fuel [] r) as [[y w] r1] eqn:E.
  apply (try_copy_calls _ _ _ text_closure) in E; auto. apply copied_in in E.
  intros H; injection H as <- <-. destruct y as [n|n why|e| |]; auto.
Qed.

(** ** The file system *)

Lemma disk_fine_refl e : disk_fine e e.
Proof. split; [|split]; apply fine_refl. Qed.

Lemma disk_fine_trans e e1 e2 : disk_fine e e1 -> disk_fine e1 e2 -> disk_fine e e2.
Proof. intros (A & B & C) (D & E & F). split; [|split]; eapply fine_trans; eauto. Qed.

Lemma mkdirs_calls todo : forall done e x e', mkdirs done todo e = (x, e') ->
  e_w e' = e_w e /\ e_open e' = e_open e /\ (forall q, length (done ++ todo) < length q -> e_fs e' q = e_fs e q) /\
  match x with
  | None => all_fine (eq None) (e_mkdir e) (e_mkdir e')
  | Some k =>
      stopped (eq None) (e_mkdir e) (Some k) (e_mkdir e') \/
      (all_fine (eq None) (e_mkdir e) (e_mkdir e') /\
       exists q c d, q <> [] /\ done ++ todo = q ++ d /\ e_fs e' q = Some (NFile c) /\ (d = [] /\ k = KAlreadyExists \/ d <> [] /\ k = KOther 20))
  end.
Proof.
  induction todo as [|c t IH]; intros done e x e'; cbn [mkdirs].
  { intros H; injection H as <- <-. do 3 (split; auto). apply fine_refl. }
  assert (Ap : forall A (a : list A) y z, (a ++ [y]) ++ z = a ++ y :: z) by (intros; now rewrite <- app_assoc).
  assert (Go : forall e1, e_w e1 = e_w e -> e_open e1 = e_open e -> all_fine (eq None) (e_mkdir e) (e_mkdir e1) ->
            (forall q, length (done ++ c :: t) < length q -> e_fs e1 q = e_fs e q) -> mkdirs (done ++ [c]) t e1 = (x, e') ->
            e_w e' = e_w e /\ e_open e' = e_open e /\ (forall q, length (done ++ c :: t) < length q -> e_fs e' q = e_fs e q) /\
            match x with
            | None => all_fine (eq None) (e_mkdir e) (e_mkdir e')
            | Some k =>
                stopped (eq None) (e_mkdir e) (Some k) (e_mkdir e') \/
                (all_fine (eq None) (e_mkdir e) (e_mkdir e') /\
                 exists q c0 d, q <> [] /\ done ++ c :: t = q ++ d /\ e_fs e' q = Some (NFile c0) /\ (d = [] /\ k = KAlreadyExists \/ d <> [] /\ k = KOther 20))
            end).
  { intros e1 W O M F H. apply IH in H as (A & B & C & D). rewrite Ap in *.
    split; [congruence|]. split; [congruence|]. split; [intros q L; rewrite C, F; auto|].
    destruct x as [k|]; [|eapply fine_trans; eauto].
    destruct D as [D|(D & G)]; [left; eapply fine_stopped; eauto|right; split; [eapply fine_trans; eauto|exact G]]. }
  assert (Up : forall q, length (done ++ c :: t) < length q -> upd (e_fs e) (done ++ [c]) (Some NDir) q = e_fs e q).
  { intros q L. unfold upd. destruct (path_eq_dec q (done ++ [c])) as [->|]; auto. rewrite !app_length in L. cbn [length] in L. lia. }
  destruct (e_fs e (done ++ [c])) as [[|c0]|] eqn:Ef.
  - intros H. apply (Go e); auto. apply fine_refl.
  - intros H; injection H as <- <-. do 3 (split; auto). right. split; [apply fine_refl|].
    exists (done ++ [c]), c0, t. split; [now destruct done|]. split; [now rewrite Ap|]. split; auto.
    destruct t; [left|right]; split; auto; discriminate.
  - destruct (e_mkdir e) as [|[k|] m] eqn:Em.
    + intros H. rewrite <- Em in *. apply (Go (set_fs (upd (e_fs e) (done ++ [c]) (Some NDir)) e)); auto. apply fine_refl.
    + intros H; injection H as <- <-. do 3 (split; auto). left. exists []. split; auto.
    + intros H. apply (Go (mkEnv (upd (e_fs e) (done ++ [c]) (Some NDir)) (e_w e) m (e_open e))); auto. apply fine_one. reflexivity.
Qed.

Lemma open_calls o p e x e' : open_file o p e = (x, e') ->
  e_w e' = e_w e /\ e_mkdir e' = e_mkdir e /\
  match x with
  | inl _ => all_fine (eq None) (e_open e) (e_open e')
  | inr k => e_open e = Some k :: e_open e' \/ (all_fine (eq None) (e_open e) (e_open e') /\ in_the_way o p (e_fs e') k)
  end.
Proof.
  unfold open_file. destruct (o_append o && o_truncate o && negb (o_create_new o)) eqn:Z.
  { intros H; injection H as <- <-. do 2 (split; auto). right. split; [apply fine_refl|].
    apply andb_true_iff in Z as [Z Z3]. apply andb_true_iff in Z as [Z1 Z2]. apply negb_true_iff in Z3. right; right; right; right. auto. }
  assert (T : match e_open e with Some _ :: _ => True | _ => all_fine (eq None) (e_open e) (tl (e_open e)) end).
  { destruct (e_open e) as [|[k|] l]; cbn [tl]; auto; [apply fine_refl|apply fine_one; reflexivity]. }
  destruct (e_open e) as [|[k|] l] eqn:Eo.
  2: { intros H; injection H as <- <-. cbn. auto. }
  all: destruct p as [|c p].
  all: try (intros H; injection H as <- <-; do 2 (split; auto); right; split; [exact T|]; right; left; split; auto; fail).
  all: destruct (e_fs e (c :: p)) as [[|d]|] eqn:Ef.
  all: try (intros H; injection H as <- <-; do 2 (split; auto); right; split; [exact T|]; right; left; split; auto; fail).
  all: try (destruct (o_create_new o) eqn:Ec; [intros H; injection H as <- <-; do 2 (split; auto); right; split; [exact T|]; right; right; left; eauto|];
            destruct (o_truncate o); intros H; injection H as <- <-; do 2 (split; auto)).
  all: destruct (o_create_new o) eqn:Ec; cbn [orb]; [intros H; injection H as <- <-; do 2 (split; auto)|];
       destruct (o_create o) eqn:Ec'; intros H; injection H as <- <-; do 2 (split; auto); right; split; [exact T|]; right; right; right; left; auto.
Qed.

(** ** Saving a field *)

(** The outcome of saving a field at [p]. *)
Definition field_verdict (o : oopts) (p : path) (t t' : transport) (e e' : env) (y : option ioerr) : Prop :=
  match y with
  | None => all_fine fine_read t t' /\ disk_fine e e'
  | Some (XSrc (ETransport k)) => k <> KInterrupted /\ stopped fine_read t (Fail k) t' /\ disk_fine e e'
  | Some (XDst k) => all_fine fine_read t t' /\ disk_failed o p e e' k
  | _ => False
  end.

Lemma in_verdict o p t t' e y : read_in t t' y -> field_verdict o p t t' e e y.
Proof. destruct y as [[[q| | |]|q|q]|]; cbn; try tauto; intros; repeat split; try tauto; apply fine_refl. Qed.

Lemma verdict_after o p t t1 t' e e' y : all_fine fine_read t t1 -> field_verdict o p t1 t' e e' y -> field_verdict o p t t' e e' y.
Proof.
  intros A. destruct y as [[[q| | |]|q|q]|]; cbn; auto.
  - intros (B & C & D). split; auto. split; auto. eapply fine_stopped; eauto.
  - intros (B & C). split; auto. eapply fine_trans; eauto.
  - intros (B & C). split; auto. eapply fine_trans; eauto.
Qed.

Lemma smap_complaint {S P T} (into : P -> S) (f : S -> T) x : complaint (smap into f x) = complaint x.
Proof. destruct x; auto. Qed.

Lemma save_disk_calls s p fuel ob r e x r' e' : save_disk s p fuel ob r e = (x, r', e') ->
  field_verdict (s_opts s) p (src r) (src r') e e' (complaint x).
Proof.
  unfold save_disk, create_dir_all. destruct (mkdirs [] (removelast p) e) as [m e1] eqn:Em.
  apply mkdirs_calls in Em as (W1 & O1 & F1 & M1). cbn [app] in *.
  destruct m as [k|].
  { intros H; injection H as <- <- <-. split; [apply fine_refl|]. destruct M1 as [M1|(M1 & Q)].
    - right; left. rewrite W1, O1. split; [apply fine_refl|]. split; [exact M1|apply fine_refl].
    - right; right; right. split; [split; [rewrite W1; apply fine_refl|split; [exact M1|rewrite O1; apply fine_refl]]|]. left. exact Q. }
  destruct (open_file (s_opts s) p e1) as [h e2] eqn:Eo. apply open_calls in Eo as (W2 & M2 & O2).
  rewrite O1 in O2. rewrite W1 in W2. rewrite <- M2 in M1.
  destruct h as [h|k].
  2: { intros H; injection H as <- <- <-. split; [apply fine_refl|]. destruct O2 as [O2|(O2 & Q)].
       - right; right; left. rewrite W2. split; [apply fine_refl|]. split; [exact M1|]. exists []. split; auto.
       - right; right; right. split; auto. split; [rewrite W2; apply fine_refl|auto]. }
  destruct (write_file (h, e2) ob) as [y [h1 e3]] eqn:Ew. pose proof (write_file_closure _ _ _ _ Ew) as C.
  unfold file_ok, file_ko in C. cbn [snd] in C. rewrite W2 in C.
  assert (Early : field_verdict (s_opts s) p (src r) (src r) e e3 (complaint y)).
  { destruct (complaint y) as [[q|q|q]|]; cbn [field_verdict]; try tauto; destruct C as (C1 & C2 & C3); (split; [apply fine_refl|]).
    - left. rewrite C2, C3. auto.
    - split; auto. rewrite C2, C3. auto. }
  destruct y as [n|n why|z| |]; cbn [smap].
  2-5: intros H; injection H as <- <- <-; exact Early.
  destruct (write_to write_file s fuel (h1, e3) r) as [[y [h4 e4]] r4] eqn:Et. apply write_file_to in Et.
  intros H; injection H as <- <- <-. rewrite smap_complaint. cbn [complaint] in C. destruct C as (C1 & C2 & C3).
  unfold file_ok, file_ko in Et. cbn [snd] in Et.
  destruct (complaint y) as [[[q| | |]|q|q]|]; cbn [copied field_verdict snd] in *; try tauto.
  - destruct Et as (A & B & D & G & K). split; auto. split; auto. split; [eapply fine_trans; eauto|]. rewrite G, K, C2, C3. auto.
  - destruct Et as (A & D & G & K). split; auto. left. split; [eapply bad_put_trans; eauto|]. rewrite G, K, C2, C3. auto.
  - destruct Et as (A & D & G & K). split; auto. split; [eapply fine_trans; eauto|]. rewrite G, K, C2, C3. auto.
Qed.

Lemma save_rest_calls s p fuel ob r e x r' e' : save_rest s p fuel ob r e = (x, r', e') ->
  field_verdict (s_opts s) p (src r) (src r') e e' (complaint x).
Proof.
  unfold save_rest. destruct (save_mem s fuel ob r) as [y r1] eqn:E. apply save_mem_calls in E.
  destruct y as [b|b why|z| |].
  1,3,4,5: intros H; injection H as <- <- <-; apply in_verdict; exact E.
  destruct why as [| |z|].
  1,3,4: intros H; injection H as <- <- <-; apply in_verdict; exact E.
  destruct (cmp_size_limit s (length b)); [intros H; injection H as <- <- <-; apply in_verdict; exact E|].
  intros H. apply save_disk_calls in H. eapply verdict_after; [exact E|exact H].
Qed.

(** For every reader, schedule of failures, builder and path. *)
Theorem C96_field : forall s p fuel r e x r' e',
  with_path s p fuel r e = (x, r', e') -> field_verdict (s_opts s) p (src r) (src r') e e' (complaint x).
Proof.
  intros s p fuel r e x r' e'. unfold with_path.
  destruct (s_policy s).
  3: apply save_rest_calls.
  all: destruct (save_text s fuel r) as [y r1] eqn:E; apply save_text_calls in E.
  all: destruct y as [b|b why|z| |]; [|destruct why as [| |z|]| | |];
       try (intros H; injection H as <- <- <-; apply in_verdict; exact E).
  all: try (destruct (cmp_size_limit s (length b)); [intros H; injection H as <- <- <-; apply in_verdict; exact E|]).
  all: intros H; apply save_rest_calls in H; eapply verdict_after; [exact E|exact H].
Qed.

(** Copying to a writer of the user. *)
Theorem C96_writer : forall s fuel d r x d' r',
  write_to write_dest s fuel d r = (x, d', r') ->
  match complaint x with
  | None => all_fine fine_read (src r) (src r') /\ all_fine fine_put (d_sched d) (d_sched d')
  | Some (XSrc (ETransport k)) => k <> KInterrupted /\ stopped fine_read (src r) (Fail k) (src r') /\ all_fine fine_put (d_sched d) (d_sched d')
  | Some (XDst k) => all_fine fine_read (src r) (src r') /\ bad_put (d_sched d) (d_sched d') k
  | _ => False
  end.
Proof.
  intros s fuel d r x d' r' H.
  apply (write_to_calls _ _ _ write_dest_closure) in H.
  - exact H.
  - intros; apply fine_refl.
  - intros; eapply fine_trans; eauto.
  - intros; eapply bad_put_trans; eauto.
Qed.

(** ** Saving a request *)

Lemma skip_calls fuel : forall r x r', skip_to_boundary fuel r = (x, r') ->
  match x with
  | Err (ETransport k) => stopped fine_read (src r) (Fail k) (src r')
  | _ => all_fine fine_read (src r) (src r')
  end.
Proof.
  induction fuel as [|fuel IH]; intros r x r'; cbn [skip_to_boundary]; destruct (st r);
    try (intros H; injection H as <- <-; apply fine_refl).
  destruct (read_to_boundary r) as [y r1] eqn:E. apply rtb_calls in E.
  destruct y as [b|e| |].
  - destruct ((length b =? 0) && bstate_eqb (st r1) Searching); [intros H; injection H as <- <-; exact E|].
    intros H. apply IH in H. cbn [consume src] in H.
    destruct x as [u|[k| | |]| |]; [eapply fine_trans|eapply fine_stopped|eapply fine_trans..]; eauto.
  - destruct E as (k & -> & E). intros H; injection H as <- <-. exact E.
  - intros H; injection H as <- <-. exact E.
  - intros H; injection H as <- <-. exact E.
Qed.

Lemma verify_calls r x r' : verify_boundary r = (x, r') ->
  match x with
  | Err (ETransport k) => stopped fine_read (src r) (Fail k) (src r')
  | _ => all_fine fine_read (src r) (src r')
  end.
Proof.
  unfold verify_boundary. destruct (fill_buf (minb r) (buf r) (src r)) as [[k b] t] eqn:E. apply fill_calls in E.
  destruct k as [k|]; [intros H; injection H as <- <-; exact E|].
  repeat match goal with |- (if ?c then _ else _) = _ -> _ => destruct c end; try (intros H; injection H as <- <-; exact E).
  all: cbv zeta.
  all: destruct (slice _ _ b) as [|a [|c [|]]]; try (intros H; injection H as <- <-; exact E).
  all: destruct (N.eqb a CR && N.eqb c LF); [|destruct (N.eqb a DASH && N.eqb c DASH)]; intros H; injection H as <- <-; exact E.
Qed.

Lemma consume_boundary_calls r x r' : consume_boundary r = (x, r') ->
  match x with
  | Err (ETransport k) => stopped fine_read (src r) (Fail k) (src r')
  | _ => all_fine fine_read (src r) (src r')
  end.
Proof.
  unfold consume_boundary. destruct (st r); try (intros H; injection H as <- <-; apply fine_refl).
  all: destruct (skip_to_boundary _ r) as [y r1] eqn:E; apply skip_calls in E.
  all: destruct y as [u|e| |]; try (intros H; injection H as <- <-; exact E).
  all: intros H; apply verify_calls in H.
  all: destruct x as [v|[k| | |]| |]; [eapply fine_trans|eapply fine_stopped|eapply fine_trans..]; eauto.
Qed.

Lemma with_headers_calls trim fuel : forall last r x r', with_headers trim fuel last r = (x, r') ->
  match x with
  | Err (PIo e) => exists k, e = ETransport k /\ stopped fine_read (src r) (Fail k) (src r')
  | _ => all_fine fine_read (src r) (src r')
  end.
Proof.
  induction fuel as [|fuel IH]; intros last r x r'; cbn [with_headers].
  { intros H; injection H as <- <-. apply fine_refl. }
  destruct (read_to_boundary r) as [y r1] eqn:E. apply rtb_calls in E.
  destruct y as [b|e| |]; try (intros H; injection H as <- <-; exact E).
  destruct (length b =? last); [intros H; injection H as <- <-; exact E|].
  destruct (parse_headers trim HEADER_LEN b) as [|e|hs rest].
  - intros H. apply IH in H.
    destruct x as [v|q| |]; [eapply fine_trans; eauto| |eapply fine_trans; eauto..].
    destruct q; try (eapply fine_trans; eauto; fail).
    destruct H as (k & -> & H). exists k. split; auto. eapply fine_stopped; eauto.
  - intros H; injection H as <- <-. exact E.
  - destruct (copy_headers hs); intros H; injection H as <- <-; exact E.
Qed.

(** The result of asking for the next entry: only an error of the transport is a failed read. *)
Definition entry_verdict (t t' : transport) (y : option eerr) : Prop :=
  match y with
  | Some (EBnd (ETransport k)) | Some (EHdr (PIo (ETransport k))) => stopped fine_read t (Fail k) t'
  | Some (EHdr (PIo _)) => False
  | _ => all_fine fine_read t t'
  end.

Definition entry_error {A} (x : res eerr A) : option eerr := match x with Err y => Some y | _ => None end.

Lemma parse_not_io hs ML e : parse_field_headers ML hs = Err e -> match e with PIo _ => False | _ => True end.
Proof.
  unfold parse_field_headers, parse_content_disp, parse_content_type.
  destruct (find_header hs (bs "Content-Disposition")) as [v|]; [|intros H; injection H as <-; exact I].
  destruct (split_once v SEMI) as [[a b]|]; [|intros H; injection H as <-; exact I].
  destruct (negb _); [intros H; injection H as <-; exact I|].
  destruct (get_str_after (bs "name=") SEMI b) as [[n c]|]; [|intros H; injection H as <-; exact I].
  destruct (find_header hs (bs "Content-Type")) as [w|]; [|discriminate].
  destruct (mime_parse ML w); [discriminate|]. intros H; injection H as <-. exact I.
Qed.

Lemma entry_after t t1 t' y : all_fine fine_read t t1 -> entry_verdict t1 t' y -> entry_verdict t t' y.
Proof.
  intros A. destruct y as [[[k| | |]|[| | | | | | |[k| | |]|]]|]; cbn; auto; intros; try (eapply fine_trans; eauto; fail); eapply fine_stopped; eauto.
Qed.

Lemma read_entry_calls ML trim r x r' : read_entry ML trim r = (x, r') -> entry_verdict (src r) (src r') (entry_error x).
Proof.
  unfold read_entry. destruct (consume_boundary (set_min_buf_size MIN_BUF_SIZE r)) as [y r1] eqn:E.
  apply consume_boundary_calls in E. cbn [set_min_buf_size src] in E.
  destruct y as [[|]|e| |]; try (intros H; injection H as <- <-; cbn; destruct e; exact E).
  2-4: intros H; injection H as <- <-; exact E.
  unfold read_headers. destruct (with_headers trim (length (src r1) + 3) 0 r1) as [z r2] eqn:Eh.
  apply with_headers_calls in Eh.
  assert (G : entry_verdict (src r1) (src r2) (entry_error (match z with Err q => Err (EHdr q) | _ => @Ok eerr unit tt end))).
  { destruct z as [hs|q| |]; cbn; auto. destruct q; auto. destruct Eh as (k & -> & Eh). exact Eh. }
  destruct z as [hs|q| |].
  - destruct (parse_field_headers ML hs) as [h|q| |] eqn:Ep; intros H; injection H as <- <-;
      try (eapply entry_after; [exact E|exact G]).
    apply parse_not_io in Ep. eapply entry_after; [exact E|]. cbn in *. destruct q; tauto.
  - intros H; injection H as <- <-. eapply entry_after; [exact E|exact G].
  - intros H; injection H as <- <-. eapply entry_after; [exact E|exact G].
  - intros H; injection H as <- <-. eapply entry_after; [exact E|exact G].
Qed.

(** The outcome of saving a request into [dir]. *)
Definition request_verdict (o : oopts) (dir : path) (t t' : transport) (e e' : env) (y : option ioerr) : Prop :=
  match y with
  | Some (XEntry z) => entry_verdict t t' (Some z) /\ disk_fine e e'
  | _ => exists name, field_verdict o (dir ++ [name]) t t' e e' y
  end.

Lemma disk_failed_after o p e e1 e' k : disk_fine e e1 -> disk_failed o p e1 e' k -> disk_failed o p e e' k.
Proof.
  intros (A & B & C) [(D & E & F)|[(D & E & F)|[(D & E & F)|((D & E & F) & G)]]].
  - left. split; [eapply bad_put_trans; eauto|split; eapply fine_trans; eauto].
  - right; left. split; [eapply fine_trans; eauto|]. split; [eapply fine_stopped; eauto|eapply fine_trans; eauto].
  - right; right; left. split; [eapply fine_trans; eauto|]. split; [eapply fine_trans; eauto|eapply fine_stopped; eauto].
  - right; right; right. split; auto. split; [|split]; eapply fine_trans; eauto.
Qed.

Lemma request_after o dir t t1 t' e e1 e' y : all_fine fine_read t t1 -> disk_fine e e1 ->
  request_verdict o dir t1 t' e1 e' y -> request_verdict o dir t t' e e' y.
Proof.
  intros A B. destruct y as [[z|k|z]|]; cbn [request_verdict].
  - intros (name & C). exists name. eapply verdict_after; [exact A|]. destruct z; cbn in *; auto.
    destruct C as (C & D & E). split; auto. split; auto. eapply disk_fine_trans; eauto.
  - intros (name & C). exists name. eapply verdict_after; [exact A|]. destruct C as (C & D). split; auto. eapply disk_failed_after; eauto.
  - intros (C & D). split; [eapply entry_after; eauto|eapply disk_fine_trans; eauto].
  - intros (name & C). exists name. eapply verdict_after; [exact A|]. destruct C as (C & D). split; auto. eapply disk_fine_trans; eauto.
Qed.

(** A save that ends because of the number of fields may hide one failed read: that of the entry which it does not save. *)
Definition count_verdict (t t' : transport) (e e' : env) : Prop :=
  (all_fine fine_read t t' \/ exists k, stopped fine_read t (Fail k) t') /\ disk_fine e e'.

Lemma entry_count t t' y : entry_verdict t t' y -> all_fine fine_read t t' \/ exists k, stopped fine_read t (Fail k) t'.
Proof. destruct y as [[[k| | |]|[| | | | | | |[k| | |]|]]|]; cbn; eauto; tauto. Qed.

Lemma entries_loop_calls ML trim s fuel : forall t res en g r e x g' r' e', entry_verdict t (src r) (entry_error res) ->
  entries_loop ML trim s fuel res en g r e = (x, g', r', e') -> x <> SFuel ->
  match x with
  | Part _ RCount => count_verdict t (src r') e e'
  | _ => request_verdict (s_opts s) (en_dir ML en) t (src r') e e' (complaint x)
  end.
Proof.
  induction fuel as [|fuel IH]; intros t res en g r e x g' r' e' V; cbn [entries_loop].
  { intros H; injection H as <- <- <- <-. congruence. }
  destruct (en_count ML en <? s_count_limit s)%N.
  2: { intros H; injection H as <- <- <- <-. intros _. split; [eapply entry_count; eauto|apply disk_fine_refl]. }
  destruct res as [[h|]|y| |].
  2-5: intros H; injection H as <- <- <- <-; intros N0; cbn [complaint request_verdict entry_error] in *;
    try (exists []; split; [exact V|apply disk_fine_refl]); try congruence; (split; [exact V|apply disk_fine_refl]).
  unfold save_field, with_dir. destruct (rand_filename g) as [name g1].
  destruct (with_path _ (en_dir ML en ++ [name]) (S fuel) r e) as [[y r1] e1] eqn:Ew.
  apply C96_field in Ew. cbn [s_opts] in Ew. cbn [entry_error entry_verdict] in V.
  apply (verdict_after _ _ _ _ _ _ _ _ V) in Ew.
  destruct y as [d|d why|z| |].
  - destruct (read_entry ML trim r1) as [res' r2] eqn:Er. apply read_entry_calls in Er.
    cbn [complaint field_verdict] in Ew. destruct Ew as (W1 & W2).
    intros H N0. apply (IH (src r1)) in H; auto.
    assert (D : en_dir ML (push_field ML en h d) = en_dir ML en) by reflexivity. rewrite D in H.
    destruct x as [u|u [| |w|]|w| |]; try (eapply request_after; eauto; fail).
    destruct H as (H1 & H2). split; [|eapply disk_fine_trans; eauto].
    destruct H1 as [H1|(k & H1)]; [left; eapply fine_trans; eauto|right; exists k; eapply fine_stopped; eauto].
  - intros H; injection H as <- <- <- <-. intros _. destruct why as [| |[w|w|w]|]; cbn [complaint request_verdict] in *; try (exists name; exact Ew).
    + destruct Ew as (A & B). split; auto.
    + cbn in Ew. tauto.
  - intros H; injection H as <- <- <- <-. intros _. destruct z as [w|w|w]; cbn [complaint request_verdict] in *; try (exists name; exact Ew).
    cbn in Ew. tauto.
  - intros H; injection H as <- <- <- <-. intros _. exists name. exact Ew.
  - intros H; injection H as <- <- <- <-. congruence.
Qed.

(** For every reader, schedule of failures, builder and directory. *)
Theorem C96_request : forall ML trim s fuel en g r e x g' r' e',
  with_entries ML trim s fuel en g r e = (x, g', r', e') -> x <> SFuel ->
  match x with
  | Part _ RCount => count_verdict (src r) (src r') e e'
  | _ => request_verdict (s_opts s) (en_dir ML en) (src r) (src r') e e' (complaint x)
  end.
Proof.
  intros ML trim s fuel en g r e x g' r' e'. unfold with_entries. destruct (read_entry ML trim r) as [res r1] eqn:E.
  apply read_entry_calls in E. intros H N0.
  apply (entries_loop_calls ML trim s fuel (src r)) in H; auto.
Qed.

(** The directory of the request is created first. *)
Theorem C96_request_dir : forall ML trim s dir fuel g r e x g' r' e',
  entries_with_dir ML trim s dir fuel g r e = (x, g', r', e') -> x <> SFuel ->
  match x with
  | Part _ RCount => count_verdict (src r) (src r') e e'
  | SErr y => exists k, y = XDst k /\ r' = r /\ disk_failed (s_opts s) dir e e' k
  | _ => request_verdict (s_opts s) dir (src r) (src r') e e' (complaint x)
  end.
Proof.
  intros ML trim s dir fuel g r e x g' r' e'. unfold entries_with_dir, create_dir_all.
  destruct (mkdirs [] (removelast dir) e) as [m e1] eqn:Em. apply mkdirs_calls in Em as (W1 & O1 & F1 & M1). cbn [app] in *.
  destruct m as [k|].
  { intros H; injection H as <- <- <- <-. intros _. exists k. do 2 (split; auto). destruct M1 as [M1|(M1 & Q)].
    - right; left. rewrite W1, O1. split; [apply fine_refl|]. split; [exact M1|apply fine_refl].
    - right; right; right. split; [split; [rewrite W1; apply fine_refl|split; [exact M1|rewrite O1; apply fine_refl]]|]. left. exact Q. }
  assert (D : disk_fine e e1) by (split; [rewrite W1; apply fine_refl|split; [exact M1|rewrite O1; apply fine_refl]]).
  intros H N0. pose proof (C96_request _ _ _ _ _ _ _ _ _ _ _ _ H N0) as V. cbn [en_dir entries_new] in V.
  destruct x as [u|u [| |w|]|w| |]; try (eapply request_after; eauto using fine_refl; fail).
  - destruct V as (V1 & V2). split; auto. eapply disk_fine_trans; eauto.
  - exfalso. unfold with_entries in H. destruct (read_entry ML trim r) as [res r1].
    assert (G : forall fuel res en g r e, fst (fst (fst (entries_loop ML trim s fuel res en g r e))) <> SErr w).
    { clear. induction fuel as [|fuel IH]; intros res en g r e; cbn [entries_loop]; [discriminate|].
      destruct (en_count ML en <? s_count_limit s)%N; [|discriminate].
      destruct res as [[h|]|y| |]; try discriminate.
      destruct (save_field ML s h en (S fuel) g r e) as [[[[d|d why|z| |] g1] r1] e1]; try discriminate.
      destruct (read_entry ML trim r1) as [res' r2]. apply IH. }
    apply (G _ _ _ _ _ _ (f_equal (fun q => fst (fst (fst q))) H)).
Qed.

(** A field of 2500 bytes that goes to a file: the reads are interrupted and then one fails, the writes are interrupted and then one fails,
    the file or its directory cannot be created. *)
Definition shaky (k : iokind) : transport :=
  [Chunk (bs "--b" ++ CRLF ++ toy_head (bs "a") ++ repeat 120%N 1500); Fail KInterrupted; Fail k; Chunk (repeat 121%N 1000 ++ CRLF ++ toy_end)].

Example C96_field_example :
  let s := mkSaver 5000 10 1200 TTry default_opts in
  let p := [bs "d"; bs "f"] in
  let go t e := let '(x, r, e') := with_path s p 100 (first_field t) e in (complaint x, src r, e_w e', e_mkdir e', e_open e') in
  let none := fun _ : path => @None node in
  go (shaky (KOther 5)) (mkEnv none [] [] []) =
    (Some (XSrc (ETransport (KOther 5))), [Chunk (repeat 121%N 1000 ++ CRLF ++ toy_end)], [], [], []) /\
  go (shaky KInterrupted) (mkEnv none [WAccept 700; WFail KInterrupted; WFail (KOther 28); WAccept 9] [] []) =
    (Some (XDst (KOther 28)), [Fail KInterrupted; Fail KInterrupted; Chunk (repeat 121%N 1000 ++ CRLF ++ toy_end)], [WAccept 9], [], []) /\
  go (shaky KInterrupted) (mkEnv none [] [] [Some (KOther 13); None]) =
    (Some (XDst (KOther 13)), [Fail KInterrupted; Fail KInterrupted; Chunk (repeat 121%N 1000 ++ CRLF ++ toy_end)], [], [], [None]) /\
  go (shaky KInterrupted) (mkEnv none [] [Some (KOther 30)] []) =
    (Some (XDst (KOther 30)), [Fail KInterrupted; Fail KInterrupted; Chunk (repeat 121%N 1000 ++ CRLF ++ toy_end)], [], [], []) /\
  go (shaky KInterrupted) (mkEnv none [WAccept 700; WFail KInterrupted] [None] [None]) = (None, [], [], [], []).
Proof. vm_compute. repeat split; reflexivity. Qed.

(** A request of two fields whose transport fails in the headers of the second. *)
Definition torn : transport :=
  let second := bs "--b" ++ CRLF ++ toy_head (repeat 99%N 1100) ++ bs "second" ++ CRLF ++ toy_end in
  [Chunk (toy_part (bs "a") (bs "first") ++ firstn 1026 second); Fail (KOther 104); Chunk (skipn 1026 second)].

Example C96_request_example :
  let '(x, _, r, e) := with_entries toy true saver_new 100 (entries_new toy [bs "d"] false) [] (with_body torn (bs "b")) (no_failures (fun _ => None)) in
  complaint x = Some (XEntry (EHdr (PIo (ETransport (KOther 104))))) /\ length (src r) = 1.
Proof. vm_compute. split; reflexivity. Qed.

(** "No failure is passed over" is false of a save that ends because of the number of fields: the entry after the last field
    allowed is looked for all the same, and the error of doing so is dropped. *)
Theorem C96_count_refuted : exists t s pe g r e k,
  with_entries toy true s 100 (entries_new toy [bs "d"] false) [] (with_body t (bs "b")) (no_failures (fun _ => None)) = (Part pe RCount, g, r, e) /\
  fields_of (pe_entries toy pe) = 1 /\ k <> KInterrupted /\ stopped fine_read t (Fail k) (src r).
Proof.
  exists torn, (mkSaver 5000 1 5000 TTry default_opts). do 4 eexists. exists (KOther 104).
  split; [vm_compute; reflexivity|]. split; [vm_compute; reflexivity|]. split; [discriminate|].
  exists (firstn 1 torn). split; [vm_compute; reflexivity|]. repeat constructor.
Qed.
