(** What the errors of the lazy client say (C93). *)

From Verif Require Import Bytes Spec Io Boundary Field Rand Fs Client ClientProofs WireSpec Lazy LazyProofs Messages Toy.

(** Specification.  Where an error of [send] can come from: the stream of the request, or the data of a field. *)
Definition stream_failed (q : http) (k : iokind) : Prop :=
  q_open q = Some k \/ In (WFail k) (q_sched q) \/ (k = KWriteZero /\ In (WAccept 0) (q_sched q)) \/ q_finish q = Some k.

Definition data_failed {M} (f : lfield M) (k : iokind) : Prop :=
  exists src, In (Fail k) src /\
    ((exists fn ct, l_data f = LStream fn ct src) \/ (exists p len, l_data f = LFile p (inr (inr len, src)))).

(** The file of the field could not be opened, or its length could not be determined. *)
Definition file_failed {M} (f : lfield M) (k : iokind) : Prop :=
  exists p, l_data f = LFile p (inl k) \/ exists src, l_data f = LFile p (inr (inl k, src)).

Lemma write_fails sched : forall d q k q', write_all_http sched d q = (Some k, q') ->
  (In (WFail k) sched \/ (k = KWriteZero /\ In (WAccept 0) sched)).
Proof.
  induction sched as [|[n|k0] s IH]; intros d q k q' H; destruct d as [|a d]; cbn [write_all_http] in H; try discriminate.
  - destruct (Nat.min n (length (a :: d)) =? 0) eqn:E.
    + injection H as <- _. apply Nat.eqb_eq in E. cbn [length] in E. destruct n; [right; split; [reflexivity|now left]|lia].
    + apply IH in H as [H|[H1 H2]]; [left; now right|right; split; [exact H1|now right]].
  - destruct (iokind_eqb k0 KInterrupted).
    + apply IH in H as [H|[H1 H2]]; [left; now right|right; split; [exact H1|now right]].
    + injection H as <- _. left. now left.
Qed.

Lemma write_suffix sched : forall d q x q', write_all_http sched d q = (x, q') ->
  (exists used, sched = used ++ q_sched q') /\ q_open q' = q_open q /\ q_finish q' = q_finish q.
Proof.
  induction sched as [|[n|k0] s IH]; intros d q x q' H; destruct d as [|a d]; cbn [write_all_http] in H.
  - injection H as _ <-. split; [now exists []|auto].
  - injection H as _ <-. split; [now exists []|auto].
  - injection H as _ <-. split; [now exists []|auto].
  - destruct (Nat.min n (length (a :: d)) =? 0).
    + injection H as _ <-. split; [now exists [WAccept n]|auto].
    + apply IH in H as ((u & ->) & H2 & H3). split; [now exists (WAccept n :: u)|auto].
  - injection H as _ <-. split; [now exists []|auto].
  - destruct (iokind_eqb k0 KInterrupted).
    + apply IH in H as ((u & ->) & H2 & H3). split; [now exists (WFail k0 :: u)|auto].
    + injection H as _ <-. split; [now exists [WFail k0]|auto].
Qed.

Lemma copy_fails K fuel : forall n s q x s1 q1, copy_prepared fuel n s q = (x, s1, q1) -> all_kinds K s ->
  q_finish q1 = q_finish q /\
  (forall k, x = Err k -> (K k /\ k <> KInterrupted) \/ In (WFail k) (q_sched q) \/ (k = KWriteZero /\ In (WAccept 0) (q_sched q))).
Proof.
  induction fuel as [|fuel IH]; intros n s q x s1 q1 H A; cbn [copy_prepared] in H; [injection H as <- _ <-; split; [auto|discriminate]|].
  destruct (lazy_read n s) as [y s2] eqn:E. pose proof (read_kinds _ _ _ _ _ E A) as [A2 Ky]. destruct y as [[|d0 d]|k| |].
  - injection H as <- _ <-. split; [auto|discriminate].
  - unfold http_write_all in H. destruct (write_all_http (q_sched q) (d0 :: d) q) as [[k|] q2] eqn:W.
    + injection H as <- _ <-. split; [now apply write_suffix in W|]. intros k' X; injection X as <-. right. now apply write_fails in W.
    + apply write_suffix in W as ((u & U) & _ & Fi). apply IH in H as [F1 F2]; auto. split; [congruence|].
      intros k X. destruct (F2 k X) as [F3|[F3|[F3 F4]]]; [now left|right; left|right; right; split; [exact F3|]]; rewrite U; apply in_or_app; now right.
  - destruct (iokind_eqb k KInterrupted) eqn:Q.
    + now apply IH in H.
    + injection H as <- _ <-. split; [auto|]. intros k' X; injection X as <-. left. split; [exact Ky|]. intros ->. discriminate.
  - injection H as <- _ <-. split; [auto|discriminate].
  - injection H as <- _ <-. split; [auto|discriminate].
Qed.

Section Errors.
Context (debug : bytes -> bytes) (show : iokind -> bytes).

(** Every error of [send]: either it names the first field whose file cannot be opened or measured, and nothing has been done with the
    request; or all files are fine, no field is named, and the error is one of the stream or of the data of a field. *)
Theorem C93_says : forall ML guess g fs q e q' fs',
  lazy_send ML guess g fs q = (Err e, q', fs') ->
  (exists l1 f l2 k, fs = l1 ++ f :: l2 /\ (forall f' k', In f' l1 -> ~ file_failed f' k') /\ file_failed f k /\ q' = q /\
     lazy_display debug show e = bs "Error writing field " ++ debug (l_name f) ++ bs ": " ++ show k /\
     lazy_debug debug show e = bs "LazyError (on field " ++ debug (l_name f) ++ bs "): " ++ show k) \/
  ((forall f k, In f fs -> ~ file_failed f k) /\ exists k,
     (stream_failed q k \/ exists f, In f fs /\ data_failed f k) /\
     lazy_display debug show e = bs "Error opening or flushing stream: " ++ show k /\
     lazy_debug debug show e = bs "LazyError (misc): " ++ show k).
Proof.
  intros ML guess g fs q e q' fs' H.
  assert (LF : forall (f : lfield (mime ML)) k, lfails ML f k <-> file_failed f k).
  { intros f k. unfold lfails, file_failed. destruct (l_data f) as [t|p [k0|[[k0|len] src]]|fn ct src]; split; intros X; try contradiction;
      try (destruct X as (p0 & [X|(src0 & X)]); congruence).
    - exists p. left. congruence.
    - exists p. right. exists src. congruence. }
  unfold lazy_send, prepare in H. pose proof (from_fields_cases ML guess g fs) as C.
  destruct (from_fields ML guess g fs) as [[e'|s] g1] eqn:F.
  - left. injection H as <- <- <-. destruct C as (l1 & f & l2 & k & E & N1 & L1 & ->). exists l1, f, l2, k.
    split; [exact E|]. split; [intros f' k' I1 I2; apply (N1 f' k' I1); now apply LF|]. split; [now apply LF|]. auto.
  - right. apply from_fields_ok in F as (Nf & V & St & P & En & Mp & _).
    split; [intros f k I1 I2; apply (Nf f k I1); now apply LF|].
    pose (K := fun k => exists f : lfield (mime ML), In f fs /\ data_failed f k).
    assert (A : all_kinds K s).
    { apply (prepared_kinds ML K fs s Mp). apply Forall_forall. intros f I1. unfold kinds. apply Forall_forall. intros [c|k] I2; [exact I|].
      exists f. split; [exact I1|]. exists (l_source ML f). split; [exact I2|]. unfold l_source in *.
      destruct (l_data f) as [t|p [k0|[[k0|len] src]]|fn ct src] eqn:D.
      - destruct I2 as [I2|[]]; discriminate.
      - destruct I2.
      - exfalso. apply (Nf f k0 I1). apply LF. exists p. right. eauto.
      - right. eauto.
      - left. eauto. }
    destruct (boundary_str s); try discriminate. unfold apply_headers, open_http in H. cbn [logged q_open] in H.
    destruct (q_open q) as [k|] eqn:Qo.
    + injection H as <- <- <-. exists k. split; [left; left; exact Qo|]. auto.
    + destruct (copy_prepared _ COPY_BUF s _) as [[y s1] q3] eqn:Y. apply (copy_fails K) in Y as [Y1 Y2]; [|exact A]. cbn [logged q_finish q_sched] in Y1, Y2.
      destruct y as [[]|k| |]; try discriminate.
      * unfold finish_http in H. destruct (q_finish q3) as [k|] eqn:Qf; [|discriminate]. injection H as <- <- <-. exists k.
        split; [left; right; right; right; congruence|]. auto.
      * injection H as <- <- <-. exists k. split; [|auto]. destruct (Y2 k eq_refl) as [[Z _]|[Z|Z]]; [right; exact Z|left; right; left; exact Z|left; right; right; left; exact Z].
Qed.

(** An error that names no field is worded as one of the stream: true if the sources of the fields do not fail. *)
Theorem C93_stream_partial : forall ML guess g fs q e q' fs',
  (forall f k, In f fs -> ~ file_failed f k /\ ~ data_failed f k) ->
  lazy_send ML guess g fs q = (Err e, q', fs') ->
  exists k, stream_failed q k /\ lazy_display debug show e = bs "Error opening or flushing stream: " ++ show k.
Proof.
  intros ML guess g fs q e q' fs' C H. apply C93_says in H as [(l1 & f & l2 & k & -> & _ & F & _)|(_ & k & [S1|(f & I1 & D)] & T & _)].
  - exfalso. destruct (C f k) as [C1 _]; [apply in_or_app; right; now left|exact (C1 F)].
  - eauto.
  - exfalso. now destruct (C f k I1) as [_ C2].
Qed.

(** False otherwise: the stream of the request takes everything, the data of a field cannot be read, and the message is that opening or
    flushing the stream failed, without the name of the field. *)
Theorem C93_blames_refuted : exists ML guess g fs q e q' fs' k,
  lazy_send ML guess g fs q = (Err e, q', fs') /\ (forall k', ~ stream_failed q k') /\
  fs = [mkLF (bs "avatar") (LStream None (guess []) [Chunk (bs "abc"); Fail k])] /\
  lazy_display debug show e = bs "Error opening or flushing stream: " ++ show k.
Proof.
  exists toy, (fun _ => bs "text/plain"), [1; 2; 3]%N, [mkLF (bs "avatar") (LStream None (bs "text/plain") [Chunk (bs "abc"); Fail (KOther 5)])],
    (mkHttp (fun _ _ => true) None [] None []). eexists. eexists. eexists. exists (KOther 5). split; [vm_compute; reflexivity|].
  split; [|split; reflexivity]. intros k' [H|[[]|[[_ []]|H]]]; discriminate.
Qed.

End Errors.

(** A missing file after a text: the message names it, and the request is untouched. *)
Example C93_example : let q := mkHttp (fun _ _ => true) None [] None [] in
  let quoted n := bs """" ++ n ++ bs """" in let shown (_ : iokind) := bs "no such file" in
  exists e, lazy_send toy (fun _ => bs "text/plain") [1; 2; 3]%N [mkLF (bs "a") (LText (bs "1")); mkLF (bs "doc") (LFile [bs "x"] (inl (KOther 2)))] q = (Err e, q, []) /\
    lazy_display quoted shown e = bs "Error writing field ""doc"": no such file".
Proof. cbv zeta. eexists. split; [vm_compute; reflexivity|vm_compute; reflexivity]. Qed.
