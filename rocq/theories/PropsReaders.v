(** Property theorems about reading a field to its end and about the readers of saved data (C66-C68). *)

From Verif Require Import Bytes BytesProofs Spec Io Boundary BoundaryProofs Utf8 Utf8Proofs Httparse Field FieldProofs
  ContentProofs DataProofs ShortProofs EntryProofs ReaderProofs Drive DriveProofs ReachProofs Rand Fs Save SaveProofs PhaseProofs SaveFacts
  TextProofs Toy PropsReader PropsSave Readers.

(** ** C66: [read_to_end], [read_to_string] *)

(** A call of [read_to_end] is a sequence of reads, the last of which returned [Ok(0)] if it succeeded. *)
Lemma to_end_run ML trim fuel sz : forall k r v x v' r',
  read_to_end fuel sz k r v = (x, v', r') ->
  exists os ob, run ML trim os r = (ob, r') /\ Forall (fun o => exists j, o = ORead (sz j)) os /\ v' = v ++ delivered ML ob /\
    match x with
    | Ok _ => exists os0 j ob0, os = os0 ++ [ORead (sz j)] /\ ob = ob0 ++ [BRead ML (Ok [])]
    | Err e => berr_kind e <> KInterrupted /\ exists ob0, ob = ob0 ++ [BRead ML (Err e)]
    | Panic => In (BRead ML Panic) ob
    | OutOfFuel => True
    end.
Proof.
  induction fuel as [|fuel IH]; intros k r v x v' r' H; cbn [read_to_end] in H.
  { injection H as <- <- <-. exists [], []. split; [reflexivity|]. split; [constructor|]. split; [now rewrite app_nil_r|auto]. }
  destruct (read (sz k) r) as [y r1] eqn:E.
  assert (One : forall ob os, run ML trim os r1 = (ob, r') -> run ML trim (ORead (sz k) :: os) r = (BRead ML y :: ob, r')).
  { intros ob os R. cbn [run step]. rewrite E, R. reflexivity. }
  assert (Fs : forall os, Forall (fun o => exists j, o = ORead (sz j)) os -> Forall (fun o => exists j, o = ORead (sz j)) (ORead (sz k) :: os)) by (constructor; eauto).
  assert (Rec : forall out, delivered1 ML (BRead ML y) = out -> read_to_end fuel sz (S k) r1 (v ++ out) = (x, v', r') ->
    exists os ob, run ML trim os r = (ob, r') /\ Forall (fun o => exists j, o = ORead (sz j)) os /\ v' = v ++ delivered ML ob /\
    match x with
    | Ok _ => exists os0 j ob0, os = os0 ++ [ORead (sz j)] /\ ob = ob0 ++ [BRead ML (Ok [])]
    | Err e => berr_kind e <> KInterrupted /\ exists ob0, ob = ob0 ++ [BRead ML (Err e)]
    | Panic => In (BRead ML Panic) ob
    | OutOfFuel => True
    end).
  { intros out D R. apply IH in R as (os & ob & R & F & -> & X). exists (ORead (sz k) :: os), (BRead ML y :: ob).
    split; [auto|]. split; [auto|]. split; [unfold delivered; cbn [flat_map]; now rewrite D, app_assoc|].
    destruct x as [[]|e| |]; auto.
    - destruct X as (os0 & j & ob0 & -> & ->). exists (ORead (sz k) :: os0), j, (BRead ML y :: ob0). split; reflexivity.
    - destruct X as (N & ob0 & ->). split; [exact N|]. exists (BRead ML y :: ob0). reflexivity.
    - now right. }
  destruct y as [out|e| |].
  - destruct out as [|b out].
    + injection H as <- <- <-. exists [ORead (sz k)], [BRead ML (Ok [])].
      split; [apply (One [] []); reflexivity|]. split; [apply Fs; constructor|]. split; [now rewrite app_nil_r|].
      exists [], k, []. split; reflexivity.
    + apply (Rec (b :: out)); [reflexivity|exact H].
  - destruct (iokind_eqb (berr_kind e) KInterrupted) eqn:K.
    + assert (K' : berr_kind e = KInterrupted) by (destruct (berr_kind e); try discriminate; reflexivity).
      rewrite K' in H. apply (Rec []); [reflexivity|]. now rewrite app_nil_r.
    + assert (K' : berr_kind e <> KInterrupted) by (intros Z; rewrite Z in K; discriminate).
      assert (Z : (Err e, v, r1) = (x, v', r')) by (destruct (berr_kind e); try exact H; congruence).
      injection Z as <- <- <-. exists [ORead (sz k)], [BRead ML (Err e)].
      split; [apply (One [] []); reflexivity|]. split; [apply Fs; constructor|]. split; [now rewrite app_nil_r|].
      split; [exact K'|]. exists []. reflexivity.
  - injection H as <- <- <-. exists [ORead (sz k)], [BRead ML Panic].
    split; [apply (One [] []); reflexivity|]. split; [apply Fs; constructor|]. split; [now rewrite app_nil_r|]. now left.
  - injection H as <- <- <-. exists [ORead (sz k)], [BRead ML OutOfFuel].
    split; [apply (One [] []); reflexivity|]. split; [apply Fs; constructor|]. split; [now rewrite app_nil_r|exact I].
Qed.

Lemma reads_data sz os : Forall (fun o => exists j : nat, o = ORead (sz j)) os -> Forall data_op os.
Proof. intros F. eapply Forall_impl; [|exact F]. intros o (j & ->). exact I. Qed.

Lemma reads_small sz os : (forall k, sz k < MIN_BUF_SIZE) -> Forall (fun o => exists j : nat, o = ORead (sz j)) os -> Forall (small_read MIN_BUF_SIZE) os.
Proof. intros S F. eapply Forall_impl; [|exact F]. intros o (j & ->). cbn. specialize (S j). lia. Qed.

(** It ends, without a panic, and loses nothing: what was appended and what is left in the reader is what was there
    before; an error is one of the transport and not an interruption. *)
Theorem C66_to_end : forall ML trim t b h r sz v fuel,
  at_field ML trim t b h r -> (forall k, 0 < sz k) -> length (rem r) + length (src r) < fuel ->
  exists x d r', read_to_end fuel sz 0 r v = (x, v ++ d, r') /\ rem r = d ++ rem r' /\
    (x = Ok tt \/ exists k, x = Err (ETransport k) /\ k <> KInterrupted /\ In (Fail k) t).
Proof.
  intros ML trim t b h r sz v fuel Hf Hsz L.
  destruct (at_field_reached _ _ _ _ _ _ Hf) as (R1 & _). pose proof (reached_inv _ _ _ _ _ R1) as (I1 & _ & _ & L1 & _). clear Hf R1.
  generalize 0 as k. revert v r I1 L1 L. induction fuel as [|fuel IH]; intros v r I1 L1 L k; [lia|].
  cbn [read_to_end]. destruct (read (sz k) r) as [y r1] eqn:E.
  pose proof (read_spec _ _ _ _ I1 E) as (I2 & _ & _ & L2 & X).
  assert (Lt : later (src r1) t) by (eapply later_trans; eauto).
  assert (Ls : length (src r1) <= length (src r)) by (destruct L2 as (u & ->); rewrite app_length; lia).
  destruct y as [out|e| |]; try tauto.
  - destruct X as (R & _). destruct out as [|c out].
    + exists (Ok tt), [], r1. rewrite app_nil_r. cbn [app]. split; [reflexivity|]. split; auto.
    + destruct (IH (v ++ c :: out) r1 I2 Lt) with (k := S k) as (x & d & r' & H & Rd & Hx).
      { rewrite R, app_length in L. cbn [length] in L. lia. }
      exists x, ((c :: out) ++ d), r'. rewrite app_assoc. split; [exact H|]. split; [|exact Hx].
      rewrite R, Rd. now rewrite <- app_assoc.
  - destruct X as (q & -> & Hq & R & _). cbn [berr_kind].
    assert (Hs : length (src r1) < length (src r)).
    { eapply (failed_step_src ML trim (ORead (sz k)) r (BRead ML (Err (ETransport q))) r1 I1); [cbn [step]; now rewrite E|exact I]. }
    assert (Ht : In (Fail q) t) by (destruct L1 as (u & ->); apply in_or_app; now right).
    assert (Dec : q = KInterrupted \/ q <> KInterrupted) by (destruct q; (left; reflexivity) || (right; discriminate)).
    destruct Dec as [->|N].
    + destruct (IH v r1 I2 Lt) with (k := S k) as (x & d & r' & H & Rd & Hx); [rewrite R; lia|].
      exists x, d, r'. split; [exact H|]. split; [now rewrite <- R|exact Hx].
    + exists (Err (ETransport q)), [], r1. rewrite app_nil_r. split; [destruct q; [now elim N|reflexivity..]|]. split; [now rewrite R|]. right. eauto.
Qed.

(** A field read to the end by any number of calls, each after an error of the one before: the calls [szs], the
    [i]-th with the buffer sizes [nth i szs]. *)
Fixpoint persist (fuel : nat) (szs : list (nat -> nat)) (r : breader) (v : bytes) : option (bytes * breader) :=
  match szs with
  | [] => None
  | sz :: szs' =>
      match read_to_end fuel sz 0 r v with
      | (Ok _, v', r') => Some (v', r')
      | (Err _, v', r') => persist fuel szs' r' v'
      | _ => None
      end
  end.

Lemma persist_run ML trim fuel (P : nat -> Prop) szs : Forall (fun sz : nat -> nat => forall k, P (sz k)) szs -> forall r v v' r',
  persist fuel szs r v = Some (v', r') ->
  exists os j ob, run ML trim (os ++ [ORead j]) r = (ob ++ [BRead ML (Ok [])], r') /\ Forall (fun o => exists j, o = ORead j /\ P j) os /\ P j /\
    v' = v ++ delivered ML ob.
Proof.
  induction 1 as [|sz szs Hsz F IH]; intros r v v' r' H; cbn [persist] in H; [discriminate|].
  destruct (read_to_end fuel sz 0 r v) as [[x w] r1] eqn:E. apply (to_end_run ML trim) in E as (os & ob & R & Fo & -> & X).
  assert (Fo' : Forall (fun o => exists j, o = ORead j /\ P j) os) by (eapply Forall_impl; [|exact Fo]; intros o (j & ->); eauto).
  destruct x as [[]|e| |]; try discriminate.
  - injection H as <- <-. destruct X as (os0 & j & ob0 & -> & ->). exists os0, (sz j), ob0. split; [exact R|].
    apply Forall_app in Fo' as [Fo' _]. split; [exact Fo'|]. split; [auto|]. unfold delivered. rewrite flat_map_app. cbn. now rewrite app_nil_r.
  - apply IH in H as (os' & j & ob' & R' & F' & Pj & ->). exists (os ++ os'), j, (ob ++ ob').
    split; [|split; [apply Forall_app; auto|split; [exact Pj|unfold delivered; now rewrite flat_map_app, app_assoc]]].
    rewrite <- !app_assoc. clear - R R'. revert r ob R. induction os as [|o os IHo]; intros r ob R; cbn [run app] in *.
    { injection R as <- <-. exact R'. }
    destruct (step ML trim o r) as [y r2]. destruct (run ML trim os r2) as [ob2 r3] eqn:E. injection R as <- <-.
    rewrite (IHo _ _ E). reflexivity.
Qed.

(** The content, for every pattern of interruptions and, if the user calls again after every error, of errors. *)
Theorem C66_content_partial : forall ML trim t b h r fuel szs v v' r' c,
  at_field ML trim t b h r -> live t -> Forall (fun sz : nat -> nat => forall k, 0 < sz k) szs ->
  exact_chunks (delimiter b) t [c] \/ Forall (fun sz : nat -> nat => forall k, sz k < MIN_BUF_SIZE) szs ->
  content (delimiter b) (rem r) c ->
  persist fuel szs r v = Some (v', r') -> v' = v ++ c.
Proof.
  intros ML trim t b h r fuel szs v v' r' c Hf Hl H0 Hx Hc H. destruct Hx as [Hns|Hs].
  - apply (persist_run ML trim fuel (fun n => 0 < n) szs H0) in H as (os & j & ob & R & Fo & Pj & ->). f_equal.
    assert (Fd : Forall data_op os) by (eapply Forall_impl; [|exact Fo]; intros o (i & -> & _); exact I).
    assert (Fk : Forall keeps_min os) by (eapply Forall_impl; [|exact Fo]; intros o (i & -> & _); exact I).
    refine (exact_end _ _ _ _ _ _ _ _ _ _ _ Hf Hl _ Fd Pj R Hc). right. split; auto. split; auto.
    apply run_app in R as (ob1 & q & ob2 & R1 & R2 & E). cbn [run step] in R2. destruct (read j q) as [x q'].
    injection R2 as <- <-. apply app_inj_tail in E as [-> _].
    eapply reads_lawful; [|exact R1]. eapply Forall_impl; [|exact Fo]. intros o (i & -> & _). eauto.
  - assert (H1 : Forall (fun sz : nat -> nat => forall k, 0 < sz k < MIN_BUF_SIZE) szs).
    { rewrite Forall_forall in *. intros sz Hi k. split; [now apply H0|now apply Hs]. }
    apply (persist_run ML trim fuel (fun n => 0 < n < MIN_BUF_SIZE) szs H1) in H as (os & j & ob & R & Fo & Pj & ->). f_equal.
    assert (Fd : Forall (small_read MIN_BUF_SIZE) os) by (eapply Forall_impl; [|exact Fo]; intros o (i & -> & B); cbn; lia).
    exact (C03_small_reads_partial _ _ _ _ _ _ _ _ _ _ _ Hf Hl Fd (proj1 Pj) R Hc).
Qed.

(** [read_to_string]: the content as a string if it is valid UTF-8, [InvalidData] if not; without failures of the transport. *)
Theorem C66_string_partial : forall ML trim t b h r sz fuel c,
  at_field ML trim t b h r -> live t -> (forall k, In (Fail k) t -> k = KInterrupted) -> (forall k, 0 < sz k) ->
  exact_chunks (delimiter b) t [c] \/ (forall k, sz k < MIN_BUF_SIZE) ->
  content (delimiter b) (rem r) c -> length (rem r) + length (src r) < fuel ->
  exists r', (utf8_string c -> read_to_string fuel sz r = (Ok c, r')) /\
             (~ utf8_string c -> read_to_string fuel sz r = (Err SInvalid, r')).
Proof.
  intros ML trim t b h r sz fuel c Hf Hl Hq Hsz Hx Hc L.
  destruct (C66_to_end ML trim t b h r sz [] fuel Hf Hsz L) as (x & d & r' & H & _ & [->|(k & _ & N & Hk)]).
  2:{ apply Hq in Hk. congruence. }
  assert (Hd : d = c).
  { assert (P : persist fuel [sz] r [] = Some (d, r')) by (cbn [persist]; rewrite H; reflexivity).
    refine (C66_content_partial ML trim t b h r fuel [sz] [] d r' c Hf Hl _ _ Hc P); [constructor; auto|].
    destruct Hx; [now left|right; constructor; auto]. }
  subst d. exists r'. unfold read_to_string. rewrite H. cbn [app]. split; intros U.
  - apply valid_utf8_iff in U. now rewrite U.
  - destruct (valid_utf8 c) eqn:V; [apply valid_utf8_iff in V; tauto|reflexivity].
Qed.

(** Without the condition on the chunking there can be one surplus CRLF (C03). *)
Theorem C66_refuted : exists t h r v r',
  at_field toy true t (bs "b") h r /\ live t /\ quiet t /\ content (delimiter (bs "b")) (rem r) (repeat 120%N 1023) /\
  read_to_string 2000 (fun _ => 4096) r = (Ok v, r') /\ v = repeat 120%N 1023 ++ CRLF.
Proof.
  exists C03_t1, (mkFH toy (bs "a") None None), (first_field C03_t1). do 2 eexists.
  split; [first_field|]. split; [intros [H|[H|[]]]; discriminate|]. split; [intros k [H|[H|[]]]; discriminate|].
  split.
  { exists (repeat 120%N 1023 ++ CRLF), (DASHES ++ CRLF). split; [|left; reflexivity]. apply find_split; vm_compute; reflexivity. }
  split; vm_compute; reflexivity.
Qed.

(** An interruption, an error in the middle, and a second call. *)
Definition bumpy : transport :=
  [Chunk (bs "--b" ++ CRLF ++ toy_head (bs "a") ++ repeat 120%N 1500); Fail KInterrupted; Fail (KOther 5); Chunk (bs "end" ++ CRLF ++ toy_end)].

Example C66_example :
  let r := first_field bumpy in
  fst (fst (read_to_end 100 (fun k => 600 + k) 0 r [])) = Err (ETransport (KOther 5)) /\
  option_map fst (persist 100 [fun k => 600 + k; fun _ => 5000] r []) = Some (repeat 120%N 1500 ++ bs "end") /\
  content (delimiter (bs "b")) (rem r) (repeat 120%N 1500 ++ bs "end").
Proof.
  split; [vm_compute; reflexivity|]. split; [vm_compute; reflexivity|].
  exists ((repeat 120%N 1500 ++ bs "end") ++ CRLF), (DASHES ++ CRLF). split; [|left; reflexivity]. apply find_split; vm_compute; reflexivity.
Qed.

(** ** C67: the reader of saved data *)

(** The reader [d] has been opened on data [c]: a file returns its content by reads of any lengths, none of them
    empty before the end, and errors in between. *)
Definition opens (v : saved) (f : fs) (c : bytes) (d : dreader) : Prop :=
  exists t, open_data v f t = Some d /\ readable v f = Some c /\ (forall p n, v = SFile p n -> stream t = c /\ live t).

(** What is left to read. *)
Definition data_left (d : dreader) : bytes := match d with DBytes b => b | DFile a t => a ++ stream t end.
Definition data_live (d : dreader) : Prop := match d with DBytes _ => True | DFile _ t => live t end.

Lemma file_read_spec n t x t' : 0 < n -> live t -> file_read n t = (x, t') ->
  live t' /\ match x with
  | Ok c => stream t = c ++ stream t' /\ length c <= n /\ (c = [] -> stream t' = [])
  | Err k => stream t' = stream t /\ In (Fail k) t
  | _ => False
  end.
Proof.
  intros Hn Hl. unfold file_read. destruct t as [|[c|k] t].
  - intros H; injection H as <- <-. cbn. split; [auto|]. split; [reflexivity|]. split; [lia|auto].
  - assert (Hc : c <> []) by (intros ->; apply Hl; now left). assert (Hl' : live t) by (intros Z; apply Hl; now right).
    intros H; injection H as <- <-. destruct (Nat.leb_spec (length c) n) as [L|L].
    + split; [exact Hl'|]. rewrite firstn_all2 by lia. split; [reflexivity|]. split; [exact L|tauto].
    + split.
      { intros [Z|Z]; [|now apply Hl']. injection Z as Z. apply (f_equal (@length _)) in Z. rewrite skipn_length in Z. cbn in Z. lia. }
      cbn [stream]. split; [now rewrite app_assoc, firstn_skipn|]. rewrite firstn_length. split; [lia|].
      intros Z. apply (f_equal (@length _)) in Z. rewrite firstn_length in Z. cbn in Z. lia.
  - intros H; injection H as <- <-. split; [intros Z; apply Hl; now right|]. split; [reflexivity|now left].
Qed.

Lemma std_buf_pos : 0 < STD_BUF.
Proof. unfold STD_BUF. lia. Qed.

Lemma data_step_spec o d x out d' : data_live d -> data_step o d = (x, out, d') ->
  data_live d' /\ data_left d = out ++ data_left d' /\
  match o with
  | DRead n => (forall c, x = Ok c -> c = out /\ length c <= n /\ (0 < n -> c = [] -> data_left d' = [])) /\ (forall k, x = Err k -> out = []) /\
      x <> Panic /\ x <> OutOfFuel
  | DFill => out = [] /\ (forall c, x = Ok c -> (exists y, data_left d' = c ++ y) /\ (c = [] -> data_left d' = [])) /\ x <> Panic /\ x <> OutOfFuel
  | DConsume n => length out <= n /\ (x = Panic -> length (data_left d) < n) /\ (forall c, x = Ok c -> c = []) /\ x <> OutOfFuel
  end.
Proof.
  intros Hl. pose proof std_buf_pos as P. destruct o as [n| |n]; cbn [data_step].
  - destruct (data_read n d) as [y d1] eqn:E. intros H; injection H as -> <- <-. destruct d as [b|a t]; cbn [data_read] in E.
    { injection E as <- <-. cbn [data_left data_live]. split; [exact I|]. split; [now rewrite firstn_skipn|].
      split; [|split; [discriminate|split; discriminate]]. intros c Z. injection Z as <-. split; [reflexivity|].
      rewrite firstn_length. split; [lia|]. intros Hn Z. destruct n; [lia|]. destruct b; [reflexivity|discriminate]. }
    cbn [data_live] in Hl. destruct a as [|a0 a].
    + destruct (Nat.leb_spec STD_BUF n) as [L|L].
      * destruct (file_read n t) as [z t'] eqn:F. injection E as -> <-. apply file_read_spec in F as [Hl' F]; [|lia|exact Hl].
        cbn [data_live data_left app]. destruct x as [c|k| |]; try tauto.
        -- destruct F as (F1 & F2 & F3). split; [exact Hl'|]. split; [exact F1|]. split; [|split; [discriminate|split; discriminate]].
           intros c' Z. injection Z as <-. auto.
        -- destruct F as (F1 & _). split; [exact Hl'|]. split; [now symmetry|]. split; [discriminate|]. split; [auto|split; discriminate].
      * destruct (file_read STD_BUF t) as [z t'] eqn:F. apply file_read_spec in F as [Hl' F]; [|lia|exact Hl].
        destruct z as [c|k| |]; try tauto; injection E as <- <-; cbn [data_live data_left app].
        -- destruct F as (F1 & F2 & F3). split; [exact Hl'|]. split; [now rewrite app_assoc, firstn_skipn|].
           split; [|split; [discriminate|split; discriminate]]. intros c' Z. injection Z as <-. split; [reflexivity|].
           rewrite firstn_length. split; [lia|]. intros Hn Z. destruct n; [lia|]. destruct c; [|discriminate].
           cbn [skipn app]. auto.
        -- destruct F as (F1 & _). split; [exact Hl'|]. split; [now symmetry|]. split; [discriminate|]. split; [auto|split; discriminate].
    + injection E as <- <-. cbn [data_live data_left]. split; [exact Hl|]. split; [now rewrite app_assoc, firstn_skipn|].
      split; [|split; [discriminate|split; discriminate]]. intros c' Z. injection Z as <-. split; [reflexivity|].
      rewrite firstn_length. split; [lia|]. intros Hn Z. destruct n; [lia|]. discriminate.
  - destruct (data_fill d) as [y d1] eqn:E. intros H; injection H as -> <- <-. destruct d as [b|a t]; cbn [data_fill] in E.
    { injection E as <- <-. cbn [data_left data_live app]. split; [exact I|]. split; [reflexivity|]. split; [reflexivity|].
      split; [|split; discriminate]. intros c Z. injection Z as <-. split; [exists []; now rewrite app_nil_r|auto]. }
    cbn [data_live] in Hl. destruct a as [|a0 a].
    + destruct (file_read STD_BUF t) as [z t'] eqn:F. apply file_read_spec in F as [Hl' F]; [|lia|exact Hl].
      destruct z as [c|k| |]; try tauto; injection E as <- <-; cbn [data_live data_left app].
      * destruct F as (F1 & F2 & F3). split; [exact Hl'|]. split; [exact F1|]. split; [reflexivity|]. split; [|split; discriminate].
        intros c' Z. injection Z as <-. split; [eauto|]. intros ->. cbn [app]. auto.
      * destruct F as (F1 & _). split; [exact Hl'|]. split; [now symmetry|]. split; [reflexivity|]. split; [discriminate|split; discriminate].
    + injection E as <- <-. cbn [data_live data_left app]. split; [exact Hl|]. split; [reflexivity|]. split; [reflexivity|].
      split; [|split; discriminate]. intros c Z. injection Z as <-. split; [exists (stream t); reflexivity|discriminate].
  - destruct d as [b|a t]; cbn [data_consume].
    + destruct (Nat.leb_spec n (length b)) as [L|L]; intros H; injection H as <- <- <-; cbn [data_left data_live app].
      * split; [exact I|]. split; [now rewrite firstn_skipn|]. rewrite firstn_length. split; [lia|]. split; [discriminate|]. split; [congruence|discriminate].
      * split; [exact I|]. split; [reflexivity|]. cbn. split; [lia|]. split; [auto|]. split; discriminate.
    + intros H; injection H as <- <- <-. cbn [data_left data_live] in *. split; [exact Hl|]. split; [now rewrite app_assoc, firstn_skipn|].
      rewrite firstn_length. split; [lia|]. split; [discriminate|]. split; [congruence|discriminate].
Qed.

Lemma data_run_spec os : forall d xs out d', data_live d -> data_run os d = (xs, out, d') ->
  data_live d' /\ data_left d = out ++ data_left d'.
Proof.
  induction os as [|o os IH]; intros d xs out d' Hl H; cbn [data_run] in H; [injection H as <- <- <-; auto|].
  destruct (data_step o d) as [[x out1] d1] eqn:E. pose proof (data_step_spec _ _ _ _ _ Hl E) as (Hl1 & R1 & _).
  assert (G : (let '(xs, out', d2) := data_run os d1 in (x :: xs, out1 ++ out', d2)) = (xs, out, d') -> data_live d' /\ data_left d = out ++ data_left d').
  { destruct (data_run os d1) as [[xs2 out2] d2] eqn:F. intros Z; injection Z as <- <- <-. apply IH in F as [Hl2 R2]; [|exact Hl1].
    split; [exact Hl2|]. now rewrite R1, R2, app_assoc. }
  destruct x; try (apply G; exact H). injection H as <- <- <-. auto.
Qed.

Lemma opens_left v f c d : opens v f c d -> data_live d /\ data_left d = c.
Proof.
  intros (t & O & R & F). destruct v as [b|b|p n]; cbn [open_data readable] in *.
  - injection O as <-. injection R as <-. split; [exact I|reflexivity].
  - injection O as <-. injection R as <-. split; [exact I|reflexivity].
  - destruct (f p) as [[|c']|]; try discriminate. injection O as <-. injection R as <-. destruct (F p n eq_refl) as [F1 F2]. split; [exact F2|exact F1].
Qed.

(** Whatever calls are made on the reader, in whatever order and with whatever errors of the file in between,
    the bytes handed out are a prefix of the data, in order; *)
Theorem C67_prefix : forall v f c d os xs out d',
  opens v f c d -> data_run os d = (xs, out, d') -> exists rest, c = out ++ rest.
Proof. intros v f c d os xs out d' O H. apply opens_left in O as [Hl <-]. apply data_run_spec in H as [_ H]; eauto. Qed.

(** and all of them, once a read into a non-empty buffer, or [fill_buf], returns nothing. *)
Theorem C67_complete : forall v f c d os xs out d' o out' d'',
  opens v f c d -> data_run os d = (xs, out, d') ->
  (exists n, o = DRead (S n)) \/ o = DFill -> data_step o d' = (Ok [], out', d'') -> out = c.
Proof.
  intros v f c d os xs out d' o out' d'' O H Ho E. apply opens_left in O as [Hl <-]. apply data_run_spec in H as [Hl' ->]; [|exact Hl].
  pose proof (data_step_spec _ _ _ _ _ Hl' E) as (_ & R & X). destruct Ho as [[n ->]| ->].
  - destruct X as (X & _). destruct (X [] eq_refl) as (<- & _ & Z). rewrite R, Z by (auto; lia). now rewrite !app_nil_r.
  - destruct X as (-> & X & _). destruct (X [] eq_refl) as (_ & Z). rewrite R, Z by auto. now rewrite !app_nil_r.
Qed.

Lemma reads_never_panic os : Forall (fun o => match o with DConsume _ => False | _ => True end) os -> forall d xs out d', data_live d -> data_run os d = (xs, out, d') -> ~ In Panic xs.
Proof.
  induction 1 as [|o os Ho F IH]; intros d xs out d' Hl H; cbn [data_run] in H; [injection H as <- <- <-; auto|].
  destruct (data_step o d) as [[x out1] d1] eqn:E. pose proof (data_step_spec _ _ _ _ _ Hl E) as (Hl1 & _ & X).
  assert (Np : x <> Panic) by (destruct o; [destruct X as (_ & _ & X & _); exact X|destruct X as (_ & _ & X & _); exact X|destruct Ho]).
  destruct (data_run os d1) as [[xs2 out2] d2] eqn:G. specialize (IH _ _ _ _ Hl1 G).
  destruct x; try congruence; injection H as <- <- <-; intros [Z|Z]; auto; discriminate.
Qed.

(** The reader can be had exactly if there is something to read: data in memory, or a file at the path. *)
Theorem C67_open : forall v f t,
  (exists d, open_data v f t = Some d) <->
  ((exists b, v = SText b \/ v = SBytes b) \/ exists p n c, v = SFile p n /\ f p = Some (NFile c)).
Proof.
  intros [b|b|p n] f t; cbn [open_data].
  - split; eauto.
  - split; eauto.
  - destruct (f p) as [[|c]|] eqn:E.
    + split; [intros [d H]; discriminate|]. intros [(b & [H|H])|(q & m & c & H & K)]; try discriminate. injection H as <- _. congruence.
    + split; eauto. intros _. right. eauto.
    + split; [intros [d H]; discriminate|]. intros [(b & [H|H])|(q & m & c & H & K)]; try discriminate. injection H as <- _. congruence.
Qed.

(** Only [consume] can panic, and not if no more is consumed than [fill_buf] has shown. *)
Theorem C67_no_panic : forall v f c d os xs out d1 s n,
  opens v f c d -> data_run os d = (xs, out, d1) ->
  (Forall (fun o => match o with DConsume _ => False | _ => True end) os -> ~ In Panic xs) /\
  forall d2, data_step DFill d1 = (Ok s, [], d2) -> n <= length s ->
  exists d3, data_step (DConsume n) d2 = (Ok [], firstn n s, d3).
Proof.
  intros v f c d os xs out d1 s n O H. split.
  { intros F. apply opens_left in O as [Hl _]. eapply reads_never_panic; eauto. }
  intros d2 E L. apply opens_left in O as [Hl _]. apply data_run_spec in H as [Hl' _]; [|exact Hl].
  cbn [data_step] in E. destruct (data_fill d1) as [y d2'] eqn:F. injection E as -> <-.
  destruct d1 as [b|a t]; cbn [data_fill] in F.
  - injection F as <- <-. cbn [data_step data_consume]. destruct (Nat.leb_spec n (length b)); [eauto|lia].
  - destruct a as [|a0 a].
    + destruct (file_read STD_BUF t) as [[z|k| |] t']; try discriminate. injection F as <- <-. cbn [data_step data_consume]. eauto.
    + injection F as <- <-. cbn [data_step data_consume]. eauto.
Qed.

(** Together with C32: a field saved in full is read back from the saved data. *)
Theorem C67_saved_partial : forall ML trim t b h r s p fuel e v r' e' c d os xs out d' n out' d'' t',
  at_field ML trim t b h r -> live t -> exact_chunks (delimiter b) t [c] -> s_opts s = default_opts ->
  content (delimiter b) (rem r) c -> with_path s p fuel r e = (Full v, r', e') ->
  open_data v (e_fs e') t' = Some d -> stream t' = match e_fs e' p with Some (NFile w) => w | _ => [] end -> live t' ->
  data_run os d = (xs, out, d') -> data_step (DRead (S n)) d' = (Ok [], out', d'') -> out = c.
Proof.
  intros ML trim t b h r s p fuel e v r' e' c d os xs out d' n out' d'' t' Hf Hl Hns Ho Hc H O St Lt R E.
  pose proof (C32_terminated_partial _ _ _ _ _ _ _ _ _ _ _ _ _ _ Hf Hl Hns Ho Hc H) as Rd.
  assert (Op : opens v (e_fs e') c d).
  { exists t'. split; [exact O|]. split; [exact Rd|]. intros q m ->. split; [|exact Lt].
    destruct (at_field_reached _ _ _ _ _ _ Hf) as (R1 & _).
    destruct (C31_file _ _ _ _ _ _ _ _ _ _ _ _ q m R1 Ho H) as [F _]. destruct (F eq_refl) as (w & W & -> & _).
    cbn [readable] in Rd. rewrite W in *. injection Rd as <-. exact St. }
  refine (C67_complete _ _ _ _ _ _ _ _ _ _ _ Op R _ E). left. eauto.
Qed.

Example C67_example :
  let f := fun q => if path_eq_dec q [bs "f"] then Some (NFile (bs "saved data")) else None in
  exists d, opens (SFile [bs "f"] 10) f (bs "saved data") d /\
    data_run [DRead 2; DFill; DConsume 1; DRead (N.to_nat 9000); DRead 3; DConsume 7; DRead (N.to_nat 9000)] d =
      ([Ok (bs "sa"); Ok (bs "v"); Ok []; Err KInterrupted; Ok (bs "ed "); Ok []; Ok []], bs "saved data", DFile [] []).
Proof.
  exists (DFile [] [Chunk (bs "sav"); Fail KInterrupted; Chunk (bs "ed data")]). split; [|vm_compute; reflexivity].
  exists [Chunk (bs "sav"); Fail KInterrupted; Chunk (bs "ed data")]. split; [reflexivity|]. split; [reflexivity|].
  intros p n _. split; [reflexivity|]. intros [Z|[Z|[Z|[]]]]; discriminate.
Qed.

(** ** C68: the extremes of [memory_threshold] *)

(** "If 0, forces fields to save directly to the filesystem": false, an empty field is kept in memory. *)
Theorem C68_zero_refuted : exists t h r s p v r' e',
  at_field toy true t (bs "b") h r /\ live t /\ quiet t /\ s_threshold s = 0%N /\
  with_path s p 100 r (no_failures (fun _ => None)) = (Full v, r', e') /\ is_memory v = true.
Proof.
  exists [Chunk (one_field [])], (mkFH toy (bs "a") None None), (first_field [Chunk (one_field [])]), (mkSaver 5000 256 0 TTry default_opts), [bs "f"].
  do 3 eexists. split; [first_field|]. split; [intros [H|[]]; discriminate|]. split; [intros k [H|[]]; discriminate|].
  split; [reflexivity|]. split; vm_compute; reflexivity.
Qed.

(** True of every other field, for every chunking and every failure: no data is kept in memory, and if the result is
    Full the file has the content. *)
Theorem C68_zero_partial : forall ML trim t b r s p fuel e x r' e' v,
  reached ML trim t b r -> s_threshold s = 0%N -> with_path s p fuel r e = (x, r', e') ->
  (x = Full v \/ exists why, x = Part v why) -> is_memory v = true -> saved_size v = 0%N.
Proof.
  intros ML trim t b r s p fuel e x r' e' v Hr H0 H Hv Hm.
  assert (L : (N.min (s_size_limit s) (s_threshold s) < U64MAX)%N) by (rewrite H0; unfold U64MAX; lia).
  pose proof (C35_bound _ _ _ _ _ _ _ _ _ _ _ _ _ Hr L H Hv Hm) as B. rewrite H0 in B. lia.
Qed.

Theorem C68_zero_file_partial : forall ML trim t b h r s p fuel e v r' e' c,
  at_field ML trim t b h r -> live t -> exact_chunks (delimiter b) t [c] -> s_opts s = default_opts ->
  content (delimiter b) (rem r) c -> c <> [] -> s_threshold s = 0%N ->
  with_path s p fuel r e = (Full v, r', e') ->
  exists n, v = SFile p n /\ e_fs e' p = Some (NFile c).
Proof.
  intros ML trim t b h r s p fuel e v r' e' c Hf Hl Hns Ho Hc Hne H0 H.
  pose proof (C32_terminated_partial _ _ _ _ _ _ _ _ _ _ _ _ _ _ Hf Hl Hns Ho Hc H) as Rd.
  destruct (at_field_reached _ _ _ _ _ _ Hf) as (R1 & _).
  assert (Lc : length c <> 0) by (destruct c; [congruence|discriminate]).
  destruct v as [w|w|q n]; cbn [readable] in Rd.
  - injection Rd as ->. pose proof (C68_zero_partial _ _ _ _ _ _ _ _ _ _ _ _ _ R1 H0 H (or_introl eq_refl) eq_refl) as Z. cbn in Z. lia.
  - injection Rd as ->. pose proof (C68_zero_partial _ _ _ _ _ _ _ _ _ _ _ _ _ R1 H0 H (or_introl eq_refl) eq_refl) as Z. cbn in Z. lia.
  - destruct (C31_file _ _ _ _ _ _ _ _ _ _ _ _ q n R1 Ho H) as [F _]. destruct (F eq_refl) as (w & W & -> & _).
    rewrite W in Rd. injection Rd as ->. eauto.
Qed.

(** "If u64::MAX, effectively forces fields to always save to memory": false, the size limit is taken for a threshold (C34);
    a field above the limit is written to a file before the limit is reported. *)
Theorem C68_max_refuted : exists t h r s p e v r' e',
  at_field toy true t (bs "b") h r /\ live t /\ quiet t /\ s_threshold s = U64MAX /\
  with_path s p 100 r e = (Part v RSize, r', e') /\ is_memory v = false /\ e_fs e p = None /\ e_fs e' p <> None.
Proof.
  exists [Chunk (one_field (repeat 120%N 20))], (mkFH toy (bs "a") None None), (first_field [Chunk (one_field (repeat 120%N 20))]),
    (mkSaver 10 256 U64MAX TTry default_opts), [bs "f"], (no_failures (fun _ => None)).
  do 3 eexists. split; [first_field|]. split; [intros [H|[]]; discriminate|]. split; [intros k [H|[]]; discriminate|].
  split; [reflexivity|]. split; [vm_compute; reflexivity|]. split; [reflexivity|]. split; vm_compute; [reflexivity|discriminate].
Qed.

(** True if the field is within the size limit, or there is none, and shorter than 2^64 bytes: then nothing is ever written. *)
Theorem C68_max_partial : forall ML trim t b r s p fuel e x r' e',
  reached ML trim t b r -> s_threshold s = U64MAX -> with_path s p fuel r e = (x, r', e') ->
  (s_size_limit s = U64MAX /\ (N.of_nat (length (rem r)) <= U64MAX)%N -> e' = e) /\
  (forall h c, at_field ML trim t b h r -> exact_chunks (delimiter b) t [c] -> content (delimiter b) (rem r) c ->
     (N.of_nat (length c) <= s_size_limit s <= U64MAX)%N ->
     e' = e /\ (forall v, x = Full v -> is_memory v = true) /\ (forall v why, x = Part v why -> is_memory v = true /\ why <> RSize)).
Proof.
  intros ML trim t b r s p fuel e x r' e' Hr Ht H. split.
  - intros [Hs L]. eapply C35_small_body; [exact Hr| |exact H]. rewrite Hs, Ht. lia.
  - intros h c Hf Hns Hc L. eapply C35_fits_partial; [exact Hf|exact Hns|exact Hc| |exact H]. rewrite Ht. lia.
Qed.

Example C68_example :
  let r := first_field [Chunk (one_field (repeat 120%N 20))] in
  (exists r' e', with_path (mkSaver 5000 256 0 TTry default_opts) [bs "f"] 100 r (no_failures (fun _ => None)) = (Full (SFile [bs "f"] 20), r', e')) /\
  (exists r' e', with_path (mkSaver 5000 256 U64MAX TTry default_opts) [bs "f"] (N.to_nat 6000) r (no_failures (fun _ => None)) = (Full (SText (repeat 120%N 20)), r', e')).
Proof. split; do 2 eexists; vm_compute; reflexivity. Qed.
