(** Property theorems about the finite buffer (C88). *)

From Verif Require Import Bytes BytesProofs Spec Io Boundary BoundaryProofs Utf8 Httparse Field FieldProofs
  ContentProofs DataProofs ShortProofs EntryProofs ReaderProofs Drive DriveProofs ReachProofs Rand Fs Save SaveProofs PhaseProofs SaveFacts
  TextProofs Toy PropsReader PropsSave PropsAny PropsAnyway Buffer.

(** ** C88 *)

(** Specification: [cuts lo t t'] if [t'] is [t] with some chunks delivered in several non-empty pieces, of which all but
    the last have at least [lo] bytes. *)
Inductive cuts (lo : nat) : transport -> transport -> Prop :=
| cuts_nil : cuts lo [] []
| cuts_fail k t t' : cuts lo t t' -> cuts lo (Fail k :: t) (Fail k :: t')
| cuts_chunk c t t' : cuts lo t t' -> cuts lo (Chunk c :: t) (Chunk c :: t')
| cuts_piece c1 c2 t t' : c1 <> [] -> lo <= length c1 -> c2 <> [] -> cuts lo (Chunk c2 :: t) t' -> cuts lo (Chunk (c1 ++ c2) :: t) (Chunk c1 :: t').

Section Cuts.
Context (lo : nat).

Lemma cuts_refl t : cuts lo t t.
Proof. induction t as [|[c|k] t IH]; constructor; auto. Qed.

Lemma cuts_stream t t' : cuts lo t t' -> stream t' = stream t.
Proof. induction 1; cbn [stream] in *; try congruence. rewrite IHcuts. now rewrite app_assoc. Qed.

Lemma cuts_length t t' : cuts lo t t' -> length t' <= length t + length (stream t).
Proof.
  induction 1; cbn [stream length] in *; try rewrite ?app_length in *; try lia.
  destruct c1; [congruence|]. cbn [length]. lia.
Qed.

Lemma cuts_in t t' e : cuts lo t t' -> In e t' -> In e t \/ exists c, e = Chunk c /\ c <> [].
Proof.
  induction 1 as [|k t t' C IH|c t t' C IH|c1 c2 t t' N1 Nl N2 C IH]; cbn [In]; intros H; auto.
  - destruct H as [<-|H]; auto. destruct (IH H); auto.
  - destruct H as [<-|H]; auto. destruct (IH H); auto.
  - destruct H as [<-|H]; [right; eauto|]. destruct (IH H) as [[<-|I]|I]; auto. right. eauto.
Qed.

Lemma cuts_live t t' : cuts lo t t' -> live t -> live t'.
Proof.
  intros C L H. destruct (cuts_in _ _ _ C H) as [H'|(c & E & N)]; auto. congruence.
Qed.

Lemma cuts_quiet t t' : cuts lo t t' -> quiet t -> quiet t'.
Proof.
  intros C Q k H. destruct (cuts_in _ _ _ C H) as [H'|(c & E & N)]; [exact (Q _ H')|discriminate].
Qed.

Lemma cuts_small t t' : cuts lo t t' -> (forall c, In (Chunk c) t -> length c <= lo) -> t' = t.
Proof.
  induction 1 as [|k t t' C IH|c t t' C IH|c1 c2 t t' N1 Nl N2 C IH]; intros H; auto.
  - f_equal. apply IH. intros c Hc. apply H. now right.
  - f_equal. apply IH. intros c' Hc. apply H. now right.
  - exfalso. specialize (H _ (or_introl eq_refl)). rewrite app_length in H. destruct c2; [congruence|]. cbn [length] in H. lia.
Qed.

(** The reader without its room, over another transport. *)
Definition over (f : freader) (t : transport) : breader := mkBR (buf (fr f)) t (minb (fr f)) (bnd (fr f)) (idx (fr f)) (st (fr f)).

Lemma over_src f : over f (src (fr f)) = fr f.
Proof. unfold over. now destruct (fr f). Qed.

Lemma ffill_sim fuel : forall min m b t e b1 t1 m1,
  lo <= min -> 2 * min <= cap m -> off m + length b <= cap m -> ffill fuel min m b t = Some (e, b1, t1, m1) ->
  cap m1 = cap m /\ off m1 + length b1 <= cap m1 /\
  exists p, forall t1', cuts lo t1 t1' -> cuts lo t (p ++ t1') /\ fill_buf min b (p ++ t1') = (e, b1, t1').
Proof.
  induction fuel as [|fuel IH]; intros min m b t e b1 t1 m1 H0 H1 H2; cbn [ffill]; [discriminate|].
  destruct (min <=? length b) eqn:El.
  - unfold before_read. rewrite El. cbn [andb]. intros H; injection H as <- <- <- <-. repeat split; auto.
    exists []. intros t1' C. split; auto. apply fill_full. lia.
  - assert (Gm : exists m0, before_read min m b = (true, m0) /\ cap m0 = cap m /\ off m0 + length b <= cap m0 /\ 0 < usable_space m0 b /\ lo <= usable_space m0 b).
    { unfold before_read. rewrite El. unfold usable_space, free_space in *.
      destruct ((cap m - (off m + length b) <? min) && (min <=? cap m - length b)) eqn:E1.
      - exists (mkRoom (cap m) 0). cbn [cap off]. repeat split; lia.
      - destruct (cap m <? min) eqn:E2; [lia|]. exists m. repeat split; auto; lia. }
    destruct Gm as (m0 & -> & Ec & Hm & Hu & Hlo). cbn [andb]. destruct (0 <? usable_space m0 b) eqn:Eu; [|lia].
    destruct t as [|[c|k] t]; cbn [read_some].
    + intros H; injection H as <- <- <- <-. repeat split; auto. exists []. intros t1' C. split; auto.
      inversion C; subst. cbn [app fill_buf]. rewrite El. reflexivity.
    + destruct (length c <=? usable_space m0 b) eqn:Ef.
      * destruct c as [|c0 c].
        -- intros H; injection H as <- <- <- <-. repeat split; auto. exists [Chunk []]. intros t1' C. cbn [app]. split; [now constructor|].
           cbn [fill_buf]. rewrite El. reflexivity.
        -- intros H. apply IH in H; [|lia|lia|unfold usable_space in Ef; rewrite app_length; lia].
           destruct H as (E1 & E2 & p & Hp). repeat split; [lia|auto|]. exists (Chunk (c0 :: c) :: p). intros t1' C.
           destruct (Hp _ C) as (A & B). cbn [app]. split; [now constructor|]. cbn [fill_buf]. rewrite El. exact B.
      * assert (N1 : firstn (usable_space m0 b) c <> []).
        { intros Z. apply (f_equal (@length _)) in Z. rewrite firstn_length in Z. cbn in Z. lia. }
        assert (N2 : skipn (usable_space m0 b) c <> []).
        { intros Z. apply (f_equal (@length _)) in Z. rewrite skipn_length in Z. cbn in Z. lia. }
        assert (Lc : length (firstn (usable_space m0 b) c) = usable_space m0 b) by (rewrite firstn_length; lia).
        pose proof (firstn_skipn (usable_space m0 b) c) as Ecat.
        destruct (firstn (usable_space m0 b) c) as [|c0 c1]; [congruence|]. intros H.
        apply IH in H; [|lia|lia|unfold usable_space in Lc; rewrite app_length; lia].
        destruct H as (E1 & E2 & p & Hp). repeat split; [lia|auto|]. exists (Chunk (c0 :: c1) :: p). intros t1' C.
        destruct (Hp _ C) as (A & B). cbn [app]. split; [rewrite <- Ecat; apply cuts_piece; auto; clear - Lc Hlo; lia|]. cbn [fill_buf]. rewrite El. exact B.
    + intros H; injection H as <- <- <- <-. repeat split; auto. exists [Fail k]. intros t1' C. cbn [app]. split; [now constructor|].
      cbn [fill_buf]. rewrite El. reflexivity.
Qed.

Lemma ffill_total fuel : forall min m b t, length t + length (stream t) < fuel -> ffill fuel min m b t <> None.
Proof.
  induction fuel as [|fuel IH]; intros min m b t H; [lia|]. cbn [ffill]. destruct (before_read min m b) as [go m1].
  destruct (go && (0 <? usable_space m1 b)) eqn:G; [|discriminate]. apply andb_prop in G as [_ G].
  destruct t as [|[c|k] t]; cbn [read_some]; try discriminate. cbn [length stream] in H. rewrite app_length in H.
  destruct (length c <=? usable_space m1 b) eqn:E.
  - destruct c as [|c0 c]; [discriminate|]. apply IH. cbn [length] in H. lia.
  - destruct (firstn (usable_space m1 b) c) as [|c0 c1] eqn:F; [discriminate|]. apply IH. cbn [length stream].
    rewrite app_length, skipn_length. lia.
Qed.

Section Capacity.
Context (c : nat).

(** The buffer has [c] bytes; the data fits in; and the buffer holds twice what the reader asks for, now and after every [read_entry];
    the reader asks for at least [lo] bytes. *)
Definition roomy (f : freader) : Prop :=
  cap (fm f) = c /\ (2 * Nat.max (minb (fr f)) (Nat.max (length (bnd (fr f)) * 2) MIN_BUF_SIZE) <= c /\ lo <= Nat.min (minb (fr f)) MIN_BUF_SIZE) /\
  off (fm f) + length (buf (fr f)) <= cap (fm f).

(** [sim fo o]: the call [fo] of the finite reader is the call [o] of the model's reader over a suitably cut transport. *)
Definition sim {X} (fo : freader -> X * freader) (o : breader -> X * breader) : Prop :=
  forall f x f1, roomy f -> fo f = (x, f1) ->
  roomy f1 /\ exists p, forall t1, cuts lo (src (fr f1)) t1 -> cuts lo (src (fr f)) (p ++ t1) /\ o (over f (p ++ t1)) = (x, over f1 t1).

Lemma fsource_sim f e f1 : roomy f -> fsource f = Some (e, f1) ->
  roomy f1 /\ (minb (fr f1) = minb (fr f) /\ bnd (fr f1) = bnd (fr f) /\ idx (fr f1) = idx (fr f) /\ st (fr f1) = st (fr f)) /\
  exists p, forall t1, cuts lo (src (fr f1)) t1 ->
    cuts lo (src (fr f)) (p ++ t1) /\ fill_buf (minb (fr f)) (buf (fr f)) (p ++ t1) = (e, buf (fr f1), t1).
Proof.
  intros (Rc & R1 & R2). unfold fsource. destruct (ffill _ _ _ _ _) as [[[[e0 b] t] m]|] eqn:E; [|discriminate].
  intros H; injection H as <- <-. apply ffill_sim in E; [|lia|lia|lia]. destruct E as (E1 & E2 & p & Hp).
  unfold roomy. cbn [fr fm minb bnd idx st buf src set_source]. split; [split; [lia|split; [lia|auto]]|]. split; [auto|]. exists p. auto.
Qed.

Lemma fsource_total f : exists e f1, fsource f = Some (e, f1).
Proof.
  unfold fsource. destruct (ffill _ _ _ _ _) as [[[[e0 b] t] m]|] eqn:E; eauto. exfalso. revert E. apply ffill_total. lia.
Qed.

Lemma sim_rtb : sim fread_to_boundary read_to_boundary.
Proof.
  intros f x f1 R. unfold fread_to_boundary. destruct (fsource_total f) as (e & f0 & E). rewrite E.
  destruct (fsource_sim _ _ _ R E) as (R0 & (M & B & Hi & Hs) & p & Hp). unfold read_to_boundary. cbn [over minb buf src st idx bnd].
  destruct e as [k|].
  - intros H; injection H as <- <-. split; auto. exists p. intros t1 C. destruct (Hp _ C) as (A & ->). split; auto.
    unfold over, set_source. cbn [minb bnd idx st]. now rewrite ?M, ?B, ?Hi, ?Es, <- ?Hs.
  - rewrite Hi, B. destruct (st (fr f0)) eqn:Es; rewrite <- Hs.
    + destruct (search_step (buf (fr f0)) (bnd (fr f)) (idx (fr f))) as [[i s]|] eqn:Ess; intros H; injection H as <- <-.
      * split; [exact R0|]. exists p. intros t1 C. destruct (Hp _ C) as (A & ->). split; auto. rewrite Ess.
        unfold over, set_source, set_idx_st. cbn [fr minb bnd idx st buf src]. now rewrite ?M, ?B, ?Hi, ?Es, <- ?Hs.
      * split; auto. exists p. intros t1 C. destruct (Hp _ C) as (A & ->). split; auto. rewrite Ess.
        unfold over, set_source. cbn [minb bnd idx st]. now rewrite ?M, ?B, ?Hi, ?Es, <- ?Hs.
    + destruct (length (buf (fr f0)) <? idx (fr f)) eqn:El; intros H; injection H as <- <-; (split; auto; exists p; intros t1 C;
        destruct (Hp _ C) as (A & ->); split; auto; rewrite El; unfold over, set_source; cbn [minb bnd idx st]; now rewrite ?M, ?B, ?Hi, ?Es, <- ?Hs).
    + destruct (length (buf (fr f0)) <? idx (fr f)) eqn:El; intros H; injection H as <- <-; (split; auto; exists p; intros t1 C;
        destruct (Hp _ C) as (A & ->); split; auto; rewrite El; unfold over, set_source; cbn [minb bnd idx st]; now rewrite ?M, ?B, ?Hi, ?Es, <- ?Hs).
Qed.

Lemma roomy_consume n f : roomy f -> roomy (fconsume n f).
Proof.
  intros (A0 & A & B). unfold roomy, fconsume, consume, moved_on. cbn [fr fm minb bnd buf cap off]. split; auto. split; auto.
  rewrite skipn_length. destruct (length (buf (fr f)) <=? _) eqn:E; lia.
Qed.

Lemma over_consume n f t : over (fconsume n f) t = consume n (over f t).
Proof. reflexivity. Qed.

Lemma src_consume n f : src (fr (fconsume n f)) = src (fr f).
Proof. reflexivity. Qed.

Lemma sim_read n : sim (fread n) (read n).
Proof.
  intros f x f1 R. unfold fread, read. destruct (fread_to_boundary f) as [y f0] eqn:E.
  destruct (sim_rtb _ _ _ R E) as (R0 & p & Hp).
  destruct y as [b|e| |]; intros H; injection H as <- <-; (split; [auto using roomy_consume|]; exists p; intros t1 C;
    rewrite ?src_consume in C; destruct (Hp _ C) as (A & ->); split; auto).
Qed.

Lemma sim_skip fuel : sim (fskip_to_boundary fuel) (skip_to_boundary fuel).
Proof.
  induction fuel as [|fuel IH]; intros f x f1 R; cbn [fskip_to_boundary].
  - destruct (st (fr f)) eqn:Es; intros H; injection H as <- <-; (split; auto; exists []; intros t1 C; split; auto;
      cbn [app skip_to_boundary over st]; now rewrite Es).
  - destruct (st (fr f)) eqn:Es.
    + destruct (fread_to_boundary f) as [y f0] eqn:E. destruct (sim_rtb _ _ _ R E) as (R0 & p & Hp).
      assert (Un : forall t, skip_to_boundary (S fuel) (over f t) = match read_to_boundary (over f t) with
        | (Ok b, r1) => if (length b =? 0) && bstate_eqb (st r1) Searching then (Err EEndOfBody, r1) else skip_to_boundary fuel (consume (length b) r1)
        | (Err e, r1) => (Err e, r1) | (Panic, r1) => (Panic, r1) | (OutOfFuel, r1) => (OutOfFuel, r1) end).
      { intros t. cbn [skip_to_boundary over st]. rewrite Es. reflexivity. }
      destruct y as [b|e| |].
      * destruct ((length b =? 0) && bstate_eqb (st (fr f0)) Searching) eqn:G.
        -- intros H; injection H as <- <-. split; auto. exists p. intros t1 C. rewrite Un. destruct (Hp _ C) as (A & ->). split; auto.
           cbn [over st]. rewrite G. reflexivity.
        -- intros H. apply (IH _ _ _ (roomy_consume (length b) _ R0)) in H as (R1 & q & Hq). split; auto. exists (p ++ q). intros t1 C.
           destruct (Hq _ C) as (A & B). rewrite src_consume in A. destruct (Hp _ A) as (A1 & B1). rewrite Un, <- app_assoc, B1. split; auto.
           cbn [over st]. rewrite G. exact B.
      * intros H; injection H as <- <-. split; auto. exists p. intros t1 C. rewrite Un. destruct (Hp _ C) as (A & ->). split; auto.
      * intros H; injection H as <- <-. split; auto. exists p. intros t1 C. rewrite Un. destruct (Hp _ C) as (A & ->). split; auto.
      * intros H; injection H as <- <-. split; auto. exists p. intros t1 C. rewrite Un. destruct (Hp _ C) as (A & ->). split; auto.
    + intros H; injection H as <- <-; (split; auto; exists []; intros t1 C; split; auto; cbn [app skip_to_boundary over st]; now rewrite Es).
    + intros H; injection H as <- <-; (split; auto; exists []; intros t1 C; split; auto; cbn [app skip_to_boundary over st]; now rewrite Es).
Qed.

Lemma sim_verify : sim fverify_boundary verify_boundary.
Proof.
  intros f x f1 R. unfold fverify_boundary. destruct (fsource_total f) as (e & f0 & E). rewrite E.
  destruct (fsource_sim _ _ _ R E) as (R0 & (M & B & Hi & Hs) & p & Hp). unfold verify_boundary. cbn [over minb buf src st idx bnd].
  assert (Ov : forall t, over f0 t = mkBR (buf (fr f0)) t (minb (fr f)) (bnd (fr f)) (idx (fr f)) (st (fr f))).
  { intros t. unfold over. now rewrite M, B, Hi, Hs. }
  destruct e as [k|].
  - intros H; injection H as <- <-. split; auto. exists p. intros t1 C. destruct (Hp _ C) as (A & ->). now rewrite Ov.
  - rewrite Hi, B. intros H.
    destruct (length (buf (fr f0)) <? idx (fr f)) eqn:E1.
    { injection H as <- <-. split; auto. exists p. intros t1 C. destruct (Hp _ C) as (A & ->). rewrite E1, Ov. auto. }
    set (lead := if starts_with (skipn (idx (fr f)) (buf (fr f0))) CRLF then 2 else 0) in *.
    destruct (length (skipn (idx (fr f)) (buf (fr f0))) <? lead + length (bnd (fr f))) eqn:E2.
    { injection H as <- <-. split; auto. exists p. intros t1 C. destruct (Hp _ C) as (A & ->). rewrite E1. fold lead. rewrite E2, Ov. auto. }
    destruct (negb (beq (bnd (fr f)) (slice lead (lead + length (bnd (fr f))) (skipn (idx (fr f)) (buf (fr f0)))))) eqn:E3.
    { injection H as <- <-. split; auto. exists p. intros t1 C. destruct (Hp _ C) as (A & ->). rewrite E1. fold lead. rewrite E2, E3, Ov. auto. }
    set (amt := idx (fr f) + length (bnd (fr f)) + lead + 2) in *.
    destruct (length (buf (fr f0)) <? amt) eqn:E4.
    { injection H as <- <-. split; auto. exists p. intros t1 C. destruct (Hp _ C) as (A & ->). rewrite E1. fold lead. rewrite E2, E3.
      fold amt. rewrite E4, Ov. auto. }
    destruct (slice (amt - 2) amt (buf (fr f0))) as [|a [|b [|]]] eqn:E5;
      try (injection H as <- <-; split; auto; exists p; intros t1 C; destruct (Hp _ C) as (A & ->); rewrite E1; fold lead; rewrite E2, E3;
           fold amt; rewrite E4, E5, Ov; auto).
    destruct (if (a =? CR)%N && (b =? LF)%N then Some Searching else if (a =? DASH)%N && (b =? DASH)%N then Some AtEnd else None) as [s|] eqn:E6.
    + injection H as <- <-. split.
      { destruct R0 as (K0 & K1 & K2). unfold roomy, moved_on. cbn [fr fm minb bnd buf cap off]. split; [exact K0|]. split; [rewrite <- ?B; exact K1|].
        rewrite skipn_length. destruct (length (buf (fr f0)) <=? amt) eqn:E7; lia. }
      exists p. cbn [fr src]. intros t1 C. destruct (Hp _ C) as (A & ->). rewrite E1. fold lead. rewrite E2, E3. fold amt. rewrite E4, E5, E6.
      split; auto. unfold over. cbn [fr minb bnd buf idx st src]. now rewrite ?M, ?B.
    + injection H as <- <-. split; [exact R0|]. exists p. cbn [fr src set_idx_st]. intros t1 C. destruct (Hp _ C) as (A & ->). rewrite E1. fold lead. rewrite E2, E3. fold amt. rewrite E4, E5, E6.
      split; auto. unfold over, set_idx_st, set_source. cbn [fr minb bnd buf idx st src]. now rewrite ?M, ?B, ?Hi.
Qed.

Lemma sim_boundary : sim fconsume_boundary consume_boundary.
Proof.
  intros f x f1 R. unfold fconsume_boundary.
  assert (Go : match fskip_to_boundary (length (buf (fr f)) + length (stream (src (fr f))) + 2) f with
      | (Ok _, f1) => fverify_boundary f1 | (Err e, f1) => (Err e, f1) | (Panic, f1) => (Panic, f1) | (OutOfFuel, f1) => (OutOfFuel, f1) end = (x, f1) ->
    roomy f1 /\ exists p, forall t1, cuts lo (src (fr f1)) t1 -> cuts lo (src (fr f)) (p ++ t1) /\
      match skip_to_boundary (length (buf (fr f)) + length (stream (p ++ t1)) + 2) (over f (p ++ t1)) with
      | (Ok _, r1) => verify_boundary r1 | (Err e, r1) => (Err e, r1) | (Panic, r1) => (Panic, r1) | (OutOfFuel, r1) => (OutOfFuel, r1) end = (x, over f1 t1)).
  { destruct (fskip_to_boundary _ f) as [y f0] eqn:E. destruct (sim_skip _ _ _ _ R E) as (R0 & p & Hp). destruct y as [u|e| |].
    - intros H. destruct (sim_verify _ _ _ R0 H) as (R1 & q & Hq). split; auto. exists (p ++ q). intros t1 C.
      destruct (Hq _ C) as (A & B). destruct (Hp _ A) as (A1 & B1). rewrite <- app_assoc. rewrite (cuts_stream _ _ A1), B1. auto.
    - intros H; injection H as <- <-. split; auto. exists p. intros t1 C. destruct (Hp _ C) as (A1 & B1). rewrite (cuts_stream _ _ A1), B1. auto.
    - intros H; injection H as <- <-. split; auto. exists p. intros t1 C. destruct (Hp _ C) as (A1 & B1). rewrite (cuts_stream _ _ A1), B1. auto.
    - intros H; injection H as <- <-. split; auto. exists p. intros t1 C. destruct (Hp _ C) as (A1 & B1). rewrite (cuts_stream _ _ A1), B1. auto. }
  unfold consume_boundary. cbn [over st buf src].
  destruct (st (fr f)) eqn:Es; [exact Go|exact Go|].
  intros H; injection H as <- <-. split; auto. exists []. auto.
Qed.

Lemma sim_with_headers trim fuel : forall last, sim (fwith_headers trim fuel last) (with_headers trim fuel last).
Proof.
  induction fuel as [|fuel IH]; intros last f x f1 R; cbn [fwith_headers with_headers].
  { intros H; injection H as <- <-. split; auto. exists []. auto. }
  destruct (fread_to_boundary f) as [y f0] eqn:E. destruct (sim_rtb _ _ _ R E) as (R0 & p & Hp).
  destruct y as [b|e| |]; try (intros H; injection H as <- <-; split; auto; exists p; intros t1 C; destruct (Hp _ C) as (A & ->); auto; fail).
  destruct (length b =? last) eqn:El; [intros H; injection H as <- <-; split; auto; exists p; intros t1 C; destruct (Hp _ C) as (A & ->); rewrite El; auto|].
  destruct (parse_headers trim HEADER_LEN b) as [|e|hs rest] eqn:Ep.
  - intros H. destruct (IH _ _ _ _ R0 H) as (R1 & q & Hq). split; auto. exists (p ++ q). intros t1 C.
    destruct (Hq _ C) as (A & B). destruct (Hp _ A) as (A1 & B1). rewrite <- app_assoc, B1, El, Ep. auto.
  - intros H; injection H as <- <-; split; auto; exists p; intros t1 C; destruct (Hp _ C) as (A & ->); rewrite El, Ep; auto.
  - destruct (copy_headers hs) eqn:Ec; intros H; injection H as <- <-; (split; [auto using roomy_consume|]; exists p; intros t1 C;
      rewrite ?src_consume in C; destruct (Hp _ C) as (A & ->); rewrite El, Ep, Ec; auto).
Qed.

Lemma inv_over f t : cuts lo (src (fr f)) t -> inv (fr f) -> inv (over f t).
Proof. intros C. unfold inv, rem. cbn [over buf src idx st bnd minb]. rewrite (cuts_stream _ _ C). auto. Qed.

Section WithMime.
Context (ML : mime_lib).

(** As [sim], for calls that need the invariant of the reader. *)
Definition sim_inv {X} (fo : freader -> X * freader) (o : breader -> X * breader) : Prop :=
  forall f x f1, roomy f -> inv (fr f) -> fo f = (x, f1) ->
  roomy f1 /\ exists p, forall t1, cuts lo (src (fr f1)) t1 -> cuts lo (src (fr f)) (p ++ t1) /\ o (over f (p ++ t1)) = (x, over f1 t1).

Lemma sim_read_headers trim : sim_inv (fread_headers ML trim) (read_headers ML trim).
Proof.
  intros f x f1 R Hi. unfold fread_headers, read_headers. destruct (fwith_headers _ _ _ f) as [y f0] eqn:E.
  destruct (sim_with_headers _ _ _ _ _ _ R E) as (R0 & p & Hp).
  assert (Q : forall t1, cuts lo (src (fr f0)) t1 -> cuts lo (src (fr f)) (p ++ t1) /\
     with_headers trim (length (src (over f (p ++ t1))) + 3) 0 (over f (p ++ t1)) = (y, over f0 t1)).
  { intros t1 C. destruct (Hp _ C) as (A & B). split; auto. cbn [over src]. fold (over f (p ++ t1)).
    destruct (with_headers trim (length (p ++ t1) + 3) 0 (over f (p ++ t1))) as [y' r'] eqn:E'.
    assert (N : y' <> OutOfFuel).
    { intros ->. eapply with_headers_fuel in E'; eauto; [now apply inv_over|]. left. cbn [over src]. lia. }
    pose proof (cuts_length _ _ A). apply (with_headers_fuel_le _ _ (length (src (fr f)) + length (stream (src (fr f))) + 3)) in E'; auto; [|lia].
    rewrite E' in B. exact B. }
  destruct y as [hs|e| |]; intros H; injection H as <- <-; (split; auto; exists p; intros t1 C; destruct (Q _ C) as (A & ->); auto).
Qed.

Lemma roomy_set_min n f : roomy f -> 2 * Nat.max (length (bnd (fr f)) * 2) n <= c -> lo <= n -> roomy (fset_min n f).
Proof. intros (A0 & A & B) H. unfold roomy, fset_min, set_min_buf_size. cbn [fr fm minb bnd buf]. split; auto. split; [lia|auto]. Qed.

Lemma sim_read_entry trim : sim_inv (fread_entry ML trim) (read_entry ML trim).
Proof.
  intros f x f1 R Hi. unfold fread_entry, read_entry.
  assert (R' : roomy (fset_min MIN_BUF_SIZE f)) by (apply roomy_set_min; auto; destruct R; lia).
  destruct (fconsume_boundary (fset_min MIN_BUF_SIZE f)) as [y f0] eqn:E.
  destruct (sim_boundary _ _ _ R' E) as (R0 & p & Hp).
  assert (Q : forall t, over (fset_min MIN_BUF_SIZE f) t = set_min_buf_size MIN_BUF_SIZE (over f t)) by reflexivity.
  change (src (fr (fset_min MIN_BUF_SIZE f))) with (src (fr f)) in Hp.
  assert (I0 : inv (fr f0)).
  { destruct (Hp _ (cuts_refl _)) as (A & B). rewrite over_src, Q in B.
    apply consume_boundary_spec in B; [apply B|]. pose proof (inv_over _ _ A Hi) as J. exact J. }
  destruct y as [[|]|e| |]; try (intros H; injection H as <- <-; split; auto; exists p; intros t1 C; destruct (Hp _ C) as (A & B); rewrite <- Q, B; auto; fail).
  destruct (fread_headers ML trim f0) as [z f2] eqn:E2. destruct (sim_read_headers _ _ _ _ R0 I0 E2) as (R2 & q & Hq).
  destruct z as [h|e| |]; intros H; injection H as <- <-; (split; auto; exists (p ++ q); intros t1 C; destruct (Hq _ C) as (A & B); destruct (Hp _ A) as (A1 & B1);
    rewrite <- app_assoc, <- Q, B1, B; auto).
Qed.

(** The calls of a user. *)
Lemma sim_inv_of {X} (fo : freader -> X * freader) o : sim fo o -> sim_inv fo o.
Proof. intros H f x f1 R _ E. exact (H _ _ _ R E). Qed.

Lemma sim_step trim o : forall f x f1, roomy f -> inv (fr f) -> (forall n, o = OSetMin n -> lo <= n /\ 2 * n <= c) ->
  fstep ML trim o f = (x, f1) ->
  roomy f1 /\ exists p, forall t1, cuts lo (src (fr f1)) t1 -> cuts lo (src (fr f)) (p ++ t1) /\ step ML trim o (over f (p ++ t1)) = (x, over f1 t1).
Proof.
  intros f x f1 R Hi Hm. destruct o as [n| |n|n|]; cbn [fstep step].
  - destruct (fread n f) as [y f0] eqn:E. intros H; injection H as <- <-. destruct (sim_read _ _ _ _ R E) as (R0 & p & Hp). split; auto.
    exists p. intros t1 C. destruct (Hp _ C) as (A & ->). auto.
  - destruct (fread_to_boundary f) as [y f0] eqn:E. intros H; injection H as <- <-. destruct (sim_rtb _ _ _ R E) as (R0 & p & Hp). split; auto.
    exists p. intros t1 C. destruct (Hp _ C) as (A & ->). auto.
  - intros H; injection H as <- <-. split; [now apply roomy_consume|]. exists []. intros t1 C. auto.
  - intros H; injection H as <- <-. split; [apply roomy_set_min; auto; specialize (Hm _ eq_refl); destruct R; lia|]. exists []. intros t1 C. auto.
  - destruct (fread_entry ML trim f) as [y f0] eqn:E. intros H; injection H as <- <-. destruct (sim_read_entry _ _ _ _ R Hi E) as (R0 & p & Hp). split; auto.
    exists p. intros t1 C. destruct (Hp _ C) as (A & ->). auto.
Qed.

Lemma sim_run trim os : forall f x f1, roomy f -> inv (fr f) -> (forall n, In (OSetMin n) os -> lo <= n /\ 2 * n <= c) ->
  frun ML trim os f = (x, f1) ->
  roomy f1 /\ inv (fr f1) /\ exists p, forall t1, cuts lo (src (fr f1)) t1 -> cuts lo (src (fr f)) (p ++ t1) /\ run ML trim os (over f (p ++ t1)) = (x, over f1 t1).
Proof.
  induction os as [|o os IH]; intros f x f1 R Hi Hm; cbn [frun run].
  { intros H; injection H as <- <-. split; auto; split; auto. exists []. auto. }
  destruct (fstep ML trim o f) as [y f0] eqn:E. destruct (frun ML trim os f0) as [ys f2] eqn:E2. intros H; injection H as <- <-.
  destruct (sim_step _ _ _ _ _ R Hi (fun n Q => Hm n (or_introl Q)) E) as (R0 & p & Hp).
  assert (I0 : inv (fr f0)).
  { destruct (Hp _ (cuts_refl _)) as (A & B). rewrite over_src in B. apply (step_inv ML) in B; [apply B|now apply inv_over]. }
  destruct (IH _ _ _ R0 I0 (fun n Q => Hm n (or_intror Q)) E2) as (R2 & I2 & q & Hq). split; auto. split; auto. exists (p ++ q). intros t1 C.
  destruct (Hq _ C) as (A & B). destruct (Hp _ A) as (A1 & B1). rewrite <- app_assoc, B1, B. auto.
Qed.

Lemma sim_drain sz fuel : forall k, sim (fdrain fuel sz k) (drain fuel sz k).
Proof.
  induction fuel as [|fuel IH]; intros k f x f1 R; cbn [fdrain drain].
  { intros H; injection H as <- <-. split; auto. exists []. auto. }
  destruct (fread (sz k) f) as [y f0] eqn:E. destruct (sim_read _ _ _ _ R E) as (R0 & p & Hp).
  destruct y as [[|o0 o]|e| |]; try (intros H; injection H as <- <-; split; auto; exists p; intros t1 C; destruct (Hp _ C) as (A & ->); auto; fail).
  destruct (fdrain fuel sz (S k) f0) as [z f2] eqn:E2. destruct (IH _ _ _ _ R0 E2) as (R2 & q & Hq).
  destruct z as [m|e| |]; intros H; injection H as <- <-; (split; auto; exists (p ++ q); intros t1 C; destruct (Hq _ C) as (A & B); destruct (Hp _ A) as (A1 & B1);
    rewrite <- app_assoc, B1, B; auto).
Qed.

Lemma drain_inv sz fuel : forall k r x r', inv r -> drain fuel sz k r = (x, r') -> inv r'.
Proof.
  induction fuel as [|fuel IH]; intros k r x r' Hi; cbn [drain]; [intros H; injection H as <- <-; auto|].
  destruct (read (sz k) r) as [y r1] eqn:E. apply read_spec in E as (J1 & _); auto.
  destruct y as [[|o0 o]|e| |]; try (intros H; injection H as <- <-; auto; fail).
  destruct (drain fuel sz (S k) r1) as [z r2] eqn:E2. apply IH in E2; auto. destruct z; intros H; injection H as <- <-; auto.
Qed.

Lemma sim_read_all trim sz fuel : sim_inv (fread_all ML trim fuel sz) (read_all ML trim fuel sz).
Proof.
  induction fuel as [|fuel IH]; intros f x f1 R Hi; cbn [fread_all read_all].
  { intros H; injection H as <- <-. split; auto. exists []. auto. }
  destruct (fread_entry ML trim f) as [y f0] eqn:E. destruct (sim_read_entry _ _ _ _ R Hi E) as (R0 & p & Hp).
  assert (I0 : inv (fr f0)).
  { destruct (Hp _ (cuts_refl _)) as (A & B). rewrite over_src in B. apply (read_entry_inv ML) in B; [apply B|now apply inv_over]. }
  destruct y as [[h|]|e| |]; try (intros H; injection H as <- <-; split; auto; exists p; intros t1 C; destruct (Hp _ C) as (A & ->); auto; fail).
  remember (S (length (buf (fr f0)) + length (stream (src (fr f0))))) as n eqn:En.
  destruct (fdrain n sz 0 f0) as [z f2] eqn:E2. destruct (sim_drain _ _ _ _ _ _ R0 E2) as (R2 & q & Hq).
  assert (I2 : inv (fr f2)).
  { destruct (Hq _ (cuts_refl _)) as (A & B). rewrite over_src in B. apply drain_inv in B; auto. now apply inv_over. }
  assert (Lf : forall t1, cuts lo (src (fr f0)) t1 -> S (length (buf (over f0 t1)) + length (stream (src (over f0 t1)))) = n).
  { intros t1 C. cbn [over buf src]. rewrite (cuts_stream _ _ C). auto. }
  destruct z as [d|e| |].
  2,3,4: intros H; injection H as <- <-; split; auto; exists (p ++ q); intros t1 C; destruct (Hq _ C) as (A & B); destruct (Hp _ A) as (A1 & B1);
    rewrite <- app_assoc, B1, (Lf _ A), B; auto.
  destruct (fread_all ML trim fuel sz f2) as [w f3] eqn:E3. destruct (IH _ _ _ R2 I2 E3) as (R3 & u & Hu).
  destruct w as [l|e| |]; intros H; injection H as <- <-; (split; auto; exists (p ++ q ++ u); intros t1 C; destruct (Hu _ C) as (A & B); destruct (Hq _ A) as (A1 & B1);
    destruct (Hp _ A1) as (A2 & B2); rewrite <- !app_assoc, B2, (Lf _ A1), B1, B; auto).
Qed.

End WithMime.

Lemma roomy_start t b : lo <= MIN_BUF_SIZE -> 2 * MIN_BUF_SIZE <= c -> 4 * length (delimiter b) <= c -> roomy (ffrom_reader c t b).
Proof.
  intros H1 H2. change (DASHES ++ b) with (delimiter b) in *. unfold roomy, ffrom_reader, from_reader. cbn [fr fm cap off minb bnd buf length].
  split; [reflexivity|]. change (DASHES ++ b) with (delimiter b). lia.
Qed.

End Capacity.
End Cuts.

(** A reader whose buffer holds [c] bytes behaves, in every history of calls and over every transport, as the model's
    reader over the same transport with some chunks delivered in pieces, provided that [c] is at least twice the minimum
    that the reader asks for: 2048, four times the length of the delimiter, and twice every argument of
    [set_min_buf_size].  With the 8 KiB of [buf_redux] the delimiter may have 2048 bytes.  All pieces but the last of a
    chunk have at least the smallest minimum that was asked for, so that chunks of at most that size are not cut. *)
Theorem C88_history : forall ML trim lo c t b os obs f,
  lo <= MIN_BUF_SIZE -> 2 * MIN_BUF_SIZE <= c -> 4 * length (delimiter b) <= c -> (forall n, In (OSetMin n) os -> lo <= n /\ 2 * n <= c) ->
  frun ML trim os (ffrom_reader c t b) = (obs, f) ->
  exists t', cuts lo t t' /\ fst (run ML trim os (with_body t' b)) = obs.
Proof.
  intros ML trim lo c t b os obs f H0 H1 H2 H3 H.
  assert (I : inv (fr (ffrom_reader c t b))) by apply inv_from_reader.
  destruct (sim_run lo c ML _ _ _ _ _ (roomy_start _ _ _ _ H0 H1 H2) I H3 H) as (_ & _ & p & Hp).
  destruct (Hp _ (cuts_refl _ _)) as (A & B). exists (p ++ src (fr f)). split; auto. 
  change (over (ffrom_reader c t b) (p ++ src (fr f))) with (with_body (p ++ src (fr f)) b) in B. now rewrite B.
Qed.

(** What cutting preserves. *)
Theorem C88_cuts : forall lo t t', cuts lo t t' -> stream t' = stream t /\ (live t -> live t') /\ (quiet t -> quiet t') /\
  (forall k, In (Fail k) t' -> In (Fail k) t) /\ ((forall c, In (Chunk c) t -> length c <= lo) -> t' = t).
Proof.
  intros lo t t' C. split; [exact (cuts_stream _ _ _ C)|]. split; [exact (cuts_live _ _ _ C)|]. split; [exact (cuts_quiet _ _ _ C)|].
  split; [|exact (cuts_small _ _ _ C)].
  intros k H. destruct (cuts_in _ _ _ _ C H) as [H'|(x & E & _)]; [auto|discriminate].
Qed.

(** Through such a buffer a well-formed body is read to its end, however it arrives. *)
Theorem C88_read_all : forall ML trim c t b sz P M E l,
  2 * MIN_BUF_SIZE <= c -> 4 * length (delimiter b) <= c ->
  live t -> quiet t -> (forall k, 0 < sz k) ->
  parts (head_block ML trim (delimiter b)) (delimiter b) (delimiter b ++ M) l ->
  (forall i, occurs_at (delimiter b) (P ++ delimiter b ++ M) i -> length P <= i) ->
  stream t = P ++ delimiter b ++ M ++ E ->
  exists l' f, fread_all ML trim (S (length l)) sz (ffrom_reader c t b) = (Ok l', f) /\ almost l l'.
Proof.
  intros ML trim c t b sz P M E l H1 H2 Hl Hq Hz Hp HP Hs.
  destruct (fread_all ML trim (S (length l)) sz (ffrom_reader c t b)) as [x f] eqn:H.
  assert (I : inv (fr (ffrom_reader c t b))) by apply inv_from_reader.
  destruct (sim_read_all 0 c ML _ _ _ _ _ _ (roomy_start _ _ _ _ (Nat.le_0_l _) H1 H2) I H) as (_ & p & Hc).
  destruct (Hc _ (cuts_refl _ _)) as (A & B). change (src (fr (ffrom_reader c t b))) with t in A.
  change (over (ffrom_reader c t b) (p ++ src (fr f))) with (with_body (p ++ src (fr f)) b) in B.
  destruct (C87_read_all ML trim (p ++ src (fr f)) b sz P M E l (cuts_live _ _ _ A Hl) (cuts_quiet _ _ _ A Hq) Hz Hp HP) as (l' & r & Q & Al).
  { rewrite (cuts_stream _ _ _ A). exact Hs. }
  rewrite Q in B. injection B as <- _. eauto.
Qed.

(** A longer boundary: the data is neither moved to the front (that would not give the minimum) nor is there room behind
    it, so the reader sees a fragment of the delimiter as the end of the body, and the upload fails. *)
Definition long_b : bytes := repeat 98%N 3000.
Definition long_head : bytes := toy_head (bs "a").
Definition long_body : bytes :=
  delimiter long_b ++ CRLF ++ long_head ++ repeat 120%N 2640 ++ CRLF ++ delimiter long_b ++ DASHES ++ CRLF.

Theorem C88_long_refuted : exists t b l,
  live t /\ quiet t /\ length b = 3000 /\
  parts (head_block toy true (delimiter b)) (delimiter b) (stream t) l /\
  fst (read_all toy true (S (length l)) (fun _ => Nat.pow 2 12) (with_body t b)) = Ok l /\
  fst (fread_all toy true (S (length l)) (fun _ => Nat.pow 2 12) (ffrom_reader (Nat.pow 2 13) t b)) = Err (EBnd EEndOfBody).
Proof.
  exists [Chunk long_body], long_b, [(mkFH toy (bs "a") None None, repeat 120%N 2640)].
  split; [intros [H|[]]; discriminate|]. split; [intros k [H|[]]; discriminate|]. split; [apply repeat_length|].
  split; [|split; vm_compute; reflexivity].
  apply parts_field with (pre := []) (x := toy_head (bs "a")) (rest := repeat 120%N 2640 ++ CRLF ++ delimiter long_b ++ DASHES ++ CRLF).
  - apply find_split; vm_compute; reflexivity.
  - split; [|apply Nat.leb_le; vm_compute; reflexivity].
    eexists. split; [intros y; vm_compute; reflexivity|]. split; vm_compute; reflexivity.
  - exists (toy_head (bs "a") ++ repeat 120%N 2640 ++ CRLF), (DASHES ++ CRLF).
    split; [|left; reflexivity]. apply find_split; vm_compute; reflexivity.
  - apply parts_end with (pre := repeat 120%N 2640 ++ CRLF) (q := CRLF). apply find_split; vm_compute; reflexivity.
Qed.

(** A body of 2.6 kB that arrives in one piece, behind a buffer of 2 KiB: the transport is cut at the end of the buffer. *)
Example C88_example :
  let b := bs "b" in let t := [Chunk (delimiter b ++ CRLF ++ toy_head (bs "a") ++ repeat 120%N 2640 ++ CRLF ++ delimiter b ++ DASHES ++ CRLF)] in
  let os := [ONext; ORead 4000; ORead 4000; ORead 4000; ONext] in let c := 2048 in
  2 * MIN_BUF_SIZE <= c /\ 4 * length (delimiter b) <= c /\ (forall n, In (OSetMin n) os -> 1024 <= n /\ 2 * n <= c) /\
  fst (frun toy true os (ffrom_reader c t b)) <> fst (run toy true os (with_body t b)) /\
  fst (fread_all toy true 2 (fun _ => 4000) (ffrom_reader c t b)) = Ok [(mkFH toy (bs "a") None None, repeat 120%N 2640)].
Proof.
  cbv zeta. split; [apply Nat.leb_le; reflexivity|]. split; [apply Nat.leb_le; reflexivity|].
  split; [intros n [H|[H|[H|[H|[H|[]]]]]]; discriminate|]. split; [|vm_compute; reflexivity].
  intros H. assert (X : match nth 1 (fst (frun toy true [ONext; ORead 4000; ORead 4000; ORead 4000; ONext] (ffrom_reader 2048 [Chunk (delimiter (bs "b") ++ CRLF ++ toy_head (bs "a") ++ repeat 120%N 2640 ++ CRLF ++ delimiter (bs "b") ++ DASHES ++ CRLF)] (bs "b")))) (BUnit toy) with BRead _ (Ok w) => length w =? 2640 | _ => false end = true).
  { rewrite H. vm_compute. reflexivity. }
  vm_compute in X. discriminate.
Qed.
