(** The copy loops of saving: what is written is what was consumed. *)

From Verif Require Import Bytes BytesProofs Spec Io Boundary BoundaryProofs Utf8 Utf8Proofs Httparse Field FieldProofs
  ContentProofs DataProofs ShortProofs Rand Fs Save.

(** * Fills and consumes on a field *)

Inductive moved : breader -> bytes -> breader -> Prop :=
| mv_refl r : moved r [] r
| mv_fill r d r1 x r2 : moved r d r1 -> read_to_boundary r1 = (x, r2) -> moved r d r2
| mv_take n r d r1 x r2 : moved r d r1 -> read_to_boundary r1 = (Ok x, r2) -> n <= idx r2 -> moved r (d ++ firstn n (buf r2)) (consume n r2).

Lemma moved_trans r d r1 d' r2 : moved r d r1 -> moved r1 d' r2 -> moved r (d ++ d') r2.
Proof.
  intros H H'. induction H' as [r1|r1 d' r2 x r3 H' IH E|n r1 d' r2 x r3 H' IH E L].
  - now rewrite app_nil_r.
  - eapply mv_fill; eauto.
  - rewrite app_assoc. eapply mv_take; eauto.
Qed.

Lemma moved_steps r d r' : moved r d r' -> steps r r'.
Proof.
  induction 1; [apply s_refl|eapply s_fill; eauto|]. apply s_cons. eapply s_fill; eauto.
Qed.

Lemma moved_spec r d r' : moved r d r' -> inv r ->
  inv r' /\ rem r = d ++ rem r' /\ bnd r' = bnd r /\ minb r' = minb r /\ later (src r') (src r).
Proof.
  induction 1 as [r|r d r1 x r2 H IH E|n r d r0 x r1 H IH E L]; intros Hi.
  - repeat split; auto using later_refl; apply Hi.
  - destruct (IH Hi) as (I1 & R1 & B1 & M1 & L1).
    apply read_to_boundary_spec in E as (I2 & R2 & B2 & M2 & L2 & _); auto.
    split; auto. split; [congruence|]. split; [congruence|]. split; [congruence|]. eapply later_trans; eauto.
  - destruct (IH Hi) as (I0 & R0 & B0 & M0 & L0).
    apply read_to_boundary_spec in E as (I1 & R1 & B1 & M1 & L1 & _); auto.
    pose proof (consume_spec n r1 I1) as (I2 & R2 & B2 & M2 & S2 & _).
    split; auto. split; [|split; [congruence|split; [congruence|rewrite S2; eapply later_trans; eauto]]].
    rewrite <- app_assoc, R0, <- R1, R2. replace (Nat.min n (idx r1)) with n by lia. reflexivity.
Qed.

Lemma moved_run ML trim r d r' : moved r d r' ->
  exists os ob, Forall data_op os /\ run ML trim os r = (ob, r') /\ delivered ML ob = d /\ Forall keeps_min os /\ lawful ML false ob.
Proof.
  assert (App : forall os1 r ob1 r1 o ob2 r2, run ML trim os1 r = (ob1, r1) -> step ML trim o r1 = (ob2, r2) ->
            run ML trim (os1 ++ [o]) r = (ob1 ++ [ob2], r2)).
  { induction os1 as [|o1 os1 IH]; intros q ob1 r1 o ob2 r2; cbn [run app].
    - intros H; injection H as <- <-. intros ->. reflexivity.
    - destruct (step ML trim o1 q) as [y q1]. destruct (run ML trim os1 q1) as [ob q2] eqn:E.
      intros H; injection H as <- <-. intros S. rewrite (IH _ _ _ _ _ _ E S). reflexivity. }
  induction 1 as [r|r d r1 x r2 H (os & ob & F & G & D & K & L) E|n r d r0 x r1 H (os & ob & F & G & D & K & L) E Ln].
  - exists [], []. repeat split; auto.
  - exists (os ++ [OFill]), (ob ++ [BFill ML x]). split; [apply Forall_app; split; auto; repeat constructor|].
    split; [eapply App; eauto; cbn [step]; now rewrite E|].
    split; [unfold delivered in *; rewrite flat_map_app, D; simpl; now rewrite app_nil_r|].
    split; [apply Forall_app; split; auto; repeat constructor|]. apply lawful_app; auto. destruct x; exact I.
  - exists ((os ++ [OFill]) ++ [OConsume n]), ((ob ++ [BFill ML (Ok x)]) ++ [BConsumed ML (firstn n (buf r1))]).
    split; [repeat (apply Forall_app; split; auto; repeat constructor)|].
    split; [eapply App; [eapply App; eauto; cbn [step]; now rewrite E|]; cbn [step]; now replace (Nat.min n (idx r1)) with n by lia|].
    split; [unfold delivered in *; rewrite !flat_map_app, D; simpl; now rewrite !app_nil_r|].
    split; [repeat (apply Forall_app; split; auto; repeat constructor)|]. rewrite <- app_assoc. apply lawful_app; auto. cbn. auto.
Qed.

Lemma consume_0 r : consume 0 r = r.
Proof. destruct r. unfold consume. simpl. now rewrite Nat.sub_0_r. Qed.

(** * Closures that copy *)

(** [R w d w'] says that the destination took [d] between [w] and [w']. *)
Record writes {W} (R : W -> bytes -> W -> Prop) : Prop := {
  w_nil : forall w, R w [] w;
  w_app : forall w d w1 d' w2, R w d w1 -> R w1 d' w2 -> R w (d ++ d') w2;
}.

Definition copies {W} (R : W -> bytes -> W -> Prop) (wb : W -> bytes -> sres nat nat * W) : Prop :=
  forall w b x w1, wb w b = (x, w1) ->
    accepted x <= length b /\ R w (firstn (accepted x) b) w1 /\ x <> SPanic /\ x <> SFuel.

(** The part of the above for buffers that were accepted in full. *)
Definition copies_full {W} (R : W -> bytes -> W -> Prop) (wb : W -> bytes -> sres nat nat * W) : Prop :=
  forall w b n w1, wb w b = (Full n, w1) -> R w (firstn n b) w1.

(** After [d] was taken the next buffer is [b]. *)
Definition pending (r : breader) (d : bytes) (r' : breader) (b : bytes) : Prop :=
  exists r0, moved r d r0 /\ read_to_boundary r0 = (Ok b, r').

(** The field was seen to be at its end. *)
Definition ended (r : breader) (d : bytes) (r' : breader) : Prop := pending r d r' [].

(** The last buffer was refused, in part or in whole. *)
Definition refused {W} (wb : W -> bytes -> sres nat nat * W) (R : W -> bytes -> W -> Prop)
    (r : breader) (w : W) (d : bytes) (r' : breader) (w' : W) (why : reason) : Prop :=
  exists d0 r0 w0 b r1 y,
    moved r d0 r0 /\ R w d0 w0 /\ read_to_boundary r0 = (Ok b, r1) /\ b <> [] /\ wb w0 b = (y, w') /\
    d = d0 ++ firstn (accepted y) b /\ r' = consume (accepted y) r1 /\
    match y with Part _ why' => why = why' | SErr e => why = RIo e | _ => False end.

(** The transport failed. *)
Definition broke (r : breader) (d : bytes) (r' : breader) (e : berr) : Prop :=
  exists r0, moved r d r0 /\ read_to_boundary r0 = (Err e, r') /\ berr_kind e <> KInterrupted.

Lemma iokind_eqb_true a b : iokind_eqb a b = true -> a = b.
Proof. destruct a, b; simpl; try discriminate; auto. rewrite Nat.eqb_eq || rewrite N.eqb_eq. congruence. Qed.

Lemma iokind_eqb_refl a : iokind_eqb a a = true.
Proof. destruct a; simpl; auto. apply Nat.eqb_refl || apply N.eqb_refl. Qed.

Lemma fill_moved r b r1 n : inv r -> read_to_boundary r = (Ok b, r1) -> n <= length b ->
  moved r (firstn n b) (consume n r1).
Proof.
  intros Hi E L. pose proof (read_to_boundary_spec _ _ _ Hi E) as (I1 & _ & _ & _ & _ & _ & _ & _ & X & _).
  assert (Lb : length b = idx r1). { rewrite X, firstn_length. destruct I1 as (_ & I1 & _). lia. }
  replace (firstn n b) with ([] ++ firstn n (buf r1)).
  - eapply mv_take; [apply mv_refl|eassumption|lia].
  - simpl. rewrite X, firstn_firstn. f_equal. lia.
Qed.

Lemma try_read_buf_copies {W} (R RF : W -> bytes -> W -> Prop) wb fuel :
  writes R -> copies R wb -> writes RF -> copies_full RF wb ->
  forall total w r x w' r', inv r ->
  try_read_buf wb fuel total w r = (x, w', r') ->
  exists d, moved r d r' /\ R w d w' /\ x <> SPanic /\
    match x with
    | Full n => n = (total + N.of_nat (length d))%N /\ ended r d r' /\ RF w d w'
    | Part n why => n = (total + N.of_nat (length d))%N /\
        (refused wb RF r w d r' w' why \/ exists e, why = RIo (XSrc e) /\ broke r d r' e /\ n <> 0%N)
    | SErr e => d = [] /\ total = 0%N /\ exists b, e = XSrc b /\ broke r [] r' b
    | SPanic => False
    | SFuel => True
    end.
Proof.
  intros HR Hc HF HcF. induction fuel as [|fuel IH]; intros total w r x w' r' Hi; cbn [try_read_buf].
  { intros H; injection H as <- <- <-. exists []. split; [apply mv_refl|]. split; [apply HR|]. split; [discriminate|auto]. }
  destruct (read_to_boundary r) as [y r1] eqn:E.
  pose proof (read_to_boundary_spec _ _ _ Hi E) as (I1 & R1 & B1 & M1 & L1 & _ & _ & _ & X).
  assert (M : moved r [] r1) by (eapply mv_fill; eauto using mv_refl).
  destruct y as [b|e| |]; try tauto.
  - destruct b as [|a b0].
    { intros H; injection H as <- <- <-. exists []. split; [exact M|]. split; [apply HR|]. split; [discriminate|].
      split; [simpl; lia|]. split; [|apply HF]. exists r. split; [apply mv_refl|exact E]. }
    remember (a :: b0) as b eqn:Eb. assert (Nb : b <> []) by (subst; discriminate).
    destruct (wb w b) as [z w1] eqn:F.
    destruct (Hc _ _ _ _ F) as (A1 & A2 & A3 & A4).
    pose proof (fill_moved _ _ _ _ Hi E A1) as Mv.
    assert (Rf : refused wb RF r w (firstn (accepted z) b) (consume (accepted z) r1) w1
                   (match z with Part _ why => why | SErr e => RIo e | _ => RCount end) \/
                 match z with Full _ => True | _ => False end).
    { destruct z; try tauto; left; exists [], r, w, b, r1; eexists; (split; [apply mv_refl|]); (split; [apply HF|]);
        (split; [exact E|]); (split; [exact Nb|]); (split; [exact F|]); simpl; auto. }
    destruct z as [n|n why|e| |]; try tauto.
    + cbn [accepted] in *.
      pose proof (consume_spec n r1 I1) as (I2 & _).
      intros H. destruct (IH _ _ _ _ _ _ I2 H) as (d & D1 & D2 & D3 & D4).
      exists (firstn n b ++ d). split; [eapply moved_trans; eauto|]. split; [eapply HR; eauto|]. split; [exact D3|].
      assert (Ln : length (firstn n b) = n) by (rewrite firstn_length; lia).
      destruct x as [m|m why|e| |]; auto.
      * destruct D4 as [-> [(r0 & D5 & D6) D7]]. rewrite app_length, Ln. split; [lia|].
        split; [exists r0; split; auto; eapply moved_trans; eauto|]. eapply HF; eauto.
      * destruct D4 as [-> D4]. rewrite app_length, Ln. split; [lia|].
        destruct D4 as [(d0 & r0 & w0 & b' & r2 & y & K1 & K2 & K3 & K4 & K5 & K6 & K7)|(e & -> & (r0 & K1 & K2 & K3) & K4)].
        -- left. exists (firstn n b ++ d0), r0, w0, b', r2, y.
           split; [eapply moved_trans; eauto|]. split; [eapply HF; eauto|]. do 3 (split; [assumption|]).
           split; [now rewrite K6, app_assoc|exact K7].
        -- right. exists e. split; auto. split; [|lia]. exists r0. split; auto. eapply moved_trans; eauto.
      * destruct D4 as (-> & Z & b1 & -> & r0 & K1 & K2 & K3).
        assert (n = 0) by lia. subst n. rewrite firstn_O in *. simpl. split; auto. split; [lia|].
        exists b1. split; auto. exists r0. split; auto. replace (@nil N) with (@nil N ++ []) by auto. eapply moved_trans; eauto.
    + cbn [accepted] in *. intros H; injection H as <- <- <-. exists (firstn n b). split; [exact Mv|]. split; [exact A2|].
      split; [discriminate|]. split; [rewrite firstn_length; lia|]. left. destruct Rf as [Rf|[]]. exact Rf.
    + cbn [accepted] in *. rewrite consume_0, firstn_O in *. intros H; injection H as <- <- <-. exists [].
      split; [exact M|]. split; [exact A2|]. split; [discriminate|]. split; [simpl; lia|].
      left. destruct Rf as [Rf|[]]. exact Rf.
  - destruct X as (k & -> & X1 & X2 & X3). cbn [berr_kind] in *.
    destruct (iokind_eqb k KInterrupted) eqn:Ek.
    + intros H. destruct (IH _ _ _ _ _ _ I1 H) as (d & D1 & D2 & D3 & D4).
      exists d. assert (T : forall q, moved r1 d q -> moved r d q).
      { intros q Q. change d with ([] ++ d). eapply moved_trans; eauto. }
      split; auto. split; [exact D2|]. split; [exact D3|].
      destruct x as [m|m why|e| |]; auto.
      * destruct D4 as [D4 [(r0 & D5 & D6) D7]]. split; auto. split; auto. exists r0. auto.
      * destruct D4 as [-> D4]. split; auto.
        destruct D4 as [(d0 & r0 & w0 & b' & r2 & y & K1 & K2 & K3 & K4 & K5 & K6 & K7)|(e & -> & (r0 & K1 & K2 & K3) & K4)].
        -- left. exists d0, r0, w0, b', r2, y. split; [change d0 with ([] ++ d0); eapply moved_trans; eauto|]. auto 10.
        -- right. exists e. split; auto. split; auto. exists r0. auto.
      * destruct D4 as (-> & Z & b1 & -> & r0 & K1 & K2 & K3). split; auto. split; auto. exists b1. split; auto.
        exists r0. auto.
    + assert (Bk : broke r [] r1 (ETransport k)).
      { exists r. split; [apply mv_refl|]. split; auto. simpl. intros ->. discriminate. }
      destruct (total =? 0)%N eqn:Et; intros H; injection H as <- <- <-; exists [].
      * apply N.eqb_eq in Et. split; [exact M|]. split; [apply HR|]. split; [discriminate|]. split; auto. split; auto. eauto.
      * apply N.eqb_neq in Et. split; [exact M|]. split; [apply HR|]. split; [discriminate|]. split; [simpl; lia|].
        right. eexists. eauto.
Qed.

(** * Termination of the copy loop *)

Lemma fill_err_src r k r1 : inv r -> read_to_boundary r = (Err k, r1) -> length (src r1) < length (src r).
Proof.
  intros Hi E. pose proof (read_to_boundary_src _ _ _ E Hi) as [S|S]; auto.
  exfalso. pose proof (read_to_boundary_spec _ _ _ Hi E) as (_ & _ & _ & _ & _ & _ & _ & _ & e & -> & H & _).
  unfold read_to_boundary in E.
  destruct (fill_buf (minb r) (buf r) (src r)) as [[x b] t] eqn:F.
  destruct x as [k|].
  - injection E as <- <-. simpl in S. clear H. revert F S.
    assert (G : forall m b0 tr b1, fill_buf m b0 tr = (Some k, b1, t) -> length t < length tr).
    { intros m b0 tr. revert b0. induction tr as [|[c|k'] tr IH]; intros b0 b1; cbn [fill_buf];
        destruct (m <=? length b0); try discriminate; intros Q.
      - destruct c; [discriminate|]. apply IH in Q. simpl. lia.
      - injection Q as <- <- <-. simpl. lia. }
    intros F S. apply G in F. rewrite S in F. lia.
  - destruct (st r); [destruct (search_step b (bnd r) (idx r)) as [[? ?]|]; discriminate| |];
      destruct (length b <? idx r); discriminate.
Qed.

(** [mu] bounds how often the closure can accept nothing. *)
Lemma try_read_buf_ends {W} (mu : W -> nat) (ok : W -> Prop) wb fuel :
  (forall w b n w1, ok w -> b <> [] -> wb w b = (Full n, w1) ->
     ok w1 /\ n <= length b /\ ((0 < n /\ mu w1 <= mu w) \/ mu w1 < mu w)) ->
  (forall w b x w1, wb w b = (x, w1) -> x <> SFuel) ->
  forall total w r x w' r', inv r -> ok w ->
  length (rem r) + length (src r) + mu w < fuel ->
  try_read_buf wb fuel total w r = (x, w', r') -> x <> SFuel.
Proof.
  intros Hp Hf. induction fuel as [|fuel IH]; intros total w r x w' r' Hi Hw L; [lia|]. cbn [try_read_buf].
  destruct (read_to_boundary r) as [y r1] eqn:E.
  pose proof (read_to_boundary_spec _ _ _ Hi E) as (I1 & R1 & B1 & M1 & L1 & _ & _ & _ & X).
  destruct y as [b|e| |]; try tauto.
  - destruct b as [|a b0]; [intros H; injection H as <- <- <-; discriminate|].
    remember (a :: b0) as b eqn:Eb. assert (Nb : b <> []) by (subst; discriminate).
    destruct (wb w b) as [z w1] eqn:F. pose proof (Hf _ _ _ _ F) as Nz.
    destruct z as [n|n why|e| |]; try (intros H; injection H as <- <- <-; discriminate); [|congruence].
    destruct (Hp _ _ _ _ Hw Nb F) as (Hw1 & Ln & Hd).
    pose proof (fill_moved _ _ _ _ Hi E Ln) as Mv.
    destruct (moved_spec _ _ _ Mv Hi) as (I2 & R2 & _ & _ & [u L2]).
    apply IH; auto.
    apply (f_equal (@length _)) in R2. rewrite app_length, firstn_length in R2.
    rewrite L2, app_length in L. lia.
  - pose proof (fill_err_src _ _ _ Hi E).
    destruct (iokind_eqb (berr_kind e) KInterrupted).
    + apply IH; auto. rewrite R1. lia.
    + destruct (total =? 0)%N; intros Q; injection Q as <- <- <-; discriminate.
Qed.

(** More fuel changes nothing. *)
Lemma try_read_buf_fuel {W} (wb : W -> bytes -> sres nat nat * W) fuel :
  forall total w r x w' r', try_read_buf wb fuel total w r = (x, w', r') -> x <> SFuel ->
  forall more, fuel <= more -> try_read_buf wb more total w r = (x, w', r').
Proof.
  induction fuel as [|fuel IH]; intros total w r x w' r'; cbn [try_read_buf].
  { intros H; injection H as <- <- <-. congruence. }
  intros H Nx more Lm. destruct more as [|more]; [lia|]. cbn [try_read_buf].
  destruct (read_to_boundary r) as [[b|e| |] r1]; auto.
  - destruct b as [|a b0]; auto. destruct (wb w (a :: b0)) as [[n|n why|e| |] w1]; auto.
    apply IH; auto. lia.
  - destruct (iokind_eqb (berr_kind e) KInterrupted); auto. apply IH; auto. lia.
Qed.
