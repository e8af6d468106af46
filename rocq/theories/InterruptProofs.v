(** Interrupted reads do not influence the saving of a field. *)

From Verif Require Import Bytes BytesProofs Spec Io Boundary BoundaryProofs Utf8 Utf8Proofs Httparse Field FieldProofs
  ContentProofs DataProofs EntryProofs ReaderProofs Drive DriveProofs ReachProofs Rand Fs Save SaveProofs PhaseProofs SaveFacts
  TextProofs.

Lemma calm_consume n r : consume n (calm_r r) = calm_r (consume n r).
Proof. reflexivity. Qed.

Lemma fill_steps r x r1 : inv r -> steady (src r) -> read_to_boundary r = (x, r1) ->
  inv r1 /\ steady (src r1) /\ length (src r1) <= length (src r).
Proof.
  intros I Q E. apply read_to_boundary_spec in E as (I1 & _ & _ & _ & L & _); auto.
  split; auto. split; [eapply steady_later; eauto|]. destruct L as [u ->]. rewrite app_length. lia.
Qed.

Lemma take_steps n r : inv r -> steady (src r) -> inv (consume n r) /\ steady (src (consume n r)).
Proof. intros I Q. split; [apply consume_spec; auto|exact Q]. Qed.

(** A loop that ends although it was interrupted ends in the same way without the interruptions. *)
Lemma read_buf_calm {W} (wb : W -> bytes -> sres nat nat * W) fuel : forall total w r x w' r',
  inv r -> steady (src r) -> try_read_buf wb fuel total w r = (x, w', r') -> x <> SFuel ->
  try_read_buf wb fuel total w (calm_r r) = (x, w', calm_r r').
Proof.
  induction fuel as [|fuel IH]; intros total w r x w' r' I Q; cbn [try_read_buf].
  { intros H; injection H as <- <- <-. congruence. }
  destruct (read_to_boundary r) as [y r1] eqn:E. destruct (fill_steps _ _ _ I Q E) as (I1 & Q1 & L1).
  pose proof (fill_boundary_calm _ _ _ E) as C. destruct y as [b|e| |].
  - rewrite C. destruct b as [|b0 b]; [intros H _; now injection H as <- <- <-|].
    destruct (wb w (b0 :: b)) as [[n|n why|y| |] w1]; intros H N; try (injection H as <- <- <-; now rewrite ?calm_consume).
    rewrite calm_consume. destruct (take_steps n r1 I1 Q1). apply IH; auto.
  - destruct (steady_fill _ _ _ I Q E) as [-> _]. intros H N.
    pose proof (IH _ _ _ _ _ _ I1 Q1 H N) as H1.
    apply (try_read_buf_fuel wb fuel) with (more := S fuel) in H1; auto. cbn [try_read_buf] in H1. now rewrite C.
  - rewrite C. intros H _. now injection H as <- <- <-.
  - rewrite C. intros H _. now injection H as <- <- <-.
Qed.

(** And conversely, with one more turn for every interruption. *)
Lemma read_buf_uncalm {W} (wb : W -> bytes -> sres nat nat * W) m : forall fuel n total w r x w' q,
  fuel + n <= m -> inv r -> steady (src r) -> length (src r) <= n -> try_read_buf wb fuel total w (calm_r r) = (x, w', q) -> x <> SFuel ->
  exists r', try_read_buf wb (fuel + n) total w r = (x, w', r') /\ calm_r r' = q.
Proof.
  induction m as [|m IH]; intros fuel n total w r x w' q Lm I Q Ln H N.
  { destruct fuel; [|lia]. cbn [try_read_buf] in H. injection H as <- _ _. congruence. }
  destruct fuel as [|fuel]; cbn [try_read_buf] in H; [injection H as <- _ _; congruence|].
  cbn [Nat.add try_read_buf].
  destruct (read_to_boundary r) as [y r1] eqn:E. destruct (fill_steps _ _ _ I Q E) as (I1 & Q1 & L1).
  pose proof (fill_boundary_calm _ _ _ E) as C. destruct y as [b|e| |].
  - rewrite C in H. destruct b as [|b0 b]; [injection H as <- <- <-; eauto|].
    destruct (wb w (b0 :: b)) as [[k|k why|y| |] w1]; try (injection H as <- <- <-; eexists; split; [reflexivity|apply calm_consume]);
      try (injection H as <- <- <-; eauto).
    rewrite calm_consume in H. destruct (take_steps k r1 I1 Q1).
    apply (IH fuel n) in H; auto; [lia|]. cbn [consume src]. lia.
  - destruct (steady_fill _ _ _ I Q E) as [-> Ls]. destruct n as [|n]; [lia|].
    rewrite C in H. replace (fuel + S n) with (S fuel + n) by lia.
    apply (IH (S fuel) n); auto; lia.
  - rewrite C in H. injection H as <- <- <-. eauto.
  - rewrite C in H. injection H as <- <- <-. eauto.
Qed.

(** What holds after a copy loop. *)
Lemma read_buf_steps {W} (wb : W -> bytes -> sres nat nat * W) fuel : forall total w r x w' r',
  inv r -> steady (src r) -> try_read_buf wb fuel total w r = (x, w', r') ->
  inv r' /\ steady (src r') /\ length (src r') <= length (src r).
Proof.
  induction fuel as [|fuel IH]; intros total w r x w' r' I Q; cbn [try_read_buf].
  { intros H; injection H as <- <- <-. auto. }
  destruct (read_to_boundary r) as [y r1] eqn:E. destruct (fill_steps _ _ _ I Q E) as (I1 & Q1 & L1).
  destruct y as [b|e| |]; try (intros H; injection H as <- <- <-; auto).
  - destruct b as [|b0 b]; [intros H; injection H as <- <- <-; auto|].
    destruct (wb w (b0 :: b)) as [[n|n why|y| |] w1]; intros H; try (injection H as <- <- <-; auto).
    + destruct (take_steps n r1 I1 Q1). apply IH in H as (A & B & D); auto. cbn [consume src] in D. split; auto. split; auto. lia.
    + destruct (take_steps n r1 I1 Q1). auto.
  - destruct (steady_fill _ _ _ I Q E) as [-> _]. intros H. apply IH in H as (A & B & D); auto. split; auto. split; auto. lia.
Qed.

(** The same for [try_copy_limited] and for [write_to], in one statement: *)
Definition agree {X} (f : nat -> breader -> X * breader) (fuelless : X -> Prop) : Prop :=
  forall fuel r, inv r -> steady (src r) ->
  (forall x r', f fuel r = (x, r') -> inv r' /\ steady (src r') /\ length (src r') <= length (src r)) /\
  (forall x r', f fuel r = (x, r') -> fuelless x -> f fuel (calm_r r) = (x, calm_r r')) /\
  (forall x q n, length (src r) <= n -> f fuel (calm_r r) = (x, q) -> fuelless x -> exists r', f (fuel + n) r = (x, r') /\ calm_r r' = q).

Lemma agree_buf {W} (wb : W -> bytes -> sres nat nat * W) total w :
  agree (fun fuel r => try_read_buf wb fuel total w r) (fun x => fst x <> SFuel).
Proof.
  intros fuel r I Q. split; [|split].
  - intros [x w'] r' H. eapply read_buf_steps; eauto.
  - intros [x w'] r' H N. apply read_buf_calm; auto.
  - intros [x w'] q n L H N. eapply (read_buf_uncalm wb (fuel + n)); eauto.
Qed.

Lemma agree_map {X Y} (f : nat -> breader -> X * breader) (h : X -> Y) (P : X -> Prop) (P' : Y -> Prop) :
  (forall x, P' (h x) -> P x) -> agree f P -> agree (fun fuel r => let '(x, r') := f fuel r in (h x, r')) P'.
Proof.
  intros HP A fuel r I Q. destruct (A fuel r I Q) as (A1 & A2 & A3). split; [|split].
  - intros y r'. destruct (f fuel r) as [x r1]. intros H; injection H as <- <-. eauto.
  - intros y r'. destruct (f fuel r) as [x r1] eqn:E. intros H N; injection H as <- <-. rewrite (A2 x r1); auto.
  - intros y q n L. destruct (f fuel (calm_r r)) as [x q1] eqn:E. intros H N; injection H as <- <-.
    destruct (A3 x q1 n L eq_refl (HP _ N)) as (r' & H & C). exists r'. now rewrite H.
Qed.

Lemma agree_ext {X} (f f' : nat -> breader -> X * breader) P : (forall n r, f n r = f' n r) -> agree f P -> agree f' P.
Proof.
  intros E A fuel r I Q. destruct (A fuel r I Q) as (A1 & A2 & A3). split; [|split].
  - intros x r'. rewrite <- E. apply A1.
  - intros x r'. rewrite <- !E. apply A2.
  - intros x q n. rewrite <- E. intros L H N. destruct (A3 x q n L H N) as (r' & K & C). exists r'. rewrite <- E. auto.
Qed.

(** Sequencing: a phase, then another chosen by its result. *)
Lemma agree_seq {X Y} (f : nat -> breader -> X * breader) (g : X -> nat -> breader -> Y * breader) P P' :
  (forall x, ~ P x -> forall n r, ~ P' (fst (g x n r))) -> (forall x, P x \/ ~ P x) ->
  agree f P -> (forall x, agree (g x) P') -> agree (fun fuel r => let '(x, r') := f fuel r in g x fuel r') P'.
Proof.
  intros HP D A B fuel r I Q. destruct (A fuel r I Q) as (A1 & A2 & A3). split; [|split].
  - intros y r'. destruct (f fuel r) as [x r1] eqn:E. destruct (A1 x r1 eq_refl) as (I1 & Q1 & L1).
    destruct (B x fuel r1 I1 Q1) as (B1 & _). intros H. destruct (B1 _ _ H) as (I2 & Q2 & L2). split; auto. split; auto. lia.
  - intros y r'. destruct (f fuel r) as [x r1] eqn:E. destruct (A1 x r1 eq_refl) as (I1 & Q1 & L1). intros H N.
    destruct (D x) as [Px|Px].
    2: { exfalso. apply (HP _ Px fuel r1). now rewrite H. }
    rewrite (A2 x r1 eq_refl Px). destruct (B x fuel r1 I1 Q1) as (_ & B2 & _). auto.
  - intros y q n L. destruct (f fuel (calm_r r)) as [x q1] eqn:E. intros H N.
    destruct (D x) as [Px|Px].
    2: { exfalso. apply (HP _ Px fuel q1). now rewrite H. }
    destruct (A3 x q1 n L eq_refl Px) as (r1 & H1 & <-). rewrite H1.
    destruct (A (fuel + n) r I Q) as (A1' & _). destruct (A1' _ _ H1) as (I1 & Q1 & L1).
    destruct (B x fuel r1 I1 Q1) as (_ & _ & B3). apply B3; auto. lia.
Qed.

Lemma agree_ret {X} (x : X) P : agree (fun _ r => (x, r)) P.
Proof.
  intros fuel r I Q. split; [|split].
  - intros y r' H; injection H as <- <-. auto.
  - intros y r' H _; injection H as <- <-. auto.
  - intros y q n L H _; injection H as <- <-. eauto.
Qed.

Lemma sfuel_dec {S P} (x : sres S P) : x <> SFuel \/ ~ x <> SFuel.
Proof. destruct x; (left; discriminate) || (right; congruence). Qed.

Lemma agree_limited {W} (wb : W -> bytes -> sres nat nat * W) limit w :
  agree (fun fuel r => try_copy_limited wb limit fuel w r) (fun x => fst x <> SFuel).
Proof.
  apply agree_ext with (f := fun fuel r => let '(x, r') := try_read_buf (limited limit wb) fuel 0%N (0%N, w) r in
    ((fun z => (fst z, snd (snd z))) x, r')).
  { intros n r. unfold try_copy_limited. destruct (try_read_buf _ n _ _ r) as [[x [c w1]] r1]. reflexivity. }
  eapply (agree_map _ (fun z : sres N N * (N * W) => (fst z, snd (snd z)))); [|apply agree_buf]. auto.
Qed.

Lemma agree_write_to {W} (wb : W -> bytes -> sres nat nat * W) s w :
  agree (fun fuel r => write_to wb s fuel w r) (fun x => fst x <> SFuel).
Proof. unfold write_to. destruct (s_size_limit s <? U64MAX)%N; [apply agree_limited|apply agree_buf]. Qed.

Lemma agree_mem s ob : agree (fun fuel r => save_mem s fuel ob r) (fun x => x <> SFuel).
Proof.
  set (h := fun z : sres N N * bytes => let '(x, w) := z in
    match x with
    | Full _ => @Full bytes bytes w
    | Part _ why => Part w why
    | SErr e => match w with [] => SErr e | _ => Part w (RIo e) end
    | SPanic => SPanic
    | SFuel => SFuel
    end).
  apply agree_ext with (f := fun fuel r =>
    let '(x, r') := try_copy_limited mem_buf (mem_limit s (N.of_nat (length ob))) fuel ob r in (h x, r')).
  { intros n r. unfold save_mem. destruct (try_copy_limited _ _ n _ r) as [[x w] r1]. reflexivity. }
  eapply (agree_map _ h); [|apply agree_limited]. intros [x w]; simpl. destruct x; congruence.
Qed.

Lemma agree_text s : agree (fun fuel r => save_text s fuel r) (fun x => x <> SFuel).
Proof.
  set (h := fun z : sres N N * bytes => let '(x, w) := z in
    match x with
    | Full _ => @Full bytes bytes w
    | Part _ why => Part w why
    | SErr e => SErr e
    | SPanic => SPanic
    | SFuel => SFuel
    end).
  apply agree_ext with (f := fun fuel r =>
    let '(x, r') := try_copy_limited text_buf (mem_limit s 0) fuel [] r in (h x, r')).
  { intros n r. unfold save_text. destruct (try_copy_limited _ _ n _ r) as [[x w] r1]. reflexivity. }
  eapply (agree_map _ h); [|apply agree_limited]. intros [x w]; simpl. destruct x; congruence.
Qed.

(** Results with the environment, as one value. *)
Definition envless (f : nat -> breader -> sres saved saved * breader * env) (fuel : nat) (r : breader)
  : (sres saved saved * env) * breader := let '(x, r', e') := f fuel r in ((x, e'), r').

Definition not_fuel (z : sres saved saved * env) : Prop := fst z <> SFuel.

Lemma agree_disk s p ob e : agree (envless (fun fuel r => save_disk s p fuel ob r e)) not_fuel.
Proof.
  unfold envless, save_disk. destruct (create_dir_all p e) as [[k|] e1]; [apply agree_ret|].
  destruct (open_file (s_opts s) p e1) as [[h|k] e2]; [|apply agree_ret].
  destruct (write_file (h, e2) ob) as [x [h1 e3]].
  destruct (smap (fun n => n) (fun n => SFile p (N.of_nat n)) x) as [d|d why|y| |]; try apply agree_ret.
  set (hh := fun z : sres N N * (handle * env) => (smap (fun n => n) (fun n => add_size d n) (fst z), snd (snd z))).
  apply agree_ext with (f := fun fuel r => let '(y, r') := write_to write_file s fuel (h1, e3) r in (hh y, r')).
  { intros n r. destruct (write_to write_file s n (h1, e3) r) as [[y [h4 e4]] r1]. reflexivity. }
  eapply (agree_map _ hh); [|apply agree_write_to]. intros [y [h4 e4]]. unfold not_fuel. simpl. destruct y; simpl; congruence.
Qed.

Lemma agree_rest s p ob e : agree (envless (fun fuel r => save_rest s p fuel ob r e)) not_fuel.
Proof.
  set (g := fun (x : sres bytes bytes) => envless (fun fuel r =>
    match x with
    | Full b => (Full (SBytes b), r, e)
    | Part b RSize => if cmp_size_limit s (length b) then (Part (SBytes b) RSize, r, e) else save_disk s p fuel b r e
    | Part b why => (Part (SBytes b) why, r, e)
    | SErr x => (SErr x, r, e)
    | SPanic => (SPanic, r, e)
    | SFuel => (SFuel, r, e)
    end)).
  apply agree_ext with (f := fun fuel r => let '(x, r') := save_mem s fuel ob r in g x fuel r').
  { intros n r. unfold g, envless, save_rest. destruct (save_mem s n ob r) as [[b|b [| |y|]|y| |] r1]; try reflexivity. }
  apply agree_seq with (P := fun x => x <> SFuel).
  - intros x Nx n r. destruct x; try (exfalso; apply Nx; discriminate). unfold g, envless, not_fuel. simpl. auto.
  - intros x. apply sfuel_dec.
  - apply agree_mem.
  - intros x. unfold g, envless. destruct x as [b|b [| |y|]|y| |]; try apply agree_ret.
    destruct (cmp_size_limit s (length b)); [apply agree_ret|apply agree_disk].
Qed.

Lemma agree_path s p e : agree (envless (fun fuel r => with_path s p fuel r e)) not_fuel.
Proof.
  unfold with_path. destruct (s_policy s) eqn:Po; [| |apply agree_rest].
  all: set (g := fun (x : sres bytes bytes) => envless (fun fuel r =>
    match x with
    | Full t => (Full (SText t), r, e)
    | Part t RSize => if cmp_size_limit s (length t) then (Part (SText t) RSize, r, e) else save_rest s p fuel t r e
    | Part t RUtf8 => match s_policy s with
                      | TForce => (Part (SText t) RUtf8, r, e)
                      | _ => save_rest s p fuel t r e
                      end
    | Part t why => (Part (SText t) why, r, e)
    | SErr x => (SErr x, r, e)
    | SPanic => (SPanic, r, e)
    | SFuel => (SFuel, r, e)
    end)).
  all: apply agree_ext with (f := fun fuel r => let '(x, r') := save_text s fuel r in g x fuel r').
  1, 3: intros n r; unfold g, envless; rewrite Po; destruct (save_text s n r) as [[b|b [| |y|]|y| |] r1]; reflexivity.
  all: apply agree_seq with (P := fun x => x <> SFuel).
  1, 5: intros x Nx n r; destruct x; try (exfalso; apply Nx; discriminate); unfold g, envless, not_fuel; simpl; auto.
  1, 4: intros x; apply sfuel_dec.
  1, 3: apply agree_text.
  all: intros x; unfold g, envless; rewrite Po; destruct x as [b|b [| |y|]|y| |]; try apply agree_ret; try apply agree_rest.
  all: destruct (cmp_size_limit s (length b)); [apply agree_ret|apply agree_rest].
Qed.
