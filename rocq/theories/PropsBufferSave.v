(** Property theorems about saving through the finite buffer (C99). *)

From Verif Require Import Bytes BytesProofs Spec Io Boundary BoundaryProofs Utf8 Utf8Proofs Httparse HttparseProofs Field
  FieldProofs ContentProofs DataProofs ShortProofs EntryProofs ReaderProofs Drive DriveProofs ReachProofs Rand Fs Save SaveProofs PhaseProofs SaveFacts
  TextProofs Toy PropsReader PropsSave EntriesProofs CompleteProofs PropsEntries PropsUpload PropsShort PropsMinBuf PropsAny PropsAnyway PropsSharp PropsSaveSharp
  Buffer PropsBuffer BufferSave.

Ltac blia := unfold bytes, byte in *; lia.

(** ** C99 *)

Section Sim.
Context (lo c : nat).

Definition fit (f : freader) : Prop := roomy lo c f /\ inv (fr f).

(** The finite reader goes from [f] to [f1] while the model's reader, over a cut transport, does [P]. *)
Definition along (f f1 : freader) (P : breader -> breader -> Prop) : Prop :=
  fit f1 /\ exists p, forall t1, cuts lo (src (fr f1)) t1 -> cuts lo (src (fr f)) (p ++ t1) /\ P (over f (p ++ t1)) (over f1 t1).

Lemma along_here f (P : breader -> breader -> Prop) : fit f -> (forall t, P (over f t) (over f t)) -> along f f P.
Proof. intros F H. split; auto. exists []. intros t1 C. split; auto. Qed.

Lemma along_consume n f f1 (P : breader -> breader -> Prop) : along f f1 P ->
  along f (fconsume n f1) (fun r r2 => exists r1, P r r1 /\ r2 = consume n r1).
Proof.
  intros ((R & Hi) & p & Hp). split.
  - split; [now apply roomy_consume|]. change (fr (fconsume n f1)) with (consume n (fr f1)).
    destruct (step toy true (OConsume n) (fr f1)) as [ob r] eqn:S1. cbn [step] in S1. pose proof S1 as S2. injection S2 as _ S2. rewrite S2.
    apply (step_inv toy true (OConsume n) _ ob) in S1; [apply S1|auto].
  - exists p. rewrite src_consume. intros t1 C. destruct (Hp _ C) as (A & B). split; auto. rewrite over_consume. eauto.
Qed.

Lemma along_then f f1 f2 (P Q T : breader -> breader -> Prop) : along f f1 P -> along f1 f2 Q ->
  (forall r r1 r2, P r r1 -> Q r1 r2 -> T r r2) -> along f f2 T.
Proof.
  intros (_ & p & Hp) (F & q & Hq) H. split; auto. exists (p ++ q). intros t1 C. destruct (Hq _ C) as (A & B).
  destruct (Hp _ A) as (A1 & B1). rewrite <- app_assoc. split; eauto.
Qed.

Lemma along_as f f1 (P Q : breader -> breader -> Prop) : along f f1 P -> (forall r r1, P r r1 -> Q r r1) -> along f f1 Q.
Proof. intros (F & p & Hp) H. split; auto. exists p. intros t1 C. destruct (Hp _ C). auto. Qed.

Lemma along_rtb f x f1 : fit f -> fread_to_boundary f = (x, f1) -> along f f1 (fun r r1 => read_to_boundary r = (x, r1)).
Proof.
  intros (R & Hi) E. destruct (sim_rtb _ _ _ _ _ R E) as (R0 & p & Hp). split.
  - split; auto. destruct (Hp _ (cuts_refl _ _)) as (A & B). rewrite over_src in B.
    assert (S1 : step toy true OFill (over f (p ++ src (fr f1))) = (BFill toy x, fr f1)) by (cbn [step]; now rewrite B).
    apply (step_inv toy) in S1; [apply S1|]. eapply inv_over; eauto.
  - exists p. exact Hp.
Qed.

Lemma along_entry ML trim f x f1 : fit f -> fread_entry ML trim f = (x, f1) -> along f f1 (fun r r1 => read_entry ML trim r = (x, r1)).
Proof.
  intros (R & Hi) E. destruct (sim_read_entry _ _ ML trim _ _ _ R Hi E) as (R0 & p & Hp). split.
  - split; auto. destruct (Hp _ (cuts_refl _ _)) as (A & B). rewrite over_src in B.
    apply (read_entry_inv ML) in B; [apply B|]. eapply inv_over; eauto.
  - exists p. exact Hp.
Qed.

Lemma along_read_buf {W} (wb : W -> bytes -> sres nat nat * W) fuel : forall total w f x w1 f1, fit f ->
  gtry_read_buf fread_to_boundary fconsume wb fuel total w f = (x, w1, f1) ->
  along f f1 (fun r r1 => try_read_buf wb fuel total w r = (x, w1, r1)).
Proof.
  induction fuel as [|fuel IH]; intros total w f x w1 f1 F; cbn [gtry_read_buf try_read_buf].
  { intros H; injection H as <- <- <-. apply along_here; auto. }
  destruct (fread_to_boundary f) as [y f0] eqn:E. pose proof (along_rtb _ _ _ F E) as A. pose proof (proj1 A) as F0.
  destruct y as [[|b0 b]|e| |].
  - intros H; injection H as <- <- <-. apply (along_as _ _ _ _ A). intros r r1 ->. reflexivity.
  - destruct (wb w (b0 :: b)) as [z w0] eqn:Ew.
    destruct z as [n|n why|e| |]; try (intros H; injection H as <- <- <-; apply (along_as _ _ _ _ A); intros r r1 ->; now rewrite Ew).
    + pose proof (along_consume n _ _ _ A) as A1. intros H. apply IH in H; [|exact (proj1 A1)]. apply (along_then _ _ _ _ _ _ A1 H).
      intros r r1 r2 (r0 & -> & ->) Q. now rewrite Ew.
    + intros H; injection H as <- <- <-. apply (along_as _ _ _ _ (along_consume n _ _ _ A)). intros r r1 (r0 & -> & ->). now rewrite Ew.
  - destruct (iokind_eqb (berr_kind e) KInterrupted) eqn:Ek.
    + intros H. apply IH in H; auto. apply (along_then _ _ _ _ _ _ A H). intros r r1 r2 -> Q. now rewrite Ek.
    + destruct (total =? 0)%N eqn:Et; intros H; injection H as <- <- <-; apply (along_as _ _ _ _ A); intros r r1 ->; rewrite Ek; reflexivity.
  - intros H; injection H as <- <- <-; apply (along_as _ _ _ _ A); intros r r1 ->; reflexivity.
  - intros H; injection H as <- <- <-; apply (along_as _ _ _ _ A); intros r r1 ->; reflexivity.
Qed.

Lemma along_limited {W} (wb : W -> bytes -> sres nat nat * W) limit fuel w f x w1 f1 : fit f ->
  gtry_copy_limited fread_to_boundary fconsume wb limit fuel w f = (x, w1, f1) ->
  along f f1 (fun r r1 => try_copy_limited wb limit fuel w r = (x, w1, r1)).
Proof.
  intros F. unfold gtry_copy_limited, try_copy_limited. destruct (gtry_read_buf _ _ _ _ _ _ f) as [[y [k w0]] f0] eqn:E.
  intros H; injection H as <- <- <-. apply (along_as _ _ _ _ (along_read_buf _ _ _ _ _ _ _ _ F E)). intros r r1 ->. reflexivity.
Qed.

Lemma along_write {W} (wb : W -> bytes -> sres nat nat * W) s fuel w f x w1 f1 : fit f ->
  fwrite_to wb s fuel w f = (x, w1, f1) -> along f f1 (fun r r1 => write_to wb s fuel w r = (x, w1, r1)).
Proof.
  intros F. unfold fwrite_to, gwrite_to, write_to. destruct (s_size_limit s <? U64MAX)%N; intros H; [now apply along_limited|now apply along_read_buf].
Qed.

Lemma along_mem s fuel ob f x f1 : fit f -> gsave_mem fread_to_boundary fconsume s fuel ob f = (x, f1) ->
  along f f1 (fun r r1 => save_mem s fuel ob r = (x, r1)).
Proof.
  intros F. unfold gsave_mem, save_mem. destruct (gtry_copy_limited _ _ _ _ _ _ f) as [[y w0] f0] eqn:E.
  intros H; injection H as <- <-. apply (along_as _ _ _ _ (along_limited _ _ _ _ _ _ _ _ F E)). intros r r1 ->. reflexivity.
Qed.

Lemma along_text s fuel f x f1 : fit f -> gsave_text fread_to_boundary fconsume s fuel f = (x, f1) ->
  along f f1 (fun r r1 => save_text s fuel r = (x, r1)).
Proof.
  intros F. unfold gsave_text, save_text. destruct (gtry_copy_limited _ _ _ _ _ _ f) as [[y w0] f0] eqn:E.
  intros H; injection H as <- <-. apply (along_as _ _ _ _ (along_limited _ _ _ _ _ _ _ _ F E)). intros r r1 ->. reflexivity.
Qed.

Lemma along_disk s p fuel ob f e x f1 e1 : fit f -> gsave_disk fread_to_boundary fconsume s p fuel ob f e = (x, f1, e1) ->
  along f f1 (fun r r1 => save_disk s p fuel ob r e = (x, r1, e1)).
Proof.
  intros F. unfold gsave_disk, save_disk. destruct (create_dir_all p e) as [[k|] e0].
  { intros H; injection H as <- <- <-. now apply along_here. }
  destruct (open_file (s_opts s) p e0) as [[h|k] e2]; [|intros H; injection H as <- <- <-; now apply along_here].
  destruct (write_file (h, e2) ob) as [y [h1 e3]].
  destruct (smap (fun n => n) (fun n => SFile p (N.of_nat n)) y) as [d|d why|er| |];
    try (intros H; injection H as <- <- <-; now apply along_here).
  destruct (gwrite_to _ _ _ _ _ _ f) as [[z [h4 e4]] f0] eqn:E. intros H; injection H as <- <- <-.
  apply (along_as _ _ _ _ (along_write _ _ _ _ _ _ _ _ F E)). intros r r1 ->. reflexivity.
Qed.

Lemma along_rest s p fuel ob f e x f1 e1 : fit f -> gsave_rest fread_to_boundary fconsume s p fuel ob f e = (x, f1, e1) ->
  along f f1 (fun r r1 => save_rest s p fuel ob r e = (x, r1, e1)).
Proof.
  intros F. unfold gsave_rest, save_rest. destruct (gsave_mem _ _ s fuel ob f) as [y f0] eqn:E. pose proof (along_mem _ _ _ _ _ _ F E) as A.
  destruct y as [b|b why|er| |]; try (intros H; injection H as <- <- <-; apply (along_as _ _ _ _ A); intros r r1 ->; reflexivity).
  destruct why as [| |er|]; try (intros H; injection H as <- <- <-; apply (along_as _ _ _ _ A); intros r r1 ->; reflexivity).
  destruct (cmp_size_limit s (length b)) eqn:Ec.
  - intros H; injection H as <- <- <-; apply (along_as _ _ _ _ A); intros r r1 ->. now rewrite Ec.
  - intros H. apply along_disk in H; [|exact (proj1 A)]. apply (along_then _ _ _ _ _ _ A H). intros r r1 r2 -> P. now rewrite Ec.
Qed.

Lemma along_path s p fuel f e x f1 e1 : fit f -> fwith_path s p fuel f e = (x, f1, e1) ->
  along f f1 (fun r r1 => with_path s p fuel r e = (x, r1, e1)).
Proof.
  intros F. unfold fwith_path, gwith_path, with_path. destruct (gsave_text _ _ s fuel f) as [y f0] eqn:E. pose proof (along_text _ _ _ _ _ F E) as A.
  assert (Txt : s_policy s <> TIgnore -> match y with
      | Full t => (Full (SText t), f0, e)
      | Part t RSize => if cmp_size_limit s (length t) then (Part (SText t) RSize, f0, e) else gsave_rest fread_to_boundary fconsume s p fuel t f0 e
      | Part t RUtf8 => match s_policy s with TForce => (Part (SText t) RUtf8, f0, e) | _ => gsave_rest fread_to_boundary fconsume s p fuel t f0 e end
      | Part t why => (Part (SText t) why, f0, e) | SErr x => (SErr x, f0, e) | SPanic => (SPanic, f0, e) | SFuel => (SFuel, f0, e) end = (x, f1, e1) ->
    along f f1 (fun r r1 => match save_text s fuel r with
      | (Full t, r1) => (Full (SText t), r1, e)
      | (Part t RSize, r1) => if cmp_size_limit s (length t) then (Part (SText t) RSize, r1, e) else save_rest s p fuel t r1 e
      | (Part t RUtf8, r1) => match s_policy s with TForce => (Part (SText t) RUtf8, r1, e) | _ => save_rest s p fuel t r1 e end
      | (Part t why, r1) => (Part (SText t) why, r1, e) | (SErr x, r1) => (SErr x, r1, e) | (SPanic, r1) => (SPanic, r1, e) | (SFuel, r1) => (SFuel, r1, e) end = (x, r1, e1))).
  { intros _. destruct y as [b|b why|er| |]; try (intros H; injection H as <- <- <-; apply (along_as _ _ _ _ A); intros r r1 ->; reflexivity).
    destruct why as [| |er|]; try (intros H; injection H as <- <- <-; apply (along_as _ _ _ _ A); intros r r1 ->; reflexivity).
    - destruct (cmp_size_limit s (length b)) eqn:Ec.
      + intros H; injection H as <- <- <-; apply (along_as _ _ _ _ A); intros r r1 ->. now rewrite Ec.
      + intros H. apply along_rest in H; [|exact (proj1 A)]. apply (along_then _ _ _ _ _ _ A H). intros r r1 r2 -> P. now rewrite Ec.
    - destruct (s_policy s) eqn:Ep.
      + intros H. apply along_rest in H; [|exact (proj1 A)]. apply (along_then _ _ _ _ _ _ A H). intros r r1 r2 -> P. exact P.
      + intros H; injection H as <- <- <-; apply (along_as _ _ _ _ A); intros r r1 ->. reflexivity.
      + intros H. apply along_rest in H; [|exact (proj1 A)]. apply (along_then _ _ _ _ _ _ A H). intros r r1 r2 -> P. exact P. }
  destruct (s_policy s) eqn:Ep; [| |apply along_rest; auto].
  - intros H. apply Txt; [discriminate|]. exact H.
  - intros H. apply Txt; [discriminate|]. exact H.
Qed.

Section WithMime.
Context (ML : mime_lib).

Lemma along_field s h en fuel g f e x g1 f1 e1 : fit f ->
  gsave_field fread_to_boundary fconsume ML s h en fuel g f e = (x, g1, f1, e1) ->
  along f f1 (fun r r1 => save_field ML s h en fuel g r e = (x, g1, r1, e1)).
Proof.
  intros F. unfold gsave_field, save_field, gwith_dir, with_dir. destruct (rand_filename g) as [name g0].
  destruct (gwith_path _ _ _ _ _ f e) as [[y f0] e0] eqn:E. intros H; injection H as <- <- <- <-.
  apply (along_as _ _ _ _ (along_path _ _ _ _ _ _ _ _ F E)). intros r r1 ->. reflexivity.
Qed.

Lemma along_loop trim s fuel : forall res en g f e x g1 f1 e1, fit f ->
  gentries_loop fread_to_boundary fconsume ML (fread_entry ML) trim s fuel res en g f e = (x, g1, f1, e1) ->
  along f f1 (fun r r1 => entries_loop ML trim s fuel res en g r e = (x, g1, r1, e1)).
Proof.
  induction fuel as [|fuel IH]; intros res en g f e x g1 f1 e1 F; cbn [gentries_loop entries_loop].
  { intros H; injection H as <- <- <- <-. now apply along_here. }
  destruct (en_count ML en <? s_count_limit s)%N; [|intros H; injection H as <- <- <- <-; now apply along_here].
  destruct res as [[h|]|er| |]; try (intros H; injection H as <- <- <- <-; now apply along_here).
  destruct (gsave_field _ _ ML s h en (S fuel) g f e) as [[[y g0] f0] e0] eqn:E. pose proof (along_field _ _ _ _ _ _ _ _ _ _ _ F E) as A.
  destruct y as [d|d why|er| |]; try (intros H; injection H as <- <- <- <-; apply (along_as _ _ _ _ A); intros r r1 ->; reflexivity).
  destruct (fread_entry ML trim f0) as [res' f2] eqn:E2. pose proof (along_entry ML trim _ _ _ (proj1 A) E2) as A2.
  intros H. apply IH in H; [|exact (proj1 A2)].
  assert (A3 : along f0 f1 (fun r r2 => exists r3, read_entry ML trim r = (res', r3) /\ entries_loop ML trim s fuel res' (push_field ML en h d) g0 r3 e0 = (x, g1, r2, e1))).
  { apply (along_then _ _ _ _ _ _ A2 H). intros r r1 r2 P Q. eauto. }
  apply (along_then _ _ _ _ _ _ A A3). intros r r1 r2 -> (r3 & -> & Q). exact Q.
Qed.

Lemma along_entries trim s fuel en g f e x g1 f1 e1 : fit f -> fwith_entries ML trim s fuel en g f e = (x, g1, f1, e1) ->
  along f f1 (fun r r1 => with_entries ML trim s fuel en g r e = (x, g1, r1, e1)).
Proof.
  intros F. unfold fwith_entries, gwith_entries, with_entries. destruct (fread_entry ML trim f) as [res f0] eqn:E. pose proof (along_entry ML trim _ _ _ F E) as A.
  intros H. apply along_loop in H; [|exact (proj1 A)]. apply (along_then _ _ _ _ _ _ A H). intros r r1 r2 -> Q. exact Q.
Qed.

Lemma along_run trim os f x f1 : fit f -> (forall n, In (OSetMin n) os -> lo <= n /\ 2 * n <= c) -> frun ML trim os f = (x, f1) ->
  along f f1 (fun r r1 => run ML trim os r = (x, r1)).
Proof.
  intros (R & Hi) Hm E. destruct (sim_run _ _ ML trim os _ _ _ R Hi Hm E) as (R0 & I0 & p & Hp). split; [split; auto|]. exists p. exact Hp.
Qed.

(** The minimum sizes that a history asks for. *)
Definition asks (ks : list (ucall ML)) (n : nat) : Prop := exists os, In (UOps ML os) ks /\ In (OSetMin n) os.

Lemma along_call trim k f e a f1 e1 : fit f -> (forall n, asks [k] n -> lo <= n /\ 2 * n <= c) ->
  gcall ML fread_to_boundary fconsume (fread_entry ML) (frun ML) trim k f e = (a, f1, e1) ->
  along f f1 (fun r r1 => gcall ML read_to_boundary consume (read_entry ML) (run ML) trim k r e = (a, r1, e1)).
Proof.
  intros F Hm. destruct k as [os|s p fuel|s d fuel|s en g fuel]; cbn [gcall].
  - destruct (frun ML trim os f) as [l f0] eqn:E. intros H; injection H as <- <- <-.
    apply (along_as _ _ _ _ (along_run trim os _ _ _ F (fun n Q => Hm n (ex_intro _ os (conj (or_introl eq_refl) Q))) E)). intros r r1 ->. reflexivity.
  - destruct (gwith_path _ _ s p fuel f e) as [[x f0] e0] eqn:E. intros H; injection H as <- <- <-.
    apply (along_as _ _ _ _ (along_path _ _ _ _ _ _ _ _ F E)). rewrite <- gwith_path_same. intros r r1 ->. reflexivity.
  - destruct (gwrite_to _ _ write_dest s fuel d f) as [[x d0] f0] eqn:E. intros H; injection H as <- <- <-.
    apply (along_as _ _ _ _ (along_write _ _ _ _ _ _ _ _ F E)). rewrite <- gwrite_to_same. intros r r1 ->. reflexivity.
  - destruct (gwith_entries _ _ ML _ trim s fuel en g f e) as [[[x g0] f0] e0] eqn:E. intros H; injection H as <- <- <-.
    apply (along_as _ _ _ _ (along_entries _ _ _ _ _ _ _ _ _ _ _ F E)). rewrite <- gwith_entries_same. intros r r1 ->. reflexivity.
Qed.

Lemma along_calls trim ks : forall f e l f1 e1, fit f -> (forall n, asks ks n -> lo <= n /\ 2 * n <= c) ->
  fcalls ML trim ks f e = (l, f1, e1) -> along f f1 (fun r r1 => ucalls ML trim ks r e = (l, r1, e1)).
Proof.
  unfold fcalls, ucalls. induction ks as [|k ks IH]; intros f e l f1 e1 F Hm; cbn [gcalls].
  { intros H; injection H as <- <- <-. now apply along_here. }
  destruct (gcall _ _ _ _ _ trim k f e) as [[a f0] e0] eqn:E. destruct (gcalls _ _ _ _ _ trim ks f0 e0) as [[l0 f2] e2] eqn:E2.
  intros H; injection H as <- <- <-.
  assert (A : along f f0 (fun r r1 => gcall ML read_to_boundary consume (read_entry ML) (run ML) trim k r e = (a, r1, e0))).
  { apply along_call; auto. intros n (os & [Q|[]] & Q2). apply Hm. exists os. split; auto. now left. }
  apply IH in E2; [|exact (proj1 A)|intros n (os & Q & Q2); apply Hm; exists os; split; auto; now right].
  apply (along_then _ _ _ _ _ _ A E2). intros r r1 r2 -> ->. reflexivity.
Qed.

End WithMime.
End Sim.

Lemma fit_start lo c t b : lo <= MIN_BUF_SIZE -> 2 * MIN_BUF_SIZE <= c -> 4 * length (delimiter b) <= c -> fit lo c (ffrom_reader c t b).
Proof. intros H0 H1 H2. split; [now apply roomy_start|]. apply inv_from_reader. Qed.

(** In every history of reading and saving, with every machine, the request behind a buffer of [c] bytes gives what the
    model's request gives over the same transport with some chunks delivered in pieces (see [C88_history]). *)
Theorem C99_history : forall ML trim lo c t b ks e l f e',
  lo <= MIN_BUF_SIZE -> 2 * MIN_BUF_SIZE <= c -> 4 * length (delimiter b) <= c -> (forall n, asks ML ks n -> lo <= n /\ 2 * n <= c) ->
  fcalls ML trim ks (ffrom_reader c t b) e = (l, f, e') ->
  exists t' r, cuts lo t t' /\ ucalls ML trim ks (with_body t' b) e = (l, r, e').
Proof.
  intros ML trim lo c t b ks e l f e' H0 H1 H2 H3 H.
  destruct (along_calls lo c ML trim ks _ _ _ _ _ (fit_start lo c t b H0 H1 H2) H3 H) as (_ & p & Hp).
  destruct (Hp _ (cuts_refl _ _)) as (A & B). exists (p ++ src (fr f)), (over f (src (fr f))). auto.
Qed.

Lemma saved_finite ML trim lo c t b s fuel en g e x g' f' e' :
  lo <= MIN_BUF_SIZE -> 2 * MIN_BUF_SIZE <= c -> 4 * length (delimiter b) <= c ->
  fwith_entries ML trim s fuel en g (ffrom_reader c t b) e = (x, g', f', e') ->
  exists t' r, cuts lo t t' /\ with_entries ML trim s fuel en g (with_body t' b) e = (x, g', r, e').
Proof.
  intros H0 H1 H2 H.
  destruct (along_entries lo c ML trim s _ _ _ _ _ _ _ _ _ (fit_start lo c t b H0 H1 H2) H) as (_ & p & Hp).
  destruct (Hp _ (cuts_refl _ _)) as (A & B). exists (p ++ src (fr f')), (over f' (src (fr f'))). auto.
Qed.

(** So what is saved of a well-formed body is a prefix of its fields, in order, each exact or with the CRLF of the delimiter,
    whatever fails, *)
Theorem C99_request : forall ML trim c t b s fuel en g e x g' f' e' l en',
  2 * MIN_BUF_SIZE <= c -> 4 * length (delimiter b) <= c -> live t -> s_opts s = default_opts ->
  parts (head_block ML trim (delimiter b)) (delimiter b) (stream t) l ->
  fwith_entries ML trim s fuel en g (ffrom_reader c t b) e = (x, g', f', e') ->
  (x = Full en' \/ exists pe why, x = Part pe why /\ en' = pe_entries ML pe) ->
  exists log d rest, en' = pushes ML (recount_fields ML en) log /\ l = d ++ rest /\
    Forall2 (saved_as (e_fs e')) log d /\ (x = Full en' -> rest = []).
Proof.
  intros ML trim c t b s fuel en g e x g' f' e' l en' H1 H2 Hl Ho P H Hx.
  destruct (saved_finite ML trim 0 c t b s fuel en g e x g' f' e' (Nat.le_0_l _) H1 H2 H) as (t' & r & C & K).
  rewrite <- (cuts_stream _ _ _ C) in P. exact (C76_request ML trim t' b s fuel en g e x g' r e' l en' (cuts_live _ _ _ C Hl) Ho P K Hx).
Qed.

(** and all of them if nothing fails and the limits leave room. *)
Theorem C99_full : forall ML trim c t b s en g e l,
  2 * MIN_BUF_SIZE <= c -> 4 * length (delimiter b) <= c ->
  live t -> quiet t -> s_opts s = default_opts -> s_policy s <> TForce ->
  (N.min (s_size_limit s) (s_threshold s) < U64MAX)%N ->
  parts (head_block ML trim (delimiter b)) (delimiter b) (stream t) l ->
  (N.of_nat (fields_of en + length l) < s_count_limit s)%N ->
  Forall (fun hc => (N.of_nat (length (snd hc) + 2) <= s_size_limit s)%N) l ->
  (Forall (fun hc => (N.of_nat (length (snd hc) + 2) <= s_threshold s)%N) l \/
   (good e /\ fresh_names e (en_dir ML en) g (length l))) ->
  exists fuel0, forall fuel, fuel0 <= fuel ->
  exists en' g' f' e' log, fwith_entries ML trim s fuel en g (ffrom_reader c t b) e = (Full en', g', f', e') /\
    en' = pushes ML (recount_fields ML en) log /\ Forall2 (saved_as (e_fs e')) log l.
Proof.
  intros ML trim c t b s en g e l H1 H2 Hl Hq Ho Nf Hp P Hc Hs Hm.
  exists (S (length (stream t) + (length t + length (stream t))) + N.to_nat (mem_min s) + 1 + length l + 1). intros fuel Lf.
  destruct (fwith_entries ML trim s fuel en g (ffrom_reader c t b) e) as [[[x g'] f'] e'] eqn:H.
  destruct (saved_finite ML trim 0 c t b s fuel en g e x g' f' e' (Nat.le_0_l _) H1 H2 H) as (t' & r & C & K).
  rewrite <- (cuts_stream _ _ _ C) in P.
  destruct (any_fuel ML trim t' b s en g e l (cuts_live _ _ _ C Hl) (cuts_quiet _ _ _ C Hq) Ho Nf Hp P Hc Hs Hm fuel) as (en' & g2 & r2 & e2 & log & K2 & K3 & K4).
  { rewrite (cuts_stream _ _ _ C). pose proof (cuts_length _ _ _ C). lia. }
  rewrite K in K2. injection K2 as -> -> -> ->. exists en', g2, f', e2, log. auto.
Qed.

(** One byte at a time. *)
Definition dribble (s : bytes) : transport := map (fun x => Chunk [x]) s.

Lemma dribble_stream s : stream (dribble s) = s.
Proof. induction s as [|x s IH]; [reflexivity|]. cbn [dribble map stream]. fold (dribble s). rewrite IH. reflexivity. Qed.

Lemma dribble_in s ev : In ev (dribble s) -> exists x, ev = Chunk [x].
Proof. intros H. apply in_map_iff in H as (x & <- & _). eauto. Qed.

(** Through the buffer the limit of C98 is the same: a form is saved exactly whatever the chunks if and only if all its
    contents are shorter than 1023 bytes. *)
Theorem C99_exactly : forall ML trim m b s dir temp g e P z l,
  2 * MIN_BUF_SIZE <= m -> ~ In CR b -> length b <= 510 -> suffices s e dir g l ->
  Forall (fun hc => Field.is_text ML (fst hc) = true -> s_policy s <> TIgnore -> utf8_string (snd hc)) l ->
  rfc (head_block ML trim (delimiter b)) (delimiter b) z l -> (forall i, occurs_at (delimiter b) (P ++ z) i -> length P <= i) ->
  ((forall t, stream t = P ++ z -> live t -> quiet t -> exists fuel0, forall fuel, fuel0 <= fuel -> exists x g' f' e',
      fwith_entries ML trim s fuel (entries_new ML dir temp) g (ffrom_reader m t b) e = (x, g', f', e') /\ saved_form l x e') <->
   Forall (fun hc => length (snd hc) < 1023) l).
Proof.
  intros ML trim m b s dir temp g e P z l Hm HC Lb Hs Hu Hz HP.
  assert (LD : length (delimiter b) = length b + 2).
  { change (2 + length b = length b + 2). apply Nat.add_comm. }
  assert (EM : effective (delimiter b) 1024 = Nat.pow 2 10).
  { unfold effective. change (Nat.pow 2 10) with 1024. rewrite LD. lia. }
  assert (HD : 4 * length (delimiter b) <= m) by (rewrite LD; change MIN_BUF_SIZE with 1024 in Hm; lia).
  split.
  - intros A. apply Forall_forall. intros [h c] Hin. cbn [snd]. destruct (le_lt_dec 1023 (length c)) as [Lc|]; [exfalso|assumption].
    assert (Huc : Field.is_text ML h = true -> s_policy s <> TIgnore -> utf8_string c).
    { rewrite Forall_forall in Hu. exact (Hu _ Hin). }
    apply in_split in Hin as (l1 & l2 & ->). destruct (rfc_form _ _ _ _ Hz P l1 h c l2 HP eq_refl) as (a & post & E & Fm).
    set (w := a ++ c ++ [CR]). set (n := length w - Nat.pow 2 10). set (y := skipn n w). set (lf := LF :: delimiter b ++ post).
    set (ts := dribble (firstn n w)).
    assert (Lw : Nat.pow 2 10 <= length w).
    { unfold w. rewrite !app_length. cbn [length]. change (Nat.pow 2 10) with 1024. blia. }
    assert (Ly : length y = Nat.pow 2 10) by (unfold y; rewrite skipn_length; unfold n; blia).
    assert (Et : stream (ts ++ Chunk y :: dribble lf) = P ++ z).
    { rewrite stream_app. unfold ts. rewrite dribble_stream. cbn [stream]. rewrite dribble_stream, app_assoc. unfold y. rewrite firstn_skipn. rewrite E. unfold w, lf.
      rewrite <- !app_assoc. reflexivity. }
    assert (Ev : forall ev, In ev (ts ++ Chunk y :: dribble lf) -> (exists v, ev = Chunk [v]) \/ ev = Chunk y).
    { intros ev Z. apply in_app_or in Z as [Z|[Z|Z]]; [left; exact (dribble_in _ _ Z)|now right|left; exact (dribble_in _ _ Z)]. }
    assert (Hl : live (ts ++ Chunk y :: dribble lf)).
    { intros Z. destruct (Ev _ Z) as [(v & Z1)|Z1]; [discriminate|]. injection Z1 as Z1. rewrite <- Z1 in Ly. discriminate. }
    assert (Hq : quiet (ts ++ Chunk y :: dribble lf)).
    { intros k Z. destruct (Ev _ Z) as [(v & Z1)|Z1]; discriminate. }
    assert (Sm : forall d, In (Chunk d) (ts ++ Chunk y :: dribble lf) -> length d <= MIN_BUF_SIZE).
    { intros d Z. destruct (Ev _ Z) as [(v & Z1)|Z1]; injection Z1 as ->; [cbn [length]; change MIN_BUF_SIZE with 1024; lia|]. rewrite Ly. apply Nat.leb_le. reflexivity. }
    destruct (A _ Et Hl Hq) as (fuel0 & F). destruct (F fuel0 (le_n _)) as (x & g' & f' & e' & Hf & en & -> & Wg & Fo & Ff).
    destruct (saved_finite ML trim MIN_BUF_SIZE m _ b s fuel0 _ g e _ _ _ _ (le_n _) Hm HD Hf) as (t' & r' & C & H).
    rewrite (cuts_small _ _ _ C Sm) in H. clear t' C Hf.
    destruct (C98_surplus ML trim _ b s fuel0 (entries_new ML dir temp) g e en g' r' e' ts y (dribble lf) post l1 h c l2 Hl Hq HC eq_refl)
      as (log1 & v & log2 & Ee & Rd & F1 & F2); auto.
    + apply dribble_stream.
    + rewrite Et. exact Fm.
    + rewrite EM, Ly. blia.
    + rewrite EM. change (Nat.pow 2 10) with 1024. blia.
    + apply Hs.
    + assert (W : well_grouped (recount_fields ML (entries_new ML dir temp))) by (split; constructor).
      destruct (C45_grouping ML _ (log1 ++ (h, v) :: log2) (fh_name ML h) W) as (_ & Fa & _). rewrite <- Ee in Fa.
      replace (fields_at (recount_fields ML (entries_new ML dir temp)) (fh_name ML h)) with (@nil (saved_field ML)) in Fa by reflexivity.
      cbn [app] in Fa. specialize (Ff (fh_name ML h)). unfold found in Ff. rewrite Fa in Ff.
      apply found_each in Ff.
      * apply Forall2_app_inv_l in Ff as (k1 & k2 & G1 & G2 & Ek). inversion G2 as [|hv hc lv lc G3 G4]; subst.
        assert (Lk : length k1 = length l1).
        { exact (eq_trans (eq_sym (two_lengths _ _ _ G1)) (two_lengths _ _ _ F1)). }
        apply app_inj_length in Ek as [_ Ek]; [|exact (eq_sym Lk)].
        injection Ek as <- _. specialize (G3 eq_refl). cbn [fst snd] in G3. rewrite Rd in G3. injection G3 as G3.
        apply (f_equal (@length _)) in G3. rewrite app_length in G3. cbn [length CRLF] in G3. blia.
      * apply Forall2_app; [|constructor; [reflexivity|]]; (eapply two_impl; [|eassumption]); intros ? ? [Q _]; exact Q.
  - intros F t Et Hl Hq.
    exists (S (length (stream t) + (length t + length (stream t))) + N.to_nat (mem_min s) + 1 + length l + 1). intros fuel Lf.
    destruct (fwith_entries ML trim s fuel (entries_new ML dir temp) g (ffrom_reader m t b) e) as [[[x g'] f'] e'] eqn:Hf.
    destruct (saved_finite ML trim 0 m _ b s fuel _ g e _ _ _ _ (Nat.le_0_l _) Hm HD Hf) as (t' & r' & C & H).
    exists x, g', f', e'. split; auto.
    destruct (saved_fuel ML trim t' b s dir temp g e l (cuts_live _ _ _ C Hl) (cuts_quiet _ _ _ C Hq)
      (short_fields_exact (delimiter b) t' l (cuts_live _ _ _ C Hl) F) Hs) with (fuel := fuel) as (x2 & g2 & r2 & e2 & H2 & Sf).
    + rewrite (cuts_stream _ _ _ C), Et. eapply rfc_parts; eauto.
    + rewrite (cuts_stream _ _ _ C). pose proof (cuts_length _ _ _ C). lia.
    + rewrite H in H2. injection H2 as <- <- <- <-. exact Sf.
Qed.

(** The form of [C98_exactly_example] through a buffer of 8 KiB. *)
Example C99_exactly_example :
  let c n := repeat 120%N n in
  let exact n := forall t, stream t = CRLF ++ sharp_body (c n) -> live t -> quiet t -> exists fuel0, forall fuel, fuel0 <= fuel -> exists x g' f' e',
    fwith_entries toy true saver_new fuel (entries_new toy [bs "d"] false) [] (ffrom_reader (Nat.pow 2 13) t (bs "b")) (no_failures (fun _ => None)) = (x, g', f', e') /\
    saved_form (sharp_list (c n)) x e' in
  @suffices toy saver_new (no_failures (fun _ => None)) [bs "d"] [] (sharp_list (c 1023)) /\ ~ exact 1023 /\ exact 1022.
Proof.
  cbv zeta.
  assert (HC : ~ In CR (bs "b")) by (intros [Z|[]]; discriminate).
  assert (Lb : length (bs "b") <= 510) by (apply Nat.leb_le; reflexivity).
  assert (Hm : 2 * MIN_BUF_SIZE <= Nat.pow 2 13) by (apply Nat.leb_le; reflexivity).
  assert (Q : forall n, n = 1022 \/ n = 1023 ->
    @suffices toy saver_new (no_failures (fun _ => None)) [bs "d"] [] (sharp_list (repeat 120%N n)) /\
    Forall (fun hc : field_headers toy * bytes => Field.is_text toy (fst hc) = true -> s_policy saver_new <> TIgnore -> utf8_string (snd hc)) (sharp_list (repeat 120%N n)) /\
    forall i, occurs_at (delimiter (bs "b")) (CRLF ++ sharp_body (repeat 120%N n)) i -> length CRLF <= i).
  { intros n Hn. split; [|split].
    - split; [reflexivity|]. split; [discriminate|]. split; [reflexivity|]. split; [reflexivity|].
      split; [|left]; repeat apply Forall_cons; try apply Forall_nil; cbn [snd]; apply N.leb_le; destruct Hn as [->| ->]; vm_compute; reflexivity.
    - repeat apply Forall_cons; try apply Forall_nil; intros _ _; apply valid_utf8_iff; destruct Hn as [->| ->]; vm_compute; reflexivity.
    - apply find_least. destruct Hn as [->| ->]; vm_compute; reflexivity. }
  destruct (Q 1023 (or_intror eq_refl)) as (S3 & U3 & F3). destruct (Q 1022 (or_introl eq_refl)) as (S2 & U2 & F2).
  split; [exact S3|]. split.
  - intros A. apply (C99_exactly toy true _ (bs "b") saver_new [bs "d"] false [] _ CRLF _ _ Hm HC Lb S3 U3 (sharp_rfc 1023 ltac:(auto)) F3) in A.
    pose proof (proj1 (Forall_forall _ _) A (mkFH toy (bs "b") None None, repeat 120%N 1023) (or_intror (or_introl eq_refl))) as A2.
    cbn [snd] in A2. pose proof (repeat_length 120%N 1023). blia.
  - apply (C99_exactly toy true _ (bs "b") saver_new [bs "d"] false [] _ CRLF _ _ Hm HC Lb S2 U2 (sharp_rfc 1022 ltac:(auto)) F2).
    repeat apply Forall_cons; try apply Forall_nil; cbn [snd]; try (apply Nat.ltb_lt; reflexivity).
Qed.

(** A form of 5 kB that arrives in one piece, behind a buffer of 2 KiB: the first field is written to a writer that takes 7 bytes,
    the second to a file, after which the user reads on; the reads of the writer and of the model without cuts differ. *)
Example C99_history_example :
  let b := bs "b" in
  let t := [Chunk (toy_part (bs "a") (repeat 120%N 2640) ++ toy_part (bs "b") (repeat 121%N 2300) ++ toy_part (bs "c") (bs "end") ++ toy_end)] in
  let e := no_failures (fun _ => None) in let s := mkSaver (1024 * 1024) 256 100 TTry default_opts in
  let ks := [UOps toy [ONext]; UWriter toy s (mkDest [] [WAccept 7]) 100; UOps toy [ONext]; UPath toy s [bs "f"] 100; UOps toy [ONext; ORead 9; ONext]] in
  2 * MIN_BUF_SIZE <= 2048 /\ 4 * length (delimiter b) <= 2048 /\ (forall n, asks toy ks n -> 1024 <= n /\ 2 * n <= 2048) /\
  exists f e',
    fcalls toy true ks (ffrom_reader 2048 t b) e = ([VOps toy [BNext toy (Ok (Some (mkFH toy (bs "a") None None)))];
      VWriter toy (Full 2640%N) (mkDest (repeat 120%N 2640) []); VOps toy [BNext toy (Ok (Some (mkFH toy (bs "b") None None)))];
      VPath toy (Full (SFile [bs "f"] 2300)); VOps toy [BNext toy (Ok (Some (mkFH toy (bs "c") None None))); BRead toy (Ok (bs "end")); BNext toy (Ok None)]], f, e') /\
    e_fs e' [bs "f"] = Some (NFile (repeat 121%N 2300)).
Proof.
  cbv zeta. split; [apply Nat.leb_le; reflexivity|]. split; [apply Nat.leb_le; reflexivity|]. split.
  - intros n (os & [Q|[Q|[Q|[Q|[Q|[]]]]]] & Z); try discriminate; injection Q as <-; cbn [In] in Z; intuition discriminate.
  - do 2 eexists. split; [vm_compute; reflexivity|]. vm_compute. reflexivity.
Qed.
