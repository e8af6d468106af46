(** How saving a whole request ends: which reasons are possible, and that it ends. *)

From Verif Require Import Bytes BytesProofs Spec Io Boundary BoundaryProofs Utf8 Utf8Proofs Httparse Field FieldProofs
  ContentProofs DataProofs ShortProofs EntryProofs ReaderProofs Drive DriveProofs ReachProofs Rand Fs Save SaveProofs PhaseProofs SaveFacts
  TextProofs Toy PropsReader PropsSave EntriesProofs CompleteProofs PropsEntries.

Lemma Forall2_length {A B} (R : A -> B -> Prop) l m : Forall2 R l m -> length l = length m.
Proof. induction 1; simpl; congruence. Qed.

Lemma name_of_skip g k j : name_of (skipn (RANDOM_FILENAME_LEN * k) g) j = name_of g (k + j).
Proof. unfold name_of. rewrite skipn_plus. do 3 f_equal. lia. Qed.

Lemma touched_later dir g k e e1 e' : touched dir g e e1 -> touched dir (skipn (RANDOM_FILENAME_LEN * k) g) e1 e' -> touched dir g e e'.
Proof.
  intros T1 T2 q. destruct (T2 q) as [Q|(Q & K)].
  - rewrite Q. destruct (T1 q) as [Q'|(Q' & [K|K])]; auto.
  - right. split; [destruct (T1 q) as [Q'|(Q' & _)]; congruence|].
    destruct K as [[j ->]|K]; auto. left. exists (k + j). now rewrite name_of_skip.
Qed.

(** * One field *)

Lemma with_path_no_panic s p fuel r e x r' e' : inv r -> with_path s p fuel r e = (x, r', e') -> x <> SPanic.
Proof.
  intros I H. apply with_path_cases in H as [(_ & d & _ & _ & X)|(ob & r1 & b0 & M & _ & _ & _ & _ & _ & H)]; auto.
  - intros ->. exact X.
  - pose proof (moved_spec _ _ _ M I) as (J & _). apply save_disk_spec in H as (d & _ & N & _); auto.
Qed.

(** Only [force_text] reports invalid text. *)
Lemma with_path_no_utf8 s p fuel r e v r' e' : inv r -> s_policy s <> TForce -> with_path s p fuel r e <> (Part v RUtf8, r', e').
Proof.
  intros I Np H. apply with_path_cases in H as [(_ & d & _ & _ & X)|(ob & r1 & b0 & M & _ & _ & _ & _ & _ & H)]; auto.
  - destruct v as [w0|w0|q0 n0]; simpl in X; try tauto.
    + destruct X as (_ & _ & _ & [(Q & _)|[(_ & Q & _)|(? & Q & _)]]); congruence.
    + destruct X as (_ & [(Q & _)|(? & Q & _)]); discriminate.
  - pose proof (moved_spec _ _ _ M I) as (J & _).
    apply save_disk_spec in H as (d & M1 & _ & _ & _ & [(_ & (k & Q) & _)|(w & _ & X)]); auto; [discriminate|].
    destruct X as [(_ & _ & [(Q & _)|[(? & Q & _)|(? & Q)]])|(_ & _ & _ & _ & ? & Q)]; discriminate.
Qed.

Section WithMime.
Context (ML : mime_lib).

(** A field reported as too large is. *)
Lemma with_path_size trim t b h r s p fuel e v r' e' c :
  at_field ML trim t b h r -> exact_chunks (delimiter b) t [c] -> content (delimiter b) (rem r) c ->
  with_path s p fuel r e = (Part v RSize, r', e') -> (s_size_limit s < N.of_nat (length c))%N.
Proof.
  intros Hf Hns Hc H. pose proof (at_field_inv _ _ _ _ _ _ Hf) as I.
  assert (Pn : forall d r2 b0, pending r d r2 b0 -> exists c', c = d ++ b0 ++ c').
  { intros d r2 b0 P. apply pending_moved in P; auto.
    destruct (moved_content _ _ _ _ _ _ _ _ _ Hf Hns P Hc) as (c' & -> & _). exists c'. now rewrite app_assoc. }
  assert (Mem : forall d b0, (s_size_limit s <= N.of_nat (length d))%N -> b0 <> [] -> pending r d r' b0 ->
    (s_size_limit s < N.of_nat (length c))%N).
  { intros d b0 Ld Nb P. apply Pn in P as (c' & ->). rewrite !app_length. destruct b0; [congruence|]. simpl. lia. }
  apply with_path_cases in H as [(_ & d & _ & _ & X)|(ob & r1 & b0 & M & _ & _ & _ & _ & _ & H)]; auto.
  - destruct v as [w0|w0|q0 n0]; simpl in X; try tauto.
    + destruct X as (_ & _ & _ & [(_ & Ld & b0 & Nb & P)|[(Q & _)|(? & Q & _)]]); try discriminate. eauto.
    + destruct X as (_ & [(_ & Ld & b0 & Nb & P)|(? & Q & _)]); try discriminate. eauto.
  - pose proof (moved_spec _ _ _ M I) as (J & _).
    apply save_disk_spec in H as (d & M1 & _ & _ & _ & [(_ & (k & Q) & _)|(w & _ & X)]); auto; [discriminate|].
    destruct X as [(_ & _ & [(_ & b1 & Nb & P & L)|[(? & Q & _)|(? & Q)]])|(_ & _ & _ & _ & ? & Q)]; try discriminate.
    destruct P as (r2 & M2 & E2). destruct (Pn (ob ++ d) r' b1) as (c' & ->).
    { exists r2. split; auto. eapply moved_trans; eauto. }
    rewrite !app_length. lia.
Qed.

(** [try_read_buf] over an input that does not fail stops only when the closure does. *)
Lemma copy_reasons {W} (G : W -> Prop) (P : reason -> Prop) (wb : W -> bytes -> sres nat nat * W) trim t b h r0 :
  (forall w x y w', G w -> wb w x = (y, w') ->
     match y with Full n => n <= length x /\ G w' | Part _ why => P why | _ => False end) ->
  at_field ML trim t b h r0 -> quiet t ->
  forall fuel total w d r x w' r', moved r0 d r -> G w -> try_read_buf wb fuel total w r = (x, w', r') ->
  match x with Full _ => G w' | Part _ why => P why | SFuel => True | _ => False end.
Proof.
  intros Hw Hf Hq. induction fuel as [|fuel IH]; intros total w d r x w' r' M Gw; cbn [try_read_buf].
  { intros H; injection H as <- <- <-. exact I. }
  destruct (read_to_boundary r) as [y r1] eqn:E.
  destruct (moved_field ML _ _ _ _ _ _ _ Hf M) as (Ir & _ & Sx & B & L & Mb & _ & _ & Mn).
  pose proof (read_to_boundary_spec _ _ _ Ir E) as (I1 & R1 & B1 & M1 & L1 & _ & K1 & K2 & X).
  destruct y as [z|e| |]; try tauto.
  2: { exfalso. destruct X as (k & _ & X & _). exact (quiet_later _ _ L Hq _ X). }
  destruct z as [|z0 z].
  { intros H; injection H as <- <- <-. exact Gw. }
  destruct (wb w (z0 :: z)) as [y w1] eqn:Ew. pose proof (Hw _ _ _ _ Gw Ew) as K.
  destruct y as [n|n why|y| |]; try tauto.
  - destruct K as [Ln G1]. apply IH with (d := d ++ firstn n (z0 :: z)); auto.
    eapply moved_trans; [exact M|]. apply fill_moved; auto.
  - intros H; injection H as <- <- <-. exact K.
Qed.

Lemma limited_reasons {W} (G : W -> Prop) (P : reason -> Prop) (wb : W -> bytes -> sres nat nat * W) limit : P RSize ->
  (forall w x y w', G w -> wb w x = (y, w') ->
     match y with Full n => n <= length x /\ G w' | Part _ why => P why | _ => False end) ->
  forall (w : N * W) x y w', G (snd w) -> limited limit wb w x = (y, w') ->
     match y with Full n => n <= length x /\ G (snd w') | Part _ why => P why | _ => False end.
Proof.
  intros Ps Hw [cp w] x y w' Gw. cbn [snd] in Gw. unfold limited. destruct (_ <? _)%N.
  { intros H; injection H as <- <-. exact Ps. }
  destruct (wb w x) as [z w1] eqn:E. intros H; injection H as <- <-. cbn [snd]. eapply Hw; eauto.
Qed.

Lemma write_to_reasons {W} (G : W -> Prop) (wb : W -> bytes -> sres nat nat * W) s trim t b h r0 d r fuel w x w' r' :
  (forall w x, G w -> exists w', wb w x = (Full (length x), w') /\ G w') ->
  at_field ML trim t b h r0 -> quiet t -> moved r0 d r -> G w -> write_to wb s fuel w r = (x, w', r') ->
  match x with Full _ => G w' | Part _ why => why = RSize | SFuel => True | _ => False end.
Proof.
  intros Hw Hf Hq M Gw.
  assert (Hw' : forall w x y w', G w -> wb w x = (y, w') ->
     match y with Full n => n <= length x /\ G w' | Part _ why => why = RSize | _ => False end).
  { intros w1 z y w2 G1 E. destruct (Hw w1 z G1) as (w3 & E3 & G3). rewrite E3 in E. injection E as <- <-. auto. }
  unfold write_to. destruct (s_size_limit s <? U64MAX)%N.
  - unfold try_copy_limited. destruct (try_read_buf _ _ _ _ _) as [[y [cp w1]] r1] eqn:E.
    intros H; injection H as <- <- <-.
    eapply (copy_reasons (fun st : N * W => G (snd st)) (fun why => why = RSize)) in E; eauto.
    apply limited_reasons; auto.
  - intros H. eapply (copy_reasons G (fun why => why = RSize)) in H; eauto.
Qed.

(** If nothing fails, saving a field ends with all of it or at the size limit. *)
Lemma with_path_quiet trim t b h r s p fuel e x r' e' :
  at_field ML trim t b h r -> quiet t -> s_opts s = default_opts -> s_policy s <> TForce -> good e -> fresh_path e p ->
  with_path s p fuel r e = (x, r', e') ->
  match x with Full _ => good e' | Part _ why => why = RSize | SFuel => True | _ => False end.
Proof.
  intros Hf Hq Ho Np G (Np' & Fp & Ab) E. pose proof (at_field_inv _ _ _ _ _ _ Hf) as I.
  assert (Br : forall d r2 y, broke r d r2 y -> False).
  { intros d r2 y (r0 & M0 & E0 & _).
    destruct (moved_field ML _ _ _ _ _ _ _ Hf M0) as (I0 & _ & _ & _ & L0 & _).
    apply read_to_boundary_spec in E0 as (_ & _ & _ & _ & _ & _ & _ & _ & k & _ & Hk & _); auto.
    exact (quiet_later _ _ L0 Hq _ Hk). }
  apply with_path_cases in E as [(-> & d & M & _ & X)|(ob & r1 & b0 & M & _ & _ & _ & _ & _ & D)]; auto.
  - destruct x as [v|v why|y| |]; auto.
    + destruct v as [w0|w0|q0 n0]; simpl in X; try tauto.
      * destruct X as (_ & _ & _ & [(-> & _)|[(_ & Q & _)|(y & _ & Bk & _)]]); [auto|tauto|]. destruct (Br _ _ _ Bk).
      * destruct X as (_ & [(-> & _)|(y & _ & Bk & _)]); [auto|]. destruct (Br _ _ _ Bk).
    + destruct X as (_ & y' & _ & Bk). destruct (Br _ _ _ Bk).
  - unfold save_disk in D. destruct (create_dir_good _ _ G Ab) as (e1 & C1 & G1). rewrite C1 in D.
    apply create_dir_all_spec in C1 as (_ & _ & Md & Fp1).
    destruct (open_good (s_opts s) p e1 G1) as (h1 & e2 & O1 & G2); auto; [now rewrite Ho|congruence|].
    rewrite O1 in D. destruct (write_file_good h1 e2 ob G2) as (h2 & e3 & W1 & G3).
    match type of D with context [write_file ?a ?z] => rewrite (W1 : write_file a z = _) in D end.
    cbn [smap] in D. destruct (write_to write_file s fuel (h2, e3) r1) as [[y [h4 e4]] r4] eqn:W2.
    injection D as <- <- <-.
    apply (write_to_reasons (fun st : handle * env => good (snd st)) write_file s trim t b h r ob) in W2; auto.
    + destruct y; try exact Logic.I; try exact W2; try exact (False_ind _ W2).
    + intros [h' e''] z Gz. destruct (write_file_good h' e'' z Gz) as (h3 & e5 & Q1 & Q2). exists (h3, e5). auto.
Qed.

(** A field larger than the limit and the threshold together is cut off at the limit. *)
Lemma with_path_cut trim t b h r s p fuel e x r' e' c :
  at_field ML trim t b h r -> live t -> quiet t -> exact_chunks (delimiter b) t [c] -> content (delimiter b) (rem r) c ->
  s_opts s = default_opts -> s_policy s <> TForce -> (mem_min s < U64MAX)%N -> (s_size_limit s < U64MAX)%N ->
  (s_size_limit s + mem_min s < N.of_nat (length c))%N -> good e -> fresh_path e p ->
  enough r + N.to_nat (mem_min s) + 1 <= fuel ->
  with_path s p fuel r e = (x, r', e') -> exists v, x = Part v RSize.
Proof.
  intros Hf Hl Hq Hns Hc Ho Np Lm Ls Lc G Fp Lf E. pose proof (at_field_inv _ _ _ _ _ _ Hf) as I.
  pose proof (with_path_ends _ _ _ _ _ _ _ _ I (or_intror Lm) Lf E) as NF.
  pose proof (with_path_quiet _ _ _ _ _ _ _ _ _ _ _ _ Hf Hq Ho Np G Fp E) as K.
  destruct x as [v|v why| | |]; try tauto; [|subst; eauto]. exfalso.
  destruct (at_field_reached _ _ _ _ _ _ Hf) as (R0 & _).
  assert (Rd : readable v (e_fs e') = Some c) by (eapply C32_terminated_partial; eauto).
  destruct (C33_path_partial ML _ _ _ _ _ _ _ _ _ _ _ R0 Ls Ho E v (or_introl eq_refl)) as [Q1 Q2].
  destruct (is_memory v) eqn:Im.
  - specialize (Q1 eq_refl). destruct v as [w|w|q n]; try discriminate; injection Rd as ->; unfold saved_size in Q1; lia.
  - destruct (Q2 eq_refl) as (c' & F & L). destruct v as [w|w|q n]; try discriminate.
    apply with_path_cases in E as [(_ & d & _ & _ & X)|(ob & r1 & b0 & M & _ & _ & _ & _ & _ & D)]; auto; try (destruct X; fail).
    pose proof (moved_spec _ _ _ M I) as (J & _).
    apply save_disk_spec in D as (d & M1 & _ & _ & _ & [(_ & (k & Q) & _)|(w & _ & X)]); auto; [discriminate|].
    destruct X as (_ & Q & _). injection Q as -> _. cbn [readable] in Rd. rewrite F in Rd. injection Rd as ->.
    fold (mem_min s) in L. lia.
Qed.

(** What is kept of a field that is cut off. *)
Lemma with_path_kept s p fuel r e v r' e' : inv r -> s_opts s = default_opts -> with_path s p fuel r e = (Part v RSize, r', e') ->
  exists w, readable v (e_fs e') = Some w /\ moved r w r'.
Proof.
  intros I Ho H. apply with_path_cases in H as [(_ & d & M & _ & X)|(ob & r1 & b0 & M & _ & _ & _ & _ & _ & H)]; auto.
  - exists d. destruct v as [w|w|q n]; simpl in X; try tauto; destruct X as [-> _]; auto.
  - pose proof (moved_spec _ _ _ M I) as (J & _).
    apply save_disk_spec in H as (d & M1 & _ & _ & _ & [(_ & (k & Q) & _)|(w & (base & Ob & St) & X)]); auto; [discriminate|].
    rewrite Ho in Ob, St. destruct Ob as [(_ & _ & ->)|(c & _ & Ob & _)]; [|discriminate].
    cbn [o_append default_opts] in St. unfold put in St. rewrite firstn_O, skipn_nil, app_nil_r in St. cbn [app] in St.
    destruct X as [(-> & -> & _)|(_ & _ & _ & _ & ? & Q)]; try discriminate.
    exists (ob ++ d). cbn [readable]. rewrite St. split; auto. eapply moved_trans; eauto.
Qed.

(** * The loop *)

Lemma loop_reasons trim s fuel : s_policy s <> TForce -> forall res en g r e x g' r' e', inv r ->
  res <> Panic -> entries_loop ML trim s fuel res en g r e = (x, g', r', e') ->
  x <> SPanic /\ forall pe why, x = Part pe why -> why <> RUtf8 /\ (why = RSize -> exists h v, pe_partial ML pe = Some (h, Some v)).
Proof.
  intros Np. induction fuel as [|fuel IH]; intros res en g r e x g' r' e' I Nr; cbn [entries_loop].
  { intros H; injection H as <- <- <- <-. split; discriminate. }
  assert (Oth : forall pe why, why <> RUtf8 -> why <> RSize -> Part pe why <> @SPanic (entries ML) _ /\ forall pe' why', @Part (entries ML) _ pe why = Part pe' why' ->
    why' <> RUtf8 /\ (why' = RSize -> exists h v, pe_partial ML pe' = Some (h, Some v))).
  { intros pe why N1 N2. split; [discriminate|]. intros pe' why' Q. injection Q as -> ->. split; auto. congruence. }
  destruct (en_count ML en <? s_count_limit s)%N eqn:C.
  2: { intros H; injection H as <- <- <- <-. apply Oth; discriminate. }
  destruct res as [[h|]|y| |]; try congruence.
  2: { intros H; injection H as <- <- <- <-. split; discriminate. }
  2: { intros H; injection H as <- <- <- <-. apply Oth; discriminate. }
  2: { intros H; injection H as <- <- <- <-. split; discriminate. }
  destruct (save_field ML s h en (S fuel) g r e) as [[[y g1] r1] e1] eqn:E.
  apply save_field_path in E as [-> E].
  assert (Np' : s_policy (mkSaver (s_size_limit s) (s_count_limit s) (s_threshold s) (if is_text ML h then s_policy s else TIgnore) (s_opts s)) <> TForce)
    by (cbn [s_policy]; destruct (is_text ML h); [exact Np|discriminate]).
  pose proof (with_path_no_panic _ _ _ _ _ _ _ _ I E) as NP.
  destruct y as [v|v why|y| |]; try congruence.
  2: { intros H; injection H as <- <- <- <-. split; [discriminate|]. intros pe' why' Q. injection Q as <- <-. split; [|intros _; exists h, v; reflexivity].
       intros ->. exact (with_path_no_utf8 _ _ _ _ _ _ _ _ I Np' E). }
  2: { intros H; injection H as <- <- <- <-. apply Oth; discriminate. }
  2: { intros H; injection H as <- <- <- <-. split; discriminate. }
  destruct (read_entry ML trim r1) as [res' r2] eqn:Re. intros H.
  apply with_path_moved in E as [d M]; auto. pose proof (moved_spec _ _ _ M I) as (I1 & _).
  pose proof (read_entry_inv ML _ _ _ _ I1 Re) as (I2 & _ & _ & _ & N1 & _).
  apply IH in H; auto.
Qed.

Lemma enough_entry trim r x r' : inv r -> read_entry ML trim r = (x, r') -> enough r' <= enough r.
Proof.
  intros I E. destruct (run_suffix ML trim [ONext] r [BNext ML x] r' I) as [u U].
  { cbn [run step]. now rewrite E. }
  pose proof (read_entry_inv ML _ _ _ _ I E) as (_ & _ & _ & [v L] & _).
  unfold enough. rewrite U, L, !app_length. lia.
Qed.

(** The loop ends. *)
Lemma loop_ends trim s fuel : (mem_min s < U64MAX)%N -> (s_count_limit s <= U32MAX)%N ->
  forall res en g r e x g' r' e', inv r -> res <> OutOfFuel ->
  (s_count_limit s <= en_count ML en + N.of_nat fuel - 1)%N ->
  enough r + N.to_nat (mem_min s) + 1 + N.to_nat (s_count_limit s - en_count ML en) + 1 <= fuel ->
  entries_loop ML trim s fuel res en g r e = (x, g', r', e') -> x <> SFuel.
Proof.
  intros Lm Lc. induction fuel as [|fuel IH]; intros res en g r e x g' r' e' I Nr Lf Lg; cbn [entries_loop]; [lia|].
  destruct (en_count ML en <? s_count_limit s)%N eqn:C.
  2: { intros H; injection H as <- <- <- <-. discriminate. }
  apply N.ltb_lt in C.
  destruct res as [[h|]|y| |]; try congruence.
  all: try (intros H; injection H as <- <- <- <-; discriminate).
  destruct (save_field ML s h en (S fuel) g r e) as [[[y g1] r1] e1] eqn:E.
  apply save_field_path in E as [-> E].
  assert (NF : y <> SFuel).
  { eapply with_path_ends; [exact I| | |exact E]; [right; exact Lm|]. change (mem_min _) with (mem_min s). lia. }
  destruct y as [v|v why|y| |]; try congruence.
  all: try (intros H; injection H as <- <- <- <-; discriminate).
  destruct (read_entry ML trim r1) as [res' r2] eqn:Re. intros H.
  apply with_path_moved in E as [d M]; auto. pose proof (moved_spec _ _ _ M I) as (I1 & _).
  pose proof (read_entry_inv ML _ _ _ _ I1 Re) as (I2 & _ & _ & _ & _ & N1).
  pose proof (enough_moved _ _ _ I M). pose proof (enough_entry _ _ _ _ I1 Re).
  assert (en_count ML (push_field ML en h v) = en_count ML en + 1)%N by (cbn [en_count push_field]; lia).
  eapply IH; [exact I2|exact N1| | |exact H]; lia.
Qed.

(** Saving the first fields [l1] of what is left. *)
Lemma loop_advance trim t b s dir fuel0 (Q : env -> rng -> list (field_headers ML * bytes) -> Prop) :
  live t -> quiet t -> s_opts s = default_opts -> (s_count_limit s <= U32MAX)%N ->
  (forall e g h c l r en fuel, en_dir ML en = dir -> Q e g ((h, c) :: l) -> at_field ML trim t b h r ->
     content (delimiter b) (rem r) c -> fuel0 <= fuel ->
     exists v g1 r1 e1, save_field ML s h en fuel g r e = (Full v, g1, r1, e1) /\ Q e1 g1 l) ->
  forall l1 l2 fuel res en g r e, inv r -> next_state ML trim t b res r (l1 ++ l2) -> Q e g l1 -> en_dir ML en = dir ->
  (en_count ML en + N.of_nat (length l1) <= s_count_limit s)%N -> fuel0 + length l1 <= fuel ->
  exists res' en' g' r' e', entries_loop ML trim s fuel res en g r e = entries_loop ML trim s (fuel - length l1) res' en' g' r' e' /\
    inv r' /\ next_state ML trim t b res' r' l2 /\ Q e' g' [] /\ en_dir ML en' = dir /\
    en_count ML en' = (en_count ML en + N.of_nat (length l1))%N /\ enough r' <= enough r.
Proof.
  intros Hl Hq Ho Lc Step. induction l1 as [|[h c] l1 IH]; intros l2 fuel res en g r e I N HQ Hd Hc Hf.
  { exists res, en, g, r, e. rewrite Nat.sub_0_r, N.add_0_r. auto 10. }
  destruct fuel as [|fuel]; [cbn [length] in Hf; lia|]. cbn [entries_loop].
  cbn [length] in Hc, Hf. rewrite (proj2 (N.ltb_lt _ _)) by lia.
  destruct res as [[h'|]|y| |]; simpl in N; try tauto; [|discriminate].
  destruct N as (c' & l' & Q0 & Hat & Hco & P). injection Q0 as -> -> <-.
  destruct (Step e g h' c' l1 r en (S fuel)) as (v & g1 & r1 & e1 & E & HQ1); auto; [lia|].
  rewrite E. destruct (save_step_any ML _ _ _ _ _ _ _ _ _ _ _ _ _ _ _ _ Hat Hl Ho Hco P E) as (_ & R1 & S1 & Z1 & P1).
  destruct (read_entry ML trim r1) as [res' r2] eqn:Re.
  pose proof (read_entry_parts ML _ _ _ _ _ _ _ R1 S1 (or_intror Z1) Hl P1 Re) as N.
  apply save_field_path in E as [_ E]. apply with_path_moved in E as [d M]; auto.
  pose proof (moved_spec _ _ _ M I) as (I1 & _). pose proof (read_entry_keeps ML _ _ _ _ I1 Re) as I2.
  pose proof (enough_moved _ _ _ I M). pose proof (enough_entry _ _ _ _ I1 Re).
  destruct (IH l2 fuel res' (push_field ML en h' v) g1 r2 e1) as (res2 & en2 & g2 & r3 & e2 & K & K1 & K2 & K3 & K4 & K5 & K6); auto.
  - cbn [en_count push_field]. lia.
  - lia.
  - exists res2, en2, g2, r3, e2. split; [exact K|]. split; auto. split; auto. split; auto. split; auto.
    split; [|lia]. rewrite K5. cbn [en_count push_field length]. lia.
Qed.

(** If nothing fails: all the fields, or one of the limits. *)
Lemma loop_outcome trim t b s fuel : live t -> quiet t -> s_opts s = default_opts ->
  s_policy s <> TForce -> (s_count_limit s <= U32MAX)%N ->
  forall l res en g r e x g' r' e', exact_chunks (delimiter b) t (map snd l) -> inv r -> next_state ML trim t b res r l -> good e -> fresh_names e (en_dir ML en) g (length l) ->
  entries_loop ML trim s fuel res en g r e = (x, g', r', e') ->
  x = SFuel \/ (exists en', x = Full en' /\ (en_count ML en + N.of_nat (length l) < s_count_limit s)%N) \/
  (exists pe, x = Part pe RCount /\ (s_count_limit s <= en_count ML en + N.of_nat (length l))%N) \/
  (exists pe h v c, x = Part pe RSize /\ pe_partial ML pe = Some (h, Some v) /\ In (h, c) l /\ (s_size_limit s < N.of_nat (length c))%N).
Proof.
  intros Hl Hq Ho Np Lc. induction fuel as [|fuel IH]; intros l res en g r e x g' r' e' Hns I N G F; cbn [entries_loop].
  { intros H; injection H as <- <- <- <-. auto. }
  destruct (en_count ML en <? s_count_limit s)%N eqn:C.
  2: { apply N.ltb_ge in C. intros H; injection H as <- <- <- <-. right. right. left. eexists. split; [reflexivity|]. lia. }
  apply N.ltb_lt in C.
  destruct res as [[h|]|y| |]; simpl in N; try tauto.
  2: { intros H; injection H as <- <- <- <-. subst l. right. left. eexists. split; [reflexivity|]. simpl. lia. }
  destruct N as (c & l' & -> & Hf & Hc & P).
  destruct (save_field ML s h en (S fuel) g r e) as [[[y g1] r1] e1] eqn:E. pose proof E as E0.
  apply save_field_path in E as [-> E].
  set (s' := mkSaver (s_size_limit s) (s_count_limit s) (s_threshold s) (if is_text ML h then s_policy s else TIgnore) (s_opts s)) in *.
  assert (Np' : s_policy s' <> TForce) by (unfold s'; cbn [s_policy]; destruct (is_text ML h); [exact Np|discriminate]).
  pose proof (with_path_quiet _ _ _ _ _ _ _ _ _ _ _ _ Hf Hq (Ho : s_opts s' = default_opts) Np' G (proj1 (F 0 ltac:(simpl; lia))) E) as K.
  destruct y as [v|v why| | |]; try tauto.
  2: { subst why. intros H; injection H as <- <- <- <-. right. right. right. exists (mkPE ML en (Some (h, Some v))), h, v, c.
       split; auto. split; auto. split; [now left|]. exact (with_path_size _ _ _ _ _ _ _ _ _ _ _ _ _ Hf (exact_head _ _ _ _ Hns) Hc E). }
  2: { intros H; injection H as <- <- <- <-. auto. }
  destruct (save_step ML _ _ _ _ _ _ _ _ _ _ _ _ _ _ _ _ Hf Hl (exact_head _ _ _ _ Hns) Ho Hc P E0) as (_ & R1 & S1 & Z1 & P1).
  destruct (read_entry ML trim r1) as [res' r2] eqn:Re. intros H.
  pose proof (read_entry_parts ML _ _ _ _ _ _ _ R1 S1 (or_intror Z1) Hl P1 Re) as N.
  pose proof (reached_inv _ _ _ _ _ R1) as (I1 & _). pose proof (read_entry_keeps ML _ _ _ _ I1 Re) as I2.
  apply IH with (l := l') in H; auto; [|exact (exact_tail _ _ _ _ Hns)|].
  - cbn [en_count push_field length] in *. destruct H as [H|[(en' & H & L)|[(pe & H & L)|(pe & h2 & v2 & c2 & H & H1 & H2 & H3)]]]; auto.
    + right. left. exists en'. split; auto. lia.
    + right. right. left. exists pe. split; auto. lia.
    + right. right. right. exists pe, h2, v2, c2. split; auto. split; auto. split; auto. now right.
  - cbn [en_dir push_field]. eapply fresh_next; [exact F|]. apply (with_path_fs s' _ _ _ _ _ _ _ I Ho E).
Qed.

(** A field is cut off: the fields before it are saved, and the reader is inside it. *)
Lemma loop_cut trim t b s fuel : live t -> s_opts s = default_opts ->
  forall l res en g r e pe g' r' e', exact_chunks (delimiter b) t (map snd l) -> inv r -> next_state ML trim t b res r l ->
  entries_loop ML trim s fuel res en g r e = (Part pe RSize, g', r', e') ->
  exists log d h c rest v w, pe_entries ML pe = pushes ML en log /\ l = d ++ (h, c) :: rest /\
    Forall2 (stored_as ML e') log d /\ pe_partial ML pe = Some (h, Some v) /\ (s_size_limit s < N.of_nat (length c))%N /\
    readable v (e_fs e') = Some w /\ prefix_of w c /\
    reached ML trim t b r' /\ st r' <> AtEnd /\ parts (head_block ML trim (delimiter b)) (delimiter b) (rem r') rest /\
    enough r' <= enough r /\ g' = skipn (RANDOM_FILENAME_LEN * S (length log)) g.
Proof.
  intros Hl Ho. induction fuel as [|fuel IH]; intros l res en g r e pe g' r' e' Hns I N; cbn [entries_loop]; [discriminate|].
  destruct (en_count ML en <? s_count_limit s)%N eqn:C; [|discriminate].
  destruct res as [[h|]|y| |]; simpl in N; try discriminate.
  destruct N as (c & l' & -> & Hf & Hc & P).
  destruct (save_field ML s h en (S fuel) g r e) as [[[y g1] r1] e1] eqn:E. pose proof E as E0.
  apply save_field_path in E as [-> E].
  set (s' := mkSaver (s_size_limit s) (s_count_limit s) (s_threshold s) (if is_text ML h then s_policy s else TIgnore) (s_opts s)) in *.
  destruct y as [v|v why|y| |]; try discriminate.
  2: { intros H; injection H as <- -> <- <- <-. exists [], [], h, c, l', v.
       destruct (with_path_kept _ _ _ _ _ _ _ _ I (Ho : s_opts s' = default_opts) E) as (w & Rd & M).
       destruct (moved_field ML _ _ _ _ _ _ _ Hf M) as (_ & _ & S1 & _ & _ & _ & R1 & _).
       destruct (moved_content _ _ _ _ _ _ _ _ _ Hf (exact_head _ _ _ _ Hns) M Hc) as (c' & Ec & _).
       destruct (at_field_reached _ _ _ _ _ _ Hf) as (R0 & S0 & _).
       pose proof (reached_inv _ _ _ _ _ R0) as (_ & _ & B0 & _).
       exists w. split; [reflexivity|]. split; [reflexivity|]. split; [constructor|]. split; [reflexivity|].
       split; [exact (with_path_size _ _ _ _ _ _ _ _ _ _ _ _ _ Hf (exact_head _ _ _ _ Hns) Hc E)|]. split; auto. split; [exists c'; auto|].
       split; auto. split; auto. split; [|split; [exact (enough_moved _ _ _ I M)|reflexivity]].
       destruct (moved_skipped _ _ _ I S0 M) as [K _]. rewrite B0 in K. eapply parts_skipped; eauto. discriminate. }
  destruct (save_step ML _ _ _ _ _ _ _ _ _ _ _ _ _ _ _ _ Hf Hl (exact_head _ _ _ _ Hns) Ho Hc P E0) as (Rd & R1 & S1 & Z1 & P1).
  destruct (read_entry ML trim r1) as [res' r2] eqn:Re. intros H.
  pose proof (read_entry_parts ML _ _ _ _ _ _ _ R1 S1 (or_intror Z1) Hl P1 Re) as N.
  pose proof (reached_inv _ _ _ _ _ R1) as (I1 & _). pose proof (read_entry_keeps ML _ _ _ _ I1 Re) as I2.
  pose proof (loop_touched _ _ _ _ Ho _ _ _ _ _ _ _ _ _ I2 H) as T.
  destruct (with_path_moved _ _ _ _ _ _ _ _ I E) as [d1 M1].
  pose proof (enough_moved _ _ _ I M1) as Le1. pose proof (enough_entry _ _ _ _ I1 Re) as Le2.
  destruct (IH _ _ _ _ _ _ _ _ _ _ (exact_tail _ _ _ _ Hns) I2 N H) as (log & d & h2 & c2 & rest & v2 & w & H1 & -> & H3 & H4 & H5 & H6 & H7 & H8 & H9 & H10 & H11 & ->).
  exists ((h, v) :: log), ((h, c) :: d), h2, c2, rest, v2, w.
  split; auto. split; auto. split; [constructor; auto; split; auto; simpl; eapply readable_kept; eauto|].
  split; auto. split; auto. split; auto. split; auto. split; auto. split; auto. split; auto. split; [lia|].
  rewrite skipn_plus. cbn [length]. f_equal. lia.
Qed.

Lemma loop_count_reached trim s fuel : forall res en g r e pe g' r' e',
  entries_loop ML trim s fuel res en g r e = (Part pe RCount, g', r', e') -> inv r ->
  (s_count_limit s <= en_count ML (pe_entries ML pe))%N.
Proof.
  induction fuel as [|fuel IH]; intros res en g r e pe g' r' e'; cbn [entries_loop]; [discriminate|].
  destruct (en_count ML en <? s_count_limit s)%N eqn:C.
  2: { apply N.ltb_ge in C. intros H; injection H as <- <- <- <-. auto. }
  destruct res as [[h|]|y| |]; try discriminate.
  destruct (save_field ML s h en (S fuel) g r e) as [[[y g1] r1] e1] eqn:E.
  intros H I. apply save_field_path in E as [-> E].
  destruct y as [v|v why|y| |]; try discriminate.
  - destruct (read_entry ML trim r1) as [res' r2] eqn:Re.
    apply with_path_moved in E as [d M]; auto. pose proof (moved_spec _ _ _ M I) as (I1 & _).
    eapply IH; [exact H|]. exact (read_entry_keeps ML _ _ _ _ I1 Re).
  - injection H as _ -> _ _ _. destruct (with_path_reason _ _ _ _ _ _ _ _ _ I E). reflexivity.
Qed.

Lemma loop_inv trim s fuel : forall res en g r e x g' r' e', inv r -> entries_loop ML trim s fuel res en g r e = (x, g', r', e') -> inv r'.
Proof.
  induction fuel as [|fuel IH]; intros res en g r e x g' r' e' I; cbn [entries_loop].
  { intros H; injection H as _ _ <- _. auto. }
  destruct (_ <? _)%N; [|intros H; injection H as _ _ <- _; auto].
  destruct res as [[h|]|y| |]; try (intros H; injection H as _ _ <- _; auto; fail).
  destruct (save_field ML s h en (S fuel) g r e) as [[[y g1] r2] e1] eqn:E.
  apply save_field_path in E as [-> E]. apply with_path_moved in E as [d M]; auto. pose proof (moved_spec _ _ _ M I) as (I1 & _).
  destruct y as [v|v why|y| |]; try (intros H; injection H as _ _ <- _; auto; fail).
  destruct (read_entry ML trim r2) as [res' r3] eqn:Re. apply IH. exact (read_entry_keeps ML _ _ _ _ I1 Re).
Qed.

End WithMime.
