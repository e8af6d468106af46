(** Saving succeeds when nothing fails. *)

From Verif Require Import Bytes BytesProofs Spec Io Boundary BoundaryProofs Utf8 Utf8Proofs Httparse Field FieldProofs
  ContentProofs DataProofs ShortProofs EntryProofs ReaderProofs Drive DriveProofs ReachProofs Rand Fs Save SaveProofs PhaseProofs SaveFacts
  TextProofs Toy PropsReader PropsSave EntriesProofs.

(** An environment in which nothing fails; writes may be short or interrupted. *)
Definition good_write (w : wevent) : Prop := match w with WAccept n => 0 < n | WFail k => k = KInterrupted end.
Definition good (e : env) : Prop :=
  Forall good_write (e_w e) /\ Forall (eq None) (e_mkdir e) /\ Forall (eq None) (e_open e).

Lemma try_write_all_good sched : Forall good_write sched -> forall b n,
  exists s', try_write_all sched b n = (Full (n + length b), s') /\ Forall good_write s'.
Proof.
  induction 1 as [|w sched Hw Hs IH]; intros b n; cbn [try_write_all].
  - destruct b; simpl; rewrite ?Nat.add_0_r; eauto.
  - destruct b as [|c b]; [simpl; rewrite Nat.add_0_r; eauto|]. destruct w as [m|k]; simpl in Hw.
    + destruct (Nat.min m (length (c :: b)) =? 0) eqn:Z; [apply Nat.eqb_eq in Z; simpl in Z; lia|].
      set (q := Nat.min m (length (c :: b))).
      destruct (IH (skipn q (c :: b)) (n + q)) as (s' & -> & G). exists s'. split; auto. do 2 f_equal.
      rewrite skipn_length. unfold q. lia.
    + subst k. cbn [iokind_eqb]. apply IH.
Qed.

Lemma write_file_good h e b : good e -> exists h' e', write_file (h, e) b = (Full (length b), (h', e')) /\ good e'.
Proof.
  intros (W & M & O). unfold write_file. destruct (try_write_all_good _ W b 0) as (s' & -> & G). simpl.
  rewrite firstn_all. unfold file_put. cbn [e_fs].
  destruct (e_fs e (h_path h)) as [[|c]|]; do 2 eexists; (split; [reflexivity|]); unfold good, set_fs; simpl; auto.
Qed.

(** No component of [p] before the last is a file. *)
Definition no_file_above (f : fs) (p : path) : Prop :=
  forall q a, p = q ++ a -> a <> [] -> forall c, f q <> Some (NFile c).

Lemma mkdirs_good todo : forall dn e, good e ->
  (forall a b, todo = a ++ b -> a <> [] -> forall c, e_fs e (dn ++ a) <> Some (NFile c)) ->
  exists e', mkdirs dn todo e = (None, e') /\ good e'.
Proof.
  induction todo as [|x todo IH]; intros dn e G H; cbn [mkdirs]; [eauto|].
  assert (Next : forall e1, good e1 -> (forall q, e_fs e1 q = e_fs e q \/ e_fs e1 q = Some NDir) ->
    exists e', mkdirs (dn ++ [x]) todo e1 = (None, e') /\ good e').
  { intros e1 G1 Q. apply IH; auto. intros a b -> Na c. rewrite <- app_assoc. simpl.
    destruct (Q (dn ++ x :: a)) as [->| ->]; [|discriminate]. apply (H (x :: a) b); [reflexivity|discriminate]. }
  destruct (e_fs e (dn ++ [x])) as [[|c]|] eqn:F.
  - apply Next; auto.
  - exfalso. apply (H [x] todo eq_refl) with (c := c); [discriminate|exact F].
  - assert (U : forall q, upd (e_fs e) (dn ++ [x]) (Some NDir) q = e_fs e q \/ upd (e_fs e) (dn ++ [x]) (Some NDir) q = Some NDir).
    { intros q. unfold upd. destruct (path_eq_dec q (dn ++ [x])); auto. }
    destruct G as (W & M & O). destruct (e_mkdir e) as [|k m] eqn:K.
    + apply Next; auto. split; [exact W|]. split; [simpl; rewrite K; constructor|exact O].
    + inversion M as [|? ? Hk Hm]; subst k. apply Next; auto. split; [exact W|]. split; [exact Hm|exact O].
Qed.

Lemma create_dir_good p e : good e -> no_file_above (e_fs e) p -> exists e', create_dir_all p e = (None, e') /\ good e'.
Proof.
  intros G H. unfold create_dir_all. apply mkdirs_good; auto. intros a b E Na c. simpl.
  destruct (list_eq_dec (list_eq_dec N.eq_dec) p []) as [->|Np]; [simpl in E; destruct a; [congruence|discriminate]|].
  apply (H a (b ++ [last p []])); [rewrite app_assoc, <- E; now apply app_removelast_last|]. destruct b; discriminate.
Qed.

Lemma open_good o p e : good e -> o_create_new o = true -> p <> [] -> e_fs e p = None ->
  exists h e', open_file o p e = (inl h, e') /\ good e'.
Proof.
  intros (W & M & O) Co Np F. unfold open_file.
  replace (o_append o && o_truncate o && negb (o_create_new o))%bool with false by (rewrite Co; now rewrite andb_false_r).
  assert (T : Forall (eq None) (tl (e_open e))) by (destruct O; simpl; auto).
  destruct (e_open e) as [|k m] eqn:K.
  - destruct p as [|x p]; [congruence|]. rewrite F, Co. do 2 eexists. split; [reflexivity|]. unfold good, set_fs; simpl; auto.
  - inversion O; subst k. destruct p as [|y p]; [congruence|]. rewrite F, Co. do 2 eexists. split; [reflexivity|].
    unfold good, set_fs; simpl; auto.
Qed.

Section WithMime.
Context (ML : mime_lib).

(** A copy loop whose closure takes every buffer as long as at most [n] bytes follow. *)
Lemma copy_full {W} (G : nat -> W -> Prop) wb trim t b h r0 :
  (forall w x n, G (length x + n) w -> exists w', wb w x = (Full (length x), w') /\ G n w') ->
  at_field ML trim t b h r0 -> live t -> steady t ->
  forall fuel total w d r c, exact_chunks (delimiter b) t [d ++ c] -> content (delimiter b) (rem r0) (d ++ c) -> moved r0 d r -> G (length c) w -> length c + length (src r) < fuel ->
  exists w' r', try_read_buf wb fuel total w r = (Full (total + N.of_nat (length c))%N, w', r') /\ G 0 w'.
Proof.
  intros Hw Hf Hl Hq. induction fuel as [|fuel IH]; intros total w d r c Hns Hc M Gc Lf; [lia|].
  cbn [try_read_buf]. destruct (read_to_boundary r) as [y r1] eqn:E.
  destruct (moved_field ML _ _ _ _ _ _ _ Hf M) as (I & _ & Sx & B & L & Mb & _ & _ & Mn).
  pose proof (read_to_boundary_spec _ _ _ I E) as (I1 & R1 & B1 & M1 & L1 & _ & K1 & K2 & X).
  destruct y as [x|e| |]; try tauto.
  2: { destruct (steady_fill _ _ _ I (steady_later _ _ L Hq) E) as [-> Lr].
       apply IH with (d := d); auto; [eapply mv_fill; eauto|lia]. }
  assert (Lr : length (src r1) <= length (src r)) by (destruct L1 as [u ->]; rewrite app_length; lia).
  destruct X as [Ex _].
  destruct x as [|x0 x].
  { assert (c = []) as ->.
    { pose proof (read_empty _ _ _ I Sx Nat.lt_0_1 (fill_empty_read _ _ E) (live_later _ _ L Hl) Mb) as (Z & _).
      destruct (moved_content ML _ _ _ _ _ _ _ _ Hf Hns M Hc) as (c' & Ec & Hc'). apply app_inv_head in Ec. subst c'.
      rewrite B in Z. exact (content_end _ _ _ Hc' Z). }
    exists w, r1. simpl. rewrite N.add_0_r. auto. }
  destruct (fill_content _ _ _ _ _ _ _ _ _ _ _ Hf Hl Hns Hc M E) as (c' & -> & _).
  rewrite app_length in Gc, Lf. destruct (Hw _ _ _ Gc) as (w1 & -> & G1).
  assert (Lx : length (x0 :: x) <= idx r1) by (rewrite Ex, firstn_length; lia).
  assert (M2 : moved r0 (d ++ x0 :: x) (consume (length (x0 :: x)) r1)).
  { replace (x0 :: x) with (firstn (length (x0 :: x)) (buf r1)) at 1.
    - eapply mv_take; eauto.
    - rewrite <- (firstn_all (x0 :: x)) at 2. rewrite Ex at 3. rewrite firstn_firstn. f_equal. lia. }
  destruct (IH (total + N.of_nat (length (x0 :: x)))%N w1 (d ++ x0 :: x) (consume (length (x0 :: x)) r1) c') as (w' & r' & E' & G').
  - now rewrite <- app_assoc.
  - now rewrite <- app_assoc.
  - exact M2.
  - exact G1.
  - cbn [consume src]. simpl in Lf. lia.
  - exists w', r'. split; auto. rewrite E'. do 3 f_equal. rewrite app_length. lia.
Qed.

Lemma limited_full_step {W} (G : W -> Prop) (wb : W -> bytes -> sres nat nat * W) limit : (limit <= U64MAX)%N ->
  (forall w x, G w -> exists w', wb w x = (Full (length x), w') /\ G w') ->
  forall (s : N * W) x n, (fst s + N.of_nat (length x + n) <= limit)%N /\ G (snd s) ->
  exists s', limited limit wb s x = (Full (length x), s') /\ (fst s' + N.of_nat n <= limit)%N /\ G (snd s').
Proof.
  intros Lm Hw [cp w] x n [H1 H2]. cbn [fst snd] in *. unfold limited.
  destruct (limit <? sat_add cp (N.of_nat (length x)))%N eqn:L; [apply N.ltb_lt in L; unfold sat_add in L; lia|].
  destruct (Hw w x H2) as (w' & -> & G'). eexists. split; [reflexivity|]. cbn [fst snd]. split; auto. unfold sat_add. lia.
Qed.

Lemma write_to_full {W} (G : W -> Prop) (wb : W -> bytes -> sres nat nat * W) s trim t b h r0 d r c fuel w :
  (forall w x, G w -> exists w', wb w x = (Full (length x), w') /\ G w') ->
  at_field ML trim t b h r0 -> live t -> steady t -> exact_chunks (delimiter b) t [d ++ c] ->
  content (delimiter b) (rem r0) (d ++ c) -> moved r0 d r -> G w -> length c + length (src r) < fuel ->
  (N.of_nat (length c) <= s_size_limit s)%N ->
  exists w' r', write_to wb s fuel w r = (Full (N.of_nat (length c)), w', r') /\ G w'.
Proof.
  intros Hw Hf Hl Hq Hns Hc M Gw Lf Ls. unfold write_to. destruct (s_size_limit s <? U64MAX)%N eqn:Q.
  - apply N.ltb_lt in Q. unfold try_copy_limited.
    destruct (copy_full (fun n (st : N * W) => (fst st + N.of_nat n <= s_size_limit s)%N /\ G (snd st)) (limited (s_size_limit s) wb)
                trim t b h r0) with (fuel := fuel) (total := 0%N) (w := (0%N, w)) (d := d) (r := r) (c := c) as (w' & r' & E & G'); auto.
    { intros w1 x n H. apply (limited_full_step G wb (s_size_limit s)); auto. lia. }
    rewrite E. destruct w' as [cp w']. exists w', r'. split; auto. apply G'.
  - destruct (copy_full (fun _ w => G w) wb trim t b h r0) with (fuel := fuel) (total := 0%N) (w := w) (d := d) (r := r) (c := c)
      as (w' & r' & E & G'); auto.
    rewrite E. exists w', r'. auto.
Qed.

(** Everything that [with_path] needs to succeed. *)
Definition fresh_path (e : env) (p : path) : Prop := p <> [] /\ e_fs e p = None /\ no_file_above (e_fs e) p.

Lemma with_path_full trim t b h r s p fuel e c :
  at_field ML trim t b h r -> live t -> steady t -> exact_chunks (delimiter b) t [c] -> content (delimiter b) (rem r) c ->
  s_opts s = default_opts -> s_policy s <> TForce -> (s_policy s = TIgnore \/ (mem_min s < U64MAX)%N) ->
  (N.of_nat (length c) <= s_size_limit s)%N ->
  ((N.of_nat (length c) <= mem_min s)%N \/ (good e /\ fresh_path e p)) ->
  enough r + N.to_nat (mem_min s) + 1 <= fuel ->
  exists v r' e', with_path s p fuel r e = (Full v, r', e') /\ readable v (e_fs e') = Some c /\
    ((N.of_nat (length c) <= mem_min s)%N -> e' = e) /\ (good e -> good e').
Proof.
  intros Hf Hl Hq Hns Hc Ho Nf Hp Ls He Hfu.
  pose proof (at_field_inv _ _ _ _ _ _ Hf) as I.
  destruct (with_path s p fuel r e) as [[x r'] e'] eqn:E.
  pose proof (with_path_ends _ _ _ _ _ _ _ _ I Hp Hfu E) as NF.
  assert (Pn : forall d r2 b0, pending r d r2 b0 -> exists c', c = d ++ b0 ++ c').
  { intros d r2 b0 P. apply pending_moved in P; auto.
    destruct (moved_content _ _ _ _ _ _ _ _ _ Hf Hns P Hc) as (c' & -> & _). exists c'. now rewrite app_assoc. }
  assert (Br : forall d r2 y, broke r d r2 y -> False).
  { intros d r2 y (r0 & M0 & E0 & Nk).
    destruct (moved_field ML _ _ _ _ _ _ _ Hf M0) as (I0 & _ & _ & _ & L0 & _).
    apply read_to_boundary_spec in E0 as (_ & _ & _ & _ & _ & _ & _ & _ & k & -> & Hk & _); auto.
    exact (Nk (steady_later _ _ L0 Hq _ Hk)). }
  assert (Fin : forall v, x = Full v -> readable v (e_fs e') = Some c).
  { intros v ->. eapply C32_terminated_partial; eauto. }
  pose proof E as E0.
  apply with_path_cases in E0 as [(Ee & d & M & _ & X)|(ob & r1 & b0 & M & P & Nb & Lt & Lo & B & D)]; auto.
  - exists (match x with Full v => v | _ => SText [] end), r', e'.
    destruct x as [v|v why|y| |]; try congruence; try (destruct X; fail).
    + subst e'. auto.
    + exfalso. destruct v as [w|w|]; simpl in X; try tauto.
      * destruct X as (_ & _ & _ & [(_ & Le & b0 & Nb & P)|[(_ & Q & _)|(y & _ & Bk & _)]]); try tauto; [|eauto].
        destruct (Pn _ _ _ P) as (c' & ->). rewrite !app_length in Ls. destruct b0; [congruence|]. simpl in Ls. lia.
      * destruct X as (_ & [(_ & Le & b0 & Nb & P)|(y & _ & Bk & _)]); [|eauto].
        destruct (Pn _ _ _ P) as (c' & ->). rewrite !app_length in Ls. destruct b0; [congruence|]. simpl in Ls. lia.
    + exfalso. destruct X as (_ & y' & _ & Bk). eauto.
  - destruct (Pn _ _ _ P) as (c' & Ec).
    assert (Big : (mem_min s < N.of_nat (length c))%N).
    { rewrite Ec, !app_length. lia. }
    destruct He as [He|[G (Np & Fp & Ab)]]; [lia|].
    pose proof (moved_spec _ _ _ M I) as (J1 & R1 & _ & _ & Lr).
    assert (Lr' : length (src r1) <= length (src r)) by (destruct Lr as [u ->]; rewrite app_length; lia).
    unfold save_disk in D. destruct (create_dir_good _ _ G Ab) as (e1 & C1 & G1). rewrite C1 in D.
    apply create_dir_all_spec in C1 as (_ & _ & Md & Fp1).
    destruct (open_good (s_opts s) p e1 G1) as (h1 & e2 & O1 & G2); auto; [now rewrite Ho|congruence|].
    rewrite O1 in D. destruct (write_file_good h1 e2 ob G2) as (h2 & e3 & W1 & G3).
    match type of D with context [write_file ?a ?z] => rewrite (W1 : write_file a z = _) in D end.
    cbn [smap] in D.
    destruct (write_to_full (fun st : handle * env => good (snd st)) write_file s trim t b h r ob r1 (b0 ++ c') fuel (h2, e3))
      as ([h4 e4] & r4 & W2 & G4); auto.
    + intros [h' e''] z Gz. destruct (write_file_good h' e'' z Gz) as (h3 & e5 & Q1 & Q2). exists (h3, e5). auto.
    + now rewrite <- Ec.
    + now rewrite <- Ec.
    + assert (length (b0 ++ c') <= length (rem r)).
      { destruct Hc as (pre & post & [Er _] & Fc).
        rewrite Er, !app_length. destruct Fc as [->|[<- _]]; rewrite Ec, ?app_length; lia. }
      unfold enough in Hfu. lia.
    + rewrite Ec, app_length in Ls. rewrite app_length in *. lia.
    + rewrite W2 in D. injection D as <- <- <-. do 3 eexists. split; [reflexivity|]. split; [apply Fin; reflexivity|].
      split; [lia|]. auto.
Qed.

(** ** The same for every chunking: at most one surplus CRLF *)

Lemma copy_any {W} (G : nat -> W -> Prop) wb trim t b h r0 pre0 post :
  (forall w x n, G (length x + n) w -> exists w', wb w x = (Full (length x), w') /\ G n w') ->
  at_field ML trim t b h r0 -> steady t -> first_split (delimiter b) (rem r0) pre0 post ->
  forall fuel total w d r pre, pre0 = d ++ pre -> moved r0 d r -> G (length pre) w -> length pre + length (src r) < fuel ->
  exists n m w' r', try_read_buf wb fuel total w r = (Full n, w', r') /\ G m w'.
Proof.
  intros Hw Hf Hq FS. induction fuel as [|fuel IH]; intros total w d r pre Hc M Gc Lf; [lia|].
  cbn [try_read_buf]. destruct (read_to_boundary r) as [y r1] eqn:E.
  destruct (moved_field ML _ _ _ _ _ _ _ Hf M) as (I & _ & _ & _ & L & _).
  pose proof (read_to_boundary_spec _ _ _ I E) as (I1 & _ & _ & _ & L1 & _ & _ & _ & X).
  destruct y as [x|e| |]; try tauto.
  2: { destruct (steady_fill _ _ _ I (steady_later _ _ L Hq) E) as [-> Lr].
       apply IH with (d := d) (pre := pre); auto; [eapply mv_fill; eauto|lia]. }
  assert (Lr : length (src r1) <= length (src r)) by (destruct L1 as [u ->]; rewrite app_length; lia).
  destruct x as [|x0 x]; [do 4 eexists; split; [reflexivity|exact Gc]|].
  pose proof (fill_moved _ _ _ (length (x0 :: x)) I E (le_n _)) as F. rewrite firstn_all in F.
  assert (M2 : moved r0 (d ++ x0 :: x) (consume (length (x0 :: x)) r1)) by (eapply moved_trans; eauto).
  destruct (moved_prefix ML _ _ _ _ _ _ _ _ _ Hf M2 FS) as (pre' & Ep & _).
  rewrite Hc, <- app_assoc in Ep. apply app_inv_head in Ep. subst pre.
  rewrite app_length in Gc, Lf. destruct (Hw _ _ _ Gc) as (w1 & -> & G1).
  apply IH with (d := d ++ x0 :: x) (pre := pre'); auto.
  - now rewrite Hc, <- app_assoc.
  - cbn [consume src]. simpl in Lf. lia.
Qed.

Lemma write_to_any {W} (G : W -> Prop) (wb : W -> bytes -> sres nat nat * W) s trim t b h r0 d r pre post fuel w :
  (forall w x, G w -> exists w', wb w x = (Full (length x), w') /\ G w') ->
  at_field ML trim t b h r0 -> steady t ->
  first_split (delimiter b) (rem r0) (d ++ pre) post -> moved r0 d r -> G w -> length pre + length (src r) < fuel ->
  (N.of_nat (length pre) <= s_size_limit s)%N ->
  exists n w' r', write_to wb s fuel w r = (Full n, w', r') /\ G w'.
Proof.
  intros Hw Hf Hq FS M Gw Lf Ls. unfold write_to. destruct (s_size_limit s <? U64MAX)%N eqn:Q.
  - apply N.ltb_lt in Q. unfold try_copy_limited.
    destruct (copy_any (fun n (st : N * W) => (fst st + N.of_nat n <= s_size_limit s)%N /\ G (snd st)) (limited (s_size_limit s) wb)
                trim t b h r0 (d ++ pre) post) with (fuel := fuel) (total := 0%N) (w := (0%N, w)) (d := d) (r := r) (pre := pre)
      as (n & m & w' & r' & E & G'); auto.
    { intros w1 x n H. apply (limited_full_step G wb (s_size_limit s)); auto. lia. }
    rewrite E. destruct w' as [cp w']. exists n, w', r'. split; auto. apply G'.
  - destruct (copy_any (fun _ w => G w) wb trim t b h r0 (d ++ pre) post) with (fuel := fuel) (total := 0%N) (w := w) (d := d) (r := r) (pre := pre)
      as (n & m & w' & r' & E & G'); auto.
    rewrite E. exists n, w', r'. auto.
Qed.

Lemma with_path_any trim t b h r s p fuel e pre post :
  at_field ML trim t b h r -> live t -> steady t -> first_split (delimiter b) (rem r) pre post ->
  s_opts s = default_opts -> s_policy s <> TForce -> (s_policy s = TIgnore \/ (mem_min s < U64MAX)%N) ->
  (N.of_nat (length pre) <= s_size_limit s)%N ->
  ((N.of_nat (length pre) <= mem_min s)%N \/ (good e /\ fresh_path e p)) ->
  enough r + N.to_nat (mem_min s) + 1 <= fuel ->
  exists v r' e' w, with_path s p fuel r e = (Full v, r', e') /\ readable v (e_fs e') = Some w /\ (pre = w \/ pre = w ++ CRLF) /\
    ((N.of_nat (length pre) <= mem_min s)%N -> e' = e) /\ (good e -> good e').
Proof.
  intros Hf Hl Hq FS Ho Nf Hp Ls He Hfu.
  pose proof (at_field_inv _ _ _ _ _ _ Hf) as I.
  destruct (with_path s p fuel r e) as [[x r'] e'] eqn:E.
  pose proof (with_path_ends _ _ _ _ _ _ _ _ I Hp Hfu E) as NF.
  assert (Pn : forall d r2 b0, pending r d r2 b0 -> exists c', pre = d ++ b0 ++ c').
  { intros d r2 b0 P. apply pending_moved in P; auto.
    destruct (moved_prefix ML _ _ _ _ _ _ _ _ _ Hf P FS) as (c' & -> & _). exists c'. now rewrite app_assoc. }
  assert (Br : forall d r2 y, broke r d r2 y -> False).
  { intros d r2 y (r0 & M0 & E0 & Nk).
    destruct (moved_field ML _ _ _ _ _ _ _ Hf M0) as (I0 & _ & _ & _ & L0 & _).
    apply read_to_boundary_spec in E0 as (_ & _ & _ & _ & _ & _ & _ & _ & k & -> & Hk & _); auto.
    exact (Nk (steady_later _ _ L0 Hq _ Hk)). }
  assert (Fin : forall v, x = Full v -> exists w, readable v (e_fs e') = Some w /\ (pre = w \/ pre = w ++ CRLF)).
  { intros v ->. eapply C32_any_chunking_partial; eauto. }
  pose proof E as E0.
  apply with_path_cases in E0 as [(Ee & d & M & _ & X)|(ob & r1 & b0 & M & P & Nb & Lt & Lo & B & D)]; auto.
  - destruct x as [v|v why|y| |]; try congruence; try (destruct X; fail).
    + destruct (Fin v eq_refl) as (w & Rw & Pw). subst e'. exists v, r', e, w. auto.
    + exfalso. destruct v as [w|w|]; simpl in X; try tauto.
      * destruct X as (_ & _ & _ & [(_ & Le & b0 & Nb & P)|[(_ & Q & _)|(y & _ & Bk & _)]]); try tauto; [|eauto].
        destruct (Pn _ _ _ P) as (c' & ->). rewrite !app_length in Ls. destruct b0; [congruence|]. simpl in Ls. lia.
      * destruct X as (_ & [(_ & Le & b0 & Nb & P)|(y & _ & Bk & _)]); [|eauto].
        destruct (Pn _ _ _ P) as (c' & ->). rewrite !app_length in Ls. destruct b0; [congruence|]. simpl in Ls. lia.
    + exfalso. destruct X as (_ & y' & _ & Bk). eauto.
  - destruct (Pn _ _ _ P) as (c' & Ec).
    assert (Big : (mem_min s < N.of_nat (length pre))%N).
    { rewrite Ec, !app_length. lia. }
    destruct He as [He|[G (Np & Fp & Ab)]]; [lia|].
    pose proof (moved_spec _ _ _ M I) as (J1 & R1 & _ & _ & Lr).
    assert (Lr' : length (src r1) <= length (src r)) by (destruct Lr as [u ->]; rewrite app_length; lia).
    unfold save_disk in D. destruct (create_dir_good _ _ G Ab) as (e1 & C1 & G1). rewrite C1 in D.
    apply create_dir_all_spec in C1 as (_ & _ & Md & Fp1).
    destruct (open_good (s_opts s) p e1 G1) as (h1 & e2 & O1 & G2); auto; [now rewrite Ho|congruence|].
    rewrite O1 in D. destruct (write_file_good h1 e2 ob G2) as (h2 & e3 & W1 & G3).
    match type of D with context [write_file ?a ?z] => rewrite (W1 : write_file a z = _) in D end.
    cbn [smap] in D.
    destruct (write_to_any (fun st : handle * env => good (snd st)) write_file s trim t b h r ob r1 (b0 ++ c') post fuel (h2, e3))
      as (n4 & [h4 e4] & r4 & W2 & G4); auto.
    + intros [h' e''] z Gz. destruct (write_file_good h' e'' z Gz) as (h3 & e5 & Q1 & Q2). exists (h3, e5). auto.
    + now rewrite <- Ec.
    + assert (length (b0 ++ c') <= length (rem r)).
      { destruct FS as [Er _]. rewrite Er, Ec, !app_length. lia. }
      unfold enough in Hfu. lia.
    + rewrite Ec, app_length in Ls. rewrite app_length in *. lia.
    + rewrite W2 in D. injection D as <- <- <-.
      destruct (Fin _ eq_refl) as (w & Rw & Pw).
      do 4 eexists. split; [reflexivity|]. split; [exact Rw|]. split; [exact Pw|]. split; [lia|]. auto.
Qed.

End WithMime.
