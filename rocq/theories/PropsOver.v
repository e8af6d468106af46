(** Property theorems: requests that exceed the limits, for every chunking of the body (C100). *)

From Verif Require Import Bytes BytesProofs Spec Io Boundary BoundaryProofs Utf8 Utf8Proofs Httparse Field FieldProofs
  ContentProofs DataProofs ShortProofs EntryProofs ReaderProofs Drive DriveProofs ReachProofs Rand Fs Save SaveProofs PhaseProofs SaveFacts
  TextProofs Toy PropsReader PropsSave EntriesProofs CompleteProofs PropsEntries HeaderSpec HeaderProofs PropsHeader WireSpec Client ClientProofs WireProofs
  PropsClient Lazy LazyProofs PropsLazy Mock PropsMock Savedir PropsSavedir Iron IronProofs PropsIron Requests PropsRequests PropsUpload Results PropsResults
  Readers PropsReaders PropsForeach PropsAny Servers PropsServers Examples PropsExamples PropsAnyway.

Section Over.
Context (ML : mime_lib).

Lemma loop_outcome_any trim t b s fuel : live t -> quiet t -> s_opts s = default_opts ->
  s_policy s <> TForce -> (s_count_limit s <= U32MAX)%N ->
  forall l res en g r e x g' r' e', inv r -> next_state ML trim t b res r l -> good e -> fresh_names e (en_dir ML en) g (length l) ->
  entries_loop ML trim s fuel res en g r e = (x, g', r', e') ->
  x = SFuel \/ (exists en', x = Full en' /\ (en_count ML en + N.of_nat (length l) < s_count_limit s)%N) \/
  (exists pe, x = Part pe RCount /\ (s_count_limit s <= en_count ML en + N.of_nat (length l))%N) \/
  (exists pe h v c, x = Part pe RSize /\ pe_partial ML pe = Some (h, Some v) /\ In (h, c) l /\ (s_size_limit s < N.of_nat (length c + 2))%N).
Proof.
  intros Hl Hq Ho Np Lc. induction fuel as [|fuel IH]; intros l res en g r e x g' r' e' I N G F; cbn [entries_loop].
  { intros H; injection H as <- <- <- <-. auto. }
  destruct (en_count ML en <? s_count_limit s)%N eqn:C.
  2: { apply N.ltb_ge in C. intros H; injection H as <- <- <- <-. right. right. left. eexists. split; [reflexivity|]. lia. }
  apply N.ltb_lt in C.
  destruct res as [[h|]|y| |]; simpl in N; try tauto.
  2: { intros H; injection H as <- <- <- <-. subst l. right. left. eexists. split; [reflexivity|]. simpl. lia. }
  destruct N as (c & l' & -> & Hf & Hc & P).
  destruct (save_field ML s h en (S fuel) g r e) as [[[y g1] r1] e1] eqn:E. pose proof E as E0.
  apply save_field_path in E as [-> E].
  set (s' := mkSaver (s_size_limit s) (s_count_limit s) (s_threshold s) (if Field.is_text ML h then s_policy s else TIgnore) (s_opts s)) in *.
  assert (Np' : s_policy s' <> TForce) by (unfold s'; cbn [s_policy]; destruct (Field.is_text ML h); [exact Np|discriminate]).
  pose proof (with_path_quiet _ _ _ _ _ _ _ _ _ _ _ _ _ Hf Hq (Ho : s_opts s' = default_opts) Np' G (proj1 (F 0 ltac:(simpl; lia))) E) as K.
  destruct y as [v|v why| | |]; try tauto.
  2: { subst why. intros H; injection H as <- <- <- <-. right. right. right. exists (mkPE ML en (Some (h, Some v))), h, v, c.
       split; auto. split; auto. split; [now left|]. exact (with_path_size_any _ _ _ _ _ _ _ _ _ _ _ _ _ _ Hf Hc E). }
  2: { intros H; injection H as <- <- <- <-. auto. }
  destruct (save_step_any ML _ _ _ _ _ _ _ _ _ _ _ _ _ _ _ _ Hf Hl Ho Hc P E0) as (_ & R1 & S1 & Z1 & P1).
  destruct (read_entry ML trim r1) as [res' r2] eqn:Re. intros H.
  pose proof (read_entry_parts ML _ _ _ _ _ _ _ R1 S1 (or_intror Z1) Hl P1 Re) as N.
  pose proof (reached_inv _ _ _ _ _ R1) as (I1 & _). pose proof (read_entry_keeps ML _ _ _ _ I1 Re) as I2.
  apply IH with (l := l') in H; auto.
  - cbn [en_count push_field length] in *. destruct H as [H|[(en' & H & L)|[(pe & H & L)|(pe & h2 & v2 & c2 & H & H1 & H2 & H3)]]]; auto.
    + right. left. exists en'. split; auto. lia.
    + right. right. left. exists pe. split; auto. lia.
    + right. right. right. exists pe, h2, v2, c2. split; auto. split; auto. split; auto. now right.
  - cbn [en_dir push_field]. eapply fresh_next; [exact F|]. apply (with_path_fs s' _ _ _ _ _ _ _ I Ho E).
Qed.

(** A field that exceeds the limit by more than what is kept in memory is cut off. *)
Lemma with_path_cut_any trim t b h r s p fuel e x r' e' c :
  at_field ML trim t b h r -> live t -> quiet t -> content (delimiter b) (rem r) c ->
  s_opts s = default_opts -> s_policy s <> TForce -> (mem_min s < U64MAX)%N -> (s_size_limit s < U64MAX)%N ->
  (s_size_limit s + mem_min s < N.of_nat (length c))%N -> good e -> fresh_path e p ->
  enough r + N.to_nat (mem_min s) + 1 <= fuel ->
  with_path s p fuel r e = (x, r', e') -> exists v, x = Part v RSize.
Proof.
  intros Hf Hl Hq Hc Ho Np Lm Ls Lc G Fp Lf E. pose proof (at_field_inv _ _ _ _ _ _ Hf) as I.
  pose proof (with_path_ends _ _ _ _ _ _ _ _ I (or_intror Lm) Lf E) as NF.
  pose proof (with_path_quiet _ _ _ _ _ _ _ _ _ _ _ _ _ Hf Hq Ho Np G Fp E) as K.
  destruct x as [v|v why| | |]; try tauto; [|subst; eauto]. exfalso.
  destruct (at_field_reached _ _ _ _ _ _ Hf) as (R0 & _).
  destruct (C76_saved _ _ _ _ _ _ _ _ _ _ _ _ _ _ Hf Hl Ho Hc E) as (w & Rd & Pw).
  assert (Lw : length c <= length w) by (destruct Pw as [->| ->]; [lia|rewrite app_length; lia]).
  destruct (C33_path_partial ML _ _ _ _ _ _ _ _ _ _ _ R0 Ls Ho E v (or_introl eq_refl)) as [Q1 Q2].
  destruct (is_memory v) eqn:Im.
  - specialize (Q1 eq_refl). destruct v as [u|u|q n]; try discriminate; injection Rd as ->; unfold saved_size in Q1; lia.
  - destruct (Q2 eq_refl) as (c' & F & L). destruct v as [u|u|q n]; try discriminate.
    apply with_path_cases in E as [(_ & d & _ & _ & X)|(ob & r1 & b0 & M & _ & _ & _ & _ & _ & D)]; auto; try (destruct X; fail).
    pose proof (moved_spec _ _ _ M I) as (J & _).
    apply save_disk_spec in D as (d & M1 & _ & _ & _ & [(_ & (k & Q) & _)|(u & _ & X)]); auto; [discriminate|].
    destruct X as (_ & Q & _). injection Q as -> _. cbn [readable] in Rd. rewrite F in Rd. injection Rd as ->.
    fold (mem_min s) in L. lia.
Qed.

(** The fields in front of the one that is too large are saved, and then it is cut off. *)
Lemma entries_cut_any trim t b s dir tmp g e l1 h c l2 :
  live t -> quiet t -> s_opts s = default_opts -> s_policy s <> TForce -> (mem_min s < U64MAX)%N ->
  (s_count_limit s <= U32MAX)%N -> (s_size_limit s < U64MAX)%N ->
  parts (head_block ML trim (delimiter b)) (delimiter b) (stream t) (l1 ++ (h, c) :: l2) ->
  good e -> fresh_names e dir g (length l1 + 1) ->
  (N.of_nat (length l1) < s_count_limit s)%N -> Forall (fun hc => (N.of_nat (length (snd hc) + 2) <= s_size_limit s)%N) l1 ->
  (s_size_limit s + mem_min s < N.of_nat (length c))%N ->
  forall fuel, S (length (stream t) + length t) + N.to_nat (mem_min s) + 1 + length l1 + 1 <= fuel ->
  exists en v g' r' e', with_entries ML trim s fuel (entries_new ML dir tmp) g (with_body t b) e =
    (Part (mkPE ML en (Some (h, Some v))) RSize, g', r', e') /\ en_count ML en = N.of_nat (length l1).
Proof.
  intros Hl Hq Ho Np Lm Lc Lz P G F Ll Fs Lh.
  set (fuel1 := S (length (stream t) + length t) + N.to_nat (mem_min s) + 1).
  intros fuel Lf.
  set (Q := fun (e : env) (g : rng) (l : list (field_headers ML * bytes)) =>
    Forall (fun hc => (N.of_nat (length (snd hc) + 2) <= s_size_limit s)%N) l /\
    good e /\ fresh_names e dir g (length l + 1)).
  destruct (with_entries ML trim s fuel (entries_new ML dir tmp) g (with_body t b) e) as [[[y g'] r'] e2] eqn:W.
  unfold with_entries in W. destruct (read_entry ML trim (with_body t b)) as [res r1] eqn:E.
  assert (R0 : reached ML trim t b (with_body t b)) by (exists [], []; reflexivity).
  pose proof (read_entry_parts ML _ _ _ _ _ _ _ R0 ltac:(discriminate) (or_introl eq_refl) Hl P E) as N.
  pose proof (read_entry_keeps ML _ _ _ _ (inv_from_reader t b) E) as I1.
  assert (Enough : forall h r, at_field ML trim t b h r -> enough r + N.to_nat (mem_min s) + 1 <= fuel1).
  { intros h' r Hat. destruct (at_field_reached ML _ _ _ _ _ Hat) as (R1 & _). destruct (reached_inv ML _ _ _ _ R1) as (_ & _ & _ & L & used & U).
    apply later_short in L. apply (f_equal (@length _)) in U. rewrite app_length in U. unfold enough, fuel1. lia. }
  destruct (loop_advance ML trim t b s dir fuel1 Q Hl Hq Ho Lc) with (l1 := l1) (l2 := (h, c) :: l2) (fuel := fuel)
    (res := res) (en := recount_fields ML (entries_new ML dir tmp)) (g := g) (r := r1) (e := e)
    as (res' & en' & g2 & r2 & e3 & K & K1 & K2 & (_ & Ge & Fe) & K4 & K5 & _); auto.
  - intros e0 g0 h0 c0 l r en fu Hd (Q1 & Q2 & Q3) Hat Hco Lfu. inversion Q1 as [|? ? S1 S2]; subst. cbn [snd] in S1.
    destruct (save_field ML s h0 en fu g0 r e0) as [[[z g3] r3] e4] eqn:Es. apply save_field_path in Es as [-> Es].
    set (s' := mkSaver (s_size_limit s) (s_count_limit s) (s_threshold s) (if Field.is_text ML h0 then s_policy s else TIgnore) (s_opts s)) in Es.
    pose proof (at_field_inv ML _ _ _ _ _ Hat) as Ir.
    destruct Hco as (pre & post & FS & FC).
    assert (Lp : length pre <= length c0 + 2) by (destruct FC as [->|[-> _]]; [rewrite app_length; cbn; lia|lia]).
    destruct (with_path_any ML trim t b h0 r s' (en_dir ML en ++ [name_of g0 0]) fu e0 pre post) as (v & r4 & e5 & w & K & _ & _ & _ & K2); auto using quiet_steady.
    + unfold s'. cbn [s_policy]. destruct (Field.is_text ML h0); [exact Np|discriminate].
    + unfold s'. cbn [s_size_limit]. lia.
    + right. split; auto. apply (Q3 0). lia.
    + change (mem_min s') with (mem_min s). specialize (Enough _ _ Hat). lia.
    + rewrite K in Es. injection Es as <- <- <-. exists v, (skipn RANDOM_FILENAME_LEN g0), r4, e5. split; [reflexivity|].
      split; auto. split; auto. eapply fresh_next; [exact Q3|]. exact (with_path_fs s' _ _ _ _ _ _ _ Ir (Ho : s_opts s' = default_opts) K).
  - split; auto.
  - change (en_count ML (recount_fields ML (entries_new ML dir tmp))) with 0%N. lia.
  - lia.
  - rewrite K in W. destruct (fuel - length l1) as [|fu] eqn:Ef; [unfold fuel1 in Lf; lia|]. cbn [entries_loop] in W.
    change (en_count ML (recount_fields ML (entries_new ML dir tmp))) with 0%N in K5.
    rewrite (proj2 (N.ltb_lt _ _)) in W by lia.
    destruct res' as [[h'|]|z| |]; simpl in K2; try tauto; [|discriminate].
    destruct K2 as (c' & l' & Q0 & Hat & Hco & P'). injection Q0 as -> -> ->.
    destruct (save_field ML s h' en' (S fu) g2 r2 e3) as [[[z g3] r3] e4] eqn:Es. apply save_field_path in Es as [-> Es].
    apply (with_path_cut_any trim t b h') with (c := c') in Es as (v & ->); auto.
    + injection W as <- <- <- <-. exists en', v. do 3 eexists. split; [reflexivity|]. rewrite K5. apply N.add_0_l.
    + cbn [s_policy]. destruct (Field.is_text ML h'); [exact Np|discriminate].
    + rewrite K4. apply (Fe 0). simpl. lia.
    + change (mem_min _) with (mem_min s). specialize (Enough _ _ Hat). lia.
Qed.

End Over.

(** ** C100 *)

(** Too many fields.  As many as the limit allows are saved, each exact or with one CRLF appended, and no more;
    the result says that the count was the reason. *)
Theorem C100_count : forall ML trim t b s dir tmp g e l,
  live t -> quiet t -> s_opts s = default_opts -> s_policy s <> TForce -> (N.min (s_size_limit s) (s_threshold s) < U64MAX)%N ->
  (s_count_limit s <= U32MAX)%N ->
  parts (head_block ML trim (delimiter b)) (delimiter b) (stream t) l -> good e -> fresh_names e dir g (length l) ->
  (s_count_limit s <= N.of_nat (length l))%N -> Forall (fun hc => (N.of_nat (length (snd hc) + 2) <= s_size_limit s)%N) l ->
  exists fuel0, forall fuel, fuel0 <= fuel -> exists pe g' r' e' log d rest,
    with_entries ML trim s fuel (entries_new ML dir tmp) g (with_body t b) e = (Part pe RCount, g', r', e') /\
    pe_partial ML pe = None /\ l = d ++ rest /\ N.of_nat (length d) = s_count_limit s /\
    pe_entries ML pe = pushes ML (entries_new ML dir tmp) log /\ Forall2 (saved_as (e_fs e')) log d.
Proof.
  intros ML trim t b s dir tmp g e l Hl Hq Ho Np Lm Lc P G F Ll Fs.
  assert (R0 : reached ML trim t b (with_body t b)) by (exists [], []; reflexivity).
  pose proof (reached_inv _ _ _ _ _ R0) as (I0 & _).
  exists (enough (with_body t b) + N.to_nat (mem_min s) + 1 + N.to_nat (s_count_limit s) + 2). intros fuel Lf.
  destruct (with_entries ML trim s fuel (entries_new ML dir tmp) g (with_body t b) e) as [[[y g'] r'] e2] eqn:W.
  pose proof (fun en' => C76_request ML trim t b s fuel _ g e _ _ _ _ l en' Hl Ho P W) as Ex.
  unfold with_entries in W. destruct (read_entry ML trim (with_body t b)) as [res r1] eqn:E.
  pose proof (read_entry_inv ML _ _ _ _ I0 E) as (I1 & _ & _ & _ & _ & N1).
  pose proof (enough_entry ML _ _ _ _ I0 E) as Le.
  pose proof (read_entry_parts ML _ _ _ _ _ _ _ R0 ltac:(discriminate) (or_introl eq_refl) Hl P E) as N.
  assert (NF : y <> SFuel).
  { apply loop_ends in W; auto; change (en_count ML (recount_fields ML (entries_new ML dir tmp))) with 0%N; lia. }
  pose proof W as W0. eapply loop_outcome_any in W; eauto.
  change (en_count ML (recount_fields ML (entries_new ML dir tmp))) with 0%N in W.
  destruct W as [->|[(en & -> & L)|[(pe & -> & L)|(pe & h & v & c & -> & Hp & Hi & Lz)]]].
  - now destruct NF.
  - lia.
  - pose proof (count_partial ML _ _ _ _ _ _ _ _ _ _ _ _ W0 I1) as Cp.
    pose proof (loop_count_reached ML _ _ _ _ _ _ _ _ _ _ _ _ W0 I1) as Lr.
    pose proof (loop_count ML _ _ _ Lc _ _ _ _ _ _ _ _ _ (proj1 (recount_right ML (entries_new ML dir tmp))) W0) as [Lx Cr].
    unfold keep_partial in Lx. rewrite Cp in Lx.
    destruct (Ex (pe_entries ML pe)) as (log & d & rest & H1 & H2 & H3 & _); [eauto|].
    change (recount_fields ML (entries_new ML dir tmp)) with (entries_new ML dir tmp) in H1.
    exists pe, g', r', e2, log, d, rest. split; auto. split; auto. split; auto. split; [|auto].
    assert (Ld : length log = length d) by (clear - H3; induction H3; cbn; auto).
    destruct (C45_grouping ML (entries_new ML dir tmp) log []) as (_ & _ & Q1 & Q2); [split; constructor|].
    rewrite H1 in Lr, Lx. rewrite Q1 in Lr by reflexivity. rewrite <- fields_total, Q2 in Lx. rewrite Q2 in Lr.
    change (fields_of (entries_new ML dir tmp)) with 0 in *. change (total ML (recount_fields ML (entries_new ML dir tmp))) with 0 in Lx.
    rewrite Ld in *. cbn [Nat.add] in *. lia.
  - rewrite Forall_forall in Fs. specialize (Fs _ Hi). cbn [snd] in Fs. lia.
Qed.

(** A field that is too large by more than what fits into memory.  The fields in front of it are saved, each exact
    or with one CRLF appended; of the field itself a first part is kept, and the result names it. *)
Theorem C100_size : forall ML trim t b s dir tmp g e l1 h c l2,
  live t -> quiet t -> s_opts s = default_opts -> s_policy s <> TForce -> (s_size_limit s < U64MAX)%N -> (s_count_limit s <= U32MAX)%N ->
  parts (head_block ML trim (delimiter b)) (delimiter b) (stream t) (l1 ++ (h, c) :: l2) ->
  good e -> fresh_names e dir g (length l1 + 1) ->
  (N.of_nat (length l1) < s_count_limit s)%N -> Forall (fun hc => (N.of_nat (length (snd hc) + 2) <= s_size_limit s)%N) l1 ->
  (s_size_limit s + N.min (s_size_limit s) (s_threshold s) < N.of_nat (length c))%N ->
  exists fuel0, forall fuel, fuel0 <= fuel -> exists en v w g' r' e' log,
    with_entries ML trim s fuel (entries_new ML dir tmp) g (with_body t b) e = (Part (mkPE ML en (Some (h, Some v))) RSize, g', r', e') /\
    en = pushes ML (entries_new ML dir tmp) log /\ Forall2 (saved_as (e_fs e')) log l1 /\
    readable v (e_fs e') = Some w /\ prefix_of w (c ++ CRLF) /\
    parts (head_block ML trim (delimiter b)) (delimiter b) (rem r') l2.
Proof.
  intros ML trim t b s dir tmp g e l1 h c l2 Hl Hq Ho Np Lz Lc P G F Ll Fs Lh.
  exists (S (length (stream t) + length t) + N.to_nat (mem_min s) + 1 + length l1 + 1). intros fuel Lf.
  assert (Lm : (mem_min s < U64MAX)%N) by (unfold mem_min; lia).
  destruct (entries_cut_any ML trim t b s dir tmp g e l1 h c l2 Hl Hq Ho Np Lm Lc Lz P G F Ll Fs Lh fuel Lf)
    as (en & v & g' & r' & e' & W & Cn).
  pose proof W as W0. unfold with_entries in W0. destruct (read_entry ML trim (with_body t b)) as [res r1] eqn:E.
  assert (R0 : reached ML trim t b (with_body t b)) by (exists [], []; reflexivity).
  pose proof (read_entry_parts ML _ _ _ _ _ _ _ R0 ltac:(discriminate) (or_introl eq_refl) Hl P E) as N.
  pose proof (read_entry_keeps ML _ _ _ _ (inv_from_reader t b) E) as I1.
  destruct (loop_cut_any ML trim t b s _ Hl Ho _ _ _ _ _ _ _ _ _ _ I1 N W0)
    as (log & d & h' & c' & rest & v' & w & H1 & H2 & H3 & Hp & _ & Rd & Pw & _ & _ & P' & _).
  cbn [pe_entries pe_partial] in H1, Hp. injection Hp as <- <-.
  change (recount_fields ML (entries_new ML dir tmp)) with (entries_new ML dir tmp) in H1.
  assert (Ld : length log = length d) by (clear - H3; induction H3; cbn; auto).
  destruct (C45_grouping ML (entries_new ML dir tmp) log []) as (_ & _ & Q1 & Q2); [split; constructor|].
  rewrite H1 in Cn. rewrite Q1 in Cn by reflexivity. rewrite Q2 in Cn. change (fields_of (entries_new ML dir tmp)) with 0 in Cn.
  rewrite Ld in Cn. cbn [Nat.add] in Cn.
  assert (El : length d = length l1) by (unfold U32MAX in *; lia).
  assert (Q : l1 = d /\ (h, c) :: l2 = (h, c') :: rest).
  { clear - H2 El. revert l1 H2 El. induction d as [|x d IH]; intros [|y l1] H El; cbn in *; try discriminate; auto.
    injection H as <- H. injection El as El. destruct (IH _ H El) as [<- K]. auto. }
  destruct Q as [<- Q]. injection Q as <- <-.
  exists en, v, w, g', r', e', log. auto 10.
Qed.

(** *** The middleware *)

Lemma strict_outcome_any ML trim ic ev dir fuel g t b e l x e' :
  live t -> quiet t -> (ic_count ic <= U32MAX)%N ->
  parts (head_block ML trim (delimiter b)) (delimiter b) (stream t) l -> good e -> fresh_names e dir g (length l) ->
  read_request_strict ML trim ic ev dir fuel g (with_body t b) e = (x, e') ->
  x = OutOfFuel \/
  (exists en log, x = Ok (Some en) /\ (N.of_nat (length l) < ic_count ic)%N /\ en = pushes ML (entries_new ML dir true) log /\
     Forall2 (saved_as (e_fs e')) log l) \/
  (x = Err (ICountLimit ML (ic_count ic)) /\ (ic_count ic <= N.of_nat (length l))%N) \/
  (exists h c, x = Err (ISizeLimit ML h) /\ In (h, c) l /\ (ic_size ic < N.of_nat (length c + 2))%N).
Proof.
  intros Hl Hq Lc P G F H. unfold read_request_strict, with_temp_dir in H.
  destruct (with_entries ML trim (iron_saver ic) fuel (entries_new ML dir true) g (with_body t b) e) as [[[y g'] r'] e2] eqn:W.
  pose proof W as W0. unfold with_entries in W.
  destruct (read_entry ML trim (with_body t b)) as [res r1] eqn:E.
  assert (R0 : reached ML trim t b (with_body t b)) by (exists [], []; reflexivity).
  pose proof (read_entry_parts ML _ _ _ _ _ _ _ R0 ltac:(discriminate) (or_introl eq_refl) Hl P E) as N.
  pose proof (read_entry_keeps ML _ _ _ _ (inv_from_reader t b) E) as I1.
  eapply loop_outcome_any in W; eauto; try apply iron_policy.
  change (s_count_limit (iron_saver ic)) with (ic_count ic) in W. change (s_size_limit (iron_saver ic)) with (ic_size ic) in W.
  change (en_count ML (recount_fields ML (entries_new ML dir true))) with 0%N in W.
  destruct W as [->|[(en & -> & L)|[(pe & -> & L)|(pe & h & v & c & -> & Hp & Hi & Lz)]]].
  - injection H as <- <-. auto.
  - injection H as <- <-. right. left.
    destruct (C76_request ML trim t b (iron_saver ic) fuel _ g e _ _ _ _ l en Hl eq_refl P W0 (or_introl eq_refl)) as (log & d & rest & H1 & H2 & H3 & H4).
    rewrite (H4 eq_refl), app_nil_r in H2. subst d. exists en, log. auto.
  - injection H as <- <-. right. right. left. auto.
  - rewrite Hp in H. injection H as <- <-. right. right. right. eauto.
Qed.

(** The strict behaviour answers with the count error. *)
Theorem C100_strict_count : forall ML trim ic ev dir g t b e l,
  live t -> quiet t -> (ic_count ic <= U32MAX)%N ->
  parts (head_block ML trim (delimiter b)) (delimiter b) (stream t) l -> good e -> fresh_names e dir g (length l) ->
  (ic_count ic <= N.of_nat (length l))%N -> Forall (fun hc => (N.of_nat (length (snd hc) + 2) <= ic_size ic)%N) l ->
  exists fuel0, forall fuel, fuel0 <= fuel ->
  fst (read_request_strict ML trim ic ev dir fuel g (with_body t b) e) = Err (ICountLimit ML (ic_count ic)).
Proof.
  intros ML trim ic ev dir g t b e l Hl Hq Lc P G F Ll Fs.
  assert (R0 : reached ML trim t b (with_body t b)) by (exists [], []; reflexivity).
  destruct (C46_ends ML trim ic ev dir g t b _ e R0 Lc) as [fuel0 Hf]. exists fuel0. intros fuel Lf. specialize (Hf fuel Lf).
  destruct (read_request_strict ML trim ic ev dir fuel g (with_body t b) e) as [x e'] eqn:H.
  apply strict_outcome_any with (l := l) in H as [->|[(en & log & _ & L & _)|[[-> _]|(h & c & -> & Hi & L)]]]; auto.
  - destruct Hf. reflexivity.
  - lia.
  - rewrite Forall_forall in Fs. specialize (Fs _ Hi). cbn [snd] in Fs. lia.
Qed.

(** A request without a field that is too large is accepted or refused for its count, whatever the chunks. *)
Theorem C100_strict_decides : forall ML trim ic ev dir g t b e l,
  live t -> quiet t -> (ic_count ic <= U32MAX)%N ->
  parts (head_block ML trim (delimiter b)) (delimiter b) (stream t) l -> good e -> fresh_names e dir g (length l) ->
  Forall (fun hc => (N.of_nat (length (snd hc) + 2) <= ic_size ic)%N) l ->
  exists fuel0, forall fuel, fuel0 <= fuel ->
  ((exists en, fst (read_request_strict ML trim ic ev dir fuel g (with_body t b) e) = Ok (Some en)) <-> (N.of_nat (length l) < ic_count ic)%N) /\
  (fst (read_request_strict ML trim ic ev dir fuel g (with_body t b) e) = Err (ICountLimit ML (ic_count ic)) <-> (ic_count ic <= N.of_nat (length l))%N).
Proof.
  intros ML trim ic ev dir g t b e l Hl Hq Lc P G F Fs.
  assert (R0 : reached ML trim t b (with_body t b)) by (exists [], []; reflexivity).
  destruct (C46_ends ML trim ic ev dir g t b _ e R0 Lc) as [fuel0 Hf]. exists fuel0. intros fuel Lf. specialize (Hf fuel Lf).
  destruct (read_request_strict ML trim ic ev dir fuel g (with_body t b) e) as [x e'] eqn:H. cbn [fst] in *.
  apply strict_outcome_any with (l := l) in H as [->|[(en & log & -> & L & _)|[[-> L]|(h & c & -> & Hi & L)]]]; auto.
  - destruct Hf. reflexivity.
  - split; split; intros K; try discriminate K; eauto; lia.
  - split; split; intros K; auto; [destruct K; discriminate|lia].
  - rewrite Forall_forall in Fs. specialize (Fs _ Hi). cbn [snd] in Fs. lia.
Qed.

(** And with the size error, which names the field. *)
Theorem C100_strict_size : forall ML trim ic ev dir g t b e l1 h c l2,
  live t -> quiet t -> (ic_count ic <= U32MAX)%N -> (ic_size ic < U64MAX)%N ->
  parts (head_block ML trim (delimiter b)) (delimiter b) (stream t) (l1 ++ (h, c) :: l2) ->
  good e -> fresh_names e dir g (length l1 + 1) ->
  (N.of_nat (length l1) < ic_count ic)%N -> Forall (fun hc => (N.of_nat (length (snd hc) + 2) <= ic_size ic)%N) l1 ->
  (ic_size ic + N.min (ic_size ic) 10240 < N.of_nat (length c))%N ->
  exists fuel0, forall fuel, fuel0 <= fuel ->
  fst (read_request_strict ML trim ic ev dir fuel g (with_body t b) e) = Err (ISizeLimit ML h).
Proof.
  intros ML trim ic ev dir g t b e l1 h c l2 Hl Hq Lc Lz P G F Ll Fs Lh.
  destruct (C100_size ML trim t b (iron_saver ic) dir true g e l1 h c l2 Hl Hq eq_refl (iron_policy ic) Lz Lc P G F Ll Fs Lh) as [fuel0 K].
  exists fuel0. intros fuel Lf. destruct (K fuel Lf) as (en & v & w & g' & r' & e' & log & W & _).
  unfold read_request_strict, with_temp_dir. rewrite W. reflexivity.
Qed.

(** The lenient behaviour never ends on a request with as many fields as the limit allows. *)
Theorem C100_never_ends : forall ML trim ic ev dir g t b e l,
  live t -> quiet t -> (ic_count ic <= U32MAX)%N ->
  parts (head_block ML trim (delimiter b)) (delimiter b) (stream t) l -> good e -> fresh_names e dir g (length l) ->
  (ic_count ic <= N.of_nat (length l))%N -> Forall (fun hc => (N.of_nat (length (snd hc) + 2) <= ic_size ic)%N) l ->
  forall rounds fuel, fst (read_request_lenient ML trim ic ev dir rounds fuel g (with_body t b) e) = OutOfFuel.
Proof.
  intros ML trim ic ev dir g t b e l Hl Hq Lc P G F Ll Fs rounds fuel. unfold read_request_lenient, with_temp_dir.
  destruct (with_entries ML trim (iron_saver ic) fuel (entries_new ML dir true) g (with_body t b) e) as [[[y g'] r'] e2] eqn:W.
  unfold with_entries in W. destruct (read_entry ML trim (with_body t b)) as [res r1] eqn:E.
  assert (R0 : reached ML trim t b (with_body t b)) by (exists [], []; reflexivity).
  pose proof (read_entry_parts ML _ _ _ _ _ _ _ R0 ltac:(discriminate) (or_introl eq_refl) Hl P E) as N.
  pose proof (read_entry_keeps ML _ _ _ _ (inv_from_reader t b) E) as I1. pose proof W as W0.
  eapply loop_outcome_any in W; eauto; try apply iron_policy.
  change (s_count_limit (iron_saver ic)) with (ic_count ic) in W. change (s_size_limit (iron_saver ic)) with (ic_size ic) in W.
  change (en_count ML (recount_fields ML (entries_new ML dir true))) with 0%N in W.
  destruct W as [->|[(en & -> & L)|[(pe & -> & L)|(pe & h & v & c & -> & Hp & Hi & Lz)]]]; auto.
  - lia.
  - pose proof (loop_count_reached ML _ _ _ _ _ _ _ _ _ _ _ _ W0 I1) as Lr.
    assert (Lc' : (s_count_limit (iron_saver ic) <= U32MAX)%N) by exact Lc.
    pose proof (loop_count ML _ _ _ Lc' _ _ _ _ _ _ _ _ _ (proj1 (recount_right ML (entries_new ML dir true))) W0) as [_ Cr].
    pose proof (loop_inv ML _ _ _ _ _ _ _ _ _ _ _ _ I1 W0) as Ir.
    pose proof (count_partial ML _ _ _ _ _ _ _ _ _ _ _ _ W0 I1) as Cp.
    unfold keep_partial. rewrite Cp. apply lenient_stuck; auto.
  - rewrite Forall_forall in Fs. specialize (Fs _ Hi). cbn [snd] in Fs. lia.
Qed.

(** *** The servers *)

(** The two servers that have no answer for the limits panic on them, whatever the chunks. *)
Theorem C100_crash_count : forall ML sh (ma : machine ML) trim k b t l g out e, sound_machine ma -> panics k ->
  form_of k b t -> live t -> quiet t ->
  parts (head_block ML trim (delimiter b)) (delimiter b) (stream t) l ->
  0 < ma_tries ML ma -> temp_ready e (ma_temp ML ma) (bs "multipart-rs") g (length l) ->
  256 <= length l -> Forall (fun hc => (N.of_nat (length (snd hc) + 2) <= 8 * 1024 * 1024)%N) l ->
  exists fuel0, forall fuel, fuel0 <= fuel -> fst (fst (handle sh ma trim fuel g k (out, []) e)) = Crashed.
Proof.
  intros ML sh ma trim k b t l g out e Sm Pk Fk Hl Hq P Lt T Ll Fs.
  destruct (temp_first _ _ _ _ _ _ Lt T) as (e1 & Td & G1 & F1).
  destruct (C100_count ML trim t b saver_new _ true _ e1 l Hl Hq eq_refl ltac:(discriminate) eq_refl ltac:(vm_compute; discriminate) P G1 F1) as [fuel0 K]; auto.
  { change (s_count_limit saver_new) with 256%N. lia. }
  exists fuel0. intros fuel Lf. destruct (K fuel Lf) as (pe & g' & r' & e' & log & d & rest & W & _).
  assert (H : save_request ML ma trim fuel g (with_body t b) e = (Part pe RCount, e')).
  { unfold save_request, temp, temp_with_prefix. rewrite Td. unfold with_temp_dir. rewrite W. reflexivity. }
  pose proof H as S0. apply save_outcome_any with (l := l) in S0; auto.
  destruct S0 as (d1 & rest1 & d' & _ & _ & _ & _ & Hd). destruct (process_text ML sh ma Sm (keep_partial ML pe) e' d' [] out Hd) as (names & _ & E).
  destruct k as [q|q|form ps t0|started is q|started is q]; try destruct Pk; destruct Fk as [Fb <-]; cbn [handle].
  - unfold tiny_serve, tiny_process, server_from_request. rewrite Fb, H, E. reflexivity.
  - unfold iron_process, server_from_request. rewrite Fb, H, E. reflexivity.
Qed.

Theorem C100_crash_size : forall ML sh (ma : machine ML) trim k b t l1 h c l2 g out e, sound_machine ma -> panics k ->
  form_of k b t -> live t -> quiet t ->
  parts (head_block ML trim (delimiter b)) (delimiter b) (stream t) (l1 ++ (h, c) :: l2) ->
  0 < ma_tries ML ma -> temp_ready e (ma_temp ML ma) (bs "multipart-rs") g (length l1 + 1) ->
  length l1 < 256 -> Forall (fun hc => (N.of_nat (length (snd hc) + 2) <= 8 * 1024 * 1024)%N) l1 ->
  (8 * 1024 * 1024 + 10240 < N.of_nat (length c))%N ->
  exists fuel0, forall fuel, fuel0 <= fuel -> fst (fst (handle sh ma trim fuel g k (out, []) e)) = Crashed.
Proof.
  intros ML sh ma trim k b t l1 h c l2 g out e Sm Pk Fk Hl Hq P Lt T Ll Fs Lc.
  destruct (temp_first _ _ _ _ _ _ Lt T) as (e1 & Td & G1 & F1).
  destruct (C100_size ML trim t b saver_new _ true _ e1 l1 h c l2 Hl Hq eq_refl ltac:(discriminate) eq_refl ltac:(vm_compute; discriminate) P G1 F1) as [fuel0 K]; auto.
  { change (s_count_limit saver_new) with 256%N. lia. }
  exists fuel0. intros fuel Lf. destruct (K fuel Lf) as (en & v & w & g' & r' & e' & log & W & _).
  assert (H : save_request ML ma trim fuel g (with_body t b) e = (Part (mkPE ML en (Some (h, Some v))) RSize, e')).
  { unfold save_request, temp, temp_with_prefix. rewrite Td. unfold with_temp_dir. rewrite W. reflexivity. }
  pose proof H as S0. apply save_outcome_any with (l := l1 ++ (h, c) :: l2) in S0; auto.
  destruct S0 as (d1 & rest1 & d' & _ & _ & _ & h' & c' & rest' & w' & _ & _ & _ & Hd).
  destruct (process_text ML sh ma Sm _ e' _ [] out Hd) as (names & _ & E).
  destruct k as [q|q|form ps t0|started is q|started is q]; try destruct Pk; destruct Fk as [Fb <-]; cbn [handle].
  - unfold tiny_serve, tiny_process, server_from_request. rewrite Fb, H, E. reflexivity.
  - unfold iron_process, server_from_request. rewrite Fb, H, E. reflexivity.
Qed.

(** On requests within the limits no server panics, whatever the chunks and whatever fails. *)
Theorem C100_no_crash : forall ML sh (ma : machine ML) trim fuel k b t l g o e,
  form_of k b t -> live t ->
  parts (head_block ML trim (delimiter b)) (delimiter b) (stream t) l ->
  (panics k -> length l < 256 /\ Forall (fun hc => (N.of_nat (length (snd hc) + 2) <= 8 * 1024 * 1024)%N) l) ->
  match k with Hyper started _ _ => started = None | _ => True end ->
  fst (fst (handle sh ma trim fuel g k o e)) <> Crashed.
Proof.
  intros ML sh ma trim fuel k b t l g o e Fk Hl P Lm Hs.
  assert (U : forall pe why e1, length l < 256 /\ Forall (fun hc => (N.of_nat (length (snd hc) + 2) <= 8 * 1024 * 1024)%N) l ->
    save_request ML ma trim fuel g (with_body t b) e = (Part pe why, e1) -> exists x, unwrap_err why = Returns x).
  { intros pe why e1 [L1 L2] S0. apply save_outcome_any with (l := l) in S0; auto. destruct S0 as (d & rest & d' & -> & _ & _ & S0).
    destruct why as [| |z|].
    - rewrite app_length in L1. lia.
    - destruct S0 as (h & c & d1 & w & -> & L & _). rewrite Forall_forall in L2.
      assert (Q : In (h, c) (d ++ (h, c) :: d1)) by (apply in_or_app; right; now left). apply L2 in Q. cbn [snd] in Q. lia.
    - exists z. reflexivity.
    - destruct S0. }
  assert (Np : forall e1, save_request ML ma trim fuel g (with_body t b) e <> (SPanic, e1)).
  { intros e1 S0. apply save_outcome_any with (l := l) in S0; auto. }
  destruct k as [q|q|form ps t0|started is q|started is q]; [| |destruct Fk as (-> & Fk)| |]; destruct Fk as [Fb <-]; cbn [handle panics] in *.
  - unfold tiny_serve, tiny_process, server_from_request. rewrite Fb. specialize (Lm I).
    destruct (save_request ML ma trim fuel g _ e) as [y e2] eqn:S0. destruct y as [en|pe why|z| |]; try discriminate.
    + destruct (process_entries _ _ _ _ _ _ _) as [[[kk|d] o2] e3]; discriminate.
    + destruct (U pe why e2 Lm eq_refl) as [x ->]. destruct (process_entries _ _ _ _ _ _ _) as [[[kk|d] o2] e3]; discriminate.
    + now destruct (Np e2).
  - unfold iron_process, server_from_request. rewrite Fb. specialize (Lm I).
    destruct (save_request ML ma trim fuel g _ e) as [y e2] eqn:S0. destruct y as [en|pe why|z| |]; try discriminate.
    + destruct (process_entries _ _ _ _ _ _ _) as [[[kk|d] o2] e3]; discriminate.
    + destruct (U pe why e2 Lm eq_refl) as [x ->]. destruct (process_entries _ _ _ _ _ _ _) as [[[kk|d] o2] e3]; discriminate.
    + now destruct (Np e2).
  - unfold rocket_upload, rocket_process. rewrite Fb.
    destruct (save_request ML ma trim fuel g _ e) as [y e2] eqn:S0. destruct y as [en|pe why|z| |]; try discriminate.
    + destruct (process_entries _ _ _ _ _ _ _) as [[[kk|d] o2] e3]; discriminate.
    + destruct (process_entries _ _ _ _ _ _ _) as [[[kk|d] o2] e3]; discriminate.
    + now destruct (Np e2).
  - unfold hyper_serve, switch_handle, server_from_request, hyper_entries. rewrite Fb, Hs.
    destruct (save_request ML ma trim fuel g _ e) as [y e2] eqn:S0. destruct y as [en|pe why|z| |]; try discriminate.
    + destruct (print_entries _ _ _ _ _ _) as [[z|] t']; discriminate.
    + destruct (print_entries _ _ _ _ _ _) as [[z|] t']; discriminate.
    + now destruct (Np e2).
  - unfold nickel_serve, server_from_request, nickel_entries. rewrite Fb.
    destruct (save_request ML ma trim fuel g _ e) as [y e2] eqn:S0. destruct y as [en|pe why|z| |]; try discriminate.
    + destruct started; [discriminate|]. destruct (print_entries _ _ _ _ _ _) as [[z|] t']; [destruct (write_pieces _ _ _) as [[z2|] w]|]; discriminate.
    + destruct started; [discriminate|]. destruct (print_entries _ _ _ _ _ _) as [[z|] t']; [destruct (write_pieces _ _ _) as [[z2|] w]|]; discriminate.
    + now destruct (Np e2).
Qed.

(** The chunking that gives a field its surplus, with a count limit of one and with a size limit of 400 bytes. *)
Example C100_example :
  let t := C03_t1 in let b := bs "b" in let h := mkFH toy (bs "a") None None in
  let l := [(h, repeat 120%N 1023)] in
  let e := no_failures (fun q => if path_eq_dec q [bs "d"] then Some NDir else None) in
  let g := repeat 7%N 12 in
  let one := mkIntercept None 5000 1 false in let small := mkIntercept None 400 9 false in
  parts (head_block toy true (delimiter b)) (delimiter b) (stream t) l /\ live t /\ quiet t /\ good e /\ fresh_names e [bs "d"] g (length l) /\
  fst (read_request_strict toy true one RmOk [bs "d"] 100 g (with_body t b) e) = Err (ICountLimit toy 1) /\
  fst (read_request_strict toy true small RmOk [bs "d"] 100 g (with_body t b) e) = Err (ISizeLimit toy h) /\
  fst (read_request_lenient toy true one RmOk [bs "d"] 40 100 g (with_body t b) e) = OutOfFuel /\
  (let '(x, g', r', e') := with_entries toy true (iron_saver small) 100 (entries_new toy [bs "d"] true) g (with_body t b) e in
   exists v, x = Part (mkPE toy (entries_new toy [bs "d"] true) (Some (h, Some v))) RSize /\
     readable v (e_fs e') = Some []) /\
  (let '(x, g', r', e') := with_entries toy true (iron_saver one) 100 (entries_new toy [bs "d"] true) g (with_body t b) e in
   x = Part (mkPE toy (push_field toy (entries_new toy [bs "d"] true) h (SText (repeat 120%N 1023 ++ CRLF))) None) RCount).
Proof.
  cbv zeta. destruct C87_example as (P & L & Q & _). split; [exact P|]. split; [exact L|]. split; [exact Q|].
  split; [split; [constructor|split; constructor]|].
  split.
  { intros k L0. cbn in L0. assert (k = 0) by lia. subst k. split; [|intros j Lj; lia].
    split; [discriminate|]. split; [vm_compute; reflexivity|].
    intros q a _ _ c F. cbn [e_fs no_failures] in F. destruct (path_eq_dec q [bs "d"]); discriminate. }
  split; [vm_compute; reflexivity|]. split; [vm_compute; reflexivity|]. split; [vm_compute; reflexivity|].
  split; [eexists; vm_compute; split; reflexivity|vm_compute; reflexivity].
Qed.
