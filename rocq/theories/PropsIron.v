(** Property theorems about the Iron middleware (C46, C47, C63, C64). *)

From Verif Require Import Bytes BytesProofs Spec Io Boundary BoundaryProofs Utf8 Utf8Proofs Httparse Field FieldProofs
  ContentProofs DataProofs ShortProofs EntryProofs ReaderProofs Drive DriveProofs ReachProofs Rand Fs Save SaveProofs PhaseProofs SaveFacts
  TextProofs Toy PropsReader PropsSave EntriesProofs CompleteProofs PropsEntries Savedir PropsSavedir Iron IronProofs.

Lemma iron_mem ic : (mem_min (iron_saver ic) < U64MAX)%N.
Proof. unfold mem_min, iron_saver, size_limit, count_limit, saver_new. cbn [s_size_limit s_threshold]. unfold U64MAX. lia. Qed.

Lemma iron_policy ic : s_policy (iron_saver ic) <> TForce.
Proof. discriminate. Qed.

(** ** C46: LimitBehavior::ThrowError *)

(** No panic, whatever the request, the limits, the file system and the failures. *)
Theorem C46_no_panic : forall ML trim ic ev dir fuel g t b r e,
  reached ML trim t b r -> fst (read_request_strict ML trim ic ev dir fuel g r e) <> Panic.
Proof.
  intros ML trim ic ev dir fuel g t b r e Hr. unfold read_request_strict, with_temp_dir, with_entries.
  destruct (read_entry ML trim r) as [res r1] eqn:E.
  pose proof (reached_inv _ _ _ _ _ Hr) as (I & _).
  pose proof (read_entry_inv ML _ _ _ _ I E) as (I1 & _ & _ & _ & N1 & _).
  destruct (entries_loop _ _ _ _ _ _ _ _ _) as [[[x g'] r'] e'] eqn:H.
  apply loop_reasons in H as [Np H]; auto; [|apply iron_policy].
  destruct x as [en|pe why|y| |]; try discriminate; try congruence.
  destruct (H pe why eq_refl) as [H1 H2]. destruct why; try discriminate; try congruence.
  destruct (H2 eq_refl) as (h & v & ->). discriminate.
Qed.

(** It always ends. *)
Theorem C46_ends : forall ML trim ic ev dir g t b r e, reached ML trim t b r -> (ic_count ic <= U32MAX)%N ->
  exists fuel0, forall fuel, fuel0 <= fuel -> fst (read_request_strict ML trim ic ev dir fuel g r e) <> OutOfFuel.
Proof.
  intros ML trim ic ev dir g t b r e Hr Lc.
  exists (enough r + N.to_nat (mem_min (iron_saver ic)) + 1 + N.to_nat (ic_count ic) + 2). intros fuel Lf.
  unfold read_request_strict, with_temp_dir, with_entries.
  destruct (read_entry ML trim r) as [res r1] eqn:E.
  pose proof (reached_inv _ _ _ _ _ Hr) as (I & _).
  pose proof (read_entry_inv ML _ _ _ _ I E) as (I1 & _ & _ & _ & _ & N1).
  pose proof (enough_entry ML _ _ _ _ I E) as Le.
  destruct (entries_loop _ _ _ _ _ _ _ _ _) as [[[x g'] r'] e'] eqn:H.
  apply loop_ends in H; auto; try apply iron_mem.
  - destruct x as [en|pe why|y| |]; try discriminate; try congruence.
    destruct why; try discriminate. destruct (pe_partial ML pe) as [[h v]|]; discriminate.
  - change (s_count_limit (iron_saver ic)) with (ic_count ic). change (en_count ML (recount_fields ML (entries_new ML dir true))) with 0%N. lia.
  - change (s_count_limit (iron_saver ic)) with (ic_count ic). change (en_count ML (recount_fields ML (entries_new ML dir true))) with 0%N. lia.
Qed.

(** If the request is well formed and nothing fails, then the outcome is: all the fields with their contents,
    if there are fewer than the limit; or the count error, if there are as many or more; or the size error,
    naming a field that is too large. *)
Theorem C46_outcome : forall ML trim ic ev dir fuel g t b e l x e',
  live t -> quiet t -> exact_chunks (delimiter b) t (map snd l) -> (ic_count ic <= U32MAX)%N ->
  parts (head_block ML trim (delimiter b)) (delimiter b) (stream t) l -> good e -> fresh_names e dir g (length l) ->
  read_request_strict ML trim ic ev dir fuel g (with_body t b) e = (x, e') ->
  x = OutOfFuel \/
  (exists en log, x = Ok (Some en) /\ (N.of_nat (length l) < ic_count ic)%N /\ en = pushes ML (entries_new ML dir true) log /\
     Forall2 (fun hv hc => fst hv = fst hc /\ readable (snd hv) (e_fs e') = Some (snd hc)) log l) \/
  (x = Err (ICountLimit ML (ic_count ic)) /\ (ic_count ic <= N.of_nat (length l))%N) \/
  (exists h c, x = Err (ISizeLimit ML h) /\ In (h, c) l /\ (ic_size ic < N.of_nat (length c))%N).
Proof.
  intros ML trim ic ev dir fuel g t b e l x e' Hl Hq Hns Lc P G F H. unfold read_request_strict, with_temp_dir in H.
  destruct (with_entries ML trim (iron_saver ic) fuel (entries_new ML dir true) g (with_body t b) e) as [[[y g'] r'] e2] eqn:W.
  pose proof W as W0. unfold with_entries in W.
  destruct (read_entry ML trim (with_body t b)) as [res r1] eqn:E.
  assert (R0 : reached ML trim t b (with_body t b)) by (exists [], []; reflexivity).
  pose proof (read_entry_parts ML _ _ _ _ _ _ _ R0 ltac:(discriminate) (or_introl eq_refl) Hl P E) as N.
  pose proof (read_entry_keeps ML _ _ _ _ (inv_from_reader t b) E) as I1.
  eapply loop_outcome in W; eauto; try apply iron_policy.
  change (s_count_limit (iron_saver ic)) with (ic_count ic) in W. change (s_size_limit (iron_saver ic)) with (ic_size ic) in W.
  change (en_count ML (recount_fields ML (entries_new ML dir true))) with 0%N in W.
  destruct W as [->|[(en & -> & L)|[(pe & -> & L)|(pe & h & v & c & -> & Hp & Hi & Lz)]]].
  - injection H as <- <-. auto.
  - injection H as <- <-. right. left.
    destruct (C43_exact_partial ML trim t b (iron_saver ic) fuel _ g e _ _ _ _ l en Hl Hns eq_refl P W0 (or_introl eq_refl)) as (log & d & rest & H1 & H2 & H3 & H4).
    rewrite (H4 eq_refl), app_nil_r in H2. subst d. exists en, log. auto.
  - injection H as <- <-. right. right. left. auto.
  - rewrite Hp in H. injection H as <- <-. right. right. right. eauto.
Qed.

(** Whatever fails: a request that is accepted is complete. *)
Theorem C46_accepted : forall ML trim ic ev dir fuel g t b e l en e',
  live t -> exact_chunks (delimiter b) t (map snd l) -> (ic_count ic <= U32MAX)%N ->
  parts (head_block ML trim (delimiter b)) (delimiter b) (stream t) l ->
  read_request_strict ML trim ic ev dir fuel g (with_body t b) e = (Ok (Some en), e') ->
  (N.of_nat (length l) < ic_count ic)%N /\ exists log, en = pushes ML (entries_new ML dir true) log /\
    Forall2 (fun hv hc => fst hv = fst hc /\ readable (snd hv) (e_fs e') = Some (snd hc)) log l.
Proof.
  intros ML trim ic ev dir fuel g t b e l en e' Hl Hns Lc P H. unfold read_request_strict, with_temp_dir in H.
  destruct (with_entries ML trim (iron_saver ic) fuel (entries_new ML dir true) g (with_body t b) e) as [[[y g'] r'] e2] eqn:W.
  destruct y as [en1|pe why|y| |]; try discriminate.
  2: { destruct why; try discriminate. destruct (pe_partial ML pe) as [[h v]|]; discriminate. }
  injection H as -> ->.
  destruct (C43_exact_partial ML trim t b (iron_saver ic) fuel _ g e _ _ _ _ l en Hl Hns eq_refl P W (or_introl eq_refl)) as (log & d & rest & H1 & H2 & H3 & H4).
  rewrite (H4 eq_refl), app_nil_r in H2. subst d. split; [|exists log; auto].
  unfold with_entries in W. destruct (read_entry ML trim (with_body t b)) as [res r1] eqn:E.
  assert (Lc' : (s_count_limit (iron_saver ic) <= U32MAX)%N) by exact Lc.
  apply (loop_count ML _ _ _ Lc') in W as [W _]; [|reflexivity].
  change (s_count_limit (iron_saver ic)) with (ic_count ic) in W. change (total ML (recount_fields ML (entries_new ML dir true))) with 0 in W.
  destruct (C45_grouping ML (recount_fields ML (entries_new ML dir true)) log []) as (_ & _ & _ & Q).
  { split; constructor. }
  rewrite <- H1, fields_total in Q. rewrite Q in W. change (fields_of (recount_fields ML (entries_new ML dir true))) with 0 in W.
  assert (length log = length l) by (clear - H3; induction H3; simpl; lia). lia.
Qed.

(** Too many fields: the count error.  (As many as the limit are already too many, see C43.) *)
Theorem C46_count : forall ML trim ic ev dir g t b e l,
  live t -> quiet t -> exact_chunks (delimiter b) t (map snd l) -> (ic_count ic <= U32MAX)%N ->
  parts (head_block ML trim (delimiter b)) (delimiter b) (stream t) l -> good e -> fresh_names e dir g (length l) ->
  (ic_count ic <= N.of_nat (length l))%N -> Forall (fun hc => (N.of_nat (length (snd hc)) <= ic_size ic)%N) l ->
  exists fuel0, forall fuel, fuel0 <= fuel ->
  fst (read_request_strict ML trim ic ev dir fuel g (with_body t b) e) = Err (ICountLimit ML (ic_count ic)).
Proof.
  intros ML trim ic ev dir g t b e l Hl Hq Hns Lc P G F Ll Fs.
  assert (R0 : reached ML trim t b (with_body t b)) by (exists [], []; reflexivity).
  destruct (C46_ends ML trim ic ev dir g t b _ e R0 Lc) as [fuel0 Hf]. exists fuel0. intros fuel Lf. specialize (Hf fuel Lf).
  destruct (read_request_strict ML trim ic ev dir fuel g (with_body t b) e) as [x e'] eqn:H.
  apply C46_outcome with (l := l) in H as [->|[(en & log & _ & L & _)|[[-> _]|(h & c & -> & Hi & L)]]]; auto.
  - destruct Hf. reflexivity.
  - lia.
  - rewrite Forall_forall in Fs. specialize (Fs _ Hi). cbn [snd] in Fs. lia.
Qed.

(** The count error is only given for requests with at least as many fields as the limit, failures or not. *)
Theorem C46_count_only : forall ML trim ic ev dir fuel g t b e l n e',
  live t -> exact_chunks (delimiter b) t (map snd l) -> (ic_count ic <= U32MAX)%N ->
  parts (head_block ML trim (delimiter b)) (delimiter b) (stream t) l ->
  read_request_strict ML trim ic ev dir fuel g (with_body t b) e = (Err (ICountLimit ML n), e') ->
  n = ic_count ic /\ (ic_count ic <= N.of_nat (length l))%N.
Proof.
  intros ML trim ic ev dir fuel g t b e l n e' Hl Hns Lc P H. unfold read_request_strict, with_temp_dir in H.
  destruct (with_entries ML trim (iron_saver ic) fuel (entries_new ML dir true) g (with_body t b) e) as [[[y g'] r'] e2] eqn:W.
  destruct y as [en|pe why|y| |]; try discriminate. destruct why; try discriminate.
  2: { destruct (pe_partial ML pe) as [[h v]|]; discriminate. }
  injection H as <- _. split; auto.
  destruct (C43_exact_partial ML trim t b (iron_saver ic) fuel _ g e _ _ _ _ l (pe_entries ML pe) Hl Hns eq_refl P W) as (log & d & rest & H1 & -> & H3 & _); [eauto|].
  unfold with_entries in W. destruct (read_entry ML trim (with_body t b)) as [res r1] eqn:E.
  pose proof (read_entry_keeps ML _ _ _ _ (inv_from_reader t b) E) as I1.
  apply loop_count_reached in W; auto. rewrite H1 in W. change (s_count_limit (iron_saver ic)) with (ic_count ic) in W.
  destruct (C45_grouping ML (recount_fields ML (entries_new ML dir true)) log []) as (_ & _ & Q1 & Q2).
  { split; constructor. }
  rewrite Q1, Q2 in W by reflexivity. change (fields_of (recount_fields ML (entries_new ML dir true))) with 0 in W.
  rewrite app_length. assert (length log = length d) by (clear - H3; induction H3; simpl; lia). lia.
Qed.

(** A field reported as too large is larger than the limit. *)
Theorem C46_size_only : forall ML trim ic ev dir fuel g t b e l h e',
  live t -> exact_chunks (delimiter b) t (map snd l) ->
  parts (head_block ML trim (delimiter b)) (delimiter b) (stream t) l ->
  read_request_strict ML trim ic ev dir fuel g (with_body t b) e = (Err (ISizeLimit ML h), e') ->
  exists d c rest, l = d ++ (h, c) :: rest /\ (ic_size ic < N.of_nat (length c))%N.
Proof.
  intros ML trim ic ev dir fuel g t b e l h e' Hl Hns P H. unfold read_request_strict, with_temp_dir in H.
  destruct (with_entries ML trim (iron_saver ic) fuel (entries_new ML dir true) g (with_body t b) e) as [[[y g'] r'] e2] eqn:W.
  destruct y as [en|pe why|y| |]; try discriminate. destruct why; try discriminate.
  unfold with_entries in W. destruct (read_entry ML trim (with_body t b)) as [res r1] eqn:E.
  assert (R0 : reached ML trim t b (with_body t b)) by (exists [], []; reflexivity).
  pose proof (read_entry_parts ML _ _ _ _ _ _ _ R0 ltac:(discriminate) (or_introl eq_refl) Hl P E) as N.
  pose proof (read_entry_keeps ML _ _ _ _ (inv_from_reader t b) E) as I1.
  destruct (loop_cut ML trim t b (iron_saver ic) _ Hl eq_refl _ _ _ _ _ _ _ _ _ _ Hns I1 N W)
    as (log & d & h2 & c & rest & v & w & _ & -> & _ & Hp & L & _).
  rewrite Hp in H. injection H as -> _. eauto.
Qed.

(** False of the code: a field larger than the limit is accepted (2400 bytes, limit 1500, two chunks); see C33. *)
Definition twice : transport :=
  [Chunk (bs "--b" ++ CRLF ++ toy_head (bs "a") ++ repeat 120%N 1200); Chunk (repeat 121%N 1200 ++ CRLF ++ toy_end)].

Definition twice_list : list (field_headers toy * bytes) := [(mkFH toy (bs "a") None None, repeat 120%N 1200 ++ repeat 121%N 1200)].

Lemma twice_parts : parts (head_block toy true (delimiter (bs "b"))) (delimiter (bs "b")) (stream twice) twice_list.
Proof.
  apply parts_field with (pre := []) (x := toy_head (bs "a")) (rest := repeat 120%N 1200 ++ repeat 121%N 1200 ++ CRLF ++ toy_end).
  - apply find_split; vm_compute; reflexivity.
  - split; [|apply Nat.leb_le; vm_compute; reflexivity].
    eexists. split; [intros y; vm_compute; reflexivity|]. split; vm_compute; reflexivity.
  - exists (toy_head (bs "a") ++ repeat 120%N 1200 ++ repeat 121%N 1200 ++ CRLF), (DASHES ++ CRLF).
    split; [|left; reflexivity]. apply find_split; vm_compute; reflexivity.
  - apply parts_end with (pre := repeat 120%N 1200 ++ repeat 121%N 1200 ++ CRLF) (q := CRLF). apply find_split; vm_compute; reflexivity.
Qed.

Theorem C46_size_refuted : exists ic t l h c en,
  parts (head_block toy true (delimiter (bs "b"))) (delimiter (bs "b")) (stream t) l /\ live t /\ quiet t /\
  In (h, c) l /\ (ic_size ic < N.of_nat (length c))%N /\
  fst (read_request_strict toy true ic RmOk [bs "d"] 100 [] (with_body t (bs "b")) (no_failures (fun _ => None))) = Ok (Some en).
Proof.
  exists (mkIntercept None 1500 16 false), twice, twice_list, (mkFH toy (bs "a") None None), (repeat 120%N 1200 ++ repeat 121%N 1200). eexists.
  split; [exact twice_parts|]. split; [intros [H|[H|[]]]; discriminate|]. split; [intros k [H|[H|[]]]; discriminate|].
  split; [now left|]. split; vm_compute; reflexivity.
Qed.

(** A field that exceeds the limit by more than the memory threshold (10 KiB, or the limit if that is less) is
    reported, if the fields before it are within the limits.  Missing: fields between (C46_size_refuted). *)
Theorem C46_size_partial : forall ML trim ic ev dir g t b e l1 h c l2,
  live t -> quiet t -> exact_chunks (delimiter b) t (map snd (l1 ++ (h, c) :: l2)) -> (ic_count ic <= U32MAX)%N -> (ic_size ic < U64MAX)%N ->
  parts (head_block ML trim (delimiter b)) (delimiter b) (stream t) (l1 ++ (h, c) :: l2) ->
  good e -> fresh_names e dir g (length l1 + 1) ->
  (N.of_nat (length l1) < ic_count ic)%N -> Forall (fun hc => (N.of_nat (length (snd hc)) <= ic_size ic)%N) l1 ->
  (ic_size ic + N.min (ic_size ic) 10240 < N.of_nat (length c))%N ->
  exists fuel0, forall fuel, fuel0 <= fuel ->
  fst (read_request_strict ML trim ic ev dir fuel g (with_body t b) e) = Err (ISizeLimit ML h).
Proof.
  intros ML trim ic ev dir g t b e l1 h c l2 Hl Hq Hns Lc Lz P G F Ll Fs Lh.
  set (s := iron_saver ic).
  set (fuel1 := S (length (stream t) + length t) + N.to_nat (mem_min s) + 1).
  exists (fuel1 + length l1 + 1). intros fuel Lf.
  set (Q := fun (e : env) (g : rng) (l : list (field_headers ML * bytes)) =>
    exact_chunks (delimiter b) t (map snd l) /\ Forall (fun hc => (N.of_nat (length (snd hc)) <= s_size_limit s)%N) l /\
    good e /\ fresh_names e dir g (length l + 1)).
  unfold read_request_strict, with_temp_dir. fold s.
  destruct (with_entries ML trim s fuel (entries_new ML dir true) g (with_body t b) e) as [[[y g'] r'] e2] eqn:W.
  unfold with_entries in W. destruct (read_entry ML trim (with_body t b)) as [res r1] eqn:E.
  assert (R0 : reached ML trim t b (with_body t b)) by (exists [], []; reflexivity).
  pose proof (read_entry_parts ML _ _ _ _ _ _ _ R0 ltac:(discriminate) (or_introl eq_refl) Hl P E) as N.
  pose proof (read_entry_keeps ML _ _ _ _ (inv_from_reader t b) E) as I1.
  assert (Enough : forall h r, at_field ML trim t b h r -> enough r + N.to_nat (mem_min s) + 1 <= fuel1).
  { intros h' r Hat. destruct (at_field_reached ML _ _ _ _ _ Hat) as (R1 & _). destruct (reached_inv ML _ _ _ _ R1) as (_ & _ & _ & L & used & U).
    apply later_short in L. apply (f_equal (@length _)) in U. rewrite app_length in U. unfold enough, fuel1. lia. }
  destruct (loop_advance ML trim t b s dir fuel1 Q Hl Hq eq_refl Lc) with (l1 := l1) (l2 := (h, c) :: l2) (fuel := fuel)
    (res := res) (en := recount_fields ML (entries_new ML dir true)) (g := g) (r := r1) (e := e)
    as (res' & en' & g2 & r2 & e3 & K & K1 & K2 & (_ & _ & Ge & Fe) & K4 & K5 & _); auto.
  - intros e0 g0 h0 c0 l r en fu Hd (Q0 & Q1 & Q2 & Q3) Hat Hco Lfu. inversion Q1 as [|? ? S1 S2]; subst. cbn [snd] in S1.
    destruct (save_field ML s h0 en fu g0 r e0) as [[[z g3] r3] e4] eqn:Es. apply save_field_path in Es as [-> Es].
    set (s' := mkSaver (s_size_limit s) (s_count_limit s) (s_threshold s) (if is_text ML h0 then s_policy s else TIgnore) (s_opts s)) in Es.
    pose proof (at_field_inv ML _ _ _ _ _ Hat) as Ir.
    destruct (with_path_full ML trim t b h0 r s' (en_dir ML en ++ [name_of g0 0]) fu e0 c0) as (v & r4 & e5 & K & _ & _ & K2); auto using quiet_steady; [exact (exact_head _ _ _ _ Q0)|..].
    + unfold s'. cbn [s_policy]. destruct (is_text ML h0); discriminate.
    + right. exact (iron_mem ic).
    + right. split; auto. apply (Q3 0). lia.
    + change (mem_min s') with (mem_min s). specialize (Enough _ _ Hat). lia.
    + rewrite K in Es. injection Es as <- <- <-. exists v, (skipn RANDOM_FILENAME_LEN g0), r4, e5. split; [reflexivity|].
      split; [exact (exact_tail _ _ _ _ Q0)|]. split; auto. split; auto. eapply fresh_next; [exact Q3|]. exact (with_path_fs s' _ _ _ _ _ _ _ Ir eq_refl K).
  - split; [exact (exact_first _ _ _ _ Hns)|]. split; auto.
  - change (en_count ML (recount_fields ML (entries_new ML dir true))) with 0%N. change (s_count_limit s) with (ic_count ic). lia.
  - lia.
  - rewrite K in W. destruct (fuel - length l1) as [|fu] eqn:Ef; [unfold fuel1 in Lf; lia|]. cbn [entries_loop] in W.
    change (en_count ML (recount_fields ML (entries_new ML dir true))) with 0%N in K5.
    change (s_count_limit s) with (ic_count ic) in W. rewrite (proj2 (N.ltb_lt _ _)) in W by lia.
    destruct res' as [[h'|]|z| |]; simpl in K2; try tauto; [|discriminate].
    destruct K2 as (c' & l' & Q0 & Hat & Hco & P'). injection Q0 as -> -> ->.
    destruct (save_field ML s h' en' (S fu) g2 r2 e3) as [[[z g3] r3] e4] eqn:Es. apply save_field_path in Es as [-> Es].
    apply (with_path_cut ML trim t b h') with (c := c') in Es as (v & ->); auto; [|exact (exact_mid _ _ _ _ _ Hns)|..].
    + injection W as <- _ _ _. reflexivity.
    + cbn [s_policy]. destruct (is_text ML h'); discriminate.
    + exact (iron_mem ic).
    + rewrite K4. apply (Fe 0). simpl. lia.
    + change (mem_min _) with (mem_min s). specialize (Enough _ _ Hat). lia.
Qed.

(** Within the limits: all the fields. *)
Theorem C46_within : forall ML trim ic ev dir g t b e l,
  live t -> quiet t -> exact_chunks (delimiter b) t (map snd l) -> (ic_count ic <= U32MAX)%N ->
  parts (head_block ML trim (delimiter b)) (delimiter b) (stream t) l -> good e -> fresh_names e dir g (length l) ->
  (N.of_nat (length l) < ic_count ic)%N -> Forall (fun hc => (N.of_nat (length (snd hc)) <= ic_size ic)%N) l ->
  exists fuel0, forall fuel, fuel0 <= fuel ->
  exists log e', read_request_strict ML trim ic ev dir fuel g (with_body t b) e = (Ok (Some (pushes ML (entries_new ML dir true) log)), e') /\
    Forall2 (fun hv hc => fst hv = fst hc /\ readable (snd hv) (e_fs e') = Some (snd hc)) log l.
Proof.
  intros ML trim ic ev dir g t b e l Hl Hq Hns Lc P G F Ll Fs.
  assert (R0 : reached ML trim t b (with_body t b)) by (exists [], []; reflexivity).
  destruct (C46_ends ML trim ic ev dir g t b _ e R0 Lc) as [fuel0 Hf]. exists fuel0. intros fuel Lf. specialize (Hf fuel Lf).
  destruct (read_request_strict ML trim ic ev dir fuel g (with_body t b) e) as [x e'] eqn:H.
  apply C46_outcome with (l := l) in H as [->|[(en & log & -> & _ & -> & K)|[[-> L]|(h & c & -> & Hi & L)]]]; auto.
  - destruct Hf. reflexivity.
  - exists log, e'. auto.
  - lia.
  - rewrite Forall_forall in Fs. specialize (Fs _ Hi). cbn [snd] in Fs. lia.
Qed.

(** Two fields, limit two: the count error.  Limit 400 bytes: the size error for the first field. *)
Example C46_example :
  let e := no_failures (fun q => if path_eq_dec q [bs "d"] then Some NDir else None) in
  let g := repeat 7%N 12 ++ repeat 8%N 12 in
  let h := mkFH toy (bs "a") None None in
  fst (read_request_strict toy true (mkIntercept None 5000 2 false) RmOk [bs "d"] 100 g (with_body two_chunks (bs "b")) e) = Err (ICountLimit toy 2) /\
  fst (read_request_strict toy true (mkIntercept None 400 9 false) RmOk [bs "d"] 100 g (with_body two_chunks (bs "b")) e) = Err (ISizeLimit toy h) /\
  (exists en, fst (read_request_strict toy true (mkIntercept None 5000 9 false) RmOk [bs "d"] 100 g (with_body two_chunks (bs "b")) e) = Ok (Some en)) /\
  good e /\ fresh_names e [bs "d"] g (length two_list).
Proof.
  cbv zeta. split; [vm_compute; reflexivity|]. split; [vm_compute; reflexivity|]. split; [eexists; vm_compute; reflexivity|].
  destruct C43_example as (_ & _ & _ & _ & _ & G & F). split; [exact G|exact F].
Qed.

(** ** C47: LimitBehavior::Continue *)

Lemma lenient_is_loop ML trim ic ev dir rounds fuel g r e :
  read_request_lenient ML trim ic ev dir rounds fuel g r e = lenient_loop ML trim ic ev (S rounds) fuel (entries_new ML dir true) g r e.
Proof. reflexivity. Qed.

Lemma recount_same ML (en : entries ML) : counted_right ML en -> recount_fields ML en = en.
Proof.
  unfold counted_right, recount_fields, total. destruct en as [f d tm n]. cbn [en_fields en_dir en_temp en_count].
  intros ->. f_equal. lia.
Qed.

Lemma pushes_right ML log : forall en, counted_right ML en -> counted_right ML (pushes ML en log).
Proof. induction log as [|hv log IH]; intros en H; auto. apply (IH (push_field ML en (fst hv) (snd hv))). now apply push_right. Qed.

Lemma pushes_total ML log : forall en, total ML (pushes ML en log) = total ML en + length log.
Proof.
  induction log as [|hv log IH]; intros en; [simpl; lia|]. change (pushes ML en (hv :: log)) with (pushes ML (push_field ML en (fst hv) (snd hv)) log).
  rewrite IH, push_total. simpl. lia.
Qed.

(** Once there are as many fields as the limit allows, the loop goes round for ever. *)
Lemma lenient_stuck ML trim ic ev rounds fuel : forall en g r e, inv r -> counted_right ML en -> (ic_count ic <= en_count ML en)%N ->
  fst (lenient_loop ML trim ic ev rounds fuel en g r e) = OutOfFuel.
Proof.
  induction rounds as [|rounds IH]; intros en g r e I Cr Lc; cbn [lenient_loop]; auto.
  unfold with_entries. destruct (read_entry ML trim r) as [res r1] eqn:E.
  pose proof (read_entry_keeps ML _ _ _ _ I E) as I1. rewrite (recount_same _ _ Cr).
  destruct fuel as [|fuel]; cbn [entries_loop]; auto.
  change (s_count_limit (iron_saver ic)) with (ic_count ic). rewrite (proj2 (N.ltb_ge _ _) Lc). apply IH; auto.
Qed.

(** A request with at least as many fields as the limit is never completed: the result is [OutOfFuel] for every
    number of rounds and every fuel.  (No field is too large and nothing fails.) *)
Theorem C47_never_ends : forall ML trim ic ev dir g t b e l,
  live t -> quiet t -> exact_chunks (delimiter b) t (map snd l) -> (ic_count ic <= U32MAX)%N ->
  parts (head_block ML trim (delimiter b)) (delimiter b) (stream t) l -> good e -> fresh_names e dir g (length l) ->
  (ic_count ic <= N.of_nat (length l))%N -> Forall (fun hc => (N.of_nat (length (snd hc)) <= ic_size ic)%N) l ->
  forall rounds fuel, fst (read_request_lenient ML trim ic ev dir rounds fuel g (with_body t b) e) = OutOfFuel.
Proof.
  intros ML trim ic ev dir g t b e l Hl Hq Hns Lc P G F Ll Fs rounds fuel. unfold read_request_lenient, with_temp_dir.
  destruct (with_entries ML trim (iron_saver ic) fuel (entries_new ML dir true) g (with_body t b) e) as [[[y g'] r'] e2] eqn:W.
  unfold with_entries in W. destruct (read_entry ML trim (with_body t b)) as [res r1] eqn:E.
  assert (R0 : reached ML trim t b (with_body t b)) by (exists [], []; reflexivity).
  pose proof (read_entry_parts ML _ _ _ _ _ _ _ R0 ltac:(discriminate) (or_introl eq_refl) Hl P E) as N.
  pose proof (read_entry_keeps ML _ _ _ _ (inv_from_reader t b) E) as I1. pose proof W as W0.
  eapply loop_outcome in W; eauto; try apply iron_policy.
  change (s_count_limit (iron_saver ic)) with (ic_count ic) in W. change (s_size_limit (iron_saver ic)) with (ic_size ic) in W.
  change (en_count ML (recount_fields ML (entries_new ML dir true))) with 0%N in W.
  destruct W as [->|[(en & -> & L)|[(pe & -> & L)|(pe & h & v & c & -> & Hp & Hi & Lz)]]]; auto.
  - lia.
  - pose proof (loop_count_reached ML _ _ _ _ _ _ _ _ _ _ _ _ W0 I1) as Lr.
    assert (Lc' : (s_count_limit (iron_saver ic) <= U32MAX)%N) by exact Lc.
    pose proof (loop_count ML _ _ _ Lc' _ _ _ _ _ _ _ _ _ (proj1 (recount_right ML (entries_new ML dir true))) W0) as [_ Cr].
    pose proof (loop_inv ML _ _ _ _ _ _ _ _ _ _ _ _ I1 W0) as Ir.
    assert (Kp : keep_partial ML pe = pe_entries ML pe \/ exists h v, keep_partial ML pe = push_field ML (pe_entries ML pe) h v).
    { unfold keep_partial. destruct (pe_partial ML pe) as [[h [v|]]|]; eauto. }
    change (s_count_limit (iron_saver ic)) with (ic_count ic) in Lr.
    destruct Kp as [->|(h & v & ->)]; apply lenient_stuck; auto.
    + now apply push_right.
    + cbn [en_count push_field]. lia.
  - rewrite Forall_forall in Fs. specialize (Fs _ Hi). cbn [snd] in Fs. lia.
Qed.

(** So the property is false: two small fields and limit two. *)
Definition tmp_env : env := no_failures (fun q => if path_eq_dec q [bs "tmp"] then Some NDir else None).
Definition tmp_rng : rng := repeat 3%N 6 ++ repeat 7%N 12 ++ repeat 8%N 12.

Theorem C47_refuted : exists ic t l,
  ic_continue ic = true /\ parts (head_block toy true (delimiter (bs "b"))) (delimiter (bs "b")) (stream t) l /\
  forall rounds fuel,
  fst (read_request toy true ic RmOk [bs "tmp"] 5 rounds fuel tmp_rng (Some (bs "b")) t tmp_env) = OutOfFuel.
Proof.
  exists (mkIntercept None 5000 2 true), two_chunks, two_list. split; [reflexivity|]. split; [exact two_parts|].
  intros rounds fuel. unfold read_request. cbn [ic_temp ic_continue].
  set (T := tempdir_in 5 (bs "multipart-iron") [bs "tmp"] tmp_rng tmp_env).
  assert (E : T = (inl [bs "tmp"; bs "multipart-ironDDDDDD"], repeat 7%N 12 ++ repeat 8%N 12,
                   set_fs (upd (e_fs tmp_env) [bs "tmp"; bs "multipart-ironDDDDDD"] (Some NDir)) tmp_env)) by reflexivity.
  rewrite E. clear T E.
  destruct C43_example as (Hl & Hq & Hns & _).
  apply (C47_never_ends toy) with (l := two_list); auto.
  - vm_compute. discriminate.
  - exact two_parts.
  - split; [constructor|]. split; constructor.
  - intros k Lk. change (length two_list) with 2 in Lk. split.
    + split; [discriminate|]. split.
      * destruct k as [|[|k]]; [vm_compute; reflexivity|vm_compute; reflexivity|lia].
      * intros q a _ _ c Q. unfold set_fs, upd, tmp_env, no_failures in Q. cbn [e_fs] in Q.
        destruct (path_eq_dec q _); [discriminate|]. destruct (path_eq_dec q _); discriminate.
    + intros j Lj. assert (k = 1) by lia. assert (j = 0) by lia. subst. vm_compute. discriminate.
  - vm_compute. discriminate.
  - repeat constructor; vm_compute; discriminate.
Qed.

(** What holds: with fewer fields than the limit it ends, whatever is too large and whatever fails. *)
Lemma lenient_ends ML trim ic ev t b rounds fuel : live t -> (ic_count ic <= U32MAX)%N ->
  forall l en g r e, exact_chunks (delimiter b) t (map snd l) -> reached ML trim t b r -> st r <> AtEnd ->
  parts (head_block ML trim (delimiter b)) (delimiter b) (rem r) l ->
  counted_right ML en -> (N.of_nat (total ML en + length l) < ic_count ic)%N -> length l < rounds ->
  enough r + N.to_nat (mem_min (iron_saver ic)) + 1 + N.to_nat (ic_count ic) + 2 <= fuel ->
  fst (lenient_loop ML trim ic ev rounds fuel en g r e) <> OutOfFuel /\ fst (lenient_loop ML trim ic ev rounds fuel en g r e) <> Panic.
Proof.
  intros Hl Lc. induction rounds as [|rounds IH]; intros l en g r e Hns Hr Hs P Cr Lt Lr Lf; [lia|]. cbn [lenient_loop].
  destruct (with_entries ML trim (iron_saver ic) fuel en g r e) as [[[y g'] r'] e2] eqn:W.
  unfold with_entries in W. destruct (read_entry ML trim r) as [res r1] eqn:E.
  pose proof (reached_inv _ _ _ _ _ Hr) as (I & _).
  pose proof (read_entry_inv ML _ _ _ _ I E) as (I1 & _ & _ & _ & N1 & N2).
  pose proof (enough_entry ML _ _ _ _ I E) as Le. rewrite (recount_same _ _ Cr) in W.
  assert (NF : y <> SFuel).
  { eapply loop_ends; [apply iron_mem|exact Lc|exact I1|exact N2| | |exact W]; change (s_count_limit (iron_saver ic)) with (ic_count ic); lia. }
  pose proof (loop_reasons ML _ _ _ (iron_policy ic) _ _ _ _ _ _ _ _ _ I1 N1 W) as [NP K].
  destruct y as [en1|pe why|y| |]; try (split; discriminate); try congruence.
  destruct (K pe why eq_refl) as [K1 K2]. clear K.
  pose proof (read_entry_ok ML _ _ _ _ _ _ _ Hr Hs P E) as N.
  destruct why as [| |x|]; try (split; discriminate); try congruence.
  - exfalso.
    assert (Le1 : exists log, pe_entries ML pe = pushes ML en log /\ length log <= length l).
    { destruct res as [o|z| |]; try congruence.
      - destruct (loop_prefix ML trim t b (iron_saver ic) _ Hl eq_refl _ _ _ _ _ _ _ _ _ _ Hns I1 N W _ eq_refl) as (log & d & rest & H1 & -> & H3 & _).
        exists log. split; auto. rewrite app_length. apply Forall2_length in H3. lia.
      - destruct fuel as [|fuel]; [discriminate W|]. cbn [entries_loop] in W.
        destruct (_ <? _)%N; [discriminate W|]. injection W as <- _ _ _. exists []. split; [reflexivity|simpl; lia]. }
    destruct Le1 as (log & H1 & Ll). pose proof (loop_count_reached ML _ _ _ _ _ _ _ _ _ _ _ _ W I1) as Lq.
    change (s_count_limit (iron_saver ic)) with (ic_count ic) in Lq.
    pose proof (pushes_right ML log en Cr) as Cp. unfold counted_right in Cp. rewrite H1, Cp, pushes_total in Lq. lia.
  - destruct res as [o|z| |]; try congruence.
    2: { destruct fuel as [|fuel]; [discriminate W|]. cbn [entries_loop] in W. destruct (_ <? _)%N; discriminate W. }
    destruct (loop_cut ML trim t b (iron_saver ic) _ Hl eq_refl _ _ _ _ _ _ _ _ _ _ Hns I1 N W)
      as (log & d & h2 & c & rest & v & w & H1 & -> & H3 & Hp & _ & _ & _ & R1 & S1 & P1 & Le1 & _).
    apply Forall2_length in H3. rewrite app_length in Lt, Lr. cbn [length] in Lt, Lr.
    assert (Ek : keep_partial ML pe = push_field ML (pushes ML en log) h2 v) by (unfold keep_partial; rewrite Hp, H1; reflexivity).
    rewrite Ek. apply IH with (l := rest); auto; [exact (exact_rest _ _ _ _ _ Hns)|..].
    + apply push_right. now apply pushes_right.
    + rewrite push_total, pushes_total. lia.
    + lia.
    + lia.
Qed.

Theorem C47_ends_partial : forall ML trim ic ev dir g t b e l,
  live t -> exact_chunks (delimiter b) t (map snd l) -> (ic_count ic <= U32MAX)%N ->
  parts (head_block ML trim (delimiter b)) (delimiter b) (stream t) l -> (N.of_nat (length l) < ic_count ic)%N ->
  exists n, forall rounds fuel, n <= rounds -> n <= fuel ->
  fst (read_request_lenient ML trim ic ev dir rounds fuel g (with_body t b) e) <> OutOfFuel /\
  fst (read_request_lenient ML trim ic ev dir rounds fuel g (with_body t b) e) <> Panic.
Proof.
  intros ML trim ic ev dir g t b e l Hl Hns Lc P Ll.
  exists (enough (with_body t b) + N.to_nat (mem_min (iron_saver ic)) + 1 + N.to_nat (ic_count ic) + 2 + length l).
  intros rounds fuel Lr Lf. rewrite lenient_is_loop.
  apply lenient_ends with (t := t) (b := b) (l := l); auto; try lia.
  - exists [], []. reflexivity.
  - discriminate.
  - reflexivity.
Qed.

(** And if it ends with entries, these are all the fields, in order; each has its content, or a beginning of it
    if it is too large. *)
Definition kept_as {ML} (limit : N) (f : fs) (hv : field_headers ML * saved) (hc : field_headers ML * bytes) : Prop :=
  fst hv = fst hc /\ exists w, readable (snd hv) f = Some w /\ prefix_of w (snd hc) /\ (w = snd hc \/ (limit < N.of_nat (length (snd hc)))%N).

Lemma lenient_result ML trim ic ev t b rounds fuel : live t -> (ic_count ic <= U32MAX)%N ->
  forall l en g r e x e', exact_chunks (delimiter b) t (map snd l) -> reached ML trim t b r -> st r <> AtEnd ->
  parts (head_block ML trim (delimiter b)) (delimiter b) (rem r) l -> counted_right ML en ->
  lenient_loop ML trim ic ev rounds fuel en g r e = (x, e') ->
  (exists k, x = Err k) \/ x = OutOfFuel \/ x = Panic \/
  exists log, x = Ok (Some (pushes ML en log)) /\ Forall2 (kept_as (ic_size ic) (e_fs e')) log l /\ touched (en_dir ML en) g e e'.
Proof.
  intros Hl Lc. induction rounds as [|rounds IH]; intros l en g r e x e' Hns Hr Hs P Cr; cbn [lenient_loop].
  { intros H; injection H as <- <-. auto. }
  destruct (with_entries ML trim (iron_saver ic) fuel en g r e) as [[[y g'] r'] e2] eqn:W.
  unfold with_entries in W. destruct (read_entry ML trim r) as [res r1] eqn:E.
  pose proof (reached_inv _ _ _ _ _ Hr) as (I & _).
  pose proof (read_entry_inv ML _ _ _ _ I E) as (I1 & _ & _ & _ & N1 & N2). rewrite (recount_same _ _ Cr) in W.
  pose proof (read_entry_ok ML _ _ _ _ _ _ _ Hr Hs P E) as N.
  pose proof (loop_touched ML trim (iron_saver ic) fuel eq_refl _ _ _ _ _ _ _ _ _ I1 W) as T.
  destruct y as [en1|pe why|y| |]; try (intros H; injection H as <- <-; eauto; fail).
  { intros H; injection H as <- <-. right. right. right.
    destruct res as [o|z| |]; try congruence.
    - destruct (loop_prefix ML trim t b (iron_saver ic) _ Hl eq_refl _ _ _ _ _ _ _ _ _ _ Hns I1 N W _ eq_refl) as (log & d & rest & -> & -> & H3 & H4 & _).
      rewrite (H4 eq_refl), app_nil_r. exists log. split; auto. split; auto.
      clear - H3. induction H3 as [|hv hc log d [A1 A2] H IH]; constructor; auto.
      split; auto. exists (snd hc). split; auto. split; [exists []; now rewrite app_nil_r|auto].
    - destruct fuel as [|fuel]; [discriminate W|]. cbn [entries_loop] in W. destruct (_ <? _)%N; discriminate W. }
  pose proof (loop_reasons ML _ _ _ (iron_policy ic) _ _ _ _ _ _ _ _ _ I1 N1 W) as [NP K].
  destruct (K pe why eq_refl) as [K1 K2]. clear K.
  destruct why as [| |z|]; try congruence; try (intros H; injection H as <- <-; eauto; fail).
  - intros H. right. left.
    pose proof (loop_count_reached ML _ _ _ _ _ _ _ _ _ _ _ _ W I1) as Lq.
    assert (Lc' : (s_count_limit (iron_saver ic) <= U32MAX)%N) by exact Lc.
    pose proof (loop_count ML _ _ _ Lc' _ _ _ _ _ _ _ _ _ Cr W) as [_ Cp].
    change (s_count_limit (iron_saver ic)) with (ic_count ic) in Lq.
    assert (Q : fst (lenient_loop ML trim ic ev rounds fuel (keep_partial ML pe) g' r' e2) = OutOfFuel).
    { apply lenient_stuck; [exact (loop_inv ML _ _ _ _ _ _ _ _ _ _ _ _ I1 W)| |].
      - unfold keep_partial. destruct (pe_partial ML pe) as [[h [v|]]|]; auto. now apply push_right.
      - unfold keep_partial. destruct (pe_partial ML pe) as [[h [v|]]|]; auto. cbn [en_count push_field]. lia. }
    rewrite H in Q. exact Q.
  - destruct res as [o|z| |]; try congruence.
    2: { destruct fuel as [|fuel]; [discriminate W|]. cbn [entries_loop] in W. destruct (_ <? _)%N; discriminate W. }
    destruct (loop_cut ML trim t b (iron_saver ic) _ Hl eq_refl _ _ _ _ _ _ _ _ _ _ Hns I1 N W)
      as (log & d & h2 & c & rest & v & w & H1 & -> & H3 & Hp & Lz & Rd & Pw & R1 & S1 & P1 & _ & Eg).
    assert (Ek : keep_partial ML pe = pushes ML en (log ++ [(h2, v)])).
    { unfold keep_partial, pushes. rewrite Hp, H1, fold_left_app. reflexivity. }
    intros H. rewrite Ek in H. apply IH with (l := rest) in H; auto; [|exact (exact_rest _ _ _ _ _ Hns)|].
    2: { now apply pushes_right. }
    destruct H as [H|[H|[H|(log2 & -> & F2 & T2)]]]; auto. right. right. right.
    exists ((log ++ [(h2, v)]) ++ log2). split; [unfold pushes; now rewrite !fold_left_app|].
    rewrite pushes_dir in T2.
    assert (T3 : touched (en_dir ML en) g e e').
    { subst g'. eapply touched_later; eauto. }
    split; auto. rewrite <- app_assoc. apply Forall2_app; [|constructor; auto].
    + clear - H3 T2. induction H3 as [|hv hc log d [A1 A2] H IH]; constructor; auto.
      split; auto. exists (snd hc). split; [eapply readable_kept; eauto|]. split; [exists []; now rewrite app_nil_r|auto].
    + split; auto. exists w. split; [exact (readable_kept _ _ _ _ _ _ T2 Rd)|]. auto.
Qed.

Theorem C47_result_partial : forall ML trim ic ev dir rounds fuel g t b e l en e',
  live t -> exact_chunks (delimiter b) t (map snd l) -> (ic_count ic <= U32MAX)%N ->
  parts (head_block ML trim (delimiter b)) (delimiter b) (stream t) l ->
  read_request_lenient ML trim ic ev dir rounds fuel g (with_body t b) e = (Ok (Some en), e') ->
  exists log, en = pushes ML (entries_new ML dir true) log /\ Forall2 (kept_as (ic_size ic) (e_fs e')) log l.
Proof.
  intros ML trim ic ev dir rounds fuel g t b e l en e' Hl Hns Lc P H. rewrite lenient_is_loop in H.
  apply lenient_result with (t := t) (b := b) (l := l) in H; auto.
  - destruct H as [(k & H)|[H|[H|(log & H & K & _)]]]; try discriminate. injection H as ->. eauto.
  - exists [], []. reflexivity.
  - discriminate.
  - reflexivity.
Qed.

(** A field is cut off and the next one is saved. *)
Example C47_example :
  let '(x, e') := read_request_lenient toy true (mkIntercept None 400 9 true) RmOk [bs "d"] 5 100 (repeat 7%N 24) (with_body two_chunks (bs "b")) (no_failures (fun _ => None)) in
  match x with
  | Ok (Some en) => map (sf_data toy) (fields_at en (bs "a")) = [SFile [bs "d"; repeat 72%N 12] 0] /\
      map (sf_data toy) (fields_at en (bs "b")) = [SText (bs "second")]
  | _ => False
  end.
Proof. vm_compute. split; reflexivity. Qed.

(** But a field that is cut off can also make the rest of the request unreadable (see C09): here the body is
    well formed, nothing fails, there are two fields and the limit is nine. *)
Definition C09_list : list (field_headers toy * bytes) :=
  [(mkFH toy (bs "a") None None, repeat 120%N 1100); (mkFH toy (bs "c") None None, bs "y")].

Lemma C09_parts : parts (head_block toy true (delimiter (bs "b"))) (delimiter (bs "b")) (stream C09_t) C09_list.
Proof.
  apply parts_field with (pre := []) (x := toy_head (bs "a")) (rest := repeat 120%N 1100 ++ CRLF ++ toy_part (bs "c") (bs "y") ++ toy_end).
  - apply find_split; vm_compute; reflexivity.
  - split; [|apply Nat.leb_le; vm_compute; reflexivity].
    eexists. split; [intros y; vm_compute; reflexivity|]. split; vm_compute; reflexivity.
  - exists (toy_head (bs "a") ++ repeat 120%N 1100 ++ CRLF), (CRLF ++ toy_head (bs "c") ++ bs "y" ++ CRLF ++ toy_end).
    split; [|left; reflexivity]. apply find_split; vm_compute; reflexivity.
  - apply parts_field with (pre := repeat 120%N 1100 ++ CRLF) (x := toy_head (bs "c")) (rest := bs "y" ++ CRLF ++ toy_end).
    + apply find_split; vm_compute; reflexivity.
    + split; [|apply Nat.leb_le; vm_compute; reflexivity].
      eexists. split; [intros y; vm_compute; reflexivity|]. split; vm_compute; reflexivity.
    + exists (toy_head (bs "c") ++ bs "y" ++ CRLF), (DASHES ++ CRLF). split; [|left; reflexivity].
      apply find_split; vm_compute; reflexivity.
    + apply parts_end with (pre := bs "y" ++ CRLF) (q := CRLF). apply find_split; vm_compute; reflexivity.
Qed.

Theorem C47_truncation_refuted : exists ic t l,
  ic_continue ic = true /\ live t /\ quiet t /\ (N.of_nat (length l) < ic_count ic)%N /\
  parts (head_block toy true (delimiter (bs "b"))) (delimiter (bs "b")) (stream t) l /\
  fst (read_request toy true ic RmOk [bs "tmp"] 5 20 100 tmp_rng (Some (bs "b")) t tmp_env) = Err (IMidway toy (XEntry (EBnd EShortBoundary))).
Proof.
  exists (mkIntercept None 400 9 true), C09_t, C09_list. split; [reflexivity|].
  split; [intros [H|[H|[]]]; discriminate|]. split; [intros k [H|[H|[]]]; discriminate|].
  split; [vm_compute; reflexivity|]. split; [exact C09_parts|]. vm_compute. reflexivity.
Qed.

(** ** C63: nothing is left behind *)

(** Only directories contain anything. *)
Definition wf_fs (f : fs) : Prop := forall q c, f (q ++ [c]) <> None -> q = [] \/ f q = Some NDir.

Lemma wf_above f q a : wf_fs f -> q <> [] -> f (q ++ a) <> None -> f q <> None.
Proof.
  intros W Nq. revert q Nq. induction a as [|c a IH]; intros q Nq H; [now rewrite app_nil_r in H|].
  replace (q ++ c :: a) with ((q ++ [c]) ++ a) in H by now rewrite <- app_assoc.
  apply IH in H; [|destruct q; discriminate]. apply W in H as [H|H]; congruence.
Qed.

(** Only paths inside [dir], or missing directories above it, have changed. *)
Definition inside (dir : path) (e e' : env) : Prop :=
  forall q, e_fs e' q = e_fs e q \/ (exists c a, q = dir ++ c :: a) \/ (e_fs e q = None /\ q <> [] /\ exists a, dir = q ++ a).

Lemma touched_inside dir g e e' : touched dir g e e' -> inside dir e e'.
Proof. intros T q. destruct (T q) as [H|(H1 & [[k ->]|(H2 & H3 & H4)])]; eauto 8. Qed.

Lemma inside_trans dir e e1 e' : inside dir e e1 -> inside dir e1 e' -> inside dir e e'.
Proof.
  intros H1 H2 q. destruct (H2 q) as [E|[K|(E & Nq & K)]]; auto.
  - rewrite E. apply H1.
  - destruct (H1 q) as [E1|[K1|(E1 & K1)]]; auto. right. right. rewrite <- E1. auto.
Qed.

Lemma inside_dir dir e e' : inside dir e e' -> e_fs e dir <> None -> e_fs e' dir = e_fs e dir.
Proof.
  intros H N. destruct (H dir) as [E|[(c & a & E)|(E & _)]]; auto; [|congruence].
  exfalso. apply (f_equal (@length bytes)) in E. rewrite app_length in E. simpl in E. lia.
Qed.

Lemma tempdir_spec tries prefix base : forall g e x g1 e1, tempdir_in tries prefix base g e = (x, g1, e1) ->
  match x with
  | inr _ => e_fs e1 = e_fs e
  | inl p => e_fs e p = None /\ e_fs e1 = upd (e_fs e) p (Some NDir) /\ (base = [] \/ e_fs e base = Some NDir) /\
             exists n, p = base ++ [prefix ++ n] /\ length n = 6 /\ Forall (fun c => (48 <= c <= 57 \/ 65 <= c <= 90 \/ 97 <= c <= 122)%N) n
  end.
Proof.
  induction tries as [|tries IH]; intros g e x g1 e1; cbn [tempdir_in].
  { intros H; injection H as <- _ <-. reflexivity. }
  pose proof (random_alnum 6 g) as [Ln An]. change TEMPDIR_RAND with 6. destruct (random_alphanumeric 6 g) as [name g2]. cbn [fst] in Ln, An.
  destruct (create_dir (base ++ [prefix ++ name]) e) as [[k|] e2] eqn:C.
  - assert (F : e_fs e2 = e_fs e).
    { revert C. unfold create_dir. repeat match goal with |- context[match ?x with _ => _ end] => destruct x end;
        intros H; try discriminate H; injection H as _ <-; reflexivity. }
    destruct (iokind_eqb k KAlreadyExists).
    + intros H. apply IH in H. destruct x as [p|k0]; [|congruence]. rewrite F in H. exact H.
    + intros H; injection H as <- _ <-. auto.
  - intros H; injection H as <- _ <-. revert C. unfold create_dir. rewrite removelast_app by discriminate.
    cbn [removelast]. rewrite app_nil_r.
    assert (Q : forall o, (match e_fs e (base ++ [prefix ++ name]) with
        | Some _ => (Some KAlreadyExists, e)
        | None => match e_mkdir e with
          | Some k :: m => (Some k, mkEnv (e_fs e) (e_w e) m (e_open e))
          | None :: m => (None, mkEnv (upd (e_fs e) (base ++ [prefix ++ name]) (Some NDir)) (e_w e) m (e_open e))
          | [] => (None, set_fs (upd (e_fs e) (base ++ [prefix ++ name]) (Some NDir)) e)
          end
        end) = (o, e2) -> o = None ->
        e_fs e (base ++ [prefix ++ name]) = None /\ e_fs e2 = upd (e_fs e) (base ++ [prefix ++ name]) (Some NDir)).
    { intros o. destruct (e_fs e _) as [n|]; [intros H; injection H as <- _; discriminate|].
      destruct (e_mkdir e) as [|[k0|] m]; intros H; injection H as <- <-; intros; try discriminate; auto. }
    destruct base as [|c0 q0].
    + intros H. destruct (Q None) as [H1 H2]; auto. split; auto. split; auto. split; auto. exists name. auto.
    + destruct (e_fs e (c0 :: q0)) as [[|w]|] eqn:B; [|intros H; discriminate H|intros H; discriminate H].
      intros H. destruct (Q None H eq_refl) as [H1 H2]. split; auto. split; auto. split; auto. exists name. auto.
Qed.

Lemma loop_no_error ML trim s fuel : forall res en g r e x g' r' e',
  entries_loop ML trim s fuel res en g r e = (x, g', r', e') -> forall y, x <> SErr y.
Proof.
  induction fuel as [|fuel IH]; intros res en g r e x g' r' e'; cbn [entries_loop].
  { intros H; injection H as <- _ _ _. discriminate. }
  destruct (_ <? _)%N; [|intros H; injection H as <- _ _ _; discriminate].
  destruct res as [[h|]|y| |]; try (intros H; injection H as <- _ _ _; discriminate).
  destruct (save_field ML s h en (S fuel) g r e) as [[[y g1] r2] e1].
  destruct y as [v|v why|y| |]; try (intros H; injection H as <- _ _ _; discriminate).
  destruct (read_entry ML trim r2) as [res' r3]. apply IH.
Qed.

Lemma with_entries_result ML trim ic fuel en g r e x g' r' e' : inv r ->
  with_entries ML trim (iron_saver ic) fuel en g r e = (x, g', r', e') ->
  inv r' /\ inside (en_dir ML en) e e' /\ (forall y, x <> SErr y).
Proof.
  intros I W. unfold with_entries in W. destruct (read_entry ML trim r) as [res r1] eqn:E.
  pose proof (read_entry_keeps ML _ _ _ _ I E) as I1.
  split; [exact (loop_inv ML _ _ _ _ _ _ _ _ _ _ _ _ I1 W)|]. split; [|exact (loop_no_error ML _ _ _ _ _ _ _ _ _ _ _ _ W)].
  eapply touched_inside. exact (loop_touched ML trim (iron_saver ic) fuel eq_refl _ _ _ _ _ _ _ _ _ I1 W).
Qed.

(** What is left of the file system: everything from before, and nothing else after the removal of [dir]. *)
Definition cleaned (dir : path) (e e' : env) : Prop := forall q, e_fs (set_fs (drop_dir RmOk (Temp dir) (e_fs e')) e') q = e_fs e q.

Lemma inside_cleaned dir e e1 e' : wf_fs (e_fs e) -> dir <> [] -> e_fs e dir = None -> e_fs e1 = upd (e_fs e) dir (Some NDir) ->
  (forall q a, q <> [] -> dir = q ++ a -> a <> [] -> e_fs e q <> None) -> inside dir e1 e' -> cleaned dir e e'.
Proof.
  intros W Nd F0 F1 An T q. assert (D : e_fs e1 dir = Some NDir) by (rewrite F1; unfold upd; destruct (path_eq_dec dir dir); congruence).
  assert (D' : e_fs e' dir = Some NDir) by (rewrite (inside_dir _ _ _ T); congruence).
  destruct (remove_ok dir (e_fs e') D') as (f' & R & Rm1 & Rm2). cbn [drop_dir e_fs set_fs]. rewrite R. cbn [snd].
  destruct (below dir q) eqn:B.
  - apply below_iff in B as [a ->]. rewrite Rm1. symmetry. destruct (e_fs e (dir ++ a)) eqn:Q; auto. exfalso.
    apply (wf_above (e_fs e) dir a W Nd); congruence.
  - rewrite Rm2; [|intros a ->; rewrite (proj2 (below_iff dir (dir ++ a))) in B; [discriminate|eauto]].
    assert (Nq : q <> dir).
    { intros ->. rewrite (proj2 (below_iff dir dir)) in B; [discriminate|]. exists []. now rewrite app_nil_r. }
    assert (E1 : e_fs e1 q = e_fs e q) by (rewrite F1; unfold upd; destruct (path_eq_dec q dir); congruence).
    destruct (T q) as [E|[(c & a & ->)|(E & N & a & K)]].
    + congruence.
    + rewrite (proj2 (below_iff dir (dir ++ c :: a))) in B; [discriminate|eauto].
    + exfalso. apply (An q a N K); [|congruence]. intros ->. rewrite app_nil_r in K. congruence.
Qed.

Lemma tempdir_cleaned tries prefix base g e p g1 e1 e' : wf_fs (e_fs e) -> tempdir_in tries prefix base g e = (inl p, g1, e1) ->
  inside p e1 e' -> cleaned p e e'.
Proof.
  intros W H T. apply tempdir_spec in H as (F0 & F1 & B & n & -> & _).
  eapply inside_cleaned; eauto; [destruct base; discriminate|].
  intros q a Nq E Na. destruct a as [|c a] using rev_ind; [congruence|]. rewrite app_assoc in E. apply app_inj_tail in E as [-> _].
  destruct B as [B|B]; [destruct q; [congruence|discriminate]|]. apply (wf_above _ _ a W Nq). congruence.
Qed.

(** How the two ways of reading end. *)
Definition ends_clean ML (dir : path) (e0 e' : env) (x : res (iron_error ML) (option (entries ML))) : Prop :=
  match x with
  | Err _ => exists e1, inside dir e0 e1 /\ e' = set_fs (drop_dir RmOk (Temp dir) (e_fs e1)) e1
  | Ok (Some en) => inside dir e0 e' /\ dir_of en = Temp dir
  | Ok None => False
  | _ => True
  end.

Lemma lenient_clean ML trim ic dir e0 rounds fuel : forall en g r e x e', inv r -> dir_of en = Temp dir -> inside dir e0 e ->
  lenient_loop ML trim ic RmOk rounds fuel en g r e = (x, e') -> ends_clean ML dir e0 e' x.
Proof.
  induction rounds as [|rounds IH]; intros en g r e x e' I D T; cbn [lenient_loop].
  { intros H; injection H as <- <-. exact Logic.I. }
  destruct (with_entries ML trim (iron_saver ic) fuel en g r e) as [[[y g'] r'] e2] eqn:W.
  pose proof (C54_saving _ _ _ _ _ _ _ _ _ _ _ _ W) as S0. apply with_entries_result in W as (I' & T' & NE); auto.
  assert (Ed : en_dir ML en = dir) by (unfold dir_of in D; destruct (en_temp ML en); congruence). rewrite Ed in T'.
  assert (T2 := inside_trans _ _ _ _ T T').
  destruct y as [en1|pe why|y| |]; try (intros H; injection H as <- <-; exact Logic.I).
  - intros H; injection H as <- <-. split; [exact T2|congruence].
  - destruct S0 as [S1 S2]. destruct why as [| |z|]; try (intros H; apply IH in H; auto; congruence).
    intros H; injection H as <- <-. exists e2. split; auto. unfold dropped. now rewrite S1, D.
  - now destruct (NE y).
Qed.

Lemma strict_clean ML trim ic dir fuel g r e x e' : inv r ->
  read_request_strict ML trim ic RmOk dir fuel g r e = (x, e') -> ends_clean ML dir e e' x.
Proof.
  intros I. unfold read_request_strict, with_temp_dir.
  destruct (with_entries ML trim (iron_saver ic) fuel (entries_new ML dir true) g r e) as [[[y g'] r'] e2] eqn:W.
  pose proof (C54_saving _ _ _ _ _ _ _ _ _ _ _ _ W) as S0. apply with_entries_result in W as (I' & T' & NE); auto.
  change (en_dir ML (entries_new ML dir true)) with dir in T'. change (dir_of (entries_new ML dir true)) with (Temp dir) in S0.
  destruct y as [en1|pe why|y| |]; try (intros H; injection H as <- <-; exact Logic.I).
  - intros H; injection H as <- <-. split; [exact T'|congruence].
  - destruct S0 as [S1 S2].
    assert (Q : exists e1, inside dir e e1 /\ dropped ML RmOk pe e2 = set_fs (drop_dir RmOk (Temp dir) (e_fs e1)) e1).
    { exists e2. split; auto. unfold dropped. now rewrite S1. }
    destruct why as [| |z|]; try (intros H; injection H as <- <-; auto; exact Logic.I).
    destruct (pe_partial ML pe) as [[h v]|]; intros H; injection H as <- <-; auto; exact Logic.I.
  - now destruct (NE y).
Qed.

(** A request that is refused, for whatever reason, leaves the file system exactly as it was; an accepted one only
    the temporary directory, below the configured directory, which the entries own: dropping them leaves
    the file system exactly as it was. *)
Theorem C63_nothing_left : forall ML trim ic os_temp tries rounds fuel g b t e x e',
  wf_fs (e_fs e) ->
  read_request ML trim ic RmOk os_temp tries rounds fuel g b t e = (x, e') ->
  match x with
  | Err _ | Ok None => forall q, e_fs e' q = e_fs e q
  | Ok (Some en) =>
      (exists n, dir_of en = Temp (match ic_temp ic with Some p => p | None => os_temp end ++ [bs "multipart-iron" ++ n]) /\
         length n = 6 /\ Forall (fun c => (48 <= c <= 57 \/ 65 <= c <= 90 \/ 97 <= c <= 122)%N) n) /\
      forall q, drop_dir RmOk (dir_of en) (e_fs e') q = e_fs e q
  | _ => True
  end.
Proof.
  intros ML trim ic os_temp tries rounds fuel g b t e x e' W. unfold read_request.
  destruct b as [b|]; [|intros H; injection H as <- <-; auto].
  set (base := match ic_temp ic with Some p => p | None => os_temp end).
  destruct (tempdir_in tries (bs "multipart-iron") base g e) as [[[dir|k] g1] e1] eqn:Td.
  2: { intros H; injection H as <- <-. apply tempdir_spec in Td. intros q. congruence. }
  intros H. assert (Q : ends_clean ML dir e1 e' x).
  { destruct (ic_continue ic).
    - rewrite lenient_is_loop in H. eapply lenient_clean; [| | |exact H]; [apply inv_from_reader|reflexivity|left; reflexivity].
    - eapply strict_clean; [|exact H]. apply inv_from_reader. }
  pose proof (tempdir_spec _ _ _ _ _ _ _ _ Td) as (_ & _ & _ & n & -> & Ln & An).
  destruct x as [[en|]|k| |]; auto; cbn [ends_clean] in Q.
  - destruct Q as [T ->]. split; [eauto|]. intros q. exact (tempdir_cleaned _ _ _ _ _ _ _ _ _ W Td T q).
  - destruct Q.
  - destruct Q as (e2 & T & ->). exact (tempdir_cleaned _ _ _ _ _ _ _ _ _ W Td T).
Qed.

(** A refused request, whose field had been written to a file: if the directory cannot be removed the file is
    still there, otherwise it is gone. *)
Example C63_example : wf_fs (e_fs tmp_env) /\
  let ic := mkIntercept None 20000 1 false in
  let t := [Chunk (bs "--b" ++ CRLF ++ bs "Content-Disposition: form-data; name=""a""; filename=""f""" ++ CRLF ++ CRLF ++ repeat 120%N 11000 ++ CRLF ++ bs "--b--")] in
  let run ev := read_request toy true ic ev [bs "tmp"] 5 20 100 tmp_rng (Some (bs "b")) t tmp_env in
  let file := [bs "tmp"; bs "multipart-ironDDDDDD"; bs "HHHHHHHHHHHH"] in
  fst (run RmOk) = Err (ICountLimit toy 1) /\ e_fs (snd (run RmOk)) file = None /\
  match e_fs (snd (run (RmFail KInterrupted (fun _ => true)))) file with Some (NFile c) => length c = 11000 | _ => False end.
Proof.
  split.
  - intros q c. unfold tmp_env, no_failures. cbn [e_fs]. destruct (path_eq_dec _ _) as [E|E]; [|congruence].
    destruct q as [|x [|y q]]; try discriminate. auto.
  - vm_compute. auto.
Qed.

(** ** C64: the configured directory for temporary files *)

(** iron.rs:76-77: "The parent directory for all temporary directories created by this middleware.  Will be
    created if it doesn't exist (lazy)." *)
Theorem C64_refuted : exists ic t e, exists p, ic_temp ic = Some p /\ wf_fs (e_fs e) /\ good e /\
  (forall q, e_fs e q = None) /\
  forall ML trim ev os_temp tries rounds fuel g, 0 < tries ->
  read_request ML trim ic ev os_temp tries rounds fuel g (Some (bs "b")) t e = (Err (ITempDir ML (KOther 2)), e).
Proof.
  exists (mkIntercept (Some [bs "uploads"]) 1000 9 false), [Chunk (bs "--b--")], (no_failures (fun _ => None)), [bs "uploads"].
  split; [reflexivity|]. split; [intros q c H; now destruct H|]. split; [split; [constructor|split; constructor]|].
  split; [reflexivity|]. intros ML trim ev os_temp tries rounds fuel g L. destruct tries as [|tries]; [lia|].
  unfold read_request. cbn [ic_temp tempdir_in]. destruct (random_alphanumeric TEMPDIR_RAND g) as [n g1]. reflexivity.
Qed.

(** If it exists and the name is not taken, a directory is created in it. *)
Theorem C64_existing_partial : forall ML trim ic ev os_temp tries rounds fuel g b t e,
  let base := match ic_temp ic with Some p => p | None => os_temp end in
  e_fs e base = Some NDir -> e_mkdir e = [] -> 0 < tries ->
  e_fs e (base ++ [bs "multipart-iron" ++ fst (random_alphanumeric 6 g)]) = None ->
  forall k, fst (read_request ML trim ic ev os_temp tries rounds fuel g b t e) <> Err (ITempDir ML k).
Proof.
  intros ML trim ic ev os_temp tries rounds fuel g b t e base B M L N k. unfold read_request. destruct b as [b|]; [|discriminate].
  fold base. destruct tries as [|tries]; [lia|]. cbn [tempdir_in]. change TEMPDIR_RAND with 6.
  destruct (random_alphanumeric 6 g) as [n g1]. cbn [fst] in N.
  unfold create_dir. rewrite removelast_app by discriminate. cbn [removelast]. rewrite app_nil_r, B, N, M.
  assert (Q : forall x : res (iron_error ML) (option (entries ML)) * env,
    x = (if ic_continue ic then
         read_request_lenient ML trim ic ev (base ++ [bs "multipart-iron" ++ n]) rounds fuel g1 (with_body t b) (set_fs (upd (e_fs e) (base ++ [bs "multipart-iron" ++ n]) (Some NDir)) e)
         else read_request_strict ML trim ic ev (base ++ [bs "multipart-iron" ++ n]) fuel g1 (with_body t b) (set_fs (upd (e_fs e) (base ++ [bs "multipart-iron" ++ n]) (Some NDir)) e)) ->
    fst x <> Err (ITempDir ML k)).
  { intros x ->. destruct (ic_continue ic).
    - rewrite lenient_is_loop. generalize (entries_new ML (base ++ [bs "multipart-iron" ++ n]) true). generalize (set_fs (upd (e_fs e) (base ++ [bs "multipart-iron" ++ n]) (Some NDir)) e).
      generalize (with_body t b). clear - k. revert g1. generalize (S rounds). intros m. induction m as [|m IH]; intros g1 r e en; [discriminate|].
      cbn [lenient_loop]. destruct (with_entries _ _ _ _ _ _ _ _) as [[[y g'] r'] e']. destruct y as [en1|pe why|y| |]; try discriminate.
      destruct why; try discriminate; apply IH.
    - unfold read_request_strict. destruct (with_temp_dir _ _ _ _ _ _ _ _) as [[[y g'] r'] e']. destruct y as [en1|pe why|y| |]; try discriminate.
      destruct why; try discriminate. destruct (pe_partial ML pe) as [[h v]|]; discriminate. }
  destruct base as [|c0 q0]; apply Q; reflexivity.
Qed.

Example C64_example : e_fs tmp_env [bs "tmp"] = Some NDir /\ e_mkdir tmp_env = [] /\
  e_fs tmp_env ([bs "tmp"] ++ [bs "multipart-iron" ++ fst (random_alphanumeric 6 tmp_rng)]) = None.
Proof. vm_compute. auto. Qed.
