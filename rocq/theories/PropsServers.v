(** Property theorems about the Iron middleware as Iron calls it (C82) and about the example servers (C83). *)

From Coq Require Import Permutation.
From Verif Require Import Bytes BytesProofs Spec Io Boundary BoundaryProofs Utf8 Utf8Proofs Httparse Field FieldProofs
  ContentProofs DataProofs ShortProofs EntryProofs ReaderProofs Drive DriveProofs ReachProofs Rand Fs Save SaveProofs PhaseProofs SaveFacts
  TextProofs Toy PropsReader PropsSave EntriesProofs CompleteProofs PropsEntries HeaderSpec HeaderProofs WireSpec Client ClientProofs WireProofs
  PropsClient Mock PropsMock Savedir PropsSavedir Iron IronProofs PropsIron Requests PropsRequests PropsUpload Results PropsResults Servers.

(** ** A temporary directory *)

(** The directory [base] exists, the first name tried in it is free, no system call fails and the next [n] generated file names differ. *)
Definition temp_ready (e : env) (base : path) (prefix : bytes) (g : rng) (n : nat) : Prop :=
  wf_fs (e_fs e) /\ (forall c, e_fs e [] <> Some (NFile c)) /\ good e /\ e_fs e base = Some NDir /\
  e_fs e (base ++ [prefix ++ fst (random_alphanumeric 6 g)]) = None /\
  forall j k, j < k < n -> name_of (snd (random_alphanumeric 6 g)) j <> name_of (snd (random_alphanumeric 6 g)) k.

Lemma wf_dirs f : wf_fs f -> (forall c, f [] <> Some (NFile c)) -> forall a q, f (q ++ a) = Some NDir -> forall c, f q <> Some (NFile c).
Proof.
  intros W R. induction a as [|x a IH] using rev_ind; intros q H c.
  - rewrite app_nil_r in H. congruence.
  - rewrite app_assoc in H. destruct (W (q ++ a) x) as [E|E]; [congruence| |].
    + apply app_eq_nil in E as [-> ->]. apply R.
    + now apply IH.
Qed.

Lemma temp_first tries prefix base g e n : 0 < tries -> temp_ready e base prefix g n ->
  exists e1, tempdir_in tries prefix base g e =
      (inl (base ++ [prefix ++ fst (random_alphanumeric 6 g)]), snd (random_alphanumeric 6 g), e1) /\
    good e1 /\ fresh_names e1 (base ++ [prefix ++ fst (random_alphanumeric 6 g)]) (snd (random_alphanumeric 6 g)) n.
Proof.
  intros L (W & R & G & B & F & D). destruct tries as [|tries]; [lia|]. cbn [tempdir_in]. change TEMPDIR_RAND with 6.
  destruct (random_alphanumeric 6 g) as [nm g1]. cbn [fst snd] in *. set (dir := base ++ [prefix ++ nm]) in *.
  assert (C : exists e1, create_dir dir e = (None, e1) /\ good e1 /\ e_fs e1 = upd (e_fs e) dir (Some NDir)).
  { unfold create_dir. replace (removelast dir) with base by (unfold dir; rewrite removelast_app by discriminate; cbn [removelast]; now rewrite app_nil_r).
    rewrite B, F.
    destruct G as (G1 & G2 & G3).
    destruct (e_mkdir e) as [|m ms] eqn:M.
    - exists (set_fs (upd (e_fs e) dir (Some NDir)) e). split; [destruct base; reflexivity|]. split; [|reflexivity].
      split; [exact G1|]. split; [cbn [set_fs e_mkdir]; rewrite M; exact G2|exact G3].
    - inversion G2; subst. exists (mkEnv (upd (e_fs e) dir (Some NDir)) (e_w e) ms (e_open e)). split; [destruct base; reflexivity|].
      split; [|reflexivity]. split; [exact G1|]. split; auto. }
  destruct C as (e1 & -> & G1 & F1). exists e1. split; [reflexivity|]. split; [exact G1|].
  intros k Lk. split; [|intros j Lj; apply D; lia]. split; [unfold dir; destruct base; discriminate|].
  assert (Up : forall x q, upd (e_fs e) dir (Some NDir) q = Some x -> q = dir \/ e_fs e q = Some x).
  { intros x q. unfold upd. destruct (path_eq_dec q dir); auto. }
  split.
  - rewrite F1. destruct (upd (e_fs e) dir (Some NDir) (dir ++ [name_of g1 k])) as [x|] eqn:E; auto. exfalso.
    apply Up in E as [E|E].
    + apply (f_equal (@length bytes)) in E. rewrite app_length in E. cbn [length] in E. lia.
    + destruct (W dir (name_of g1 k)) as [Q|Q]; [congruence| |congruence]. unfold dir in Q. destruct base; discriminate.
  - intros q a E Na c. rewrite F1. destruct a as [|x a] using rev_ind; [congruence|]. clear IHa Na.
    rewrite app_assoc in E. apply app_inj_tail in E as [E _]. intros H.
    destruct a as [|y a] using rev_ind.
    + rewrite app_nil_r in E. subst q. unfold upd in H. destruct (path_eq_dec dir dir); [discriminate|congruence].
    + clear IHa. rewrite app_assoc in E. unfold dir in E. apply app_inj_tail in E as [E _].
      apply Up in H as [H|H].
      * subst q. unfold dir in E. apply (f_equal (@length bytes)) in E. repeat rewrite app_length in E. cbn [length] in E. lia.
      * revert H. rewrite E in B. exact (wf_dirs _ W R _ _ B c).
Qed.

(** ** C82: the middleware *)

(** Specification: the decimal representation of a number. *)
Definition value (d : bytes) : N := fold_left (fun v c => (10 * v + (c - 48))%N) d 0%N.
Definition in_decimal (d : bytes) (n : N) : Prop :=
  Forall (fun c => (48 <= c <= 57)%N) d /\ value d = n /\ (d = [48%N] \/ exists c d', d = c :: d' /\ c <> 48%N).

Lemma value_snoc d c : value (d ++ [c]) = (10 * value d + (c - 48))%N.
Proof. unfold value. now rewrite fold_left_app. Qed.

Lemma digits_spec fuel : forall n, (n < 2 ^ N.of_nat fuel)%N -> 0 < fuel -> in_decimal (digits fuel n) n.
Proof.
  induction fuel as [|fuel IH]; intros n Ln Lf; [lia|]. cbn [digits]. destruct (n <? 10)%N eqn:E.
  - apply N.ltb_lt in E. cbn [app]. rewrite (N.mod_small n 10) by lia. split; [repeat constructor; lia|]. split.
    + unfold value. cbn [fold_left]. lia.
    + destruct (N.eq_dec n 0) as [->|Nz]; [left; reflexivity|]. right. exists (48 + n)%N, []. split; [reflexivity|lia].
  - apply N.ltb_ge in E. pose proof (N.div_mod n 10 ltac:(lia)) as DM. pose proof (N.mod_lt n 10 ltac:(lia)) as ML0.
    assert (Lf' : 0 < fuel).
    { destruct fuel; [|lia]. exfalso. rewrite Nat2N.inj_succ in Ln. change (2 ^ N.succ (N.of_nat 0))%N with 2%N in Ln. lia. }
    destruct (IH (n / 10)%N) as (F & V & Z); auto.
    { rewrite Nat2N.inj_succ, N.pow_succ_r' in Ln. lia. }
    split; [|split].
    + apply Forall_app. split; auto. repeat constructor; lia.
    + rewrite value_snoc, V. lia.
    + right. destruct Z as [Z|(c & d & Z & Nz)].
      * exfalso. rewrite Z in V. unfold value in V. cbn in V. lia.
      * exists c, (d ++ [(48 + n mod 10)%N]). rewrite Z. auto.
Qed.

Lemma decimal_spec n : in_decimal (decimal n) n.
Proof.
  unfold decimal. apply digits_spec; [|lia]. rewrite Nat2N.inj_succ, N2Nat.id.
  destruct (N.eq_dec n 0) as [->|Nz]; [reflexivity|]. apply N.log2_spec. lia.
Qed.

(** A request without a multipart/form-data content type is passed on as it is; nothing was read and nothing created. *)
Theorem C82_other_requests : forall ML trim ic ev ev0 os_temp tries rounds fuel g q e,
  canonical_request (ir_head ML q) ->
  (forall b, ~ form_request (mkHyper Post (hy_type (ir_head ML q)) (hy_body (ir_head ML q))) b) ->
  before ML trim ic ev ev0 os_temp tries rounds fuel g q e = (Ok tt, q, e).
Proof.
  intros ML trim ic ev ev0 os_temp tries rounds fuel g q e C N. unfold before.
  destruct (iron_boundary (ir_head ML q)) as [b|] eqn:B; [|reflexivity].
  apply C50_iron_partial in B; auto. now apply N in B.
Qed.

(** A form within the limits: the handlers behind the middleware find exactly its fields in the extensions of the request. *)
Theorem C82_accepted_partial : forall ML trim ic ev ev0 os_temp tries rounds g q e b l,
  let base := match ic_temp ic with Some p => p | None => os_temp end in
  let t := hy_body (ir_head ML q) in
  ic_continue ic = false -> ir_entries ML q = None -> canonical_request (ir_head ML q) ->
  form_request (mkHyper Post (hy_type (ir_head ML q)) t) b ->
  live t -> quiet t -> exact_chunks (delimiter b) t (map snd l) -> (ic_count ic <= U32MAX)%N ->
  parts (head_block ML trim (delimiter b)) (delimiter b) (stream t) l ->
  0 < tries -> temp_ready e base (bs "multipart-iron") g (length l) ->
  (N.of_nat (length l) < ic_count ic)%N -> Forall (fun hc => (N.of_nat (length (snd hc)) <= ic_size ic)%N) l ->
  exists fuel0, forall fuel, fuel0 <= fuel -> exists en e',
    before ML trim ic ev ev0 os_temp tries rounds fuel g q e = (Ok tt, mkIron ML (ir_head ML q) (Some en), e') /\
    well_grouped en /\ fields_of en = length l /\ forall n, found en (e_fs e') n = sent_as l n.
Proof.
  intros ML trim ic ev ev0 os_temp tries rounds g q e b l base t Ct En C Fr Hl Hq Hns Lc P Lt T Ll Fs.
  destruct (temp_first tries _ _ _ _ _ Lt T) as (e1 & Td & G1 & F1).
  destruct (C46_within ML trim ic ev _ _ t b e1 l Hl Hq Hns Lc P G1 F1 Ll Fs) as [fuel0 K]. exists fuel0. intros fuel Lf.
  destruct (K fuel Lf) as (log & e' & H & F2). eexists. exists e'. split.
  - unfold before, read_request. rewrite (proj2 (C50_iron_partial _ b C) Fr). fold base t. rewrite Td, Ct, H, En. reflexivity.
  - assert (W : well_grouped (entries_new ML (base ++ [bs "multipart-iron" ++ fst (random_alphanumeric 6 g)]) true)) by (split; constructor).
    destruct (C45_grouping ML _ log [] W) as (W' & _ & _ & Fo). split; [exact W'|]. split.
    + rewrite Fo. cbn. clear - F2. induction F2; cbn; auto.
    + intros n. destruct (C45_grouping ML _ log n W) as (_ & Fa & _). unfold found. rewrite Fa. now apply found_log.
Qed.

(** Whatever fails: a form that is let through is complete. *)
Theorem C82_complete_partial : forall ML trim ic ev ev0 os_temp tries rounds fuel g q e b l q' e',
  let t := hy_body (ir_head ML q) in
  ic_continue ic = false -> ir_entries ML q = None -> iron_boundary (ir_head ML q) = Some b ->
  live t -> exact_chunks (delimiter b) t (map snd l) -> (ic_count ic <= U32MAX)%N ->
  parts (head_block ML trim (delimiter b)) (delimiter b) (stream t) l ->
  before ML trim ic ev ev0 os_temp tries rounds fuel g q e = (Ok tt, q', e') ->
  exists en, q' = mkIron ML (ir_head ML q) (Some en) /\ well_grouped en /\ forall n, found en (e_fs e') n = sent_as l n.
Proof.
  intros ML trim ic ev ev0 os_temp tries rounds fuel g q e b l q' e' t Ct En Fb Hl Hns Lc P H. unfold before, read_request in H.
  rewrite Fb, En, Ct in H. destruct (tempdir_in _ _ _ g e) as [[[dir|k] g1] e0]; [|discriminate].
  destruct (read_request_strict ML trim ic ev dir fuel g1 _ e0) as [[[en|]|y| |] e1] eqn:R; try discriminate.
  - injection H as <- <-. destruct (C46_accepted ML trim ic ev dir fuel g1 _ b e0 l en e1 Hl Hns Lc P R) as (_ & log & -> & F2).
    eexists. split; [reflexivity|].
    assert (W : well_grouped (entries_new ML dir true)) by (split; constructor).
    split; [exact (proj1 (C45_grouping ML _ log [] W))|].
    intros n. destruct (C45_grouping ML _ log n W) as (_ & Fa & _). unfold found. rewrite Fa. now apply found_log.
  - exfalso. unfold read_request_strict in R. destruct (with_temp_dir _ _ _ _ _ _ _ _) as [[[[en|pe why|y| |] g'] r'] e2]; try discriminate R.
    destruct why; try discriminate R. destruct (pe_partial ML pe) as [[h v]|]; discriminate R.
Qed.

(** A refused request keeps its extensions, leaves the file system as it was, and is answered with a text that says what
    happened: a count limit that is named was reached, the field that is named is longer than the size limit. *)
Theorem C82_refused : forall ML trim ic ev0 os_temp tries rounds fuel g q e x q' e',
  before ML trim ic RmOk ev0 os_temp tries rounds fuel g q e = (Err x, q', e') ->
  q' = q /\ (wf_fs (e_fs e) -> forall p, e_fs e' p = e_fs e p).
Proof.
  intros ML trim ic ev0 os_temp tries rounds fuel g q e x q' e' H. unfold before in H.
  destruct (read_request ML trim ic RmOk os_temp tries rounds fuel g _ _ e) as [[[en|]|y| |] e1] eqn:R; try discriminate.
  injection H as <- <- <-. split; [reflexivity|]. intros W. exact (C63_nothing_left _ _ _ _ _ _ _ _ _ _ _ _ _ W R).
Qed.

Theorem C82_text_partial : forall ML trim ic ev ev0 os_temp tries rounds fuel g q e x q' e' b l,
  let t := hy_body (ir_head ML q) in
  ic_continue ic = false -> iron_boundary (ir_head ML q) = Some b ->
  live t -> exact_chunks (delimiter b) t (map snd l) -> (ic_count ic <= U32MAX)%N ->
  parts (head_block ML trim (delimiter b)) (delimiter b) (stream t) l ->
  before ML trim ic ev ev0 os_temp tries rounds fuel g q e = (Err x, q', e') ->
  iron_text ML x = bs "Error opening temporary directory for request." \/
  iron_text ML x = bs "Error midway through request" \/
  (exists d, iron_text ML x = bs "File count limit reached for request. Limit: " ++ d /\
     in_decimal d (ic_count ic) /\ (ic_count ic <= N.of_nat (length l))%N) \/
  (exists h c, In (h, c) l /\ (ic_size ic < N.of_nat (length c))%N /\
     iron_text ML x = bs "File size limit reached for field """ ++ fh_name ML h ++ bs """ (" ++
       match fh_filename ML h with Some f => bs "filename: """ ++ f ++ bs """" | None => bs "no filename" end ++ bs ")").
Proof.
  intros ML trim ic ev ev0 os_temp tries rounds fuel g q e x q' e' b l t Ct B Hl Hns Lc P H. unfold before, read_request in H.
  rewrite B, Ct in H. fold t in H. destruct (tempdir_in tries _ _ g e) as [[[dir|k] g1] e1] eqn:Td.
  2: { injection H as <- _ _. now left. }
  destruct (read_request_strict ML trim ic ev dir fuel g1 (with_body t b) e1) as [[[en|]|y| |] e2] eqn:R; try discriminate.
  injection H as -> _ _. destruct x as [k|z|z|n|h].
  - now left.
  - right. now left.
  - exfalso. unfold read_request_strict in R. destruct (with_temp_dir ML trim _ dir fuel g1 (with_body t b) e1) as [[[y g'] r'] e3] eqn:W.
    apply with_entries_result in W as (_ & _ & NE); [|apply inv_from_reader]. destruct y as [en|pe [| |z'|]|y| |]; try discriminate.
    + destruct (pe_partial ML pe) as [[h v]|]; discriminate.
    + now destruct (NE y).
  - right. right. left. destruct (C46_count_only _ _ _ _ _ _ _ _ _ _ l _ _ Hl Hns Lc P R) as [-> L]. eexists. split; [reflexivity|].
    split; [apply decimal_spec|exact L].
  - right. right. right. destruct (C46_size_only _ _ _ _ _ _ _ _ _ _ l _ _ Hl Hns P R) as (d & c & rest & -> & L).
    exists h, c. split; [apply in_or_app; right; now left|]. split; [exact L|]. cbn [iron_text].
    destruct (fh_filename ML h); repeat rewrite <- app_assoc; reflexivity.
Qed.

Lemma parsed_canonical b : canonical (parsed_form b).
Proof.
  unfold parsed_form. split; [discriminate|]. split; [discriminate|]. destruct (beq b (bs "utf-8")) eqn:B; intros a v [E|[]];
    injection E as <- <-; (split; [discriminate|]); [discriminate|].
  intros E. injection E as ->. discriminate B.
Qed.

(** A form of this crate's client arrives behind the middleware. *)
Theorem C82_own_client_partial : forall ML octet guess trim gc qc fs qc' t ic ev ev0 os_temp tries rounds g e,
  let base := match ic_temp ic with Some p => p | None => os_temp end in
  let l := map (@expected ML octet guess) fs in
  let q := mkIron ML (mkHyper Post (Some (parsed_form (boundary_of gc))) t) None in
  client ML octet guess gc qc fs = (None, qc') -> written (q_log qc) = [] ->
  Forall (fun f => sendable ML (boundary_of gc) (describe ML octet guess f) /\
    forall c, sent_ctype octet guess f = Some c -> mime_parse ML (mime_show ML c) = Some c) fs ->
  stream t = written (q_log qc') -> live t -> quiet t -> exact_chunks (delimiter (boundary_of gc)) t (map snd l) ->
  ic_continue ic = false -> (ic_count ic <= U32MAX)%N ->
  0 < tries -> temp_ready e base (bs "multipart-iron") g (length l) ->
  (N.of_nat (length l) < ic_count ic)%N -> Forall (fun hc => (N.of_nat (length (snd hc)) <= ic_size ic)%N) l ->
  exists fuel0, forall fuel, fuel0 <= fuel -> exists en e',
    before ML trim ic ev ev0 os_temp tries rounds fuel g q e = (Ok tt, mkIron ML (ir_head ML q) (Some en), e') /\
    well_grouped en /\ fields_of en = length l /\ forall n, found en (e_fs e') n = sent_as l n.
Proof.
  intros ML octet guess trim gc qc fs qc' t ic ev ev0 os_temp tries rounds g e base l q H W0 F St Hl Hq Hns Ct Lc Lt T Ll Fs.
  apply C19_wire in H as (ds & L & D).
  rewrite L, !written_app, W0, written_map, D in St. cbn [written app] in St. rewrite app_nil_r in St.
  assert (Cn : canonical_request (ir_head ML q)).
  { intros m E. injection E as <-. apply parsed_canonical. }
  apply C82_accepted_partial with (b := boundary_of gc) (l := l); auto.
  - apply C50_iron_partial; auto. apply (C50_own_client gc t []).
  - cbn [q ir_head hy_body]. rewrite St. unfold l. rewrite <- (map_ext_in (fun f => received ML (describe ML octet guess f))).
    + rewrite <- (map_map (describe ML octet guess) (received ML)). apply wire_parts; [apply C56_alphanumeric|].
      apply Forall_map. eapply Forall_impl; [|exact F]. simpl. tauto.
    + intros f Hf. rewrite Forall_forall in F. apply expected_received. now apply F.
Qed.

(** The two fields accepted; refused for a count limit of two; refused for a size limit of 400; a request of another type. *)
Example C82_example :
  let go ic q := before toy true ic RmOk RmOk [bs "tmp"] 5 20 100 tmp_rng q tmp_env in
  let q := mkIron toy (mkHyper Post (Some (parsed_form (bs "b"))) two_chunks) None in
  let plain := mkIron toy (mkHyper Post (Some (Mime2 (TExt (bs "text")) (SExt (bs "plain")) [])) two_chunks) None in
  let text x := match x with (Err y, _, _) => iron_text toy y | _ => [] end in
  (exists en, fst (go (mkIntercept None 5000 9 false) q) = (Ok tt, mkIron toy (ir_head toy q) (Some en)) /\ fields_of en = 2) /\
  text (go (mkIntercept None 5000 2 false) q) = bs "File count limit reached for request. Limit: 2" /\
  text (go (mkIntercept None 400 9 false) q) = bs "File size limit reached for field ""a"" (no filename)" /\
  go intercept_default plain = (Ok tt, plain, tmp_env) /\
  canonical_request (ir_head toy q) /\ form_request (ir_head toy q) (bs "b") /\ temp_ready tmp_env [bs "tmp"] (bs "multipart-iron") tmp_rng 2 /\
  decimal 4294967295 = bs "4294967295".
Proof.
  cbv zeta. split; [eexists; split; vm_compute; reflexivity|]. split; [vm_compute; reflexivity|]. split; [vm_compute; reflexivity|].
  split; [vm_compute; reflexivity|]. split; [intros m E; injection E as <-; exact (parsed_canonical (bs "b"))|].
  split; [apply C50_iron_partial; [intros m E; injection E as <-; exact (parsed_canonical (bs "b"))|reflexivity]|].
  split; [|vm_compute; reflexivity]. split; [exact (proj1 C63_example)|]. split; [discriminate|].
  split; [split; [constructor|split; constructor]|]. split; [vm_compute; reflexivity|]. split; [vm_compute; reflexivity|].
  intros j k L. assert (k = 1) by lia. assert (j = 0) by lia. subst. vm_compute. discriminate.
Qed.

(** ** C83: the example servers *)

(** *** Writing to a [StdoutTee] *)

Lemma sched_good fuel : forall d out s, Forall good_write s -> length s < fuel ->
  exists o s', write_all sched_write fuel d (out, s) = (Ok tt, (o, s')) /\ Forall good_write s'.
Proof.
  induction fuel as [|fuel IH]; intros d out s F L; [lia|]. destruct d as [|c d]; [cbn [write_all]; eauto|].
  cbn [write_all]. unfold sched_write at 1. destruct s as [|[n|k] s].
  - cbn [length]. change (S (length d)) with (length (c :: d)). rewrite skipn_all, write_all_nil. eauto.
  - inversion F as [|? ? G F']; subst. cbn [good_write] in G. destruct (Nat.min n (length (c :: d))) as [|m] eqn:M.
    { destruct n; [lia|discriminate M]. } apply IH; auto. cbn [length] in L. lia.
  - inversion F as [|? ? G F']; subst. cbn [good_write] in G. subst k. cbn [iokind_eqb]. apply IH; auto. cbn [length] in L. lia.
Qed.

Lemma tee_good fuel : forall d t, Forall good_write (te_isched t) -> Forall good_write (te_osched t) -> length (te_osched t) < fuel ->
  exists t', write_all tee_write fuel d t = (Ok tt, t') /\ Forall good_write (te_isched t') /\ Forall good_write (te_osched t').
Proof.
  induction fuel as [|fuel IH]; intros d t Fi Fo L; [lia|]. destruct d as [|c d]; [cbn [write_all]; eauto|].
  cbn [write_all]. unfold tee_write at 1.
  destruct (sched_good (S (length (te_isched t))) (c :: d) (te_inner t) (te_isched t) Fi) as (i & si & -> & Fi'); [lia|].
  unfold sched_write. destruct (te_osched t) as [|[n|k] s].
  - cbn [length]. change (S (length d)) with (length (c :: d)). rewrite skipn_all, write_all_nil. eexists. split; [reflexivity|]. auto.
  - inversion Fo as [|? ? G F']; subst. cbn [good_write] in G. destruct (Nat.min n (length (c :: d))) as [|m] eqn:M.
    { destruct n; [lia|discriminate M]. } apply IH; auto. cbn [te_osched length] in *. lia.
  - inversion Fo as [|? ? G F']; subst. cbn [good_write] in G. subst k. cbn [iokind_eqb]. apply IH; auto. cbn [te_osched length] in *. lia.
Qed.

(** Standard output gets what is written. *)
Lemma tee_sound : sound_writer tee_write_all (fun t d t' => te_stdout t' = te_stdout t ++ d)
  (fun t => Forall good_write (te_isched t) /\ Forall good_write (te_osched t)).
Proof.
  split; [intros w; now rewrite app_nil_r|]. split; [intros w d w1 d' w2 H1 H2; now rewrite H2, H1, app_assoc|]. split.
  - intros t b x t1 H. unfold tee_write_all in H. destruct (write_all tee_write _ b t) as [y t'] eqn:W.
    apply C52_stdout_partial in W as (p & P & Q & D). exists p.
    destruct y as [[]|k| |]; injection H as <- <-; (split; [exact Q|]); (split; [exact P|]); auto; discriminate.
  - intros t b [Fi Fo]. unfold tee_write_all. destruct (tee_good (S (length (te_osched t))) b t Fi Fo) as (t' & -> & G); eauto.
Qed.

(** If standard output takes everything at once, the other writer gets the same. *)
Lemma tee_whole : sound_writer tee_write_all
  (fun t d t' => te_osched t = [] -> te_osched t' = [] /\ te_inner t' = te_inner t ++ d) (fun t => te_isched t = [] /\ te_osched t = []).
Proof.
  split; [intros w; rewrite app_nil_r; auto|]. split.
  { intros w d w1 d' w2 H1 H2 E. destruct (H1 E) as [E1 Q1]. destruct (H2 E1) as [E2 Q2]. split; auto. now rewrite Q2, Q1, app_assoc. }
  split.
  - intros t b x t1 H. unfold tee_write_all in H. destruct (write_all tee_write _ b t) as [y t'] eqn:W.
    destruct (te_osched t) as [|w0 s] eqn:O.
    + destruct b as [|c b].
      { rewrite write_all_nil in W. injection W as <- <-. injection H as <- <-. exists []. split; [intros _; rewrite app_nil_r; auto|].
        split; [apply prefix_refl|auto]. }
      cbn [length write_all] in W. destruct (tee_write t (c :: b)) as [z t2] eqn:E. pose proof E as E0.
      apply tee_write_ok in E as (p & P & I & [(-> & S)|(S & k & ->)]).
      * rewrite O in S. unfold sched_write in S. injection S as <- _ So. cbn [length] in W.
        change (Datatypes.S (length b)) with (length (c :: b)) in W. rewrite skipn_all in W. injection W as <- <-. injection H as <- <-.
        exists (c :: b). split; [auto|]. split; [apply prefix_refl|auto].
      * assert (O2 : te_osched t2 = []).
        { unfold tee_write in E0. rewrite O in E0. destruct (write_all sched_write _ (c :: b) _) as [[?|?| |] [i si]]; cbn [sched_write] in E0;
            injection E0 as _ <-; reflexivity. }
        exists p. assert (X : t1 = t2 /\ x <> None).
        { destruct (iokind_eqb k KInterrupted); injection W as <- <-; injection H as <- <-; (split; [reflexivity|discriminate]). }
        destruct X as [-> Nx]. split; auto. split; [exact P|contradiction].
    + exists b. split; [intros E; discriminate|]. split; [apply prefix_refl|auto].
  - intros t b [Ei Eo]. destruct t as [i si o so]. cbn [te_isched te_osched] in Ei, Eo. subst si so. unfold tee_write_all. cbn [te_osched length].
    destruct b as [|c b]; [rewrite write_all_nil; eauto|]. cbn [write_all].
    replace (tee_write (mkTee i [] o []) (c :: b)) with (@inr iokind nat (length (c :: b)), mkTee (i ++ c :: b) [] (o ++ c :: b) []).
    2: { unfold tee_write. cbn [te_isched te_inner length write_all sched_write te_stdout te_osched]. change (S (length b)) with (length (c :: b)).
         rewrite skipn_all. reflexivity. }
    cbn [length]. change (S (length b)) with (length (c :: b)). rewrite skipn_all. eexists. split; [reflexivity|]. auto.
Qed.

(** *** The text for a form *)

Section Text.
Context (ML : mime_lib) (sh : shows ML).

(** Specification: the fields of one name in the order sent, numbered, with file name, content type and content. *)
Fixpoint text_lines (idx : nat) (l : list (field_headers ML * bytes)) : bytes :=
  match l with
  | [] => []
  | (h, c) :: l' => sh_num ML sh idx ++ bs ": " ++ sh_file ML sh (fh_filename ML h) ++ bs " (" ++ sh_type ML sh (fh_ctype ML h) ++ bs "):" ++ [LF] ++
                    c ++ text_lines (S idx) l'
  end.

Definition of_name (n : bytes) (l : list (field_headers ML * bytes)) : list (field_headers ML * bytes) :=
  filter (fun hc => if list_eq_dec N.eq_dec (fh_name ML (fst hc)) n then true else false) l.

(** Specification: the form, name by name. *)
Definition form_text (names : list bytes) (l : list (field_headers ML * bytes)) : bytes :=
  flat_map (fun n => bs "Field " ++ sh_name ML sh n ++ bs " has " ++ sh_num ML sh (length (of_name n l)) ++ bs " entries:" ++ [LF] ++
                     text_lines 0 (of_name n l)) names.

(** Each name of a field once. *)
Definition names_of (l : list (field_headers ML * bytes)) (names : list bytes) : Prop :=
  NoDup names /\ forall n, In n names <-> exists h c, In (h, c) l /\ fh_name ML h = n.

Lemma lines_text f l : forall idx sfs,
  map (fun sf => (sf_headers ML sf, readable (sf_data ML sf) f)) sfs = map (fun hc => (fst hc, Some (snd hc))) l ->
  field_lines ML (sh_file ML sh) (sh_type ML sh) (sh_num ML sh) f idx sfs = text_lines idx l.
Proof.
  induction l as [|[h c] l IH]; intros idx [|sf sfs] H; cbn [map fst snd] in H; try discriminate; [reflexivity|].
  injection H as H1 H2 H3. cbn [field_lines text_lines]. rewrite H1, H2, (IH _ _ H3). reflexivity.
Qed.

Lemma nodup_lookup {A} k (v : A) l : NoDup (map fst l) -> In (k, v) l -> lookup k l = Some v.
Proof.
  induction l as [|[k' v'] l IH]; intros D I; [destruct I|]. cbn [lookup]. inversion D as [|? ? N D']; subst. destruct I as [I|I].
  - injection I as -> ->. destruct (list_eq_dec N.eq_dec k k); congruence.
  - destruct (list_eq_dec N.eq_dec k' k) as [->|_]; [|auto]. exfalso. apply N. apply in_map_iff. exists (k, v). auto.
Qed.

Lemma listing_text f (en : entries ML) l order : well_grouped en -> (forall n, found en f n = sent_as l n) ->
  Permutation order (en_fields ML en) ->
  listing ML (sh_name ML sh) (sh_file ML sh) (sh_type ML sh) (sh_num ML sh) f order = form_text (map fst order) l /\ names_of l (map fst order).
Proof.
  intros [D Ne] Fd Pm.
  assert (Lk : forall n sfs, In (n, sfs) order -> map (fun sf => (sf_headers ML sf, readable (sf_data ML sf) f)) sfs = map (fun hc => (fst hc, Some (snd hc))) (of_name n l)).
  { intros n sfs I. apply (Permutation_in _ Pm) in I. specialize (Fd n). unfold found, fields_at in Fd. rewrite (nodup_lookup _ _ _ D I) in Fd. exact Fd. }
  split.
  - unfold listing, form_text. clear - Lk. induction order as [|[n sfs] order IH]; [reflexivity|]. cbn [map flat_map fst snd].
    assert (K := Lk n sfs (or_introl eq_refl)). rewrite (lines_text f _ 0 _ K).
    assert (Ln : length sfs = length (of_name n l)) by (apply (f_equal (@length _)) in K; now rewrite !map_length in K).
    rewrite Ln. f_equal. apply IH. intros n' sfs' I. apply Lk. now right.
  - split; [eapply Permutation_NoDup; [apply Permutation_map, Permutation_sym, Pm|exact D]|].
    intros n. split.
    + intros I. apply in_map_iff in I as ([n' sfs] & <- & I). cbn [fst]. specialize (Lk _ _ I).
      assert (Nz : sfs <> []). { rewrite Forall_forall in Ne. apply (Ne (n', sfs)). eapply Permutation_in; eauto. }
      destruct (of_name n' l) as [|[h c] m] eqn:O; [destruct sfs; [congruence|discriminate]|].
      exists h, c. assert (K : In (h, c) (of_name n' l)) by (rewrite O; now left). unfold of_name in K. apply filter_In in K as [K1 K2].
      split; auto. cbn [fst] in K2. destruct (list_eq_dec N.eq_dec (fh_name ML h) n'); congruence.
    + intros (h & c & I & E). assert (K : sent_as l n <> []).
      { unfold sent_as. intros Z. apply map_eq_nil in Z.
        assert (Q : In (h, c) []). { rewrite <- Z. apply filter_In. split; auto. cbn [fst]. destruct (list_eq_dec N.eq_dec (fh_name ML h) n); congruence. }
        destruct Q. }
      rewrite <- Fd in K. unfold found, fields_at in K. destruct (lookup n (en_fields ML en)) as [sfs|] eqn:Lq; [|now destruct K].
      apply lookup_in in Lq. apply in_map_iff. exists (n, sfs). split; auto. eapply Permutation_in; [apply Permutation_sym; exact Pm|exact Lq].
Qed.

End Text.

(** A machine on which files are read as they are and without errors, temporary directories can be removed, and that traverses each [HashMap] in
    some order. *)
Definition sound_machine {ML} (ma : machine ML) : Prop :=
  (forall f, reads_files f (ma_reads ML ma f)) /\ (forall f p c, f p = Some (NFile c) -> ~ source_fails (ma_reads ML ma f p)) /\
  (forall en, Permutation (ma_order ML ma en) (en_fields ML en)) /\ ma_rm ML ma = RmOk.

Section Servers.
Context (ML : mime_lib) (sh : shows ML) (ma : machine ML).
Context (Sm : sound_machine ma).

(** The entries of the form [l] are written to the answer and to standard output. *)
Lemma print_text en f l t : well_grouped en -> (forall n, found en f n = sent_as l n) -> te_isched t = [] -> te_osched t = [] ->
  exists names t', names_of ML l names /\ print_entries ML sh ma en f t = (None, t') /\
    te_inner t' = te_inner t ++ form_text ML sh names l /\ te_stdout t' = te_stdout t ++ form_text ML sh names l /\ te_osched t' = [].
Proof.
  intros W Fd Ei Eo. destruct Sm as (Hr & Hs & Pm & _). specialize (Hr f). specialize (Hs f). specialize (Pm en).
  destruct (listing_text ML sh f en l _ W Fd Pm) as [T Nm]. exists (map fst (ma_order ML ma en)).
  assert (A : Forall (fun kv => Forall (fun sf => readable (sf_data ML sf) f <> None) (snd kv)) (ma_order ML ma en)).
  { apply Forall_forall. intros [n sfs] I. apply Forall_forall. intros sf I2. cbn [snd] in I2.
    apply (Permutation_in _ Pm) in I. specialize (Fd n). unfold found, fields_at in Fd. rewrite (nodup_lookup _ _ _ (proj1 W) I) in Fd.
    assert (K : In (sf_headers ML sf, readable (sf_data ML sf) f) (sent_as l n)).
    { rewrite <- Fd. apply in_map_iff. exists sf. auto. }
    unfold sent_as in K. apply in_map_iff in K as (hc & E & _). injection E as _ <-. discriminate. }
  destruct (debug_ok ML (sh_name ML sh) (sh_file ML sh) (sh_type ML sh) (sh_num ML sh) f _ (ma_no_file ML ma) _ _ _ tee_whole _ Hs A t (conj Ei Eo))
    as (t' & H & _ & O'). exists t'. split; [exact Nm|]. split; [exact H|].
  pose proof (debug_put ML _ _ _ _ f _ (ma_no_file ML ma) Hr _ _ _ tee_whole _ _ _ _ H) as [(d & K & _ & D) _].
  pose proof (debug_put ML _ _ _ _ f _ (ma_no_file ML ma) Hr _ _ _ tee_sound _ _ _ _ H) as [(d' & K' & _ & D') _].
  rewrite (D eq_refl) in K. rewrite (D' eq_refl) in K'. rewrite T in K, K'. destruct (K Eo) as [_ K2]. auto.
Qed.

(** *** Saving to a temporary directory with the default limits *)

Definition ic0 : intercept := mkIntercept None (8 * 1024 * 1024) 256 false.

Lemma saver_ic0 : saver_new = iron_saver ic0.
Proof. reflexivity. Qed.

Lemma save_full trim t b l g e : live t -> quiet t -> exact_chunks (delimiter b) t (map snd l) ->
  parts (head_block ML trim (delimiter b)) (delimiter b) (stream t) l ->
  0 < ma_tries ML ma -> temp_ready e (ma_temp ML ma) (bs "multipart-rs") g (length l) ->
  length l < 256 -> Forall (fun hc => (N.of_nat (length (snd hc)) <= 8 * 1024 * 1024)%N) l ->
  exists fuel0, forall fuel, fuel0 <= fuel -> exists en e1, save_request ML ma trim fuel g (with_body t b) e = (Full en, e1) /\
    well_grouped en /\ forall n, found en (e_fs e1) n = sent_as l n.
Proof.
  intros Hl Hq Hns P Lt T Ll Fs. destruct (temp_first _ _ _ _ _ _ Lt T) as (e1 & Td & G1 & F1).
  destruct (saved_parts ML trim t b saver_new (ma_temp ML ma ++ [bs "multipart-rs" ++ fst (random_alphanumeric 6 g)]) true
    (snd (random_alphanumeric 6 g)) e1 l Hl Hq Hns) with (2 := P) as [fuel0 K].
  { split; [reflexivity|]. split; [discriminate|]. split; [reflexivity|]. split; [cbn; lia|]. split; [exact Fs|]. right. auto. }
  exists fuel0. intros fuel Lf. destruct (K fuel Lf) as (x & g' & r' & e' & H & en & -> & W & _ & Fd). exists en, e'.
  split; [|auto]. unfold save_request, temp, temp_with_prefix. rewrite Td. unfold with_temp_dir. rewrite H. reflexivity.
Qed.

(** Whatever happens, dropping the entries leaves the file system as it was. *)
Lemma save_clean trim fuel g t b e x e1 : ma_rm ML ma = RmOk -> wf_fs (e_fs e) -> save_request ML ma trim fuel g (with_body t b) e = (x, e1) ->
  match x with
  | Full en => forall p, e_fs (forget ML ma en e1) p = e_fs e p
  | Part pe _ => forall p, e_fs (forget ML ma (pe_entries ML pe) e1) p = e_fs e p /\ e_fs (forget ML ma (keep_partial ML pe) e1) p = e_fs e p
  | SErr _ => forall p, e_fs e1 p = e_fs e p
  | SPanic => False
  | SFuel => True
  end.
Proof.
  intros Rm W. unfold save_request, temp, temp_with_prefix, with_temp_dir.
  destruct (tempdir_in _ _ _ g e) as [[[dir|k] g1] e0] eqn:Td.
  2: { intros H; injection H as <- <-. apply tempdir_spec in Td. intros p. congruence. }
  destruct (with_entries ML trim saver_new fuel (entries_new ML dir true) g1 (with_body t b) e0) as [[[y g'] r'] e2] eqn:We.
  intros H; injection H as <- <-.
  pose proof (C54_saving _ _ _ _ _ _ _ _ _ _ _ _ We) as S0. rewrite saver_ic0 in We. pose proof We as We0.
  apply with_entries_result in We as (_ & T & NE); [|apply inv_from_reader].
  change (en_dir ML (entries_new ML dir true)) with dir in T. change (dir_of (entries_new ML dir true)) with (Temp dir) in S0.
  assert (Cl : forall en p, dir_of en = Temp dir -> e_fs (forget ML ma en e2) p = e_fs e p).
  { intros en p E. unfold forget. rewrite Rm, E. exact (tempdir_cleaned _ _ _ _ _ _ _ _ _ W Td T p). }
  destruct y as [en|pe why|z| |]; auto.
  - intros p. destruct S0 as [S1 S2]. auto.
  - now destruct (NE z).
  - unfold with_entries in We0. destruct (read_entry ML trim (with_body t b)) as [res r1] eqn:E.
    assert (R0 : reached ML trim t b (with_body t b)) by (exists [], []; reflexivity).
    pose proof (reached_inv _ _ _ _ _ R0) as (I & _).
    pose proof (read_entry_inv ML _ _ _ _ I E) as (I1 & _ & _ & _ & N1 & _).
    apply loop_reasons in We0 as [Np _]; auto. apply iron_policy.
Qed.

Lemma count_partial trim s fuel : forall res en g r e pe g' r' e',
  entries_loop ML trim s fuel res en g r e = (Part pe RCount, g', r', e') -> inv r -> pe_partial ML pe = None.
Proof.
  induction fuel as [|fuel IH]; intros res en g r e pe g' r' e'; cbn [entries_loop]; [discriminate|].
  destruct (en_count ML en <? s_count_limit s)%N eqn:C.
  2: { intros H; injection H as <- <- <- <-. auto. }
  destruct res as [[h|]|y| |]; try discriminate.
  destruct (save_field ML s h en (S fuel) g r e) as [[[y g1] r1] e1] eqn:E.
  intros H I. apply save_field_path in E as [-> E].
  destruct y as [v|v why|y| |]; try discriminate.
  - destruct (read_entry ML trim r1) as [res' r2] eqn:Re.
    apply with_path_moved in E as [d M]; auto. pose proof (moved_spec _ _ _ M I) as (I1 & _).
    eapply IH; [exact H|]. exact (read_entry_keeps ML _ _ _ _ I1 Re).
  - injection H as _ -> _ _ _. destruct (with_path_reason _ _ _ _ _ _ _ _ _ I E). reflexivity.
Qed.

(** The entries [en] are the form [l]. *)
Definition holds (en : entries ML) (e : env) (l : list (field_headers ML * bytes)) : Prop :=
  well_grouped en /\ forall n, found en (e_fs e) n = sent_as l n.

Lemma log_holds dir e log d : Forall2 (fun hv hc => fst hv = fst hc /\ readable (snd hv) (e_fs e) = Some (snd hc)) log d ->
  holds (pushes ML (recount_fields ML (entries_new ML dir true)) log) e d.
Proof.
  intros F. assert (W : well_grouped (recount_fields ML (entries_new ML dir true))) by (split; constructor).
  split; [exact (proj1 (C45_grouping ML _ log [] W))|]. intros n. unfold found.
  rewrite (proj1 (proj2 (C45_grouping ML _ log n W))). change (fields_at (recount_fields ML (entries_new ML dir true)) n) with (@nil (saved_field ML)).
  cbn [app]. exact (found_log ML _ n _ _ F).
Qed.

(** How saving a well-formed body ends. *)
Lemma save_outcome trim t b l fuel g e x e1 : live t -> exact_chunks (delimiter b) t (map snd l) ->
  parts (head_block ML trim (delimiter b)) (delimiter b) (stream t) l ->
  save_request ML ma trim fuel g (with_body t b) e = (x, e1) ->
  match x with
  | Full en => holds en e1 l /\ length l < 256
  | Part pe RCount => exists d rest, l = d ++ rest /\ holds (pe_entries ML pe) e1 d /\ holds (keep_partial ML pe) e1 d /\ 256 <= length d
  | Part pe RSize => exists d h c rest w, l = d ++ (h, c) :: rest /\ (8 * 1024 * 1024 < N.of_nat (length c))%N /\ prefix_of w c /\
      holds (pe_entries ML pe) e1 d /\ holds (keep_partial ML pe) e1 (d ++ [(h, w)])
  | Part pe (RIo _) => exists d rest, l = d ++ rest /\ holds (pe_entries ML pe) e1 d
  | Part _ RUtf8 | SPanic => False
  | _ => True
  end.
Proof.
  intros Hl Hns P. unfold save_request, temp, temp_with_prefix, with_temp_dir.
  destruct (tempdir_in _ _ _ g e) as [[[dir|k] g1] e0] eqn:Td.
  2: { intros H; injection H as <- <-. exact Logic.I. }
  destruct (with_entries ML trim saver_new fuel (entries_new ML dir true) g1 (with_body t b) e0) as [[[y g'] r'] e2] eqn:We.
  intros H; injection H as <- <-.
  assert (Ex : forall en', (y = Full en' \/ exists pe why, y = Part pe why /\ en' = pe_entries ML pe) ->
    exists log d rest, en' = pushes ML (recount_fields ML (entries_new ML dir true)) log /\ l = d ++ rest /\
    Forall2 (fun hv hc => fst hv = fst hc /\ readable (snd hv) (e_fs e2) = Some (snd hc)) log d /\ (y = Full en' -> rest = [])).
  { intros en'. exact (C43_exact_partial ML trim t b saver_new fuel _ g1 e0 _ _ _ _ l en' Hl Hns eq_refl P We). }
  rewrite saver_ic0 in We. unfold with_entries in We. destruct (read_entry ML trim (with_body t b)) as [res r1] eqn:E.
  assert (R0 : reached ML trim t b (with_body t b)) by (exists [], []; reflexivity).
  pose proof (reached_inv _ _ _ _ _ R0) as (I0 & _).
  pose proof (read_entry_inv ML _ _ _ _ I0 E) as (I1 & _ & _ & _ & N1 & _).
  pose proof (read_entry_parts ML _ _ _ _ _ _ _ R0 ltac:(discriminate) (or_introl eq_refl) Hl P E) as Nx.
  pose proof (loop_reasons ML _ _ _ (iron_policy ic0) _ _ _ _ _ _ _ _ _ I1 N1 We) as [NP K].
  assert (Lc : (s_count_limit (iron_saver ic0) <= U32MAX)%N) by (vm_compute; discriminate).
  assert (Cr : counted_right ML (recount_fields ML (entries_new ML dir true))) by reflexivity.
  pose proof (loop_count ML _ _ _ Lc _ _ _ _ _ _ _ _ _ Cr We) as Cn.
  assert (Ln : forall (log : list (field_headers ML * saved)) (d : list (field_headers ML * bytes)), Forall2 (fun hv hc => fst hv = fst hc /\ readable (snd hv) (e_fs e2) = Some (snd hc)) log d -> length log = length d).
  { intros log d F. induction F; cbn; auto. }
  assert (W0 : well_grouped (recount_fields ML (entries_new ML dir true))) by (split; constructor).
  destruct y as [en|pe why|z| |]; auto.
  - destruct (Ex en (or_introl eq_refl)) as (log & d & rest & -> & -> & F & Er). rewrite (Er eq_refl), app_nil_r.
    split; [now apply log_holds|]. destruct Cn as [Cn _]. destruct (C45_grouping ML _ log [] W0) as (_ & _ & _ & Q2).
    rewrite fields_total in Q2. rewrite Q2, (Ln _ _ F) in Cn. cbn in Cn. lia.
  - destruct (K pe why eq_refl) as [K1 K2]. destruct (Ex (pe_entries ML pe)) as (log & d & rest & E1 & E2 & F & _); [eauto|].
    destruct why as [| |z|]; try congruence.
    + pose proof (count_partial _ _ _ _ _ _ _ _ _ _ _ _ We I1) as Np. apply loop_count_reached in We; auto.
      exists d, rest. unfold keep_partial. rewrite Np, E1. split; auto.
      split; [now apply log_holds|]. split; [now apply log_holds|].
      rewrite E1 in We. destruct (C45_grouping ML _ log [] W0) as (_ & _ & Q1 & Q2). rewrite Q1, Q2 in We by reflexivity.
      change (fields_of (recount_fields ML (entries_new ML dir true))) with 0 in We. rewrite (Ln _ _ F) in We. change (s_count_limit (iron_saver ic0)) with 256%N in We. lia.
    + clear Ex E1 E2 F log d rest.
      destruct (loop_cut ML trim t b (iron_saver ic0) _ Hl eq_refl _ _ _ _ _ _ _ _ _ _ Hns I1 Nx We)
        as (log & d & h & c & rest & v & w & H1 & -> & H3 & Hp & Lz & Rd & Pw & _).
      exists d, h, c, rest, w. split; auto. split; auto. split; auto. rewrite H1. split; [now apply log_holds|].
      assert (Ek : keep_partial ML pe = pushes ML (recount_fields ML (entries_new ML dir true)) (log ++ [(h, v)])).
      { unfold keep_partial, pushes. rewrite Hp, H1, fold_left_app. reflexivity. }
      rewrite Ek. apply log_holds. apply Forall2_app; [exact H3|]. constructor; [auto|constructor].
    + exists d, rest. split; auto. rewrite E1. now apply log_holds.
Qed.

Lemma holds_text en e l t : holds en e l -> te_isched t = [] -> te_osched t = [] ->
  exists names t', names_of ML l names /\ print_entries ML sh ma en (e_fs e) t = (None, t') /\
    te_inner t' = te_inner t ++ form_text ML sh names l /\ te_stdout t' = te_stdout t ++ form_text ML sh names l /\ te_osched t' = [].
Proof. intros [W F]. now apply print_text. Qed.

(** [process_entries] of the examples, if standard output takes everything at once. *)
Lemma process_text en e l data out : holds en e l ->
  exists names, names_of ML l names /\
    process_entries ML sh ma en data (out, []) e =
      (inr (data ++ form_text ML sh names l ++ PROCESSED), (out ++ form_text ML sh names l, []), forget ML ma en e).
Proof.
  intros H. destruct (holds_text en e l (mkTee data [] out []) H eq_refl eq_refl) as (names & t' & Nm & E & T1 & T2 & T3).
  exists names. split; [exact Nm|]. unfold process_entries. cbn [fst snd]. rewrite E, T1, T2, T3. cbn [te_inner te_stdout]. now rewrite app_assoc.
Qed.

End Servers.

(** ** The example servers *)

(** The boundary is found in the request and the body is [t]. *)
Inductive handler := Tiny (q : tiny_request) | Iron (q : hyper_request) | Rocket (form : bool) (ps : list (bytes * bytes)) (t : transport)
  | Hyper (started : option iokind) (is : list wevent) (q : hyper_request) | Nickel (started : option iokind) (is : list wevent) (q : hyper_request).

(** What the server answers. *)
Definition handle {ML} (sh : shows ML) (ma : machine ML) (trim : bool) (fuel : nat) (g : rng) (k : handler) (o : stdout) (e : env) : answer * stdout * env :=
  match k with
  | Tiny q => tiny_serve ML sh ma trim fuel g q o e
  | Iron q => iron_process ML sh ma trim fuel g q o e
  | Rocket form ps t => rocket_upload ML sh ma trim fuel g form ps t o e
  | Hyper started is q => hyper_serve ML sh ma trim fuel g started is q o e
  | Nickel started is q => nickel_serve ML sh ma trim fuel g started is q o e
  end.

(** The request is accepted with the boundary [b] and has the body [t]. *)
Definition form_of (k : handler) (b : bytes) (t : transport) : Prop :=
  match k with
  | Tiny q => tiny_boundary q = Some b /\ ti_body q = t
  | Iron q => iron_boundary q = Some b /\ hy_body q = t
  | Rocket form ps t' => form = true /\ find (fun p => beq (fst p) (bs "boundary")) ps = Some (bs "boundary", b) /\ t' = t
  | Hyper _ _ q => hyper_boundary q = Some b /\ hy_body q = t
  | Nickel _ _ q => nickel_boundary q = Some b /\ hy_body q = t
  end.

(** The response can be started and takes everything at once. *)
Definition takes_all (k : handler) : Prop :=
  match k with Hyper started is _ | Nickel started is _ => started = None /\ is = [] | _ => True end.

Definition processed_line : bytes := bs "Entries processed" ++ [10%N].
Definition last_line (k : handler) : bytes := match k with Hyper _ _ _ | Nickel _ _ _ => [] | _ => processed_line end.

(** *** The answers *)

(** A request without a boundary is refused, without looking at its body. *)
Definition refusal (k : handler) : N * bytes :=
  match k with
  | Tiny _ | Iron _ => (400%N, bs "The request is not multipart")
  | Rocket false _ _ => (400%N, bs "Content-Type not multipart/form-data")
  | Rocket true _ _ => (400%N, bs "`Content-Type: multipart/form-data` boundary param not provided")
  | Hyper _ _ _ => (418%N, bs "Please send a multipart req :(" ++ [10%N])
  | Nickel _ _ _ => (400%N, bs "Request seems not was a multipart request")
  end.

Theorem C83_refuses : forall ML sh (ma : machine ML) trim fuel k g o e, (forall b t, ~ form_of k b t) ->
  handle sh ma trim fuel g k o e = (Responds (fst (refusal k)) (snd (refusal k)), o, e).
Proof.
  intros ML sh ma trim fuel k g o e Hn. destruct k as [q|q|form ps t|started is q|started is q]; cbn [handle refusal fst snd].
  - unfold tiny_serve, tiny_process, server_from_request. destruct (tiny_boundary q) as [b|] eqn:B; [|reflexivity].
    exfalso. apply (Hn b (ti_body q)). split; auto.
  - unfold iron_process, server_from_request. destruct (iron_boundary q) as [b|] eqn:B; [|reflexivity].
    exfalso. apply (Hn b (hy_body q)). split; auto.
  - unfold rocket_upload. destruct form; [|reflexivity]. destruct (find _ ps) as [[n b]|] eqn:F; [|reflexivity].
    exfalso. apply (Hn b t). split; auto. split; auto. rewrite F. apply find_some in F as [_ F]. cbn [fst] in F. apply beq_eq in F. now rewrite F.
  - unfold hyper_serve, switch_handle, server_from_request. destruct (hyper_boundary q) as [b|] eqn:B; [|reflexivity].
    exfalso. apply (Hn b (hy_body q)). split; auto.
  - unfold nickel_serve, server_from_request. destruct (nickel_boundary q) as [b|] eqn:B; [|reflexivity].
    exfalso. apply (Hn b (hy_body q)). split; auto.
Qed.

(** For a request with a boundary: which answers there are besides 200, and their texts. *)
Theorem C83_status : forall ML sh (ma : machine ML) trim fuel k b t g o e st body o1 e1, form_of k b t ->
  handle sh ma trim fuel g k o e = (Responds st body, o1, e1) ->
  st = 200%N \/
  match k with
  | Tiny _ => st = 500%N /\ body = bs "The received data was not correctly proccessed on the server"
  | Iron _ => (st = 500%N /\ body = bs "Error printing request fields") \/
              (st = 400%N /\ exists x, body = bs "error reading request: " ++ sh_err ML sh x)
  | Rocket _ _ _ => st = 500%N /\ exists x, body = sh_err ML sh x
  | Hyper _ _ _ => False
  | Nickel _ _ _ => st = 500%N /\ exists x, body = bs "Server could not handle multipart POST! " ++ sh_debug ML sh x
  end.
Proof.
  intros ML sh ma trim fuel k b t g o e st body o1 e1 Fk H. destruct k as [q|q|form ps t0|started is q|started is q]; cbn [handle form_of] in *.
  - destruct Fk as [B _]. unfold tiny_serve, tiny_process, server_from_request in H. rewrite B in H.
    destruct (save_request _ _ _ _ _ _ _) as [[en|pe why|x| |] e2]; [| |injection H as <- <- _ _; auto|discriminate|discriminate].
    + destruct (process_entries _ _ _ en _ _ _) as [[[kk|d] o2] e3]; injection H as <- <- _ _; auto.
    + destruct (process_entries _ _ _ _ _ _ _) as [[[kk|d] o2] e3]; [injection H as <- <- _ _; auto|].
      destruct (unwrap_err why); [injection H as <- <- _ _; auto|discriminate].
  - destruct Fk as [B _]. unfold iron_process, server_from_request in H. rewrite B in H.
    destruct (save_request _ _ _ _ _ _ _) as [[en|pe why|x| |] e2]; [| |injection H as <- <- _ _; right; right; split; [reflexivity|eexists; reflexivity]|discriminate|discriminate].
    + destruct (process_entries _ _ _ en _ _ _) as [[[kk|d] o2] e3]; injection H as <- <- _ _; auto.
    + destruct (process_entries _ _ _ _ _ _ _) as [[[kk|d] o2] e3]; [injection H as <- <- _ _; auto|].
      destruct (unwrap_err why); [injection H as <- <- _ _; right; right; split; [reflexivity|eexists; reflexivity]|discriminate].
  - destruct Fk as (-> & F & _). unfold rocket_upload in H. rewrite F in H. unfold rocket_process in H.
    destruct (save_request _ _ _ _ _ _ _) as [[en|pe why|x| |] e2]; [| |injection H as <- <- _ _; right; split; [reflexivity|eexists; reflexivity]|discriminate|discriminate];
      destruct (process_entries _ _ _ _ _ _ _) as [[[kk|d] o2] e3]; injection H as <- <- _ _;
      solve [auto|right; split; [reflexivity|eexists; reflexivity]].
  - destruct Fk as [B _]. unfold hyper_serve, switch_handle, server_from_request in H. rewrite B in H.
    destruct (save_request _ _ _ _ _ _ _) as [[en|pe why|x| |] e2]; [| |injection H as <- <- _ _; auto|discriminate|discriminate];
      unfold hyper_entries in H; (destruct started; [discriminate|]); destruct (print_entries _ _ _ _ _ _) as [[kk|] tt0]; try discriminate;
      injection H as <- <- _ _; auto.
  - destruct Fk as [B _]. unfold nickel_serve, server_from_request in H. rewrite B in H.
    destruct (save_request _ _ _ _ _ _ _) as [[en|pe why|x| |] e2]; [| |injection H as <- <- _ _; right; split; [reflexivity|eexists; reflexivity]|discriminate|discriminate];
      unfold nickel_entries in H; (destruct started; [discriminate|]); destruct (print_entries _ _ _ _ _ _) as [[kk|] tt0];
      try (injection H as <- <- _ _; auto; fail);
      destruct (write_pieces _ _ _) as [[k2|] w]; try discriminate; injection H as <- <- _ _; auto.
Qed.

(** *** A form is echoed *)
Theorem C83_echo_partial : forall ML sh (ma : machine ML) trim k b t l g out e, sound_machine ma ->
  form_of k b t -> takes_all k -> live t -> quiet t -> exact_chunks (delimiter b) t (map snd l) ->
  parts (head_block ML trim (delimiter b)) (delimiter b) (stream t) l ->
  0 < ma_tries ML ma -> temp_ready e (ma_temp ML ma) (bs "multipart-rs") g (length l) ->
  length l < 256 -> Forall (fun hc => (N.of_nat (length (snd hc)) <= 8 * 1024 * 1024)%N) l ->
  exists fuel0, forall fuel, fuel0 <= fuel -> exists names e',
    names_of ML l names /\ handle sh ma trim fuel g k (out, []) e =
      (Responds 200 (form_text ML sh names l ++ last_line k), (out ++ form_text ML sh names l, []), e') /\
    forall p, e_fs e' p = e_fs e p.
Proof.
  intros ML sh ma trim k b t l g out e Sm Fk Tk Hl Hq Hns P Lt T Ll Fs.
  destruct (save_full ML ma trim t b l g e Hl Hq Hns P Lt T Ll Fs) as [fuel0 K]. exists fuel0. intros fuel Lf.
  destruct (K fuel Lf) as (en & e1 & H & Hd). pose proof (save_clean ML ma _ _ _ _ _ _ _ _ (proj2 (proj2 (proj2 Sm))) (proj1 T) H) as Cl. cbn beta iota in Cl.
  destruct (process_text ML sh ma Sm en e1 l [] out Hd) as (names & Nm & E). cbn [app] in E.
  destruct (holds_text ML sh ma Sm en e1 l (mkTee [] [] out []) Hd eq_refl eq_refl) as (names2 & t' & Nm2 & E2 & T1 & T2 & T3).
  cbn [te_inner te_stdout app] in T1, T2.
  destruct k as [q|q|form ps t0|started is q|started is q]; [| |destruct Fk as (-> & Fk)| |]; destruct Fk as [Fb <-]; cbn [handle last_line].
  - exists names, (forget ML ma en e1). split; auto. split; [|exact Cl].
    unfold tiny_serve, tiny_process, server_from_request. rewrite Fb, H, E. reflexivity.
  - exists names, (forget ML ma en e1). split; auto. split; [|exact Cl].
    unfold iron_process, server_from_request. rewrite Fb, H, E. reflexivity.
  - exists names, (forget ML ma en e1). split; auto. split; [|exact Cl].
    unfold rocket_upload, rocket_process. rewrite Fb, H, E. reflexivity.
  - exists names2, (forget ML ma en e1). split; auto. split; [|exact Cl]. destruct Tk as [-> ->].
    unfold hyper_serve, switch_handle, server_from_request, hyper_entries. cbn [fst snd]. rewrite Fb, H, E2, T1, T2, T3, app_nil_r. reflexivity.
  - exists names2, (forget ML ma en e1). split; auto. split; [|exact Cl]. destruct Tk as [-> ->].
    unfold nickel_serve, server_from_request, nickel_entries. cbn [fst snd]. rewrite Fb, H, E2, T1, T2, T3, app_nil_r. reflexivity.
Qed.

(** *** Nothing is left behind *)
Lemma process_env ML sh (ma : machine ML) en data o e x o1 e2 : process_entries ML sh ma en data o e = (x, o1, e2) -> e2 = forget ML ma en e.
Proof. unfold process_entries. destruct (print_entries _ _ _ _ _ _) as [[z|] t']; intros H; injection H as _ _ <-; reflexivity. Qed.

(** Whatever is sent and whatever fails: when the handler has answered, failed or panicked, the file system is as before (if removing
    the temporary directory succeeds). *)
Theorem C83_clean : forall ML sh (ma : machine ML) trim fuel k g o e x o1 e1, ma_rm ML ma = RmOk -> wf_fs (e_fs e) ->
  handle sh ma trim fuel g k o e = (x, o1, e1) -> x <> Unfinished -> forall p, e_fs e1 p = e_fs e p.
Proof.
  intros ML sh ma trim fuel k g o e x o1 e1 Rm W H Nu.
  assert (Pr : forall en data e2 y o2 e3, process_entries ML sh ma en data o e2 = (y, o2, e3) -> e3 = forget ML ma en e2).
  { intros en data e2 y o2 e3. apply process_env. }
  destruct k as [q|q|form ps t|started is q|started is q]; cbn [handle] in H.
  - unfold tiny_serve, tiny_process, server_from_request in H. destruct (tiny_boundary q) as [b|]; [|now injection H as _ _ <-].
    destruct (save_request ML ma trim fuel g (with_body (ti_body q) b) e) as [y e2] eqn:S0. pose proof (save_clean ML ma _ _ _ _ _ _ _ _ Rm W S0) as Cl.
    destruct y as [en|pe why|z| |]; cbn beta iota in Cl.
    + destruct (process_entries ML sh ma en [] o e2) as [[[kk|d] o2] e3] eqn:E; apply Pr in E; subst e3; injection H as _ _ <-; exact Cl.
    + destruct (process_entries ML sh ma (keep_partial ML pe) [] o e2) as [[[kk|d] o2] e3] eqn:E; apply Pr in E; subst e3.
      * injection H as _ _ <-. intros p. apply Cl.
      * destruct (unwrap_err why); injection H as _ _ <-; intros p; apply Cl.
    + injection H as _ _ <-. exact Cl.
    + destruct Cl.
    + injection H as <- _ _. congruence.
  - unfold iron_process, server_from_request in H. destruct (iron_boundary q) as [b|]; [|now injection H as _ _ <-].
    destruct (save_request ML ma trim fuel g (with_body (hy_body q) b) e) as [y e2] eqn:S0. pose proof (save_clean ML ma _ _ _ _ _ _ _ _ Rm W S0) as Cl.
    destruct y as [en|pe why|z| |]; cbn beta iota in Cl.
    + destruct (process_entries ML sh ma en [] o e2) as [[[kk|d] o2] e3] eqn:E; apply Pr in E; subst e3; injection H as _ _ <-; exact Cl.
    + destruct (process_entries ML sh ma (keep_partial ML pe) [] o e2) as [[[kk|d] o2] e3] eqn:E; apply Pr in E; subst e3.
      * injection H as _ _ <-. intros p. apply Cl.
      * destruct (unwrap_err why); injection H as _ _ <-; intros p; apply Cl.
    + injection H as _ _ <-. exact Cl.
    + destruct Cl.
    + injection H as <- _ _. congruence.
  - unfold rocket_upload, rocket_process in H. destruct form; [|now injection H as _ _ <-].
    destruct (find _ ps) as [[n b]|]; [|now injection H as _ _ <-].
    destruct (save_request ML ma trim fuel g (with_body t b) e) as [y e2] eqn:S0. pose proof (save_clean ML ma _ _ _ _ _ _ _ _ Rm W S0) as Cl.
    destruct y as [en|pe why|z| |]; cbn beta iota in Cl.
    + destruct (process_entries ML sh ma en [] o e2) as [[[kk|d] o2] e3] eqn:E; apply Pr in E; subst e3; injection H as _ _ <-; exact Cl.
    + destruct (process_entries ML sh ma (pe_entries ML pe) _ o e2) as [[[kk|d] o2] e3] eqn:E; apply Pr in E; subst e3;
        injection H as _ _ <-; intros p; apply Cl.
    + injection H as _ _ <-. exact Cl.
    + destruct Cl.
    + injection H as <- _ _. congruence.
  - assert (He : forall en e2, hyper_entries ML sh ma started is en o e2 = (x, o1, e1) -> e1 = forget ML ma en e2).
    { intros en e2. unfold hyper_entries. destruct started; [|destruct (print_entries _ _ _ _ _ _) as [[z|] t']]; intros Q; injection Q as _ _ <-; reflexivity. }
    unfold hyper_serve, switch_handle, server_from_request in H. destruct (hyper_boundary q) as [b|]; [|now injection H as _ _ <-].
    destruct (save_request ML ma trim fuel g (with_body (hy_body q) b) e) as [y e2] eqn:S0. pose proof (save_clean ML ma _ _ _ _ _ _ _ _ Rm W S0) as Cl.
    destruct y as [en|pe why|z| |]; cbn beta iota in Cl.
    + apply He in H as ->. exact Cl.
    + apply He in H as ->. intros p; apply Cl.
    + injection H as _ _ <-. exact Cl.
    + destruct Cl.
    + injection H as <- _ _. congruence.
  - assert (He : forall en e2, nickel_entries ML sh ma started is en o e2 = (x, o1, e1) -> e1 = forget ML ma en e2).
    { intros en e2. unfold nickel_entries. destruct started; [|destruct (print_entries _ _ _ _ _ _) as [[z|] t']].
      - intros Q; injection Q as _ _ <-; reflexivity.
      - destruct (write_pieces _ _ _) as [z2 w]. intros Q; injection Q as _ _ <-; reflexivity.
      - intros Q; injection Q as _ _ <-; reflexivity. }
    unfold nickel_serve, server_from_request in H. destruct (nickel_boundary q) as [b|]; [|now injection H as _ _ <-].
    destruct (save_request ML ma trim fuel g (with_body (hy_body q) b) e) as [y e2] eqn:S0. pose proof (save_clean ML ma _ _ _ _ _ _ _ _ Rm W S0) as Cl.
    destruct y as [en|pe why|z| |]; cbn beta iota in Cl.
    + apply He in H as ->. exact Cl.
    + apply He in H as ->. intros p; apply Cl.
    + injection H as _ _ <-. exact Cl.
    + destruct Cl.
    + injection H as <- _ _. congruence.
Qed.

(** *** What an answer with status 200 says *)

(** tiny_http and Iron: the form is complete.  Rocket: the form is complete, or the answer says that it is not. *)
Theorem C83_complete_partial : forall ML sh (ma : machine ML) trim fuel k b t l g out e body o1 e1, sound_machine ma ->
  form_of k b t -> live t -> exact_chunks (delimiter b) t (map snd l) ->
  parts (head_block ML trim (delimiter b)) (delimiter b) (stream t) l ->
  handle sh ma trim fuel g k (out, []) e = (Responds 200 body, o1, e1) ->
  match k with
  | Tiny _ | Iron _ => exists names, names_of ML l names /\ body = form_text ML sh names l ++ processed_line
  | Rocket _ _ _ => exists d names, names_of ML d names /\
      (d = l /\ body = form_text ML sh names d ++ processed_line \/
       exists rest note, l = d ++ rest /\ body = bs "Request partially processed: " ++ note ++ form_text ML sh names d ++ processed_line)
  | Hyper _ _ _ | Nickel _ _ _ => True
  end.
Proof.
  intros ML sh ma trim fuel k b t l g out e body o1 e1 Sm Fk Hl Hns P H.
  destruct k as [q|q|form ps t0|started is q|started is q]; auto; [| |destruct Fk as (-> & Fk)]; destruct Fk as [Fb <-]; cbn [handle] in H.
  - unfold tiny_serve, tiny_process, server_from_request in H. rewrite Fb in H.
    destruct (save_request ML ma trim fuel g (with_body (ti_body q) b) e) as [y e2] eqn:S0.
    apply save_outcome with (l := l) in S0; auto.
    destruct y as [en|pe why|z| |]; try discriminate H.
    + destruct S0 as [Hd _]. destruct (process_text ML sh ma Sm en e2 l [] out Hd) as (names & Nm & E). rewrite E in H.
      injection H as <- _ _. eauto.
    + destruct (process_entries _ _ _ _ _ _ _) as [[[kk|d] o2] e3]; [discriminate H|]. destruct (unwrap_err why); discriminate H.
  - unfold iron_process, server_from_request in H. rewrite Fb in H.
    destruct (save_request ML ma trim fuel g (with_body (hy_body q) b) e) as [y e2] eqn:S0.
    apply save_outcome with (l := l) in S0; auto.
    destruct y as [en|pe why|z| |]; try discriminate H.
    + destruct S0 as [Hd _]. destruct (process_text ML sh ma Sm en e2 l [] out Hd) as (names & Nm & E). rewrite E in H.
      injection H as <- _ _. eauto.
    + destruct (process_entries _ _ _ _ _ _ _) as [[[kk|d] o2] e3]; [discriminate H|]. destruct (unwrap_err why); discriminate H.
  - unfold rocket_upload, rocket_process in H. rewrite Fb in H.
    destruct (save_request ML ma trim fuel g (with_body t0 b) e) as [y e2] eqn:S0.
    apply save_outcome with (l := l) in S0; auto.
    destruct y as [en|pe why|z| |]; try discriminate H.
    + destruct S0 as [Hd _]. destruct (process_text ML sh ma Sm en e2 l [] out Hd) as (names & Nm & E). rewrite E in H.
      injection H as <- _ _. exists l, names. auto.
    + assert (Q : exists d rest, l = d ++ rest /\ holds ML (pe_entries ML pe) e2 d).
      { destruct why as [| |z|]; [| | |destruct S0].
        - destruct S0 as (d & rest & E & Hd & _). eauto.
        - destruct S0 as (d & h & c & rest & w & E & _ & _ & Hd & _). eauto.
        - exact S0. }
      destruct Q as (d & rest & E & Hd).
      destruct (process_text ML sh ma Sm (pe_entries ML pe) e2 d (bs "Request partially processed: " ++ sh_reason ML sh why ++ [LF] ++
         match pe_partial ML pe with Some (h, _) => bs "Stopped on field: " ++ sh_headers ML sh h ++ [LF] | None => [] end) out Hd) as (names & Nm & E').
      rewrite E' in H. injection H as <- _ _. exists d, names. split; auto. right. exists rest.
      exists (sh_reason ML sh why ++ [LF] ++ match pe_partial ML pe with Some (h, _) => bs "Stopped on field: " ++ sh_headers ML sh h ++ [LF] | None => [] end).
      split; auto.
Qed.

(** *** The limits nobody set *)

(** tiny_http and Iron panic on [PartialReason::CountLimit] and [PartialReason::SizeLimit], of which their authors say "We don't set limits". *)
Definition panics (k : handler) : Prop := match k with Tiny _ | Iron _ => True | _ => False end.

Lemma strict_count ML (ma : machine ML) trim t b l g e :
  live t -> quiet t -> exact_chunks (delimiter b) t (map snd l) ->
  parts (head_block ML trim (delimiter b)) (delimiter b) (stream t) l ->
  0 < ma_tries ML ma -> temp_ready e (ma_temp ML ma) (bs "multipart-rs") g (length l) ->
  256 <= length l -> Forall (fun hc => (N.of_nat (length (snd hc)) <= 8 * 1024 * 1024)%N) l ->
  exists fuel0, forall fuel, fuel0 <= fuel -> exists pe e1, save_request ML ma trim fuel g (with_body t b) e = (Part pe RCount, e1).
Proof.
  intros Hl Hq Hns P Lt T Ll Fs. destruct (temp_first _ _ _ _ _ _ Lt T) as (e1 & Td & G1 & F1).
  assert (Lc : (ic_count ic0 <= U32MAX)%N) by (vm_compute; discriminate).
  assert (Ln : (ic_count ic0 <= N.of_nat (length l))%N) by (change (ic_count ic0) with 256%N; lia).
  destruct (C46_count ML trim ic0 RmOk _ _ t b e1 l Hl Hq Hns Lc P G1 F1 Ln Fs) as [fuel0 K].
  exists fuel0. intros fuel Lf. specialize (K fuel Lf). unfold save_request, temp, temp_with_prefix. rewrite Td.
  unfold read_request_strict in K. rewrite <- saver_ic0 in K.
  destruct (with_temp_dir ML trim saver_new _ fuel _ (with_body t b) e1) as [[[y g'] r'] e2].
  destruct y as [en|pe why|z| |]; try discriminate K. destruct why; try discriminate K; eauto. destruct (pe_partial ML pe) as [[h v]|]; discriminate K.
Qed.

Theorem C83_crash_count : forall ML sh (ma : machine ML) trim k b t l g out e, sound_machine ma -> panics k ->
  form_of k b t -> live t -> quiet t -> exact_chunks (delimiter b) t (map snd l) ->
  parts (head_block ML trim (delimiter b)) (delimiter b) (stream t) l ->
  0 < ma_tries ML ma -> temp_ready e (ma_temp ML ma) (bs "multipart-rs") g (length l) ->
  256 <= length l -> Forall (fun hc => (N.of_nat (length (snd hc)) <= 8 * 1024 * 1024)%N) l ->
  exists fuel0, forall fuel, fuel0 <= fuel -> fst (fst (handle sh ma trim fuel g k (out, []) e)) = Crashed.
Proof.
  intros ML sh ma trim k b t l g out e Sm Pk Fk Hl Hq Hns P Lt T Ll Fs.
  destruct (strict_count ML ma trim t b l g e Hl Hq Hns P Lt T Ll Fs) as [fuel0 K]. exists fuel0. intros fuel Lf.
  destruct (K fuel Lf) as (pe & e1 & H). pose proof H as S0. apply save_outcome with (l := l) in S0; auto.
  destruct S0 as (d & rest & _ & _ & Hd & _). destruct (process_text ML sh ma Sm (keep_partial ML pe) e1 d [] out Hd) as (names & _ & E).
  destruct k as [q|q|form ps t0|started is q|started is q]; try destruct Pk; destruct Fk as [Fb <-]; cbn [handle].
  - unfold tiny_serve, tiny_process, server_from_request. rewrite Fb, H, E. reflexivity.
  - unfold iron_process, server_from_request. rewrite Fb, H, E. reflexivity.
Qed.

Lemma strict_size ML (ma : machine ML) trim t b l1 h c l2 g e :
  live t -> quiet t -> exact_chunks (delimiter b) t (map snd (l1 ++ (h, c) :: l2)) ->
  parts (head_block ML trim (delimiter b)) (delimiter b) (stream t) (l1 ++ (h, c) :: l2) ->
  0 < ma_tries ML ma -> temp_ready e (ma_temp ML ma) (bs "multipart-rs") g (length l1 + 1) ->
  length l1 < 256 -> Forall (fun hc => (N.of_nat (length (snd hc)) <= 8 * 1024 * 1024)%N) l1 ->
  (8 * 1024 * 1024 + 10240 < N.of_nat (length c))%N ->
  exists fuel0, forall fuel, fuel0 <= fuel -> exists pe e1, save_request ML ma trim fuel g (with_body t b) e = (Part pe RSize, e1).
Proof.
  intros Hl Hq Hns P Lt T Ll Fs Lc. destruct (temp_first _ _ _ _ _ _ Lt T) as (e1 & Td & G1 & F1).
  assert (Lm : (ic_count ic0 <= U32MAX)%N) by (vm_compute; discriminate).
  assert (Lz : (ic_size ic0 < U64MAX)%N) by (vm_compute; reflexivity).
  assert (Ln : (N.of_nat (length l1) < ic_count ic0)%N) by (change (ic_count ic0) with 256%N; lia).
  destruct (C46_size_partial ML trim ic0 RmOk _ _ t b e1 l1 h c l2 Hl Hq Hns Lm Lz P G1 F1 Ln Fs Lc) as [fuel0 K].
  exists fuel0. intros fuel Lf. specialize (K fuel Lf). unfold save_request, temp, temp_with_prefix. rewrite Td.
  unfold read_request_strict in K. rewrite <- saver_ic0 in K.
  destruct (with_temp_dir ML trim saver_new _ fuel _ (with_body t b) e1) as [[[y g'] r'] e2].
  destruct y as [en|pe why|z| |]; try discriminate K. destruct why; try discriminate K; eauto.
Qed.

Theorem C83_crash_size : forall ML sh (ma : machine ML) trim k b t l1 h c l2 g out e, sound_machine ma -> panics k ->
  form_of k b t -> live t -> quiet t -> exact_chunks (delimiter b) t (map snd (l1 ++ (h, c) :: l2)) ->
  parts (head_block ML trim (delimiter b)) (delimiter b) (stream t) (l1 ++ (h, c) :: l2) ->
  0 < ma_tries ML ma -> temp_ready e (ma_temp ML ma) (bs "multipart-rs") g (length l1 + 1) ->
  length l1 < 256 -> Forall (fun hc => (N.of_nat (length (snd hc)) <= 8 * 1024 * 1024)%N) l1 ->
  (8 * 1024 * 1024 + 10240 < N.of_nat (length c))%N ->
  exists fuel0, forall fuel, fuel0 <= fuel -> fst (fst (handle sh ma trim fuel g k (out, []) e)) = Crashed.
Proof.
  intros ML sh ma trim k b t l1 h c l2 g out e Sm Pk Fk Hl Hq Hns P Lt T Ll Fs Lc.
  destruct (strict_size ML ma trim t b l1 h c l2 g e Hl Hq Hns P Lt T Ll Fs Lc) as [fuel0 K]. exists fuel0. intros fuel Lf.
  destruct (K fuel Lf) as (pe & e1 & H). pose proof H as S0. apply save_outcome with (l := l1 ++ (h, c) :: l2) in S0; auto.
  destruct S0 as (d & h' & c' & rest & w & _ & _ & _ & _ & Hd). destruct (process_text ML sh ma Sm (keep_partial ML pe) e1 _ [] out Hd) as (names & _ & E).
  destruct k as [q|q|form ps t0|started is q|started is q]; try destruct Pk; destruct Fk as [Fb <-]; cbn [handle].
  - unfold tiny_serve, tiny_process, server_from_request. rewrite Fb, H, E. reflexivity.
  - unfold iron_process, server_from_request. rewrite Fb, H, E. reflexivity.
Qed.

(** Otherwise no well-formed request makes them panic, whatever fails. *)
Theorem C83_no_crash_partial : forall ML sh (ma : machine ML) trim fuel k b t l g o e,
  form_of k b t -> live t -> exact_chunks (delimiter b) t (map snd l) ->
  parts (head_block ML trim (delimiter b)) (delimiter b) (stream t) l ->
  (panics k -> length l < 256 /\ Forall (fun hc => (N.of_nat (length (snd hc)) <= 8 * 1024 * 1024)%N) l) ->
  match k with Hyper started _ _ => started = None | _ => True end ->
  fst (fst (handle sh ma trim fuel g k o e)) <> Crashed.
Proof.
  intros ML sh ma trim fuel k b t l g o e Fk Hl Hns P Lm Hs.
  assert (U : forall pe why e1, length l < 256 /\ Forall (fun hc => (N.of_nat (length (snd hc)) <= 8 * 1024 * 1024)%N) l ->
    save_request ML ma trim fuel g (with_body t b) e = (Part pe why, e1) -> exists x, unwrap_err why = Returns x).
  { intros pe why e1 [L1 L2] S0. apply save_outcome with (l := l) in S0; auto. destruct why as [| |z|].
    - destruct S0 as (d & rest & -> & _ & _ & L). rewrite app_length in L1. lia.
    - destruct S0 as (d & h & c & rest & w & -> & L & _). rewrite Forall_forall in L2.
      assert (Q : In (h, c) (d ++ (h, c) :: rest)) by (apply in_or_app; right; now left). apply L2 in Q. cbn [snd] in Q. lia.
    - exists z. reflexivity.
    - destruct S0. }
  assert (Np : forall e1, save_request ML ma trim fuel g (with_body t b) e <> (SPanic, e1)).
  { intros e1 S0. apply save_outcome with (l := l) in S0; auto. }
  destruct k as [q|q|form ps t0|started is q|started is q]; [| |destruct Fk as (-> & Fk)| |]; destruct Fk as [Fb <-]; cbn [handle panics] in *.
  - unfold tiny_serve, tiny_process, server_from_request. rewrite Fb. specialize (Lm I).
    destruct (save_request ML ma trim fuel g _ e) as [y e2] eqn:S0. destruct y as [en|pe why|z| |]; try discriminate.
    + destruct (process_entries _ _ _ _ _ _ _) as [[[kk|d] o2] e3]; discriminate.
    + destruct (U pe why e2 Lm eq_refl) as [x ->]. destruct (process_entries _ _ _ _ _ _ _) as [[[kk|d] o2] e3]; discriminate.
    + now destruct (Np e2).
  - unfold iron_process, server_from_request. rewrite Fb. specialize (Lm I).
    destruct (save_request ML ma trim fuel g _ e) as [y e2] eqn:S0. destruct y as [en|pe why|z| |]; try discriminate.
    + destruct (process_entries _ _ _ _ _ _ _) as [[[kk|d] o2] e3]; discriminate.
    + destruct (U pe why e2 Lm eq_refl) as [x ->]. destruct (process_entries _ _ _ _ _ _ _) as [[[kk|d] o2] e3]; discriminate.
    + now destruct (Np e2).
  - unfold rocket_upload, rocket_process. rewrite Fb.
    destruct (save_request ML ma trim fuel g _ e) as [y e2] eqn:S0. destruct y as [en|pe why|z| |]; try discriminate.
    + destruct (process_entries _ _ _ _ _ _ _) as [[[kk|d] o2] e3]; discriminate.
    + destruct (process_entries _ _ _ _ _ _ _) as [[[kk|d] o2] e3]; discriminate.
    + now destruct (Np e2).
  - unfold hyper_serve, switch_handle, server_from_request, hyper_entries. rewrite Fb, Hs.
    destruct (save_request ML ma trim fuel g _ e) as [y e2] eqn:S0. destruct y as [en|pe why|z| |]; try discriminate.
    + destruct (print_entries _ _ _ _ _ _) as [[z|] t']; discriminate.
    + destruct (print_entries _ _ _ _ _ _) as [[z|] t']; discriminate.
    + now destruct (Np e2).
  - unfold nickel_serve, server_from_request, nickel_entries. rewrite Fb.
    destruct (save_request ML ma trim fuel g _ e) as [y e2] eqn:S0. destruct y as [en|pe why|z| |]; try discriminate.
    + destruct started; [discriminate|]. destruct (print_entries _ _ _ _ _ _) as [[z|] t']; [destruct (write_pieces _ _ _) as [[z2|] w]|]; discriminate.
    + destruct started; [discriminate|]. destruct (print_entries _ _ _ _ _ _) as [[z|] t']; [destruct (write_pieces _ _ _) as [[z2|] w]|]; discriminate.
    + now destruct (Np e2).
Qed.

(** *** Examples *)

Definition toy_shows : shows toy :=
  mkShows toy (fun n => n) (fun f => match f with Some n => n | None => bs "None" end) (fun _ => bs "None") (fun n => decimal (N.of_nat n))
    (fun _ => bs "error") (fun _ => bs "reason") (fun h => fh_name toy h) (fun _ => bs "Error").

Definition toy_machine : machine toy :=
  mkMachine toy (fun f p => match f p with Some (NFile c) => [Chunk c] | _ => [] end) (fun _ => KOther 2) (en_fields toy) RmOk [bs "tmp"] 5.

Lemma toy_sound : sound_machine toy_machine.
Proof.
  split; [|split; [|split; [intros en; apply Permutation_refl|reflexivity]]]; intros f p c E; cbn [toy_machine ma_reads]; rewrite E.
  - destruct c; cbn; [reflexivity|]. now rewrite app_nil_r.
  - destruct c; cbn; tauto.
Qed.

Definition tiny_form (t : transport) : tiny_request := mkTiny (bs "POST") [(bs "Content-Type", bs "multipart/form-data; boundary=b")] t.
Definition hyper_form (t : transport) : hyper_request := mkHyper Post (Some (parsed_form (bs "b"))) t.
Definition all_servers (t : transport) : list handler :=
  [Tiny (tiny_form t); Iron (hyper_form t); Rocket true [(bs "boundary", bs "b")] t; Hyper None [] (hyper_form t); Nickel None [] (hyper_form t)].

Definition one_two : transport := [Chunk (toy_part (bs "a") (bs "one") ++ toy_part (bs "a") (bs "two") ++ toy_end)].
Definition one_two_text : bytes := bs "Field a has 2 entries:" ++ [LF] ++ bs "0: None (None):" ++ [LF] ++ bs "one1: None (None):" ++ [LF] ++ bs "two".

Definition many (n : nat) : transport := [Chunk (concat (repeat (toy_part (bs "a") (bs "x")) n) ++ toy_end)].

(** All five servers on a form of two fields with the same name; a request of another type. *)
Example C83_example :
  let go k e := handle toy_shows toy_machine true 100 tmp_rng k (bs "out: ", []) e in
  let plain := mkHyper Post (Some (Mime2 (TExt (bs "text")) (SExt (bs "plain")) [])) one_two in
  map (fun k => fst (go k tmp_env)) (all_servers one_two) =
    map (fun k => (Responds 200 (one_two_text ++ last_line k), (bs "out: " ++ one_two_text, []))) (all_servers one_two) /\
  form_text toy toy_shows [bs "a"] [(mkFH toy (bs "a") None None, bs "one"); (mkFH toy (bs "a") None None, bs "two")] = one_two_text /\
  map (fun k => fst (fst (go k tmp_env))) [Iron plain; Hyper None [] plain; Nickel None [] plain] =
    [Responds 400 (bs "The request is not multipart"); Responds 418 (bs "Please send a multipart req :(" ++ [LF]); Responds 400 (bs "Request seems not was a multipart request")] /\
  (forall k, In k (all_servers one_two) -> form_of k (bs "b") one_two /\ takes_all k) /\
  sound_machine toy_machine /\ temp_ready tmp_env [bs "tmp"] (bs "multipart-rs") tmp_rng 2.
Proof.
  cbv zeta. split; [vm_compute; reflexivity|]. split; [vm_compute; reflexivity|]. split; [vm_compute; reflexivity|].
  split; [|split; [exact toy_sound|]].
  - intros k H. repeat (destruct H as [<-|H]; [vm_compute; auto|]). destruct H.
  - split; [exact (proj1 C63_example)|]. split; [discriminate|].
    split; [split; [constructor|split; constructor]|]. split; [vm_compute; reflexivity|]. split; [vm_compute; reflexivity|].
    intros j k L. assert (k = 1) by lia. assert (j = 0) by lia. subst. vm_compute. discriminate.
Qed.

(** *** Claims about the servers that are false *)

(** "Every request is answered": 256 small fields stop tiny_http (the panic ends the program) and Iron's handler. *)
Theorem C83_answers_refuted : exists t l,
  parts (head_block toy true (delimiter (bs "b"))) (delimiter (bs "b")) (stream t) l /\ live t /\ quiet t /\ length l = 256 /\
  Forall (fun hc => snd hc = bs "x") l /\
  fst (fst (handle toy_shows toy_machine true 1000 tmp_rng (Tiny (tiny_form t)) ([], []) tmp_env)) = Crashed /\
  fst (fst (handle toy_shows toy_machine true 1000 tmp_rng (Iron (hyper_form t)) ([], []) tmp_env)) = Crashed.
Proof.
  exists (many 256), (repeat (mkFH toy (bs "a") None None, bs "x") 256).
  split; [|split; [|split; [|split; [apply repeat_length|split; [|split; vm_compute; reflexivity]]]]].
  - unfold many. cbn [stream]. rewrite app_nil_r.
    assert (Q : forall n pre, pre = [] \/ pre = bs "x" ++ CRLF ->
      parts (head_block toy true (delimiter (bs "b"))) (delimiter (bs "b")) (pre ++ concat (repeat (toy_part (bs "a") (bs "x")) n) ++ toy_end)
        (repeat (mkFH toy (bs "a") None None, bs "x") n)).
    { induction n as [|n IH]; intros pre Hp.
      - destruct Hp as [->| ->].
        + eapply parts_end with (pre := []) (q := CRLF). apply find_split; vm_compute; reflexivity.
        + eapply parts_end with (pre := bs "x" ++ CRLF) (q := CRLF). apply find_split; vm_compute; reflexivity.
      - cbn [repeat concat]. rewrite <- (app_assoc (toy_part (bs "a") (bs "x"))). set (more := concat (repeat (toy_part (bs "a") (bs "x")) n) ++ toy_end) in *.
        assert (Em : exists c post, more = bs "--b" ++ c :: post).
        { unfold more. destruct n as [|n].
          - exists DASH, (DASH :: CRLF). reflexivity.
          - cbn [repeat concat]. unfold toy_part at 1. rewrite <- !app_assoc. do 2 eexists. reflexivity. }
        destruct Em as (z & post & Em). clearbody more.
        apply parts_field with (pre := pre) (x := toy_head (bs "a")) (rest := bs "x" ++ CRLF ++ more).
        + destruct Hp as [->| ->]; apply find_split; vm_compute; reflexivity.
        + split; [|apply Nat.leb_le; vm_compute; reflexivity]. eexists. split; [intros y; vm_compute; reflexivity|]. split; vm_compute; reflexivity.
        + exists (toy_head (bs "a") ++ bs "x" ++ CRLF), (z :: post). split; [|left; reflexivity]. rewrite Em. apply find_split; vm_compute; reflexivity.
        + rewrite app_assoc. apply IH. auto. }
    exact (Q 256 [] (or_introl eq_refl)).
  - intros [H|[]]. discriminate.
  - intros k [H|[]]. discriminate.
  - apply Forall_forall. intros hc H. apply repeat_spec in H as ->. reflexivity.
Qed.

(** "An answer with status 200 shows the whole form": with hyper and nickel nothing of it, if the connection fails at once. *)
Theorem C83_hidden_refuted : exists t l,
  parts (head_block toy true (delimiter (bs "b"))) (delimiter (bs "b")) (stream t) l /\ live t /\
  exact_chunks (delimiter (bs "b")) t (map snd l) /\ length l = 2 /\
  (forall k, In k [Hyper None [] (hyper_form t); Nickel None [] (hyper_form t)] ->
   exists o1 e1, handle toy_shows toy_machine true 100 tmp_rng k ([], []) tmp_env = (Responds 200 [], o1, e1)) /\
  forall names, names_of toy l names -> form_text toy toy_shows names l <> [].
Proof.
  exists (Fail (KOther 5) :: two_chunks), two_list. split; [exact two_parts|]. split; [intros [H|[H|[]]]; discriminate|].
  split.
  { left. intros t1 c t2 H. destruct t1 as [|e1 [|e2 [|e3 t1]]]; [discriminate| |discriminate|discriminate].
    injection H as _ H _. apply (f_equal (fun l => List.last l 0%N)) in H. rewrite last_last in H. vm_compute in H. discriminate. } split; [reflexivity|]. split.
  - intros k [<-|[<-|[]]]; do 2 eexists; vm_compute; reflexivity.
  - intros [|n names] [_ H]; [|discriminate]. exfalso. apply (H (bs "a")). do 2 eexists. split; [left; reflexivity|reflexivity].
Qed.

(** "The answer is the form": not if standard output takes only a part of what it is given, because [StdoutTee] then writes that again. *)
Theorem C83_duplicated_refuted : exists t out body o1 e1,
  handle toy_shows toy_machine true 100 tmp_rng (Tiny (tiny_form t)) ([], out) tmp_env = (Responds 200 body, o1, e1) /\ Forall good_write out /\
  fst (fst (handle toy_shows toy_machine true 100 tmp_rng (Tiny (tiny_form t)) ([], []) tmp_env)) = Responds 200 (one_two_text ++ processed_line) /\
  fst o1 = one_two_text /\ body = bs "Field " ++ bs "eld " ++ skipn 6 one_two_text ++ processed_line.
Proof.
  exists one_two, [WAccept 2]. do 3 eexists. split; [vm_compute; reflexivity|]. split; [repeat constructor|].
  split; vm_compute; auto.
Qed.
