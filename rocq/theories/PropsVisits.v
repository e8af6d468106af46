(** Property theorems about requests through the Iron middleware at the same time (C107). *)

From Verif Require Import Bytes BytesProofs Spec Io Boundary BoundaryProofs Utf8 Utf8Proofs Httparse Field FieldProofs
  ContentProofs DataProofs ShortProofs EntryProofs ReaderProofs Drive DriveProofs ReachProofs Toy PropsReader Rand Fs Save Savedir SaveProofs
  PhaseProofs SaveFacts TextProofs PropsSave EntriesProofs CompleteProofs PropsEntries PropsSavedir Iron IronProofs PropsIron PropsUpload PropsAny PropsAnyway
  Together TogetherProofs PropsTogether Lives LivesProofs PropsLives Visits.

(** ** Alone *)

Lemma dir_of_path ML (en : entries ML) : as_path (dir_of en) = en_dir ML en.
Proof. unfold dir_of. now destruct (en_temp ML en). Qed.

Lemma with_entries_solo ML wf trim s fuel en g r e e1 x g1 r1 e2 : room wf e e1 -> e_fs e1 (en_dir ML en) = Some NDir ->
  with_entries ML trim s fuel en g r e1 = (x, g1, r1, e2) ->
  exists e', solo (pwith_entries ML wf trim s fuel en g r) e = (x, g1, r1, e') /\ room wf e' e2 /\ e_fs e2 (en_dir ML en) = Some NDir.
Proof.
  intros R Nd W. unfold with_entries in W. unfold pwith_entries. destruct (read_entry ML trim r) as [res r2].
  destruct (pentries_loop_same _ _ _ _ _ _ _ _ _ _ _ _ _ _ _ R W) as (e' & Sl & R'). exists e'. split; auto. split; auto.
  destruct R' as [[<- _] _]. change e' with (snd (x, g1, r1, e')). rewrite <- Sl. apply builds_dir with (D := fun _ => True) (F := fun _ => True).
  - apply within_loop with (dir := en_dir ML en) (n := 0%N); auto. cbn; lia.
  - destruct R as [[-> _] _]. exact Nd.
Qed.

Lemma pdropped_same ML A v (en : entries ML) (a : A) e e1 : esame e e1 -> e_fs e1 (en_dir ML en) = Some NDir ->
  exists e', solo (pdropped ML v en a) e = (a, e') /\ esame e' (set_fs (drop_dir (v_rm v) (dir_of en) (e_fs e1)) e1).
Proof.
  intros Se Nd. unfold pdropped. rewrite solo_bind. rewrite <- dir_of_path in Nd.
  destruct (pfinish_same EDrop (v_stages v) (v_rm v) _ _ _ _ _ Se Nd eq_refl) as (e' & -> & S'). exists e'. auto.
Qed.

Definition visited ML dir (x : res (iron_error ML) (option (entries ML))) (e : env) : Prop :=
  match x with Ok (Some en) => dir_of en = Temp dir /\ e_fs e dir = Some NDir | _ => True end.

Lemma temp_dir ML (en : entries ML) dir : dir_of en = Temp dir -> en_dir ML en = dir.
Proof. unfold dir_of. destruct (en_temp ML en); [|discriminate]. now intros H; injection H. Qed.

Lemma pstrict_same ML wf v dir g r e e1 x e2 : room wf e e1 -> e_fs e1 dir = Some NDir ->
  read_request_strict ML (v_trim v) (v_ic v) (v_rm v) dir (v_fuel v) g r e1 = (x, e2) ->
  exists e', solo (pstrict ML wf v dir g r) e = (x, e') /\ esame e' e2 /\ visited ML dir x e2.
Proof.
  intros R Nd H. unfold read_request_strict, with_temp_dir in H. unfold pstrict. rewrite solo_bind.
  destruct (with_entries ML (v_trim v) (iron_saver (v_ic v)) (v_fuel v) (entries_new ML dir true) g r e1) as [[[y g1] r1] e3] eqn:W.
  destruct (with_entries_solo ML wf _ _ _ (entries_new ML dir true) _ _ e _ _ _ _ _ R Nd W) as (e' & -> & [S' _] & Nd').
  apply C54_saving in W. change (en_dir ML (entries_new ML dir true)) with dir in Nd'. change (dir_of (entries_new ML dir true)) with (Temp dir) in W.
  destruct y as [en|p why|k| |]; cbn [solo].
  - injection H as <- <-. exists e'. cbn [visited]. auto.
  - destruct W as [Wd _]. assert (Nd2 : e_fs e3 (en_dir ML (pe_entries ML p)) = Some NDir) by (now rewrite (temp_dir _ _ _ Wd)).
    assert (K : (x, e2) = (strict_answer ML v p why, dropped ML (v_rm v) p e3)).
    { destruct why; cbn [strict_answer]; auto. now destruct (pe_partial ML p) as [[h o]|]. }
    injection K as -> ->. destruct (pdropped_same ML _ v _ (strict_answer ML v p why) _ _ S' Nd2) as (e4 & -> & S4). exists e4. split; auto. split; auto.
    destruct why; cbn [strict_answer visited]; auto. now destruct (pe_partial ML p) as [[h o]|].
  - injection H as <- <-. exists e'. cbn [visited]. auto.
  - injection H as <- <-. exists e'. cbn [visited]. auto.
  - injection H as <- <-. exists e'. cbn [visited]. auto.
Qed.

Lemma plenient_same ML wf v dir rounds : forall en g r e e1 x e2, room wf e e1 -> dir_of en = Temp dir -> e_fs e1 dir = Some NDir ->
  lenient_loop ML (v_trim v) (v_ic v) (v_rm v) rounds (v_fuel v) en g r e1 = (x, e2) ->
  exists e', solo (plenient ML wf v rounds en g r) e = (x, e') /\ esame e' e2 /\ visited ML dir x e2.
Proof.
  induction rounds as [|rounds IH]; intros en g r e e1 x e2 R De Nd H; cbn [lenient_loop plenient] in *.
  { injection H as <- <-. exists e. split; [reflexivity|]. split; [apply R|exact Logic.I]. }
  rewrite solo_bind. destruct (with_entries ML (v_trim v) (iron_saver (v_ic v)) (v_fuel v) en g r e1) as [[[y g1] r1] e3] eqn:W.
  rewrite <- (temp_dir _ _ _ De) in Nd.
  destruct (with_entries_solo _ wf _ _ _ _ _ _ e _ _ _ _ _ R Nd W) as (e' & -> & R' & Nd').
  apply C54_saving in W. rewrite De in W. rewrite (temp_dir _ _ _ De) in Nd'.
  destruct y as [en1|p why|k| |]; cbn [solo].
  - injection H as <- <-. exists e'. destruct R'. cbn [visited]. auto.
  - destruct W as [Wd Wk]. assert (Nd2 : e_fs e3 (en_dir ML (pe_entries ML p)) = Some NDir) by (now rewrite (temp_dir _ _ _ Wd)).
    destruct why as [| |k|]; try (eapply IH; eauto; fail).
    injection H as <- <-. destruct R' as [S' _]. destruct (pdropped_same ML (res (iron_error ML) (option (entries ML))) v _ (Err (IMidway ML k)) _ _ S' Nd2) as (e4 & -> & S4). exists e4. cbn [visited]. auto.
  - injection H as <- <-. exists e'. destruct R'. cbn [visited]. auto.
  - injection H as <- <-. exists e'. destruct R'. cbn [visited]. auto.
  - injection H as <- <-. exists e'. destruct R'. cbn [visited]. auto.
Qed.

(** A visit on its own is the one of [Iron]. *)
Lemma visit_same ML wf v e e1 : room wf e e1 ->
  let '(a, e1') := run_visit ML v e1 in exists e', solo (pvisit ML wf v) e = (a, e') /\ esame e' e1'.
Proof.
  intros [He Hl]. unfold run_visit, pvisit, read_request. destruct (v_boundary v) as [b|]; [|exists e; auto].
  rewrite solo_bind. fold (v_base v). 
  destruct (tempdir_in (v_tries v) (bs "multipart-iron") (v_base v) (v_rng v) e1) as [[y g1] e2] eqn:Td.
  destruct (ptempdir_same _ _ _ _ _ _ _ _ _ He Td) as (e3 & -> & S3 & W3).
  destruct y as [dir|k]; [|exists e3; auto]. rewrite solo_bind. pose proof (tempdir_dir _ _ _ _ _ _ _ _ Td) as Nd.
  assert (R3 : room wf e3 e2) by (split; auto; now rewrite W3).
  destruct (if ic_continue (v_ic v) then _ else _) as [x e4] eqn:H.
  assert (K : exists e', solo (if ic_continue (v_ic v) then plenient ML wf v (S (v_rounds v)) (entries_new ML dir true) g1 (with_body (v_body v) b)
                   else pstrict ML wf v dir g1 (with_body (v_body v) b)) e3 = (x, e') /\ esame e' e4 /\ visited ML dir x e4).
  { destruct (ic_continue (v_ic v)); [rewrite lenient_is_loop in H; eapply plenient_same; eauto|eapply pstrict_same; eauto]. }
  destruct K as (e5 & -> & S5 & V). destruct x as [[en|]|k| |]; try (exists e5; auto; fail).
  cbn [visited] in V. destruct V as [Vd Nd5]. rewrite solo_bind, plooks_same. rewrite <- (temp_dir _ _ _ Vd) in Nd5.
  destruct (pdropped_same ML (reply ML) v en (@Ok (iron_error ML) _ (Some en), map (fun q => e_fs e5 (en_dir ML en ++ q)) (v_looks v)) _ _ S5 Nd5) as (e6 & Q6 & S6).
  exists e6. split; [etransitivity; [exact Q6|]|exact S6]. do 2 f_equal. apply map_ext. intros q. apply S5.
Qed.

(** ** A visit keeps to its directory *)

(** All that a program may give. *)
Fixpoint gives {A} (R : A -> Prop) (q : prog A) : Prop :=
  match q with
  | PRet a => R a
  | PDir _ _ k => forall x, gives R (k x)
  | POpen _ _ k => forall x, gives R (k x)
  | PWrite _ _ k => forall x, gives R (k x)
  | PTemp _ k => forall x, gives R (k x)
  | PRemove _ _ k => forall x, gives R (k x)
  | PLook _ k => forall x, gives R (k x)
  end.

Lemma gives_bind {A B} (R : B -> Prop) (q : prog A) (f : A -> prog B) : (forall a, gives R (f a)) -> gives R (pbind q f).
Proof. intros Hf. induction q as [a|p l k IH|o p k IH|h b k IH|p k IH|ev p k IH|p k IH]; cbn [gives pbind]; auto. Qed.

Lemma gives_loop ML wf trim s fuel d : forall res en g r, dir_of en = d ->
  gives (fun z => ends_with_dir d (fst (fst z)) /\ forall y, fst (fst z) <> SErr y) (pentries_loop ML wf trim s fuel res en g r).
Proof.
  assert (Push : forall en h v, dir_of (push_field ML en h v) = dir_of en) by reflexivity.
  induction fuel as [|fuel IH]; intros res en g r De; cbn [pentries_loop gives fst ends_with_dir]; [split; [auto|discriminate]|].
  destruct (en_count ML en <? s_count_limit s)%N; cbn [gives fst ends_with_dir pe_entries keep_partial pe_partial]; [|split; [auto|discriminate]].
  destruct res as [[h|]|y| |]; cbn [gives fst ends_with_dir pe_entries keep_partial pe_partial]; try (split; [auto|discriminate]).
  apply gives_bind. intros [[x g1] r1]. destruct x as [v|v why|y| |]; cbn [gives fst ends_with_dir pe_entries keep_partial pe_partial]; try (split; [auto|discriminate]).
  destruct (read_entry ML trim r1) as [res' r2]. apply IH. now rewrite Push.
Qed.

Lemma confined_gives {A} t T (q : prog A) (Q : phase -> A -> Prop) R : forall ph, confined t T ph q Q -> gives R q -> confined t T ph q (fun ph a => Q ph a /\ R a).
Proof.
  induction q as [a|p l k IH|o p k IH|h b k IH|p k IH|ev p k IH|p k IH]; intros ph; cbn [confined gives]; auto.
  - intros [H1 H2] G; auto.
  - intros (H1 & H2 & H3) G; auto.
  - intros [H1 H2] G; auto.
  - intros (H1 & H2 & H3 & H4) G; auto.
  - intros (H1 & H2 & H3) G; auto.
  - intros [H1 H2] G; auto.
Qed.

(** The directory names that the middleware may try: its prefix and six letters or digits from the samples. *)
Definition may_try (v : visit) (p : path) : Prop :=
  exists k, k < v_tries v /\ p = v_base v ++ [bs "multipart-iron" ++ fst (random_alphanumeric 6 (skipn (6 * k) (v_rng v)))].

(** At the end the directory is gone. *)
Definition left_none {ML} (v : visit) (ph : phase) (a : reply ML) : Prop :=
  v_rm v = RmOk -> match fst a with Ok _ | Err _ => forall r, ph <> Owns r | _ => True end.

Lemma confined_entries ML wf trim s fuel en g r base c T : o_create_new (s_opts s) = true -> dir_of en = Temp (base ++ [c]) ->
  confined base T (Owns (base ++ [c])) (pwith_entries ML wf trim s fuel en g r)
    (fun ph z => ph = Owns (base ++ [c]) /\ ends_with_dir (Temp (base ++ [c])) (fst (fst z)) /\ forall y, fst (fst z) <> SErr y).
Proof.
  intros Ho De. set (dir := base ++ [c]) in *. unfold pwith_entries. destruct (read_entry ML trim r) as [res r2].
  apply confined_gives; [|now apply gives_loop].
  apply owned with (D := fun p => p <> [] /\ exists a, dir = p ++ a) (F := LivesProofs.inside dir) (H := []) (Q := fun _ _ => True); auto.
  - intros p [Np [a Ea]]. unfold dir in Ea. destruct (list_end a) as [->|(a' & z & ->)].
    + right. exists []. rewrite app_nil_r in *. now symmetry.
    + left. split; auto. rewrite app_assoc in Ea. apply app_inj_tail in Ea as [-> _]. eauto.
  - apply within_loop with (dir := dir) (n := 0%N); [eauto|now apply temp_dir|cbn; lia|]. intros k _ _. exists (name_of g k), []. reflexivity.
  - apply safe_loop. exact Ho.
  - intros p [].
Qed.

Lemma confined_dropped ML A v (en : entries ML) (a : A) t T dir (Q : phase -> A -> Prop) : dir_of en = Temp dir -> tidy (v_rm v) dir ->
  Q (after (v_rm v) dir) a -> confined t T (Owns dir) (pdropped ML v en a) Q.
Proof.
  intros De Ht HQ. unfold pdropped. rewrite De. cbn [pfinish].
  apply confined_bind with (Q := fun ph _ => ph = after (v_rm v) dir); [intros ph _ ->; exact HQ|].
  apply confined_bind with (Q := fun ph _ => ph = after (v_rm v) dir); [intros ph _ ->; reflexivity|].
  induction (v_stages v) as [|st sts IH]; cbn [premove confined]; [auto|].
  assert (Kp : stage (v_rm v) dir st dir = true) by (unfold stage; destruct (path_eq_dec dir dir); [reflexivity|congruence]).
  split; [reflexivity|]. split; [cbn [tidy]; auto|]. intros _. cbn [after]. rewrite Kp. exact IH.
Qed.

Lemma confined_visit ML wf v : (forall p, tidy (v_rm v) p) -> confined (v_base v) (may_try v) Before (pvisit ML wf v) (left_none v).
Proof.
  intros Ht. unfold pvisit. destruct (v_boundary v) as [b|]; [|cbn [confined]; intros _; discriminate].
  apply confined_bind with (Q := fun ph (z : (path + iokind) * rng) =>
    match fst z with inl dir => ph = Owns dir /\ exists c, dir = v_base v ++ [c] | inr _ => ph = Before end).
  2: { assert (K : forall n k g, k + n = v_tries v -> g = skipn (6 * k) (v_rng v) ->
         confined (v_base v) (may_try v) Before (ptempdir n (bs "multipart-iron") (v_base v) g)
           (fun ph z => match fst z with inl dir => ph = Owns dir /\ exists c, dir = v_base v ++ [c] | inr _ => ph = Before end)).
       2: { apply (K _ 0); auto. }
       induction n as [|n IH]; intros k g Ek Eg; cbn [ptempdir confined fst]; auto.
       pose proof (random_rest TEMPDIR_RAND g) as Rr. pose proof (eq_refl (fst (random_alphanumeric TEMPDIR_RAND g))) as Rn.
       destruct (random_alphanumeric TEMPDIR_RAND g) as [name g1] eqn:R. cbn [fst snd] in Rr, Rn. cbn [confined fst]. split; auto. split.
       { split; [|eauto]. exists k. split; [lia|]. rewrite <- Eg. change 6 with TEMPDIR_RAND. now rewrite R. }
       split; [eauto|]. intros x. destruct (iokind_eqb x KAlreadyExists); [|reflexivity]. apply (IH (S k)); [lia|].
       rewrite Rr, Eg. unfold TEMPDIR_RAND. rewrite skipn_plus. f_equal. lia. }
  intros ph [[dir|k] g1]; cbn [fst]; [|intros ->; cbn [confined]; intros _; discriminate].
  intros [-> [c ->]]. set (dir := v_base v ++ [c]).
  apply confined_bind with (Q := fun ph x => match x with Ok (Some en) => ph = Owns dir /\ dir_of en = Temp dir
    | Ok None => False | Err _ => v_rm v = RmOk -> forall r, ph <> Owns r | _ => True end).
  2: { assert (Dr : forall (p : partial_entries ML) (y : res (iron_error ML) (option (entries ML))), dir_of (pe_entries ML p) = Temp dir -> (forall o, y <> Ok o) ->
         confined (v_base v) (may_try v) (Owns dir) (pdropped ML v (pe_entries ML p) y)
           (fun ph x => match x with Ok (Some en) => ph = Owns dir /\ dir_of en = Temp dir
             | Ok None => False | Err _ => v_rm v = RmOk -> forall r, ph <> Owns r | _ => True end)).
       { intros p y Dp Ny. apply confined_dropped with (dir := dir); auto. destruct y as [o|y| |]; auto; [now destruct (Ny o)|]. intros -> r. discriminate. }
       assert (Ho : o_create_new (s_opts (iron_saver (v_ic v))) = true) by reflexivity.
       destruct (ic_continue (v_ic v)).
       - assert (Dn : dir_of (entries_new ML dir true) = Temp dir) by reflexivity. revert Dn.
         generalize (entries_new ML dir true). generalize (with_body (v_body v) b). revert g1. induction (S (v_rounds v)) as [|n IH]; intros g r en De; cbn [plenient confined]; auto.
         eapply confined_bind; [|apply confined_entries; [exact Ho|exact De]].
         intros ph [[x g2] r2] [-> [Ex Ne]]. cbn [fst] in Ex, Ne. destruct x as [en1|p why|y| |]; cbn [confined ends_with_dir] in *; auto.
         + destruct Ex as [E1 E2]. destruct why; auto; try (apply IH; exact E2). apply Dr; auto. discriminate.
         + exfalso. eapply Ne; reflexivity.
       - unfold pstrict. eapply confined_bind; [|apply confined_entries; [exact Ho|reflexivity]].
         intros ph [[x g2] r2] [-> [Ex Ne]]. cbn [fst] in Ex, Ne. destruct x as [en1|p why|y| |]; cbn [confined ends_with_dir] in *; auto.
         + destruct Ex as [E1 E2]. apply Dr; auto. destruct why; cbn [strict_answer]; try discriminate. destruct (pe_partial ML p) as [[h o]|]; discriminate.
         + exfalso. eapply Ne; reflexivity. }
  intros ph x. destruct x as [[en|]|k| |]; cbn [confined]; try contradiction.
  - intros [-> De]. rewrite (temp_dir _ _ _ De).
    apply confined_bind with (Q := fun ph _ => ph = Owns dir).
    + intros ph ns ->. apply confined_dropped with (dir := dir); auto. intros -> r. discriminate.
    + induction (v_looks v) as [|q qs IH]; cbn [plooks confined]; auto. split; [eauto|]. intros n.
      apply confined_bind with (Q := fun ph _ => ph = Owns dir); auto.
  - intros K Hr. cbn [fst]. auto.
  - intros _ _. exact Logic.I.
  - intros _ _. exact Logic.I.
Qed.

(** ** Many programs that keep to their directories *)

Lemma pool_alone {A} t (s0 : pool A) (T : nat -> path -> Prop) (Q : nat -> phase -> A -> Prop) h : usable t (fst s0) ->
  (forall i q e, nth_error (snd s0) i = Some (q, e) -> confined t (T i) Before q (Q i)) ->
  let s := turns h s0 in
  (forall p, (forall c b, p <> t ++ c :: b) -> fst s p = fst s0 p) /\
  (forall p n, fst s0 p = Some n -> fst s p = Some n) /\
  (exists E : nat -> fs,
    (forall i q0 e0 a e1, nth_error (snd s0) i = Some (q0, e0) -> nth_error (snd s) i = Some (PRet a, e1) ->
       exists mk op e', solo q0 (mkEnv (fst s0) (e_w e0) mk op) = (a, e') /\ (forall p, e_fs e' p = E i p) /\
         hears (taken (exists p k, k <> i /\ T i p /\ T k p)) mk (e_mkdir e0) /\ hears never op (e_open e0)) /\
    (forall i p n, i < length (snd s0) -> E i p = Some n -> fst s p = Some n) /\
    (forall i k p, i < length (snd s0) -> k < length (snd s0) -> i <> k -> fst s0 p = None -> E i p <> None -> E k p = None) /\
    forall p n, fst s p = Some n -> fst s0 p = Some n \/ exists i, i < length (snd s0) /\ E i p = Some n) /\
  forall p n, fst s p = Some n -> fst s0 p = Some n \/
     exists i q e, nth_error (snd s) i = Some (q, e) /\ ((forall a, q <> PRet a) \/ exists a r, q = PRet a /\ Q i (Owns r) a).
Proof.
  intros U C s. destruct (lives_all t s0 T Q (proj1 U) (proj2 U) C h) as (ph & G & Ok). fold s in Ok. pose proof Ok as (A1 & A2 & A3 & A4 & A5 & A6 & A7 & A8).
  assert (Own := fun i r (P : ph i = Owns r) => owner _ s0 _ _ (proj1 U) (proj2 U) _ _ _ _ _ Ok P).
  assert (At : forall i, i < length (snd s0) -> exists q0 e0 q e, nth_error (snd s0) i = Some (q0, e0) /\ nth_error (snd s) i = Some (q, e)).
  { intros i Li. destruct (nth_error (snd s0) i) as [[q0 e0]|] eqn:N0; [|apply nth_error_None in N0; lia].
    destruct (nth_error (snd s) i) as [[q e]|] eqn:N1; [|apply nth_error_None in N1; lia]. exists q0, e0, q, e. auto. }
  assert (Ph : forall i, i < length (snd s0) -> (exists r, ph i = Owns r) \/ forall p, G i p = fst s0 p).
  { intros i Li. destruct (At i Li) as (q0 & e0 & q & e & N0 & N1). destruct (A8 _ _ _ _ _ N0 N1) as (_ & _ & K). destruct (ph i) as [|r|]; eauto. }
  assert (Dec : forall r p : path, (exists b, p = r ++ b) \/ forall b, p <> r ++ b).
  { intros r p. destruct (below r p) eqn:E; [left; now apply below_iff|right]. intros b ->.
    assert (X : below r (r ++ b) = true) by (apply below_iff; eauto). congruence. }
  split; [|split; [exact A2|split]].
  - intros p Np. apply A1. intros (c & b & ->). eapply Np; reflexivity.
  - exists G. split; [|split; [|split]].
    + intros i q0 e0 a e1 N N1. destruct (A8 _ _ _ _ _ N N1) as (_ & (mkp & opp & Eq & Nf) & _).
      specialize (Eq (e_mkdir e1) (e_open e1)). cbn [solo] in Eq. destruct Nf as [F1 F2].
      eexists _, _, _. split; [exact Eq|]. split; [reflexivity|]. split; [apply F1|apply F2]; constructor.
    + intros i p n Li Ep. destruct (Ph i Li) as [[r Pi]|K]; [|apply A2; rewrite <- Ep; symmetry; apply K].
      destruct (Own _ _ Pi) as (_ & _ & _ & Reg & Rest). destruct (Dec r p) as [[b ->]|D]; [now rewrite Reg|].
      apply A2. now rewrite <- (Rest p D).
    + intros i k p Li Lk Nik Fp Ei. destruct (Ph i Li) as [[r Pi]|K]; [|congruence]. destruct (Ph k Lk) as [[r' Pk]|K]; [|congruence].
      destruct (Own _ _ Pi) as ([_ [c ->]] & _ & _ & Reg & Rest). destruct (Own _ _ Pk) as ([_ [c' ->]] & _ & _ & Reg' & Rest').
      destruct (Dec (t ++ [c']) p) as [[b ->]|D]; [|rewrite Rest'; auto].
      destruct (G k ((t ++ [c']) ++ b)) eqn:Ek; auto. exfalso. destruct (Dec (t ++ [c]) ((t ++ [c']) ++ b)) as [[b' E]|D]; [|rewrite Rest in Ei; auto].
      rewrite <- !app_assoc in E. apply app_inv_head in E. injection E as -> _. apply Nik. eapply A4; eauto.
    + intros p n Hp. destruct (A5 _ _ Hp) as [|(i & r & b & Pi & ->)]; auto. right. exists i. pose proof (A7 _ _ Pi). split; [congruence|].
      destruct (Own _ _ Pi) as (_ & _ & _ & Reg & _). now rewrite <- Reg.
  - intros p n Hp. destruct (A5 _ _ Hp) as [|(i & r & b & Pi & _)]; auto. right. destruct (At i (A7 _ _ Pi)) as (q0 & e0 & q & e & N0 & N1).
    destruct (A8 _ _ _ _ _ N0 N1) as (Cf & _). exists i, q, e. split; auto.
    destruct q as [a| | | | | |]; try (left; discriminate). right. exists a, r. cbn [confined] in Cf. rewrite Pi in Cf. auto.
Qed.

(** ** C107 *)

(** Requests whose directories are made in [t]; a removal that fails leaves no path without the directories above it. *)
Definition guests (t : path) (vs : list (visit * env)) : Prop :=
  forall v e, In (v, e) vs -> v_base v = t /\
    match v_rm v with RmOk => True | RmFail _ kept => forall p b, kept (p ++ b) = true -> kept p = true end.

Definition may_try_at (vs : list (visit * env)) (i : nat) (p : path) : Prop :=
  match nth_error vs i with Some (v, _) => may_try v p | None => False end.

Lemma come_nth ML f vs i v e : nth_error vs i = Some (v, e) -> nth_error (snd (come ML f vs)) i = Some (pvisit ML (S (length (e_w e))) v, e).
Proof. intros H. unfold come. cbn [snd]. now rewrite nth_error_map, H. Qed.

Lemma come_confined ML t f vs : guests t vs -> forall i q e, nth_error (snd (come ML f vs)) i = Some (q, e) ->
  confined t (may_try_at vs i) Before q (fun ph a => forall v e', nth_error vs i = Some (v, e') -> left_none v ph a).
Proof.
  intros G i q e. unfold come. cbn [snd]. rewrite nth_error_map.
  destruct (nth_error vs i) as [[v e1]|] eqn:N; [|discriminate]. intros H; injection H as <- <-.
  destruct (G v e1 (nth_error_In _ _ N)) as (<- & Ht).
  replace (may_try_at vs i) with (may_try v) by (unfold may_try_at; now rewrite N).
  eapply confined_weaken; [|apply confined_visit; auto].
  - cbn beta. intros ph a K v' e' E. injection E as <- <-. exact K.
  - intros p. destruct (v_rm v) as [|k kept]; cbn [tidy]; auto. intros q Hb Hk. apply below_iff in Hb as [b ->]. eauto.
Qed.

(** Nothing but the entries of [t] changes, and of these only the new ones.  A request that is over went as on its own, where the
    disk may have said for some directory names that they exist, and only if another request may try the same one; what fails otherwise
    is what its own disk said would, in this order.  Its directory is its own: [E i] is the disk of such a run. *)
Theorem C107_alone : forall ML t f vs sched, usable t f -> guests t vs ->
  let s := turns sched (come ML f vs) in
  (forall p, (forall c b, p <> t ++ c :: b) -> fst s p = f p) /\
  (forall p n, f p = Some n -> fst s p = Some n) /\
  exists E : nat -> fs,
    (forall i v e a e1, nth_error vs i = Some (v, e) -> nth_error (snd s) i = Some (PRet a, e1) ->
       exists mk op e', run_visit ML v (mkEnv f (e_w e) mk op) = (a, e') /\ (forall p, e_fs e' p = E i p) /\
         hears (taken (exists p k v' e', k <> i /\ nth_error vs k = Some (v', e') /\ may_try v p /\ may_try v' p)) mk (e_mkdir e) /\
         hears never op (e_open e)) /\
    (forall i p n, i < length vs -> E i p = Some n -> fst s p = Some n) /\
    (forall i k p, i < length vs -> k < length vs -> i <> k -> f p = None -> E i p <> None -> E k p = None) /\
    forall p n, fst s p = Some n -> f p = Some n \/ exists i, i < length vs /\ E i p = Some n.
Proof.
  intros ML t f vs sched U G s. destruct (pool_alone t (come ML f vs) (may_try_at vs) _ sched U (come_confined ML t f vs G)) as (A1 & A2 & (E & B1 & B2 & B3 & B4) & _).
  fold s in A1, A2, B1, B2, B3, B4.
  assert (Len : length (snd (come ML f vs)) = length vs) by (unfold come; cbn [snd]; apply map_length). rewrite Len in *.
  split; auto. split; auto. exists E. split; auto. intros i v e a e1 N N1.
  destruct (B1 _ _ _ _ _ (come_nth ML f vs i v e N) N1) as (mk & op & e2 & Sl & Fe & F1 & F2). exists mk, op.
  pose proof (visit_same ML (S (length (e_w e))) v (mkEnv f (e_w e) mk op) (mkEnv f (e_w e) mk op)) as K.
  destruct (run_visit ML v (mkEnv f (e_w e) mk op)) as [a' e'].
  destruct K as (e3 & Q & F & _); [split; [apply esame_refl|cbn [e_w]; lia]|]. cbn [fst come] in Sl. rewrite Sl in Q. injection Q as <- <-.
  exists e'. split; auto. split; [intros p; now rewrite <- F|]. split; auto.
  eapply hears_weaken; [|exact F1]. intros x [-> (p & k & Nk & T1 & T2)]. split; auto. unfold may_try_at in T1, T2. rewrite N in T1.
  destruct (nth_error vs k) as [[v' e2']|] eqn:Nk2; [|contradiction]. exists p, k, v', e2'. auto.
Qed.

(** So a request whose directory names nobody else tries does not notice the others at all. *)
Theorem C107_independent : forall ML t f vs sched i v e a e1, usable t f -> guests t vs ->
  nth_error vs i = Some (v, e) ->
  (forall k v' e', k <> i -> nth_error vs k = Some (v', e') -> forall p, may_try v p -> ~ may_try v' p) ->
  nth_error (snd (turns sched (come ML f vs))) i = Some (PRet a, e1) ->
  exists e', run_visit ML v (set_fs f e) = (a, e') /\
    forall p n, e_fs e' p = Some n -> fst (turns sched (come ML f vs)) p = Some n.
Proof.
  intros ML t f vs sched i v e a e1 U G N Apart N1. destruct (C107_alone ML t f vs sched U G) as (_ & _ & E & A & Sub & _).
  destruct (A _ _ _ _ _ N N1) as (mk & op & e' & Run & Fe & F1 & F2).
  apply hears_weaken with (Y := never) in F1; [|intros x [_ (p & k & v' & e2 & Nk & Nl & T1 & T2)]; eapply Apart; eauto].
  apply hears_alike in F1, F2.
  pose proof (visit_same ML (S (length (e_w e))) v (mkEnv f (e_w e) mk op) (mkEnv f (e_w e) mk op)) as K. rewrite Run in K.
  destruct K as (e2 & S1 & Se & _); [split; [apply esame_refl|cbn [e_w]; lia]|].
  pose proof (visit_same ML (S (length (e_w e))) v (set_fs f e) (set_fs f e)) as K.
  destruct (run_visit ML v (set_fs f e)) as [a' e3] eqn:R.
  destruct K as (e4 & S2 & Se' & _); [split; [apply esame_refl|cbn [set_fs e_w]; lia]|].
  destruct (lulled_solo (pvisit ML (S (length (e_w e))) v) (mkEnv f (e_w e) mk op) (set_fs f e)) as [L1 L2]; [repeat split; auto|].
  rewrite S1, S2 in L1, L2. cbn [fst snd] in L1, L2. subst a'. exists e3. split; auto. intros p n Hp. apply (Sub i); [apply nth_error_Some; congruence|].
  destruct L2 as [L2 _]. rewrite <- Fe, <- Se, L2, Se'. exact Hp.
Qed.

Lemma lenient_no_panic ML trim ic ev rounds fuel : forall en g r e, inv r -> fst (lenient_loop ML trim ic ev rounds fuel en g r e) <> Panic.
Proof.
  induction rounds as [|rounds IH]; intros en g r e I0; cbn [lenient_loop]; [discriminate|].
  destruct (with_entries ML trim (iron_saver ic) fuel en g r e) as [[[y g'] r'] e2] eqn:W. pose proof W as W0. apply with_entries_result in W0 as (I' & _ & _); auto.
  unfold with_entries in W. destruct (read_entry ML trim r) as [res r1] eqn:E.
  pose proof (read_entry_inv ML _ _ _ _ I0 E) as (I1 & _ & _ & _ & N1 & _).
  pose proof (loop_reasons ML _ _ _ (iron_policy ic) _ _ _ _ _ _ _ _ _ I1 N1 W) as [NP _].
  destruct y as [en1|pe why|y| |]; try discriminate; [|congruence]. destruct why as [| |z|]; try discriminate; now apply IH.
Qed.

Lemma visit_no_panic ML v e : fst (fst (run_visit ML v e)) <> Panic.
Proof.
  assert (K : fst (read_request ML (v_trim v) (v_ic v) (v_rm v) (v_tmp v) (v_tries v) (v_rounds v) (v_fuel v) (v_rng v) (v_boundary v) (v_body v) e) <> Panic).
  { unfold read_request. destruct (v_boundary v) as [b|]; [|discriminate]. destruct (tempdir_in _ _ _ _ _) as [[[dir|k] g1] e2]; [|discriminate].
    destruct (ic_continue (v_ic v)).
    - rewrite lenient_is_loop. apply lenient_no_panic, inv_from_reader.
    - apply C46_no_panic with (t := v_body v) (b := b). exists [], []. reflexivity. }
  unfold run_visit. destruct (read_request _ _ _ _ _ _ _ _ _ _ _ _) as [x e1]. cbn [fst] in K. destruct x as [[en|]| | |]; try discriminate. contradiction.
Qed.

(** What is new on the disk belongs to a request that is not over, or whose directory could not be removed (or that [v_fuel] or [v_rounds] cut short).
    So when all are over and the directories could be removed, the disk is the one of the start, whatever the answers were. *)
Theorem C107_clear : forall ML t f vs sched, usable t f -> guests t vs ->
  let s := turns sched (come ML f vs) in
  (forall p n, fst s p = Some n -> f p = Some n \/
     exists i v e q e1, nth_error vs i = Some (v, e) /\ nth_error (snd s) i = Some (q, e1) /\
       ((forall a, q <> PRet a) \/ v_rm v <> RmOk \/ exists looks, q = PRet (OutOfFuel, looks))) /\
  ((forall i v e, nth_error vs i = Some (v, e) -> v_rm v = RmOk /\
      exists x looks e1, nth_error (snd s) i = Some (PRet (x, looks), e1) /\ x <> OutOfFuel) ->
   forall p, fst s p = f p).
Proof.
  intros ML t f vs sched U G s. destruct (pool_alone t (come ML f vs) (may_try_at vs) _ sched U (come_confined ML t f vs G)) as (A1 & A2 & _ & A4).
  destruct (C107_alone ML t f vs sched U G) as (_ & _ & E & A & _). fold s in A, A1, A2, A4.
  assert (K : forall p n, fst s p = Some n -> f p = Some n \/
     exists i v e q e1, nth_error vs i = Some (v, e) /\ nth_error (snd s) i = Some (q, e1) /\
       ((forall a, q <> PRet a) \/ v_rm v <> RmOk \/ exists looks, q = PRet (OutOfFuel, looks))).
  { intros p n Hp. destruct (A4 p n Hp) as [|(i & q & e1 & N1 & D)]; auto. right.
    assert (Li : i < length vs).
    { assert (L : length (snd s) = length vs).
      { destruct (lives_all t (come ML f vs) (may_try_at vs) _ (proj1 U) (proj2 U) (come_confined ML t f vs G) sched) as (ph & G' & (_ & _ & _ & _ & _ & L & _)).
        fold s in L. rewrite L. unfold come. cbn [snd]. apply map_length. }
      rewrite <- L. apply nth_error_Some. congruence. }
    destruct (nth_error vs i) as [[v e]|] eqn:N; [|apply nth_error_None in N; lia]. exists i, v, e, q, e1. split; auto. split; auto.
    destruct D as [D|(a & r & -> & D)]; auto. right. destruct (v_rm v) as [|k kept] eqn:Rm; [|left; discriminate]. right.
    specialize (D v e eq_refl Rm). destruct a as [x looks]. cbn [fst] in D. exists looks.
    destruct (A _ _ _ _ _ N N1) as (mk & op & e' & Run & _). pose proof (visit_no_panic ML v (mkEnv f (e_w e) mk op)) as NP. rewrite Run in NP. cbn [fst] in NP.
    destruct x as [o|y| |]; auto; exfalso; [eapply D; reflexivity|eapply D; reflexivity|contradiction]. }
  split; [exact K|]. intros All p. destruct (fst s p) as [n|] eqn:Ep.
  - destruct (K p n Ep) as [|(i & v & e & q & e1 & N & N1 & D)]; auto. exfalso. destruct (All _ _ _ N) as (Rm & x & looks & e2 & N2 & X1).
    rewrite N1 in N2. injection N2 as -> ->. destruct D as [D|[D|(l' & Q)]]; [eapply D; reflexivity|contradiction|injection Q as -> _; contradiction].
  - destruct (f p) as [n|] eqn:F; auto. apply A2 in F. congruence.
Qed.

(** The answer is the one of the body, whatever happens beside: accepted with all the fields, as the handler finds them on the disk, or
    refused for a limit that the body exceeds or for an error.  With [Continue] the fields are all there or cut at the limit. *)
Theorem C107_answer : forall ML t f vs sched i v e b x looks e1 l, usable t f -> guests t vs ->
  nth_error vs i = Some (v, e) -> nth_error (snd (turns sched (come ML f vs))) i = Some (PRet (x, looks), e1) ->
  v_boundary v = Some b -> live (v_body v) -> (ic_count (v_ic v) <= U32MAX)%N ->
  parts (head_block ML (v_trim v) (delimiter b)) (delimiter b) (stream (v_body v)) l ->
  match x with
  | Ok (Some en) => exists F name, looks = map (fun q => F (en_dir ML en ++ q)) (v_looks v) /\
      dir_of en = Temp (t ++ [bs "multipart-iron" ++ name]) /\ length name = 6 /\
      if ic_continue (v_ic v)
      then exists log, en = pushes ML (entries_new ML (en_dir ML en) true) log /\ Forall2 (kept_nearly (ic_size (v_ic v)) F) log l
      else (N.of_nat (length l) < ic_count (v_ic v))%N /\
        exists l', almost l l' /\ well_grouped en /\ fields_of en = length l /\ forall n, found en F n = sent_as l' n
  | Ok None | Panic => False
  | Err y => ic_continue (v_ic v) = false ->
      match y with
      | ICountLimit _ n => n = ic_count (v_ic v) /\ (ic_count (v_ic v) <= N.of_nat (length l))%N
      | ISizeLimit _ h => exists d c rest, l = d ++ (h, c) :: rest /\ (ic_size (v_ic v) < N.of_nat (length c + 2))%N
      | _ => True
      end
  | OutOfFuel => True
  end.
Proof.
  intros ML t f vs sched i v e b x looks e1 l U G N N1 Bo Hl Lc P. destruct (C107_alone ML t f vs sched U G) as (_ & _ & E & A & _).
  destruct (A _ _ _ _ _ N N1) as (mk & op & e' & Run & _). destruct (G v e (nth_error_In _ _ N)) as (Ba & _).
  pose proof (visit_no_panic ML v (mkEnv f (e_w e) mk op)) as NP. rewrite Run in NP. cbn [fst] in NP.
  unfold run_visit, read_request in Run. fold (v_base v) in Run. rewrite Bo, Ba in Run.
  destruct (tempdir_in (v_tries v) (bs "multipart-iron") t (v_rng v) (mkEnv f (e_w e) mk op)) as [[[dir|k] g1] e2] eqn:T.
  2: { injection Run as <- _ _. auto. }
  apply tempdir_name in T as (name & -> & Ln & _). set (dir := t ++ [bs "multipart-iron" ++ name]) in *.
  destruct (ic_continue (v_ic v)) eqn:Co.
  - destruct (read_request_lenient ML (v_trim v) (v_ic v) (v_rm v) dir (v_rounds v) (v_fuel v) g1 (with_body (v_body v) b) e2) as [y e3] eqn:R.
    assert (Ey : y = x) by (destruct y as [[en|]| | |]; injection Run as <- _ _; auto). subst y.
    destruct x as [[en|]|y| |]; auto; try discriminate.
    + injection Run as Lk _. exists (e_fs e3), name. split; auto.
      destruct (C87_lenient _ _ _ _ _ _ _ _ _ _ _ _ _ _ Hl Lc P R) as (log & -> & F). rewrite pushes_dir_of, pushes_dir. eauto.
    + rewrite lenient_is_loop in R. apply lenient_result_any with (t := v_body v) (b := b) (l := l) in R; auto.
      * destruct R as [(k & R)|[R|[R|(log & R & _)]]]; discriminate.
      * exists [], []. reflexivity.
      * discriminate.
      * reflexivity.
  - destruct (read_request_strict ML (v_trim v) (v_ic v) (v_rm v) dir (v_fuel v) g1 (with_body (v_body v) b) e2) as [y e3] eqn:R.
    assert (Ey : y = x) by (destruct y as [[en|]| | |]; injection Run as <- _ _; auto). subst y.
    pose proof (C87_strict _ _ _ _ _ _ _ _ _ _ _ _ _ Hl Lc P R) as K.
    destruct x as [[en|]|y| |]; auto.
    injection Run as Lk _. exists (e_fs e3), name. split; auto. split; [|split; auto].
    unfold read_request_strict, with_temp_dir in R.
    destruct (with_entries ML (v_trim v) (iron_saver (v_ic v)) (v_fuel v) (entries_new ML dir true) g1 (with_body (v_body v) b) e2) as [[[z g'] r'] e4] eqn:W.
    apply C54_saving in W. destruct z as [en1|pe why|z| |]; try discriminate.
    + now injection R as -> _.
    + destruct why; try discriminate. now destruct (pe_partial ML pe) as [[h0 v0]|].
Qed.

(** A request that gets a turn again and again comes to its end. *)
Theorem C107_fair : forall ML f vs (turn_of : nat -> nat) i, i < length vs -> (forall n, exists m, n <= m /\ turn_of m = i) ->
  exists n a, forall m, n <= m -> exists e, nth_error (snd (turns (map turn_of (seq 0 m)) (come ML f vs))) i = Some (PRet a, e).
Proof.
  intros ML f vs turn_of i Li Fair. destruct (nth_error vs i) as [[v e]|] eqn:N; [|apply nth_error_None in N; lia].
  destruct (ends turn_of (come ML f vs) i Fair _ _ 0 (come_nth ML f vs i v e N)) as (n & a & e' & D).
  exists n, a. exact (stays turn_of (come ML f vs) i a n e' D).
Qed.

(** [v_fuel] and [v_rounds] are no limits of the code, and with values that depend only on the body and the settings the request does not end for them:
    with the default behaviour always, with [Continue] if there are fewer fields than the limit (C47 is the other case). *)
Theorem C107_ends : forall ML trim ic u b l, live u -> (ic_count ic <= U32MAX)%N ->
  parts (head_block ML trim (delimiter b)) (delimiter b) (stream u) l ->
  ic_continue ic = false \/ (N.of_nat (length l) < ic_count ic)%N ->
  exists n, forall t f vs sched i v e x looks e1, usable t f -> guests t vs -> nth_error vs i = Some (v, e) ->
  v_trim v = trim -> v_ic v = ic -> v_body v = u -> v_boundary v = Some b -> n <= v_fuel v -> n <= v_rounds v ->
  nth_error (snd (turns sched (come ML f vs))) i = Some (PRet (x, looks), e1) -> x <> OutOfFuel.
Proof.
  intros ML trim ic u b l Hl Lc P Co.
  assert (R : exists n, forall ev dir rounds fuel g1 e1, n <= fuel -> n <= rounds ->
    fst (if ic_continue ic then read_request_lenient ML trim ic ev dir rounds fuel g1 (with_body u b) e1
         else read_request_strict ML trim ic ev dir fuel g1 (with_body u b) e1) <> OutOfFuel).
  { destruct (ic_continue ic) eqn:C.
    - exists (enough (with_body u b) + N.to_nat (mem_min (iron_saver ic)) + 1 + N.to_nat (ic_count ic) + 2 + length l).
      intros ev dir rounds fuel g1 e1 Lf Lr. rewrite lenient_is_loop.
      apply lenient_ends_any with (t := u) (b := b) (l := l); auto; try lia.
      + exists [], []. reflexivity.
      + discriminate.
      + reflexivity.
      + destruct Co as [Co|Co]; [discriminate|exact Co].
    - exists (enough (with_body u b) + N.to_nat (mem_min (iron_saver ic)) + 1 + N.to_nat (ic_count ic) + 2).
      intros ev dir rounds fuel g1 e1 Lf _. unfold read_request_strict, with_temp_dir.
      destruct (with_entries ML trim (iron_saver ic) fuel (entries_new ML dir true) g1 (with_body u b) e1) as [[[y g'] r'] e2] eqn:W.
      unfold with_entries in W. destruct (read_entry ML trim (with_body u b)) as [res r1] eqn:E.
      pose proof (read_entry_inv ML _ _ _ _ (inv_from_reader u b) E) as (I1 & _ & _ & _ & N1 & N2).
      pose proof (enough_entry ML _ _ _ _ (inv_from_reader u b) E) as Le. fold (with_body u b) in Le.
      assert (NF : y <> SFuel).
      { eapply loop_ends; [apply iron_mem|exact Lc|exact I1|exact N2| | |exact W]; change (s_count_limit (iron_saver ic)) with (ic_count ic); lia. }
      destruct y as [en1|pe why|y| |]; try discriminate; [|congruence]. destruct why; try discriminate. now destruct (pe_partial ML pe) as [[h0 v0]|]. }
  destruct R as (n & R). exists n. intros t f vs sched i v e x looks e1 U G N Et Ei Eu Eb Lf Lr N1.
  destruct (C107_alone ML t f vs sched U G) as (_ & _ & E & A & _). destruct (A _ _ _ _ _ N N1) as (mk & op & e' & Run & _).
  assert (K : fst (fst (run_visit ML v (mkEnv f (e_w e) mk op))) <> OutOfFuel); [|now rewrite Run in K].
  unfold run_visit, read_request. rewrite Eb, Et, Ei, Eu. destruct (tempdir_in _ _ _ _ (mkEnv f (e_w e) mk op)) as [[[dir|k] g1] e2]; [|discriminate].
  specialize (R (v_rm v) dir (v_rounds v) (v_fuel v) g1 e2 Lf Lr).
  destruct (if ic_continue ic then _ else _) as [y e3]. cbn [fst] in R. destruct y as [[en|]| | |]; try discriminate. contradiction.
Qed.

(** Five requests at once, call by call in turn, all with the same first samples: one is accepted with its fields in memory, one is refused for
    the number of its fields, one for the size of a field, one keeps the field cut to nothing (its first chunk is above the limit), and one has a file on the disk that its handler reads. *)
Definition long_chunk : transport := [Chunk (toy_part (bs "a") (repeat 120%N (12 * 1000)) ++ toy_end)].

Definition five : list (visit * env) :=
  let v ic n t q := (mkVisit true ic tmp 9 5 100 (repeat 7%N 6 ++ repeat n 60) (Some (bs "b")) t q [fun q => length q =? 3; fun _ => false] RmOk,
    no_failures (fun _ => None)) in
  [v intercept_default 8%N two_chunks []; v (mkIntercept (Some tmp) 5000 2 false) 9%N two_chunks []; v (mkIntercept None 400 9 false) 10%N two_chunks [];
   v (mkIntercept None 400 9 true) 11%N two_chunks [[repeat 76%N 12]]; v intercept_default 12%N long_chunk [[repeat 77%N 12]]].

Definition answered (q : prog (reply toy)) : option (iron_error toy + list (option bytes) * list (option node)) :=
  match q with
  | PRet (Ok (Some en), looks) =>
      Some (inr (concat (map (fun kl => map (fun sf => readable (sf_data toy sf) (fun _ => None)) (snd kl)) (en_fields toy en)), looks))
  | PRet (Err y, _) => Some (inl y)
  | _ => None
  end.

Lemma five_guests : usable tmp only_tmp /\ guests tmp five.
Proof.
  split.
  - split; [|intros c b H; exfalso; apply H; reflexivity]. intros a b E Na. destruct a as [|c [|c' a]]; [congruence|injection E as <- _; reflexivity|discriminate].
  - intros v e [H|[H|[H|[H|[H|[]]]]]]; injection H as <- <-; cbn; auto.
Qed.

Example C107_example :
  usable tmp only_tmp /\ guests tmp five /\ live two_chunks /\
  parts (head_block toy true (delimiter (bs "b"))) (delimiter (bs "b")) (stream two_chunks) two_list /\
  (exists v e v' e' p, nth_error five 0 = Some (v, e) /\ nth_error five 1 = Some (v', e') /\ may_try v p /\ may_try v' p) /\
  let s n := turns (concat (repeat [0; 1; 2; 3; 4] n)) (come toy only_tmp five) in
  let d n := tmp ++ [bs "multipart-iron" ++ repeat n 6] in
  map (fun qe => answered (fst qe)) (snd (s 40)) =
    [Some (inr ([Some (repeat 120%N 1000); Some (bs "second")], [])); Some (inl (ICountLimit toy 2));
     Some (inl (ISizeLimit toy (mkFH toy (bs "a") None None)));
     Some (inr ([None; Some (bs "second")], [Some (NFile [])])); Some (inr ([None], [Some (NFile (repeat 120%N (12 * 1000)))]))] /\
  map (fst (s 5)) [d 72%N; d 73%N; d 74%N; d 75%N; d 76%N; d 77%N] = [None; None; None; Some NDir; Some NDir; Some NDir] /\
  map (fst (s 40)) [d 72%N; d 73%N; d 74%N; d 75%N; d 76%N; d 77%N] = [None; None; None; None; None; None].
Proof.
  destruct five_guests as [U G]. split; [exact U|]. split; [exact G|]. split; [intros [H|[]]; discriminate|]. split; [exact two_parts|].
  split; [|split; [|split]].
  - do 4 eexists. exists (tmp ++ [bs "multipart-iron" ++ repeat 72%N 6]). split; [reflexivity|]. split; [reflexivity|].
    split; exists 0; (split; [cbn; lia|reflexivity]).
  - vm_compute. reflexivity.
  - vm_compute. reflexivity.
  - vm_compute. reflexivity.
Qed.

(** Two requests with different names, of which the second is refused its directory by its own disk. *)
Example C107_apart_example :
  let v n := mkVisit true intercept_default tmp 5 5 100 (repeat n 60) (Some (bs "b")) two_chunks [] [] RmOk in
  let vs := [(v 7%N, no_failures (fun _ => None)); (v 8%N, mkEnv (fun _ => None) [] [Some KAlreadyExists; Some (KOther 13)] [])] in
  guests tmp vs /\ (forall p, may_try (v 7%N) p -> ~ may_try (v 8%N) p) /\
  map (fun qe => answered (fst qe)) (snd (turns (concat (repeat [0; 1] 20)) (come toy only_tmp vs))) =
    [Some (inr ([Some (repeat 120%N 1000); Some (bs "second")], [])); Some (inl (ITempDir toy (KOther 13)))].
Proof.
  split; [|split].
  - intros v e [H|[H|[]]]; injection H as <- <-; cbn; auto.
  - intros p (k & Lk & ->) (k' & Lk' & E). cbn [v_tries v_rng] in *.
    assert (Nm : forall n m, m < 5 -> fst (random_alphanumeric 6 (skipn (6 * m) (repeat n 60))) = repeat (alnum_char n) 6).
    { intros n m Lm. do 5 (destruct m as [|m]; [reflexivity|]). lia. }
    rewrite !Nm in E by auto. apply app_inj_tail in E as [_ E]. discriminate.
  - vm_compute. reflexivity.
Qed.
