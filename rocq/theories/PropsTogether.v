(** Property theorems about several saves at once on one disk (C103). *)

From Verif Require Import Bytes BytesProofs Spec Io Boundary BoundaryProofs Utf8 Utf8Proofs Httparse Field FieldProofs
  ContentProofs DataProofs ShortProofs EntryProofs ReaderProofs Drive DriveProofs ReachProofs Toy PropsReader Rand Fs Save Savedir SaveProofs
  PhaseProofs SaveFacts TextProofs PropsSave EntriesProofs CompleteProofs PropsEntries PropsAny Together TogetherProofs.

(** ** As if alone *)

Lemma start_nth ML f js i j e : nth_error js i = Some (j, e) ->
  nth_error (snd (start ML f js)) i = Some (job_prog ML (S (length (e_w e))) j, e).
Proof. intros H. unfold start. cbn [snd]. now rewrite nth_error_map, H. Qed.

Lemma start_safe ML f js : (forall j e, In (j, e) js -> o_create_new (s_opts (job_saver ML j)) = true) ->
  forall i q e, nth_error (snd (start ML f js)) i = Some (q, e) -> safe [] q (fun _ _ => True).
Proof.
  intros Ho i q e. unfold start. cbn [snd]. rewrite nth_error_map. destruct (nth_error js i) as [[j e1]|] eqn:N; [|discriminate].
  intros H; injection H as <- <-. apply safe_job. eapply Ho. eapply nth_error_In; eauto.
Qed.

(** The sequential job from what its program does alone. *)
Lemma job_alone ML j f ws mk op a g e1 : solo (job_prog ML (S (length ws)) j) (mkEnv f ws mk op) = (a, e1) -> e_fs e1 = g ->
  exists e', run_job ML j (mkEnv f ws mk op) = (a, e') /\ forall p, e_fs e' p = g p.
Proof.
  intros Es Eg. pose proof (job_same ML (S (length ws)) j (mkEnv f ws mk op) (mkEnv f ws mk op)) as K.
  destruct (run_job ML j (mkEnv f ws mk op)) as [a' e'].
  destruct K as (e2 & Q & (F & _) & _); [split; [apply esame_refl|cbn [e_w]; lia]|].
  rewrite Es in Q. injection Q as <- <-. exists e'. split; auto. intros p. now rewrite <- Eg, F.
Qed.

(** Any number of jobs with their own failures, in any order of their system calls.  What was on the disk stays.  A job that is done has the answer of
    a run on its own, with some results of mkdir and open; its disk [E i] is part of the common one, and the files of two jobs are different. *)
Theorem C103_alone : forall ML f js sched,
  (forall j e, In (j, e) js -> o_create_new (s_opts (job_saver ML j)) = true) ->
  let s := turns sched (start ML f js) in
  (forall p n, f p = Some n -> fst s p = Some n) /\
  exists E : nat -> fs,
    (forall i j e a e1, nth_error js i = Some (j, e) -> nth_error (snd s) i = Some (PRet a, e1) ->
       (exists mk op e', run_job ML j (mkEnv f (e_w e) mk op) = (a, e') /\ forall p, e_fs e' p = E i p) /\
       forall p n, E i p = Some n -> fst s p = Some n) /\
    forall i k p c d, i < length js -> k < length js -> i <> k ->
      E i p = Some (NFile c) -> E k p = Some (NFile d) -> f p = Some (NFile c).
Proof.
  intros ML f js sched Ho s. destruct (pool_all _ (start_safe ML f js Ho) sched) as (H & G & O1 & O2 & O3 & O4 & O5).
  split; [exact O1|]. exists G.
  assert (Len : length (snd (turns sched (start ML f js))) = length js) by (rewrite O3; unfold start; cbn [snd]; now rewrite map_length).
  assert (Th : forall i, i < length js -> exists j e q e1, nth_error js i = Some (j, e) /\ nth_error (snd s) i = Some (q, e1) /\
     thread_ok (start ML f js) sched H (G i) (fst s) i (job_prog ML (S (length (e_w e))) j) e q e1).
  { intros i Li. destruct (nth_error js i) as [[j e]|] eqn:N; [|apply nth_error_None in N; lia].
    destruct (nth_error (snd s) i) as [[q e1]|] eqn:N1; [|apply nth_error_None in N1; unfold s in N1; lia].
    exists j, e, q, e1. split; auto. split; auto. eapply O5; eauto. now apply start_nth. }
  split.
  - intros i j e a e1 N N1.
    destruct (O5 _ _ _ _ _ (start_nth ML f js i j e N) N1) as (_ & (mkp & opp & Eq & _) & _ & Tc & _). split; auto.
    specialize (Eq [] []). rewrite !app_nil_r in Eq. cbn [solo] in Eq. exists mkp, opp.
    eapply job_alone; eauto.
  - intros i k p c d Li Lk Nik Ei Ek.
    destruct (Th i Li) as (j1 & ea & q1 & eb & _ & _ & _ & _ & _ & _ & Td & _ & Tg).
    destruct (Th k Lk) as (j2 & ec & q2 & ed & _ & _ & _ & _ & Tb2 & _ & Td2 & _ & Tg2).
    destruct (Tg _ _ Ei) as [Q|Q]; auto. rewrite (Td2 i p) in Ek; auto. discriminate.
Qed.

(** So what the sequential theorems say of one request holds in company: the fields that were saved are, on the
    common disk, the ones of the body, from the moment the job is done and whatever the others do then. *)
Theorem C103_saved : forall ML f js sched i trim s fuel en g t b e x g' r' e1 l en',
  (forall j e, In (j, e) js -> o_create_new (s_opts (job_saver ML j)) = true) ->
  nth_error js i = Some (JEntries ML trim s fuel en g (with_body t b), e) ->
  nth_error (snd (turns sched (start ML f js))) i = Some (PRet (AEntries ML x g' r'), e1) ->
  live t -> s_opts s = default_opts -> parts (head_block ML trim (delimiter b)) (delimiter b) (stream t) l ->
  (x = Full en' \/ exists pe why, x = Part pe why /\ en' = pe_entries ML pe) ->
  exists log d rest, en' = pushes ML (recount_fields ML en) log /\ l = d ++ rest /\
    Forall2 (saved_as (fst (turns sched (start ML f js)))) log d /\ (x = Full en' -> rest = []).
Proof.
  intros ML f js sched i trim s fuel en g t b e x g' r' e1 l en' Ho Nj Nd Hl Hd P Hx.
  destruct (C103_alone ML f js sched Ho) as (_ & E & K & _).
  destruct (K _ _ _ _ _ Nj Nd) as ((mk & op & e' & Run & Fe) & Sub). cbn [run_job] in Run.
  destruct (with_entries ML trim s fuel en g (with_body t b) (mkEnv f (e_w e) mk op)) as [[[x1 g1] r1] e2] eqn:W.
  injection Run as -> -> -> ->.
  destruct (C76_request _ _ _ _ _ _ _ _ _ _ _ _ _ _ _ Hl Hd P W Hx) as (log & d & rest & E1 & E2 & F & Q).
  exists log, d, rest. split; auto. split; auto. split; auto.
  clear - F Fe Sub. induction F as [|[h v] [h0 c] la lb (Eh & w & Rd & Pd) _ IH]; constructor; auto. split; auto. exists w. split; auto.
  cbn [snd] in *. destruct v as [u|u|p n]; cbn [readable] in *; auto.
  destruct (e_fs e' p) as [[|u]|] eqn:Ep; try discriminate. rewrite Fe in Ep. now rewrite (Sub _ _ Ep).
Qed.

(** ** Jobs that do not meet *)

(** The directories and the files that a job may make.  A request gets its names from its samples, one for each field, and
    has at most as many fields as its count limit (a [u32] counter) and the steps of the model allow. *)
Definition dirs_of ML (j : job ML) (p : path) : Prop :=
  match j with
  | JField _ _ q _ _ => exists a c, q = p ++ a ++ [c]
  | JEntries _ _ _ _ en _ _ => exists a, en_dir ML en = p ++ a
  | JDir _ _ _ dir _ _ _ => exists a, dir = p ++ a
  end.

Definition files_of ML (j : job ML) (p : path) : Prop :=
  match j with
  | JField _ _ q _ _ => p = q
  | JEntries _ _ s fuel en g _ => exists k, k < fuel /\ (N.min (N.of_nat k) U32MAX < s_count_limit s)%N /\
      p = en_dir ML en ++ [fst (random_alphanumeric 12 (skipn (12 * k) g))]
  | JDir _ _ s dir fuel g _ => exists k, k < fuel /\ (N.min (N.of_nat k) U32MAX < s_count_limit s)%N /\
      p = dir ++ [fst (random_alphanumeric 12 (skipn (12 * k) g))]
  end.

(** A program that makes no other directories than [D] and opens no other files than [F]. *)
Fixpoint within {A} (D F : path -> Prop) (q : prog A) : Prop :=
  match q with
  | PRet _ => True
  | PDir p _ k => D p /\ forall x, within D F (k x)
  | POpen _ p k => F p /\ forall x, within D F (k x)
  | PWrite h _ k => forall x, within D F (k x)
  | PTemp _ _ => False
  | PRemove _ _ _ => False
  | PLook _ _ => False
  end.

Lemma within_bind {A B} D F (q : prog A) (f : A -> prog B) : within D F q -> (forall a, within D F (f a)) -> within D F (pbind q f).
Proof.
  intros Hq Hf. induction q as [a|p l k IH|o p k IH|h b k IH|p k IH|ev p k IH|p k IH]; cbn [within pbind] in *; auto.
  - destruct Hq as [Hp Hk]. auto.
  - destruct Hq as [Hp Hk]. auto.
Qed.

Lemma within_mkdirs (D F : path -> Prop) todo : forall done, (forall a b, todo = a ++ b -> a <> [] -> D (done ++ a)) -> within D F (pmkdirs done todo).
Proof.
  induction todo as [|c t IH]; intros done Hd; cbn [pmkdirs within]; auto.
  split; [apply (Hd [c] t); [reflexivity|discriminate]|]. intros [k|]; [exact Logic.I|]. apply IH.
  intros a b -> Na. rewrite <- app_assoc. apply (Hd ([c] ++ a) b); [now rewrite <- app_assoc|discriminate].
Qed.

Lemma within_write_all D F wf : forall h b total, within D F (pwrite_all wf h b total).
Proof.
  induction wf as [|wf IH]; intros h b total; destruct b as [|z b]; cbn [pwrite_all within]; auto.
  intros [[m|k] h']; [destruct (m =? 0); [destruct (total =? 0); exact Logic.I|apply IH]|].
  destruct (iokind_eqb k KInterrupted); [apply IH|destruct (total =? 0); exact Logic.I].
Qed.

Lemma within_read {W} D F (f : W -> bytes -> prog (sres nat nat * W)) : (forall w b, within D F (f w b)) ->
  forall fuel total w r, within D F (ptry_read_buf f fuel total w r).
Proof.
  intros Hf. induction fuel as [|fuel IH]; intros total w r; cbn [ptry_read_buf within]; auto.
  destruct (read_to_boundary r) as [y r2]. destruct y as [b|y| |]; cbn [within]; auto.
  - destruct b as [|z b]; [exact Logic.I|]. apply within_bind; auto. intros [x w1]. destruct x; cbn [within]; auto.
  - destruct (iokind_eqb (berr_kind y) KInterrupted); auto. destruct (total =? 0)%N; exact Logic.I.
Qed.

Lemma within_path (D F : path -> Prop) wf s p fuel r : (forall q a c, q <> [] -> p = q ++ a ++ [c] -> D q) -> F p -> within D F (pwith_path wf s p fuel r).
Proof.
  intros Hd Hf.
  assert (Dk : forall ob r, within D F (psave_disk wf s p fuel ob r)).
  { intros ob r2. unfold psave_disk. apply within_bind.
    - unfold pcreate_dir_all. apply within_mkdirs. intros a b E Na. cbn [app].
      assert (Np : p <> []) by (intros ->; destruct a; [congruence|discriminate]).
      apply (Hd a b (last p []) Na). rewrite app_assoc, <- E. now apply app_removelast_last.
    - intros [k|]; [exact Logic.I|]. cbn [within]. split; auto. intros [h|k]; [|exact Logic.I].
      apply within_bind; [apply within_write_all|]. intros [x h1]. destruct x as [n|n why|e| |]; cbn [smap within]; auto.
      apply within_bind; [|intros [y r1]; exact Logic.I]. unfold pwrite_to.
      destruct (s_size_limit s <? U64MAX)%N; (apply within_bind; [|intros [[y w] r1]; exact Logic.I]).
      + apply within_read. intros [m w] b. unfold plimited. destruct (s_size_limit s <? sat_add m (N.of_nat (length b)))%N; [exact Logic.I|].
        apply within_bind; [apply within_write_all|]. intros [y w1]. exact Logic.I.
      + apply within_read. intros w b. apply within_write_all. }
  assert (Rs : forall ob r, within D F (psave_rest wf s p fuel ob r)).
  { intros ob r2. unfold psave_rest. destruct (save_mem s fuel ob r2) as [y r1]. destruct y as [b|b []|k| |]; cbn [within]; auto.
    destruct (cmp_size_limit s (length b)); cbn [within]; auto. }
  unfold pwith_path. destruct (s_policy s); auto;
  (destruct (save_text s fuel r) as [y r1]; destruct y as [b|b []|k| |]; cbn [within]; auto;
    destruct (cmp_size_limit s (length b)); cbn [within]; auto).
Qed.

Lemma within_loop ML (D F : path -> Prop) dir wf trim s fuel : (forall p a, p <> [] -> dir = p ++ a -> D p) ->
  forall res en g r n, en_dir ML en = dir -> (N.min n U32MAX <= en_count ML en)%N ->
  (forall k, k < fuel -> (N.min (n + N.of_nat k) U32MAX < s_count_limit s)%N -> F (dir ++ [name_of g k])) ->
  within D F (pentries_loop ML wf trim s fuel res en g r).
Proof.
  intros Hd. induction fuel as [|fuel IH]; intros res en g r n Ed Hn Hf; cbn [pentries_loop within]; auto.
  destruct (en_count ML en <? s_count_limit s)%N eqn:Cl; cbn [within]; auto. apply N.ltb_lt in Cl.
  destruct res as [[h|]|y| |]; cbn [within]; auto.
  unfold psave_field, pwith_dir, rand_filename. rewrite Ed.
  pose proof (random_rest RANDOM_FILENAME_LEN g) as Dg.
  destruct (random_alphanumeric RANDOM_FILENAME_LEN g) as [name g2] eqn:Rn. cbn [snd] in Dg.
  assert (Nm : name = name_of g 0) by (unfold name_of; rewrite Nat.mul_0_r, skipn_O, Rn; reflexivity).
  assert (K : within D F (pbind (pwith_path wf (mkSaver (s_size_limit s) (s_count_limit s) (s_threshold s) (if is_text ML h then s_policy s else TIgnore) (s_opts s))
      (dir ++ [name]) (S fuel) r) (fun xr => match xr with (x, r1) => match x with
         | Full d => let '(res', r2) := read_entry ML trim r1 in pentries_loop ML wf trim s fuel res' (push_field ML en h d) g2 r2
         | Part d why => PRet (Part (mkPE ML en (Some (h, Some d))) why, g2, r1)
         | SErr x => PRet (Part (mkPE ML en (Some (h, None))) (RIo x), g2, r1)
         | SPanic => PRet (SPanic, g2, r1)
         | SFuel => PRet (SFuel, g2, r1) end end))).
  { apply within_bind.
    - apply within_path; [|rewrite Nm; apply Hf; lia].
      intros q a c Nq E. rewrite app_assoc in E. apply app_inj_tail in E as [E _]. eapply Hd; eauto.
    - intros [[v|v why|y| |] r1]; cbn [within]; auto. destruct (read_entry ML trim r1) as [res' r2].
      apply (IH _ _ _ _ (n + 1)%N); [exact Ed|cbn [push_field en_count]; lia|]. intros k Lk Ck. rewrite Dg, name_of_next. apply Hf; lia. }
  remember (pwith_path wf _ _ _ _) as q eqn:Eq. clear Eq. clear - K.
  induction q as [[x r1]|p l k IH|o p k IH|hd b k IH|p k IH|ev p k IH|p k IH]; cbn [pbind within] in *.
  - destruct x; auto.
  - destruct K as [Kp K]. split; auto.
  - destruct K as [Kp K]. split; auto.
  - auto.
  - contradiction.
  - contradiction.
  - contradiction.
Qed.

Lemma within_job ML wf j : within (dirs_of ML j) (files_of ML j) (job_prog ML wf j).
Proof.
  destruct j as [s p fuel r|trim s fuel en g r|trim s dir fuel g r]; cbn [job_prog].
  - apply within_bind; [|intros [x r1]; exact Logic.I]. apply within_path; cbn [dirs_of files_of]; eauto.
  - apply within_bind; [|intros [[x g1] r1]; exact Logic.I]. unfold pwith_entries. destruct (read_entry ML trim r) as [res r1].
    apply within_loop with (dir := en_dir ML en) (n := 0%N); cbn [dirs_of files_of]; eauto; try lia; intros k Lk Ck; exists k; auto.
  - apply within_bind; [|intros [[x g1] r1]; exact Logic.I]. unfold pentries_with_dir. apply within_bind.
    + unfold pcreate_dir_all. apply within_mkdirs. intros a b E _. cbn [app dirs_of].
      destruct (list_eq_dec (list_eq_dec N.eq_dec) dir []) as [->|Nd]; [cbn in E; destruct a; [|discriminate]; now exists []|].
      exists (b ++ [last dir []]). rewrite app_assoc, <- E. now apply app_removelast_last.
    + intros [k|]; [exact Logic.I|]. unfold pwith_entries. destruct (read_entry ML trim r) as [res r1].
      apply within_loop with (dir := dir) (n := 0%N); cbn [dirs_of files_of]; eauto; try lia; intros k Lk Ck; exists k; auto.
Qed.

Lemma turn_nth {A} i (s : pool A) k q e : nth_error (snd (turn i s)) k = Some (q, e) ->
  (k <> i /\ nth_error (snd s) k = Some (q, e)) \/
  (k = i /\ exists q0 e0, nth_error (snd s) i = Some (q0, e0) /\ step q0 (set_fs (fst s) e0) = (q, e) /\ fst (turn i s) = e_fs e).
Proof.
  unfold turn. destruct (nth_error (snd s) i) as [[q0 e0]|] eqn:N.
  - destruct (step q0 (set_fs (fst s) e0)) as [q1 e1] eqn:St. cbn [fst snd]. rewrite nth_set.
    destruct (Nat.eq_dec i k) as [<-|Nk].
    + rewrite N. intros H; injection H as <- <-. right. split; auto. exists q0, e0. auto.
    + auto.
  - intros H. left. split; auto. intros ->. congruence.
Qed.

Lemma within_step {A} D F (q : prog A) e q' e' : within D F q -> step q e = (q', e') -> within D F q'.
Proof.
  destruct q as [a|p l k|o p k|hd b k|p k|ev p k|p k]; cbn [step within]; intros K.
  - intros H; injection H as <- _. auto.
  - destruct K as [_ K]. destruct (do_dir p l e) as [x e1]. intros H; injection H as <- _. auto.
  - destruct K as [_ K]. destruct (open_file o p e) as [x e1]. intros H; injection H as <- _. auto.
  - destruct (do_write hd b e) as [x e1]. intros H; injection H as <- _. auto.
  - contradiction.
  - contradiction.
  - contradiction.
Qed.

(** What one call does at one path. *)
Lemma step_at {A} D F (q : prog A) e q' e' p : within D F q -> step q e = (q', e') ->
  e_fs e' p = e_fs e p \/
  (e_fs e p = None /\ e_fs e' p = Some NDir /\ exists l k, q = PDir p l k) \/
  (e_fs e p = None /\ exists o k, q = POpen o p k) \/
  exists c d, e_fs e p = Some (NFile c) /\ e_fs e' p = Some (NFile d).
Proof.
  destruct q as [a|p0 l k|o p0 k|hd b k|p0 k|ev p0 k|p0 k]; cbn [step]; intros Hw; [| | | |contradiction|contradiction|contradiction].
  - intros H; injection H as _ <-. auto.
  - unfold do_dir. destruct (e_fs e p0) as [[|c]|] eqn:Ep.
    + intros H; injection H as _ <-. auto.
    + intros H; injection H as _ <-. auto.
    + destruct (e_mkdir e) as [|[x|] m]; intros H; injection H as _ <-; cbn [set_fs e_fs]; auto; unfold upd;
        destruct (path_eq_dec p p0) as [->|_]; auto; right; left; eauto.
  - destruct (open_file o p0 e) as [x e1] eqn:Op. intros H; injection H as _ <-. revert Op. unfold open_file.
    destruct (o_append o && o_truncate o && negb (o_create_new o)); [intros H; injection H as _ <-; auto|].
    destruct (e_open e) as [|[y|] op] eqn:Eo; [|intros H; injection H as _ <-; auto|];
    (destruct p0 as [|p1 p0]; [intros H; injection H as _ <-; auto|];
     destruct (e_fs e (p1 :: p0)) as [[|c]|] eqn:Ep;
     [intros H; injection H as _ <-; auto
     |destruct (o_create_new o); [intros H; injection H as _ <-; auto|];
      destruct (o_truncate o); intros H; injection H as _ <-; cbn [set_fs e_fs]; auto; unfold upd;
      destruct (path_eq_dec p (p1 :: p0)) as [->|_]; auto; right; right; right; eauto
     |destruct (o_create_new o || o_create o); intros H; injection H as _ <-; cbn [set_fs e_fs]; auto; unfold upd;
      destruct (path_eq_dec p (p1 :: p0)) as [->|_]; auto; right; right; left; eauto]).
  - destruct (do_write hd b e) as [x e1] eqn:Dw. intros H; injection H as _ <-. revert Dw. unfold do_write, file_put.
    assert (Pt : forall c d, e_fs e (h_path hd) = Some (NFile c) -> upd (e_fs e) (h_path hd) (Some (NFile d)) p = e_fs e p \/
       exists c' d', e_fs e p = Some (NFile c') /\ upd (e_fs e) (h_path hd) (Some (NFile d)) p = Some (NFile d')).
    { intros c d Ec. unfold upd. destruct (path_eq_dec p (h_path hd)) as [->|_]; auto. right. eauto. }
    destruct (e_w e) as [|[n|y] w]; cbn [tl e_fs].
    + destruct (e_fs e (h_path hd)) as [[|c]|] eqn:Ec; intros H; injection H as _ <-; cbn [set_fs e_fs]; auto.
      destruct (Pt _ (put c (if h_append hd then length c else h_pos hd) b) eq_refl); auto.
    + destruct (Nat.min n (length b) =? 0); [intros H; injection H as _ <-; auto|].
      destruct (e_fs e (h_path hd)) as [[|c]|] eqn:Ec; intros H; injection H as _ <-; cbn [set_fs e_fs]; auto.
      destruct (Pt _ (put c (if h_append hd then length c else h_pos hd) (firstn (Nat.min n (length b)) b)) eq_refl); auto.
    + intros H; injection H as _ <-. auto.
Qed.

Lemma turn_at {A} (D F : nat -> path -> Prop) i (s : pool A) p : (forall i q e, nth_error (snd s) i = Some (q, e) -> within (D i) (F i) q) ->
  fst (turn i s) p = fst s p \/
  (exists q e, nth_error (snd s) i = Some (q, e) /\ fst s p = None /\
     ((fst (turn i s) p = Some NDir /\ exists l k, q = PDir p l k) \/ exists o k, q = POpen o p k)) \/
  exists c d, fst s p = Some (NFile c) /\ fst (turn i s) p = Some (NFile d).
Proof.
  intros Hw. unfold turn. destruct (nth_error (snd s) i) as [[q e]|] eqn:N; auto.
  destruct (step q (set_fs (fst s) e)) as [q1 e1] eqn:St. cbn [fst].
  destruct (step_at _ _ _ _ _ _ p (Hw _ _ _ N) St) as [E|[(E1 & E2 & X)|[(E1 & X)|X]]]; cbn [set_fs e_fs] in *; auto.
  - right. left. exists q, e. auto.
  - right. left. exists q, e. auto.
Qed.

(** Through all turns the programs keep to their directories and files. *)
Lemma within_turns {A} (D F : nat -> path -> Prop) h : forall s0 : pool A,
  (forall i q e, nth_error (snd s0) i = Some (q, e) -> within (D i) (F i) q) ->
  forall i q e, nth_error (snd (turns h s0)) i = Some (q, e) -> within (D i) (F i) q.
Proof.
  induction h as [|k h IH]; intros s0 H0; cbn [turns]; auto. apply IH. intros i q e N.
  apply turn_nth in N as [[_ N]|(-> & q0 & e0 & N & St & _)]; [eauto|]. eapply within_step; eauto.
Qed.

Lemma dir_stays {A} (D F : nat -> path -> Prop) h : forall (s : pool A) p, (forall i q e, nth_error (snd s) i = Some (q, e) -> within (D i) (F i) q) ->
  fst s p = Some NDir -> fst (turns h s) p = Some NDir.
Proof.
  induction h as [|i h IH]; intros s p Hw Hp; cbn [turns]; auto. apply IH; [exact (within_turns D F [i] s Hw)|].
  destruct (turn_at D F i s p Hw) as [E|[(q & e & _ & E & _)|(c & d & E & _)]]; congruence.
Qed.

(** So a job whose paths are no one else's meets nobody. *)
Lemma no_clash {A} (D F : nat -> path -> Prop) (s0 : pool A) i :
  (forall k q e, nth_error (snd s0) k = Some (q, e) -> within (D k) (F k) q) ->
  (forall k p, k <> i -> k < length (snd s0) -> F i p -> ~ F k p /\ ~ D k p) ->
  (forall k p, k <> i -> k < length (snd s0) -> D i p -> ~ F k p) ->
  forall h, ~ clash s0 h i.
Proof.
  intros H0 Hf Hd h (h1 & h2 & q & e & p & n & j & -> & Nq & Wq & Pn & _ & Nj & (ha & hb & E & M0 & M1)).
  rewrite turns_app in M1. cbn [turns] in M1.
  destruct (turn_at D F j (turns ha s0) p (within_turns D F ha s0 H0)) as [Q|[(qj & ej & Nqj & _ & Q)|(c & d & Q & _)]]; [congruence| |congruence].
  pose proof (within_turns D F ha s0 H0 _ _ _ Nqj) as Wj. pose proof (within_turns D F h1 s0 H0 _ _ _ Nq) as Wi.
  assert (Lj : j < length (snd s0)).
  { assert (L : length (snd (turns ha s0)) = length (snd s0)).
    { clear. revert s0. induction ha as [|k ha IH]; intros s0; cbn [turns]; auto. rewrite IH. unfold turn.
      destruct (nth_error (snd s0) k) as [[q e]|]; auto. destruct (step q (set_fs (fst s0) e)). cbn [snd]. apply set_length. }
    rewrite <- L. apply nth_error_Some. congruence. }
  assert (Kj : F j p \/ D j p /\ n = NDir).
  { destruct Q as [(Qd & l & k & ->)|(o & k & ->)]; cbn [within] in Wj; [right|left; tauto]. split; [tauto|].
    rewrite E, turns_app in Pn. cbn [turns] in Pn. rewrite (dir_stays D F hb _ p) in Pn; [congruence| |exact Qd].
    exact (within_turns D F [j] _ (within_turns D F ha s0 H0)). }
  destruct q as [a|p0 l k|o p0 k|hd b k|p0 k|ev p0 k|p0 k]; cbn [wants within] in *; try contradiction.
  - destruct Wq as (-> & c & ->). destruct Kj as [Kj|[_ Kj]]; [|discriminate]. eapply Hd; eauto. tauto.
  - subst p0. destruct Wi as [Wi _]. destruct (Hf j p Nj Lj Wi). tauto.
Qed.

(** What a job that has finished gives alone: the same, with its files on the common disk.  Its calls of open fail as its own disk says, and
    so do its calls of mkdir, but alone there may be more of them, which succeed: for the directories that the others have made. *)
Definition alone ML (f : fs) (j : job ML) (e : env) (a : answer ML) (common : fs) : Prop :=
  exists mk e', run_job ML j (mkEnv f (e_w e) mk (e_open e)) = (a, e') /\ hears (eq None) mk (e_mkdir e) /\ (e_mkdir e = [] -> mk = []) /\
    forall p n, e_fs e' p = Some n -> common p = Some n.

Lemma alone_hears ML f j e a common mkp opp e1 g :
  solo (job_prog ML (S (length (e_w e))) j) (mkEnv f (e_w e) mkp opp) = (a, e1) -> e_fs e1 = g ->
  hears (eq None) mkp (e_mkdir e) -> hears never opp (e_open e) -> (forall p n, g p = Some n -> common p = Some n) -> alone ML f j e a common.
Proof.
  intros Q Eg Hm Hp Sub. apply hears_alike in Hp.
  assert (K : forall mk, alike mkp mk -> exists e', run_job ML j (mkEnv f (e_w e) mk (e_open e)) = (a, e') /\ forall p, e_fs e' p = g p).
  { intros mk Am. destruct (lulled_solo (job_prog ML (S (length (e_w e))) j) (mkEnv f (e_w e) mkp opp) (mkEnv f (e_w e) mk (e_open e))) as [L1 [L2 _]];
    [repeat split; auto|]. rewrite Q in L1, L2. cbn [fst snd] in L1, L2.
    destruct (solo (job_prog ML (S (length (e_w e))) j) (mkEnv f (e_w e) mk (e_open e))) as [a' e2] eqn:E. cbn [fst snd] in L1, L2. subst a'.
    eapply job_alone; [exact E|congruence]. }
  destruct (e_mkdir e) as [|x m] eqn:Em.
  - destruct (K []) as (e' & R & F); [eapply hears_nothing; eauto|]. exists [], e'. split; auto. split; [rewrite Em; constructor|]. split; auto.
    intros p n. rewrite F. auto.
  - destruct (K mkp) as (e' & R & F); [intros k; auto|]. exists mkp, e'. split; auto. split; [now rewrite Em|]. split; [congruence|].
    intros p n. rewrite F. auto.
Qed.

(** A job that has finished gave what it gives alone, unless at its turn another had made a path that it needed and that was free at the
    start. *)
Theorem C103_clash : forall ML f js sched i j e a e1,
  (forall j e, In (j, e) js -> o_create_new (s_opts (job_saver ML j)) = true) ->
  nth_error js i = Some (j, e) ->
  nth_error (snd (turns sched (start ML f js))) i = Some (PRet a, e1) ->
  alone ML f j e a (fst (turns sched (start ML f js))) \/
  exists before after q eq p n k, sched = before ++ i :: after /\ k <> i /\
    nth_error (snd (turns before (start ML f js))) i = Some (q, eq) /\
    (match q with POpen _ p' _ => p' = p | PDir p' _ _ => p' = p /\ n <> NDir | _ => False end) /\
    f p = None /\ fst (turns before (start ML f js)) p = Some n /\
    exists b1 b2, before = b1 ++ k :: b2 /\ fst (turns b1 (start ML f js)) p = None /\ fst (turns (b1 ++ [k]) (start ML f js)) p <> None.
Proof.
  intros ML f js sched i j e a e1 Ho N N1. destruct (pool_all _ (start_safe ML f js Ho) sched) as (H & G & _ & _ & _ & _ & O5).
  destruct (O5 _ _ _ _ _ (start_nth ML f js i j e N) N1) as (_ & (mkp & opp & Eq & Nf) & _ & Tc & _).
  specialize (Eq (e_mkdir e1) (e_open e1)). cbn [solo] in Eq.
  destruct Nf as [(h1 & h2 & q & eq & p & n & k & -> & Nq & Wq & Pn & F0 & Nk & b1 & b2 & Mk)|[S1 S2]].
  2: { left. eapply alone_hears; [exact Eq|reflexivity|apply S1; constructor|apply S2; constructor|exact Tc]. }
  - right. exists h1, h2, q, eq, p, n, k. split; auto. split; auto. split; auto. split.
    { destruct q; cbn [wants] in Wq; auto. destruct Wq as (-> & c & ->). split; [auto|discriminate]. }
    split; auto. split; auto. exists b1, b2. exact Mk.
Qed.

(** Jobs that cannot make the same files, nor a file where the other makes a directory, do not notice each other.
    They may make the same directories. *)
Theorem C103_independent : forall ML f js sched i j e a e1,
  (forall j e, In (j, e) js -> o_create_new (s_opts (job_saver ML j)) = true) ->
  nth_error js i = Some (j, e) ->
  (forall k j' e', k <> i -> nth_error js k = Some (j', e') ->
     (forall p, files_of ML j p -> ~ files_of ML j' p /\ ~ dirs_of ML j' p) /\ (forall p, dirs_of ML j p -> ~ files_of ML j' p)) ->
  nth_error (snd (turns sched (start ML f js))) i = Some (PRet a, e1) ->
  alone ML f j e a (fst (turns sched (start ML f js))).
Proof.
  intros ML f js sched i j e a e1 Ho N Dj N1. destruct (pool_all _ (start_safe ML f js Ho) sched) as (H & G & _ & _ & _ & _ & O5).
  destruct (O5 _ _ _ _ _ (start_nth ML f js i j e N) N1) as (_ & (mkp & opp & Eq & Nf) & _ & Tc & _).
  specialize (Eq (e_mkdir e1) (e_open e1)). cbn [solo] in Eq.
  destruct Nf as [Q|[S1 S2]].
  2: { eapply alone_hears; [exact Eq|reflexivity|apply S1; constructor|apply S2; constructor|exact Tc]. }
  - exfalso. revert Q.
    apply (no_clash (fun k p => match nth_error js k with Some (j', _) => dirs_of ML j' p | None => False end)
                    (fun k p => match nth_error js k with Some (j', _) => files_of ML j' p | None => False end)).
    + intros k q e2. unfold start. cbn [snd]. rewrite nth_error_map. destruct (nth_error js k) as [[j' e']|]; [|discriminate].
      cbn [option_map fst snd]. intros X; injection X as <- <-. apply within_job.
    + intros k p Nk _. rewrite N. destruct (nth_error js k) as [[j' e']|] eqn:Njk; auto. apply (Dj _ _ _ Nk Njk).
    + intros k p Nk _. rewrite N. destruct (nth_error js k) as [[j' e']|] eqn:Njk; auto. apply (Dj _ _ _ Nk Njk).
Qed.

(** ** Every job comes to an end *)

Definition moment {A} (turn_of : nat -> nat) (s0 : pool A) (m : nat) : pool A := turns (map turn_of (seq 0 m)) s0.

Lemma moment_S {A} turn_of (s0 : pool A) m : moment turn_of s0 (S m) = turn (turn_of m) (moment turn_of s0 m).
Proof. unfold moment. rewrite seq_S, map_app, turns_app. reflexivity. Qed.

Lemma turn_other {A} i (s : pool A) k : k <> i -> nth_error (snd (turn i s)) k = nth_error (snd s) k.
Proof.
  intros Nk. unfold turn. destruct (nth_error (snd s) i) as [[q e]|]; auto. destruct (step q (set_fs (fst s) e)). cbn [snd].
  rewrite nth_set. destruct (Nat.eq_dec i k); congruence.
Qed.

Lemma turn_own {A} i (s : pool A) q e : nth_error (snd s) i = Some (q, e) ->
  nth_error (snd (turn i s)) i = Some (step q (set_fs (fst s) e)).
Proof.
  intros N. unfold turn. rewrite N. destruct (step q (set_fs (fst s) e)) as [q1 e1]. cbn [snd]. rewrite nth_set, N.
  destruct (Nat.eq_dec i i); congruence.
Qed.

Lemma wait {A} turn_of (s0 : pool A) i q e d : forall m, nth_error (snd (moment turn_of s0 m)) i = Some (q, e) -> turn_of (m + d) = i ->
  exists k, turn_of k = i /\ nth_error (snd (moment turn_of s0 k)) i = Some (q, e).
Proof.
  induction d as [|d IH]; intros m N Ht; [rewrite Nat.add_0_r in Ht; eauto|].
  destruct (Nat.eq_dec (turn_of m) i) as [E|E]; [eauto|]. apply (IH (S m)); [|now rewrite Nat.add_succ_comm].
  rewrite moment_S, turn_other; auto.
Qed.

Lemma ends {A} turn_of (s0 : pool A) i : (forall n, exists m, n <= m /\ turn_of m = i) ->
  forall q e m, nth_error (snd (moment turn_of s0 m)) i = Some (q, e) ->
  exists n a e', nth_error (snd (moment turn_of s0 n)) i = Some (PRet a, e').
Proof.
  intros Fair q. induction q as [a|p l k IH|o p k IH|hd b k IH|p k IH|ev p k IH|p k IH]; intros e m N; [eauto| | | | | |];
  (destruct (Fair m) as (m' & Lm & Tm); destruct (wait turn_of s0 i _ e (m' - m) m N) as (t & Tt & Nt);
    [now replace (m + (m' - m)) with m' by lia|];
   pose proof (turn_own _ _ _ _ Nt) as Ns; rewrite <- Tt in Ns at 1; rewrite <- moment_S in Ns; cbn [step] in Ns).
  - destruct (do_dir p l _) as [x e1]. eapply IH; eauto.
  - destruct (open_file o p _) as [x e1]. eapply IH; eauto.
  - destruct (do_write hd b _) as [x e1]. eapply IH; eauto.
  - destruct (create_dir p _) as [x e1]. eapply IH; eauto.
  - destruct (do_remove ev p _) as [x e1]. eapply IH; eauto.
  - eapply IH; eauto.
Qed.

Lemma stays {A} turn_of (s0 : pool A) i a n e : nth_error (snd (moment turn_of s0 n)) i = Some (PRet a, e) ->
  forall m, n <= m -> exists e', nth_error (snd (moment turn_of s0 m)) i = Some (PRet a, e').
Proof.
  intros N m L. induction L as [|m L IH]; eauto. destruct IH as [e' IH]. rewrite moment_S.
  destruct (Nat.eq_dec i (turn_of m)) as [E|E]; [|rewrite turn_other; eauto]. rewrite <- E, (turn_own _ _ _ _ IH). cbn [step]. eauto.
Qed.

(** Whatever the order of the calls: a job that gets a turn again and again is done at some time, with one answer for
    good.  Nobody waits for anybody. *)
Theorem C103_fair : forall ML f js (turn_of : nat -> nat) i, i < length js -> (forall n, exists m, n <= m /\ turn_of m = i) ->
  exists n a, forall m, n <= m -> exists e, nth_error (snd (turns (map turn_of (seq 0 m)) (start ML f js))) i = Some (PRet a, e).
Proof.
  intros ML f js turn_of i Li Fair. destruct (nth_error js i) as [[j e]|] eqn:N; [|apply nth_error_None in N; lia].
  destruct (ends turn_of (start ML f js) i Fair _ _ 0 (start_nth ML f js i j e N)) as (n & a & e' & D).
  exists n, a. exact (stays turn_of (start ML f js) i a n e' D).
Qed.

(** Two requests at once into the directory [d], call by call in turn: with different names both come out as alone, and with the
    same name the second to open finds the file of the first, which stays whole. *)
Definition both (n : N) : list (job toy * env) :=
  let s := mkSaver 5000 3 10 TTry default_opts in
  [(JDir toy true s [bs "d"; bs "e"] 100 (repeat 7%N 36) (with_body two_chunks (bs "b")), no_failures (fun _ => None));
   (JDir toy true s [bs "d"; bs "e"] 100 (repeat n 36) (with_body two_chunks (bs "b")), no_failures (fun _ => None))].

Definition in_turn : list nat := concat (repeat [0; 1] 20).

Definition outcome (q : prog (answer toy)) : list saved + list bytes :=
  match q with
  | PRet (AEntries _ (Full en) _ _) => inl (concat (map (fun kl => map (sf_data toy) (snd kl)) (en_fields toy en)))
  | PRet (AEntries _ (Part pe (RIo (XDst KAlreadyExists))) _ _) => inr (map fst (en_fields toy (pe_entries toy pe)))
  | _ => inr [bs "other"]
  end.

Lemma both_apart i j e k j' e' : k <> i -> nth_error (both 8) i = Some (j, e) -> nth_error (both 8) k = Some (j', e') ->
  (forall p, files_of toy j p -> ~ files_of toy j' p /\ ~ dirs_of toy j' p) /\ (forall p, dirs_of toy j p -> ~ files_of toy j' p).
Proof.
  assert (Sh : forall j e, In (j, e) (both 8) ->
     (forall p, dirs_of toy j p -> length p <= 2) /\ forall p, files_of toy j p -> length p = 3).
  { intros j0 e0 [H|[H|[]]]; injection H as <- <-; (split; [intros p [a Ha]; apply (f_equal (@length _)) in Ha; rewrite app_length in Ha; cbn [length] in Ha; lia|
      intros p (m & _ & _ & ->); reflexivity]). }
  intros Nk Hi Hk. destruct (Sh _ _ (nth_error_In _ _ Hi)) as [D1 F1], (Sh _ _ (nth_error_In _ _ Hk)) as [D2 F2].
  split; [|intros p Hd Hf; apply D1 in Hd; apply F2 in Hf; lia].
  intros p Hf. split; [|intros Hd; apply F1 in Hf; apply D2 in Hd; lia].
  assert (Nm : forall n m, (N.min (N.of_nat m) U32MAX < 3)%N -> fst (random_alphanumeric 12 (skipn (12 * m) (repeat n 36))) = repeat (alnum_char n) 12).
  { intros n m Lm. assert (m = 0 \/ m = 1 \/ m = 2) as [->|[->| ->]] by (unfold U32MAX in Lm; lia); reflexivity. }
  destruct i as [|[|[|]]], k as [|[|[|]]]; try (cbn in Hi, Hk; congruence); cbn [nth_error both] in Hi, Hk;
  injection Hi as <- <-; injection Hk as <- <-; destruct Hf as (m & _ & Lm & ->); intros (m' & _ & Lm' & Q);
  apply app_inj_tail in Q as [_ Q];
  [pose proof (eq_trans (eq_sym (Nm 7%N m Lm)) (eq_trans Q (Nm 8%N m' Lm'))) as Z|pose proof (eq_trans (eq_sym (Nm 8%N m Lm)) (eq_trans Q (Nm 7%N m' Lm'))) as Z];
  discriminate.
Qed.

Example C103_example :
  (forall n j e, In (j, e) (both n) -> o_create_new (s_opts (job_saver toy j)) = true /\ e_mkdir e = [] /\ e_open e = []) /\
  (let s := turns in_turn (start toy (fun _ => None) (both 8)) in
   let p n := [bs "d"; bs "e"; repeat n 12] in
   map (fun qe => outcome (fst qe)) (snd s) =
     [inl [SFile (p 72%N) 1000; SText (bs "second")]; inl [SFile (p 73%N) 1000; SText (bs "second")]] /\
   fst s (p 72%N) = Some (NFile (repeat 120%N 1000)) /\ fst s (p 73%N) = Some (NFile (repeat 120%N 1000))) /\
  (let s := turns in_turn (start toy (fun _ => None) (both 7)) in
   let p n := [bs "d"; bs "e"; repeat n 12] in
   map (fun qe => outcome (fst qe)) (snd s) = [inl [SFile (p 72%N) 1000; SText (bs "second")]; inr []] /\
   fst s (p 72%N) = Some (NFile (repeat 120%N 1000))).
Proof.
  split; [intros n j e [H|[H|[]]]; injection H as <- <-; auto|]. split; vm_compute; auto.
Qed.

(** The disk of the second would refuse it a directory, but the first has made both; its file is refused as alone, when the two directories are
    made first. *)
Example C103_alone_example :
  let js := map (fun je => (fst je, snd je)) (firstn 1 (both 8)) ++
            map (fun je => (fst je, mkEnv (fun _ => None) [] [Some (KOther 28)] [Some (KOther 13)])) (skipn 1 (both 8)) in
  let s := turns in_turn (start toy (fun _ => None) js) in
  let refused (a : answer toy) := match a with AEntries _ (Part _ (RIo (XDst k))) _ _ => Some k | _ => None end in
  match snd s, js with
  | [(PRet a, _); (PRet b, _)], [_; (j, e)] =>
      refused a = None /\ refused b = Some (KOther 13) /\
      refused (fst (run_job toy j (mkEnv (fun _ => None) (e_w e) [None; None; Some (KOther 28)] (e_open e)))) = Some (KOther 13) /\
      hears (eq None) [None; None; Some (KOther 28)] (e_mkdir e)
  | _, _ => False
  end.
Proof.
  assert (H : hears (eq None) [None; None; Some (KOther 28)] [Some (KOther 28)]) by (do 2 (apply hears_more; [reflexivity|]); constructor).
  revert H. vm_compute. intros H. repeat split; exact H.
Qed.
