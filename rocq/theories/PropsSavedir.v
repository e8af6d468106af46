(** Property theorems about save directories (C54). *)

From Verif Require Import Bytes BytesProofs Spec Io Boundary Field Rand Fs Save Savedir EntriesProofs Toy PropsSave PropsEntries.

Lemma below_iff p q : below p q = true <-> exists a, q = p ++ a.
Proof.
  unfold below. destruct (path_eq_dec (firstn (length p) q) p) as [E|E]; split; intros H; auto; try discriminate.
  - exists (skipn (length p) q). rewrite <- E at 1. symmetry. apply firstn_skipn.
  - destruct H as [a ->]. destruct E. rewrite firstn_app, firstn_all, Nat.sub_diag. simpl. apply app_nil_r.
Qed.

(** ** C54: the lifetime of a save directory *)

(** [f'] is [f] without the directory [p] and everything in it. *)
Definition removed (p : path) (f f' : fs) : Prop :=
  (forall a, f' (p ++ a) = None) /\ forall q, (forall a, q <> p ++ a) -> f' q = f q.

Lemma remove_ok p f : f p = Some NDir -> exists f', remove_dir_all RmOk p f = (None, f') /\ removed p f f'.
Proof.
  intros E. unfold remove_dir_all. rewrite E. eexists. split; [reflexivity|]. split.
  - intros a. rewrite (proj2 (below_iff p (p ++ a))); eauto.
  - intros q H. destruct (below p q) eqn:B; auto. apply below_iff in B as [a ->]. destruct (H a). reflexivity.
Qed.

Lemma steps_state os : forall d, snd (dir_steps os d) = if in_dec (fun a b : dir_op => ltac:(decide equality)) OKeep os then keep d else d.
Proof.
  induction os as [|o os IH]; intros d; auto. cbn [dir_steps].
  destruct (dir_step o d) as [x d1] eqn:E. specialize (IH d1). destruct (dir_steps os d1) as [xs d2]. cbn [snd] in *. rewrite IH.
  destruct o; injection E as _ <-; destruct (in_dec _ OKeep os) as [K|K]; destruct (in_dec _ OKeep _) as [K'|K']; auto;
    try (destruct K'; simpl; auto; fail); try (destruct K' as [K'|K']; [discriminate|contradiction]).
  destruct d; reflexivity.
Qed.

Lemma steps_obs os : forall d i o, nth_error os i = Some o ->
  exists d1, nth_error (fst (dir_steps os d)) i = Some (fst (dir_step o d1)) /\ d1 = snd (dir_steps (firstn i os) d).
Proof.
  induction os as [|o' os IH]; intros d [|i] o H; try discriminate; cbn [dir_steps firstn] in *.
  - injection H as ->. exists d. destruct (dir_step o d) as [x d1]. destruct (dir_steps os d1) as [xs d2]. auto.
  - destruct (dir_step o' d) as [x d1] eqn:E. destruct (IH d1 i o H) as (d3 & H1 & H2).
    destruct (dir_steps os d1) as [xs d2]. destruct (dir_steps (firstn i os) d1) as [ys d4]. exists d3. auto.
Qed.

(** A temporary directory that is dropped without [keep] is removed with everything in it and nothing else. *)
Theorem C54_dropped : forall os p f, ~ In OKeep os -> f p = Some NDir ->
  exists f', dir_finish EDrop RmOk (snd (dir_steps os (Temp p))) f = (None, f') /\ removed p f f'.
Proof.
  intros os p f K E. rewrite steps_state. destruct (in_dec _ OKeep os) as [K'|_]; [contradiction|]. cbn [dir_finish drop_dir].
  destruct (remove_ok p f E) as (f' & R & H). rewrite R. eauto.
Qed.

(** Nothing is removed after [keep], for a permanent directory, or by [into_path]; whatever would happen to the
    removal. *)
Theorem C54_kept : forall os d w ev f,
  (In OKeep os \/ (exists p, d = Perm p) \/ w = EIntoPath) -> w <> EDelete ->
  dir_finish w ev (snd (dir_steps os d)) f = (None, f).
Proof.
  intros os d w ev f H Nw. rewrite steps_state. destruct w; try congruence; auto. cbn [dir_finish].
  destruct (in_dec _ OKeep os) as [K|K].
  - destruct d; reflexivity.
  - destruct H as [H|[[p ->]|H]]; try contradiction; try discriminate. reflexivity.
Qed.

(** [delete] removes the directory of either kind, kept or not, and reports failure. *)
Theorem C54_deleted : forall os d f,
  let p := as_path d in
  (f p = Some NDir -> exists f', dir_finish EDelete RmOk (snd (dir_steps os d)) f = (None, f') /\ removed p f f') /\
  (forall k kept, exists f', dir_finish EDelete (RmFail k kept) (snd (dir_steps os d)) f = (Some k, f')) /\
  (f p = None -> exists k, dir_finish EDelete RmOk (snd (dir_steps os d)) f = (Some k, f)).
Proof.
  intros os d f p.
  assert (E : forall ev, dir_finish EDelete ev (snd (dir_steps os d)) f = remove_dir_all ev p f).
  { intros ev. rewrite steps_state. destruct (in_dec _ OKeep os); destruct d; reflexivity. }
  split; [|split].
  - intros H. rewrite E. now apply remove_ok.
  - intros k kept. rewrite E. eexists. reflexivity.
  - intros H. rewrite E. unfold remove_dir_all. rewrite H. eauto.
Qed.

(** However it ends and however much of it can be removed: nothing outside the directory changes, and inside nothing appears or is altered. *)
Theorem C54_outside : forall os d w ev f x f', dir_finish w ev (snd (dir_steps os d)) f = (x, f') ->
  forall q, f' q = f q \/ (f' q = None /\ exists a, q = as_path d ++ a).
Proof.
  intros os d w ev f x f' H q.
  assert (Q : forall y g, remove_dir_all ev (as_path d) f = (y, g) -> g q = f q \/ (g q = None /\ exists a, q = as_path d ++ a)).
  { intros y g R. unfold remove_dir_all in R. pose proof (below_iff (as_path d) q) as B. destruct ev as [|k kept].
    - destruct (f (as_path d)) as [[|c]|]; injection R as _ <-; auto. destruct (below (as_path d) q); auto. right. split; [reflexivity|]. now apply B.
    - injection R as _ <-. destruct (below (as_path d) q); cbn [andb]; auto. destruct (kept q); cbn [negb]; auto. right. split; [reflexivity|]. now apply B. }
  rewrite steps_state in H.
  assert (A : as_path (if in_dec (fun a b : dir_op => ltac:(decide equality)) OKeep os then keep d else d) = as_path d) by (destruct (in_dec _ OKeep os); destruct d; reflexivity).
  revert H A. generalize (if in_dec (fun a b : dir_op => ltac:(decide equality)) OKeep os then keep d else d). intros d' H A.
  destruct w; cbn [dir_finish] in H.
  - injection H as _ <-. destruct d' as [p|p]; cbn [drop_dir]; auto. cbn [as_path] in A. subst p. destruct (remove_dir_all ev (as_path d) f) as [y g] eqn:R. eauto.
  - injection H as _ <-. auto.
  - apply (Q x). rewrite <- A. destruct d'; exact H.
Qed.

(** What the methods return in between: always the same path; temporary until [keep], if it was made as a temporary directory. *)
Theorem C54_observed : forall os d p i o, (d = Temp p \/ d = Perm p) -> nth_error os i = Some o ->
  match o with
  | OAsPath => nth_error (fst (dir_steps os d)) i = Some (ObsPath p)
  | OIsTemp => exists t, nth_error (fst (dir_steps os d)) i = Some (ObsTemp t) /\ (t = true <-> d = Temp p /\ ~ In OKeep (firstn i os))
  | OKeep => nth_error (fst (dir_steps os d)) i = Some ObsNone
  end /\ into_path (snd (dir_steps os d)) = p.
Proof.
  intros os d p i o Hd H. destruct (steps_obs os d i o H) as (d1 & E & ->). rewrite E. rewrite !steps_state.
  split; [|destruct (in_dec _ OKeep os), Hd as [-> | ->]; reflexivity].
  destruct (in_dec _ OKeep (firstn i os)) as [K|K]; destruct o, Hd as [-> | ->]; try reflexivity;
    (eexists; split; [reflexivity|]); split; intros X; try discriminate X; try tauto; try (destruct X as [X _]; discriminate X); auto.
Qed.

(** Saving fields does not change what will happen to the directory. *)
Lemma pushes_temp ML log : forall en, en_temp ML (pushes ML en log) = en_temp ML en.
Proof. induction log as [|hv log IH]; intros en; auto. apply (IH (push_field ML en (fst hv) (snd hv))). Qed.

Lemma pushes_dir_of ML log en : dir_of (pushes ML en log) = dir_of en.
Proof. unfold dir_of. now rewrite pushes_temp, pushes_dir. Qed.

Theorem C54_saving : forall ML trim s fuel en g r e x g' r' e',
  with_entries ML trim s fuel en g r e = (x, g', r', e') ->
  match x with
  | Full en' => dir_of en' = dir_of en
  | Part pe _ => dir_of (pe_entries ML pe) = dir_of en /\ dir_of (keep_partial ML pe) = dir_of en
  | _ => True
  end.
Proof.
  intros ML trim s fuel en g r e x g' r' e' H. apply C45_entries in H. destruct x as [en'|pe why| | |]; auto.
  - destruct H as [log ->]. apply (pushes_dir_of ML log (recount_fields ML en)).
  - destruct H as [log H]. assert (E : dir_of (pe_entries ML pe) = dir_of en) by (rewrite H; apply (pushes_dir_of ML log (recount_fields ML en))).
    split; auto. rewrite <- E. unfold keep_partial. destruct (pe_partial ML pe) as [[h [v|]]|]; reflexivity.
Qed.

(** Which directories are temporary: those made by [temp] and the like, and those handed over as temporary; the one given to
    [with_dir] is left when the entries are dropped. *)
Definition ends_with_dir {ML} (d : save_dir) (x : sres (entries ML) (partial_entries ML)) : Prop :=
  match x with
  | Full en => dir_of en = d
  | Part pe _ => dir_of (pe_entries ML pe) = d /\ dir_of (keep_partial ML pe) = d
  | _ => True
  end.

Theorem C54_with_dir : forall ML trim s dir fuel g r e x g' r' e',
  entries_with_dir ML trim s dir fuel g r e = (x, g', r', e') ->
  ends_with_dir (Perm dir) x /\ forall ev f, drop_dir ev (Perm dir) f = f.
Proof.
  intros ML trim s dir fuel g r e x g' r' e' H. split; [|reflexivity]. unfold entries_with_dir in H.
  destruct (create_dir_all dir e) as [[k|] e1]; [now injection H as <- _ _ _|]. apply C54_saving in H. destruct x; exact H.
Qed.

Lemma tempdir_name tries prefix base : forall g e p g1 e1, tempdir_in tries prefix base g e = (inl p, g1, e1) ->
  exists n, p = base ++ [prefix ++ n] /\ length n = 6 /\ Forall (fun c => (48 <= c <= 57 \/ 65 <= c <= 90 \/ 97 <= c <= 122)%N) n.
Proof.
  induction tries as [|tries IH]; intros g e p g1 e1; cbn [tempdir_in]; [discriminate|].
  pose proof (random_alnum 6 g) as [Ln An]. change TEMPDIR_RAND with 6. destruct (random_alphanumeric 6 g) as [name g2]. cbn [fst] in Ln, An.
  destruct (create_dir (base ++ [prefix ++ name]) e) as [[k|] e2].
  - destruct (iokind_eqb k KAlreadyExists); [apply IH|discriminate].
  - intros H; injection H as <- _ _. exists name. auto.
Qed.

Theorem C54_temp : forall ML trim s os_temp prefix tries fuel g r e x g' r' e',
  temp_with_prefix ML trim s os_temp prefix tries fuel g r e = (x, g', r', e') ->
  (exists k, x = SErr (XDst k)) \/
  exists name, length name = 6 /\ Forall (fun c => (48 <= c <= 57 \/ 65 <= c <= 90 \/ 97 <= c <= 122)%N) name /\
    ends_with_dir (Temp (os_temp ++ [prefix ++ name])) x.
Proof.
  intros ML trim s os_temp prefix tries fuel g r e x g' r' e' H. unfold temp_with_prefix in H.
  destruct (tempdir_in tries prefix os_temp g e) as [[[p|k] g1] e1] eqn:T; [|injection H as <- _ _ _; left; eauto].
  right. apply tempdir_name in T as (n & -> & L & A). exists n. split; auto. split; auto. apply C54_saving in H. destruct x; exact H.
Qed.

Example C54_example :
  let f := fun q => if path_eq_dec q [bs "t"] then Some NDir else if path_eq_dec q [bs "t"; bs "x"] then Some (NFile (bs "1"))
                    else if path_eq_dec q [bs "u"] then Some (NFile (bs "2")) else None in
  (let '(xs, d) := dir_steps [OIsTemp; OAsPath] (Temp [bs "t"]) in
   xs = [ObsTemp true; ObsPath [bs "t"]] /\
   let f' := snd (dir_finish EDrop RmOk d f) in f' [bs "t"; bs "x"] = None /\ f' [bs "t"] = None /\ f' [bs "u"] = Some (NFile (bs "2"))) /\
  (let '(xs, d) := dir_steps [OIsTemp; OKeep; OIsTemp] (Temp [bs "t"]) in
   xs = [ObsTemp true; ObsNone; ObsTemp false] /\ snd (dir_finish EDrop RmOk d f) [bs "t"; bs "x"] = Some (NFile (bs "1"))).
Proof. vm_compute. repeat split; reflexivity. Qed.
