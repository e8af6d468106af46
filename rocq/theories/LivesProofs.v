(** Facts about requests with temporary directories on one disk: each has its directory for itself. *)

From Verif Require Import Bytes BytesProofs Io Boundary Utf8 Httparse Field Rand Fs Save Savedir EntriesProofs Together TogetherProofs PropsTogether Lives.

(** ** Alone *)

Lemma create_dir_same p e e1 x e1' : esame e e1 -> create_dir p e1 = (x, e1') ->
  exists e', create_dir p e = (x, e') /\ esame e' e1' /\ e_w e1' = e_w e1.
Proof.
  intros (Ef & Ew & Em & Eo). unfold create_dir. rewrite !Ef.
  assert (K : (match e_fs e1 p with
      | Some _ => (Some KAlreadyExists, e1)
      | None => match e_mkdir e1 with
          | Some k :: m => (Some k, mkEnv (e_fs e1) (e_w e1) m (e_open e1))
          | None :: m => (None, mkEnv (upd (e_fs e1) p (Some NDir)) (e_w e1) m (e_open e1))
          | [] => (None, set_fs (upd (e_fs e1) p (Some NDir)) e1)
          end end) = (x, e1') ->
    exists e', (match e_fs e1 p with
      | Some _ => (Some KAlreadyExists, e)
      | None => match e_mkdir e with
          | Some k :: m => (Some k, mkEnv (e_fs e) (e_w e) m (e_open e))
          | None :: m => (None, mkEnv (upd (e_fs e) p (Some NDir)) (e_w e) m (e_open e))
          | [] => (None, set_fs (upd (e_fs e) p (Some NDir)) e)
          end end) = (x, e') /\ esame e' e1' /\ e_w e1' = e_w e1).
  { destruct (e_fs e1 p); [intros H; injection H as <- <-; exists e; repeat split; auto|].
    rewrite Em. destruct (e_mkdir e1) as [|[k|] m] eqn:Em1; intros H; injection H as <- <-;
    (eexists; split; [reflexivity|split; [split; [|split; [|split]]|]; cbn [set_fs e_fs e_w e_mkdir e_open]; auto; try congruence; intros q; now apply upd_same]). }
  destruct (removelast p) as [|c l]; auto.
  destruct (e_fs e1 (c :: l)) as [[|b]|]; auto; intros H; injection H as <- <-; exists e; repeat split; auto.
Qed.

Lemma ptempdir_same tries prefix base : forall g e e1 x g1 e1', esame e e1 -> tempdir_in tries prefix base g e1 = (x, g1, e1') ->
  exists e', solo (ptempdir tries prefix base g) e = ((x, g1), e') /\ esame e' e1' /\ e_w e1' = e_w e1.
Proof.
  induction tries as [|n IH]; intros g e e1 x g1 e1' He; cbn [tempdir_in ptempdir].
  { intros H; injection H as <- <- <-. exists e. auto. }
  destruct (random_alphanumeric TEMPDIR_RAND g) as [name g2]. cbn [solo].
  destruct (create_dir (base ++ [prefix ++ name]) e1) as [y e2] eqn:C.
  destruct (create_dir_same _ _ _ _ _ He C) as (e3 & -> & S3 & W3).
  destruct y as [k|]; [destruct (iokind_eqb k KAlreadyExists)|].
  - intros H. destruct (IH _ _ _ _ _ _ S3 H) as (e4 & Q & S4 & W4). exists e4. split; auto. split; auto. congruence.
  - intros H; injection H as <- <- <-. exists e3. auto.
  - intros H; injection H as <- <- <-. exists e3. auto.
Qed.

Lemma plooks_same dir qs : forall e, solo (plooks dir qs) e = (map (fun q => e_fs e (dir ++ q)) qs, e).
Proof. induction qs as [|q qs IH]; intros e; cbn [plooks solo map]; auto. now rewrite solo_bind, IH. Qed.

Lemma remove_same ev p e e1 x f : esame e e1 -> remove_dir_all ev p (e_fs e1) = (x, f) ->
  exists e', do_remove ev p e = (x, e') /\ esame e' (set_fs f e1).
Proof.
  intros (Ef & Ew & Em & Eo). unfold do_remove, remove_dir_all. rewrite Ef.
  destruct ev as [|k kept]; [destruct (e_fs e1 p) as [[|c]|]|]; intros H; injection H as <- <-;
  (eexists; split; [reflexivity|split; [|split; [|split]]; cbn [set_fs e_fs e_w e_mkdir e_open]; auto; intros q; rewrite Ef; reflexivity]).
Qed.

(** A directory stays one until it is removed. *)
Lemma builds_dir {A} D F d (q : prog A) : within D F q -> forall e, e_fs e d = Some NDir -> e_fs (snd (solo q e)) d = Some NDir.
Proof.
  assert (Put : forall e h b, e_fs e d = Some NDir -> e_fs (snd (file_put h b e)) d = Some NDir).
  { intros e h b Hd. unfold file_put. destruct (e_fs e (h_path h)) as [[|c]|] eqn:Eh; cbn [snd set_fs e_fs]; auto. unfold upd. destruct (path_eq_dec d (h_path h)); congruence. }
  induction q as [a|p l k IH|o p k IH|h b k IH|p k IH|ev p k IH|p k IH]; cbn [within solo]; try contradiction; auto.
  - intros [_ Wk] e Hd. destruct (do_dir p l e) as [x e1] eqn:E. apply IH; auto. unfold do_dir in E.
    destruct (e_fs e p) as [[|c]|] eqn:Ep; [injection E as _ <-; auto|injection E as _ <-; auto|].
    destruct (e_mkdir e) as [|[y|] m]; injection E as _ <-; cbn [set_fs e_fs]; auto; unfold upd; destruct (path_eq_dec d p); congruence.
  - intros [_ Wk] e Hd. destruct (open_file o p e) as [x e1] eqn:E. apply IH; auto. revert E. unfold open_file.
    assert (Up : forall n, e_fs e p <> Some NDir -> upd (e_fs e) p n d = Some NDir) by (intros n Np; unfold upd; destruct (path_eq_dec d p); congruence).
    repeat (match goal with |- context [match ?x with _ => _ end] => let E := fresh in destruct x eqn:E end);
    intros E; injection E as _ <-; cbn [set_fs e_fs]; auto; apply Up; congruence.
  - intros Wk e Hd. destruct (do_write h b e) as [x e1] eqn:E. apply IH; auto. revert E. unfold do_write.
    destruct (e_w e) as [|[n|y] w]; [| |intros E; injection E as _ <-; exact Hd].
    + destruct (file_put h b _) as [h1 e2] eqn:P. intros E; injection E as _ <-. eapply (f_equal snd) in P. cbn [snd] in P. rewrite <- P. apply Put. exact Hd.
    + destruct (Nat.min n (length b) =? 0); [intros E; injection E as _ <-; exact Hd|].
      destruct (file_put h _ _) as [h1 e2] eqn:P. intros E; injection E as _ <-. eapply (f_equal snd) in P. cbn [snd] in P. rewrite <- P. apply Put. exact Hd.
Qed.

Lemma premove_same ev p stages : forall e e1 x f, esame e e1 -> e_fs e1 p = Some NDir -> remove_dir_all ev p (e_fs e1) = (x, f) ->
  exists e', solo (premove stages ev p) e = (x, e') /\ esame e' (set_fs f e1).
Proof.
  induction stages as [|st stages IH]; intros e e1 x f He Hd R; cbn [premove solo].
  - destruct (remove_same _ _ _ _ _ _ He R) as (e' & -> & S'). eauto.
  - unfold do_remove. cbn [remove_dir_all]. set (f1 := fun q => if below p q && negb (stage ev p st q) then None else e_fs e1 q).
    assert (S1 : esame (set_fs (fun q => if below p q && negb (stage ev p st q) then None else e_fs e q) e) (set_fs f1 e1)).
    { destruct He as (Ef & Ew & Em & Eo). repeat split; cbn [set_fs e_fs e_w e_mkdir e_open]; auto. intros q. unfold f1. now rewrite Ef. }
    assert (D1 : f1 p = Some NDir).
    { unfold f1, stage. destruct (path_eq_dec p p); [|congruence]. cbn [orb negb]. now rewrite andb_false_r. }
    assert (R1 : exists f2, remove_dir_all ev p f1 = (x, f2) /\ forall q, f2 q = f q).
    { unfold remove_dir_all in *. rewrite D1. destruct ev as [|y kept].
      - rewrite Hd in R. injection R as <- <-. eexists. split; [reflexivity|]. intros q. cbn beta. unfold f1. destruct (below p q); reflexivity.
      - injection R as <- <-. eexists. split; [reflexivity|]. intros q. cbn beta. unfold f1, stage. destruct (below p q); cbn [andb]; auto.
        destruct (kept q); cbn [negb]; [rewrite orb_true_r; reflexivity|reflexivity]. }
    destruct R1 as (f2 & R1 & F2). destruct (IH _ (set_fs f1 e1) x f2 S1 D1 R1) as (e' & -> & S'). exists e'. split; auto.
    destruct S' as (Ef & Ew & Em & Eo). repeat split; cbn [set_fs e_fs e_w e_mkdir e_open] in *; auto. intros q. now rewrite Ef.
Qed.

Lemma pfinish_same w stages ev d e e1 x f : esame e e1 -> e_fs e1 (as_path d) = Some NDir -> dir_finish w ev d (e_fs e1) = (x, f) ->
  exists e', solo (pfinish w stages ev d) e = (x, e') /\ esame e' (set_fs f e1).
Proof.
  intros He Hd. assert (Keep : esame e (set_fs (e_fs e1) e1)) by (destruct e1; exact He).
  destruct w, d as [p|p]; cbn [dir_finish drop_dir delete pfinish solo as_path] in *; try (intros H; injection H as <- <-; exists e; split; [reflexivity|exact Keep]).
  - destruct (remove_dir_all ev p (e_fs e1)) as [y f1] eqn:R. cbn [snd]. intros H; injection H as <- <-.
    destruct (premove_same _ _ stages _ _ _ _ He Hd R) as (e' & Q & S'). rewrite solo_bind, Q. exists e'. auto.
  - intros R. eapply premove_same; eauto.
  - intros R. eapply premove_same; eauto.
Qed.

Lemma tempdir_dir tries prefix base : forall g e p g1 e1, tempdir_in tries prefix base g e = (inl p, g1, e1) -> e_fs e1 p = Some NDir.
Proof.
  induction tries as [|tries IH]; intros g e p g1 e1; cbn [tempdir_in]; [discriminate|].
  destruct (random_alphanumeric TEMPDIR_RAND g) as [name g2]. destruct (create_dir (base ++ [prefix ++ name]) e) as [[k|] e2] eqn:C.
  - destruct (iokind_eqb k KAlreadyExists); [apply IH|discriminate].
  - intros H; injection H as <- _ <-. revert C. unfold create_dir.
    assert (Up : forall f, upd f (base ++ [prefix ++ name]) (Some NDir) (base ++ [prefix ++ name]) = Some NDir)
      by (intros f; unfold upd; destruct (path_eq_dec (base ++ [prefix ++ name]) (base ++ [prefix ++ name])); congruence).
    repeat match goal with |- context[match ?x with _ => _ end] => destruct x end; intros C; try discriminate C; injection C as <-; apply Up.
Qed.

Lemma steps_dir os : forall d, as_path (snd (dir_steps os d)) = as_path d.
Proof.
  induction os as [|o os IH]; intros d; auto. cbn [dir_steps]. destruct o; cbn [dir_step]; specialize (IH d) as I1.
  - destruct (dir_steps os d); auto.
  - destruct (dir_steps os d); auto.
  - specialize (IH (keep d)). destruct (dir_steps os (keep d)). cbn [snd] in *. rewrite IH. now destruct d.
Qed.

(** A life on its own is the one of [Savedir]. *)
Lemma life_same ML wf l e e1 : room wf e e1 ->
  let '(a, e1') := run_life ML l e1 in exists e', solo (plife ML wf l) e = (a, e') /\ esame e' e1'.
Proof.
  intros [He Hl]. unfold run_life, plife. rewrite solo_bind.
  destruct (tempdir_in (l_tries l) (l_prefix l) (l_base l) (l_rng l) e1) as [[y g1] e2] eqn:Td.
  destruct (ptempdir_same _ _ _ _ _ _ _ _ _ He Td) as (e3 & -> & S3 & W3).
  destruct y as [dir|k]; [|exists e3; auto]. rewrite solo_bind.
  destruct (with_temp_dir ML (l_trim l) (l_saver l) dir (l_fuel l) g1 (l_reader l) e2) as [[[x g2] r1] e4] eqn:W.
  unfold with_temp_dir, with_entries in W. unfold pwith_entries. destruct (read_entry ML (l_trim l) (l_reader l)) as [res r2].
  assert (R3 : room wf e3 e2) by (split; auto; now rewrite W3).
  destruct (pentries_loop_same _ _ _ _ _ _ _ _ _ _ _ _ _ _ _ R3 W) as (e5 & Sl & R5). rewrite Sl. destruct R5 as [S5 L5].
  assert (Nd : e_fs e4 dir = Some NDir).
  { destruct S5 as [<- _]. change e5 with (snd (x, g2, r1, e5)). rewrite <- Sl. apply builds_dir with (D := fun _ => True) (F := fun _ => True).
    - apply within_loop with (dir := dir) (n := 0%N); auto. cbn; lia.
    - destruct S3 as [-> _]. eapply tempdir_dir; eauto. }
  rewrite solo_bind, plooks_same. destruct (last_dir l dir x) as [w d] eqn:La. rewrite solo_bind.
  assert (Ad : as_path d = dir).
  { unfold last_dir in La. destruct x; injection La as _ <-; auto; now rewrite steps_dir. }
  destruct (dir_finish w (l_rm l) d (e_fs e4)) as [y f] eqn:Df. rewrite <- Ad in Nd.
  destruct (pfinish_same _ (l_stages l) _ _ _ _ _ _ S5 Nd Df) as (e6 & -> & S6). exists e6. cbn [solo]. split; auto.
  do 3 f_equal. apply map_ext. intros q. apply S5.
Qed.

(** ** Where a program may go *)

Inductive phase := Before | Owns (r : path) | Gone.

(** Strictly in the directory [t]. *)
Definition inside (t p : path) : Prop := exists c b, p = t ++ c :: b.

(** What a failed removal leaves is in the directory. *)
Definition tidy (ev : rmevent) (p : path) : Prop :=
  match ev with RmOk => True | RmFail _ kept => forall q, below p q = true -> kept q = true -> kept p = true end.

Definition after (ev : rmevent) (p : path) : phase :=
  match ev with RmOk => Gone | RmFail _ kept => if kept p then Owns p else Gone end.

Fixpoint confined {A} (t : path) (T : path -> Prop) (ph : phase) (q : prog A) (Q : phase -> A -> Prop) : Prop :=
  match q with
  | PRet a => Q ph a
  | PTemp p k => ph = Before /\ (T p /\ exists c, p = t ++ [c]) /\ confined t T (Owns p) (k None) Q /\ forall x, confined t T Before (k (Some x)) Q
  | PDir p _ k => (exists r, ph = Owns r /\ ((p <> [] /\ exists a, t = p ++ a) \/ exists b, p = r ++ b)) /\ forall x, confined t T ph (k x) Q
  | POpen _ p k => (exists r, ph = Owns r /\ inside r p) /\ (forall h, h_path h = p -> confined t T ph (k (inl h)) Q) /\
      forall x, confined t T ph (k (inr x)) Q
  | PWrite h _ k => (exists r, ph = Owns r /\ inside r (h_path h)) /\ forall x h', h_path h' = h_path h -> confined t T ph (k (x, h')) Q
  | PRemove ev p k => ph = Owns p /\ tidy ev p /\ forall x, confined t T (after ev p) (k x) Q
  | PLook p k => (exists r b, ph = Owns r /\ p = r ++ b) /\ forall x, confined t T ph (k x) Q
  end.

Lemma confined_bind {A B} t T (q : prog A) (f : A -> prog B) (Q : phase -> A -> Prop) Q' : (forall ph a, Q ph a -> confined t T ph (f a) Q') ->
  forall ph, confined t T ph q Q -> confined t T ph (pbind q f) Q'.
Proof.
  intros Hf. induction q as [a|p l k IH|o p k IH|h b k IH|p k IH|ev p k IH|p k IH]; intros ph; cbn [confined pbind]; auto.
  - intros [H1 H2]; auto.
  - intros (H1 & H2 & H3); auto.
  - intros [H1 H2]; auto.
  - intros (H1 & H2 & H3 & H4); auto.
  - intros (H1 & H2 & H3); auto.
  - intros [H1 H2]; auto.
Qed.

Lemma confined_weaken {A} t T (q : prog A) (Q Q' : phase -> A -> Prop) : (forall ph a, Q ph a -> Q' ph a) ->
  forall ph, confined t T ph q Q -> confined t T ph q Q'.
Proof.
  intros Hf. induction q as [a|p l k IH|o p k IH|h b k IH|p k IH|ev p k IH|p k IH]; intros ph; cbn [confined]; auto.
  - intros [H1 H2]; auto.
  - intros (H1 & H2 & H3); auto.
  - intros [H1 H2]; auto.
  - intros (H1 & H2 & H3 & H4); auto.
  - intros (H1 & H2 & H3); auto.
  - intros [H1 H2]; auto.
Qed.

(** A program that only makes its files and the directories above them. *)
Lemma owned {A} t T r (D F : path -> Prop) (q : prog A) (Q : list path -> A -> Prop) :
  (forall p, D p -> (p <> [] /\ exists a, t = p ++ a) \/ exists b, p = r ++ b) -> (forall p, F p -> inside r p) ->
  forall H, within D F q -> safe H q Q -> (forall p, In p H -> inside r p) -> confined t T (Owns r) q (fun ph _ => ph = Owns r).
Proof.
  intros HD HF. induction q as [a|p l k IH|o p k IH|h b k IH|p k IH|ev p k IH|p k IH]; intros H; cbn [within safe confined]; auto; try contradiction.
  - intros [Dp Wk] Sk HH. split; [eauto|]. intros x. eapply IH; eauto.
  - intros [Fp Wk] (_ & S1 & S2) HH. split; [eauto|]. split.
    + intros h Eh. eapply IH; [apply Wk|apply S1; exact Eh|]. intros p' [<-|Hp]; auto.
    + intros x. eapply IH; eauto.
  - intros Wk [Hp Sk] HH. split; [eauto|]. intros x h' Eh. eapply IH; eauto.
Qed.

(** ** A life keeps to its directory *)

Lemma list_end {X} (l : list X) : l = [] \/ exists a z, l = a ++ [z].
Proof. destruct l as [|x l]; auto. right. destruct (@exists_last _ (x :: l)) as (a & z & E); [discriminate|eauto]. Qed.

Definition drops (l : life) : bool :=
  match l_end l, l_rm l, snd (dir_steps (l_ops l) (Temp [])) with
  | EDrop, RmOk, Temp _ => true
  | EDelete, RmOk, _ => true
  | _, _, _ => false
  end.

Lemma steps_temp os p p' : (snd (dir_steps os (Temp p)) = Temp p /\ snd (dir_steps os (Temp p')) = Temp p') \/
  (snd (dir_steps os (Temp p)) = Perm p /\ snd (dir_steps os (Temp p')) = Perm p').
Proof.
  assert (Pm : forall os q, snd (dir_steps os (Perm q)) = Perm q).
  { induction os0 as [|o os0 IH]; intros q; auto. cbn [dir_steps]. destruct o; cbn [dir_step keep];
    specialize (IH q); destruct (dir_steps os0 (Perm q)); auto. }
  induction os as [|o os IH]; [left; auto|]. cbn [dir_steps]. destruct o; cbn [dir_step keep].
  - destruct (dir_steps os (Temp p)), (dir_steps os (Temp p')); auto.
  - destruct (dir_steps os (Temp p)), (dir_steps os (Temp p')); auto.
  - right. pose proof (Pm os p). pose proof (Pm os p'). destruct (dir_steps os (Perm p)), (dir_steps os (Perm p')); auto.
Qed.

(** The names that [tempdir_in] may try: six samples each. *)
Definition temp_names (l : life) (p : path) : Prop :=
  exists k, k < l_tries l /\ p = l_base l ++ [l_prefix l ++ fst (random_alphanumeric 6 (skipn (6 * k) (l_rng l)))].

Lemma confined_life ML wf l : o_create_new (s_opts (l_saver l)) = true -> (forall p, tidy (l_rm l) p) ->
  confined (l_base l) (temp_names l) Before (plife ML wf l) (fun ph a => drops l = true -> forall r, ph <> Owns r).
Proof.
  intros Ho Ht. unfold plife.
  apply confined_bind with (Q := fun ph (z : (path + iokind) * rng) =>
    match fst z with inl dir => ph = Owns dir /\ exists c, dir = l_base l ++ [c] | inr _ => ph = Before end).
  2: { assert (K : forall n k g, k + n = l_tries l -> g = skipn (6 * k) (l_rng l) ->
         confined (l_base l) (temp_names l) Before (ptempdir n (l_prefix l) (l_base l) g)
           (fun ph z => match fst z with inl dir => ph = Owns dir /\ exists c, dir = l_base l ++ [c] | inr _ => ph = Before end)).
       2: { apply (K _ 0); auto. }
       induction n as [|n IH]; intros k g Ek Eg; cbn [ptempdir confined fst]; auto.
       pose proof (random_rest TEMPDIR_RAND g) as Rr. pose proof (eq_refl (fst (random_alphanumeric TEMPDIR_RAND g))) as Rn.
       destruct (random_alphanumeric TEMPDIR_RAND g) as [name g1] eqn:R. cbn [fst snd] in Rr, Rn. cbn [confined fst]. split; auto. split.
       { split; [|eauto]. exists k. split; [lia|]. rewrite <- Eg. change 6 with TEMPDIR_RAND. now rewrite R. }
       split; [eauto|]. intros x. destruct (iokind_eqb x KAlreadyExists); [|reflexivity]. apply (IH (S k)); [lia|].
       rewrite Rr, Eg. unfold TEMPDIR_RAND. rewrite skipn_plus. f_equal. lia. }
  intros ph [[dir|k] g1]; cbn [fst]; [|intros ->; cbn [confined]; discriminate].
  intros [-> [c ->]]. set (dir := l_base l ++ [c]).
  apply confined_bind with (Q := fun ph _ => ph = Owns dir).
  2: { unfold pwith_entries. destruct (read_entry ML (l_trim l) (l_reader l)) as [res r2].
       apply owned with (D := fun p => p <> [] /\ exists a, dir = p ++ a) (F := inside dir) (H := []) (Q := fun _ _ => True); auto.
       - intros p [Np [a Ea]]. unfold dir in Ea. destruct (list_end a) as [->|(a' & z & ->)].
         + right. exists []. rewrite app_nil_r in *. now symmetry.
         + left. split; auto. rewrite app_assoc in Ea. apply app_inj_tail in Ea as [-> _]. eauto.
       - apply within_loop with (dir := dir) (n := 0%N); eauto; [cbn; lia|]. intros k _ _. exists (name_of g1 k), []. reflexivity.
       - apply safe_loop. exact Ho.
       - intros p []. }
  intros ph [[x g2] r1] ->.
  apply confined_bind with (Q := fun ph _ => ph = Owns dir).
  2: { induction (l_looks l) as [|q qs IH]; cbn [plooks confined]; auto. split; [eauto|]. intros n.
       apply confined_bind with (Q := fun ph _ => ph = Owns dir); auto. }
  intros ph ns ->.
  assert (Rm : forall w d, (d = Temp dir \/ d = Perm dir) -> (drops l = true -> l_rm l = RmOk /\ match w, d with EDrop, Temp _ => True | EDelete, _ => True | _, _ => False end) ->
    confined (l_base l) (temp_names l) (Owns dir) (pbind (pfinish w (l_stages l) (l_rm l) d) (fun y => PRet (AEntries ML x g2 r1, ns, y)))
      (fun ph _ => drops l = true -> forall r, ph <> Owns r)).
  { intros w d Hd Hr.
    assert (Go : (drops l = true -> l_rm l = RmOk) -> confined (l_base l) (temp_names l) (Owns dir) (premove (l_stages l) (l_rm l) dir) (fun ph _ => drops l = true -> forall r, ph <> Owns r)).
    { intros Hok. induction (l_stages l) as [|st sts IH]; cbn [premove confined].
      - split; [reflexivity|]. split; [apply Ht|]. intros _ Dl r. rewrite (Hok Dl). discriminate.
      - assert (Kp : stage (l_rm l) dir st dir = true) by (unfold stage; destruct (path_eq_dec dir dir); [reflexivity|congruence]).
        split; [reflexivity|]. split; [cbn [tidy]; auto|]. intros _. cbn [after]. rewrite Kp. exact IH. }
    eapply confined_bind with (Q := fun ph _ => drops l = true -> forall r, ph <> Owns r); [intros ph y K; exact K|].
    destruct w, Hd as [-> | ->]; cbn [pfinish confined]; try (intros Dl; destruct (Hr Dl) as [_ []]).
    - eapply confined_bind; [|apply Go; intros Dl; apply (Hr Dl)]. intros ph y K. exact K.
    - apply Go. intros Dl. apply (Hr Dl).
    - apply Go. intros Dl. apply (Hr Dl). }
  destruct (steps_temp (l_ops l) [] dir) as [[E0 E1]|[E0 E1]].
  - assert (Dr : drops l = true -> l_rm l = RmOk /\ match l_end l with EIntoPath => False | _ => True end).
    { unfold drops. rewrite E0. destruct (l_end l), (l_rm l); try discriminate; auto. }
    destruct x; cbn [last_dir]; try rewrite E1; apply Rm; auto; intros Dl; destruct (Dr Dl) as [R1 R2]; split; auto; destruct (l_end l); auto.
  - assert (Dr : drops l = true -> l_rm l = RmOk /\ l_end l = EDelete).
    { unfold drops. rewrite E0. destruct (l_end l), (l_rm l); try discriminate; auto. }
    destruct x; cbn [last_dir]; try rewrite E1; apply Rm; auto; intros Dl; destruct (Dr Dl) as [R1 R2]; split; auto; now rewrite R2.
Qed.

(** ** Calls at a path at which two disks agree *)

#[local] Hint Resolve spends_nil : core.

Definition same_call {X} (call : env -> X * env) (p : path) : Prop := forall fc e g, g p = fc p ->
  exists x e' mk0 op0 g', call (set_fs fc e) = (x, e') /\
    (forall mk op, call (mkEnv g (e_w e) (mk0 ++ mk) (op0 ++ op)) = (x, mkEnv g' (e_w e') mk op)) /\
    (((forall z, e_fs e' z = fc z) /\ (forall z, g' z = g z)) \/
     exists n, g p <> Some NDir /\ (forall z, e_fs e' z = upd fc p (Some n) z) /\ (forall z, g' z = upd g p (Some n) z)) /\
    (forall X, spends X mk0 (e_mkdir e) (e_mkdir e')) /\ (forall X, spends X op0 (e_open e) (e_open e')).

Lemma same_dir p l : same_call (do_dir p l) p.
Proof.
  intros fc e g Hp. unfold do_dir. cbn [set_fs e_fs e_w e_mkdir e_open]. rewrite Hp.
  destruct (fc p) as [[|c]|] eqn:Fp.
  - eexists _, _, [], [], _. repeat split; try reflexivity; cbn [e_fs e_mkdir e_open]; auto.
  - eexists _, _, [], [], _. repeat split; try reflexivity; cbn [e_fs e_mkdir e_open]; auto.
  - destruct (e_mkdir e) as [|[k|] m] eqn:Em.
    + eexists _, _, [None], [], _. split; [reflexivity|]. split; [reflexivity|]. cbn [e_fs e_mkdir e_open].
      split; [right; eexists; split; [congruence|split; intros z; reflexivity]|]. split; intros C; [cbn [set_fs e_mkdir]; rewrite ?Em; apply (spends_own C [])|apply spends_nil].
    + eexists _, _, [Some k], [], _. split; [reflexivity|]. split; [reflexivity|]. cbn [e_fs e_mkdir e_open].
      split; [left; auto|]. split; intros C; [apply (spends_own C (Some k :: m))|apply spends_nil].
    + eexists _, _, [None], [], _. split; [reflexivity|]. split; [reflexivity|]. cbn [e_fs e_mkdir e_open].
      split; [right; eexists; split; [congruence|split; intros z; reflexivity]|]. split; intros C; [apply (spends_own C (None :: m))|apply spends_nil].
Qed.

Lemma same_open o p : same_call (open_file o p) p.
Proof.
  intros fc e g Hp. unfold open_file. cbn [set_fs e_fs e_w e_mkdir e_open].
  destruct (o_append o && o_truncate o && negb (o_create_new o)).
  { eexists _, _, [], [], _. repeat split; try reflexivity; cbn [e_fs e_mkdir e_open]; auto. }
  destruct (e_open e) as [|[k|] op] eqn:Eo.
  2: { eexists _, _, [], [Some k], _. split; [reflexivity|]. split; [reflexivity|]. cbn [e_fs e_mkdir e_open].
       split; [left; auto|]. split; intros C; [apply spends_nil|apply (spends_own C (Some k :: op))]. }
  all: destruct p as [|p1 p]; [|rewrite Hp; destruct (fc (p1 :: p)) as [[|c]|] eqn:Fp; [|destruct (o_create_new o); [|destruct (o_truncate o)]|destruct (o_create_new o || o_create o)]];
    (eexists _, _, [], [None], _; split; [reflexivity|]; split; [reflexivity|]; cbn [set_fs e_fs e_mkdir e_open tl];
     split; [first [left; split; intros z; reflexivity|right; eexists; split; [congruence|split; intros z; reflexivity]]|];
     split; intros C; [apply spends_nil|first [apply (spends_own C [])|apply (spends_own C (None :: op))]]).
Qed.

Lemma same_write h b : same_call (do_write h b) (h_path h).
Proof.
  intros fc e g Hp. unfold do_write, file_put. cbn [set_fs e_fs e_w e_mkdir e_open]. rewrite Hp.
  destruct (e_w e) as [|[n|k] w]; [|destruct (Nat.min n (length b) =? 0)|]; try (destruct (fc (h_path h)) as [[|c]|] eqn:Fp);
  (eexists _, _, [], [], _; split; [reflexivity|]; split; [reflexivity|]; cbn [set_fs e_fs e_mkdir e_open];
   split; [first [left; split; intros z; reflexivity|right; eexists; split; [congruence|split; intros z; reflexivity]]|]; auto).
Qed.

Lemma open_path o p e h e' : open_file o p e = (inl h, e') -> h_path h = p.
Proof.
  unfold open_file. destruct (o_append o && o_truncate o && negb (o_create_new o)); [discriminate|].
  destruct (e_open e) as [|[k|] op]; try discriminate; (destruct p as [|p1 p]; [discriminate|]);
  destruct (e_fs e (p1 :: p)) as [[|c]|]; try discriminate;
  destruct (o_create_new o); try discriminate; cbn [orb];
  try (destruct (o_create o)); try discriminate; intros H; injection H as <- <-; reflexivity.
Qed.

Lemma write_path h b e x h' e' : do_write h b e = (x, h', e') -> h_path h' = h_path h.
Proof.
  unfold do_write, file_put. destruct (e_w e) as [|[n|k] w]; [|destruct (Nat.min n (length b) =? 0)|]; cbn [e_fs];
  try (destruct (e_fs e (h_path h)) as [[|c]|]); intros H; injection H as _ <- _; reflexivity.
Qed.

(** ** All orders of calls *)

Section Lives.
Context {A : Type} (t : path) (s0 : pool A) (T : nat -> path -> Prop) (Q : nat -> phase -> A -> Prop).
Context (Base : forall a b, t = a ++ b -> a <> [] -> fst s0 a = Some NDir).
Context (Tree : forall c b, fst s0 (t ++ c :: b) <> None -> fst s0 (t ++ [c]) <> None).

(** A name for a temporary directory that another one may also try. *)
Definition met (i : nat) : Prop := exists p k, k <> i /\ T i p /\ T k p.

Definition one_ok (s : pool A) (ph : phase) (g : fs) (i : nat) (q0 : prog A) (e0 : env) (q : prog A) (e : env) : Prop :=
  confined t (T i) ph q (Q i) /\
  (exists mkp opp, (forall mk op, solo q0 (mkEnv (fst s0) (e_w e0) (mkp ++ mk) (opp ++ op)) = solo q (mkEnv g (e_w e) mk op)) /\
     spends (taken (met i)) mkp (e_mkdir e0) (e_mkdir e) /\ spends never opp (e_open e0) (e_open e)) /\
  match ph with
  | Owns r => (T i r /\ exists c, r = t ++ [c]) /\ fst s0 r = None /\ g r = Some NDir /\ (forall b, fst s (r ++ b) = g (r ++ b)) /\
      forall p, (forall b, p <> r ++ b) -> g p = fst s0 p
  | _ => forall p, g p = fst s0 p
  end.

Definition all_ok (s : pool A) (ph : nat -> phase) (G : nat -> fs) : Prop :=
  (forall p, ~ inside t p -> fst s p = fst s0 p) /\
  (forall p n, fst s0 p = Some n -> fst s p = Some n) /\
  (forall c b, fst s (t ++ c :: b) <> None -> fst s (t ++ [c]) <> None) /\
  (forall i j r, ph i = Owns r -> ph j = Owns r -> i = j) /\
  (forall p n, fst s p = Some n -> fst s0 p = Some n \/ exists i r b, ph i = Owns r /\ p = r ++ b) /\
  length (snd s) = length (snd s0) /\
  (forall i r, ph i = Owns r -> i < length (snd s0)) /\
  forall i q0 e0 q e, nth_error (snd s0) i = Some (q0, e0) -> nth_error (snd s) i = Some (q, e) -> one_ok s (ph i) (G i) i q0 e0 q e.

Definition at_i {X} (i : nat) (x : X) (f : nat -> X) (j : nat) : X := if Nat.eq_dec j i then x else f j.

Lemma at_same {X} i (x : X) f : at_i i x f i = x.
Proof. unfold at_i. destruct (Nat.eq_dec i i); congruence. Qed.
Lemma at_other {X} i (x : X) f j : j <> i -> at_i i x f j = f j.
Proof. unfold at_i. destruct (Nat.eq_dec j i); congruence. Qed.

(** The owner of a directory is there. *)
Lemma owner s ph G i r : all_ok s ph G -> ph i = Owns r ->
  (T i r /\ exists c, r = t ++ [c]) /\ fst s0 r = None /\ G i r = Some NDir /\ (forall b, fst s (r ++ b) = G i (r ++ b)) /\
  forall p, (forall b, p <> r ++ b) -> G i p = fst s0 p.
Proof.
  intros (_ & _ & _ & _ & _ & Len & Rng & Th) E. pose proof (Rng _ _ E) as Li.
  destruct (nth_error (snd s0) i) as [[q0 e0]|] eqn:N0; [|apply nth_error_None in N0; lia].
  destruct (nth_error (snd s) i) as [[q e]|] eqn:N1; [|apply nth_error_None in N1; lia].
  destruct (Th _ _ _ _ _ N0 N1) as (_ & _ & K). rewrite E in K. exact K.
Qed.

Lemma root_split c c' b b' : t ++ [c] ++ b = t ++ [c'] ++ b' -> c = c' /\ b = b'.
Proof. intros H. apply app_inv_head in H. cbn in H. injection H as -> ->. auto. Qed.

(** A call that changes nothing but paths of the directory [r]. *)
Lemma act s ph G i q0 e0 q e q' e' r ph' g' : all_ok s ph G ->
  nth_error (snd s0) i = Some (q0, e0) -> nth_error (snd s) i = Some (q, e) -> step q (set_fs (fst s) e) = (q', e') ->
  (exists c, r = t ++ [c]) -> fst s0 r = None -> (forall j, j <> i -> ph j <> Owns r) -> (forall r', ph i = Owns r' -> r' = r) ->
  (forall p, (forall b, p <> r ++ b) -> e_fs e' p = fst s p) -> (forall b, e_fs e' (r ++ b) <> None -> e_fs e' r <> None) ->
  (ph' = Owns r \/ (ph' = Gone /\ forall b, e_fs e' (r ++ b) = None)) ->
  (forall s', fst s' = e_fs e' -> one_ok s' ph' g' i q0 e0 q' e') ->
  all_ok (turn i s) (at_i i ph' ph) (at_i i g' G).
Proof.
  intros Ok N0 N1 St [c Ec] Fr Oth Own Out Reg Hph Ne. pose proof Ok as (A1 & A2 & A3 & A4 & A5 & A6 & A7 & A8).
  assert (Li : i < length (snd s0)) by (apply nth_error_Some; congruence).
  assert (Tn : turn i s = (e_fs e', set_nth i (q', e') (snd s))) by (unfold turn; now rewrite N1, St).
  assert (Dec : forall p, (exists b, p = r ++ b) \/ forall b, p <> r ++ b).
  { intros p. destruct (path_eq_dec (firstn (length r) p) r) as [E|E].
    - left. exists (skipn (length r) p). rewrite <- E at 1. now rewrite firstn_skipn.
    - right. intros b ->. apply E. rewrite firstn_app, Nat.sub_diag, firstn_all, firstn_O. apply app_nil_r. }
  assert (F0 : forall b, fst s0 (r ++ b) = None).
  { intros b. destruct (fst s0 (r ++ b)) eqn:E; auto. exfalso. subst r. rewrite <- app_assoc in E. cbn in E.
    apply (Tree c b); [congruence|auto]. }
  rewrite Tn. split; [|split; [|split; [|split; [|split; [|split; [|split]]]]]]; cbn [fst snd].
  - intros p Np. rewrite Out; auto. intros b ->. apply Np. subst r. exists c, b. now rewrite <- app_assoc.
  - intros p n Hp. destruct (Dec p) as [[b ->]|D]; [rewrite F0 in Hp; discriminate|]. rewrite Out; auto.
  - intros c' b H. destruct (list_eq_dec N.eq_dec c' c) as [->|Nc].
    + rewrite <- Ec. apply (Reg b). subst r. now rewrite <- app_assoc.
    + assert (D : forall b', (t ++ c' :: b') <> r ++ b').
      { intros b' E. subst r. rewrite <- app_assoc in E. apply (root_split c' c) in E. tauto. }
      assert (D2 : forall b1 b2, (t ++ c' :: b1) <> r ++ b2).
      { intros b1 b2 E. subst r. rewrite <- app_assoc in E. apply (root_split c' c) in E. tauto. }
      rewrite Out in H by (intros b2; apply D2). rewrite Out by (intros b2; apply D2). eauto.
  - assert (Q1 : forall j r', j <> i -> ph j = Owns r' -> ph' <> Owns r').
    { intros j r' Nj Pj Pi. destruct Hph as [-> |[-> _]]; [|discriminate]. injection Pi as ->. eapply Oth; eauto. }
    intros j k r' Hj Hk. destruct (Nat.eq_dec j i) as [->|Nj], (Nat.eq_dec k i) as [->|Nk]; auto.
    + rewrite at_same in Hj. rewrite at_other in Hk by auto. exfalso. eapply Q1; eauto.
    + rewrite at_same in Hk. rewrite at_other in Hj by auto. exfalso. eapply Q1; eauto.
    + rewrite at_other in Hj, Hk by auto. eauto.
  - intros p n Hp. destruct (Dec p) as [[b ->]|D].
    + destruct Hph as [-> |[_ Hn]]; [right; exists i, r, b; rewrite at_same; auto|rewrite Hn in Hp; discriminate].
    + rewrite Out in Hp by auto. destruct (A5 _ _ Hp) as [|(j & r' & b & Pj & ->)]; auto. right. exists j, r', b. split; auto.
      rewrite at_other; auto. intros ->. rewrite (Own _ Pj) in D. eapply D; reflexivity.
  - now rewrite set_length.
  - intros j r' Hj. destruct (Nat.eq_dec j i) as [->|Nj]; auto. rewrite at_other in Hj by auto. eauto.
  - intros j qa ea qb eb Na Nb. rewrite nth_set in Nb. destruct (Nat.eq_dec i j) as [<-|Nj].
    + rewrite N1 in Nb. injection Nb as <- <-. rewrite N0 in Na. injection Na as <- <-. rewrite !at_same. now apply Ne.
    + rewrite !at_other by auto. destruct (A8 _ _ _ _ _ Na Nb) as (B1 & B2 & B3). split; auto. split; auto.
      destruct (ph j) as [|r'|] eqn:Pj; auto. destruct B3 as ([Tr [c' Ec']] & B4 & B5 & B6 & B7). split; [eauto|]. split; auto. split; auto. split; auto.
      intros b. cbn [fst]. rewrite <- B6. apply Out. intros b' E. apply (Oth j); [auto|]. rewrite Pj. f_equal.
      subst r r'. rewrite <- !app_assoc in E. apply root_split in E as [-> _]. reflexivity.
Qed.

(** A call that changes nothing. *)
Lemma idle s ph G i q0 e0 q e q' e' : all_ok s ph G ->
  nth_error (snd s0) i = Some (q0, e0) -> nth_error (snd s) i = Some (q, e) -> step q (set_fs (fst s) e) = (q', e') ->
  (forall p, e_fs e' p = fst s p) -> (forall s', fst s' = e_fs e' -> one_ok s' (ph i) (G i) i q0 e0 q' e') ->
  all_ok (turn i s) ph G.
Proof.
  intros (A1 & A2 & A3 & A4 & A5 & A6 & A7 & A8) N0 N1 St Out Ne.
  assert (Tn : turn i s = (e_fs e', set_nth i (q', e') (snd s))) by (unfold turn; now rewrite N1, St).
  rewrite Tn. split; [|split; [|split; [|split; [|split; [|split; [|split]]]]]]; cbn [fst snd]; auto.
  - intros p Np. rewrite Out. auto.
  - intros p n Hp. rewrite Out. auto.
  - intros c b. rewrite !Out. apply A3.
  - intros p n. rewrite Out. auto.
  - now rewrite set_length.
  - intros j qa ea qb eb Na Nb. rewrite nth_set in Nb. destruct (Nat.eq_dec i j) as [<-|Nj].
    + rewrite N1 in Nb. injection Nb as <- <-. rewrite N0 in Na. injection Na as <- <-. now apply Ne.
    + destruct (A8 _ _ _ _ _ Na Nb) as (B1 & B2 & B3). split; auto. split; auto.
      destruct (ph j) as [|r'|] eqn:Pj; auto. destruct B3 as (B3 & B4 & B5 & B6 & B7). split; auto. split; auto. split; auto. split; auto.
      intros b. cbn [fst]. rewrite Out. auto.
Qed.

Lemma below_iff p q : below p q = true <-> exists b, q = p ++ b.
Proof.
  unfold below. destruct (path_eq_dec (firstn (length p) q) p) as [E|E]; split; auto; try discriminate.
  - intros _. exists (skipn (length p) q). rewrite <- E at 1. now rewrite firstn_skipn.
  - intros [b ->]. exfalso. apply E. rewrite firstn_app, Nat.sub_diag, firstn_all, firstn_O. apply app_nil_r.
Qed.

Lemma not_inside_base a b : t = a ++ b -> ~ inside t a.
Proof. intros E (c & d & E2). apply (f_equal (@length _)) in E, E2. rewrite app_length in *. cbn [length] in E2. lia. Qed.

Lemma turn_lives s ph G i : all_ok s ph G -> exists ph' G', all_ok (turn i s) ph' G'.
Proof.
  intros Ok. destruct (nth_error (snd s) i) as [[q e]|] eqn:N1; [|exists ph, G; unfold turn; now rewrite N1].
  pose proof Ok as (A1 & A2 & A3 & A4 & A5 & A6 & A7 & A8).
  destruct (nth_error (snd s0) i) as [[q0 e0]|] eqn:N0.
  2: { apply nth_error_None in N0. assert (i < length (snd s)) by (apply nth_error_Some; congruence). lia. }
  destruct (A8 _ _ _ _ _ N0 N1) as (Cf & (mkp & opp & Eq & Nf) & Own).
  destruct (step q (set_fs (fst s) e)) as [q' e'] eqn:St.
  (* the solo run after a call *)
  assert (Next : forall q' e' g' mk0 op0,
     (forall mk op, solo q (mkEnv (G i) (e_w e) (mk0 ++ mk) (op0 ++ op)) = solo q' (mkEnv g' (e_w e') mk op)) ->
     spends (taken (met i)) mk0 (e_mkdir e) (e_mkdir e') -> spends never op0 (e_open e) (e_open e') ->
     exists mkp opp, (forall mk op, solo q0 (mkEnv (fst s0) (e_w e0) (mkp ++ mk) (opp ++ op)) = solo q' (mkEnv g' (e_w e') mk op)) /\
       spends (taken (met i)) mkp (e_mkdir e0) (e_mkdir e') /\ spends never opp (e_open e0) (e_open e')).
  { intros q1 e1 g1 mk0 op0 E1 E2 E3. exists (mkp ++ mk0), (opp ++ op0). split; [intros mk op; now rewrite <- !app_assoc, Eq|].
    destruct Nf as [F1 F2]. split; eapply spends_app; eauto. }
  (* a call at one path of its directory *)
  assert (Local : forall X (call : env -> X * env) (k : X -> prog A) p r, ph i = Owns r -> (exists b, p = r ++ b) -> same_call call p ->
     (forall e, step q e = let '(x, e1) := call e in (k x, e1)) -> (forall e, solo q e = let '(x, e1) := call e in solo (k x) e1) ->
     (forall x, call (set_fs (fst s) e) = (x, e') -> confined t (T i) (Owns r) (k x) (Q i)) ->
     exists ph' G', all_ok (turn i s) ph' G').
  { intros X call k p r Pi [b Hb] Sc Hst Hso Hcf. rewrite Pi in Own. destruct Own as ([Tr [c Ec]] & Fr & Gr & Reg & Rest).
    destruct (Sc (fst s) e (G i)) as (x & e1 & mk0 & op0 & g' & C1 & C2 & C3 & C4 & C5); [subst p; now rewrite Reg|].
    pose proof St as St'. rewrite Hst, C1 in St'. injection St' as <- <-.
    assert (Rt : g' r = Some NDir).
    { destruct C3 as [[_ C3]|(n & Nd & C3 & C3')]; [now rewrite C3|]. rewrite C3'. unfold upd. destruct (path_eq_dec r p) as [E|_]; auto.
      exfalso. apply Nd. now rewrite <- E. }
    assert (Rg : forall b, e_fs e1 (r ++ b) = g' (r ++ b)).
    { intros b'. destruct C3 as [[C3 C3']|(n & Nd & C3 & C3')]; rewrite C3, C3'; auto. unfold upd. destruct (path_eq_dec (r ++ b') p); auto. }
    exists (at_i i (Owns r) ph), (at_i i g' G). apply act with (q0 := q0) (e0 := e0) (q := q) (e := e) (q' := k x) (e' := e1) (r := r); auto.
    - eauto.
    - intros j Nj Pj. apply Nj. eapply A4; eauto.
    - intros r' Pr. congruence.
    - intros z Nz. destruct C3 as [[C3 _]|(n & _ & C3 & _)]; rewrite C3; auto. unfold upd. destruct (path_eq_dec z p) as [->|_]; auto. exfalso. eapply Nz; eauto.
    - intros b' _. specialize (Rg []). rewrite app_nil_r in Rg. rewrite Rg, Rt. discriminate.
    - intros s' Es. split; [auto|]. split.
      + apply (Next _ _ _ mk0 op0).
        * intros mk op. rewrite Hso, C2. reflexivity.
        * apply C4.
        * apply C5.
      + split; [eauto|]. split; auto. split; auto. rewrite Es. split; auto.
        intros z Nz. destruct C3 as [[_ C3]|(n & _ & _ & C3)]; rewrite C3; auto. unfold upd. destruct (path_eq_dec z p) as [->|_]; auto. exfalso. eapply Nz; eauto. }
  (* no change *)
  assert (Still : forall x e1, e' = e1 -> (forall z, e_fs e1 z = fst s z) -> e_w e1 = e_w e -> q' = x -> confined t (T i) (ph i) x (Q i) -> forall mk0 op0,
     (forall mk op, solo q (mkEnv (G i) (e_w e) (mk0 ++ mk) (op0 ++ op)) = solo x (mkEnv (G i) (e_w e) mk op)) ->
     spends (taken (met i)) mk0 (e_mkdir e) (e_mkdir e1) -> spends never op0 (e_open e) (e_open e1) ->
     exists ph' G', all_ok (turn i s) ph' G').
  { intros x e1 <- Fe We <- Cx mk0 op0 Sx Nx Px. exists ph, G. apply idle with (q0 := q0) (e0 := e0) (q := q) (e := e) (q' := q') (e' := e'); auto.
    intros s' Es. split; auto. split; [apply (Next _ _ _ mk0 op0); auto; now rewrite We|].
    destruct (ph i) as [|r|]; auto. rewrite Es. destruct Own as (O1 & O2 & O3 & O4 & O5). repeat (split; auto). intros b. now rewrite Fe. }
  destruct q as [a|p l k|o p k|h b k|p k|ev p k|p k]; cbn [confined] in Cf.
  - cbn [step] in St. injection St as <- <-. apply (Still (PRet a) (set_fs (fst s) e) eq_refl) with (mk0 := []) (op0 := []); auto.
  - destruct Cf as [(r & Pi & [(Np & a & Ea)|Hb]) Ck].
    + assert (Gp : G i p = Some NDir).
      { rewrite Pi in Own. destruct Own as ([Tr [c Ec]] & _ & _ & _ & Rest). rewrite Rest; [eapply Base; eauto|].
        intros b ->. apply (not_inside_base _ _ Ea). subst r. exists c, b. now rewrite <- app_assoc. }
      assert (Sp : fst s p = Some NDir) by (rewrite A1; [eapply Base; eauto|eapply not_inside_base; eauto]).
      cbn [step] in St. unfold do_dir in St. cbn [set_fs e_fs] in St. rewrite Sp in St. injection St as <- <-.
      apply (Still (k None) (set_fs (fst s) e) eq_refl) with (mk0 := []) (op0 := []); auto.
      intros mk op. cbn [solo app]. unfold do_dir. cbn [e_fs]. now rewrite Gp.
    + apply (Local _ (do_dir p l) k p r Pi Hb (same_dir p l)); auto. intros x _. rewrite <- Pi. auto.
  - destruct Cf as [(r & Pi & c & b & Ep) [Ck1 Ck2]]. apply (Local _ (open_file o p) k p r Pi); eauto.
    + apply same_open.
    + intros [h|x] Hc; rewrite <- Pi; auto. apply Ck1. eapply open_path; eauto.
  - destruct Cf as [(r & Pi & c & b' & Ep) Ck]. apply (Local _ (do_write h b) k (h_path h) r Pi); eauto.
    + apply same_write.
    + intros [x h'] Hc; rewrite <- Pi. apply Ck. eapply write_path; eauto.
  - destruct Cf as (Pi & [Tp [c Ep]] & Ck1 & Ck2). rewrite Pi in Own. cbn [step] in St.
    assert (Rl : removelast p = t) by (subst p; apply removelast_last).
    assert (Cd : forall f w mk op, (t <> [] -> f t = Some NDir) -> create_dir p (mkEnv f w mk op) =
       match f p with
       | Some _ => (Some KAlreadyExists, mkEnv f w mk op)
       | None => match mk with
          | Some k :: m => (Some k, mkEnv f w m op)
          | None :: m => (None, mkEnv (upd f p (Some NDir)) w m op)
          | [] => (None, mkEnv (upd f p (Some NDir)) w [] op)
          end
       end).
    { intros f w mk op Ht. unfold create_dir. rewrite Rl. cbn [e_fs e_mkdir e_w e_open set_fs]. destruct t as [|t1 t']; [|rewrite Ht by discriminate]; destruct (f p), mk as [|[]]; reflexivity. }
    assert (T0 : t <> [] -> fst s0 t = Some NDir) by (intros Nt; apply (Base t []); [symmetry; apply app_nil_r|auto]).
    assert (Ts : t <> [] -> fst s t = Some NDir).
    { intros Nt. rewrite A1; auto. apply (not_inside_base t []). symmetry; apply app_nil_r. }
    assert (Tg : t <> [] -> G i t = Some NDir) by (intros Nt; rewrite Own; auto).
    destruct e as [ef ew em eo]. unfold set_fs in St. cbn [e_w e_mkdir e_open] in St. rewrite (Cd _ _ _ _ Ts) in St.
    destruct (fst s p) as [n|] eqn:Sp.
    + injection St as <- <-. destruct (fst s0 p) as [n0|] eqn:S0p.
      * apply (Still (k (Some KAlreadyExists)) _ eq_refl) with (mk0 := []) (op0 := []); auto; [now rewrite Pi|].
        intros mk op. cbn [solo app e_w]. now rewrite (Cd _ _ _ _ Tg), Own, S0p.
      * apply (Still (k (Some KAlreadyExists)) _ eq_refl) with (mk0 := [Some KAlreadyExists]) (op0 := []); auto; [now rewrite Pi| |].
        2: { cbn [e_mkdir]. apply spends_more. split; auto.
             destruct (A5 _ _ Sp) as [X|(j & r & b & Pj & Eb)]; [congruence|].
             destruct (owner _ _ _ _ _ Ok Pj) as ((Tj & c' & Er) & _). exists p, j. split; [intros ->; congruence|]. split; auto.
             replace p with r; auto. subst r. rewrite Ep, <- app_assoc in Eb. apply (root_split c c' []) in Eb as [-> _]. auto. }
        intros mk op. cbn [solo app e_w]. now rewrite (Cd _ _ _ _ Tg), Own, S0p.
    + assert (S0p : fst s0 p = None) by (destruct (fst s0 p) eqn:E; auto; apply A2 in E; congruence).
      assert (Made : forall mk0 em', q' = k None -> e' = mkEnv (upd (fst s) p (Some NDir)) ew em' eo ->
        (forall mk op, create_dir p (mkEnv (G i) ew (mk0 ++ mk) op) = (None, mkEnv (upd (G i) p (Some NDir)) ew mk op)) ->
        spends (taken (met i)) mk0 em em' -> exists ph' G', all_ok (turn i s) ph' G').
      { intros mk0 em' Eq' Ee' Cg Hm. exists (at_i i (Owns p) ph), (at_i i (upd (G i) p (Some NDir)) G).
        apply act with (q0 := q0) (e0 := e0) (q := PTemp p k) (e := mkEnv ef ew em eo) (q' := q') (e' := e') (r := p); auto.
        - unfold set_fs. cbn [step e_w e_mkdir e_open]. rewrite (Cd _ _ _ _ Ts), Sp. exact St.
        - eauto.
        - intros j Nj Pj. destruct (owner _ _ _ _ _ Ok Pj) as (_ & _ & Gj & Rj & _). specialize (Rj []). rewrite app_nil_r in Rj. congruence.
        - congruence.
        - intros z Nz. subst e'. cbn [e_fs]. unfold upd. destruct (path_eq_dec z p) as [->|_]; auto. exfalso. apply (Nz []). symmetry; apply app_nil_r.
        - intros b _. subst e'. cbn [e_fs]. unfold upd. destruct (path_eq_dec p p); [discriminate|congruence].
        - intros s' Es. subst q'. split; auto. split.
          + apply (Next _ _ _ mk0 []).
            * intros mk op. cbn [solo app e_w]. rewrite Cg. subst e'. reflexivity.
            * subst e'. exact Hm.
            * subst e'. apply spends_nil.
          + split; [eauto|]. split; auto. split; [unfold upd; destruct (path_eq_dec p p); congruence|]. split.
            * intros b. rewrite Es. subst e'. cbn [e_fs]. unfold upd. destruct (path_eq_dec (p ++ b) p); auto.
              rewrite Own. destruct (fst s0 (p ++ b)) eqn:E0.
              { exfalso. subst p. rewrite <- app_assoc in E0. cbn in E0. apply (Tree c b); congruence. }
              destruct (fst s (p ++ b)) eqn:E1; auto. exfalso. subst p. rewrite <- app_assoc in E1. cbn in E1. apply (A3 c b); congruence.
            * intros z Nz. unfold upd. destruct (path_eq_dec z p) as [->|_]; auto. exfalso. apply (Nz []). symmetry; apply app_nil_r. }
      destruct em as [|[y|] m]; injection St as <- <-.
      * apply (Made [None] []); auto; [|apply (spends_own _ [])]. intros mk op. cbn [app]. now rewrite (Cd _ _ _ _ Tg), Own, S0p.
      * apply (Still (k (Some y)) _ eq_refl) with (mk0 := [Some y]) (op0 := []); auto; [now rewrite Pi| |apply (spends_own _ (Some y :: m))].
        intros mk op. cbn [solo app e_w]. now rewrite (Cd _ _ _ _ Tg), Own, S0p.
      * apply (Made [None] m); auto; [|apply (spends_own _ (None :: m))]. intros mk op. cbn [app]. now rewrite (Cd _ _ _ _ Tg), Own, S0p.
  - destruct Cf as (Pi & Ty & Ck). rewrite Pi in Own. destruct Own as ([Tr [c Ec]] & Fr & Gr & Reg & Rest).
    assert (Sr : fst s p = Some NDir) by (specialize (Reg []); rewrite app_nil_r in Reg; congruence).
    assert (F0 : forall b, fst s0 (p ++ b) = None).
    { intros b. destruct (fst s0 (p ++ b)) eqn:E; auto. exfalso. rewrite Ec, <- app_assoc in E. cbn in E.
      apply (Tree c b); [congruence|]. now rewrite <- Ec. }
    assert (Bl : forall b, below p (p ++ b) = true) by (intros b; apply below_iff; eauto).
    assert (Nb : forall z, (forall b, z <> p ++ b) -> below p z = false).
    { intros z Nz. destruct (below p z) eqn:E; auto. apply below_iff in E as [b ->]. exfalso. eapply Nz; eauto. }
    set (cut := fun z => below p z && negb (match ev with RmOk => false | RmFail _ kept => kept z end)).
    set (x := match ev with RmOk => None | RmFail k _ => Some k end).
    assert (Rm : forall f, f p = Some NDir -> exists f', remove_dir_all ev p f = (x, f') /\ forall z, f' z = if cut z then None else f z).
    { intros f Hf. unfold remove_dir_all, x, cut. destruct ev as [|y kept].
      - rewrite Hf. eexists. split; [reflexivity|]. intros z. cbn [negb]. now rewrite andb_true_r.
      - eexists. split; [reflexivity|]. reflexivity. }
    destruct (Rm _ Sr) as (f' & R1 & F1), (Rm _ Gr) as (g' & R2 & G1).
    cbn [step] in St. unfold do_remove in St. cbn [set_fs e_fs] in St. rewrite R1 in St. cbn [set_fs e_w e_mkdir e_open] in St. injection St as <- <-.
    exists (at_i i (after ev p) ph), (at_i i g' G).
    assert (Cp : forall z, (forall b, z <> p ++ b) -> cut z = false) by (intros z Nz; unfold cut; now rewrite Nb).
    assert (Go : after ev p = Owns p /\ cut p = false \/ after ev p = Gone /\ forall b, cut (p ++ b) = true).
    { unfold after, cut. destruct ev as [|y kept]; [right; split; auto; intros b; now rewrite Bl|].
      destruct (kept p) eqn:Kp; [left; split; auto; apply andb_false_r|]. right. split; auto. intros b. rewrite Bl.
      destruct (kept (p ++ b)) eqn:Kb; auto. rewrite (Ty _ (Bl b) Kb) in Kp. discriminate. }
    apply act with (q0 := q0) (e0 := e0) (q := PRemove ev p k) (e := e) (q' := k x) (e' := mkEnv f' (e_w e) (e_mkdir e) (e_open e)) (r := p); auto.
    + cbn [step]. unfold do_remove. cbn [set_fs e_fs]. now rewrite R1.
    + eauto.
    + intros j' Nj Pj. apply Nj. eapply A4; eauto.
    + congruence.
    + intros z Nz. cbn [e_fs]. now rewrite F1, Cp.
    + intros b. cbn [e_fs]. rewrite !F1. destruct Go as [[_ ->]|[_ Ca]]; [rewrite Sr; discriminate|]. rewrite Ca. congruence.
    + destruct Go as [[-> _]|[-> Ca]]; auto. right. split; auto. intros b. cbn [e_fs]. now rewrite F1, Ca.
    + intros s' Es. split; auto. split.
      * apply (Next _ _ _ [] []); auto. intros mk op. cbn [solo app e_w]. unfold do_remove. cbn [e_fs]. now rewrite R2.
      * destruct Go as [[-> Ca]|[-> Ca]].
        -- split; [eauto|]. split; auto. split; [now rewrite G1, Ca|]. rewrite Es. cbn [e_fs]. split; [intros b; now rewrite F1, G1, Reg|].
           intros z Nz. rewrite G1, Cp; auto.
        -- intros z. rewrite G1. destruct (below p z) eqn:E; [apply below_iff in E as [b ->]; now rewrite Ca, F0|].
           unfold cut. rewrite E. cbn [andb]. apply Rest. intros b ->. now rewrite Bl in E.
  - destruct Cf as [(r & b & Pi & Ep) Ck]. cbn [step set_fs e_fs] in St. injection St as <- <-.
    apply (Still (k (fst s p)) (set_fs (fst s) e) eq_refl) with (mk0 := []) (op0 := []); auto.
    intros mk op. cbn [solo e_fs app]. rewrite Pi in Own. destruct Own as (_ & _ & _ & Reg & _). subst p. now rewrite Reg.
Qed.

Lemma lives_all : (forall i q e, nth_error (snd s0) i = Some (q, e) -> confined t (T i) Before q (Q i)) ->
  forall h, exists ph G, all_ok (turns h s0) ph G.
Proof.
  intros H0 h. assert (K : forall h s, (exists ph G, all_ok s ph G) -> exists ph G, all_ok (turns h s) ph G).
  { clear h. induction h as [|i h IH]; intros s (ph & G & Ok); cbn [turns]; [eauto|]. apply IH. eapply turn_lives; eauto. }
  apply K. exists (fun _ => Before), (fun _ => fst s0).
  split; [|split; [|split; [|split; [|split; [|split; [|split]]]]]]; auto; try discriminate.
  intros i q0 e0 q e N0 N1. rewrite N0 in N1. injection N1 as <- <-. split; eauto. split; auto.
  exists [], []. split; auto.
Qed.

End Lives.
