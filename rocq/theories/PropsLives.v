(** Property theorems about requests with temporary directories at the same time (C104). *)

From Verif Require Import Bytes BytesProofs Spec Io Boundary BoundaryProofs Utf8 Utf8Proofs Httparse Field FieldProofs
  ContentProofs DataProofs ShortProofs EntryProofs ReaderProofs Drive DriveProofs ReachProofs Toy PropsReader Rand Fs Save Savedir SaveProofs
  PhaseProofs SaveFacts TextProofs PropsSave EntriesProofs CompleteProofs PropsEntries PropsSavedir PropsAny Together TogetherProofs PropsTogether Lives LivesProofs.

(** A usable directory for temporary files: it and all above it are directories, and nothing lies in an entry that does not exist. *)
Definition usable (t : path) (f : fs) : Prop :=
  (forall a b, t = a ++ b -> a <> [] -> f a = Some NDir) /\
  forall c b, f (t ++ c :: b) <> None -> f (t ++ [c]) <> None.

(** Requests whose directories are made in [t], with files opened by [create_new]; a removal that fails leaves no path without the
    directories above it. *)
Definition in_base (t : path) (ls : list (life * env)) : Prop :=
  forall l e, In (l, e) ls -> l_base l = t /\ o_create_new (s_opts (l_saver l)) = true /\
    match l_rm l with RmOk => True | RmFail _ kept => forall p b, kept (p ++ b) = true -> kept p = true end.

(** The directory of this life is removed at the end. *)
Definition cleared (l : life) : Prop := l_rm l = RmOk /\ (l_end l = EDelete \/ (l_end l = EDrop /\ ~ In OKeep (l_ops l))).

Lemma cleared_drops l : cleared l -> drops l = true.
Proof.
  intros [Hr He]. unfold drops. rewrite Hr. destruct He as [-> |[-> Ho]]; [reflexivity|]. rewrite steps_state.
  destruct (in_dec _ OKeep (l_ops l)); [contradiction|reflexivity].
Qed.

Lemma born_nth ML f ls i l e : nth_error ls i = Some (l, e) -> nth_error (snd (born ML f ls)) i = Some (plife ML (S (length (e_w e))) l, e).
Proof. intros H. unfold born. cbn [snd]. now rewrite nth_error_map, H. Qed.

(** The directory names that a life may try: the prefix and six letters or digits from its samples. *)
Definition tries_name (l : life) (p : path) : Prop :=
  exists k, k < l_tries l /\ p = l_base l ++ [l_prefix l ++ fst (random_alphanumeric 6 (skipn (6 * k) (l_rng l)))].

Definition names_at (ls : list (life * env)) (i : nat) (p : path) : Prop :=
  match nth_error ls i with Some (l, _) => tries_name l p | None => False end.

Lemma born_ok ML t f ls : usable t f -> in_base t ls -> forall sched, exists ph G,
  all_ok t (born ML f ls) (names_at ls) (fun i ph _ => forall l e, nth_error ls i = Some (l, e) -> cleared l -> forall r, ph <> Owns r) (turns sched (born ML f ls)) ph G.
Proof.
  intros [U1 U2] B sched. apply lives_all; auto. intros i q e. unfold born. cbn [snd]. rewrite nth_error_map.
  destruct (nth_error ls i) as [[l e1]|] eqn:N; [|discriminate]. intros H; injection H as <- <-.
  destruct (B l e1 (nth_error_In _ _ N)) as (<- & Ho & Ht).
  replace (names_at ls i) with (temp_names l) by (unfold names_at; now rewrite N).
  eapply confined_weaken; [|apply confined_life; auto].
  - cbn beta. intros ph a K l' e' E Cl. injection E as <- <-. apply K. now apply cleared_drops.
  - intros p. destruct (l_rm l) as [|k kept]; cbn [tidy]; auto. intros q Hb Hk. apply below_iff in Hb as [b ->]. eauto.
Qed.

(** Nothing but the entries of [t] changes, and of these only the new ones.  A life that is over went as on its own, where the disk may have said
    for some directory names that they exist, and only if another life tries the same one; what fails otherwise is what its own disk
    said would, in this order.  [E i] is the disk of such a run: it is part of the common one, the new paths of two lives are
    different, and nothing else is new. *)
Theorem C104_alone : forall ML t f ls sched, usable t f -> in_base t ls ->
  let s := turns sched (born ML f ls) in
  (forall p, (forall c b, p <> t ++ c :: b) -> fst s p = f p) /\
  (forall p n, f p = Some n -> fst s p = Some n) /\
  exists E : nat -> fs,
    (forall i l e a e1, nth_error ls i = Some (l, e) -> nth_error (snd s) i = Some (PRet a, e1) ->
       exists mk op e', run_life ML l (mkEnv f (e_w e) mk op) = (a, e') /\ (forall p, e_fs e' p = E i p) /\
         hears (taken (exists p k l' e', k <> i /\ nth_error ls k = Some (l', e') /\ tries_name l p /\ tries_name l' p)) mk (e_mkdir e) /\
         hears never op (e_open e)) /\
    (forall i p n, i < length ls -> E i p = Some n -> fst s p = Some n) /\
    (forall i k p, i < length ls -> k < length ls -> i <> k -> f p = None -> E i p <> None -> E k p = None) /\
    forall p n, fst s p = Some n -> f p = Some n \/ exists i, i < length ls /\ E i p = Some n.
Proof.
  intros ML t f ls sched U B s. destruct (born_ok ML t f ls U B sched) as (ph & G & Ok). fold s in Ok. pose proof Ok as (A1 & A2 & A3 & A4 & A5 & A6 & A7 & A8).
  assert (Len : length (snd (born ML f ls)) = length ls) by (unfold born; cbn [snd]; apply map_length).
  assert (Ph : forall i, i < length ls -> (exists r, ph i = Owns r) \/ forall p, G i p = f p).
  { intros i Li. destruct (nth_error ls i) as [[l e]|] eqn:N; [|apply nth_error_None in N; lia].
    destruct (nth_error (snd s) i) as [[q e1]|] eqn:N1; [|apply nth_error_None in N1; lia].
    destruct (A8 _ _ _ _ _ (born_nth ML f ls i l e N) N1) as (_ & _ & K). destruct (ph i) as [|r|]; eauto. }
  assert (Dec : forall r p : path, (exists b, p = r ++ b) \/ forall b, p <> r ++ b).
  { intros r p. destruct (below r p) eqn:E; [left; now apply below_iff|right]. intros b ->.
    assert (X : below r (r ++ b) = true) by (apply below_iff; eauto). congruence. }
  split; [|split; [exact A2|]].
  - intros p Np. apply A1. intros (c & b & ->). eapply Np; reflexivity.
  - exists G. split; [|split; [|split]].
    + intros i l e a e1 N N1. destruct (A8 _ _ _ _ _ (born_nth ML f ls i l e N) N1) as (_ & (mkp & opp & Eq & Nf) & _).
      specialize (Eq (e_mkdir e1) (e_open e1)). cbn [solo] in Eq.
      destruct Nf as [F1 F2]. specialize (F1 _ (hears_rest _ _)). specialize (F2 _ (hears_rest _ _)).
      set (mk := mkp ++ e_mkdir e1) in *. set (op := opp ++ e_open e1) in *. exists mk, op.
      pose proof (life_same ML (S (length (e_w e))) l (mkEnv f (e_w e) mk op) (mkEnv f (e_w e) mk op)) as K.
      destruct (run_life ML l (mkEnv f (e_w e) mk op)) as [a' e'].
      destruct K as (e2 & Q & F & _); [split; [apply esame_refl|cbn [e_w]; lia]|].
      cbn [fst born] in Eq. rewrite Eq in Q. injection Q as <- <-. exists e'. split; auto. split; [intros p; now rewrite <- F|].
      split; auto. eapply hears_weaken; [|exact F1]. intros x [-> (p & k & Nk & T1 & T2)]. split; auto. unfold names_at in T1, T2. rewrite N in T1.
      destruct (nth_error ls k) as [[l' e2']|] eqn:Nk2; [|contradiction]. exists p, k, l', e2'. auto.
    + intros i p n Li Ep. destruct (Ph i Li) as [[r Pi]|K]; [|apply A2; rewrite <- Ep; symmetry; apply K].
      destruct (owner _ (born ML f ls) _ _ (proj1 U) (proj2 U) _ _ _ _ _ Ok Pi) as (_ & _ & _ & Reg & Rest). destruct (Dec r p) as [[b ->]|D]; [now rewrite Reg|].
      apply A2. now rewrite <- (Rest p D).
    + intros i k p Li Lk Nik Fp Ei. destruct (Ph i Li) as [[r Pi]|K]; [|congruence]. destruct (Ph k Lk) as [[r' Pk]|K]; [|congruence].
      destruct (owner _ (born ML f ls) _ _ (proj1 U) (proj2 U) _ _ _ _ _ Ok Pi) as ([_ [c ->]] & _ & _ & Reg & Rest).
      destruct (owner _ (born ML f ls) _ _ (proj1 U) (proj2 U) _ _ _ _ _ Ok Pk) as ([_ [c' ->]] & _ & _ & Reg' & Rest').
      destruct (Dec (t ++ [c']) p) as [[b ->]|D]; [|rewrite Rest'; auto].
      destruct (G k ((t ++ [c']) ++ b)) eqn:Ek; auto. exfalso. destruct (Dec (t ++ [c]) ((t ++ [c']) ++ b)) as [[b' E]|D]; [|rewrite Rest in Ei; auto].
      rewrite <- !app_assoc in E. apply app_inv_head in E. injection E as -> _. apply Nik. eapply A4; eauto.
    + intros p n Hp. destruct (A5 _ _ Hp) as [|(i & r & b & Pi & ->)]; auto. right. exists i. pose proof (A7 _ _ Pi). split; [congruence|].
      destruct (owner _ (born ML f ls) _ _ (proj1 U) (proj2 U) _ _ _ _ _ Ok Pi) as (_ & _ & _ & Reg & _). now rewrite <- Reg.
Qed.

(** So a life whose directory names nobody else tries does not notice the others at all, and on the common disk has what it had
    alone. *)
Theorem C104_independent : forall ML t f ls sched i l e a e1, usable t f -> in_base t ls ->
  nth_error ls i = Some (l, e) ->
  (forall k l' e', k <> i -> nth_error ls k = Some (l', e') -> forall p, tries_name l p -> ~ tries_name l' p) ->
  nth_error (snd (turns sched (born ML f ls))) i = Some (PRet a, e1) ->
  exists e', run_life ML l (set_fs f e) = (a, e') /\
    forall p n, e_fs e' p = Some n -> fst (turns sched (born ML f ls)) p = Some n.
Proof.
  intros ML t f ls sched i l e a e1 U B N Apart N1. destruct (C104_alone ML t f ls sched U B) as (_ & _ & E & A & Sub & _).
  destruct (A _ _ _ _ _ N N1) as (mk & op & e' & Run & Fe & F1 & F2).
  apply hears_weaken with (Y := never) in F1; [|intros x [_ (p & k & l' & e2 & Nk & Nl & T1 & T2)]; eapply Apart; eauto].
  apply hears_alike in F1, F2.
  pose proof (life_same ML (S (length (e_w e))) l (mkEnv f (e_w e) mk op) (mkEnv f (e_w e) mk op)) as K. rewrite Run in K.
  destruct K as (e2 & S1 & Se & _); [split; [apply esame_refl|cbn [e_w]; lia]|].
  pose proof (life_same ML (S (length (e_w e))) l (set_fs f e) (set_fs f e)) as K.
  destruct (run_life ML l (set_fs f e)) as [a' e3] eqn:R.
  destruct K as (e4 & S2 & Se' & _); [split; [apply esame_refl|cbn [set_fs e_w]; lia]|].
  destruct (lulled_solo (plife ML (S (length (e_w e))) l) (mkEnv f (e_w e) mk op) (set_fs f e)) as [L1 L2]; [repeat split; auto|].
  rewrite S1, S2 in L1, L2. cbn [fst snd] in L1, L2. subst a'. exists e3. split; auto. intros p n Hp. apply (Sub i); [apply nth_error_Some; congruence|].
  destruct L2 as [L2 _]. rewrite <- Fe, <- Se, L2, Se'. exact Hp.
Qed.

(** What is new on the disk belongs to a life that is not over or does not clear its directory.  So when all are over and clear
    theirs, the disk is the one of the start. *)
Theorem C104_clear : forall ML t f ls sched, usable t f -> in_base t ls ->
  (forall p n, fst (turns sched (born ML f ls)) p = Some n -> f p = Some n \/
     exists i l e q e1, nth_error ls i = Some (l, e) /\ nth_error (snd (turns sched (born ML f ls))) i = Some (q, e1) /\
       ((forall a, q <> PRet a) \/ ~ cleared l)) /\
  ((forall i l e, nth_error ls i = Some (l, e) -> cleared l /\ exists a e1, nth_error (snd (turns sched (born ML f ls))) i = Some (PRet a, e1)) ->
   forall p, fst (turns sched (born ML f ls)) p = f p).
Proof.
  intros ML t f ls sched U B. destruct (born_ok ML t f ls U B sched) as (ph & G & (A1 & A2 & A3 & A4 & A5 & A6 & A7 & A8)).
  assert (Len : length (snd (born ML f ls)) = length ls) by (unfold born; cbn [snd]; apply map_length).
  assert (K : forall p n, fst (turns sched (born ML f ls)) p = Some n -> f p = Some n \/
     exists i l e q e1, nth_error ls i = Some (l, e) /\ nth_error (snd (turns sched (born ML f ls))) i = Some (q, e1) /\
       ((forall a, q <> PRet a) \/ ~ cleared l)).
  { intros p n Hp. destruct (A5 _ _ Hp) as [|(i & r & b & Pi & _)]; auto. right. pose proof (A7 _ _ Pi) as Li.
    destruct (nth_error ls i) as [[l e]|] eqn:N; [|apply nth_error_None in N; lia].
    destruct (nth_error (snd (turns sched (born ML f ls))) i) as [[q e1]|] eqn:N1; [|apply nth_error_None in N1; lia].
    destruct (A8 _ _ _ _ _ (born_nth ML f ls i l e N) N1) as (Cf & _). exists i, l, e, q, e1. split; auto. split; auto.
    destruct q; try (left; discriminate). right. cbn [confined] in Cf. rewrite Pi in Cf. intros Cl. eapply Cf; eauto. }
  split; [exact K|]. intros All p. destruct (fst (turns sched (born ML f ls)) p) as [n|] eqn:E.
  - destruct (K p n E) as [|(i & l & e & q & e1 & N & N1 & D)]; auto. destruct (All _ _ _ N) as (Cl & a & e2 & N2).
    rewrite N1 in N2. injection N2 as -> ->. destruct D as [D|D]; [|contradiction]. exfalso. eapply D; reflexivity.
  - destruct (f p) as [n|] eqn:F; auto. apply A2 in F. congruence.
Qed.

(** The fields that a life got, as it saw them when it read back: those of the body.  [F] is the disk where it looked; a
    directory that is kept is still so on the common disk, whatever the others do. *)
Theorem C104_seen : forall ML t f ls sched i l e u b x g' r' looks y e1 lst en',
  usable t f -> in_base t ls -> nth_error ls i = Some (l, e) ->
  nth_error (snd (turns sched (born ML f ls))) i = Some (PRet (AEntries ML x g' r', looks, y), e1) ->
  l_reader l = with_body u b -> live u -> s_opts (l_saver l) = default_opts ->
  parts (head_block ML (l_trim l) (delimiter b)) (delimiter b) (stream u) lst ->
  (x = Full en' \/ exists pe why, x = Part pe why /\ en' = pe_entries ML pe) ->
  exists F d rest name, en_dir ML en' = t ++ [l_prefix l ++ name] /\ length name = 6 /\
    looks = map (fun q => F (en_dir ML en' ++ q)) (l_looks l) /\
    lst = d ++ rest /\ (x = Full en' -> rest = []) /\
    (forall n, Forall2 (fun sf hc => saved_as F (sf_headers ML sf, sf_data ML sf) hc) (fields_at en' n) (filter (name_is n) d)) /\
    ((l_end l = EDrop /\ In OKeep (l_ops l)) \/ l_end l = EIntoPath ->
     forall n, Forall2 (fun sf hc => saved_as (fst (turns sched (born ML f ls))) (sf_headers ML sf, sf_data ML sf) hc)
       (fields_at en' n) (filter (name_is n) d)).
Proof.
  intros ML t f ls sched i l e u b x g' r' looks y e1 lst en' U B N N1 R L O P Hx.
  destruct (C104_alone ML t f ls sched U B) as (_ & _ & E & A & Sub & _).
  destruct (A _ _ _ _ _ N N1) as (mk & op & e' & Run & Fe & _). specialize (Sub i).
  destruct (B l e (nth_error_In _ _ N)) as (Bt & _). unfold run_life in Run. rewrite Bt, R in Run.
  destruct (tempdir_in (l_tries l) (l_prefix l) t (l_rng l) (mkEnv f (e_w e) mk op)) as [[[dir|k] g1] e2] eqn:T.
  2: { injection Run as <- _ _ _ _ _. destruct Hx as [Hx|(pe & why & Hx & _)]; discriminate. }
  apply tempdir_name in T as (name & -> & Ln & _).
  destruct (with_temp_dir ML (l_trim l) (l_saver l) (t ++ [l_prefix l ++ name]) (l_fuel l) g1 (with_body u b) e2) as [[[x1 g2] r1] e3] eqn:W.
  destruct (last_dir l (t ++ [l_prefix l ++ name]) x1) as [w d0] eqn:La.
  destruct (dir_finish w (l_rm l) d0 (e_fs e3)) as [y1 f1] eqn:Df. injection Run as -> _ _ Lk _ <-.
  unfold with_temp_dir in W.
  destruct (C76_request _ _ _ _ _ _ _ _ _ _ _ _ _ _ _ L O P W Hx) as (log & d & rest & E1 & E2 & F & Q).
  set (dir := t ++ [l_prefix l ++ name]) in *.
  assert (Ed : en_dir ML en' = dir) by (rewrite E1, pushes_dir; reflexivity).
  assert (Grp : forall G, (forall p n, e_fs e3 p = Some n -> G p = Some n) -> forall n,
    Forall2 (fun sf hc => saved_as G (sf_headers ML sf, sf_data ML sf) hc) (fields_at en' n) (filter (name_is n) d)).
  { intros G Sg n.
    assert (Wg : well_grouped (recount_fields ML (entries_new ML dir true))) by (split; constructor).
    destruct (C45_grouping ML _ log n Wg) as (_ & Fa & _). rewrite E1, Fa.
    replace (fields_at (recount_fields ML (entries_new ML dir true)) n) with (@nil (saved_field ML)) by reflexivity.
    cbn [app]. clear - F Sg. unfold named.
    induction F as [|hv hc log l [H1 (w & Rd & Pd)] F IH]; [constructor|]. cbn [filter]. unfold name_is at 1. rewrite H1.
    destruct (list_eq_dec N.eq_dec (fh_name ML (fst hc)) n); [|exact IH]. constructor; [|exact IH]. split; auto. exists w. split; auto.
    destruct hv as [h0 v0]. cbn [snd fst sf_data sf_headers] in *. destruct v0 as [v|v|p m]; cbn [readable] in *; auto.
    destruct (e_fs e3 p) as [[|v]|] eqn:Ep; try discriminate. now rewrite (Sg _ _ Ep). }
  exists (e_fs e3), d, rest, name. split; auto. split; auto. split; [now rewrite Ed|]. split; auto. split; auto. split; [auto|].
  intros K. apply Grp. intros p n Hp. apply Sub; [apply nth_error_Some; congruence|]. rewrite <- Fe. unfold set_fs. cbn [e_fs].
  assert (Lx : last_dir l dir x = (l_end l, snd (dir_steps (l_ops l) (Temp dir)))) by (destruct Hx as [->|(pe & why & -> & _)]; reflexivity).
  rewrite Lx in La. injection La as <- <-. rewrite C54_kept in Df.
  - injection Df as _ <-. exact Hp.
  - destruct K as [[_ K]|K]; auto.
  - destruct K as [[K _]|K]; rewrite K; discriminate.
Qed.

(** A life that gets a turn again and again comes to its end. *)
Theorem C104_fair : forall ML f ls (turn_of : nat -> nat) i, i < length ls -> (forall n, exists m, n <= m /\ turn_of m = i) ->
  exists n a, forall m, n <= m -> exists e, nth_error (snd (turns (map turn_of (seq 0 m)) (born ML f ls))) i = Some (PRet a, e).
Proof.
  intros ML f ls turn_of i Li Fair. destruct (nth_error ls i) as [[l e]|] eqn:N; [|apply nth_error_None in N; lia].
  destruct (ends turn_of (born ML f ls) i Fair _ _ 0 (born_nth ML f ls i l e N)) as (n & a & e' & D).
  exists n, a. exact (stays turn_of (born ML f ls) i a n e' D).
Qed.

(** Three requests at once, call by call in turn, all with the same samples: the second and the third find the first name taken and
    draw again.  The first and the third are dropped, the second keeps its directory.  Each sees its file while it has it. *)
Definition tmp : path := [bs "tmp"].

Definition three : list (life * env) :=
  let s := mkSaver 5000 3 10 TTry default_opts in
  let l g q ops := mkLife true s tmp (bs "m-") 5 100 g (with_body two_chunks (bs "b")) [q] ops EDrop [fun q => length q =? 3; fun _ => false] RmOk in
  let e := no_failures (fun _ => None) in
  [(l (repeat 7%N 60) [repeat 72%N 12] [OAsPath], e);
   (l (repeat 7%N 6 ++ repeat 8%N 60) [repeat 73%N 12] [OKeep; OIsTemp], e);
   (l (repeat 7%N 6 ++ repeat 8%N 6 ++ repeat 9%N 60) [repeat 74%N 12] [], e)].

Definition only_tmp : fs := fun p => match p with [] => None | [c] => if beq c (bs "tmp") then Some NDir else None | _ => None end.

Definition told (q : prog (tale toy)) : option (list saved * list (option node)) :=
  match q with
  | PRet (AEntries _ (Full en) _ _, looks, None) => Some (concat (map (fun kl => map (sf_data toy) (snd kl)) (en_fields toy en)), looks)
  | _ => None
  end.

Example C104_example :
  usable tmp only_tmp /\ in_base tmp three /\
  map (fun le => e_mkdir (snd le) ++ e_open (snd le)) three = [[]; []; []] /\
  let s := turns (concat (repeat [0; 1; 2] 20)) (born toy only_tmp three) in
  let d n := tmp ++ [bs "m-" ++ repeat n 6] in
  map (fun qe => told (fst qe)) (snd s) =
    map (fun n => Some ([SFile (d n ++ [repeat n 12]) 1000; SText (bs "second")], [Some (NFile (repeat 120%N 1000))])) [72%N; 73%N; 74%N] /\
  map (fst s) [d 72%N; d 73%N; d 74%N; d 73%N ++ [repeat 73%N 12]] = [None; Some NDir; None; Some (NFile (repeat 120%N 1000))] /\
  (exists l e, nth_error three 0 = Some (l, e) /\ cleared l) /\ (exists l e, nth_error three 1 = Some (l, e) /\ ~ cleared l).
Proof.
  split; [|split; [|split; [|split; [|split; [|split]]]]].
  - split; [|intros c b H; exfalso; apply H; reflexivity]. intros a b E Na. destruct a as [|c [|c' a]]; [congruence|injection E as <- _; reflexivity|discriminate].
  - intros l e [H|[H|[H|[]]]]; injection H as <- <-; cbn; auto.
  - reflexivity.
  - vm_compute. reflexivity.
  - vm_compute. reflexivity.
  - do 2 eexists. split; [reflexivity|]. split; [reflexivity|]. right. split; [reflexivity|]. cbn. intros [H|[]]; discriminate.
  - do 2 eexists. split; [reflexivity|]. intros [_ [H|[_ H]]]; [discriminate|]. apply H. left. reflexivity.
Qed.

(** Two lives with different names. *)
Example C104_apart_example :
  let l n := mkLife true (mkSaver 5000 3 10 TTry default_opts) tmp (bs "m-") 5 100 (repeat n 60) (with_body two_chunks (bs "b")) [] [] EIntoPath [] RmOk in
  let e := no_failures (fun _ => None) in
  let ls := [(l 7%N, e); (l 8%N, e)] in
  in_base tmp ls /\ (forall p, tries_name (l 7%N) p -> ~ tries_name (l 8%N) p) /\
  let s := turns (concat (repeat [0; 1] 20)) (born toy only_tmp ls) in
  map (fun qe => told (fst qe)) (snd s) =
    map (fun n => Some ([SFile (tmp ++ [bs "m-" ++ repeat n 6] ++ [repeat n 12]) 1000; SText (bs "second")], [])) [72%N; 73%N].
Proof.
  split; [|split].
  - intros l e [H|[H|[]]]; injection H as <- <-; cbn; auto.
  - intros p (k & Lk & ->) (k' & Lk' & E). cbn [l_tries l_base l_prefix l_rng] in *.
    assert (Nm : forall n m, m < 5 -> fst (random_alphanumeric 6 (skipn (6 * m) (repeat n 60))) = repeat (alnum_char n) 6).
    { intros n m Lm. do 5 (destruct m as [|m]; [reflexivity|]). lia. }
    rewrite !Nm in E by auto. apply app_inj_tail in E as [_ E]. discriminate.
  - vm_compute. reflexivity.
Qed.
