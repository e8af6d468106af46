(** Property theorems about requests with temporary directories in different places at the same time (C110). *)

From Verif Require Import Bytes BytesProofs Spec Io Boundary BoundaryProofs Utf8 Utf8Proofs Httparse Field FieldProofs
  ContentProofs DataProofs ShortProofs EntryProofs ReaderProofs Drive DriveProofs ReachProofs Rand Fs Save Savedir SaveProofs PhaseProofs SaveFacts
  TextProofs Toy PropsReader PropsSave EntriesProofs CompleteProofs PropsEntries PropsSavedir HeaderSpec HeaderProofs WireSpec Client ClientProofs WireProofs
  PropsClient Lazy LazyProofs PropsLazy Requests PropsRequests PropsUpload PropsAny Iron IronProofs PropsIron PropsAnyway PropsOver Together TogetherProofs PropsTogether
  Lives LivesProofs PropsLives PropsCrowd Visits PropsVisits PropsServed Mixed PropsMixed BasesProofs.

(** ** Many programs that keep to directories of different bases *)

Lemma pool_bases {A} (tb : nat -> path) (s0 : pool A) (T : nat -> path -> Prop) (Q : nat -> phase -> A -> Prop) h : (forall i, i < length (snd s0) -> usable (tb i) (fst s0)) ->
  (forall i q e, nth_error (snd s0) i = Some (q, e) -> confined (tb i) (T i) Before q (Q i)) ->
  let s := turns h s0 in
  length (snd s) = length (snd s0) /\
  (forall p, (forall i c b, i < length (snd s0) -> p <> tb i ++ c :: b) -> fst s p = fst s0 p) /\
  (forall p n, fst s0 p = Some n -> fst s p = Some n) /\
  (exists E : nat -> fs,
    (forall i q0 e0 a e1, nth_error (snd s0) i = Some (q0, e0) -> nth_error (snd s) i = Some (PRet a, e1) ->
       exists mk op e', solo q0 (mkEnv (fst s0) (e_w e0) mk op) = (a, e') /\ (forall p, e_fs e' p = E i p) /\
         hears (taken (exists p k, k <> i /\ T i p /\ T k p)) mk (e_mkdir e0) /\ hears never op (e_open e0)) /\
    (forall i p n, i < length (snd s0) -> E i p = Some n -> fst s p = Some n) /\
    (forall i k p, i < length (snd s0) -> k < length (snd s0) -> i <> k -> fst s0 p = None -> E i p <> None -> E k p = None) /\
    forall p n, fst s p = Some n -> fst s0 p = Some n \/ exists i, i < length (snd s0) /\ E i p = Some n) /\
  forall p n, fst s p = Some n -> fst s0 p = Some n \/
     exists i q e, nth_error (snd s) i = Some (q, e) /\ ((forall a, q <> PRet a) \/ exists a r, q = PRet a /\ Q i (Owns r) a).
Proof.
  intros U C s. assert (Ba : forall i a b, i < length (snd s0) -> tb i = a ++ b -> a <> [] -> fst s0 a = Some NDir) by (intros i a b Li; apply (proj1 (U i Li))).
  assert (Tr : forall i c b, i < length (snd s0) -> fst s0 (tb i ++ c :: b) <> None -> fst s0 (tb i ++ [c]) <> None) by (intros i c b Li; apply (proj2 (U i Li))).
  destruct (bases_all tb s0 T Q Ba Tr C h) as (ph & G & Ok). fold s in Ok. pose proof Ok as (A1 & A2 & A3 & A4 & A5 & A6 & A7 & A8).
  assert (Own := fun i r (P : ph i = Owns r) => BasesProofs.owner tb s0 _ _ Ba Tr _ _ _ _ _ Ok P).
  assert (At : forall i, i < length (snd s0) -> exists q0 e0 q e, nth_error (snd s0) i = Some (q0, e0) /\ nth_error (snd s) i = Some (q, e)).
  { intros i Li. destruct (nth_error (snd s0) i) as [[q0 e0]|] eqn:N0; [|apply nth_error_None in N0; lia].
    destruct (nth_error (snd s) i) as [[q e]|] eqn:N1; [|apply nth_error_None in N1; lia]. exists q0, e0, q, e. auto. }
  assert (Ph : forall i, i < length (snd s0) -> (exists r, ph i = Owns r) \/ forall p, G i p = fst s0 p).
  { intros i Li. destruct (At i Li) as (q0 & e0 & q & e & N0 & N1). destruct (A8 _ _ _ _ _ N0 N1) as (_ & _ & K). destruct (ph i) as [|r|]; eauto. }
  assert (Dec : forall r p : path, (exists b, p = r ++ b) \/ forall b, p <> r ++ b).
  { intros r p. destruct (below r p) eqn:E; [left; now apply below_iff|right]. intros b ->.
    assert (X : below r (r ++ b) = true) by (apply below_iff; eauto). congruence. }
  split; [exact A6|]. split; [|split; [exact A2|split]].
  - intros p Np. apply A1. intros i Li (c & b & ->). eapply Np; [exact Li|reflexivity].
  - exists G. split; [|split; [|split]].
    + intros i q0 e0 a e1 N N1. destruct (A8 _ _ _ _ _ N N1) as (_ & (mkp & opp & Eq & Nf) & _).
      specialize (Eq (e_mkdir e1) (e_open e1)). cbn [solo] in Eq. destruct Nf as [F1 F2].
      eexists _, _, _. split; [exact Eq|]. split; [reflexivity|]. split; [apply F1|apply F2]; constructor.
    + intros i p n Li Ep. destruct (Ph i Li) as [[r Pi]|K]; [|apply A2; rewrite <- Ep; symmetry; apply K].
      destruct (Own _ _ Pi) as (_ & _ & _ & Reg & Rest). destruct (Dec r p) as [[b ->]|D]; [now rewrite Reg|].
      apply A2. now rewrite <- (Rest p D).
    + intros i k p Li Lk Nik Fp Ei. destruct (Ph i Li) as [[r Pi]|K]; [|congruence]. destruct (Ph k Lk) as [[r' Pk]|K]; [|congruence].
      destruct (Own _ _ Pi) as ([_ [c ->]] & Fr & _ & Reg & Rest). destruct (Own _ _ Pk) as ([_ [c' ->]] & Fr' & _ & Reg' & Rest').
      destruct (Dec (tb k ++ [c']) p) as [[b ->]|D]; [|rewrite Rest'; auto].
      destruct (G k ((tb k ++ [c']) ++ b)) eqn:Ek; auto. exfalso. destruct (Dec (tb i ++ [c]) ((tb k ++ [c']) ++ b)) as [[b' E]|D]; [|rewrite Rest in Ei; auto].
      apply Nik. apply (A4 i k (tb i ++ [c]) Pi). rewrite Pk. f_equal. apply (roots_eq tb s0 Ba k i c' c b b' Lk Li Fr' Fr E).
    + intros p n Hp. destruct (A5 _ _ Hp) as [|(i & r & b & Pi & ->)]; auto. right. exists i. pose proof (A7 _ _ Pi). split; [congruence|].
      destruct (Own _ _ Pi) as (_ & _ & _ & Reg & _). now rewrite <- Reg.
  - intros p n Hp. destruct (A5 _ _ Hp) as [|(i & r & b & Pi & _)]; auto. right. destruct (At i (A7 _ _ Pi)) as (q0 & e0 & q & e & N0 & N1).
    destruct (A8 _ _ _ _ _ N0 N1) as (Cf & _). exists i, q, e. split; auto.
    destruct q as [a| | | | | |]; try (left; discriminate). right. exists a, r. cbn [confined] in Cf. rewrite Pi in Cf. auto.
Qed.

(** ** C110 *)

(** The directory in which a request makes its own: that of the system (src/server/save.rs:249-251), any other if the handler makes a [TempDir]
    itself and calls [with_temp_dir] (src/server/save.rs:262), or that of the settings of the middleware (src/server/iron.rs:128-132). *)
Definition base_of (m : request) : path := match m with ByHand l => l_base l | Through v => match ic_temp (v_ic v) with Some p => p | None => v_tmp v end end.

(** Each makes its directory in a usable one, that may be the one of others, lie in it or above it.  Files are opened by [create_new], and a
    removal that fails leaves no path without the directories above it. *)
Definition spread (f : fs) (ms : list (request * env)) : Prop :=
  forall m e, In (m, e) ms -> usable (base_of m) f /\
    (match m with ByHand l => o_create_new (s_opts (l_saver l)) = true | Through _ => True end) /\
    match (match m with ByHand l => l_rm l | Through v => v_rm v end) with
    | RmOk => True
    | RmFail _ kept => forall p b, kept (p ++ b) = true -> kept p = true
    end.

Lemma spread_housed f ms m e : spread f ms -> In (m, e) ms -> housed (base_of m) [(m, e)].
Proof.
  intros Sp Hin m' e' [X|[]]. injection X as <- <-. destruct (Sp m e Hin) as (_ & Ho & Hr).
  destruct m as [l|v]; intros x e' [X|[]]; injection X as <- <-; split; auto.
Qed.

Definition base_at (ms : list (request * env)) (i : nat) : path :=
  match nth_error ms i with Some (m, _) => base_of m | None => [] end.

Lemma spread_usable ML f ms : spread f ms -> forall i, i < length (snd (busy ML f ms)) -> usable (base_at ms i) (fst (busy ML f ms)).
Proof.
  intros Sp i Li. unfold busy in *. cbn [fst snd] in *. rewrite map_length in Li. unfold base_at.
  destruct (nth_error ms i) as [[m e]|] eqn:N; [|apply nth_error_None in N; lia]. apply (Sp m e (nth_error_In _ _ N)).
Qed.

Lemma spread_confined ML f ms : spread f ms -> forall i q e, nth_error (snd (busy ML f ms)) i = Some (q, e) ->
  confined (base_at ms i) (may_take_at ms i) Before q (fun ph a => forall m e', nth_error ms i = Some (m, e') -> left_nothing m ph a).
Proof.
  intros Sp i q e H. unfold busy in H. cbn [snd] in H. rewrite nth_error_map in H.
  destruct (nth_error ms i) as [[m e1]|] eqn:N; [|discriminate]. injection H as <- <-.
  pose proof (spread_housed f ms m e1 Sp (nth_error_In _ _ N)) as Ho.
  pose proof (busy_confined ML (base_of m) f [(m, e1)] Ho 0 _ _ eq_refl) as K. cbn [fst snd] in *.
  replace (base_at ms i) with (base_of m) by (unfold base_at; now rewrite N).
  replace (may_take_at ms i) with (may_take m) by (unfold may_take_at; now rewrite N).
  eapply confined_weaken; [|exact K]. cbn beta. intros ph a W m' e' E. injection E as <- <-. apply (W m e1). reflexivity.
Qed.

(** Nothing but the entries of the directories of the requests changes, and of these only the new ones.  A request that is over went as on its own, where the
    disk may have said for some directory names that they exist, and only if another request, of the one kind or the other, may try the same one; what
    fails otherwise is what its own disk said would, in this order.  Its directory is its own: [E i] is the disk of such a run. *)
Theorem C110_alone : forall ML f ms sched, spread f ms ->
  let s := turns sched (busy ML f ms) in
  (forall p, (forall m e c b, In (m, e) ms -> p <> base_of m ++ c :: b) -> fst s p = f p) /\
  (forall p n, f p = Some n -> fst s p = Some n) /\
  exists E : nat -> fs,
    (forall i m e a e1, nth_error ms i = Some (m, e) -> nth_error (snd s) i = Some (PRet a, e1) ->
       exists mk op e', run_request ML m (mkEnv f (e_w e) mk op) = (a, e') /\ (forall p, e_fs e' p = E i p) /\
         hears (taken (exists p k m' e', k <> i /\ nth_error ms k = Some (m', e') /\ may_take m p /\ may_take m' p)) mk (e_mkdir e) /\
         hears never op (e_open e)) /\
    (forall i p n, i < length ms -> E i p = Some n -> fst s p = Some n) /\
    (forall i k p, i < length ms -> k < length ms -> i <> k -> f p = None -> E i p <> None -> E k p = None) /\
    forall p n, fst s p = Some n -> f p = Some n \/ exists i, i < length ms /\ E i p = Some n.
Proof.
  intros ML f ms sched G s. destruct (pool_bases (base_at ms) (busy ML f ms) (may_take_at ms) _ sched (spread_usable ML f ms G) (spread_confined ML f ms G)) as (_ & A1 & A2 & (E & B1 & B2 & B3 & B4) & _).
  fold s in A1, A2, B1, B2, B3, B4.
  assert (Len : length (snd (busy ML f ms)) = length ms) by (unfold busy; cbn [snd]; apply map_length). rewrite Len in *.
  split; [intros p Np; apply A1; intros i c b Li; unfold base_at; destruct (nth_error ms i) as [[m e]|] eqn:N;
    [apply (Np m e), (nth_error_In _ _ N)|apply nth_error_None in N; lia]|]. split; auto. exists E. split; auto. intros i m e a e1 N N1.
  destruct (B1 _ _ _ _ _ (busy_nth ML f ms i m e N) N1) as (mk & op & e2 & Sl & Fe & F1 & F2). exists mk, op.
  pose proof (request_same ML (S (length (e_w e))) m (mkEnv f (e_w e) mk op) (mkEnv f (e_w e) mk op)) as K.
  destruct (run_request ML m (mkEnv f (e_w e) mk op)) as [a' e'].
  destruct K as (e3 & Q & F & _); [split; [apply esame_refl|cbn [e_w]; lia]|]. cbn [fst busy] in Sl. rewrite Sl in Q. injection Q as <- <-.
  exists e'. split; auto. split; [intros p; now rewrite <- F|]. split; auto.
  eapply hears_weaken; [|exact F1]. intros x [-> (p & k & Nk & T1 & T2)]. split; auto. unfold may_take_at in T1, T2. rewrite N in T1.
  destruct (nth_error ms k) as [[m' e2']|] eqn:Nk2; [|contradiction]. exists p, k, m', e2'. auto.
Qed.

(** So a request whose directory names nobody else tries does not notice the others at all. *)
Theorem C110_independent : forall ML f ms sched i m e a e1, spread f ms ->
  nth_error ms i = Some (m, e) ->
  (forall k m' e', k <> i -> nth_error ms k = Some (m', e') -> forall p, may_take m p -> ~ may_take m' p) ->
  nth_error (snd (turns sched (busy ML f ms))) i = Some (PRet a, e1) ->
  exists e', run_request ML m (set_fs f e) = (a, e') /\
    forall p n, e_fs e' p = Some n -> fst (turns sched (busy ML f ms)) p = Some n.
Proof.
  intros ML f ms sched i m e a e1 G N Apart N1. destruct (C110_alone ML f ms sched G) as (_ & _ & E & A & Sub & _).
  destruct (A _ _ _ _ _ N N1) as (mk & op & e' & Run & Fe & F1 & F2).
  apply hears_weaken with (Y := never) in F1; [|intros x [_ (p & k & v' & e2 & Nk & Nl & T1 & T2)]; eapply Apart; eauto].
  apply hears_alike in F1, F2.
  pose proof (request_same ML (S (length (e_w e))) m (mkEnv f (e_w e) mk op) (mkEnv f (e_w e) mk op)) as K. rewrite Run in K.
  destruct K as (e2 & S1 & Se & _); [split; [apply esame_refl|cbn [e_w]; lia]|].
  pose proof (request_same ML (S (length (e_w e))) m (set_fs f e) (set_fs f e)) as K.
  destruct (run_request ML m (set_fs f e)) as [a' e3] eqn:R.
  destruct K as (e4 & S2 & Se' & _); [split; [apply esame_refl|cbn [set_fs e_w]; lia]|].
  destruct (lulled_solo (prequest ML (S (length (e_w e))) m) (mkEnv f (e_w e) mk op) (set_fs f e)) as [L1 L2]; [repeat split; auto|].
  rewrite S1, S2 in L1, L2. cbn [fst snd] in L1, L2. subst a'. exists e3. split; auto. intros p n Hp. apply (Sub i); [apply nth_error_Some; congruence|].
  destruct L2 as [L2 _]. rewrite <- Fe, <- Se, L2, Se'. exact Hp.
Qed.

(** The names that a request may try are entries of its directory. *)
Lemma takes_in m p : may_take m p -> exists c, p = base_of m ++ [c].
Proof. destruct m as [l|v]; intros (k & _ & ->); eexists; reflexivity. Qed.

(** Two requests that cannot meet: they have different directories, or are of different kinds, the one by hand with a prefix of its own, or
    draw different names. *)
Definition strangers (m m' : request) : Prop :=
  base_of m = base_of m' ->
  match m, m' with
  | ByHand l, ByHand l' => forall p, tries_name l p -> ~ tries_name l' p
  | Through v, Through v' => forall p, may_try v p -> ~ may_try v' p
  | ByHand l, Through _ | Through _, ByHand l => l_prefix l <> bs "multipart-iron"
  end.

Lemma strangers_apart m m' p : strangers m m' -> may_take m p -> ~ may_take m' p.
Proof.
  intros St T1 T2. destruct (takes_in _ _ T1) as [c ->], (takes_in _ _ T2) as [c' E]. apply app_inj_tail in E as [E _]. specialize (St E).
  destruct m as [l|v], m' as [l'|v']; cbn [may_take] in *.
  - eapply St; eauto.
  - eapply kinds_apart; eauto.
  - eapply kinds_apart; eauto.
  - eapply St; eauto.
Qed.

(** So a request notices at most others of its kind with the same directory. *)
Theorem C110_strangers : forall ML f ms sched i m e a e1, spread f ms ->
  nth_error ms i = Some (m, e) ->
  (forall k m' e', k <> i -> nth_error ms k = Some (m', e') -> strangers m m') ->
  nth_error (snd (turns sched (busy ML f ms))) i = Some (PRet a, e1) ->
  exists e', run_request ML m (set_fs f e) = (a, e') /\
    forall p n, e_fs e' p = Some n -> fst (turns sched (busy ML f ms)) p = Some n.
Proof.
  intros ML f ms sched i m e a e1 G N St N1. eapply C110_independent; eauto. intros k m' e' Nk Nm p. apply strangers_apart. eauto.
Qed.

(** What is new on the disk belongs to a request that is not over or does not remove its directory (or that the bounds of the model cut short).
    So when all are over and remove theirs, the disk is the one of the start. *)
Theorem C110_clear : forall ML f ms sched, spread f ms ->
  let s := turns sched (busy ML f ms) in
  (forall p n, fst s p = Some n -> f p = Some n \/
     exists i m e q e1, nth_error ms i = Some (m, e) /\ nth_error (snd s) i = Some (q, e1) /\
       ((forall a, q <> PRet a) \/ ~ removes m \/ exists a, q = PRet a /\ ~ whole a)) /\
  ((forall i m e, nth_error ms i = Some (m, e) -> removes m /\ exists a e1, nth_error (snd s) i = Some (PRet a, e1) /\ whole a) ->
   forall p, fst s p = f p).
Proof.
  intros ML f ms sched G s. destruct (pool_bases (base_at ms) (busy ML f ms) (may_take_at ms) _ sched (spread_usable ML f ms G) (spread_confined ML f ms G)) as (Len & A1 & A2 & _ & A4).
  destruct (C110_alone ML f ms sched G) as (_ & _ & E & A & _). fold s in A, A1, A2, A4, Len.
  assert (K : forall p n, fst s p = Some n -> f p = Some n \/
     exists i m e q e1, nth_error ms i = Some (m, e) /\ nth_error (snd s) i = Some (q, e1) /\
       ((forall a, q <> PRet a) \/ ~ removes m \/ exists a, q = PRet a /\ ~ whole a)).
  { intros p n Hp. destruct (A4 p n Hp) as [|(i & q & e1 & N1 & D)]; auto. right.
    assert (Li : i < length ms).
    { assert (L : length (snd s) = length ms).
      { rewrite Len. unfold busy. cbn [snd]. apply map_length. }
      rewrite <- L. apply nth_error_Some. congruence. }
    destruct (nth_error ms i) as [[m e]|] eqn:N; [|apply nth_error_None in N; lia]. exists i, m, e, q, e1. split; auto. split; auto.
    destruct D as [D|(a & r & -> & D)]; auto. right. specialize (D m e eq_refl). unfold left_nothing in D.
    destruct a as [a|[[o|y| |] looks]].
    - left. intros Rm. exact (D Rm I r eq_refl).
    - left. intros Rm. exact (D Rm I r eq_refl).
    - left. intros Rm. exact (D Rm I r eq_refl).
    - exfalso. destruct (A _ _ _ _ _ N N1) as (mk & op & e' & Run & _). destruct m as [l|v]; cbn [run_request] in Run.
      + destruct (run_life ML l _); discriminate.
      + pose proof (visit_no_panic ML v (mkEnv f (e_w e) mk op)) as NP. destruct (run_visit ML v _) as [a' e2]. injection Run as -> _. now apply NP.
    - right. eexists. split; [reflexivity|]. cbn [whole]. auto. }
  split; [exact K|]. intros All p. destruct (fst s p) as [n|] eqn:Ep.
  - destruct (K p n Ep) as [|(i & m & e & q & e1 & N & N1 & D)]; auto. exfalso. destruct (All _ _ _ N) as (Rm & a & e2 & N2 & Wh).
    rewrite N1 in N2. injection N2 as -> ->. destruct D as [D|[D|(a' & Q & D)]]; [eapply D; reflexivity|contradiction|injection Q as <-; contradiction].
  - destruct (f p) as [n|] eqn:F; auto. apply A2 in F. congruence.
Qed.

(** Any number of clients send their forms at once, some to handlers that save by hand, with limits that have room for the form, and some through the
    middleware.  They have any number of directories, and the names that are drawn need to differ only
    among the requests of a kind with the same one.  If all get turns, at some time all are over and
    settled; and if the ones by hand drop or delete their directories, nothing is left on the disk. *)
Theorem C110_crowd : forall ML octet guess f ms (forms : nat -> list (field_headers ML * bytes)) turn_of, spread f ms ->
  (forall i n, i < length ms -> exists m, n <= m /\ turn_of m = i) ->
  (forall i k m m' e e', i <> k -> nth_error ms i = Some (m, e) -> nth_error ms k = Some (m', e') -> strangers m m') ->
  (forall i m e, nth_error ms i = Some (m, e) ->
     match m with
     | ByHand l => upload ML octet guess f l e (forms i)
     | Through v => from_client ML octet guess v (forms i) /\ welcome f v e (forms i) /\ v_rm v = RmOk /\
         (ic_continue (v_ic v) = false \/ (fits v (forms i) /\ (N.of_nat (length (forms i)) < ic_count (v_ic v))%N))
     end) ->
  exists n, forall m, n <= m -> let s := turns (map turn_of (seq 0 m)) (busy ML f ms) in
    (forall i m e, nth_error ms i = Some (m, e) ->
       exists a e1, nth_error (snd s) i = Some (PRet a, e1) /\ settled m (forms i) (fst s) a) /\
    ((forall l e, In (ByHand l, e) ms -> cleared l) -> forall p, fst s p = f p).
Proof.
  intros ML octet guess f ms forms turn_of G Fair Apart H.
  destruct (all_of (fun i k => forall m e, nth_error ms i = Some (m, e) ->
     exists a e1, nth_error (snd (turns (map turn_of (seq 0 k)) (busy ML f ms))) i = Some (PRet a, e1) /\
       settled m (forms i) (fst (turns (map turn_of (seq 0 k)) (busy ML f ms))) a) (length ms)) as (n & K).
  - intros i Li. destruct (nth_error ms i) as [[m e]|] eqn:N; [|apply nth_error_None in N; lia].
    destruct (C109_fair ML f ms turn_of i Li (fun n => Fair i n Li)) as (n & a & Done). exists n. intros k Lk m' e' E. injection E as <- <-.
    destruct (Done k Lk) as [e1 N1]. exists a, e1. split; auto.
    destruct (C110_strangers ML f ms _ i m e a e1 G N (fun k m' e' Nk => Apart i k m m' e e' (fun X => Nk (eq_sym X)) N) N1) as (e' & Run & Sub).
    destruct (G m e (nth_error_In _ _ N)) as [U _]. pose proof (spread_housed f ms m e G (nth_error_In _ _ N) m e (or_introl eq_refl)) as Ho. specialize (H i m e N). destruct m as [l|v]; cbn [run_request] in Run.
    + destruct (run_life ML l (set_fs f e)) as [a' e2] eqn:R. injection Run as <- <-. cbn [settled].
      destruct H as (gc & u & Po & Lu & Qu & Rd & Ro). eapply life_arrived; eauto. eapply posted_parts; eauto.
    + destruct (run_visit ML v (set_fs f e)) as [a' e2] eqn:R. injection Run as <- <-. cbn [settled].
      destruct H as ((gc & Po & Bo & Lu & Qu) & We & _ & Co). destruct (Ho v e (or_introl eq_refl)) as (Bt & _).
      eapply visit_decided; eauto. eapply posted_parts; eauto.
  - exists n. intros k Lk s. assert (K' := K k Lk).
    assert (All : forall i m e, nth_error ms i = Some (m, e) -> exists a e1, nth_error (snd s) i = Some (PRet a, e1) /\ settled m (forms i) (fst s) a).
    { intros i m e N. apply (K' i) with (e := e); auto. apply nth_error_Some. congruence. }
    split; [exact All|]. intros Cl. refine (proj2 (C110_clear ML f ms (map turn_of (seq 0 k)) G) _). intros i m e N.
    destruct (All i m e N) as (a & e1 & N1 & D). split.
    + destruct m as [l|v]; [exact (Cl l e (nth_error_In _ _ N))|]. apply (H i _ e N).
    + exists a, e1. split; auto. destruct m as [l|v], a as [a|[x looks]]; try contradiction; cbn [whole]; auto. cbn [settled] in D. destruct D as [D _].
      destruct D as [[(en & lk & F & nm & E & _) _]|[[E _]|(h & c & E & _)]]; injection E as -> _; exact I.
Qed.

(** Two requests by hand and two through the middleware; the second of each makes its directory in one inside the other's.  All draw the
    same samples. *)
Definition up : path := tmp ++ [bs "up"].

Definition two_dirs : fs := fun p => if path_eq_dec p tmp then Some NDir else if path_eq_dec p up then Some NDir else None.

Definition hand_in (t : path) : life :=
  mkLife true (mkSaver 5000 256 4 TTry default_opts) t (bs "m-") 2 1000 (repeat 7%N 18 ++ repeat 8%N 12 ++ repeat 9%N 12)
    (with_body [Chunk (firstn 30 eager_wire); Chunk (skipn 30 eager_wire)] (boundary_of [])) [] [] EDrop [fun q => length q =? 2] RmOk.

Definition guest_in (t : option path) : visit :=
  mkVisit true (mkIntercept t 100 9 false) tmp 2 3 1000 (repeat 7%N 18 ++ repeat 8%N 12 ++ repeat 9%N 12) (Some (boundary_of []))
    [Chunk (firstn 30 eager_wire); Chunk (skipn 30 eager_wire)] [] [fun q => length q =? 2] RmOk.

Definition same_draws : list (request * env) :=
  map (fun m => (m, no_failures (fun _ => None))) [ByHand (hand_in tmp); ByHand (hand_in up); Through (guest_in None); Through (guest_in (Some up))].

Definition same_form : list (field_headers toy * bytes) := map (@expected toy (bs "o/s") any_guess) some_fields.

Lemma two_dirs_usable t : t = tmp \/ t = up -> usable t two_dirs.
Proof.
  assert (No : forall x (y : bytes) z, two_dirs (x ++ y :: z) <> None -> z = [] \/ x = []).
  { intros x y z. unfold two_dirs. destruct (path_eq_dec (x ++ y :: z) tmp) as [E|_]; [|destruct (path_eq_dec (x ++ y :: z) up) as [E|_]; [|congruence]]; intros _;
      destruct x as [|x1 [|x2 x]], z as [|z1 z]; auto; exfalso; apply (f_equal (@length _)) in E; cbn [app length] in E; rewrite ?app_length in E; cbn [length up tmp app] in E; lia. }
  intros H. split.
  - intros a b E Na. destruct H as [-> | ->]; destruct a as [|a1 [|a2 [|a3 a]]]; try congruence; injection E; intros; subst; try discriminate; vm_compute; reflexivity.
  - intros c b Hc. destruct (No t c b Hc) as [-> | ->]; [exact Hc|]. destruct H; discriminate.
Qed.

Example C110_example :
  spread two_dirs same_draws /\
  (forall i n, i < length same_draws -> exists m, n <= m /\ Nat.modulo m 4 = i) /\
  (forall i k m m' e e', i <> k -> nth_error same_draws i = Some (m, e) -> nth_error same_draws k = Some (m', e') -> strangers m m') /\
  (forall i m e, nth_error same_draws i = Some (m, e) ->
     match m with
     | ByHand l => upload toy (bs "o/s") any_guess two_dirs l e same_form /\ cleared l
     | Through v => from_client toy (bs "o/s") any_guess v same_form /\ welcome two_dirs v e same_form /\ v_rm v = RmOk /\ ic_continue (v_ic v) = false
     end) /\
  map (fun qe => match fst qe with PRet (inl a) => Some (inl (told (PRet a))) | PRet (inr a) => Some (inr (answered (PRet a))) | _ => None end)
    (snd (turns (map (fun m => Nat.modulo m 4) (seq 0 120)) (busy toy two_dirs same_draws))) =
    [Some (inl (Some ([SText (bs "text"); SBytes (bs "data")], []))); Some (inl (Some ([SText (bs "text"); SBytes (bs "data")], [])));
     Some (inr (Some (inr (map Some [bs "text"; bs "data"], [])))); Some (inr (Some (inr (map Some [bs "text"; bs "data"], []))))].
Proof.
  assert (At : forall i m e, nth_error same_draws i = Some (m, e) -> e = no_failures (fun _ => None) /\
     (i = 0 /\ m = ByHand (hand_in tmp) \/ i = 1 /\ m = ByHand (hand_in up) \/ i = 2 /\ m = Through (guest_in None) \/ i = 3 /\ m = Through (guest_in (Some up)))).
  { intros i m e H. destruct i as [|[|[|[|i]]]]; [| | | |destruct i; discriminate H]; injection H as <- <-; split; auto 6. }
  split; [|split; [|split; [|split]]].
  - intros m e H. apply In_nth_error in H as [i N]. apply At in N as [-> [(_ & ->)|[(_ & ->)|[(_ & ->)|(_ & ->)]]]]; (split; [apply two_dirs_usable; auto|]); cbn; auto.
  - intros i n Li. exists (4 * n + i). change (length same_draws) with 4 in Li. split; [lia|]. rewrite Nat.add_comm, Nat.mul_comm, Nat.mod_add by lia. now apply Nat.mod_small.
  - intros i k m m' e e' Nik Ni Nk. apply At in Ni as [_ Ni], Nk as [_ Nk].
    destruct Ni as [(-> & ->)|[(-> & ->)|[(-> & ->)|(-> & ->)]]], Nk as [(-> & ->)|[(-> & ->)|[(-> & ->)|(-> & ->)]]]; try congruence;
      intros E; first [discriminate E | vm_compute; discriminate].
  - assert (Li : live [Chunk (firstn 30 eager_wire); Chunk (skipn 30 eager_wire)]).
    { intros [X|[X|[]]]; vm_compute in X; discriminate. }
    assert (Qu : quiet [Chunk (firstn 30 eager_wire); Chunk (skipn 30 eager_wire)]) by (intros x [X|[X|[]]]; discriminate).
    assert (St : stream [Chunk (firstn 30 eager_wire); Chunk (skipn 30 eager_wire)] = eager_wire) by (cbn [stream]; now rewrite app_nil_r, firstn_skipn).
    assert (Ne : forall i j, i < j -> j < length same_form ->
       fst (random_alphanumeric 12 (skipn (6 + 12 * i) (repeat 7%N 18 ++ repeat 8%N 12 ++ repeat 9%N 12))) <>
       fst (random_alphanumeric 12 (skipn (6 + 12 * j) (repeat 7%N 18 ++ repeat 8%N 12 ++ repeat 9%N 12)))).
    { intros i j L1 L2. change (length same_form) with 2 in L2. destruct j as [|[|j]], i as [|[|i]]; try lia; vm_compute; discriminate. }
    assert (Hand : forall t, t = tmp \/ t = up -> upload toy (bs "o/s") any_guess two_dirs (hand_in t) (no_failures (fun _ => None)) same_form).
    { intros t Ht. exists [], [Chunk (firstn 30 eager_wire); Chunk (skipn 30 eager_wire)]. rewrite St. split; [exact eager_posted|]. split; [exact Li|]. split; [exact Qu|]. split; [reflexivity|].
      split; [reflexivity|]. split; [discriminate|]. split; [reflexivity|]. split; [vm_compute; reflexivity|].
      split; [repeat (constructor; [apply N.leb_le; vm_compute; reflexivity|]); constructor|]. split; [constructor|]. split; [reflexivity|]. split; [reflexivity|].
      split; [cbn; lia|]. split; [discriminate|]. split; [destruct Ht as [-> | ->]; vm_compute; reflexivity|]. split; [exact Ne|].
      rewrite St. apply Nat.leb_le. vm_compute. reflexivity. }
    assert (Gst : forall t, t = None \/ t = Some up -> from_client toy (bs "o/s") any_guess (guest_in t) same_form /\ welcome two_dirs (guest_in t) (no_failures (fun _ => None)) same_form).
    { intros t Ht. split.
      - exists []. cbn [guest_in v_body v_boundary]. rewrite St. split; [exact eager_posted|]. split; [reflexivity|]. split; [exact Li|exact Qu].
      - split; [apply N.leb_le; vm_compute; reflexivity|]. split; [vm_compute; reflexivity|]. split; [constructor|]. split; [reflexivity|]. split; [reflexivity|]. split; [cbn; lia|].
        split; [discriminate|]. split; [destruct Ht as [-> | ->]; vm_compute; reflexivity|]. split; [exact Ne|].
        cbn [guest_in v_body]. rewrite St. apply Nat.leb_le. vm_compute. reflexivity. }
    assert (Cle : forall t, cleared (hand_in t)) by (intros t; split; auto; right; split; auto; intros []).
    intros i m e N. apply At in N as [-> [(_ & ->)|[(_ & ->)|[(_ & ->)|(_ & ->)]]]].
    + split; auto.
    + split; auto.
    + destruct (Gst None) as [G1 G2]; auto.
    + destruct (Gst (Some up)) as [G1 G2]; auto.
  - vm_compute. reflexivity.
Qed.
