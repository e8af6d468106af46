(** Property theorems about requests with and without the Iron middleware at the same time (C109). *)

From Verif Require Import Bytes BytesProofs Spec Io Boundary BoundaryProofs Utf8 Utf8Proofs Httparse Field FieldProofs
  ContentProofs DataProofs ShortProofs EntryProofs ReaderProofs Drive DriveProofs ReachProofs Rand Fs Save Savedir SaveProofs PhaseProofs SaveFacts
  TextProofs Toy PropsReader PropsSave EntriesProofs CompleteProofs PropsEntries PropsSavedir HeaderSpec HeaderProofs WireSpec Client ClientProofs WireProofs
  PropsClient Lazy LazyProofs PropsLazy Requests PropsRequests PropsUpload PropsAny Iron IronProofs PropsIron PropsAnyway PropsOver Together TogetherProofs PropsTogether
  Lives LivesProofs PropsLives PropsCrowd Visits PropsVisits PropsServed Mixed.

(** ** Alone *)

Lemma request_same ML wf m e e1 : room wf e e1 ->
  let '(a, e1') := run_request ML m e1 in exists e', solo (prequest ML wf m) e = (a, e') /\ esame e' e1'.
Proof.
  intros R. destruct m as [l|v]; cbn [run_request prequest]; rewrite solo_bind.
  - pose proof (life_same ML wf l e e1 R) as K. destruct (run_life ML l e1) as [a e1']. destruct K as (e' & -> & Se). exists e'. split; [reflexivity|exact Se].
  - pose proof (visit_same ML wf v e e1 R) as K. destruct (run_visit ML v e1) as [a e1']. destruct K as (e' & -> & Se). exists e'. split; [reflexivity|exact Se].
Qed.

(** ** C109 *)

(** Requests whose directories are made in [t], with files opened by [create_new]; a removal that fails leaves no path without the
    directories above it. *)
Definition housed (t : path) (ms : list (request * env)) : Prop :=
  forall m e, In (m, e) ms -> match m with ByHand l => in_base t [(l, e)] | Through v => guests t [(v, e)] end.

(** The directory names that a request may try. *)
Definition may_take (m : request) (p : path) : Prop :=
  match m with ByHand l => tries_name l p | Through v => may_try v p end.

Definition may_take_at (ms : list (request * env)) (i : nat) (p : path) : Prop :=
  match nth_error ms i with Some (m, _) => may_take m p | None => False end.

(** The request removes its directory at the end. *)
Definition removes (m : request) : Prop :=
  match m with ByHand l => cleared l | Through v => v_rm v = RmOk end.

(** The request was not cut short by the bounds of the model. *)
Definition whole {ML} (a : answer ML) : Prop :=
  match a with inl _ => True | inr (OutOfFuel, _) => False | inr _ => True end.

Lemma busy_nth ML f ms i m e : nth_error ms i = Some (m, e) -> nth_error (snd (busy ML f ms)) i = Some (prequest ML (S (length (e_w e))) m, e).
Proof. intros H. unfold busy. cbn [snd]. now rewrite nth_error_map, H. Qed.

Definition left_nothing {ML} (m : request) (ph : phase) (a : answer ML) : Prop :=
  removes m -> match a with inr (Panic, _) => True | _ => whole a -> forall r, ph <> Owns r end.

Lemma busy_confined ML t f ms : housed t ms -> forall i q e, nth_error (snd (busy ML f ms)) i = Some (q, e) ->
  confined t (may_take_at ms i) Before q (fun ph a => forall m e', nth_error ms i = Some (m, e') -> left_nothing m ph a).
Proof.
  intros G i q e. unfold busy. cbn [snd]. rewrite nth_error_map.
  destruct (nth_error ms i) as [[m e1]|] eqn:N; [|discriminate]. intros H; injection H as <- <-. cbn [fst snd].
  specialize (G m e1 (nth_error_In _ _ N)).
  replace (may_take_at ms i) with (may_take m) by (unfold may_take_at; now rewrite N).
  assert (W : confined t (may_take m) Before (prequest ML (S (length (e_w e1))) m) (left_nothing m)).
  { destruct m as [l|v]; cbn [prequest may_take].
    - destruct (G l e1 (or_introl eq_refl)) as (<- & Ho & Ht).
      eapply confined_bind; [|apply confined_life; auto].
      + cbn beta. intros ph a K. cbn [confined]. intros Cl _. apply K. now apply cleared_drops.
      + intros p. destruct (l_rm l) as [|k kept]; cbn [tidy]; auto. intros q0 Hb Hk. apply below_iff in Hb as [b ->]. eauto.
    - destruct (G v e1 (or_introl eq_refl)) as (<- & Ht).
      eapply confined_bind; [|apply confined_visit; auto].
      + cbn beta. intros ph [x looks] K. cbn [confined]. intros Rm. specialize (K Rm). cbn [fst] in K. destruct x; cbn [whole]; auto; contradiction.
      + intros p. destruct (v_rm v) as [|k kept]; cbn [tidy]; auto. intros q0 Hb Hk. apply below_iff in Hb as [b ->]. eauto. }
  eapply confined_weaken; [|exact W]. cbn beta. intros ph a K m' e' E. injection E as <- <-. exact K.
Qed.

(** Nothing but the entries of [t] changes, and of these only the new ones.  A request that is over went as on its own, where the
    disk may have said for some directory names that they exist, and only if another request, of the one kind or the other, may try the same one; what
    fails otherwise is what its own disk said would, in this order.  Its directory is its own: [E i] is the disk of such a run. *)
Theorem C109_alone : forall ML t f ms sched, usable t f -> housed t ms ->
  let s := turns sched (busy ML f ms) in
  (forall p, (forall c b, p <> t ++ c :: b) -> fst s p = f p) /\
  (forall p n, f p = Some n -> fst s p = Some n) /\
  exists E : nat -> fs,
    (forall i m e a e1, nth_error ms i = Some (m, e) -> nth_error (snd s) i = Some (PRet a, e1) ->
       exists mk op e', run_request ML m (mkEnv f (e_w e) mk op) = (a, e') /\ (forall p, e_fs e' p = E i p) /\
         hears (taken (exists p k m' e', k <> i /\ nth_error ms k = Some (m', e') /\ may_take m p /\ may_take m' p)) mk (e_mkdir e) /\
         hears never op (e_open e)) /\
    (forall i p n, i < length ms -> E i p = Some n -> fst s p = Some n) /\
    (forall i k p, i < length ms -> k < length ms -> i <> k -> f p = None -> E i p <> None -> E k p = None) /\
    forall p n, fst s p = Some n -> f p = Some n \/ exists i, i < length ms /\ E i p = Some n.
Proof.
  intros ML t f ms sched U G s. destruct (pool_alone t (busy ML f ms) (may_take_at ms) _ sched U (busy_confined ML t f ms G)) as (A1 & A2 & (E & B1 & B2 & B3 & B4) & _).
  fold s in A1, A2, B1, B2, B3, B4.
  assert (Len : length (snd (busy ML f ms)) = length ms) by (unfold busy; cbn [snd]; apply map_length). rewrite Len in *.
  split; auto. split; auto. exists E. split; auto. intros i m e a e1 N N1.
  destruct (B1 _ _ _ _ _ (busy_nth ML f ms i m e N) N1) as (mk & op & e2 & Sl & Fe & F1 & F2). exists mk, op.
  pose proof (request_same ML (S (length (e_w e))) m (mkEnv f (e_w e) mk op) (mkEnv f (e_w e) mk op)) as K.
  destruct (run_request ML m (mkEnv f (e_w e) mk op)) as [a' e'].
  destruct K as (e3 & Q & F & _); [split; [apply esame_refl|cbn [e_w]; lia]|]. cbn [fst busy] in Sl. rewrite Sl in Q. injection Q as <- <-.
  exists e'. split; auto. split; [intros p; now rewrite <- F|]. split; auto.
  eapply hears_weaken; [|exact F1]. intros x [-> (p & k & Nk & T1 & T2)]. split; auto. unfold may_take_at in T1, T2. rewrite N in T1.
  destruct (nth_error ms k) as [[m' e2']|] eqn:Nk2; [|contradiction]. exists p, k, m', e2'. auto.
Qed.

(** So a request whose directory names nobody else tries does not notice the others at all. *)
Theorem C109_independent : forall ML t f ms sched i m e a e1, usable t f -> housed t ms ->
  nth_error ms i = Some (m, e) ->
  (forall k m' e', k <> i -> nth_error ms k = Some (m', e') -> forall p, may_take m p -> ~ may_take m' p) ->
  nth_error (snd (turns sched (busy ML f ms))) i = Some (PRet a, e1) ->
  exists e', run_request ML m (set_fs f e) = (a, e') /\
    forall p n, e_fs e' p = Some n -> fst (turns sched (busy ML f ms)) p = Some n.
Proof.
  intros ML t f ms sched i m e a e1 U G N Apart N1. destruct (C109_alone ML t f ms sched U G) as (_ & _ & E & A & Sub & _).
  destruct (A _ _ _ _ _ N N1) as (mk & op & e' & Run & Fe & F1 & F2).
  apply hears_weaken with (Y := never) in F1; [|intros x [_ (p & k & v' & e2 & Nk & Nl & T1 & T2)]; eapply Apart; eauto].
  apply hears_alike in F1, F2.
  pose proof (request_same ML (S (length (e_w e))) m (mkEnv f (e_w e) mk op) (mkEnv f (e_w e) mk op)) as K. rewrite Run in K.
  destruct K as (e2 & S1 & Se & _); [split; [apply esame_refl|cbn [e_w]; lia]|].
  pose proof (request_same ML (S (length (e_w e))) m (set_fs f e) (set_fs f e)) as K.
  destruct (run_request ML m (set_fs f e)) as [a' e3] eqn:R.
  destruct K as (e4 & S2 & Se' & _); [split; [apply esame_refl|cbn [set_fs e_w]; lia]|].
  destruct (lulled_solo (prequest ML (S (length (e_w e))) m) (mkEnv f (e_w e) mk op) (set_fs f e)) as [L1 L2]; [repeat split; auto|].
  rewrite S1, S2 in L1, L2. cbn [fst snd] in L1, L2. subst a'. exists e3. split; auto. intros p n Hp. apply (Sub i); [apply nth_error_Some; congruence|].
  destruct L2 as [L2 _]. rewrite <- Fe, <- Se, L2, Se'. exact Hp.
Qed.

(** The names of the two kinds are different whatever is drawn, if the handlers use another prefix than the middleware. *)
Lemma kinds_apart l v p : l_prefix l <> bs "multipart-iron" -> tries_name l p -> may_try v p -> False.
Proof.
  intros Np (k & _ & ->) (k' & _ & E). apply app_inj_tail in E as [_ E]. apply Np.
  assert (L : length (l_prefix l) = length (bs "multipart-iron")).
  { apply (f_equal (@length _)) in E. rewrite !app_length, !(proj1 (random_alnum _ _)) in E. lia. }
  clear - E L. revert E L. generalize (bs "multipart-iron") as y. generalize (l_prefix l) as x.
  induction x as [|c x IH]; intros [|d y] E L; cbn [length] in L; try discriminate; auto.
  injection E as <- E. injection L as L. f_equal. now apply IH.
Qed.

(** So a request through the middleware notices at most others through it, and one by hand at most others by hand. *)
Theorem C109_kinds : forall ML t f ms sched i m e a e1, usable t f -> housed t ms ->
  nth_error ms i = Some (m, e) ->
  (forall k l e', nth_error ms k = Some (ByHand l, e') -> l_prefix l <> bs "multipart-iron") ->
  (forall k m' e', k <> i -> nth_error ms k = Some (m', e') ->
     match m, m' with
     | ByHand l, ByHand l' => forall p, tries_name l p -> ~ tries_name l' p
     | Through v, Through v' => forall p, may_try v p -> ~ may_try v' p
     | _, _ => True
     end) ->
  nth_error (snd (turns sched (busy ML f ms))) i = Some (PRet a, e1) ->
  exists e', run_request ML m (set_fs f e) = (a, e') /\
    forall p n, e_fs e' p = Some n -> fst (turns sched (busy ML f ms)) p = Some n.
Proof.
  intros ML t f ms sched i m e a e1 U G N Pre Apart N1. eapply C109_independent; eauto.
  intros k m' e' Nk Nm p T1 T2. specialize (Apart k m' e' Nk Nm). destruct m as [l|v], m' as [l'|v']; cbn [may_take] in *.
  - eapply Apart; eauto.
  - eapply kinds_apart; eauto.
  - eapply kinds_apart; eauto.
  - eapply Apart; eauto.
Qed.

(** What is new on the disk belongs to a request that is not over or does not remove its directory (or that the bounds of the model cut short).
    So when all are over and remove theirs, the disk is the one of the start. *)
Theorem C109_clear : forall ML t f ms sched, usable t f -> housed t ms ->
  let s := turns sched (busy ML f ms) in
  (forall p n, fst s p = Some n -> f p = Some n \/
     exists i m e q e1, nth_error ms i = Some (m, e) /\ nth_error (snd s) i = Some (q, e1) /\
       ((forall a, q <> PRet a) \/ ~ removes m \/ exists a, q = PRet a /\ ~ whole a)) /\
  ((forall i m e, nth_error ms i = Some (m, e) -> removes m /\ exists a e1, nth_error (snd s) i = Some (PRet a, e1) /\ whole a) ->
   forall p, fst s p = f p).
Proof.
  intros ML t f ms sched U G s. destruct (pool_alone t (busy ML f ms) (may_take_at ms) _ sched U (busy_confined ML t f ms G)) as (A1 & A2 & _ & A4).
  destruct (C109_alone ML t f ms sched U G) as (_ & _ & E & A & _). fold s in A, A1, A2, A4.
  assert (K : forall p n, fst s p = Some n -> f p = Some n \/
     exists i m e q e1, nth_error ms i = Some (m, e) /\ nth_error (snd s) i = Some (q, e1) /\
       ((forall a, q <> PRet a) \/ ~ removes m \/ exists a, q = PRet a /\ ~ whole a)).
  { intros p n Hp. destruct (A4 p n Hp) as [|(i & q & e1 & N1 & D)]; auto. right.
    assert (Li : i < length ms).
    { assert (L : length (snd s) = length ms).
      { destruct (lives_all t (busy ML f ms) (may_take_at ms) _ (proj1 U) (proj2 U) (busy_confined ML t f ms G) sched) as (ph & G' & (_ & _ & _ & _ & _ & L & _)).
        fold s in L. rewrite L. unfold busy. cbn [snd]. apply map_length. }
      rewrite <- L. apply nth_error_Some. congruence. }
    destruct (nth_error ms i) as [[m e]|] eqn:N; [|apply nth_error_None in N; lia]. exists i, m, e, q, e1. split; auto. split; auto.
    destruct D as [D|(a & r & -> & D)]; auto. right. specialize (D m e eq_refl). unfold left_nothing in D.
    destruct a as [a|[[o|y| |] looks]].
    - left. intros Rm. exact (D Rm I r eq_refl).
    - left. intros Rm. exact (D Rm I r eq_refl).
    - left. intros Rm. exact (D Rm I r eq_refl).
    - exfalso. destruct (A _ _ _ _ _ N N1) as (mk & op & e' & Run & _). destruct m as [l|v]; cbn [run_request] in Run.
      + destruct (run_life ML l _); discriminate.
      + pose proof (visit_no_panic ML v (mkEnv f (e_w e) mk op)) as NP. destruct (run_visit ML v _) as [a' e2]. injection Run as -> _. now apply NP.
    - right. eexists. split; [reflexivity|]. cbn [whole]. auto. }
  split; [exact K|]. intros All p. destruct (fst s p) as [n|] eqn:Ep.
  - destruct (K p n Ep) as [|(i & m & e & q & e1 & N & N1 & D)]; auto. exfalso. destruct (All _ _ _ N) as (Rm & a & e2 & N2 & Wh).
    rewrite N1 in N2. injection N2 as -> ->. destruct D as [D|[D|(a' & Q & D)]]; [eapply D; reflexivity|contradiction|injection Q as <-; contradiction].
  - destruct (f p) as [n|] eqn:F; auto. apply A2 in F. congruence.
Qed.

(** A request that gets a turn again and again comes to its end. *)
Theorem C109_fair : forall ML f ms (turn_of : nat -> nat) i, i < length ms -> (forall n, exists m, n <= m /\ turn_of m = i) ->
  exists n a, forall m, n <= m -> exists e, nth_error (snd (turns (map turn_of (seq 0 m)) (busy ML f ms))) i = Some (PRet a, e).
Proof.
  intros ML f ms turn_of i Li Fair. destruct (nth_error ms i) as [[m e]|] eqn:N; [|apply nth_error_None in N; lia].
  destruct (ends turn_of (busy ML f ms) i Fair _ _ 0 (busy_nth ML f ms i m e N)) as (n & a & e' & D).
  exists n, a. exact (stays turn_of (busy ML f ms) i a n e' D).
Qed.

(** ** Forms sent to both *)

Lemma lone_turns {A} (l : list nat) : forall f (q : prog A) e, exists f' q' e', turns (map (fun _ => 0) l) (f, [(q, e)]) = (f', [(q', e')]) /\
  solo q (set_fs f e) = solo q' (set_fs f' e').
Proof.
  induction l as [|x l IH]; intros f q e; [eexists _, _, _; split; reflexivity|]. cbn [map turns].
  unfold turn at 1. cbn [nth_error fst snd]. rewrite (solo_step q (set_fs f e)). change (mkEnv f (e_w e) (e_mkdir e) (e_open e)) with (set_fs f e).
  destruct (step q (set_fs f e)) as [q1 e1]. cbn [set_nth]. destruct (IH (e_fs e1) q1 e1) as (f' & q' & e' & E & Sl).
  exists f', q', e'. split; auto. rewrite <- Sl. f_equal. now destruct e1.
Qed.

Lemma saved_as_more {ML} (f g : fs) (hv : field_headers ML * saved) hc : (forall p n, f p = Some n -> g p = Some n) -> saved_as f hv hc -> saved_as g hv hc.
Proof.
  intros Sg [H1 (w & Rd & Pd)]. split; auto. exists w. split; auto.
  destruct hv as [h0 v0]. cbn [snd fst] in *. destruct v0 as [v|v|p m]; cbn [readable] in *; auto.
  destruct (f p) as [[|v]|] eqn:Ep; try discriminate. now rewrite (Sg _ _ Ep).
Qed.

Lemma life_arrived ML t f l e u b fields a e' : usable t f -> in_base t [(l, e)] ->
  l_reader l = with_body u b -> live u -> quiet u -> parts (head_block ML (l_trim l) (delimiter b)) (delimiter b) (stream u) fields ->
  roomy f l e u fields -> run_life ML l (set_fs f e) = (a, e') ->
  forall disk, (forall p n, e_fs e' p = Some n -> disk p = Some n) -> arrived l fields disk a.
Proof.
  intros U B R L Q P Ro Run disk Sub.
  destruct (C105_arrives ML t f [(l, e)] (fun _ => 0) 0 l e u b fields U B eq_refl) as (n & a' & D); auto.
  { intros k. exists k. auto. }
  { intros [|k] l' e2 Nk Nl; [congruence|]. destruct k; discriminate. }
  destruct (D n (le_n n)) as [[e1 N1] Ar]. cbn [map] in *.
  destruct (lone_turns (seq 0 n) f (plife ML (S (length (e_w e))) l) e) as (f' & q' & e2 & Tn & Sl).
  change (born ML f [(l, e)]) with (f, [(plife ML (S (length (e_w e))) l, e)]) in *. rewrite Tn in *. cbn [fst snd nth_error] in *.
  injection N1 as -> ->. cbn [solo] in Sl.
  pose proof (life_same ML (S (length (e_w e))) l (set_fs f e) (set_fs f e)) as K. rewrite Run in K.
  destruct K as (e3 & S2 & Se & _); [split; [apply esame_refl|cbn [set_fs e_w]; lia]|].
  rewrite Sl in S2. injection S2 as <- <-. cbn [set_fs e_fs] in Se.
  destruct Ar as (en & g & r & looks & y & F & name & A1 & A2 & A3 & A4 & A5 & A6 & A7).
  exists en, g, r, looks, y, F, name. repeat (split; auto). intros K nm. specialize (A7 K nm).
  induction A7; constructor; auto. eapply saved_as_more; [|eassumption]. intros p nd Hp. apply Sub. now rewrite <- Se.
Qed.

(** A request by hand gets its form and keeps or drops it; one through the middleware is decided. *)
Definition settled {ML} (m : request) (fields : list (field_headers ML * bytes)) (disk : fs) (a : answer ML) : Prop :=
  match m, a with
  | ByHand l, inl a => arrived l fields disk a
  | Through v, inr a => decided v fields a
  | _, _ => False
  end.

(** Any number of clients send their forms at once, some to handlers that save by hand, with limits that have room for the form, and some through the
    middleware.  The names that are drawn need to differ only among the requests of a kind.  If all get turns, at some time all are over and
    settled; and if the ones by hand drop or delete their directories, nothing is left on the disk. *)
Theorem C109_crowd : forall ML octet guess t f ms (forms : nat -> list (field_headers ML * bytes)) turn_of, usable t f -> housed t ms ->
  (forall i n, i < length ms -> exists m, n <= m /\ turn_of m = i) ->
  (forall k l e, nth_error ms k = Some (ByHand l, e) -> l_prefix l <> bs "multipart-iron") ->
  (forall i k m m' e e', i <> k -> nth_error ms i = Some (m, e) -> nth_error ms k = Some (m', e') ->
     match m, m' with
     | ByHand l, ByHand l' => forall p, tries_name l p -> ~ tries_name l' p
     | Through v, Through v' => forall p, may_try v p -> ~ may_try v' p
     | _, _ => True
     end) ->
  (forall i m e, nth_error ms i = Some (m, e) ->
     match m with
     | ByHand l => upload ML octet guess f l e (forms i)
     | Through v => from_client ML octet guess v (forms i) /\ welcome f v e (forms i) /\ v_rm v = RmOk /\
         (ic_continue (v_ic v) = false \/ (fits v (forms i) /\ (N.of_nat (length (forms i)) < ic_count (v_ic v))%N))
     end) ->
  exists n, forall m, n <= m -> let s := turns (map turn_of (seq 0 m)) (busy ML f ms) in
    (forall i m e, nth_error ms i = Some (m, e) ->
       exists a e1, nth_error (snd s) i = Some (PRet a, e1) /\ settled m (forms i) (fst s) a) /\
    ((forall l e, In (ByHand l, e) ms -> cleared l) -> forall p, fst s p = f p).
Proof.
  intros ML octet guess t f ms forms turn_of U G Fair Pre Apart H.
  destruct (all_of (fun i k => forall m e, nth_error ms i = Some (m, e) ->
     exists a e1, nth_error (snd (turns (map turn_of (seq 0 k)) (busy ML f ms))) i = Some (PRet a, e1) /\
       settled m (forms i) (fst (turns (map turn_of (seq 0 k)) (busy ML f ms))) a) (length ms)) as (n & K).
  - intros i Li. destruct (nth_error ms i) as [[m e]|] eqn:N; [|apply nth_error_None in N; lia].
    destruct (C109_fair ML f ms turn_of i Li (fun n => Fair i n Li)) as (n & a & Done). exists n. intros k Lk m' e' E. injection E as <- <-.
    destruct (Done k Lk) as [e1 N1]. exists a, e1. split; auto.
    destruct (C109_kinds ML t f ms _ i m e a e1 U G N Pre (fun k m' e' Nk => Apart i k m m' e e' (fun X => Nk (eq_sym X)) N) N1) as (e' & Run & Sub).
    specialize (G m e (nth_error_In _ _ N)). specialize (H i m e N). destruct m as [l|v]; cbn [run_request] in Run.
    + destruct (run_life ML l (set_fs f e)) as [a' e2] eqn:R. injection Run as <- <-. cbn [settled].
      destruct H as (gc & u & Po & Lu & Qu & Rd & Ro). eapply life_arrived; eauto. eapply posted_parts; eauto.
    + destruct (run_visit ML v (set_fs f e)) as [a' e2] eqn:R. injection Run as <- <-. cbn [settled].
      destruct H as ((gc & Po & Bo & Lu & Qu) & We & _ & Co). destruct (G v e (or_introl eq_refl)) as (Bt & _).
      eapply visit_decided; eauto. eapply posted_parts; eauto.
  - exists n. intros k Lk s. assert (K' := K k Lk).
    assert (All : forall i m e, nth_error ms i = Some (m, e) -> exists a e1, nth_error (snd s) i = Some (PRet a, e1) /\ settled m (forms i) (fst s) a).
    { intros i m e N. apply (K' i) with (e := e); auto. apply nth_error_Some. congruence. }
    split; [exact All|]. intros Cl. refine (proj2 (C109_clear ML t f ms (map turn_of (seq 0 k)) U G) _). intros i m e N.
    destruct (All i m e N) as (a & e1 & N1 & D). split.
    + destruct m as [l|v]; [exact (Cl l e (nth_error_In _ _ N))|]. apply (H i _ e N).
    + exists a, e1. split; auto. destruct m as [l|v], a as [a|[x looks]]; try contradiction; cbn [whole]; auto. cbn [settled] in D. destruct D as [D _].
      destruct D as [[(en & lk & F & nm & E & _) _]|[[E _]|(h & c & E & _)]]; injection E as -> _; exact I.
Qed.

(** The two requests of C105 and the four of C108 at once: the first of each draws the same samples, and so do the second ones. *)
Definition six : list (request * env) :=
  map (fun le => (ByHand (fst le), snd le)) pair_lives ++ map (fun ve => (Through (fst ve), snd ve)) four.

Definition six_forms (i : nat) : list (field_headers toy * bytes) :=
  match i with 0 | 1 => pair_forms i | S (S j) => four_forms j end.

Lemma six_at i m e : nth_error six i = Some (m, e) ->
  (exists l, m = ByHand l /\ nth_error pair_lives i = Some (l, e) /\ six_forms i = pair_forms i) \/
  exists v j, m = Through v /\ i = 2 + j /\ nth_error four j = Some (v, e) /\ six_forms i = four_forms j.
Proof.
  intros H. destruct i as [|[|i]].
  - injection H as <- <-. left. eexists. split; [reflexivity|]. split; reflexivity.
  - injection H as <- <-. left. eexists. split; [reflexivity|]. split; reflexivity.
  - right. change (nth_error six (S (S i))) with (nth_error (map (fun ve => (Through (fst ve), snd ve)) four) i) in H. rewrite nth_error_map in H.
    destruct (nth_error four i) as [[v e']|] eqn:N; [|discriminate]. injection H as <- <-. exists v, i. auto.
Qed.

Example C109_example :
  usable tmp only_tmp /\ housed tmp six /\
  (forall i n, i < length six -> exists m, n <= m /\ Nat.modulo m 6 = i) /\
  (forall k l e, nth_error six k = Some (ByHand l, e) -> l_prefix l <> bs "multipart-iron" /\ cleared l) /\
  (forall i k m m' e e', i <> k -> nth_error six i = Some (m, e) -> nth_error six k = Some (m', e') ->
     match m, m' with
     | ByHand l, ByHand l' => forall p, tries_name l p -> ~ tries_name l' p
     | Through v, Through v' => forall p, may_try v p -> ~ may_try v' p
     | _, _ => True
     end) /\
  (forall i m e, nth_error six i = Some (m, e) ->
     match m with
     | ByHand l => upload toy (bs "o/s") any_guess only_tmp l e (six_forms i)
     | Through v => from_client toy (bs "o/s") any_guess v (six_forms i) /\ welcome only_tmp v e (six_forms i) /\ v_rm v = RmOk /\
         (ic_continue (v_ic v) = false \/ (fits v (six_forms i) /\ (N.of_nat (length (six_forms i)) < ic_count (v_ic v))%N))
     end) /\
  map (fun qe => match fst qe with PRet (inl a) => Some (inl (told (PRet a))) | PRet (inr a) => Some (inr (answered (PRet a))) | _ => None end)
    (snd (turns (map (fun m => Nat.modulo m 6) (seq 0 200)) (busy toy only_tmp six))) =
    [Some (inl (Some ([SText (bs "text"); SBytes (bs "data")], [None])));
     Some (inl (Some ([SText (bs "text"); SFile (tmp ++ [bs "m-" ++ repeat 75%N 6; repeat 76%N 12]) 8; SBytes (bs "data")], [Some (NFile (bs "abcdefgh"))])));
     Some (inr (Some (inr (map Some [bs "text"; bs "data"], [])))); Some (inr (Some (inl (ICountLimit toy 2))));
     Some (inr (Some (inr (map Some [bs "text"; bs "abcdefgh"; bs "data"], [])))); Some (inr (Some (inl (ISizeLimit toy (mkFH toy (bs "a") None None)))))].
Proof.
  destruct C105_example as (U & B & Ap & Up & _). destruct C108_example as (_ & G & Av & Fc & _).
  split; [exact U|]. split; [|split; [|split; [|split; [|split]]]].
  - intros m e Hin. apply In_nth_error in Hin as [i N]. apply six_at in N as [(l & -> & N & _)|(v & j & -> & _ & N & _)]; apply nth_error_In in N.
    + intros l' e' [X|[]]. injection X as <- <-. now apply (B l e).
    + intros v' e' [X|[]]. injection X as <- <-. now apply (G v e).
  - intros i n Li. exists (6 * n + i). change (length six) with 6 in Li. split; [lia|]. rewrite Nat.add_comm, Nat.mul_comm, Nat.mod_add by lia. now apply Nat.mod_small.
  - intros k l e N. apply six_at in N as [(l' & X & N & _)|(v & j & X & _)]; [|discriminate]. injection X as <-. split; [|apply (Up k l e N)].
    destruct k as [|[|k]]; [| |destruct k; discriminate N]; injection N as <- _; vm_compute; discriminate.
  - intros i k m m' e e' Nik Ni Nk. apply six_at in Ni as [(l & -> & Ni & _)|(v & j & -> & -> & Ni & _)];
      apply six_at in Nk as [(l' & -> & Nk & _)|(v' & j' & -> & -> & Nk & _)]; auto.
    + intros p. exact (Ap i k l l' e e' p Nik Ni Nk).
    + intros p. refine (Av j j' v v' e e' p _ Ni Nk). congruence.
  - intros i m e N. apply six_at in N as [(l & -> & N & ->)|(v & j & -> & -> & N & ->)].
    + apply (Up i l e N).
    + exact (Fc j v e N).
  - vm_compute. reflexivity.
Qed.
