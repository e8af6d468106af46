(** Property theorems about the methods that configure the crate (C91). *)

From Verif Require Import Bytes BytesProofs Spec Io Boundary BoundaryProofs Utf8 Utf8Proofs Httparse Field FieldProofs
  ContentProofs DataProofs ShortProofs EntryProofs ReaderProofs Drive DriveProofs ReachProofs Rand Fs Save SaveProofs PhaseProofs SaveFacts
  TextProofs Toy PropsReader PropsSave EntriesProofs CompleteProofs PropsEntries HeaderSpec HeaderProofs PropsHeader WireSpec Client ClientProofs WireProofs
  PropsClient Lazy LazyProofs PropsLazy Mock PropsMock Savedir PropsSavedir Iron IronProofs PropsIron Requests PropsRequests PropsUpload Results PropsResults
  Readers PropsReaders PropsForeach PropsAny Servers PropsServers Examples PropsExamples PropsAnyway Builders.

(** Specification: the last value given, or the one assumed if none is given. *)
Definition last_given {S A} (pick : S -> option A) (default : A) (ss : list S) (a : A) : Prop :=
  (a = default /\ Forall (fun s => pick s = None) ss) \/
  exists l1 s l2, ss = l1 ++ s :: l2 /\ pick s = Some a /\ Forall (fun s => pick s = None) l2.

Lemma last_fold {S A C} (pick : S -> option A) (set : C -> S -> C) (get : C -> A) :
  (forall c s, get (set c s) = match pick s with Some a => a | None => get c end) ->
  forall ss c, last_given pick (get c) ss (get (fold_left set ss c)).
Proof.
  intros H ss. induction ss as [|s ss IH] using rev_ind; intros c; [left; auto|]. rewrite fold_left_app. cbn [fold_left]. rewrite H.
  destruct (pick s) as [a|] eqn:P.
  - right. exists ss, s, []. auto.
  - destruct (IH c) as [[E F]|(l1 & s' & l2 & -> & P' & F)].
    + left. split; auto. apply Forall_app. auto.
    + right. exists l1, s', (l2 ++ [s]). rewrite <- app_assoc. split; auto. split; auto. apply Forall_app. auto.
Qed.

(** ** SaveBuilder *)

Definition pick_size (b : bsetting) : option N := match b with BSize l => Some (match l with Some n => n | None => 2 ^ 64 - 1 end)%N | _ => None end.
Definition pick_count (b : bsetting) : option N := match b with BCount l => Some (match l with Some n => n | None => 2 ^ 32 - 1 end)%N | _ => None end.
Definition pick_threshold (b : bsetting) : option N := match b with BThreshold n => Some n | _ => None end.
Definition pick_policy (b : bsetting) : option text_policy := match b with BPolicy p => Some p | _ => None end.

(** Each setting is the one given last, whatever else is set before, between and after; without it, a file may have 8 MiB, a
    request 256 fields, a field 10 KiB in memory, and text is tried. *)
Theorem C91_save : forall bs,
  last_given pick_size (8 * 2 ^ 20)%N bs (s_size_limit (built bs)) /\
  last_given pick_count 256%N bs (s_count_limit (built bs)) /\
  last_given pick_threshold (10 * 2 ^ 10)%N bs (s_threshold (built bs)) /\
  last_given pick_policy TTry bs (s_policy (built bs)).
Proof.
  intros bs. unfold built.
  split; [|split; [|split]];
    [apply (last_fold pick_size bset s_size_limit)|apply (last_fold pick_count bset s_count_limit)
    |apply (last_fold pick_threshold bset s_threshold)|apply (last_fold pick_policy bset s_policy)];
    intros c []; try reflexivity; destruct l; reflexivity.
Qed.

(** Files are opened with [create_new] unless the options are changed; changes are made in the order of the calls. *)
Theorem C91_options : forall bs,
  s_opts (built bs) = fold_left (fun o b => match b with BOpts f => f o | _ => o end) bs (mkOpts true false false false).
Proof.
  intros bs. unfold built. change (mkOpts true false false false) with (s_opts saver_new). generalize saver_new as s.
  induction bs as [|b bs IH]; intros s; [reflexivity|]. cbn [fold_left]. rewrite IH. f_equal. destruct b; reflexivity.
Qed.

(** ** Intercept *)

Definition pick_isize (s : isetting) : option N := match s with ISize n => Some n | _ => None end.
Definition pick_icount (s : isetting) : option N := match s with ICount n => Some n | _ => None end.
Definition pick_itemp (s : isetting) : option (option path) := match s with ITempPath p => Some (Some p) | _ => None end.
Definition pick_ilimit (s : isetting) : option bool := match s with ILimit c => Some c | _ => None end.

Lemma configured_is ss : last_given pick_isize (2 * 2 ^ 20)%N ss (ic_size (configured ss)) /\ last_given pick_icount 16%N ss (ic_count (configured ss)) /\
  last_given pick_itemp None ss (ic_temp (configured ss)) /\ last_given pick_ilimit false ss (ic_continue (configured ss)).
Proof.
  unfold configured. split; [|split; [|split]];
    [apply (last_fold pick_isize iset ic_size)|apply (last_fold pick_icount iset ic_count)
    |apply (last_fold pick_itemp iset ic_temp)|apply (last_fold pick_ilimit iset ic_continue)]; intros c []; reflexivity.
Qed.

Lemma last_unique {S A} (pick : S -> option A) d ss a a' : last_given pick d ss a -> last_given pick d ss a' -> a = a'.
Proof.
  assert (Q : forall l1 s l2, pick s <> None -> Forall (fun s => pick s = None) (l1 ++ s :: l2) -> False).
  { intros l1 s l2 P F. apply Forall_app in F as [_ F]. apply Forall_inv in F. congruence. }
  intros [[E F]|(l1 & s & l2 & E & P & F)] [[E' F']|(l1' & s' & l2' & E' & P' & F')].
  - congruence.
  - exfalso. subst ss. eapply Q; [|exact F]. congruence.
  - exfalso. subst ss. eapply Q; [|exact F']. congruence.
  - subst ss. revert l1' E'. induction l1 as [|x l1 IH]; intros [|x' l1'] E'; cbn [app] in E'.
    + injection E' as -> _. congruence.
    + exfalso. injection E' as <- ->. eapply Q; [|exact F]. congruence.
    + exfalso. injection E' as <- <-. eapply Q; [|exact F']. congruence.
    + injection E' as _ E'. eauto.
Qed.

(** The middleware as configured, if it is not told to continue: a form with fewer fields than the limit (16) and contents within
    the size limit (2 MiB), whichever was given last, is let through with its fields saved below the directory given last;
    a form with as many fields as the limit is refused, and the answer names the limit. *)
Theorem C91_middleware : forall ML trim ss size count tmp ev ev0 os_temp tries rounds g q e b l,
  let base := match tmp with Some p => p | None => os_temp end in
  let t := hy_body (ir_head ML q) in
  last_given pick_isize (2 * 2 ^ 20)%N ss size -> last_given pick_icount 16%N ss count -> last_given pick_itemp None ss tmp ->
  last_given pick_ilimit false ss false ->
  ir_entries ML q = None -> canonical_request (ir_head ML q) -> form_request (mkHyper Post (hy_type (ir_head ML q)) t) b ->
  live t -> quiet t -> exact_chunks (delimiter b) t (map snd l) -> (count < 2 ^ 32)%N ->
  parts (head_block ML trim (delimiter b)) (delimiter b) (stream t) l ->
  0 < tries -> temp_ready e base (bs "multipart-iron") g (length l) ->
  Forall (fun hc => (N.of_nat (length (snd hc)) <= size)%N) l ->
  exists fuel0, forall fuel, fuel0 <= fuel ->
    let '(x, q', e') := before ML trim (configured ss) ev ev0 os_temp tries rounds fuel g q e in
    if (N.of_nat (length l) <? count)%N
    then exists en, x = Ok tt /\ q' = mkIron ML (ir_head ML q) (Some en) /\ fields_of en = length l /\ (forall n, found en (e_fs e') n = sent_as l n) /\
           exists name, dir_of en = Temp (base ++ [bs "multipart-iron" ++ name])
    else exists y d, x = Err y /\ q' = q /\ in_decimal d count /\ iron_text ML y = bs "File count limit reached for request. Limit: " ++ d.
Proof.
  intros ML trim ss size count tmp ev ev0 os_temp tries rounds g q e b l base t H1 H2 H3 H4 En C Fr Hl Hq Hns Lc P Lt T Fs.
  destruct (configured_is ss) as (K1 & K2 & K3 & K4). pose proof (last_unique _ _ _ _ _ H1 K1) as E1. pose proof (last_unique _ _ _ _ _ H2 K2) as E2.
  pose proof (last_unique _ _ _ _ _ H3 K3) as E3. pose proof (last_unique _ _ _ _ _ H4 K4) as E4. clear H1 H2 H3 H4 K1 K2 K3 K4. subst size count tmp.
  symmetry in E4. set (ic := configured ss) in *. assert (Lc' : (ic_count ic <= U32MAX)%N) by (unfold U32MAX; lia).
  destruct (N.ltb_spec (N.of_nat (length l)) (ic_count ic)) as [L|L].
  - destruct (C82_accepted_partial ML trim ic ev ev0 os_temp tries rounds g q e b l E4 En C Fr Hl Hq Hns Lc' P Lt T L Fs) as [fuel0 K].
    exists fuel0. intros fuel Lf. destruct (K fuel Lf) as (en & e' & H & _ & F & S0). rewrite H. exists en.
    split; auto. split; auto. split; auto. split; auto.
    destruct (temp_first tries _ _ _ _ _ Lt T) as (e1 & Td & _ & _). fold base in Td.
    unfold before, read_request in H. rewrite (proj2 (C50_iron_partial _ b C) Fr) in H. fold base t in H. rewrite Td, E4 in H.
    unfold read_request_strict, with_temp_dir in H.
    set (dir := base ++ [bs "multipart-iron" ++ fst (random_alphanumeric 6 g)]) in *.
    destruct (with_entries ML trim (iron_saver ic) fuel (entries_new ML dir true) _ (with_body t b) e1) as [[[y g'] r'] e2] eqn:W.
    apply C54_saving in W. destruct y as [en'|pe [| |z|]|z| |]; try discriminate; [|destruct (pe_partial ML pe) as [[? ?]|]; discriminate].
    injection H as <- _. exists (fst (random_alphanumeric 6 g)). exact W.
  - destruct (temp_first tries _ _ _ _ _ Lt T) as (e1 & Td & G1 & F1). fold base in Td, F1.
    destruct (C46_count ML trim ic ev _ _ t b e1 l Hl Hq Hns Lc' P G1 F1 L Fs) as [fuel0 K]. exists fuel0. intros fuel Lf. specialize (K fuel Lf).
    unfold before, read_request. rewrite (proj2 (C50_iron_partial _ b C) Fr). fold base t. rewrite Td, E4.
    destruct (read_request_strict _ _ _ _ _ _ _ _ e1) as [x e2]. cbn [fst] in K. rewrite K.
    exists (ICountLimit ML (ic_count ic)), (decimal (ic_count ic)). split; auto. split; auto. split; [apply decimal_spec|reflexivity].
Qed.

(** ** The lazy client *)

(** Specification: the part that a call adds; what a stream or an opened file gives. *)
Definition call_source {ML} (a : ladd ML) : transport :=
  match a with AddText _ _ _ => [] | AddFile _ _ _ o => match o with inr (_, src) => src | inl _ => [] end | AddStream _ _ src _ _ => src end.

Definition call_part {ML} (octet : mime ML) (guess : path -> mime ML) (a : ladd ML) : part :=
  match a with
  | AddText _ n t => mkPart n None None t
  | AddFile _ n p _ => mkPart n (opt_filename p) (Some (mime_show ML (guess p))) (retried (call_source a))
  | AddStream _ n _ f ct => mkPart n f (Some (mime_show ML (match ct with Some c => c | None => octet end))) (retried (call_source a))
  end.

Definition adds_text {ML} (a : ladd ML) : bool := match a with AddText _ _ _ => true | _ => false end.

Lemma formed_map {ML} (octet : mime ML) cs : formed ML octet cs = map (fun a => hd (mkLF [] (LText [])) (add1 ML octet [] a)) cs.
Proof.
  unfold formed, lazy_new. induction cs as [|a cs IH] using rev_ind; [reflexivity|]. rewrite fold_left_app, map_app. cbn [fold_left map]. rewrite IH.
  destruct a; reflexivity.
Qed.

(** Whatever is added, in whatever order and by whichever calls: a successful [send] writes the texts in the order of the calls
    and then the files and streams in the reverse order. *)
Theorem C91_lazy : forall ML octet guess g cs q q' fs',
  lazy_send ML guess g (formed ML octet cs) q = (Ok tt, q', fs') -> Forall (fun a => kinds (fun k => k <> KInterrupted) (call_source a)) cs ->
  exists len ds, q_log q' = q_log q ++ [CApply (boundary_of g) len; COpen] ++ map CWrite ds ++ [CFinish] /\
    concat ds = lazy_wire (boundary_of g) (map (call_part octet guess) (filter adds_text cs ++ rev (filter (fun a => negb (adds_text a)) cs))).
Proof.
  intros ML octet guess g cs q q' fs' H K. rewrite formed_map in H. set (F := fun a => hd (mkLF [] (LText [])) (add1 ML octet [] a)) in *.
  assert (Ks : Forall (fun f => kinds (fun k => k <> KInterrupted) (l_source ML f)) (map F cs)).
  { apply Forall_map. eapply Forall_impl; [|exact K]. intros a Ha. destruct a as [n t|n p o|n src f ct]; [|exact Ha|exact Ha]. constructor; [exact I|constructor]. }
  destruct (C24_send ML guess g _ q q' fs' H Ks) as (len & ds & L & E). exists len, ds. split; auto. rewrite E. unfold lazy_body_of, lazy_order. f_equal.
  assert (Q : forall p p', (forall a, p (F a) = p' a) -> forall l, filter p (map F l) = map F (filter p' l)).
  { intros p p' Hp l. induction l as [|a l IH]; [reflexivity|]. cbn [map filter]. rewrite Hp, IH. destruct (p' a); reflexivity. }
  assert (T : forall a, LazyProofs.is_text ML (F a) = adds_text a) by (intros []; reflexivity).
  rewrite (Q _ _ T), (Q _ (fun a => negb (adds_text a))) by (intros a; now rewrite T).
  rewrite <- map_rev, <- map_app, map_map. apply map_ext. intros [n t|n p o|n src f ct]; reflexivity.
Qed.

(** ** Examples *)

Example C91_save_example :
  let s := built [BSize (Some 5%N); BThreshold 7%N; BSize None; BCount (Some 3%N); BPolicy TForce; BOpts (fun o => mkOpts false true (o_truncate o) false)] in
  s = mkSaver (2 ^ 64 - 1) 3 7 TForce (mkOpts false true false false).
Proof. vm_compute. reflexivity. Qed.

Example C91_middleware_example :
  last_given pick_isize (2 * 2 ^ 20)%N [ICount 2%N; ISize 5000%N; ICount 3%N] 5000%N /\
  last_given pick_icount 16%N [ICount 2%N; ISize 5000%N; ICount 3%N] 3%N /\
  last_given pick_itemp None [ICount 2%N; ISize 5000%N; ICount 3%N] None /\
  last_given pick_ilimit false [ICount 2%N; ISize 5000%N; ICount 3%N] false.
Proof.
  split; [|split; [|split]].
  - right. exists [ICount 2%N], (ISize 5000%N), [ICount 3%N]. repeat constructor.
  - right. exists [ICount 2%N; ISize 5000%N], (ICount 3%N), []. repeat constructor.
  - left. repeat constructor.
  - left. repeat constructor.
Qed.

Example C91_lazy_example :
  let cs := [AddStream toy (bs "s") [Chunk (bs "12"); Chunk (bs "3")] None None; AddText toy (bs "a") (bs "x"); AddText toy (bs "b") (bs "y")] in
  let '(x, q', _) := lazy_send toy any_guess [] (formed toy (bs "o/s") cs) (plain_http []) in
  Forall (fun a => kinds (fun k => k <> KInterrupted) (call_source a)) cs /\ x = Ok tt /\ map p_name (map (call_part (ML := toy) (bs "o/s") any_guess) (filter adds_text cs ++ rev (filter (fun a => negb (adds_text a)) cs))) = [bs "a"; bs "b"; bs "s"].
Proof. vm_compute. split; [repeat constructor|]. split; reflexivity. Qed.
