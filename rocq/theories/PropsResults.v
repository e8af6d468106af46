(** Property theorems about the conversions of results and reading by value (C74) and [write_debug] (C75). *)

From Coq Require Import Permutation.
From Verif Require Import Bytes BytesProofs Spec Io Boundary BoundaryProofs Utf8 Httparse Field FieldProofs ContentProofs DataProofs ShortProofs
  EntryProofs ReaderProofs Drive DriveProofs ReachProofs Inplace Rand Fs Save SaveProofs
  WireSpec Client ClientProofs CompleteProofs Toy PropsReader PropsSave EntriesProofs PropsEntries Results.

(** ** C74: the conversions of results agree, and reading by value is reading with [foreach_entry] *)

(** Calls on one field. *)
Definition on_field (o : op) : Prop := o <> ONext.

Lemma frun_run ML trim os : Forall on_field os -> forall h r,
  frun ML trim os (mkMF ML h (Some r)) =
  (map Some (fst (run ML trim os r)), mkMF ML h (Some (snd (run ML trim os r)))).
Proof.
  induction 1 as [|o os Ho _ IH]; intros h r; cbn [frun run]; [reflexivity|].
  assert (E : fstep ML trim o (mkMF ML h (Some r)) = let '(x, r1) := step ML trim o r in (Some x, mkMF ML h (Some r1))).
  { destruct o; try reflexivity. now elim Ho. }
  rewrite E. destruct (step ML trim o r) as [x r1]. rewrite IH. destruct (run ML trim os r1) as [xs r2]. reflexivity.
Qed.

(** Reading by value ([into_entry], [unwrap_opt], [next_entry]) makes the same visits with the same data as
    [foreach_entry]; it ends normally exactly when [foreach_entry] succeeds and panics with the error of
    [foreach_entry] otherwise. *)
Theorem C74_by_value : forall ML trim f fuel n r x l r',
  (forall n h, Forall on_field (f n h)) ->
  foreach_entry ML trim f fuel n r = (x, l, r') ->
  exists y, owned_loop ML trim f fuel n (into_entry ML trim r) = (y, map (fun v => (fst v, map Some (snd v))) l) /\
    (x = Ok tt <-> y = Some (Returns tt)) /\
    (forall k, x = Err k <-> exists msg, y = Some (Panics msg (Some k))).
Proof.
  intros ML trim f fuel n r x l r' Hf. revert n r x l r'. induction fuel as [|fuel IH]; intros n r x l r'; cbn [foreach_entry owned_loop].
  { intros H; injection H as <- <- <-. exists None. split; [reflexivity|]. split; [split; discriminate|].
    intros k. split; [discriminate|]. intros [? ?]; discriminate. }
  unfold into_entry at 1. destruct (read_entry ML trim r) as [[[h|]|k| |] r1] eqn:E.
  - cbn [unwrap_opt expect_opt mf_headers]. rewrite (frun_run _ _ _ (Hf n h)).
    destruct (run ML trim (f n h) r1) as [os r2]. cbn [fst snd]. unfold next_entry. cbn [mf_inner].
    destruct (foreach_entry ML trim f fuel (S n) r2) as [[x' l'] r3] eqn:F. intros H; injection H as <- <- <-.
    destruct (IH _ _ _ _ _ F) as (y & H1 & H2). rewrite H1. exists y. split; [reflexivity|exact H2].
  - intros H; injection H as <- <- <-. exists (Some (Returns tt)). split; [reflexivity|]. split; [split; reflexivity|].
    intros k. split; [discriminate|]. intros [? ?]; discriminate.
  - intros H; injection H as <- <- <-. eexists. split; [reflexivity|]. split; [split; discriminate|].
    intros k'. split; [intros X; injection X as <-; eexists; reflexivity|]. intros [m X]. injection X as _ <-. reflexivity.
  - intros H; injection H as <- <- <-. exists None. split; [reflexivity|]. split; [split; discriminate|].
    intros k. split; [discriminate|]. intros [? ?]; discriminate.
  - intros H; injection H as <- <- <-. exists None. split; [reflexivity|]. split; [split; discriminate|].
    intros k. split; [discriminate|]. intros [? ?]; discriminate.
Qed.

Example C74_by_value_example :
  let t := [Chunk (toy_part (bs "a") (bs "xy") ++ toy_part (bs "b") (bs "second") ++ toy_end)] in
  let f := fun n (_ : field_headers toy) => match n with 0 => [ORead 1; ORead 1; ORead 1] | _ => [] end in
  (forall n h, Forall on_field (f n h)) /\
  fst (fst (foreach_entry toy true f 4 0 (with_body t (bs "b")))) = Ok tt /\
  fst (owned_loop toy true f 4 0 (into_entry toy true (with_body t (bs "b")))) = Some (Returns tt) /\
  length (snd (owned_loop toy true f 4 0 (into_entry toy true (with_body t (bs "b"))))) = 2.
Proof.
  cbv zeta. split.
  - intros [|n] h; repeat constructor; discriminate.
  - vm_compute. auto.
Qed.

(** Reading on by value after whatever was returned, also after an error or the end: the [Multipart] handed back is the one that
    a caller of [read_entry] would still have. *)
Definition carried {ML} (x : rentry breader (mfield ML)) : option breader :=
  match x with REntry f => mf_inner ML f | REnd m => Some m | RError m _ => Some m end.

Fixpoint by_value ML trim (n : nat) (r : breader) : list (obs ML) :=
  match n with
  | 0 => []
  | S n' =>
      match into_entry ML trim r with
      | None => []
      | Some x =>
          BNext ML (match rentry_result x with Ok (Some f) => Ok (Some (mf_headers ML f)) | Ok None => Ok None | Err k => Err k | _ => Panic end) ::
          match carried x with Some r1 => by_value ML trim n' r1 | None => [] end
      end
  end.

Theorem C74_again : forall ML trim t b r n, reached ML trim t b r -> by_value ML trim n r = fst (run ML trim (repeat ONext n) r).
Proof.
  intros ML trim t b r n H. apply reached_inv in H as (I & _). revert r I. induction n as [|n IH]; intros r I; [reflexivity|].
  cbn [by_value repeat run step]. unfold into_entry. destruct (read_entry ML trim r) as [x r1] eqn:E.
  destruct (read_entry_inv ML _ _ _ _ I E) as (I1 & _ & _ & _ & N1 & N2). specialize (IH r1 I1).
  destruct (run ML trim (repeat ONext n) r1) as [bs r2]. cbn [fst] in *. destruct x as [[h|]|k| |]; cbn [rentry_result carried mf_headers mf_inner]; congruence.
Qed.

Example C74_again_example :
  let t := [Chunk (toy_part (bs "a") (bs "xy")); Fail (KOther 5); Chunk (toy_part (bs "b") (bs "second") ++ toy_end)] in
  map (fun o => match o with BNext _ (Ok (Some h)) => Some (fh_name toy h) | BNext _ (Err _) => Some (bs "error") | _ => None end)
    (by_value toy true 4 (with_body t (bs "b"))) = [Some (bs "error"); Some (bs "a"); Some (bs "b"); None].
Proof. vm_compute. reflexivity. Qed.

(** The conversions of [ReadEntryResult]: an entry is got by all of them or by none; [unwrap_opt] and
    [into_result] agree on the end; an error is never dropped, and a panic reports it. *)
Theorem C74_entry : forall M E (x : rentry M E) msg end_msg,
  (forall e, rentry_result x = Ok (Some e) <-> rentry_unwrap x = Returns e) /\
  (forall e, rentry_result x = Ok (Some e) <-> rentry_expect msg x = Returns e) /\
  (forall e, rentry_result x = Ok (Some e) <-> expect_alt end_msg msg x = Returns e) /\
  (forall v, rentry_result x = Ok v <-> unwrap_opt x = Returns v) /\
  (forall v, rentry_result x = Ok v <-> expect_opt msg x = Returns v) /\
  (forall k, rentry_result x = Err k <-> exists m, unwrap_opt x = Panics m (Some k)) /\
  (forall k, rentry_result x = Err k <-> expect_opt msg x = Panics (msg ++ bs ": ") (Some k)) /\
  (forall k, rentry_result x = Err k <-> expect_alt end_msg msg x = Panics (msg ++ bs ": ") (Some k)) /\
  (rentry_result x = Ok None <-> expect_alt end_msg msg x = Panics end_msg None).
Proof.
  intros M E x msg end_msg. destruct x as [e|m|m k]; repeat split; intros; cbn in *;
    repeat match goal with H : exists _, _ |- _ => destruct H end; try congruence.
  injection H as ->. eexists. reflexivity.
Qed.

(** [unwrap] reports the error, but its message still contains the format placeholder. *)
Theorem C74_message_refuted : exists (k : eerr) msg pre post,
  rentry_unwrap (RError tt k : rentry unit unit) = Panics msg (Some k) /\ msg = pre ++ bs "{:?}" ++ post.
Proof.
  exists (EBnd EEndOfBody). eexists. exists (bs "`ReadEntryResult::unwrap()` called on `Error` value: "), (bs ": ").
  split; reflexivity.
Qed.

(** The conversions of [SaveResult]. *)
Definition finished {S P} (x : sres S P) : Prop := x <> SPanic /\ x <> SFuel.

(** [into_opt_both] determines the others: the value is dropped only by [Error] and by the strict conversion of an
    I/O error, the error only by [okish] and the conversion that is not strict. *)
Theorem C74_save : forall S P (into : P -> S) (x : sres S P), finished x ->
  (forall s, into_result into x = Ok s <-> okish into x = Some s) /\
  (forall e, into_result into x = Err e <-> into_opt_both into x = (None, Some e)) /\
  (forall s, into_result_strict into x = Ok s <-> into_opt_both into x = (Some s, None)) /\
  (forall e, into_result_strict into x = Err e <-> snd (into_opt_both into x) = Some e) /\
  (forall s, into_result_strict into x = Ok s -> into_result into x = Ok s) /\
  (exists v, into_opt_both into x = v /\ v <> (None, None)).
Proof.
  intros S P into x [N1 N2]. destruct x as [s|p [| |e|]|e| |]; try congruence; repeat split; intros; cbn in *;
    try congruence; eexists; split; try reflexivity; discriminate.
Qed.

(** [map] acts on the value only and commutes with all conversions. *)
Theorem C74_map : forall S P T U (into : P -> S) (f : S -> T) (g : T -> U) (x : sres S P),
  into_opt_both id (save_map into f x) = (option_map f (okish into x), snd (into_opt_both into x)) /\
  save_map id g (save_map into f x) = save_map into (fun s => g (f s)) x /\
  (forall t, into_result_strict id (save_map into f x) = Ok t <-> exists s, into_result_strict into x = Ok s /\ f s = t) /\
  (forall e, into_result_strict id (save_map into f x) = Err e <-> into_result_strict into x = Err e) /\
  (forall p why, x = Part p why -> save_map into f x = Part (f (into p)) why).
Proof.
  intros S P T U into f g x. destruct x as [s|p [| |e|]|e| |]; repeat split; intros; cbn in *; unfold id in *;
    repeat match goal with H : exists _, _ |- _ => destruct H as (? & ? & ?) end; try congruence;
    try (eexists; split; [reflexivity|congruence]).
Qed.

(** [into_entries] is [okish]; the entries that it returns are those [keep_partial] would return, or these without the
    field that was saved in part. *)
Theorem C74_entries : forall ML (x : sres (entries ML) (partial_entries ML)),
  into_entries ML x = okish (pe_into ML) x /\
  (forall p why, x = Part p why -> exists en, into_entries ML x = Some en /\
     (keep_partial ML p = en \/ exists h d, pe_partial ML p = Some (h, Some d) /\ keep_partial ML p = push_field ML en h d)).
Proof.
  intros ML x. split.
  - destruct x as [s|p [| |e|]|e| |]; reflexivity.
  - intros p why ->. eexists. split; [reflexivity|]. unfold keep_partial.
    destruct (pe_partial ML p) as [[h [d|]]|]; auto. right. exists h, d. auto.
Qed.

(** [PartialReason]: [unwrap_err] gives the error that [into_opt_both] reports and panics exactly if that reports none. *)
Theorem C74_reason : forall S P (into : P -> S) (p : P) why msg,
  (forall e, unwrap_err why = Returns e <-> snd (into_opt_both into (Part p why)) = Some e) /\
  (forall e, expect_err msg why = Returns e <-> snd (into_opt_both into (Part p why)) = Some e) /\
  (snd (into_opt_both into (Part p why)) = None <-> expect_err msg why = Panics (msg ++ bs ": ") (Some why)).
Proof.
  intros S P into p why msg. destruct why; repeat split; intros; cbn in *; congruence.
Qed.

(** A request stopped by a write error after one field. *)
Example C74_example :
  let '(x, _, _, _) := with_entries toy true (mkSaver 5000 9 1030 TTry default_opts) 100 (entries_new toy [bs "d"] false) []
    (with_body limit_chunks (bs "b")) (mkEnv (fun _ => None) [WAccept 10; WFail (KOther 28)] [] []) in
  finished x /\ (exists en, okish (pe_into toy) x = Some en) /\ into_result_strict (pe_into toy) x = Err (XDst (KOther 28)) /\
  match save_map (pe_into toy) (en_count toy) x with Part n why => n = 0%N /\ unwrap_err why = Returns (XDst (KOther 28)) | _ => False end.
Proof. vm_compute. split; [split; discriminate|]. split; [eexists; reflexivity|]. auto. Qed.

(** ** C75: [write_debug] *)

(** [W d bytes d']: the writer took these bytes. *)
Definition took (d : dest) (b : bytes) (d' : dest) : Prop := d_out d' = d_out d ++ b.
Definition good_dest (d : dest) : Prop := Forall good_write (d_sched d).

Lemma std_write_spec sched : forall b out x d, std_write_all sched b out = (x, d) ->
  exists y, d_out d = out ++ y /\ prefix_of y b /\ (x = None -> y = b).
Proof.
  induction sched as [|w sched IH]; intros b out x d; destruct b as [|z b]; cbn [std_write_all].
  - intros H; injection H as <- <-. exists []. cbn. rewrite app_nil_r. split; auto. split; [apply prefix_refl|auto].
  - intros H; injection H as <- <-. exists (z :: b). split; auto. split; [apply prefix_refl|auto].
  - intros H; injection H as <- <-. exists []. cbn. rewrite app_nil_r. split; auto. split; [apply prefix_refl|auto].
  - destruct w as [n|k].
    + destruct (Nat.min n (length (z :: b)) =? 0) eqn:M.
      * intros H; injection H as <- <-. exists []. cbn. rewrite app_nil_r. split; auto. split; [apply prefix_nil|discriminate].
      * intros H. apply IH in H as (y & Y & P & D). exists (firstn (Nat.min n (length (z :: b))) (z :: b) ++ y).
        rewrite Y, app_assoc. split; auto. split.
        -- set (m := Nat.min n (length (z :: b))) in *. clearbody m.
           pose proof (prefix_app (firstn m (z :: b)) _ _ P) as Q. now rewrite firstn_skipn in Q.
        -- intros X. rewrite (D X). apply firstn_skipn.
    + destruct (iokind_eqb k KInterrupted); [apply IH|].
      intros H; injection H as <- <-. exists []. cbn. rewrite app_nil_r. split; auto. split; [apply prefix_nil|discriminate].
Qed.

Lemma std_write_good sched : Forall good_write sched -> forall b out,
  exists d, std_write_all sched b out = (None, d) /\ good_dest d.
Proof.
  unfold good_dest. induction 1 as [|w sched Hw Hs IH]; intros b out; destruct b as [|z b]; cbn [std_write_all];
    try (eexists; split; [reflexivity|]; cbn; auto; fail).
  destruct w as [n|k]; cbn [good_write] in Hw.
  - destruct (Nat.min n (length (z :: b)) =? 0) eqn:M; [apply Nat.eqb_eq in M; simpl in M; lia|]. apply IH.
  - subst k. cbn [iokind_eqb]. apply IH.
Qed.

Lemma dest_sound : sound_writer dest_write_all took good_dest.
Proof.
  unfold took. split; [intros w; now rewrite app_nil_r|]. split.
  { intros w d w1 d' w2 H1 H2. now rewrite H2, H1, app_assoc. }
  split.
  - intros w b x w1 H. unfold dest_write_all in H. apply std_write_spec in H. exact H.
  - intros w b H. unfold dest_write_all. now apply std_write_good.
Qed.

Section Listing.
Context (ML : mime_lib).
Context (show_name : bytes -> bytes) (show_file : option bytes -> bytes) (show_type : option (mime ML) -> bytes) (show_num : nat -> bytes).
Context (f : fs).

(** Specification: the text for the fields of one name, numbered from [idx]. *)
Fixpoint field_lines (idx : nat) (l : list (saved_field ML)) : bytes :=
  match l with
  | [] => []
  | x :: l' =>
      show_num idx ++ bs ": " ++ show_file (fh_filename ML (sf_headers ML x)) ++ bs " (" ++
      show_type (fh_ctype ML (sf_headers ML x)) ++ bs "):" ++ [LF] ++
      match readable (sf_data ML x) f with Some c => c | None => [] end ++ field_lines (S idx) l'
  end.

Definition listing (order : list (bytes * list (saved_field ML))) : bytes :=
  flat_map (fun kv => bs "Field " ++ show_name (fst kv) ++ bs " has " ++ show_num (length (snd kv)) ++ bs " entries:" ++ [LF] ++
                      field_lines 0 (snd kv)) order.

End Listing.

(** Reading the files returns their contents. *)
Definition reads_files (f : fs) (reads : path -> transport) : Prop :=
  forall p c, f p = Some (NFile c) -> source_data (reads p) = c.

Section Debug.
Context (ML : mime_lib).
Context (show_name : bytes -> bytes) (show_file : option bytes -> bytes) (show_type : option (mime ML) -> bytes) (show_num : nat -> bytes).
Context (f : fs) (reads : path -> transport) (no_file : path -> iokind).
Context (Hr : reads_files f reads).
Context {W : Type} (write : W -> bytes -> option iokind * W) (R : W -> bytes -> W -> Prop) (G : W -> Prop).
Context (SW : sound_writer write R G).

(** From [w] to [w'] with result [x]: a prefix of [T] was written, all of it on success. *)
Definition put (w : W) (x : option iokind) (w' : W) (T : bytes) : Prop :=
  exists d, R w d w' /\ prefix_of d T /\ (x = None -> d = T).

Lemma put_chain (a b : W -> option iokind * W) w x w' T1 T2 :
  (forall x w1, a w = (x, w1) -> put w x w1 T1) -> (forall w1 x w2, b w1 = (x, w2) -> put w1 x w2 T2) ->
  chain a b w = (x, w') -> put w x w' (T1 ++ T2).
Proof.
  intros A B. unfold chain. destruct (a w) as [[k|] w1] eqn:E; specialize (A _ _ eq_refl); destruct A as (d & K & P & D).
  - intros H; injection H as <- <-. exists d. split; auto. split; [now apply prefix_more|discriminate].
  - intros H. apply B in H as (d' & K' & P' & D'). rewrite (D eq_refl) in *. exists (T1 ++ d').
    split; [destruct SW as (_ & T & _); eapply T; eauto|]. split; [now apply prefix_app|]. intros X. now rewrite (D' X).
Qed.

Lemma put_pieces ps w x w' : write_pieces write ps w = (x, w') -> put w x w' (concat ps).
Proof. intros H. apply (pieces_spec _ _ _ SW) in H. exact H. Qed.

Lemma source_readable d t : debug_source f reads no_file d = inr t ->
  exists c, readable d f = Some c /\ source_data t = c.
Proof.
  destruct d as [b|b|p n]; cbn [debug_source readable].
  - intros H; injection H as <-. exists b. split; auto. apply slice_source_data.
  - intros H; injection H as <-. exists b. split; auto. apply slice_source_data.
  - destruct (f p) as [[|c]|] eqn:E; try discriminate. intros H; injection H as <-. exists c. split; auto.
Qed.

Lemma fields_put l : forall idx w x w', debug_fields ML show_file show_type show_num f reads no_file write idx l w = (x, w') ->
  put w x w' (field_lines ML show_file show_type show_num f idx l) /\
  (x = None -> Forall (fun sf => readable (sf_data ML sf) f <> None) l).
Proof.
  induction l as [|sf l IH]; intros idx w x w'; cbn [debug_fields field_lines].
  - intros H; injection H as <- <-. split; [|constructor]. exists []. split; [apply SW|]. split; [apply prefix_refl|auto].
  - destruct (debug_source f reads no_file (sf_data ML sf)) as [k|t] eqn:E.
    + intros H; injection H as <- <-. split; [|discriminate]. exists []. split; [apply SW|].
      split; [apply prefix_nil|discriminate].
    + apply source_readable in E as (c & Hc & Ht). intros H. split.
      * rewrite Hc. repeat rewrite (app_assoc _ (bs "):")). 
        match goal with |- put _ _ _ ?G => 
          replace G with (concat [show_num idx; bs ": "; show_file (fh_filename ML (sf_headers ML sf)); bs " (";
                    show_type (fh_ctype ML (sf_headers ML sf)); bs "):" ++ [LF]] ++ c ++ field_lines ML show_file show_type show_num f (S idx) l) end.
        2:{ cbn [concat]. repeat rewrite <- app_assoc. reflexivity. }
        revert H. apply put_chain.
        -- intros y w1. apply put_pieces.
        -- intros w1 y w2. apply put_chain.
           ++ intros z w3 H. apply (copy_spec _ _ _ SW) in H as (d & K & P & D). exists d. rewrite <- Ht.
              split; auto. split; auto. intros X. now apply D.
           ++ intros w3 z w4 H. now apply IH in H.
      * intros ->. constructor; [congruence|]. unfold chain in H.
        destruct (write_pieces _ _ _) as [[?|] w1]; [discriminate|]. destruct (io_copy _ _ _) as [[?|] w2]; [discriminate|].
        apply IH in H as [_ H]. exact (H eq_refl).
Qed.

Lemma debug_put order : forall w x w', write_debug ML show_name show_file show_type show_num f reads no_file write order w = (x, w') ->
  put w x w' (listing ML show_name show_file show_type show_num f order) /\
  (x = None -> Forall (fun kv => Forall (fun sf => readable (sf_data ML sf) f <> None) (snd kv)) order).
Proof.
  induction order as [|[name l] order IH]; intros w x w'; cbn [write_debug].
  - intros H; injection H as <- <-. split; [|constructor]. exists []. split; [apply SW|]. split; [apply prefix_refl|auto].
  - intros H. split.
    + cbn [listing flat_map fst snd]. 
      match goal with |- put _ _ _ ?G => 
        replace G with (concat [bs "Field "; show_name name; bs " has "; show_num (length l); bs " entries:" ++ [LF]] ++
                        field_lines ML show_file show_type show_num f 0 l ++ listing ML show_name show_file show_type show_num f order) end.
      2:{ cbn [concat]. repeat rewrite <- app_assoc. reflexivity. }
      revert H. apply put_chain.
      * intros y w1. apply put_pieces.
      * intros w1 y w2. apply put_chain.
        -- intros z w3 H. now apply fields_put in H.
        -- intros w3 z w4 H. now apply IH in H.
    + intros ->. unfold chain in H. destruct (write_pieces _ _ _) as [[?|] w1]; [discriminate|].
      destruct (debug_fields _ _ _ _ _ _ _ _ _ _ _) as [[?|] w2] eqn:E; [discriminate|].
      apply fields_put in E as [_ E]. apply IH in H as [_ H]. constructor; [exact (E eq_refl)|exact (H eq_refl)].
Qed.

Lemma debug_pieces_ok ps : forall w, G w -> exists w', write_pieces write ps w = (None, w') /\ G w'.
Proof.
  induction ps as [|p ps IH]; intros w Gw; cbn [write_pieces]; [eauto|].
  destruct SW as (_ & _ & _ & K). destruct (K w p Gw) as (w1 & -> & G1). auto.
Qed.

(** Without failing writes and reads and with all files in place it succeeds. *)
Lemma fields_debug_ok l : (forall p c, f p = Some (NFile c) -> ~ source_fails (reads p)) ->
  Forall (fun sf => readable (sf_data ML sf) f <> None) l -> forall idx w, G w ->
  exists w', debug_fields ML show_file show_type show_num f reads no_file write idx l w = (None, w') /\ G w'.
Proof.
  intros Hs. induction 1 as [|sf l Hf _ IH]; intros idx w Gw; cbn [debug_fields]; [eauto|].
  assert (E : exists t, debug_source f reads no_file (sf_data ML sf) = inr t /\ ~ source_fails t).
  { destruct (sf_data ML sf) as [b|b|p n]; cbn [debug_source readable] in *.
    - eexists; split; [reflexivity|]. apply slice_source_data.
    - eexists; split; [reflexivity|]. apply slice_source_data.
    - destruct (f p) as [[|c]|] eqn:E; try congruence. eexists; split; [reflexivity|]. eauto. }
  destruct E as (t & -> & Ht). unfold chain.
  destruct (debug_pieces_ok [show_num idx; bs ": "; show_file (fh_filename ML (sf_headers ML sf)); bs " (";
                    show_type (fh_ctype ML (sf_headers ML sf)); bs "):" ++ [LF]] w Gw) as (w1 & -> & G1).
  destruct (copy_ok _ _ _ SW t Ht w1 G1) as (w2 & -> & G2). apply IH. exact G2.
Qed.

Lemma debug_ok order : (forall p c, f p = Some (NFile c) -> ~ source_fails (reads p)) ->
  Forall (fun kv => Forall (fun sf => readable (sf_data ML sf) f <> None) (snd kv)) order -> forall w, G w ->
  exists w', write_debug ML show_name show_file show_type show_num f reads no_file write order w = (None, w') /\ G w'.
Proof.
  intros Hs. induction 1 as [|[name l] order Hf _ IH]; intros w Gw; cbn [write_debug]; [eauto|]. unfold chain.
  destruct (debug_pieces_ok [bs "Field "; show_name name; bs " has "; show_num (length l); bs " entries:" ++ [LF]] w Gw) as (w1 & -> & G1).
  destruct (fields_debug_ok l Hs Hf 0 w1 G1) as (w2 & -> & G2). apply IH. exact G2.
Qed.

End Debug.

(** What is written is a prefix of the listing of all entries with their data, in some order of the names; on success it
    is the whole listing, and then all files could be read. *)
Theorem C75_listing : forall ML show_name show_file show_type show_num f reads no_file (en : entries ML) order w x w',
  reads_files f reads -> Permutation order (en_fields ML en) ->
  write_debug ML show_name show_file show_type show_num f reads no_file dest_write_all order w = (x, w') ->
  exists d, d_out w' = d_out w ++ d /\ prefix_of d (listing ML show_name show_file show_type show_num f order) /\
    (x = None -> d = listing ML show_name show_file show_type show_num f order /\
       forall name l sf, In (name, l) (en_fields ML en) -> In sf l -> exists c, readable (sf_data ML sf) f = Some c).
Proof.
  intros ML show_name show_file show_type show_num f reads no_file en order w x w' Hr Pm H.
  apply (debug_put ML _ _ _ _ f reads no_file Hr _ _ _ dest_sound) in H as [(d & K & P & D) A]. exists d. split; auto. split; auto.
  intros X. split; [now apply D|]. intros name l sf I1 I2. specialize (A X). rewrite Forall_forall in A.
  specialize (A (name, l) (Permutation_in _ (Permutation_sym Pm) I1)). rewrite Forall_forall in A. specialize (A _ I2).
  destruct (readable (sf_data ML sf) f); [eauto|congruence].
Qed.

Definition within (c T : bytes) : Prop := exists pre post, T = pre ++ c ++ post.

Lemma within_l c a T : within c T -> within c (a ++ T).
Proof. intros (pre & post & ->). exists (a ++ pre), post. now rewrite app_assoc. Qed.

Lemma within_r c a T : within c T -> within c (T ++ a).
Proof. intros (pre & post & ->). exists pre, (post ++ a). now repeat rewrite <- app_assoc. Qed.

(** On success the data of every entry is in the output. *)
Theorem C75_data : forall ML show_name show_file show_type show_num f reads no_file (en : entries ML) order w w' name l sf,
  reads_files f reads -> Permutation order (en_fields ML en) ->
  write_debug ML show_name show_file show_type show_num f reads no_file dest_write_all order w = (None, w') ->
  In (name, l) (en_fields ML en) -> In sf l ->
  exists c pre post, readable (sf_data ML sf) f = Some c /\ d_out w' = d_out w ++ pre ++ c ++ post.
Proof.
  intros ML show_name show_file show_type show_num f reads no_file en order w w' name l sf Hr Pm H I1 I2.
  destruct (C75_listing _ _ _ _ _ _ _ _ _ _ _ _ _ Hr Pm H) as (d & K & _ & D). destruct (D eq_refl) as [-> A]. clear D.
  destruct (A _ _ _ I1 I2) as [c Hc]. exists c. rewrite K.
  assert (L : forall idx, within c (field_lines ML show_file show_type show_num f idx l)).
  { clear - I2 Hc. induction l as [|s l IH]; [destruct I2|]. intros idx. cbn [field_lines]. destruct I2 as [->|I2].
    - rewrite Hc. do 7 apply within_l. apply within_r. exists [], []. now rewrite app_nil_r.
    - do 8 apply within_l. now apply IH. }
  apply (Permutation_in _ (Permutation_sym Pm)) in I1.
  assert (T : within c (listing ML show_name show_file show_type show_num f order)).
  { apply in_split in I1 as (o1 & o2 & ->). unfold listing. rewrite flat_map_app. cbn [flat_map fst snd].
    apply within_l, within_r. do 6 apply within_l. apply L. }
  destruct T as (pre & post & ->). exists pre, post. auto.
Qed.

(** It succeeds if all files can be read and no write fails. *)
Theorem C75_succeeds : forall ML show_name show_file show_type show_num f reads no_file (en : entries ML) order w,
  Permutation order (en_fields ML en) ->
  (forall name l sf, In (name, l) (en_fields ML en) -> In sf l -> readable (sf_data ML sf) f <> None) ->
  (forall p c, f p = Some (NFile c) -> ~ source_fails (reads p)) -> good_dest w ->
  fst (write_debug ML show_name show_file show_type show_num f reads no_file dest_write_all order w) = None.
Proof.
  intros ML show_name show_file show_type show_num f reads no_file en order w Pm A Hs G.
  assert (A' : Forall (fun kv => Forall (fun sf => readable (sf_data ML sf) f <> None) (snd kv)) order).
  { apply Forall_forall. intros [name l] I. apply Forall_forall. intros sf I2. eapply A; eauto. eapply Permutation_in; eauto. }
  destruct (debug_ok ML show_name show_file show_type show_num f reads no_file _ _ _ dest_sound order Hs A' w G) as (w' & -> & _).
  reflexivity.
Qed.

Lemma lookup_in A k (l : list (bytes * A)) v : lookup k l = Some v -> In (k, v) l.
Proof.
  induction l as [|[k' v'] l IH]; cbn [lookup]; [discriminate|]. destruct (list_eq_dec N.eq_dec k' k) as [->|_].
  - intros H; injection H as ->. now left.
  - intros H. right. now apply IH.
Qed.

(** After a request was saved in full, its listing contains the content of each of its fields (under the chunking condition
    of C43). *)
Theorem C75_request_partial : forall ML trim t b s fuel dir temp g e en g' r' e' l show_name show_file show_type show_num reads no_file order w w',
  live t -> exact_chunks (delimiter b) t (map snd l) -> s_opts s = default_opts ->
  parts (head_block ML trim (delimiter b)) (delimiter b) (stream t) l ->
  with_entries ML trim s fuel (entries_new ML dir temp) g (with_body t b) e = (Full en, g', r', e') ->
  reads_files (e_fs e') reads -> Permutation order (en_fields ML en) ->
  write_debug ML show_name show_file show_type show_num (e_fs e') reads no_file dest_write_all order w = (None, w') ->
  forall h c, In (h, c) l -> exists pre post, d_out w' = d_out w ++ pre ++ c ++ post.
Proof.
  intros ML trim t b s fuel dir temp g e en g' r' e' l show_name show_file show_type show_num reads no_file order w w'
    Hl Hns Ho P H Hr Pm Hw h c I.
  destruct (C43_exact_partial _ _ _ _ _ _ _ _ _ _ _ _ _ _ en Hl Hns Ho P H (or_introl eq_refl)) as (log & d & rest & -> & -> & F & R).
  rewrite (R eq_refl), app_nil_r in I. clear R.
  assert (E : exists hv, In hv log /\ readable (snd hv) (e_fs e') = Some c).
  { clear - F I. induction F as [|hv hc log d [_ Hc] _ IH]; [destruct I|]. destruct I as [->|I].
    - exists hv. split; [now left|exact Hc].
    - destruct (IH I) as (x & Ix & Hx). exists x. split; [now right|exact Hx]. }
  destruct E as ([h' v] & I' & Hv). cbn [snd] in Hv.
  assert (W : well_grouped (recount_fields ML (entries_new ML dir temp))) by (split; constructor).
  destruct (C45_grouping ML _ log (fh_name ML h') W) as (_ & Fa & _).
  assert (I2 : In (mkSF ML h' v) (fields_at (pushes ML (recount_fields ML (entries_new ML dir temp)) log) (fh_name ML h'))).
  { rewrite Fa. apply in_or_app. right. unfold named. apply in_map_iff. exists (h', v). split; [reflexivity|].
    apply filter_In. split; auto. cbn [fst]. now destruct (list_eq_dec N.eq_dec (fh_name ML h') (fh_name ML h')). }
  unfold fields_at in I2. destruct (lookup (fh_name ML h') _) as [sfs|] eqn:K; [|destruct I2]. apply lookup_in in K.
  destruct (C75_data _ _ _ _ _ _ _ _ _ _ _ _ _ _ _ Hr Pm Hw K I2) as (c' & pre & post & Hc' & ->).
  cbn [sf_data] in Hc'. rewrite Hv in Hc'. injection Hc' as ->. eauto.
Qed.

(** Two names, three fields, one of them in a file; the writer takes a few bytes at a time and is interrupted. *)
Example C75_example :
  let h n := mkFH toy n None None in
  let en := push_field toy (push_field toy (push_field toy (entries_new toy [bs "d"] false) (h (bs "a")) (SText (bs "one")))
              (h (bs "b")) (SFile [bs "f"] 3)) (h (bs "a")) (SBytes (bs "two")) in
  let f := fun p => match p with [_] => Some (NFile (bs "file")) | _ => None end in
  let reads := fun _ : path => [Chunk (bs "fi"); Fail KInterrupted; Chunk (bs "le")] in
  let go := write_debug toy (fun n => n) (fun _ => bs "None") (fun _ => bs "None") (fun n => [N.of_nat (48 + n)]) f reads (fun _ => KOther 2) dest_write_all in
  reads_files f reads /\ good_dest (mkDest [] [WAccept 2; WFail KInterrupted; WAccept 1]) /\
  Permutation (rev (en_fields toy en)) (en_fields toy en) /\
  go (rev (en_fields toy en)) (mkDest [] [WAccept 2; WFail KInterrupted; WAccept 1]) =
    (None, mkDest (bs "Field b has 1 entries:" ++ [LF] ++ bs "0: None (None):" ++ [LF] ++ bs "fileField a has 2 entries:" ++ [LF] ++
                   bs "0: None (None):" ++ [LF] ++ bs "one1: None (None):" ++ [LF] ++ bs "two") []) /\
  fst (go (en_fields toy en) (mkDest [] [WAccept 20; WFail (KOther 28)])) = Some (KOther 28).
Proof.
  cbv zeta. split; [intros [|x [|y p]] c; try discriminate; intros H; injection H as <-; reflexivity|].
  split; [repeat constructor|]. split; [apply Permutation_sym, Permutation_rev|]. split; vm_compute; reflexivity.
Qed.
