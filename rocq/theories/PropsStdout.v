(** The example servers and a standard output that takes its time or fails (C83). *)

From Coq Require Import Permutation.
From Verif Require Import Bytes BytesProofs Spec Io Boundary BoundaryProofs Utf8 Utf8Proofs Httparse Field FieldProofs
  ContentProofs DataProofs ShortProofs EntryProofs ReaderProofs Drive DriveProofs ReachProofs Rand Fs Save SaveProofs PhaseProofs SaveFacts
  TextProofs Toy PropsReader PropsSave EntriesProofs CompleteProofs PropsEntries HeaderSpec HeaderProofs WireSpec Client ClientProofs WireProofs
  PropsClient Mock PropsMock Savedir PropsSavedir Iron IronProofs PropsIron Requests PropsRequests PropsUpload Results PropsResults Servers PropsServers.

(** ** Specification *)

(** The call of [write] that ends a [write_all], with the kind of the error. *)
Definition fatal (ev : wevent) (k : iokind) : Prop :=
  match ev with WAccept n => n = 0 /\ k = KWriteZero | WFail k' => k = k' /\ k' <> KInterrupted end.

(** From [ws] to [ws1] calls were made; with [None] none of them failed for good, with [Some k] the last one did. *)
Definition spent (ws : list wevent) (x : option iokind) (ws1 : list wevent) : Prop :=
  match x with
  | None => exists used, ws = used ++ ws1 /\ Forall good_write used
  | Some k => exists used ev, ws = used ++ ev :: ws1 /\ Forall good_write used /\ fatal ev k
  end.

(** The answers when standard output fails with [kk]. *)
Definition output_failed {ML} (sh : shows ML) (k : handler) (kk : iokind) (a : answer) : Prop :=
  match k with
  | Tiny _ => a = Responds 500 (bs "The received data was not correctly proccessed on the server")
  | Iron _ => a = Responds 500 (bs "Error printing request fields")
  | Rocket _ _ _ => a = Responds 500 (sh_err ML sh (XDst kk))
  | Hyper _ _ _ => exists body, a = Broken body
  | Nickel _ _ _ => exists body, a = Responds 200 (body ++ bs "Error while reading entries: " ++ sh_err ML sh (XDst kk) ++ [10%N])
  end.

(** ** Proofs *)

Lemma spent_trans ws ws1 x ws2 : spent ws None ws1 -> spent ws1 x ws2 -> spent ws x ws2.
Proof.
  intros (u1 & -> & F1). destruct x as [k|]; cbn [spent].
  - intros (u2 & ev & -> & F2 & H). exists (u1 ++ u2), ev. rewrite <- app_assoc. split; auto. split; auto. apply Forall_app; auto.
  - intros (u2 & -> & F2). exists (u1 ++ u2). rewrite <- app_assoc. split; auto. apply Forall_app; auto.
Qed.

Lemma spent_refl ws : spent ws None ws.
Proof. exists []. auto. Qed.

Lemma tee_write_plain i o so d : tee_write (mkTee i [] o so) d =
  let '(x, (o1, s1)) := sched_write (o, so) d in (x, mkTee (i ++ d) [] o1 s1).
Proof.
  unfold tee_write. cbn [te_isched te_inner te_stdout te_osched length]. destruct d as [|c d].
  - cbn [write_all]. now rewrite app_nil_r.
  - cbn [write_all sched_write length]. change (S (length d)) with (length (c :: d)). rewrite skipn_all. reflexivity.
Qed.

Lemma tee_all_spent fuel : forall d i o so, length so < fuel -> exists x t1, write_all tee_write fuel d (mkTee i [] o so) = (x, t1) /\
  te_isched t1 = [] /\ match x with Ok _ => spent so None (te_osched t1) | Err k => spent so (Some k) (te_osched t1) | _ => False end.
Proof.
  induction fuel as [|fuel IH]; intros d i o so L; [lia|]. destruct d as [|c d].
  { cbn [write_all]. do 2 eexists. split; [reflexivity|]. split; [reflexivity|]. apply spent_refl. }
  cbn [write_all]. rewrite tee_write_plain. unfold sched_write. destruct so as [|[n|k] so].
  - cbn [length]. change (S (length d)) with (length (c :: d)). rewrite skipn_all, write_all_nil. do 2 eexists. split; [reflexivity|].
    split; [reflexivity|]. apply spent_refl.
  - destruct (Nat.min n (length (c :: d))) as [|m] eqn:M.
    + do 2 eexists. split; [reflexivity|]. split; [reflexivity|]. cbn [te_osched]. exists [], (WAccept n). split; auto. split; auto.
      split; auto. destruct n; [reflexivity|discriminate M].
    + cbn [length] in L. destruct (IH (skipn (S m) (c :: d)) (i ++ c :: d) (o ++ firstn n (c :: d)) so ltac:(lia)) as (x & t1 & E & I1 & Sp).
      exists x, t1. split; [exact E|]. split; [exact I1|].
      assert (G : spent (WAccept n :: so) None so) by (exists [WAccept n]; split; [reflexivity|]; constructor; [destruct n; [discriminate M|cbn; lia]|constructor]).
      destruct x; try exact Sp; eapply spent_trans; eauto.
  - destruct (iokind_eqb k KInterrupted) eqn:Ek.
    + assert (k = KInterrupted) by (destruct k; try discriminate Ek; reflexivity). subst k. cbn [length] in L.
      destruct (IH (c :: d) (i ++ c :: d) o so ltac:(lia)) as (x & t1 & E & I1 & Sp).
      exists x, t1. split; [exact E|]. split; [exact I1|].
      assert (G : spent (WFail KInterrupted :: so) None so) by (exists [WFail KInterrupted]; split; [reflexivity|]; constructor; [reflexivity|constructor]).
      destruct x; try exact Sp; eapply spent_trans; eauto.
    + do 2 eexists. split; [reflexivity|]. split; [reflexivity|]. cbn [te_osched]. exists [], (WFail k). split; auto. split; auto. split; auto.
      intros ->. discriminate.
Qed.

(** One step of a computation on the tee with an inner writer that takes everything. *)
Definition honest (a : tee -> option iokind * tee) : Prop :=
  forall t x t1, te_isched t = [] -> a t = (x, t1) -> te_isched t1 = [] /\ spent (te_osched t) x (te_osched t1).

Lemma tee_honest d : honest (fun t => tee_write_all t d).
Proof.
  intros [i s o so] x t1 E H. cbn [te_isched te_osched] in *. subst s. unfold tee_write_all in H. cbn [te_osched] in H.
  destruct (tee_all_spent (S (length so)) d i o so ltac:(lia)) as (y & t2 & W & I2 & Sp). rewrite W in H.
  destruct y as [[]|k| |]; try contradiction; injection H as <- <-; auto.
Qed.

Lemma id_honest : honest (fun t => (None, t)).
Proof. intros t x t1 E H. injection H as <- <-. split; auto. apply spent_refl. Qed.

Lemma chain_honest a b : honest a -> honest b -> honest (chain a b).
Proof.
  intros A B t x t1 E H. unfold chain in H. destruct (a t) as [[k|] t2] eqn:Ea; destruct (A _ _ _ E Ea) as [E2 S2].
  - injection H as <- <-. auto.
  - destruct (B _ _ _ E2 H) as [E3 S3]. split; auto. eapply spent_trans; eauto.
Qed.

Lemma pieces_honest ps : honest (write_pieces tee_write_all ps).
Proof.
  induction ps as [|p ps IH]; [apply id_honest|]. intros t x t1 E H. cbn [write_pieces] in H.
  destruct (tee_write_all t p) as [[k|] t2] eqn:Ea; destruct (tee_honest p _ _ _ E Ea) as [E2 S2].
  - injection H as <- <-. auto.
  - destruct (IH _ _ _ E2 H) as [E3 S3]. split; auto. eapply spent_trans; eauto.
Qed.

Lemma copy_honest src : ~ source_fails src -> honest (io_copy tee_write_all src).
Proof.
  induction src as [|[[|c0 c]|k] src IH]; cbn [source_fails]; intros N; try (exact id_honest).
  - intros t x t1 E H. cbn [io_copy] in H. destruct (tee_write_all t (c0 :: c)) as [[k|] t2] eqn:Ea; destruct (tee_honest _ _ _ _ E Ea) as [E2 S2].
    + injection H as <- <-. auto.
    + destruct (IH N _ _ _ E2 H) as [E3 S3]. split; auto. eapply spent_trans; eauto.
  - intros t x t1 E H. cbn [io_copy] in H. destruct k; cbn [iokind_eqb] in H; try (destruct (N Logic.I)). eapply IH; eauto.
Qed.

Section Print.
Context (ML : mime_lib) (sh : shows ML) (ma : machine ML) (Sm : sound_machine ma).

Lemma fields_honest f l : Forall (fun sf => readable (sf_data ML sf) f <> None) l -> forall idx,
  honest (debug_fields ML (sh_file ML sh) (sh_type ML sh) (sh_num ML sh) f (ma_reads ML ma f) (ma_no_file ML ma) tee_write_all idx l).
Proof.
  induction 1 as [|sf l Hf _ IH]; intros idx; [exact id_honest|]. intros t x t1 E H. cbn [debug_fields] in H.
  destruct (debug_source f (ma_reads ML ma f) (ma_no_file ML ma) (sf_data ML sf)) as [k|src] eqn:Es.
  { exfalso. destruct (sf_data ML sf) as [b|b|p n]; cbn [debug_source readable] in *; try discriminate.
    destruct (f p) as [[|c]|]; [congruence|discriminate|congruence]. }
  revert H. assert (Ns : ~ source_fails src).
  { destruct (sf_data ML sf) as [b|b|p n]; cbn [debug_source] in Es.
    - injection Es as <-. apply slice_source_data.
    - injection Es as <-. apply slice_source_data.
    - destruct (f p) as [[|c]|] eqn:Ef; try discriminate. injection Es as <-. destruct Sm as (_ & Hs & _). exact (Hs f p c Ef). }
  revert E. apply (chain_honest _ _ (pieces_honest _) (chain_honest _ _ (copy_honest _ Ns) (IH (S idx)))).
Qed.

Lemma debug_honest f order : Forall (fun kv : bytes * list (saved_field ML) => Forall (fun sf => readable (sf_data ML sf) f <> None) (snd kv)) order ->
  honest (write_debug ML (sh_name ML sh) (sh_file ML sh) (sh_type ML sh) (sh_num ML sh) f (ma_reads ML ma f) (ma_no_file ML ma) tee_write_all order).
Proof.
  induction 1 as [|[name l] order Hf _ IH]; [exact id_honest|]. intros t x t1 E H. cbn [write_debug snd] in *.
  revert H. revert E. apply (chain_honest _ _ (pieces_honest _) (chain_honest _ _ (fields_honest f l Hf 0) IH)).
Qed.

(** Printing the entries of a form: how it ends is how standard output ends; what is printed is a prefix of the text, all of it on success. *)
Lemma print_honest en e l out ws : holds ML en e l ->
  exists names x t1 d, names_of ML l names /\ print_entries ML sh ma en (e_fs e) (mkTee [] [] out ws) = (x, t1) /\
    te_isched t1 = [] /\ spent ws x (te_osched t1) /\ te_stdout t1 = out ++ d /\ prefix_of d (form_text ML sh names l) /\
    (x = None -> d = form_text ML sh names l).
Proof.
  intros [W Fd]. destruct Sm as (Hr & Hs & Pm & _). specialize (Hr (e_fs e)). specialize (Pm en).
  destruct (listing_text ML sh (e_fs e) en l _ W Fd Pm) as [T Nm]. exists (map fst (ma_order ML ma en)).
  assert (A : Forall (fun kv => Forall (fun sf => readable (sf_data ML sf) (e_fs e) <> None) (snd kv)) (ma_order ML ma en)).
  { apply Forall_forall. intros [n sfs] I. apply Forall_forall. intros sf I2. cbn [snd] in I2.
    apply (Permutation_in _ Pm) in I. specialize (Fd n). unfold found, fields_at in Fd. rewrite (nodup_lookup _ _ _ (proj1 W) I) in Fd.
    assert (K : In (sf_headers ML sf, readable (sf_data ML sf) (e_fs e)) (sent_as l n)).
    { rewrite <- Fd. apply in_map_iff. exists sf. auto. }
    unfold sent_as in K. apply in_map_iff in K as (hc & E & _). injection E as _ <-. discriminate. }
  destruct (print_entries ML sh ma en (e_fs e) (mkTee [] [] out ws)) as [x t1] eqn:E. unfold print_entries in E. exists x, t1.
  destruct (debug_honest _ _ A (mkTee [] [] out ws) x t1 eq_refl E) as [E1 S1].
  pose proof (debug_put ML _ _ _ _ (e_fs e) _ (ma_no_file ML ma) Hr _ _ _ tee_sound _ _ _ _ E) as [(d & K & P & D) _].
  rewrite T in P, D. exists d. cbn [te_stdout te_osched] in *. auto 10.
Qed.

Lemma process_honest en e l out ws : holds ML en e l ->
  exists names x t1 d, names_of ML l names /\ 
    process_entries ML sh ma en [] (out, ws) e = (match x with Some k => inl k | None => inr (te_inner t1 ++ PROCESSED) end, (te_stdout t1, te_osched t1), forget ML ma en e) /\
    te_isched t1 = [] /\ spent ws x (te_osched t1) /\ te_stdout t1 = out ++ d /\ prefix_of d (form_text ML sh names l) /\
    (x = None -> d = form_text ML sh names l).
Proof.
  intros H. destruct (print_honest en e l out ws H) as (names & x & t1 & d & A1 & A2 & A3). exists names, x, t1, d. split; auto. split; [|exact A3].
  unfold process_entries. cbn [fst snd]. rewrite A2. now destruct x.
Qed.

End Print.

(** Writing to a response that takes everything. *)
Lemma pieces_taken ps : forall out, write_pieces dest_write_all ps (mkDest out []) = (None, mkDest (out ++ concat ps) []).
Proof.
  induction ps as [|p ps IH]; intros out; cbn [write_pieces concat]; [now rewrite app_nil_r|].
  unfold dest_write_all at 1. cbn [d_sched d_out].
  destruct p as [|c p]; cbn [std_write_all]; rewrite IH; [reflexivity|]. now rewrite <- app_assoc.
Qed.

(** A complete form within the limits, and any standard output: if its calls succeed, perhaps after interruptions and taking a few bytes at a
    time, the answer is 200 and standard output has the text of the form; otherwise it has a part of that text and the answer is the one
    above, with the kind of the failing call.  Nothing is left on the disk in either case. *)
Theorem C83_stdout_partial : forall ML sh (ma : machine ML) trim k b t l g out ws e, sound_machine ma ->
  form_of k b t -> takes_all k -> live t -> quiet t -> exact_chunks (delimiter b) t (map snd l) ->
  parts (head_block ML trim (delimiter b)) (delimiter b) (stream t) l ->
  0 < ma_tries ML ma -> temp_ready e (ma_temp ML ma) (bs "multipart-rs") g (length l) ->
  length l < 256 -> Forall (fun hc => (N.of_nat (length (snd hc)) <= 8 * 1024 * 1024)%N) l ->
  exists fuel0, forall fuel, fuel0 <= fuel -> exists names a d ws1 e' x,
    names_of ML l names /\ handle sh ma trim fuel g k (out, ws) e = (a, (out ++ d, ws1), e') /\ spent ws x ws1 /\ (forall p, e_fs e' p = e_fs e p) /\
    match x with
    | None => d = form_text ML sh names l /\ exists body, a = Responds 200 (body ++ last_line k)
    | Some kk => prefix_of d (form_text ML sh names l) /\ output_failed sh k kk a
    end.
Proof.
  intros ML sh ma trim k b t l g out ws e Sm Fk Tk Hl Hq Hns P Lt T Ll Fs.
  destruct (save_full ML ma trim t b l g e Hl Hq Hns P Lt T Ll Fs) as [fuel0 K]. exists fuel0. intros fuel Lf.
  destruct (K fuel Lf) as (en & e1 & H & Hd). pose proof (save_clean ML ma _ _ _ _ _ _ _ _ (proj2 (proj2 (proj2 Sm))) (proj1 T) H) as Cl. cbn beta iota in Cl.
  destruct (process_honest ML sh ma Sm en e1 l out ws Hd) as (names & x & t1 & d & Nm & E & I1 & Sp & So & Pd & Dd).
  destruct (print_honest ML sh ma Sm en e1 l out ws Hd) as (names2 & x2 & t2 & d2 & Nm2 & E2 & I2 & Sp2 & So2 & Pd2 & Dd2).
  destruct k as [q|q|form ps t0|started is q|started is q]; [| |destruct Fk as (-> & Fk)| |]; destruct Fk as [Fb <-]; cbn [handle last_line].
  - destruct x as [kk|]; [exists names; do 3 eexists; exists (forget ML ma en e1), (Some kk)|exists names; do 3 eexists; exists (forget ML ma en e1), None];
      (split; [exact Nm|]); (split; [unfold tiny_serve, tiny_process, server_from_request; rewrite Fb, H, E, So; reflexivity|]); (split; [exact Sp|]); (split; [exact Cl|]).
    + split; [exact Pd|reflexivity].
    + split; [now apply Dd|eauto].
  - destruct x as [kk|]; [exists names; do 3 eexists; exists (forget ML ma en e1), (Some kk)|exists names; do 3 eexists; exists (forget ML ma en e1), None];
      (split; [exact Nm|]); (split; [unfold iron_process, server_from_request; rewrite Fb, H, E, So; reflexivity|]); (split; [exact Sp|]); (split; [exact Cl|]).
    + split; [exact Pd|reflexivity].
    + split; [now apply Dd|eauto].
  - destruct x as [kk|]; [exists names; do 3 eexists; exists (forget ML ma en e1), (Some kk)|exists names; do 3 eexists; exists (forget ML ma en e1), None];
      (split; [exact Nm|]); (split; [unfold rocket_upload, rocket_process; rewrite Fb, H, E, So; reflexivity|]); (split; [exact Sp|]); (split; [exact Cl|]).
    + split; [exact Pd|reflexivity].
    + split; [now apply Dd|eauto].
  - destruct Tk as [-> ->].
    destruct x2 as [kk|]; [exists names2; do 3 eexists; exists (forget ML ma en e1), (Some kk)|exists names2; do 3 eexists; exists (forget ML ma en e1), None];
      (split; [exact Nm2|]); (split; [unfold hyper_serve, switch_handle, server_from_request, hyper_entries; cbn [fst snd]; rewrite Fb, H, E2, So2; reflexivity|]);
      (split; [exact Sp2|]); (split; [exact Cl|]).
    + split; [exact Pd2|cbn [output_failed]; eauto].
    + split; [now apply Dd2|]. exists (te_inner t2). now rewrite app_nil_r.
  - destruct Tk as [-> ->].
    destruct x2 as [kk|]; [exists names2; do 3 eexists; exists (forget ML ma en e1), (Some kk)|exists names2; do 3 eexists; exists (forget ML ma en e1), None];
      (split; [exact Nm2|]);
      (split; [unfold nickel_serve, server_from_request, nickel_entries; cbn [fst snd]; rewrite Fb, H, E2, So2; try (rewrite I2, pieces_taken); reflexivity|]);
      (split; [exact Sp2|]); (split; [exact Cl|]).
    + split; [exact Pd2|]. cbn [output_failed concat d_out]. exists (te_inner t2). rewrite app_nil_r. reflexivity.
    + split; [now apply Dd2|]. exists (te_inner t2). now rewrite app_nil_r.
Qed.

(** Standard output that takes two bytes and is then interrupted; one that is full after six bytes (the first piece is "Field "): what the five
    servers print and answer. *)
Example C83_stdout_example :
  let slow := [WAccept 2; WFail KInterrupted] in let full := [WAccept 10; WAccept 0] in
  let go ws k := fst (handle toy_shows toy_machine true 100 tmp_rng k ([], ws) tmp_env) in
  spent slow None [] /\ spent full (Some KWriteZero) [] /\
  map (fun k => snd (go slow k)) (all_servers one_two) = repeat (one_two_text, []) 5 /\
  map (fun k => snd (go full k)) (all_servers one_two) = repeat (bs "Field ", []) 5 /\
  map (fun k => fst (go full k)) (all_servers one_two) =
    [Responds 500 (bs "The received data was not correctly proccessed on the server"); Responds 500 (bs "Error printing request fields");
     Responds 500 (bs "error"); Broken (bs "Field a"); Responds 200 (bs "Field aError while reading entries: error" ++ [LF])].
Proof.
  cbv zeta. split; [exists [WAccept 2; WFail KInterrupted]; split; [reflexivity|]; constructor; [cbn; lia|constructor; [reflexivity|constructor]]|].
  split; [exists [WAccept 10], (WAccept 0); split; [reflexivity|]; split; [constructor; [cbn; lia|constructor]|split; reflexivity]|].
  split; [vm_compute; reflexivity|]. split; vm_compute; reflexivity.
Qed.
