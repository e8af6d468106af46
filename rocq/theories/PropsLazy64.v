(** Property theorems about the length of a lazy request as a [u64] (C90). *)

From Verif Require Import Bytes BytesProofs Spec Io Boundary BoundaryProofs Utf8 Utf8Proofs Httparse Field FieldProofs ContentProofs ShortProofs EntryProofs Drive DriveProofs
  HeaderSpec HeaderProofs PropsHeader Rand Fs CompleteProofs EntriesProofs PropsReader Toy WireSpec WireProofs Client ClientProofs PropsClient Lazy LazyProofs PropsLazy Lazy64.

(** What the files of a form add up to, given the lengths that the file system reports: the part without its data and the
    length of the data. *)
Definition file_bytes {ML : mime_lib} (guess : path -> mime ML) (B : bytes) (f : lfield (mime ML)) : N :=
  match l_data f with
  | LFile p (inr (inr n, _)) =>
      N.of_nat (length (lazy_part B (mkPart (l_name f) (opt_filename p) (Some (mime_show ML (guess p))) []))) + n
  | _ => 0
  end%N.

Definition files_bytes {ML : mime_lib} (guess : path -> mime ML) (g : rng) (fs : lazy_form (mime ML)) : N :=
  sumN (map (file_bytes guess (CRLF ++ DASHES ++ boundary_of g)) fs).

(** The end of the body. *)
Definition closing_bytes {M} (g : rng) (fs : list M) : N :=
  match fs with [] => 0 | _ => N.of_nat (length (CRLF ++ DASHES ++ boundary_of g ++ DASHES)) end%N.

(** No file of the form fails to open. *)
Definition opens {ML : mime_lib} (fs : lazy_form (mime ML)) : Prop := forall f k, In f fs -> ~ lfails ML f k.

(** The answer of an unbounded [prepare], with the length changed. *)
Definition bounded (f : N -> N) (x : lazy_error + prepared) : res lazy_error prepared :=
  match x with
  | inl e => Err e
  | inr s => Ok (mkPrep (s_text s) (s_streams s) (s_end s) (option_map f (s_len s)))
  end.

Section Loop.
Context {ML : mime_lib} (guess : path -> mime ML).

Lemma counted_file B f : counted ML guess B f = file_bytes guess B f.
Proof.
  unfold counted, file_bytes. destruct f as [n [t|p [k|[[k|m] src]]|fn ct src]]; cbn [l_data]; auto. cbn [prep_field l_data l_name].
  pose proof (stream_part ML n B (guess p) (opt_filename p) []) as H. cbn [retried] in H. rewrite app_nil_r in H. unfold l_source. cbn [l_data].
  replace (c_data (f_header (from_stream ML n B (guess p) (opt_filename p) src))) with (c_data (f_header (from_stream ML n B (guess p) (opt_filename p) [])))
    by reflexivity. rewrite H. apply N.add_comm.
Qed.

Lemma counted_files B fs : map (counted ML guess B) fs = map (file_bytes guess B) fs.
Proof. apply map_ext. intros f. apply counted_file. Qed.

Lemma wrap_add a b : add64 false a b = Some ((a + b) mod 2 ^ 64)%N.
Proof. unfold add64. destruct (N.ltb_spec (a + b) (2 ^ 64)); auto. now rewrite N.mod_small. Qed.

Lemma wraps_loop B fs : forall text streams len use,
  from_fields_loop64 ML guess false B fs text streams (len mod 2 ^ 64)%N use =
  match from_fields_loop ML guess B fs text streams len use with
  | inl e => Err e
  | inr (t, s, l, u) => Ok (t, s, (l mod 2 ^ 64)%N, u)
  end.
Proof.
  induction fs as [|f fs IH]; intros text streams len use; [reflexivity|]. cbn [from_fields_loop64 from_fields_loop].
  destruct (l_data f) as [t|p [k|[[k|m] src]]|fn ct src]; auto; unfold from_path64, from_path, mime_filename; auto.
  rewrite !wrap_add. rewrite <- IH. f_equal. rewrite <- N.add_mod by discriminate. reflexivity.
Qed.

Lemma sumN_app l1 l2 : sumN (l1 ++ l2) = (sumN l1 + sumN l2)%N.
Proof. induction l1; cbn [sumN fold_right app]; auto. fold (sumN (l1 ++ l2)). rewrite IHl1. unfold sumN. lia. Qed.

(** With checks: the same, but for a panic at the first field that takes the sum out of range. *)
Lemma checks_loop B fs : forall text streams len use, (len < 2 ^ 64)%N ->
  match from_fields_loop64 ML guess true B fs text streams len use with
  | Ok (t, s, l, u) => from_fields_loop ML guess B fs text streams len use = inr (t, s, l, u) /\ (l < 2 ^ 64)%N
  | Err e => from_fields_loop ML guess B fs text streams len use = inl e /\
      exists l1 f k l2, fs = l1 ++ f :: l2 /\ opens l1 /\ lfails ML f k /\ (len + sumN (map (file_bytes guess B) l1) < 2 ^ 64)%N
  | Panic => exists l1 l2, fs = l1 ++ l2 /\ opens l1 /\ (2 ^ 64 <= len + sumN (map (file_bytes guess B) l1))%N
  | OutOfFuel => False
  end.
Proof.
  induction fs as [|f fs IH]; intros text streams len use L; [cbn; auto|].
  assert (Step : forall text1 streams1 len1 use1, (forall k, ~ lfails ML f k) -> len1 = (len + file_bytes guess B f)%N -> (len1 < 2 ^ 64)%N ->
    match from_fields_loop64 ML guess true B fs text1 streams1 len1 use1 with
    | Ok (t, s, l, u) => from_fields_loop ML guess B fs text1 streams1 len1 use1 = inr (t, s, l, u) /\ (l < 2 ^ 64)%N
    | Err e => from_fields_loop ML guess B fs text1 streams1 len1 use1 = inl e /\
        exists l1 f0 k l2, f :: fs = l1 ++ f0 :: l2 /\ opens l1 /\ lfails ML f0 k /\ (len + sumN (map (file_bytes guess B) l1) < 2 ^ 64)%N
    | Panic => exists l1 l2, f :: fs = l1 ++ l2 /\ opens l1 /\ (2 ^ 64 <= len + sumN (map (file_bytes guess B) l1))%N
    | OutOfFuel => False
    end).
  { intros text1 streams1 len1 use1 Nf -> L1. specialize (IH text1 streams1 _ use1 L1).
    destruct (from_fields_loop64 ML guess true B fs text1 streams1 _ use1) as [[[[t s] l] u]|e| |]; auto.
    - destruct IH as [E (l1 & f0 & k & l2 & -> & O & F & Q)]. split; auto. exists (f :: l1), f0, k, l2. split; auto. split; [|split; auto].
      + intros x y [<-|Hx]; [apply Nf|now apply O].
      + cbn [map sumN fold_right]. fold (sumN (map (file_bytes guess B) l1)). lia.
    - destruct IH as (l1 & l2 & -> & O & Q). exists (f :: l1), l2. split; auto. split.
      + intros x y [<-|Hx]; [apply Nf|now apply O].
      + cbn [map sumN fold_right]. fold (sumN (map (file_bytes guess B) l1)). lia. }
  cbn [from_fields_loop64 from_fields_loop]. destruct f as [n [t|p o|fn ct src]] eqn:Ef; cbn [l_data l_name].
  - apply Step; auto. unfold file_bytes. cbn [l_data]. lia.
  - unfold from_path64, from_path, mime_filename. destruct o as [k|[[k|m] src]].
    + split; auto. exists [], f, k, fs. rewrite Ef. split; auto. split; [intros ? ? []|]. split; [reflexivity|]. cbn. lia.
    + split; auto. exists [], f, k, fs. rewrite Ef. split; auto. split; [intros ? ? []|]. split; [reflexivity|]. cbn. lia.
    + rewrite <- Ef in *. assert (Hc : file_bytes guess B f = (m + N.of_nat (length (c_data (f_header (from_stream ML n B (guess p) (opt_filename p) src)))))%N)
        by (rewrite <- counted_file, Ef; reflexivity).
      assert (Out : (2 ^ 64 <= len + file_bytes guess B f)%N ->
        exists l1 l2, f :: fs = l1 ++ l2 /\ opens l1 /\ (2 ^ 64 <= len + sumN (map (file_bytes guess B) l1))%N).
      { intros H. exists [f], fs. split; auto. split; [|cbn [map sumN fold_right]; lia].
        intros x y [<-|[]] Hx. rewrite Ef in Hx. exact Hx. }
      unfold add64 at 1. rewrite <- Hc. destruct (N.ltb_spec (file_bytes guess B f) (2 ^ 64)) as [H1|H1]; [|apply Out; lia].
      unfold add64. destruct (N.ltb_spec (len + file_bytes guess B f) (2 ^ 64)) as [H2|H2]; [|now apply Out].
      apply Step; auto. intros k Hk. rewrite Ef in Hk. exact Hk.
  - apply Step; auto. unfold file_bytes. cbn [l_data]. lia.
Qed.

Lemma opens_prefix (l1 : lazy_form (mime ML)) : forall f k l2 p q, l1 ++ f :: l2 = p ++ q -> lfails ML f k -> opens p -> exists r, l1 = p ++ r.
Proof.
  induction l1 as [|x l1 IH]; intros f k l2 p q E F O.
  - destruct p as [|y p]; [now exists []|]. cbn [app] in E. injection E as <- E. exfalso. eapply O; [now left|exact F].
  - destruct p as [|y p]; [now exists (x :: l1)|]. cbn [app] in E. injection E as <- E.
    destruct (IH _ _ _ _ _ E F) as [r ->]; [intros a b Ha; apply O; now right|]. now exists r.
Qed.

End Loop.

Lemma closing_is {ML : mime_lib} guess g (fs : lazy_form (mime ML)) s g1 : from_fields ML guess g fs = (inr s, g1) ->
  N.of_nat (length (c_data (s_end s))) = closing_bytes g fs.
Proof.
  intros H. apply from_fields_ok in H as (_ & _ & _ & _ & -> & _). rewrite gen_boundary_of. unfold closing_bytes. destruct fs; auto.

Qed.

(** A build without overflow checks declares the length modulo 2^64, and does nothing else differently. *)
Theorem C90_wraps : forall ML guess g fs,
  prepare64 ML guess false g fs =
  let '(x, g1, fs1) := prepare ML guess g fs in (bounded (fun n => n mod 2 ^ 64)%N x, g1, fs1).
Proof.
  intros ML guess g fs. unfold prepare64, prepare, from_fields64, from_fields. destruct (gen_boundary g) as [b g1]. set (B := CRLF ++ DASHES ++ b).
  change 0%N with (0 mod 2 ^ 64)%N at 1. rewrite wraps_loop. destruct (from_fields_loop ML guess B fs [] [] 0%N true) as [e|[[[t s] l] u]]; [reflexivity|].
  rewrite wrap_add. cbn [bounded s_text s_streams s_end s_len]. rewrite N.add_mod_idemp_l by discriminate. destruct u; reflexivity.
Qed.

(** The sum leaves the range: over the files of an initial segment without failing file, or at the very end. *)
Definition out_of_range {ML : mime_lib} (guess : path -> mime ML) (g : rng) (fs : lazy_form (mime ML)) : Prop :=
  (exists l1 l2, fs = l1 ++ l2 /\ opens l1 /\ (2 ^ 64 <= files_bytes guess g l1)%N) \/
  (opens fs /\ (2 ^ 64 <= files_bytes guess g fs + closing_bytes g fs)%N).

(** One with checks does what the unbounded count does, or panics. *)
Theorem C90_checked : forall ML guess g fs,
  (out_of_range guess g fs /\ fst (fst (prepare64 ML guess true g fs)) = Panic) \/
  (~ out_of_range guess g fs /\
   prepare64 ML guess true g fs = let '(x, g1, fs1) := prepare ML guess g fs in (bounded (fun n => n) x, g1, fs1)).
Proof.
  intros ML guess g fs. unfold out_of_range, files_bytes.
  pose proof (closing_is guess g fs) as HC. unfold prepare64, prepare, from_fields64. unfold from_fields in *.
  pose proof (gen_boundary_of g) as Hb. destruct (gen_boundary g) as [b g1]. cbn [fst] in Hb. subst b. set (B := CRLF ++ DASHES ++ boundary_of g) in *.
  pose proof (fields_loop ML guess B fs [] [] 0%N true) as HF.
  pose proof (checks_loop guess B fs [] [] 0%N true eq_refl) as H.
  destruct (from_fields_loop64 ML guess true B fs [] [] 0%N true) as [[[[t s] l] u]|e| |].
  - destruct H as [E L]. rewrite E in *. destruct HF as (Nf & _ & _ & -> & _). rewrite N.add_0_l, counted_files in *.
    specialize (HC _ _ eq_refl). cbn [s_end cursor_new c_data] in HC. unfold add64. rewrite HC.
    destruct (N.ltb_spec (sumN (map (file_bytes guess B) fs) + closing_bytes g fs) (2 ^ 64)) as [Q|Q].
    + right. split.
      * intros [(l1 & l2 & -> & _ & K)|[_ K]]; [|lia]. rewrite map_app, sumN_app in L. lia.
      * cbn [bounded s_text s_streams s_end s_len]. destruct u; reflexivity.
    + left. split; auto.
  - destruct H as [E (l1 & f & k & l2 & -> & O & F & L)]. rewrite E in *. right. split; [|reflexivity].
    intros [(p & q & Hp & Op & K)|[O' _]].
    + destruct (opens_prefix l1 f k l2 p q Hp F Op) as [r ->]. rewrite map_app, sumN_app in L. lia.
    + apply (O' f k); auto. apply in_or_app. right. now left.
  - left. destruct H as (l1 & l2 & -> & O & L). split; auto. left. exists l1, l2. auto.
  - contradiction.
Qed.

(** Within the range there is no difference. *)
Theorem C90_in_range : forall ML guess c g fs q,
  (files_bytes guess g fs + closing_bytes g fs < 2 ^ 64)%N -> lazy_send64 ML guess c g fs q = lazy_send ML guess g fs q.
Proof.
  intros ML guess c g fs q H.
  assert (E : prepare64 ML guess c g fs = let '(x, g1, fs1) := prepare ML guess g fs in (bounded (fun n => n) x, g1, fs1)).
  { destruct c.
    - destruct (C90_checked ML guess g fs) as [[O _]|[_ E]]; [|exact E]. exfalso. destruct O as [(l1 & l2 & -> & _ & K)|[_ K]]; [|lia].
      unfold files_bytes in *. rewrite map_app, sumN_app in H. lia.
    - rewrite C90_wraps. unfold prepare. destruct (from_fields ML guess g fs) as [[e|s] g1] eqn:F; [reflexivity|]. cbn [bounded].
      pose proof (closing_is guess g fs s g1 F) as HC. apply from_fields_ok in F as (_ & _ & _ & _ & _ & _ & L). rewrite gen_boundary_of in L.
      rewrite counted_files, HC in L. rewrite L. destruct (existsb _ fs); cbn [option_map]; auto. rewrite N.mod_small by exact H. reflexivity. }
  unfold lazy_send64, lazy_send. rewrite E. destruct (prepare ML guess g fs) as [[[e|s] g1] fs1]; [reflexivity|]. cbn [bounded].
  replace (mkPrep (s_text s) (s_streams s) (s_end s) (option_map (fun n => n) (s_len s))) with s by (destruct s as [? ? ? []]; reflexivity).
  destruct (boundary_str s); reflexivity.
Qed.

(** So a successful [send] of files whose lengths were reported truly declares, with checks, the length of what it writes;
    without, the remainder of that length. *)
Theorem C90_send : forall ML guess c g fs q q' fs',
  lazy_send64 ML guess c g fs q = (Ok tt, q', fs') -> Forall (fun f => kinds (fun k => k <> KInterrupted) (l_source ML f)) fs ->
  Forall honest fs -> Forall (fun f => is_text ML f = false /\ is_stream ML f = false) fs ->
  exists n ds, q_log q' = q_log q ++ [CApply (boundary_of g) (Some n); COpen] ++ map CWrite ds ++ [CFinish] /\
    concat ds = lazy_body_of ML guess g fs /\ n = (N.of_nat (length (concat ds)) mod 2 ^ 64)%N /\
    (c = true -> n = N.of_nat (length (concat ds))).
Proof.
  intros ML guess c g fs q q' fs' H C Hh Hk. unfold lazy_send64 in H.
  assert (P64 : forall s g1 fs1, prepare64 ML guess c g fs = (Ok s, g1, fs1) ->
    exists s0 m n, prepare ML guess g fs = (inr s0, g1, fs1) /\ s = mkPrep (s_text s0) (s_streams s0) (s_end s0) (Some n) /\ content_len s0 = Some m /\
      n = (m mod 2 ^ 64)%N /\ (c = true -> n = m)).
  { intros s g1 fs1 E.
    assert (E' : exists s0, prepare ML guess g fs = (inr s0, g1, fs1) /\ s = mkPrep (s_text s0) (s_streams s0) (s_end s0)
               (option_map (fun n => if c then n else n mod 2 ^ 64)%N (s_len s0)) /\ (c = true -> ~ out_of_range guess g fs)).
    { destruct c.
      - destruct (C90_checked ML guess g fs) as [[_ X]|[O X]]; [rewrite E in X; discriminate|]. rewrite X in E.
        destruct (prepare ML guess g fs) as [[[e|s0] g2] fs2]; [discriminate|]. injection E as <- <- <-. exists s0. auto.
      - rewrite C90_wraps in E. destruct (prepare ML guess g fs) as [[[e|s0] g2] fs2]; [discriminate|]. injection E as <- <- <-. exists s0.
        split; auto. split; auto. discriminate. }
    destruct E' as (s0 & E0 & -> & O). pose proof E0 as F. apply prepare_ok in F. pose proof (closing_is guess g fs s0 g1 F) as HC.
    apply from_fields_ok in F as (Nf & _ & _ & _ & _ & _ & L). rewrite gen_boundary_of, counted_files, HC in L.
    assert (Ns : existsb (is_stream ML) fs = false).
    { clear - Hk. induction Hk as [|f l [_ Hf] _ IH]; [reflexivity|]. cbn [existsb]. now rewrite Hf, IH. }
    rewrite Ns in L. rewrite L. cbn [option_map]. do 3 eexists. split; [exact E0|]. split; [reflexivity|]. split; [exact L|]. destruct c; [|split; [reflexivity|discriminate]].
    split; auto. rewrite N.mod_small; auto. apply N.nle_gt. intros K. apply (O eq_refl). right. split; auto. }
  destruct (prepare64 ML guess c g fs) as [[[s|e| |] g1] fs1]; try discriminate.
  destruct (P64 s g1 fs1 eq_refl) as (s0 & m & n & E0 & -> & El & En & Ec). clear P64.
  destruct (C25_short_by_texts_partial ML guess g fs s0 g1 fs1 E0) as [_ K]. specialize (K m El Hh).
  pose proof E0 as F. apply prepare_ok, from_fields_ok in F as (_ & V & St & P & Eend & M & _). rewrite gen_boundary_of in *.
  assert (T : texts_of ML guess g fs = []).
  { unfold texts_of. replace (filter (is_text ML) fs) with (@nil (lfield (mime ML))); auto.
    clear - Hk. induction Hk as [|f l [Hf _] _ IH]; [reflexivity|]. cbn [filter]. now rewrite Hf. }
  rewrite T in K. cbn [length N.of_nat] in K. rewrite N.add_0_r in K.
  set (s := mkPrep (s_text s0) (s_streams s0) (s_end s0) (Some n)) in *.
  assert (Vs : valid s) by exact V. assert (Ps : pending s = pending s0) by reflexivity.
  destruct fs as [|f0 fs0]; [rewrite (boundary_empty s Eend) in H; discriminate|].
  rewrite (boundary_full s _ Eend) in H. unfold apply_headers, open_http in H. cbn [logged q_open] in H.
  destruct (q_open q) as [k|]; [discriminate|].
  destruct (copy_prepared _ COPY_BUF s _) as [[x s1] q3] eqn:Y.
  apply copy_prefix in Y as (d & (_ & _ & _ & ds & L & D) & _ & Ed); [|unfold COPY_BUF; lia|auto|eapply prepared_kinds; eauto].
  destruct x as [[]|k| |]; try discriminate. unfold finish_http in H. destruct (q_finish q3); [discriminate|].
  injection H as <- <-. cbn [logged q_log]. exists n, ds. rewrite L. cbn [logged q_log].
  assert (Eb : concat ds = lazy_body_of ML guess g (f0 :: fs0)) by (rewrite D, (Ed eq_refl), Ps; exact P).
  split; [rewrite <- !app_assoc; reflexivity|]. split; [exact Eb|]. rewrite Eb, K. auto.
Qed.

(** [send] succeeds where it would with an unbounded count, in a build without checks always. *)
Theorem C90_send_succeeds : forall ML guess c g fs q,
  fs <> [] -> opens fs -> Forall (lcalm ML) fs -> (c = true -> ~ out_of_range guess g fs) ->
  q_open q = None -> q_finish q = None -> Forall good_write (q_sched q) ->
  exists q', lazy_send64 ML guess c g fs q = (Ok tt, q', []).
Proof.
  intros ML guess c g fs q Ne Nf C O Ho Hf Hg. unfold lazy_send64.
  assert (E : exists s g1 n, prepare ML guess g fs = (inr s, g1, []) /\ prepare64 ML guess c g fs = (Ok (mkPrep (s_text s) (s_streams s) (s_end s) n), g1, [])).
  { pose proof (from_fields_cases ML guess g fs) as K.
    assert (E0 : exists s g1, prepare ML guess g fs = (inr s, g1, [])).
    { unfold prepare. destruct (from_fields ML guess g fs) as [[e|s] g1]; [|now exists s, g1].
      destruct K as (l1 & f & l2 & k & -> & _ & K & _). exfalso. apply (Nf f k); auto. apply in_or_app. right. now left. }
    destruct E0 as (s & g1 & E0). exists s, g1. destruct c.
    - destruct (C90_checked ML guess g fs) as [[X _]|[_ X]]; [now apply O in X|]. rewrite X, E0. eexists. split; reflexivity.
    - rewrite C90_wraps, E0. eexists. split; reflexivity. }
  destruct E as (s0 & g1 & n & E0 & ->). apply prepare_ok, from_fields_ok in E0 as (_ & V & St & P & En & M & _). rewrite gen_boundary_of in *.
  set (s := mkPrep (s_text s0) (s_streams s0) (s_end s0) n). assert (Vs : valid s) by exact V.
  destruct fs as [|f0 fs0]; [congruence|]. rewrite (boundary_full s _ En). unfold apply_headers, open_http. cbn [logged q_open]. rewrite Ho.
  match goal with |- context [copy_prepared _ _ _ ?q2] => set (q1 := q2) end.
  destruct (copy_calm (S (prepared_size s)) COPY_BUF s q1) as (s1 & q3 & -> & (_ & _ & Q & _) & _); auto.
  - unfold COPY_BUF. lia.
  - exact (prepared_calm ML _ s M C).
  - rewrite start_left; [lia|exact St].
  - unfold finish_http. rewrite Q. cbn [q1 logged q_finish]. rewrite Hf. eauto.
Qed.

Lemma one_chunk c : retried [Chunk c] = c /\ calm [Chunk c].
Proof. destruct c; cbn [retried calm]; rewrite ?app_nil_r; auto. Qed.

(** The claim that the declared length is the length of the body is false of a build without checks: a file of 2^64 - 1
    bytes, which is what a [u64] can say. *)
Theorem C90_release_refuted : exists fs q q' n ds,
  Forall honest fs /\ Forall (fun f => is_text toy f = false /\ is_stream toy f = false) fs /\
  Forall (fun f => match l_data f with LFile _ (inr (inr m, _)) => m < 2 ^ 64 | _ => False end)%N fs /\
  lazy_send64 toy any_guess false [] fs q = (Ok tt, q', []) /\
  q_log q' = q_log q ++ [CApply (boundary_of []) (Some n); COpen] ++ map CWrite ds ++ [CFinish] /\
  N.of_nat (length (concat ds)) <> n.
Proof.
  pose (big := fun m : N => mkLF (M := mime toy) (bs "f") (LFile [bs "x"] (inr (inr m, [Chunk (repeat 0%N (N.to_nat m))])))).
  assert (Hh : forall m, honest (big m)).
  { intros m. unfold honest, big. cbn [l_data]. rewrite (proj1 (one_chunk _)), repeat_length, N2Nat.id. reflexivity. }
  assert (Hs : forall m, files_bytes any_guess [] [big m] = (file_bytes any_guess (CRLF ++ DASHES ++ boundary_of []) (big 0) + m)%N).
  { intros m. unfold files_bytes, file_bytes, big. cbn [map sumN fold_right l_data l_name]. lia. }
  assert (Hb : (1 <= file_bytes any_guess (CRLF ++ DASHES ++ boundary_of []) (big 0))%N) by (vm_compute; discriminate).
  assert (Hlt : (2 ^ 64 - 1 < 2 ^ 64)%N) by reflexivity.
  assert (Hbig : (2 ^ 64 - 1 + 1 = 2 ^ 64)%N) by reflexivity.
  revert Hlt Hbig. generalize (2 ^ 64 - 1)%N as m. intros m Hlt Hbig.
  assert (Hf : Forall (fun f => is_text toy f = false /\ is_stream toy f = false) [big m]) by (constructor; [split; reflexivity|constructor]).
  destruct (C90_send_succeeds toy any_guess false [] [big m] (plain_http [])) as [q' E]; try discriminate; auto.
  { intros f k [<-|[]] H. exact H. }
  { constructor; [|constructor]. unfold lcalm, l_source, big. cbn [l_data]. apply one_chunk. }
  { cbn. constructor. }
  destruct (C90_send toy any_guess false [] [big m] _ _ _ E) as (n & ds & L & B & En & _); auto.
  { constructor; [|constructor]. unfold kinds, l_source, big. cbn [l_data]. constructor; auto. }
  exists [big m], (plain_http []), q', n, ds. split; [constructor; auto|]. split; auto. split; [constructor; [exact Hlt|constructor]|].
  split; auto. split; auto. rewrite En. intros K.
  assert (N.of_nat (length (concat ds)) < 2 ^ 64)%N by (rewrite K; apply N.mod_lt; discriminate).
  apply (N.lt_irrefl (2 ^ 64)%N). eapply N.le_lt_trans; [|exact H]. rewrite <- Hbig, B.
  unfold lazy_body_of. change (lazy_order toy [big m]) with [big m]. cbn [map]. rewrite lazy_wire_parts by discriminate. cbn [map concat].
  unfold lazy_part, describe_lazy, big. cbn [l_data l_name l_source p_data]. unfold l_source. cbn [l_data].
  rewrite (proj1 (one_chunk _)), !app_length, repeat_length.
  change (length CRLF) with 2. rewrite !Nat2N.inj_add, N2Nat.id. lia.
Qed.

(** Two files of 2^63 - 1 bytes, the largest there are on most systems: a panic, or a length of a few hundred. *)
Definition huge : lfield (mime toy) := mkLF (bs "f") (LFile [bs "x"] (inr (inr (2 ^ 63 - 1)%N, []))).

Example C90_example :
  fst (fst (prepare64 toy any_guess true [] [huge; huge])) = Panic /\
  (exists s, fst (fst (prepare64 toy any_guess false [] [huge; huge])) = Ok s /\ content_len s = Some 230%N) /\
  (exists s, fst (fst (prepare64 toy any_guess true [] [huge])) = Ok s /\ content_len s = Some (2 ^ 63 + 126)%N) /\
  ~ out_of_range any_guess [] [one_file] /\ out_of_range any_guess [] [huge; huge].
Proof.
  split; [vm_compute; reflexivity|]. split; [eexists; split; vm_compute; reflexivity|]. split; [eexists; split; vm_compute; reflexivity|]. split.
  - destruct (C90_checked toy any_guess [] [one_file]) as [[_ X]|[X _]]; [vm_compute in X; discriminate|exact X].
  - left. exists [huge; huge], []. split; [reflexivity|]. split; [intros f k [<-|[<-|[]]] H; exact H|]. vm_compute. discriminate.
Qed.
