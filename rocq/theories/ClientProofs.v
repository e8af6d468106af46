(** Lemmas on the client: what is written is a prefix of the body, all of it on success. *)

From Verif Require Import Bytes BytesProofs Spec Io Utf8 Field Rand Fs HeaderSpec WireSpec Client CompleteProofs EntriesProofs.

Section Writer.
Context {W : Type} (wa : W -> bytes -> option iokind * W) (R : W -> bytes -> W -> Prop) (G : W -> Prop).

(** [R w d w']: from [w] to [w'] the bytes [d] were taken.  [G]: no call will fail. *)
Definition sound_writer : Prop :=
  (forall w, R w [] w) /\ (forall w d w1 d' w2, R w d w1 -> R w1 d' w2 -> R w (d ++ d') w2) /\
  (forall w b x w1, wa w b = (x, w1) -> exists d, R w d w1 /\ prefix_of d b /\ (x = None -> d = b)) /\
  (forall w b, G w -> exists w1, wa w b = (None, w1) /\ G w1).

Context (SW : sound_writer).

Lemma prefix_refl b : prefix_of b b.
Proof. exists []. now rewrite app_nil_r. Qed.

Lemma prefix_nil b : prefix_of [] b.
Proof. now exists b. Qed.

Lemma prefix_app a b c : prefix_of b c -> prefix_of (a ++ b) (a ++ c).
Proof. intros [t ->]. exists t. now rewrite app_assoc. Qed.

Lemma prefix_more a b c : prefix_of a b -> prefix_of a (b ++ c).
Proof. intros [t ->]. exists (t ++ c). now rewrite app_assoc. Qed.

(** From [m] to [m'] with result [x]: a prefix of [T] was written, all of it if [x] is a success. *)
Definition wrote (m : mwriter W) (x : option iokind) (m' : mwriter W) (T : bytes) : Prop :=
  m_boundary m' = m_boundary m /\
  exists d, R (m_inner m) d (m_inner m') /\ prefix_of d T /\ (x = None -> d = T).

Definition does (f : mwriter W -> option iokind * mwriter W) (T : mwriter W -> bytes) : Prop :=
  forall m x m', f m = (x, m') -> wrote m x m' (T m).

Lemma wrote_then m m1 x m2 T1 T2 : wrote m None m1 T1 -> wrote m1 x m2 T2 -> wrote m x m2 (T1 ++ T2).
Proof.
  destruct SW as (_ & Rt & _). intros (B1 & d1 & R1 & _ & E1) (B2 & d2 & R2 & P2 & E2). split; [congruence|].
  exists (d1 ++ d2). rewrite (E1 eq_refl) in *. split; [eapply Rt; eauto|]. split; [now apply prefix_app|].
  intros X. now rewrite (E2 X).
Qed.

Lemma wrote_stop m k m1 T1 T2 : wrote m (Some k) m1 T1 -> wrote m (Some k) m1 (T1 ++ T2).
Proof. intros (B & d & R1 & P & _). split; auto. exists d. split; auto. split; [now apply prefix_more|discriminate]. Qed.

Lemma wrote_nothing m x m' T : m_boundary m' = m_boundary m -> m_inner m' = m_inner m -> (x = None -> T = []) -> wrote m x m' T.
Proof.
  destruct SW as (R0 & _). intros B I E. split; auto. exists []. rewrite I. split; auto. split; [apply prefix_nil|]. intros X. now rewrite E.
Qed.

Lemma pieces_spec ps : forall w x w1, write_pieces wa ps w = (x, w1) ->
  exists d, R w d w1 /\ prefix_of d (concat ps) /\ (x = None -> d = concat ps).
Proof.
  destruct SW as (R0 & Rt & Rw & _). induction ps as [|p ps IH]; intros w x w1; cbn [write_pieces concat].
  - intros H; injection H as <- <-. exists []. split; auto. split; [apply prefix_nil|auto].
  - destruct (wa w p) as [[k|] w0] eqn:E; apply Rw in E as (d & R1 & P & D).
    + intros H; injection H as <- <-. exists d. split; auto. split; [now apply prefix_more|discriminate].
    + intros H. apply IH in H as (d' & R2 & P2 & D2). rewrite (D eq_refl) in *.
      exists (p ++ d'). split; [eapply Rt; eauto|]. split; [now apply prefix_app|]. intros X. now rewrite D2.
Qed.

Lemma copy_spec t : forall w x w1, io_copy wa t w = (x, w1) ->
  exists d, R w d w1 /\ prefix_of d (source_data t) /\ (x = None -> d = source_data t /\ ~ source_fails t).
Proof.
  destruct SW as (R0 & Rt & Rw & _). induction t as [|[[|c0 c]|k] t IH]; intros w x w1; cbn [io_copy source_data source_fails].
  - intros H; injection H as <- <-. exists []. split; auto. split; [apply prefix_nil|auto].
  - intros H; injection H as <- <-. exists []. split; auto. split; [apply prefix_nil|auto].
  - destruct (wa w (c0 :: c)) as [[k|] w0] eqn:E; apply Rw in E as (d & R1 & P & D).
    + intros H; injection H as <- <-. exists d. split; auto. split; [now apply prefix_more|discriminate].
    + intros H. apply IH in H as (d' & R2 & P2 & D2). rewrite (D eq_refl) in *.
      exists ((c0 :: c) ++ d'). split; [eapply Rt; eauto|]. split; [now apply prefix_app|].
      intros X. destruct (D2 X) as [-> ?]. auto.
  - destruct k; cbn [iokind_eqb]; [apply IH|..]; intros H; injection H as <- <-; exists []; split; auto;
      (split; [apply prefix_nil|discriminate]).
Qed.

Lemma emit_does ps : does (emit wa ps) (fun _ => concat ps).
Proof.
  intros m x m' H. unfold emit, with_inner in H. destruct (write_pieces wa ps (m_inner m)) as [y w] eqn:E.
  injection H as <- <-. apply pieces_spec in E. split; auto.
Qed.

Lemma chain_does f g T1 T2 : does f (fun m => T1 m) ->
  (forall m m1 x m2, f m = (None, m1) -> g m1 = (x, m2) -> wrote m1 x m2 (T2 m)) ->
  does (chain f g) (fun m => T1 m ++ T2 m).
Proof.
  intros F Gs m x m' H. unfold chain in H. destruct (f m) as [[k|] m1] eqn:E.
  - injection H as <- <-. apply wrote_stop. exact (F _ _ _ E).
  - eapply wrote_then; [exact (F _ _ _ E)|eauto].
Qed.

(** The line end owed to the field before. *)
Definition owed (m : mwriter W) : bytes := if m_written m then CRLF else [].

Lemma line_end_does : does (fun m => if m_written m then emit wa [CRLF] m else (None, m)) owed.
Proof.
  intros m x m' H. unfold owed. destruct (m_written m).
  - apply emit_does in H. exact H.
  - injection H as <- <-. apply wrote_nothing; auto.
Qed.

Lemma line_end_boundary m x m1 : (if m_written m then emit wa [CRLF] m else (None, m)) = (x, m1) -> m_boundary m1 = m_boundary m.
Proof. intros H. exact (proj1 (line_end_does _ _ _ H)). Qed.

Lemma boundary_does : does (write_boundary wa) (fun m => owed m ++ DASHES ++ m_boundary m ++ CRLF).
Proof.
  apply (chain_does _ _ owed (fun m => DASHES ++ m_boundary m ++ CRLF)); [apply line_end_does|].
  intros m m1 x m2 E H. apply emit_does in H. rewrite (line_end_boundary _ _ _ E) in H. exact H.
Qed.

Context (ML : mime_lib) (octet : mime ML) (guess : path -> mime ML).

Lemma chain_wrote f g m x m' T1 T2 :
  (forall x m1, f m = (x, m1) -> wrote m x m1 T1) ->
  (forall m1 x m2, f m = (None, m1) -> g m1 = (x, m2) -> wrote m1 x m2 T2) ->
  chain f g m = (x, m') -> wrote m x m' (T1 ++ T2).
Proof.
  intros F Gs H. unfold chain in H. destruct (f m) as [[k|] m1] eqn:E.
  - injection H as <- <-. apply wrote_stop. auto.
  - eapply wrote_then; eauto.
Qed.

Lemma head_pieces name fname ctype :
  head_text name fname (option_map (mime_show ML) ctype) =
  concat [bs "Content-Disposition: form-data; name="""; name; bs """"] ++
  (match fname with Some f => concat [bs "; filename="""; f; bs """"] | None => [] end) ++
  (match ctype with Some c => concat [CRLF ++ bs "Content-Type: "; mime_show ML c] | None => [] end) ++
  concat [CRLF ++ CRLF].
Proof.
  unfold head_text, disp_value, quoted. cbn [concat].
  change (bs "Content-Disposition: form-data; name=""") with (bs "Content-Disposition: " ++ bs "form-data; name=" ++ bs """").
  change (bs "; filename=""") with (bs "; filename=" ++ bs """").
  destruct fname as [f|]; destruct ctype as [c|]; cbn [option_map]; rewrite ?app_nil_r, ?app_nil_l; repeat rewrite <- app_assoc;
    rewrite ?app_nil_l; reflexivity.
Qed.

Lemma headers_does name fname ctype :
  does (write_field_headers wa ML name fname ctype)
    (fun m => owed m ++ DASHES ++ m_boundary m ++ CRLF ++ head_text name fname (option_map (mime_show ML) ctype)).
Proof.
  intros m x m' H. rewrite head_pieces.
  assert (As : forall a b c d e : bytes, a ++ b ++ c ++ d ++ e = (a ++ b ++ c ++ d) ++ [] ++ e)
    by (intros; repeat rewrite <- app_assoc; reflexivity).
  rewrite As. clear As.
  revert H. apply chain_wrote; [exact (boundary_does m)|]. intros m1 x1 m1' _.
  apply chain_wrote; [intros y n1 H; injection H as <- <-; apply wrote_nothing; auto|]. intros m2 x2 m2' _.
  apply chain_wrote; [intros y n1; apply emit_does|]. intros m3 x3 m3' _.
  apply chain_wrote.
  { intros y n1. destruct fname; [apply emit_does|]. intros H; injection H as <- <-. apply wrote_nothing; auto. }
  intros m4 x4 m4' _. apply chain_wrote; [|intros m5 y m6 _; apply emit_does].
  intros y n1. destruct ctype; [apply emit_does|]. intros H; injection H as <- <-. apply wrote_nothing; auto.
Qed.

(** After the headers of a field a line end is owed. *)
Lemma emit_written ps m x m' : emit wa ps m = (x, m') -> m_written m' = m_written m.
Proof. unfold emit, with_inner. intros H; injection H as <- <-. reflexivity. Qed.

Lemma headers_written name fname ctype m m' : write_field_headers wa ML name fname ctype m = (None, m') -> m_written m' = true.
Proof.
  unfold write_field_headers. unfold chain at 1. destruct (write_boundary wa m) as [[k|] m1]; [discriminate|].
  unfold chain. destruct (emit wa _ (mkMW _ _ true)) as [[k|] m2] eqn:E2; [discriminate|]. apply emit_written in E2.
  destruct ((match fname with Some f => _ | None => _ end) m2) as [[k|] m3] eqn:E3; [discriminate|].
  assert (W3 : m_written m3 = m_written m2).
  { destruct fname; [now apply emit_written in E3|]. now injection E3 as <-. }
  destruct ((match ctype with Some c => _ | None => _ end) m3) as [[k|] m4] eqn:E4; [discriminate|].
  assert (W4 : m_written m4 = m_written m3).
  { destruct ctype; [now apply emit_written in E4|]. now injection E4 as <-. }
  intros E5. apply emit_written in E5. cbn [m_written] in *. congruence.
Qed.

(** The field that a call describes. *)
Definition describe (f : cfield (mime ML)) : part :=
  match f with
  | CText n v => mkPart n None None v
  | CStream n fn ct t => mkPart n fn (Some (mime_show ML (match ct with Some c => c | None => octet end))) (source_data t)
  | CFile n p o => mkPart n (opt_filename p) (Some (mime_show ML (guess p))) (match o with inl _ => [] | inr t => source_data t end)
  end.

Definition part_text (b : bytes) (p : part) : bytes := DASHES ++ b ++ CRLF ++ p_head p ++ p_data p.

Definition fails (f : cfield (mime ML)) : Prop :=
  match f with
  | CText _ _ => False
  | CStream _ _ _ t => source_fails t
  | CFile _ _ (inl _) => True
  | CFile _ _ (inr t) => source_fails t
  end.

Lemma stream_field t n fn c m x m' :
  write_stream wa ML octet t n fn (Some c) m = (x, m') ->
  wrote m x m' (owed m ++ part_text (m_boundary m) (mkPart n fn (Some (mime_show ML c)) (source_data t))) /\
  (x = None -> m_written m' = true /\ ~ source_fails t).
Proof.
  unfold write_stream. intros H. split.
  - unfold part_text, p_head. cbn [p_name p_fname p_ctype p_data].
    replace (owed m ++ DASHES ++ m_boundary m ++ CRLF ++ head_text n fn (Some (mime_show ML c)) ++ source_data t)
      with ((owed m ++ DASHES ++ m_boundary m ++ CRLF ++ head_text n fn (Some (mime_show ML c))) ++ source_data t)
      by (repeat rewrite <- app_assoc; reflexivity).
    revert H. apply chain_wrote; [exact (headers_does n fn (Some c) m)|].
    intros m1 y m2 _. unfold with_inner. destruct (io_copy wa t (m_inner m1)) as [z w] eqn:E. intros Q; injection Q as <- <-.
    apply copy_spec in E as (d & R1 & P & D). split; auto. exists d. split; auto. split; auto. intros X. now apply D.
  - intros ->. unfold chain in H. destruct (write_field_headers wa ML n fn (Some c) m) as [[k|] m1] eqn:E; [discriminate|].
    apply headers_written in E. unfold with_inner in H. destruct (io_copy wa t (m_inner m1)) as [z w] eqn:F. injection H as -> <-.
    apply copy_spec in F as (d & _ & _ & D). split; [exact E|]. now apply D.
Qed.

Lemma field_spec f m x m' : write_field wa ML octet guess f m = (x, m') ->
  wrote m x m' (owed m ++ part_text (m_boundary m) (describe f)) /\ (x = None -> m_written m' = true /\ ~ fails f).
Proof.
  destruct f as [n v|n fn ct t|n p o]; cbn [write_field describe fails].
  - unfold write_text. intros H. split.
    + unfold part_text, p_head. cbn [p_name p_fname p_ctype p_data].
      replace (owed m ++ DASHES ++ m_boundary m ++ CRLF ++ head_text n None None ++ v)
        with ((owed m ++ DASHES ++ m_boundary m ++ CRLF ++ head_text n None None) ++ concat [v])
        by (cbn [concat]; rewrite app_nil_r; repeat rewrite <- app_assoc; reflexivity).
      revert H. apply chain_wrote; [exact (headers_does n None None m)|]. intros m1 y m2 _. apply emit_does.
    + intros ->. unfold chain in H. destruct (write_field_headers wa ML n None None m) as [[k|] m1] eqn:E; [discriminate|].
      apply headers_written in E. apply emit_written in H. split; [congruence|auto].
  - intros H. apply (stream_field t n fn (match ct with Some c => c | None => octet end)). destruct ct; exact H.
  - unfold write_file, mime_filename. destruct o as [k|t].
    + intros H; injection H as <- <-. split; [|discriminate]. apply wrote_nothing; auto. discriminate.
    + apply stream_field.
Qed.

Fixpoint rest_text (b : bytes) (first : bool) (l : list part) : bytes :=
  match l with
  | [] => []
  | p :: l' => (if first then [] else CRLF) ++ part_text b p ++ rest_text b false l'
  end.

Lemma fields_spec fs : forall m x m', write_fields wa ML octet guess fs m = (x, m') ->
  wrote m x m' (rest_text (m_boundary m) (negb (m_written m)) (map describe fs)) /\
  (x = None -> m_written m' = (m_written m || negb (length fs =? 0)) /\ ~ Exists fails fs).
Proof.
  induction fs as [|f fs IH]; intros m x m'; cbn [write_fields map rest_text length].
  - intros H; injection H as <- <-. split; [apply wrote_nothing; auto|]. intros _. rewrite orb_false_r. split; auto. intros H; inversion H.
  - unfold chain. destruct (write_field wa ML octet guess f m) as [[k|] m1] eqn:E; apply field_spec in E as [E1 E2].
    + intros H; injection H as <- <-. split; [|discriminate].
      rewrite app_assoc. apply wrote_stop. unfold owed in E1. destruct (m_written m); exact E1.
    + intros H. apply IH in H as [H1 H2]. destruct (E2 eq_refl) as [E3 E4]. destruct (E1) as (B1 & _). rewrite B1, E3 in H1.
      split.
      * rewrite app_assoc. eapply wrote_then; [|exact H1]. unfold owed in E1. destruct (m_written m); exact E1.
      * intros X. destruct (H2 X) as [H3 H4]. rewrite H3, E3. cbn. split; [now rewrite orb_true_r|].
        intros Q. inversion Q; auto.
Qed.

Lemma wire_text b l : wire b l = rest_text b true l ++ (if length l =? 0 then [] else CRLF) ++ DASHES ++ b ++ DASHES ++ CRLF.
Proof.
  unfold wire. change crlf with CRLF. change dashes with DASHES.
  assert (K : forall (l : list part), l <> [] -> forall f : bool, rest_text b f l ++ CRLF =
    (if f then [] else CRLF) ++ concat (map (fun p => DASHES ++ b ++ CRLF ++ p_head p ++ p_data p ++ CRLF) l)).
  { clear. induction l as [|p [|p' l] IH]; intros N f; [congruence| |].
    - cbn [map concat rest_text]. unfold part_text. rewrite !app_nil_r. repeat rewrite <- app_assoc. reflexivity.
    - specialize (IH ltac:(discriminate) false). remember (p' :: l) as l' eqn:E. clear E. cbn [map concat rest_text].
      repeat rewrite <- app_assoc. rewrite IH. unfold part_text. repeat rewrite <- app_assoc. reflexivity. }
  destruct l as [|p l]; [reflexivity|]. specialize (K (p :: l) ltac:(discriminate) true). cbn [length Nat.eqb].
  rewrite app_nil_l in K. rewrite <- K. rewrite <- app_assoc. reflexivity.
Qed.

Lemma finish_does : does (finish_writer wa) (fun m => owed m ++ DASHES ++ m_boundary m ++ DASHES ++ CRLF).
Proof.
  intros m x m'. apply chain_wrote; [exact (line_end_does m)|]. intros m1 y m2 E H. apply emit_does in H.
  rewrite (line_end_boundary _ _ _ E) in H. exact H.
Qed.

(** A fresh writer, any fields, then the closing delimiter. *)
Lemma fields_finish fs w b m1 x m2 :
  write_fields wa ML octet guess fs (mkMW w b false) = (None, m1) -> finish_writer wa m1 = (x, m2) ->
  wrote (mkMW w b false) x m2 (wire b (map describe fs)).
Proof.
  intros H F. apply fields_spec in H as [H1 H2]. destruct (H2 eq_refl) as [H3 _]. apply finish_does in F.
  rewrite wire_text. eapply wrote_then; [exact H1|]. destruct H1 as (B & _). unfold owed in F. rewrite H3, B in F. cbn [m_written m_boundary orb] in F.
  rewrite map_length. destruct (length fs =? 0); exact F.
Qed.

Lemma fields_stopped fs w b k m1 :
  write_fields wa ML octet guess fs (mkMW w b false) = (Some k, m1) -> wrote (mkMW w b false) (Some k) m1 (wire b (map describe fs)).
Proof. intros H. apply fields_spec in H as [H _]. rewrite wire_text. apply wrote_stop. exact H. Qed.

(** Success. *)
Definition okf (f : mwriter W -> option iokind * mwriter W) : Prop :=
  forall m, G (m_inner m) -> exists m', f m = (None, m') /\ G (m_inner m').

Lemma emit_ok ps : okf (emit wa ps).
Proof.
  destruct SW as (_ & _ & _ & Rg). intros m H. unfold emit, with_inner.
  assert (K : forall ps w, G w -> exists w1, write_pieces wa ps w = (None, w1) /\ G w1).
  { clear - Rg. induction ps as [|p ps IH]; intros w H; cbn [write_pieces]; eauto.
    destruct (Rg w p H) as (w1 & -> & H1). auto. }
  destruct (K ps _ H) as (w1 & -> & H1). eexists. split; [reflexivity|auto].
Qed.

Lemma copy_ok t : ~ source_fails t -> forall w, G w -> exists w1, io_copy wa t w = (None, w1) /\ G w1.
Proof.
  destruct SW as (_ & _ & _ & Rg). induction t as [|[[|c0 c]|k] t IH]; cbn [io_copy source_fails]; intros N w H; eauto.
  - destruct (Rg w (c0 :: c) H) as (w1 & -> & H1). auto.
  - destruct k; cbn [iokind_eqb]; auto; destruct (N I).
Qed.

Lemma chain_ok f g : okf f -> okf g -> okf (chain f g).
Proof. intros F K m H. unfold chain. destruct (F m H) as (m1 & -> & H1). auto. Qed.

Lemma id_ok : okf (fun m => (None, m)).
Proof. intros m H. eauto. Qed.

Lemma line_end_ok : okf (fun m => if m_written m then emit wa [CRLF] m else (None, m)).
Proof. intros m H. destruct (m_written m); [now apply emit_ok|eauto]. Qed.

Lemma headers_ok n fn ct : okf (write_field_headers wa ML n fn ct).
Proof.
  repeat apply chain_ok; auto using emit_ok, id_ok, line_end_ok.
  - intros m H. now apply emit_ok.
  - intros m H. eexists. split; [reflexivity|auto].
  - destruct fn; auto using emit_ok, id_ok.
  - destruct ct; auto using emit_ok, id_ok.
Qed.

Lemma stream_ok t n fn ct : ~ source_fails t -> okf (write_stream wa ML octet t n fn ct).
Proof.
  intros N. apply chain_ok; [apply headers_ok|]. intros m H. destruct (copy_ok t N _ H) as (w1 & E & H1).
  unfold with_inner. rewrite E. eexists. split; [reflexivity|auto].
Qed.

Lemma field_ok f : ~ fails f -> okf (write_field wa ML octet guess f).
Proof.
  destruct f as [n v|n fn ct t|n p [k|t]]; cbn [write_field fails]; intros N.
  - apply chain_ok; auto using emit_ok, headers_ok.
  - now apply stream_ok.
  - tauto.
  - intros m. unfold write_file, mime_filename. now apply stream_ok.
Qed.

Lemma fields_ok fs : ~ Exists fails fs -> okf (write_fields wa ML octet guess fs).
Proof.
  induction fs as [|f fs IH]; intros N; cbn [write_fields]; [apply id_ok|].
  apply chain_ok; [apply field_ok; intros H; apply N; now left|apply IH; intros H; apply N; now right].
Qed.

Lemma finish_ok : okf (finish_writer wa).
Proof. apply chain_ok; [apply line_end_ok|]. intros m H. now apply emit_ok. Qed.

End Writer.

(** ** The two writers *)

(** [d] was written to the stream, and nothing else was called. *)
Definition http_took (q : http) (d : bytes) (q' : http) : Prop :=
  q_accept q' = q_accept q /\ q_open q' = q_open q /\ q_finish q' = q_finish q /\
  exists ds, q_log q' = q_log q ++ map CWrite ds /\ concat ds = d.

Lemma took_nil q : http_took q [] q.
Proof. repeat split. exists []. split; [now rewrite app_nil_r|reflexivity]. Qed.

Lemma took_trans q d q1 d' q2 : http_took q d q1 -> http_took q1 d' q2 -> http_took q (d ++ d') q2.
Proof.
  intros (A1 & O1 & F1 & ds1 & L1 & D1) (A2 & O2 & F2 & ds2 & L2 & D2).
  repeat split; try congruence. exists (ds1 ++ ds2). rewrite L2, L1, map_app, app_assoc, concat_app, D1, D2. auto.
Qed.

Lemma write_all_took sched : forall b q x q1, write_all_http sched b q = (x, q1) ->
  exists d, http_took q d q1 /\ prefix_of d b /\ (x = None -> d = b).
Proof.
  assert (Nothing : forall q s, http_took q [] (mkHttp (q_accept q) (q_open q) s (q_finish q) (q_log q ++ []))).
  { intros q s. repeat split. exists []. auto. }
  induction sched as [|w sched IH]; intros b q x q1.
  - destruct b as [|y b]; cbn [write_all_http]; intros H; injection H as <- <-.
    + exists []. split; [apply Nothing|]. split; [apply prefix_nil|auto].
    + exists (y :: b). split; [|split; [apply prefix_refl|auto]]. repeat split. exists [y :: b]. split; [reflexivity|]. simpl. now rewrite app_nil_r.
  - destruct b as [|y b].
    { cbn [write_all_http]. intros H; injection H as <- <-. exists []. split; [apply Nothing|]. split; [apply prefix_nil|auto]. }
    cbn [write_all_http]. destruct w as [n|k].
    + destruct (Nat.min n (length (y :: b)) =? 0) eqn:M.
      { intros H; injection H as <- <-. exists []. split; [apply Nothing|]. split; [apply prefix_nil|discriminate]. }
      set (k := Nat.min n (length (y :: b))) in *. intros H. apply IH in H as (d & T & P & D).
      exists (firstn k (y :: b) ++ d). split; [|split].
      * eapply took_trans; [|exact T]. repeat split. exists [firstn k (y :: b)]. split; [reflexivity|]. simpl. now rewrite app_nil_r.
      * rewrite <- (firstn_skipn k (y :: b)) at 2. now apply prefix_app.
      * intros X. rewrite (D X). apply firstn_skipn.
    + destruct (iokind_eqb k KInterrupted).
      * apply IH.
      * intros H; injection H as <- <-. exists []. split; [apply Nothing|]. split; [apply prefix_nil|discriminate].
Qed.

(** No write fails; they may be short or interrupted. *)
Definition http_good (q : http) : Prop := Forall good_write (q_sched q).

Lemma write_all_good sched : Forall good_write sched -> forall b q,
  exists q1, write_all_http sched b q = (None, q1) /\ http_good q1.
Proof.
  unfold http_good. induction 1 as [|w sched Hw Hs IH]; intros b q.
  - destruct b; cbn [write_all_http]; eexists; split; try reflexivity; constructor.
  - destruct b as [|y b]; cbn [write_all_http]; [eexists; split; [reflexivity|]; now constructor|].
    destruct w as [n|k]; cbn [good_write] in Hw.
    + destruct (Nat.min n (length (y :: b)) =? 0) eqn:M; [apply Nat.eqb_eq in M; simpl in M; lia|]. apply IH.
    + subst k. cbn [iokind_eqb]. apply IH.
Qed.

Lemma http_sound : sound_writer http_write_all http_took http_good.
Proof.
  split; [apply took_nil|]. split; [apply took_trans|]. split.
  - intros w b x w1. apply write_all_took.
  - intros w b H. now apply write_all_good.
Qed.

Definition sized_took (z : sized) (d : bytes) (z' : sized) : Prop :=
  z' = mkSized (z_inner z) (z_buffer z ++ d) (z_boundary z).

Lemma sized_sound : sound_writer sized_write_all sized_took (fun _ => True).
Proof.
  unfold sized_took. split; [intros []; cbn; now rewrite app_nil_r|]. split.
  - intros w d w1 d' w2 -> ->. cbn. now rewrite app_assoc.
  - split.
    + intros w b x w1 H. injection H as <- <-. exists b. split; auto. split; [apply prefix_refl|auto].
    + intros w b _. eexists. split; [reflexivity|auto].
Qed.

Lemma cut_all n fuel : forall b, 0 < n -> length b <= fuel -> concat (cut n fuel b) = b /\ Forall (fun c => c <> []) (cut n fuel b).
Proof.
  induction fuel as [|fuel IH]; intros b Hn L.
  - destruct b; [|simpl in L; lia]. split; [reflexivity|constructor].
  - destruct b as [|x b]; cbn [cut concat]; [split; [reflexivity|constructor]|].
    destruct (IH (skipn n (x :: b)) Hn) as [I1 I2]; [rewrite skipn_length; cbn [length] in *; lia|].
    rewrite I1, firstn_skipn. split; auto. constructor; auto. destruct n; [lia|discriminate].
Qed.

Lemma copy_buf_pos : 0 < COPY_BUF.
Proof. apply Nat.ltb_lt. vm_compute. reflexivity. Qed.

Lemma slice_source_data b : source_data (slice_source b) = b /\ ~ source_fails (slice_source b).
Proof.
  unfold slice_source. destruct (cut_all COPY_BUF (length b) b copy_buf_pos (le_n _)) as [C1 C2].
  assert (K : forall l, Forall (fun c : bytes => c <> []) l -> source_data (map Chunk l) = concat l /\ ~ source_fails (map Chunk l)).
  { clear. induction 1 as [|c l Hc H [I1 I2]]; cbn [map source_data source_fails concat]; auto. destruct c; [congruence|]. now rewrite I1. }
  destruct (K _ C2) as [K1 K2]. now rewrite K1.
Qed.
