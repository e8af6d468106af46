(** Property theorems about the sources that a prepared request holds (C106). *)

From Verif Require Import Bytes BytesProofs Spec Io Boundary Utf8 Httparse Field Rand Fs WireSpec Client ClientProofs Lazy LazyProofs PropsClient PropsLazy Toy.

(** The request after calls of [read] with buffers of the given sizes, whatever they returned. *)
Fixpoint after_reads (sizes : list nat) (s : prepared) : prepared :=
  match sizes with [] => s | n :: sizes' => after_reads sizes' (snd (lazy_read n s)) end.

(** [p0] are the streams at the start: some are gone, of the first one held some bytes are taken, and the closing delimiter is not yet begun. *)
Definition held (p0 : list pfield) (s : prepared) : Prop :=
  exists gone, (gone <> [] -> rest (s_text s) = []) /\
    ((s_streams s = [] /\ gone = p0) \/
     exists f f0 fs x, p0 = gone ++ f0 :: fs /\ s_streams s = f :: fs /\ field_rest f0 = x ++ field_rest f /\ c_pos (s_end s) = 0).

Lemma loop_held p0 fuel : forall n acc s x s1, read_loop fuel n acc s = (x, s1) -> valid s -> length acc <= n -> held p0 s -> held p0 s1.
Proof.
  induction fuel as [|fuel IH]; intros n acc s x s1 H V L Hd; cbn [read_loop] in H; [now injection H as _ <-|].
  destruct V as (V1 & V2 & V3).
  destruct (Nat.ltb_spec (length acc) n) as [La|La]; cbn [andb] in H; [|now injection H as _ <-].
  destruct (cursor_at_end (s_end s)) eqn:Ee; cbn [negb] in H; [now injection H as _ <-|].
  rewrite (at_end_rest (s_text s)) in H by auto. destruct Hd as (gone & Hg & Hs).
  destruct (rest (s_text s)) as [|r0 r] eqn:Rt; cbn [negb] in H.
  - destruct (s_streams s) as [|f fs] eqn:Fs.
    + destruct (cursor_read (n - length acc) (s_end s)) as [d c] eqn:E. pose proof (cursor_read_spec _ _ _ _ E V2) as (E1 & _ & E3 & _).
      apply IH in H; auto; [split; cbn; auto| |].
      * rewrite app_length, E1, firstn_length. lia.
      * exists gone. cbn [s_text s_streams]. split; auto. left. split; auto. destruct Hs as [[_ Hs]|(f & f0 & fs & x0 & _ & Q & _)]; [auto|discriminate].
    + destruct Hs as [[Q _]|(f' & f0 & fs' & x0 & P & Q & Fr & Ep)]; [discriminate|]. injection Q as <- <-.
      inversion V3 as [|? ? Vf Vs]; subst.
      destruct (field_read (n - length acc) f) as [y f1] eqn:E. apply field_read_spec in E as (If & E & _); [|lia|auto].
      destruct y as [k|[|d0 d]].
      * injection H as _ <-. exists gone. cbn [s_text s_streams s_end]. split; auto. right. exists f1, f0, fs, x0. destruct E as [E _]. rewrite <- E. auto.
      * apply IH in H; auto; [repeat split; auto|]. exists (gone ++ [f0]). cbn [s_text s_streams s_end]. split; [auto|].
        destruct fs as [|f2 fs]; [left; auto|]. right. exists f2, f2, fs, []. rewrite <- app_assoc. auto.
      * destruct E as (E & El & _). apply IH in H; auto; [repeat split; cbn; auto; constructor; auto|rewrite app_length; lia|].
        exists gone. cbn [s_text s_streams s_end]. split; auto. right. exists f1, f0, fs, (x0 ++ d0 :: d). rewrite Fr, E, <- app_assoc. auto.
  - destruct (cursor_read (n - length acc) (s_text s)) as [d c] eqn:E. pose proof (cursor_read_spec _ _ _ _ E V1) as (E1 & _ & E3 & _).
    apply IH in H; auto; [split; cbn; auto| |].
    + rewrite app_length, E1, firstn_length. lia.
    + exists gone. cbn [s_text s_streams s_end]. split; auto. intros Ng. specialize (Hg Ng). discriminate.
Qed.

Lemma reads_held p0 sizes : forall s, valid s -> held p0 s -> valid (after_reads sizes s) /\ held p0 (after_reads sizes s) /\ same s (after_reads sizes s) /\
  exists us, Forall2 took_from_body (attempts sizes s) us /\ pending s = concat us ++ pending (after_reads sizes s).
Proof.
  induction sizes as [|n sizes IH]; intros s V Hd; cbn [after_reads attempts].
  - split; auto. split; auto. split; [apply same_refl|]. exists []. split; [constructor|reflexivity].
  - destruct (lazy_read n s) as [x s1] eqn:E. cbn [snd]. pose proof (read_spec _ _ _ _ E V) as (V1 & Sm & E1 & _).
    assert (Hd1 : held p0 s1).
    { unfold lazy_read in E. destruct (n =? 0); [now injection E as _ <-|]. eapply loop_held; eauto. cbn; lia. }
    destruct (IH s1 V1 Hd1) as (V2 & Hd2 & Sm2 & us & F & P). split; auto. split; auto. split; [eapply same_trans; eauto|].
    destruct x as [d|k| |]; try tauto.
    + exists (d :: us). split; [constructor; [reflexivity|exact F]|]. destruct E1 as (E1 & _). cbn [concat]. now rewrite E1, P, app_assoc.
    + destruct E1 as (l & E1 & Ll & _). exists (l :: us). split; [constructor; [exact Ll|exact F]|]. cbn [concat]. now rewrite E1, P, app_assoc.
Qed.

(** What the client has to send for some of the fields. *)
Definition sent_for (ML : mime_lib) (guess : path -> mime ML) (g : rng) (l : lazy_form (mime ML)) : bytes :=
  concat (map (fun p => crlf ++ dashes ++ boundary_of g ++ crlf ++ p_head p ++ p_data p) (map (describe_lazy ML guess) l)).

(** The text fields, and the files and streams in the order in which they are sent: the last one first. *)
Definition is_text_field {ML : mime_lib} (f : lfield (mime ML)) : bool := match l_data f with LText _ => true | _ => false end.
Definition text_fields {ML : mime_lib} (fs : lazy_form (mime ML)) : lazy_form (mime ML) := filter is_text_field fs.
Definition source_fields {ML : mime_lib} (fs : lazy_form (mime ML)) : lazy_form (mime ML) := rev (filter (fun f => negb (is_text_field f)) fs).

Lemma from_fields_streams ML guess g fs s g1 : from_fields ML guess g fs = (inr s, g1) ->
  rest (s_text s) = sent_for ML guess g (text_fields fs) /\
  Forall2 (fun p f => field_rest p = sent_for ML guess g [f] /\ f_stream p = l_source ML f) (s_streams s) (source_fields fs).
Proof.
  unfold from_fields. pose proof (gen_boundary_of g) as Gb. destruct (gen_boundary g) as [b g2]. cbn [fst] in Gb. subst b.
  set (B := CRLF ++ DASHES ++ boundary_of g). pose proof (fields_loop ML guess B fs [] [] 0%N true) as H.
  destruct (from_fields_loop ML guess B fs [] [] 0%N true) as [e|[[[text streams] len] use]]; [discriminate|].
  destruct H as (Nf & -> & -> & -> & ->). intros X. injection X as <- <-. cbn [s_text s_streams].
  assert (Lp : forall l, concat (map (lazy_part B) (map (describe_lazy ML guess) l)) = sent_for ML guess g l).
  { reflexivity. }
  split; [apply Lp|].
  rewrite app_nil_r, <- map_rev. unfold source_fields. 
  assert (NT : forall f, In f (rev (filter (fun f => negb (is_text ML f)) fs)) -> is_text ML f = false).
  { intros f Hf. apply in_rev in Hf. apply filter_In in Hf as [_ Hf]. now apply negb_true_iff in Hf. }
  change (fun f => negb (is_text ML f)) with (fun f : lfield (mime ML) => negb (is_text_field f)) in NT |- *.
  induction (rev (filter (fun f : lfield (mime ML) => negb (is_text_field f)) fs)) as [|f l IH]; cbn [map]; constructor; [|apply IH; intros; apply NT; now right].
  destruct (prepared_part ML guess B f (NT f (or_introl eq_refl))) as (E1 & _ & E2 & _). split; auto. rewrite E1, <- Lp. cbn [map concat]. now rewrite app_nil_r.
Qed.

Lemma sent_app ML guess g a b : sent_for ML guess g (a ++ b) = sent_for ML guess g a ++ sent_for ML guess g b.
Proof. unfold sent_for. now rewrite !map_app, concat_app. Qed.

Lemma sent_fields ML guess g ps l : Forall2 (fun p f => field_rest p = sent_for ML guess g [f] /\ f_stream p = l_source ML f) ps l ->
  concat (map field_rest ps) = sent_for ML guess g l /\ map f_stream ps = map (l_source ML) l.
Proof.
  induction 1 as [|p f ps l [E1 E2] _ [IH1 IH2]]; [split; reflexivity|]. cbn [map concat]. rewrite E1, E2, IH1, IH2. split; auto.
  now rewrite <- sent_app.
Qed.

Lemma matched_length {A B} (R : A -> B -> Prop) l m : Forall2 R l m -> length l = length m.
Proof. induction 1; cbn; auto. Qed.

Lemma matched_parts {A B} (R : A -> B -> Prop) k : forall l m, Forall2 R l m -> Forall2 R (firstn k l) (firstn k m) /\ Forall2 R (skipn k l) (skipn k m).
Proof.
  induction k as [|k IH]; intros l m F; cbn [firstn skipn]; [auto|]. destruct F; [auto|]. destruct (IH _ _ F). auto.
Qed.

Lemma ended_pending sizes : forall s n, valid s -> 0 < n -> In (n, Ok []) (attempts sizes s) -> pending (after_reads sizes s) = [].
Proof.
  induction sizes as [|m sizes IH]; intros s n V Pn Hi; [destruct Hi|]. cbn [attempts after_reads] in *.
  destruct (lazy_read m s) as [x s1] eqn:E. cbn [snd]. pose proof (read_spec _ _ _ _ E V) as (V1 & _ & E1 & _).
  destruct Hi as [Q|Hi]; [|eapply IH; eauto]. injection Q as -> ->. destruct E1 as (_ & _ & [E1|E1] & _); [cbn in E1; lia|].
  assert (K : forall sz s', valid s' -> pending s' = [] -> pending (after_reads sz s') = []); [|now apply K].
  clear. induction sz as [|k sz IHz]; intros s' V P; cbn [after_reads]; auto. destruct (lazy_read k s') as [y s2] eqn:E. cbn [snd].
  pose proof (read_spec _ _ _ _ E V) as (V2 & _ & E2 & _). apply IHz; auto. destruct y as [d|e| |]; try tauto.
  - destruct E2 as (E2 & _). rewrite P in E2. symmetry in E2. now apply app_eq_nil in E2.
  - destruct E2 as (l & E2 & _). rewrite P in E2. symmetry in E2. now apply app_eq_nil in E2.
Qed.

(** The sources are dropped as they are read to their end.  After any reads [h] of them are held, the last ones in the order of
    sending: the body has been taken up to the end of the part of every other one, and not beyond the part of the first one
    held; those after it have not been touched.  When the body has ended none is held. *)
Theorem C106_held : forall ML guess g fs s g1 fs1 sizes,
  prepare ML guess g fs = (inr s, g1, fs1) ->
  let s1 := after_reads sizes s in
  let h := length (s_streams s1) in
  let k := length (source_fields fs) - h in
  h <= length (source_fields fs) /\
  map f_stream (tl (s_streams s1)) = map (l_source ML) (skipn (S k) (source_fields fs)) /\
  exists us, Forall2 took_from_body (attempts sizes s) us /\ prefix_of (concat us) (lazy_body_of ML guess g fs) /\
    (0 < k -> prefix_of (sent_for ML guess g (text_fields fs ++ firstn k (source_fields fs))) (concat us)) /\
    (0 < h -> prefix_of (concat us) (sent_for ML guess g (text_fields fs ++ firstn (S k) (source_fields fs)))) /\
    ((exists n, 0 < n /\ In (n, Ok []) (attempts sizes s)) -> h = 0).
Proof.
  intros ML guess g fs s g1 fs1 sizes H s1 h k. apply prepare_ok in H. pose proof H as H0. destruct (from_fields_streams _ _ _ _ _ _ H) as [Tx F2].
  apply from_fields_ok in H as (_ & V & (St1 & St2 & St3) & P & En & M & _). rewrite gen_boundary_of in *.
  assert (Hd : held (s_streams s) s).
  { exists []. split; [congruence|]. destruct (s_streams s) as [|f fs']; [left; auto|]. right. exists f, f, fs', []. auto. }
  destruct (reads_held _ sizes s V Hd) as (V1 & (gone & Hg & Hs) & (Sm & _) & us & Tk & Pu). fold s1 in V1, Hg, Hs, Sm, Pu.
  pose proof (matched_length _ _ _ F2) as Ln.
  assert (Len : length gone + h = length (source_fields fs)).
  { unfold h. rewrite <- Ln. destruct Hs as [[-> ->]|(f & f0 & fs' & x & -> & -> & _)]; [cbn; lia|rewrite app_length; reflexivity]. }
  assert (Ek : k = length gone) by (unfold k; lia).
  assert (Pg : concat (map field_rest gone) = sent_for ML guess g (firstn k (source_fields fs)) /\
    map f_stream (skipn (S k) (s_streams s)) = map (l_source ML) (skipn (S k) (source_fields fs))).
  { split; [|apply (sent_fields ML guess g), matched_parts, F2]. replace gone with (firstn k (s_streams s)); [apply sent_fields, matched_parts, F2|].
    rewrite Ek. destruct Hs as [[_ ->]|(f & f0 & fs' & x & -> & _)]; [apply firstn_all|]. now rewrite firstn_app, Nat.sub_diag, firstn_all, app_nil_r. }
  destruct Pg as [Pg Ps].
  split; [lia|]. split.
  { rewrite <- Ps, Ek. f_equal. destruct Hs as [[-> <-]|(f & f0 & fs' & x & -> & -> & _)]; [rewrite skipn_all2 by lia; reflexivity|].
    cbn [tl]. rewrite skipn_app, skipn_all2, app_nil_l by lia. replace (S (length gone) - length gone) with 1 by lia. reflexivity. }
  exists us. split; [exact Tk|]. split; [rewrite P in Pu; eexists; exact Pu|].
  destruct Hs as [[Hs0 Hs]|(f & f0 & fs' & x & Hs0 & Hs & Fr & Ep)].
  - subst gone. assert (Z : h = 0) by (unfold h; now rewrite Hs0). split; [|split; [intros ?; lia|auto]]. intros K.
    assert (Nn : s_streams s <> []) by (intros Q; rewrite Q in Ek; cbn in Ek; lia). specialize (Hg Nn).
    destruct V as (_ & Vs2 & _). destruct V1 as (_ & Ve2 & _).
    unfold pending in Pu. rewrite Hs0, Hg, (at_end_rest _ Vs2), (at_end_rest _ Ve2) in Pu. cbn [map concat] in Pu. rewrite !app_nil_l in Pu.
    assert (E0 : rest (s_end s) <> []).
    { unfold rest. rewrite St2, En. destruct fs; [|cbn; discriminate]. unfold source_fields in Ln. cbn in Ln. destruct (s_streams s); [congruence|discriminate]. }
    destruct (rest (s_end s)) as [|e0 e] eqn:Re; [congruence|]. clear E0. rewrite Tx, Pg in Pu. rewrite app_assoc, <- sent_app in Pu.
    destruct (rest (s_end s1)) as [|e1 e'] eqn:Re1.
    + rewrite app_nil_r in Pu. eexists. symmetry. exact Pu.
    + assert (Sx : exists y, e0 :: e = y ++ e1 :: e').
      { unfold rest in Re, Re1. rewrite St2 in Re. cbn [skipn] in Re. rewrite Sm, Re in Re1. exists (firstn (c_pos (s_end s1)) (e0 :: e)). now rewrite <- Re1, firstn_skipn. }
      destruct Sx as [y Sx]. rewrite Sx, app_assoc in Pu. apply app_inv_tail in Pu. exists y. now symmetry.
  - assert (Zh : h = S (length fs')) by (unfold h; now rewrite Hs).
    assert (E0 : rest (s_end s) <> []).
    { unfold rest. rewrite St2, En. destruct fs; [|cbn; discriminate]. rewrite Hs0, app_length in Ln. cbn in Ln. lia. }
    assert (Er : rest (s_end s1) = rest (s_end s)) by (unfold rest; now rewrite Sm, Ep, St2).
    destruct V as (_ & Vs2 & _). destruct V1 as (_ & Ve2 & _).
    assert (Pf : field_rest f0 = sent_for ML guess g (firstn 1 (skipn k (source_fields fs)))).
    { destruct (matched_parts _ k _ _ F2) as [_ G2]. destruct (matched_parts _ 1 _ _ G2) as [G1 _]. apply sent_fields in G1 as [G1 _]. rewrite <- G1, Hs0, Ek.
      rewrite skipn_app, skipn_all, Nat.sub_diag. cbn. now rewrite app_nil_r. }
    assert (P1 : pending s1 = rest (s_text s1) ++ concat (map field_rest (f :: fs')) ++ rest (s_end s)).
    { unfold pending. rewrite (at_end_rest _ Ve2), Er, Hs. destruct (rest (s_end s)); [congruence|reflexivity]. }
    assert (Pu1 : concat us ++ rest (s_text s1) = sent_for ML guess g (text_fields fs ++ firstn k (source_fields fs)) ++ x).
    { unfold pending in Pu at 1. rewrite P1, (at_end_rest _ Vs2), Hs0, map_app, concat_app in Pu.
      destruct (rest (s_end s)) as [|e0 e]; [congruence|]. cbn [map concat] in Pu. rewrite Fr, Tx, Pg in Pu.
      rewrite sent_app. eapply app_inv_tail with (l := field_rest f ++ concat (map field_rest fs') ++ e0 :: e). rewrite <- !app_assoc in *. now symmetry. }
    split; [|split].
    + intros K. rewrite Hg, app_nil_r in Pu1; [|intros ->; cbn in Ek; lia]. exists x. exact Pu1.
    + intros _. exists (rest (s_text s1) ++ field_rest f). rewrite app_assoc, Pu1.
      replace (S k) with (k + 1) by lia. rewrite <- (firstn_skipn k (firstn (k + 1) (source_fields fs))), firstn_firstn, Nat.min_l, skipn_firstn_comm by lia.
      replace (k + 1 - k) with 1 by lia. rewrite app_assoc, sent_app, <- Pf, Fr. now rewrite !app_assoc.
    + intros (n & Pn & Hi). exfalso. assert (V : valid s) by (apply from_fields_ok with (1 := H0)). pose proof (ended_pending _ _ _ V Pn Hi) as Q. fold s1 in Q. rewrite P1 in Q.
      apply app_eq_nil in Q as [_ Q]. apply app_eq_nil in Q as [_ Q]. auto.
Qed.

(** A text and two streams: the second stream is sent first.  After the head and the first bytes the streams are all there;
    the second one is gone when its data has been read, and none is left at the end. *)
Definition one_of_each : lazy_form (mime toy) :=
  [mkLF (bs "t") (LText (bs "x")); mkLF (bs "a") (LStream None (bs "a/b") [Chunk (bs "first")]);
   mkLF (bs "b") (LStream None (bs "a/b") [Chunk (bs "se"); Fail (KOther 5); Chunk (bs "cond")])].

Example C106_example : exists s g1 fs1,
  prepare toy any_guess [] one_of_each = (inr s, g1, fs1) /\
  source_fields one_of_each = rev (tl one_of_each) /\
  map (fun sizes => length (s_streams (after_reads sizes s))) [[150]; [150; 150]; [150; 20; 30]; [150; 20; 150; 100]; [100; 1; 1; 500; 500; 1]] = [2; 2; 1; 0; 0] /\
  map f_stream (s_streams (after_reads [150; 20; 30] s)) = [[Chunk (bs "first")]] /\
  exists n, 0 < n /\ In (n, Ok []) (attempts [100; 1; 1; 500; 500; 1] s).
Proof.
  do 3 eexists. split; [vm_compute; reflexivity|]. split; [reflexivity|]. split; [vm_compute; reflexivity|]. split; [vm_compute; reflexivity|].
  exists 1. split; [lia|]. vm_compute. tauto.
Qed.
