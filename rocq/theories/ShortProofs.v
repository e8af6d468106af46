(** Chunk borders inside the CRLF of a delimiter do no harm to contents below 1023 bytes. *)

From Verif Require Import Bytes BytesProofs Spec Io Boundary BoundaryProofs Utf8 Httparse Field FieldProofs ContentProofs DataProofs.

(** The chunkings for which the contents [l] are exact: no chunk ends between the CR and the LF before a delimiter; or (the
    transport never returns [Ok(0)] before its end and) only after contents of fewer than 1023 bytes. *)
Definition exact_chunks (D : bytes) (t : transport) (l : list bytes) : Prop :=
  no_split_crlf D t \/
  live t /\ forall (c : bytes) t1 t2 (a : bytes), In c l -> t = t1 ++ t2 -> stream t1 = a ++ c ++ [CR] ->
    starts_with (stream t2) (LF :: D) = true -> length c + 1 < MIN_BUF_SIZE.

Lemma no_split_exact D t l : no_split_crlf D t -> exact_chunks D t l.
Proof. left. auto. Qed.

(** Contents that are all short are exact for every chunking. *)
Lemma short_exact D t l : live t -> Forall (fun c : bytes => length c + 1 < MIN_BUF_SIZE) l -> exact_chunks D t l.
Proof. intros Hl F. right. split; auto. rewrite Forall_forall in F. intros c t1 t2 a H _ _ _. auto. Qed.

Lemma exact_incl D t l l' : incl l' l -> exact_chunks D t l -> exact_chunks D t l'.
Proof. intros I [H|[Hl H]]; [left; auto|right]. split; auto. intros c t1 t2 a Hc. apply H. auto. Qed.

Lemma exact_one D t l c : exact_chunks D t l -> In c l -> exact_chunks D t [c].
Proof. intros H I. eapply exact_incl; eauto. intros x [<-|[]]. auto. Qed.

Lemma exact_tail D t c l : exact_chunks D t (c :: l) -> exact_chunks D t l.
Proof. apply exact_incl. now right. Qed.

Lemma exact_head D t c l : exact_chunks D t (c :: l) -> exact_chunks D t [c].
Proof. intros H. eapply exact_one; eauto. now left. Qed.

Lemma exact_rest {A} D t (d : list (A * bytes)) x rest : exact_chunks D t (map snd (d ++ x :: rest)) -> exact_chunks D t (map snd rest).
Proof. apply exact_incl. intros z Hz. rewrite map_app. apply in_or_app. right. now right. Qed.

Lemma exact_mid {A} D t (d : list (A * bytes)) x rest : exact_chunks D t (map snd (d ++ x :: rest)) -> exact_chunks D t [snd x].
Proof. intros H. eapply exact_one; eauto. rewrite map_app. apply in_or_app. right. now left. Qed.

Lemma exact_first {A} D t (d rest : list (A * bytes)) : exact_chunks D t (map snd (d ++ rest)) -> exact_chunks D t (map snd d).
Proof. apply exact_incl. intros z Hz. rewrite map_app. apply in_or_app. now left. Qed.

(** * What remains is always a suffix of the body *)

Lemma steps_suffix r r' : steps r r' -> inv r -> exists used, rem r = used ++ rem r'.
Proof.
  induction 1; intros Hinv.
  - exists []. reflexivity.
  - destruct IHsteps as [u E]; auto. exists u. exact E.
  - destruct IHsteps as [u E]; auto. pose proof (steps_inv _ _ H Hinv) as I1.
    pose proof (read_to_boundary_spec _ _ _ I1 H0) as (_ & R & _). exists u. congruence.
  - destruct IHsteps as [u E]; auto. pose proof (steps_inv _ _ H Hinv) as I1.
    pose proof (consume_spec n _ I1) as (_ & R & _). rewrite R in E.
    rewrite app_assoc in E. eauto.
  - destruct IHsteps as [u E]; auto. pose proof (steps_inv _ _ H Hinv) as I1.
    apply verify_boundary_spec in H1; auto.
    destruct H1 as (_ & _ & _ & _ & pre & post & FS & _ & X). destruct FS as [FS _].
    destruct x as [[|]|[k| | |a b]| |]; try tauto;
      repeat match goal with H : exists _, _ |- _ => destruct H | H : _ /\ _ |- _ => destruct H end; subst.
    all: try (exists u; congruence).
    all: rewrite E, FS; match goal with H : rem _ = ?q |- exists _, _ = _ ++ ?z => rewrite ?H end;
      rewrite !app_assoc; eexists; reflexivity.
Qed.

(** * One content *)

(** If the next border after the content [c] splits a CRLF, the content is short. *)
Definition short_end (r : breader) (c : bytes) : Prop :=
  forall t1 t2, src r = t1 ++ t2 -> buf r ++ stream t1 = c ++ [CR] -> starts_with (stream t2) (LF :: bnd r) = true ->
  length c + 1 < MIN_BUF_SIZE.

Lemma rem_used r r' u used : src r = used ++ src r' -> rem r = u ++ rem r' -> buf r ++ stream used = u ++ buf r'.
Proof.
  intros E H. unfold rem in H. rewrite E, stream_app, !app_assoc in H. now apply app_inv_tail in H.
Qed.

Lemma exact_short_end D t r u c : exact_chunks D t [c] -> later (src r) t -> stream t = u ++ rem r -> bnd r = D ->
  no_split_crlf D t \/ short_end r c.
Proof.
  intros [H|[Hl H]] [used ->] Hs <-; [left; auto|right]. intros t1 t2 E Hb Hw.
  assert (Eu : stream used = u ++ buf r).
  { rewrite stream_app in Hs. unfold rem in Hs. rewrite app_assoc in Hs. now apply app_inv_tail in Hs. }
  apply (H c (used ++ t1) t2 u); auto; [now left|now rewrite E, app_assoc|].
  now rewrite stream_app, Eu, <- app_assoc, Hb.
Qed.

Lemma short_end_later r r' d c : short_end r (d ++ c) -> later (src r') (src r) -> rem r = d ++ rem r' -> bnd r' = bnd r ->
  short_end r' c.
Proof.
  intros H [used E] Hr B t1 t2 E' Hb Hw. rewrite B in Hw.
  pose proof (rem_used _ _ _ _ E Hr) as Eu.
  assert (L : length (d ++ c) + 1 < MIN_BUF_SIZE).
  { apply (H (used ++ t1) t2); auto.
    - now rewrite E, E', app_assoc.
    - now rewrite stream_app, app_assoc, Eu, <- app_assoc, Hb, app_assoc. }
  rewrite app_length in L. lia.
Qed.

(** After a successful fill the cursor is before the CRLF. *)
Lemma strict_fill_short r b r' c : inv r -> near r -> live (src r) -> MIN_BUF_SIZE <= minb r -> st r <> AtEnd ->
  content (bnd r) (rem r) c -> short_end r c -> read_to_boundary r = (Ok b, r') -> strict r'.
Proof.
  intros Hinv Hn Hl Hm Hst Hc Hs H.
  pose proof (read_to_boundary_spec _ _ _ Hinv H) as (I1 & R1 & B1 & M1 & L1 & _ & _ & _ & _ & Fl & _).
  intros Hst' c0 post FS. rewrite B1, R1 in FS.
  destruct (fill_between _ _ _ _ _ Hinv Hn H Hst FS) as [G|(_ & G1 & G2 & [b0 G3] & G4)]; auto. exfalso.
  assert (c0 = c) as ->.
  { destruct Hc as (pre & post' & FS' & Hf). destruct (first_split_fun _ _ _ _ _ _ FS FS') as [<- _].
    destruct Hf as [Hf|[Ec Hf]]; [now apply app_inv_tail in Hf|]. exfalso. apply (Hf c0). congruence. }
  destruct L1 as [used L1].
  assert (Eb : buf r' = c ++ [CR]).
  { destruct FS as [FS _]. rewrite <- R1 in FS. unfold rem in FS. rewrite <- !app_assoc in FS.
    apply (f_equal (firstn (length (buf r')))) in FS. rewrite firstn_app, firstn_all, Nat.sub_diag, firstn_O, app_nil_r in FS.
    rewrite FS, <- G2, G1, firstn_app. replace (length c + 1 - length c) with 1 by lia.
    rewrite firstn_all2 by lia. reflexivity. }
  assert (K : length c + 1 < MIN_BUF_SIZE).
  { apply (Hs used (src r') L1); [|now rewrite B1 in G4]. rewrite <- Eb.
    apply (rem_used r r' [] used L1). now rewrite R1. }
  destruct Fl as [Fl|[Fl|Fl]]; [lia| |].
  - rewrite Fl in G4. discriminate.
  - auto.
Qed.

Lemma fill_error_strict r b r' : inv r -> (forall y, b <> Ok y) -> strict r -> read_to_boundary r = (b, r') -> strict r'.
Proof.
  intros Hinv Hb Hs H. pose proof (read_to_boundary_spec _ _ _ Hinv H) as (I1 & R1 & B1 & _).
  unfold read_to_boundary in H. destruct (fill_buf (minb r) (buf r) (src r)) as [[e bb] t].
  destruct e as [k|].
  - injection H as <- <-. intros Hst c post FS. rewrite B1, R1 in FS. exact (Hs Hst c post FS).
  - destruct (st r) eqn:Est; [destruct (search_step _ _ _) as [[? ?]|]|destruct (_ <? _)|destruct (_ <? _)];
      injection H as <- <-; try (now elim (Hb _ eq_refl)); intros Hst c post FS; rewrite B1, R1 in FS; cbn [st idx set_source] in *;
      apply (Hs ltac:(congruence) c post FS).
Qed.

(** Operations that keep the minimum buffer size at 1024 or more. *)
Definition keeps_min (o : op) : Prop := match o with OSetMin n => MIN_BUF_SIZE <= n | _ => True end.

Section WithMime.
Context (ML : mime_lib).

(** [consume] is only called after a [read] or [fill_buf] that succeeded, as its contract says. *)
Fixpoint lawful (filled : bool) (ob : list (obs ML)) : Prop :=
  match ob with
  | [] => True
  | BRead _ (Ok _) :: ob' | BFill _ (Ok _) :: ob' => lawful true ob'
  | BConsumed _ _ :: ob' => filled = true /\ lawful filled ob'
  | _ :: ob' => lawful filled ob'
  end.

Lemma lawful_app ob1 ob2 : forall f, lawful f ob1 -> lawful false ob2 -> lawful f (ob1 ++ ob2).
Proof.
  assert (M : forall ob f, lawful false ob -> lawful f ob).
  { induction ob as [|x ob IH]; intros f; cbn [lawful]; auto.
    destruct x as [[| | |]|[| | |]|?| |?]; auto. intros [H _]. discriminate. }
  induction ob1 as [|x ob1 IH]; intros f; cbn [lawful app]; auto.
  destruct x as [[| | |]|[| | |]|?| |?]; auto. intros [H1 H2] H. auto.
Qed.

Lemma lawful_prefix ob1 ob2 : forall f, lawful f (ob1 ++ ob2) -> lawful f ob1.
Proof.
  induction ob1 as [|x ob1 IH]; intros f; cbn [lawful app]; auto.
  destruct x as [[| | |]|[| | |]|?| |?]; eauto. intros [H1 H2]. eauto.
Qed.

Lemma reads_lawful trim os : forall f r ob r', Forall (fun o => exists n, o = ORead n) os -> run ML trim os r = (ob, r') -> lawful f ob.
Proof.
  induction os as [|o os IH]; intros f r ob r' F; cbn [run]; [intros H; injection H as <- _; exact I|].
  inversion F as [|? ? [n ->] F']; subst. cbn [step]. destruct (read n r) as [x q] eqn:E.
  destruct (run ML trim os q) as [ob' q'] eqn:R. intros H; injection H as <- _. destruct x; cbn [lawful]; eauto.
Qed.

Lemma run_content_short trim os : forall f r ob r' c,
  inv r -> near r -> live (src r) -> MIN_BUF_SIZE <= minb r -> st r <> AtEnd -> (f = true -> strict r) -> short_end r c ->
  Forall data_op os -> Forall keeps_min os -> run ML trim os r = (ob, r') -> lawful f ob -> content (bnd r) (rem r) c ->
  exists c', c = delivered ML ob ++ c' /\ content (bnd r) (rem r') c'.
Proof.
  induction os as [|o os IH]; intros f r ob r' c Hinv Hn Hl Hm Hst Hf Hs Hd Hk; cbn [run].
  - intros H _ Hc; injection H as <- <-. exists c. auto.
  - inversion Hd as [|? ? Ho Hos]; inversion Hk as [|? ? Ko Kos]; subst.
    destruct (step ML trim o r) as [b r1] eqn:E. destruct (run ML trim os r1) as [bs1 r2] eqn:F.
    intros H La Hc; injection H as <- <-.
    pose proof (step_inv ML _ _ _ _ _ Hinv E) as (J1 & J2 & J3 & _).
    pose proof (step_steps ML _ _ _ _ _ Hinv E) as S.
    pose proof (step_data ML _ _ _ _ _ Hinv Ho E) as (R1 & K & _). destruct (K Hst) as [K1 K2].
    assert (Next : forall f', (f' = true -> strict r1) -> lawful f' bs1 -> MIN_BUF_SIZE <= minb r1 ->
      (forall c0 post, first_split (bnd r) (rem r) (c0 ++ CRLF) post -> length (delivered1 ML b) <= length c0) ->
      exists c', c = delivered ML (b :: bs1) ++ c' /\ content (bnd r) (rem r2) c').
    { intros f' Hf' La' Hm' Hc0.
      destruct (content_skip _ _ _ _ _ K1 Hc Hc0) as (c1 & -> & Hc1). rewrite <- J2 in Hc1.
      destruct (IH f' r1 bs1 r2 c1) as (c2 & -> & Hc2); auto; try (eapply live_later; eassumption).
      - eapply steps_near; eauto.
      - eapply short_end_later; eauto.
      - exists c2. rewrite <- J2. split; auto. cbn [delivered flat_map]. now rewrite app_assoc. }
    destruct o as [n| |n|n|]; cbn [step] in E; [| | | |destruct Ho].
    + destruct (read n r) as [x r1'] eqn:G. injection E as <- <-. unfold read in G.
      destruct (read_to_boundary r) as [y q] eqn:Q.
      pose proof (read_to_boundary_spec _ _ _ Hinv Q) as (I1 & Rq & Bq & Mq & Lq & _ & KK & K2' & X).
      destruct y as [y|e| |]; injection G as <- <-; cbn [lawful] in La.
      2-4: apply (Next f); [intros Ht; refine (fill_error_strict _ _ _ Hinv _ (Hf Ht) Q); intros; discriminate|exact La|lia|cbn; lia].
      pose proof (strict_fill_short _ _ _ _ Hinv Hn Hl Hm Hst Hc Hs Q) as Hs'.
      apply (Next true); auto; [intros _; now apply strict_consume|pose proof (consume_spec (length (firstn n y)) q I1); lia|].
      intros c0 post FS. cbn [delivered1].
      assert (Hq : st q <> AtEnd).
      { destruct (st r) eqn:S0; [auto|destruct KK as [KK _]; congruence|congruence]. }
      specialize (Hs' Hq c0 post). rewrite Bq, Rq in Hs'. specialize (Hs' FS).
      destruct X as [-> _]. rewrite !firstn_length. lia.
    + destruct (read_to_boundary r) as [y q] eqn:Q. injection E as <- <-.
      pose proof (read_to_boundary_spec _ _ _ Hinv Q) as (I1 & Rq & Bq & Mq & Lq & _).
      destruct y as [y|e| |]; cbn [lawful] in La.
      2-4: apply (Next f); [intros Ht; refine (fill_error_strict _ _ _ Hinv _ (Hf Ht) Q); intros; discriminate|exact La|lia|cbn; lia].
      apply (Next true); auto; [|lia|cbn; lia]. intros _. exact (strict_fill_short _ _ _ _ Hinv Hn Hl Hm Hst Hc Hs Q).
    + injection E as <- <-. cbn [lawful] in La. destruct La as [-> La]. specialize (Hf eq_refl).
      apply (Next true); auto; [intros _; now apply strict_consume|].
      intros c0 post FS. cbn. rewrite firstn_length. specialize (Hf Hst c0 post FS). lia.
    + injection E as <- <-. cbn [lawful] in La. simpl in Ko. apply (Next f); auto; [simpl; lia|cbn; lia].
Qed.

End WithMime.
