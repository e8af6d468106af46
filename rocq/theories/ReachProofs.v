(** Facts about reachable states, in the form used by the property theorems. *)

From Verif Require Import Bytes BytesProofs Spec Io Boundary BoundaryProofs Utf8 Httparse HttparseProofs Field
  FieldProofs ContentProofs DataProofs ShortProofs EntryProofs ReaderProofs Drive.

Section WithMime.
Context (ML : mime_lib).

Lemma steps_minb r r' : steps r r' -> inv r -> length (bnd r) * 2 <= minb r -> length (bnd r') * 2 <= minb r'.
Proof.
  induction 1; intros Hinv Hm; auto.
  - simpl. lia.
  - specialize (IHsteps Hinv Hm). pose proof (steps_inv _ _ H Hinv).
    apply read_to_boundary_spec in H0; auto. destruct H0 as (_ & _ & -> & -> & _). auto.
  - specialize (IHsteps Hinv Hm). pose proof (steps_inv _ _ H Hinv).
    apply verify_boundary_spec in H1; auto. destruct H1 as (_ & -> & -> & _). auto.
Qed.

Lemma reached_inv trim t b r : reached ML trim t b r ->
  inv r /\ near r /\ bnd r = delimiter b /\ later (src r) t /\ exists used, stream t = used ++ rem r.
Proof.
  intros (os & bs & H). unfold with_body in H.
  pose proof (inv_from_reader t b) as I0.
  pose proof (run_inv ML _ _ _ _ _ I0 H) as (I1 & B1 & L1 & _).
  pose proof (run_steps ML _ _ _ _ _ I0 H) as S1.
  split; auto. split; [eapply steps_near; eauto; apply near_from_reader|].
  split; [exact B1|]. split; [exact L1|].
  apply (run_suffix ML _ _ _ _ _ I0 H).
Qed.

Lemma reached_exact trim t b r : reached ML trim t b r -> no_split_crlf (delimiter b) t -> unsplit r /\ strict r.
Proof.
  intros (os & bs & H) Hn. unfold with_body in H.
  pose proof (inv_from_reader t b) as I0.
  pose proof (run_steps ML _ _ _ _ _ I0 H) as S1.
  pose proof (unsplit_from_reader t b Hn) as U0.
  split; [eapply steps_unsplit; eauto|]. eapply steps_strict; eauto. apply strict_from_reader.
Qed.

Lemma reached_run trim t b r os bs r' : reached ML trim t b r -> run ML trim os r = (bs, r') -> reached ML trim t b r'.
Proof.
  intros (os0 & bs0 & H0) H. exists (os0 ++ os), (bs0 ++ bs). revert H0. generalize (with_body t b). revert bs0.
  induction os0 as [|o os0 IH]; intros bs0 q; cbn [run app].
  - intros E; injection E as <- <-. exact H.
  - destruct (step ML trim o q) as [x q1]. destruct (run ML trim os0 q1) as [bs1 q2] eqn:F.
    intros E; injection E as <- <-. rewrite (IH _ _ F). reflexivity.
Qed.

Lemma reached_step trim t b r o x r' : reached ML trim t b r -> step ML trim o r = (x, r') -> reached ML trim t b r'.
Proof. intros H E. apply (reached_run trim t b r [o] [x] r' H). cbn [run]. now rewrite E. Qed.

Lemma at_field_reached trim t b h r : at_field ML trim t b h r ->
  reached ML trim t b r /\ st r <> AtEnd /\ minb r = Nat.max (length (bnd r) * 2) MIN_BUF_SIZE.
Proof.
  intros (os & bs & r0 & H & E). pose proof (inv_from_reader t b) as I0.
  pose proof (run_inv ML _ _ _ _ _ I0 H) as (I1 & B1 & L1 & _).
  split; [|split].
  - apply (reached_step trim t b r0 ONext (BNext ML (Ok (Some h)))); [exists os, bs; auto|]. cbn [step]. now rewrite E.
  - eapply read_entry_some_state; eauto.
  - apply read_entry_inv in E as (_ & -> & -> & _); auto.
Qed.

(** Data calls from the start of a field. *)
Lemma field_state trim t b h r os bs r' :
  at_field ML trim t b h r -> Forall data_op os -> run ML trim os r = (bs, r') ->
  inv r' /\ near r' /\ st r' <> AtEnd /\ bnd r' = delimiter b /\ later (src r') t /\
  length (bnd r') + 2 <= minb r' /\ reached ML trim t b r'.
Proof.
  intros Hf Hd H. destruct (at_field_reached _ _ _ _ _ Hf) as (R1 & S1 & M1).
  pose proof (reached_inv _ _ _ _ R1) as (I1 & _ & B1 & _).
  pose proof (reached_run _ _ _ _ _ _ _ R1 H) as R2.
  pose proof (reached_inv _ _ _ _ R2) as (I2 & N2 & B2 & L2 & _).
  pose proof (run_data ML _ _ _ _ _ I1 Hd H) as (_ & K & _).
  destruct (K S1) as [_ S2].
  do 5 (split; [assumption|]). split; [|assumption].
  pose proof (steps_minb r r' (run_steps ML _ _ _ _ _ I1 H) I1 ltac:(lia)) as M2.
  pose proof (dashed_length _ (proj1 I2)). lia.
Qed.

(** The operations [os] with the results [ob], for which the content [c] is exact. *)
Definition exact_ops (D : bytes) (t : transport) (os : list op) (ob : list (obs ML)) (c : bytes) : Prop :=
  no_split_crlf D t \/ exact_chunks D t [c] /\ Forall keeps_min os /\ lawful ML false ob.

Lemma field_exact trim t b h r os ob r' c : at_field ML trim t b h r -> exact_ops (delimiter b) t os ob c ->
  Forall data_op os -> run ML trim os r = (ob, r') -> content (delimiter b) (rem r) c ->
  exists c', c = delivered ML ob ++ c' /\ content (delimiter b) (rem r') c'.
Proof.
  intros Hf Hx Hd H Hc. destruct (at_field_reached _ _ _ _ _ Hf) as (R1 & S1 & M1).
  pose proof (reached_inv _ _ _ _ R1) as (I1 & N1 & B1 & L1 & [u U1]).
  assert (Hx' : no_split_crlf (delimiter b) t \/ (live t /\ short_end r c /\ Forall keeps_min os /\ lawful ML false ob)).
  { destruct Hx as [Hx|(Hx & Hk & Hw)]; auto. pose proof Hx as [Hn|[Hl _]]; auto.
    destruct (exact_short_end _ _ _ _ _ Hx L1 U1 B1) as [Hs|Hs]; auto. }
  destruct Hx' as [Hns|(Hl & Hs & Hk & Hw)].
  - destruct (reached_exact _ _ _ _ R1 Hns) as [U2 T1]. rewrite <- B1 in *. eapply run_content; eauto.
  - rewrite <- B1 in *. eapply (run_content_short ML trim os false); eauto using live_later; [lia|discriminate].
Qed.

Lemma run_app trim os1 os2 r bs r' :
  run ML trim (os1 ++ os2) r = (bs, r') ->
  exists bs1 r1 bs2, run ML trim os1 r = (bs1, r1) /\ run ML trim os2 r1 = (bs2, r') /\ bs = bs1 ++ bs2.
Proof.
  revert r bs; induction os1 as [|o os1 IH]; intros r bs; cbn [run app].
  - intros H. exists [], r, bs. auto.
  - destruct (step ML trim o r) as [x r1]. destruct (run ML trim (os1 ++ os2) r1) as [bs' r2] eqn:E.
    intros H; injection H as <- <-. destruct (IH _ _ E) as (bs1 & r3 & bs2 & H1 & H2 & ->).
    rewrite H1. exists (x :: bs1), r3, bs2. auto.
Qed.

End WithMime.

(** * Preamble and epilogue *)

Lemma occurs_app_bound d R E i : occurs_at d (R ++ E) i -> i + length d <= length R -> occurs_at d R i.
Proof.
  intros (a & z & Ea & <-) H. exists a, (skipn (length a + length d) R). split; auto.
  assert (F : firstn (length a + length d) (R ++ E) = a ++ d).
  { rewrite Ea, app_assoc. replace (length a + length d) with (length (a ++ d)) by (rewrite app_length; lia).
    rewrite firstn_app, firstn_all, Nat.sub_diag, firstn_O. apply app_nil_r. }
  rewrite firstn_app_le in F by lia.
  rewrite <- (firstn_skipn (length a + length d) R) at 1. rewrite F, <- app_assoc. reflexivity.
Qed.

Lemma first_split_epilogue D R pre post E : first_split D R pre post -> first_split D (R ++ E) pre (post ++ E).
Proof.
  intros [-> H]. split; [now rewrite <- !app_assoc|].
  intros i Hi. destruct (Nat.le_gt_cases (length pre) i); auto.
  apply H. eapply occurs_app_bound; eauto. rewrite !app_length. lia.
Qed.

Lemma content_epilogue D R c E : content D R c -> content D (R ++ E) c.
Proof. intros (pre & post & FS & Hf). exists pre, (post ++ E). split; auto. now apply first_split_epilogue. Qed.

Lemma parts_epilogue {H} (head : bytes -> H -> Prop) D R l E : parts head D R l -> parts head D (R ++ E) l.
Proof.
  induction 1 as [R pre q FS|R pre x rest h c l FS Hh Hc P IH].
  - apply parts_end with (pre := pre) (q := q ++ E). rewrite app_assoc. now apply first_split_epilogue.
  - apply parts_field with (pre := pre) (x := x) (rest := rest ++ E); auto.
    + replace (CRLF ++ x ++ rest ++ E) with ((CRLF ++ x ++ rest) ++ E) by (now rewrite <- !app_assoc).
      now apply first_split_epilogue.
    + rewrite app_assoc. now apply content_epilogue.
Qed.

Lemma parts_preamble {H} (head : bytes -> H -> Prop) D P M l :
  parts head D (D ++ M) l -> first_split D (P ++ D ++ M) P M -> D <> [] -> parts head D (P ++ D ++ M) l.
Proof.
  intros Hp FS HD. inversion Hp as [R pre q FS'|R pre x rest h c l' FS' Hh Hc Hr]; subst.
  - assert (FS0 : first_split D (D ++ M) [] M) by (split; [reflexivity|simpl; lia]).
    destruct (first_split_fun _ _ _ _ _ _ FS0 FS') as [<- ->]. eapply parts_end; eauto.
  - assert (FS0 : first_split D (D ++ M) [] M) by (split; [reflexivity|simpl; lia]).
    destruct (first_split_fun _ _ _ _ _ _ FS0 FS') as [<- ->]. eapply parts_field; eauto.
Qed.
