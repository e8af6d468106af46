(** The fields of a body as the clients write it. *)

From Verif Require Import Bytes BytesProofs Spec Io Boundary BoundaryProofs Utf8 Utf8Proofs Httparse Field FieldProofs EntryProofs Drive DriveProofs
  HeaderSpec HeaderProofs PropsHeader WireSpec.

Lemma occurs_in_sep D a c b i : ~ In c D -> occurs_at D (a ++ c :: b) i -> occurs_at D a i \/ length a < i.
Proof.
  intros N (p & q & E & L). subst i.
  destruct (Nat.le_gt_cases (length p) (length a)) as [H|H]; [left|auto].
  assert (K : exists a', a = p ++ a').
  { exists (skipn (length p) a). apply (f_equal (firstn (length p))) in E. rewrite firstn_app_le in E by auto.
    rewrite firstn_app_le, firstn_all in E by auto. rewrite <- E at 1. now rewrite firstn_skipn. }
  destruct K as [a' ->]. rewrite <- app_assoc in E. apply app_inv_head in E.
  destruct (Nat.le_gt_cases (length D) (length a')) as [H2|H2].
  - exists p, (skipn (length D) a'). split; auto. f_equal.
    apply (f_equal (firstn (length D))) in E. rewrite firstn_app_le in E by auto. rewrite firstn_app_le, firstn_all in E by auto.
    rewrite <- E at 1. now rewrite firstn_skipn.
  - destruct N. apply (f_equal (fun l => nth (length a') l 0%N)) in E.
    rewrite app_nth2, Nat.sub_diag in E by lia. rewrite app_nth1 in E by lia. simpl in E. rewrite E. apply nth_In. lia.
Qed.

Lemma absent_sep D a c b : ~ In c D -> absent D a -> absent D b -> absent D (a ++ c :: b).
Proof.
  intros N A B i H. destruct (occurs_in_sep _ _ _ _ _ N H) as [K|K]; [exact (A _ K)|].
  destruct H as (p & q & E & L). subst i.
  assert (K2 : exists p', p = a ++ c :: p').
  { exists (skipn (S (length a)) p). change (a ++ c :: skipn (S (length a)) p) with (a ++ [c] ++ skipn (S (length a)) p). rewrite app_assoc.
    apply (f_equal (firstn (S (length a)))) in E. rewrite (firstn_app_le _ p) in E by lia.
    change (a ++ c :: b) with (a ++ [c] ++ b) in E. rewrite app_assoc in E.
    rewrite firstn_app_le in E by (rewrite app_length; simpl; lia). rewrite firstn_all2 in E by (rewrite app_length; simpl; lia).
    rewrite E. now rewrite firstn_skipn. }
  destruct K2 as [p' ->]. rewrite <- app_assoc in E. apply app_inv_head in E. injection E as ->.
  apply (B (length p')). exists p', q. auto.
Qed.

Lemma split_sep D x c post : ~ In c D -> absent D x -> first_split D (x ++ c :: D ++ post) (x ++ [c]) post.
Proof.
  intros N A. split; [now rewrite <- app_assoc|]. intros i H.
  destruct (occurs_in_sep _ _ _ _ _ N H) as [K|K]; [destruct (A _ K)|]. rewrite app_length. simpl. lia.
Qed.

Definition alnums (b : bytes) : Prop := Forall (fun c => (48 <= c <= 57 \/ 65 <= c <= 90 \/ 97 <= c <= 122)%N) b.

Lemma delimiter_chars b c : alnums b -> In c (delimiter b) -> (c = 45 \/ 48 <= c <= 57 \/ 65 <= c <= 90 \/ 97 <= c <= 122)%N.
Proof.
  intros A H. unfold delimiter in H. apply in_app_or in H as [[H|[H|[]]]|H]; [left; now symmetry in H|left; now symmetry in H|].
  unfold alnums in A. rewrite Forall_forall in A. apply A in H. auto.
Qed.

Lemma not_in_delimiter b c : alnums b -> (c < 45 \/ 57 < c < 65)%N -> ~ In c (delimiter b).
Proof. intros A H K. apply (delimiter_chars b c A) in K. lia. Qed.

Lemma absent_nil b : absent (delimiter b) [].
Proof. intros i (p & q & E & _). destruct p; discriminate. Qed.

(** A text in which "--" does not occur. *)
Lemma absent_text b s : find_bytes s DASHES = None -> absent (delimiter b) s.
Proof.
  intros F i (p & q & E & L). subst s. pose proof (find_bytes_none _ _ F (length p)) as K. rewrite app_length in K.
  specialize (K ltac:(lia)). rewrite skipn_app_le, skipn_all in K by lia. cbn in K.
  destruct (b ++ q); discriminate K.
Qed.

(** [x] does not contain the delimiter. *)
Definition free (b : bytes) (x : option bytes) : Prop := match x with Some s => absent (delimiter b) s | None => True end.

Lemma absent_crlf b x y : alnums b -> absent (delimiter b) x -> absent (delimiter b) y -> absent (delimiter b) (x ++ CRLF ++ y).
Proof.
  intros A X Y. apply absent_sep; [apply not_in_delimiter; auto; unfold CR; lia|auto|].
  apply (absent_sep _ [] LF y); [apply not_in_delimiter; auto; unfold LF; lia|apply absent_nil|auto].
Qed.

Lemma absent_head b name fname ctype : alnums b -> free b (Some name) -> free b fname -> free b ctype ->
  absent (delimiter b) (head_text name fname ctype).
Proof.
  intros A Hn Hf Hc. unfold head_text, disp_value, quoted.
  assert (Q : ~ In 34%N (delimiter b)) by (apply not_in_delimiter; auto; lia).
  assert (S : ~ In 32%N (delimiter b)) by (apply not_in_delimiter; auto; lia).
  assert (T : absent (delimiter b) (match ctype with Some m => CRLF ++ bs "Content-Type: " ++ m | None => [] end ++ CRLF ++ CRLF)).
  { assert (E : absent (delimiter b) (CRLF ++ CRLF)).
    { apply (absent_crlf b [] CRLF); auto using absent_nil. apply (absent_crlf b [] []); auto using absent_nil. }
    destruct ctype as [m|]; [|exact E].
    change (bs "Content-Type: ") with (bs "Content-Type:" ++ [32%N]). repeat rewrite <- app_assoc.
    apply (absent_crlf b []); auto using absent_nil. apply absent_sep; auto; [apply absent_text; reflexivity|].
    apply absent_crlf; auto. apply (absent_crlf b [] []); auto using absent_nil. }
  change (bs "Content-Disposition: ") with (bs "Content-Disposition:" ++ [32%N]).
  repeat rewrite <- app_assoc. apply absent_sep; auto; [apply absent_text; reflexivity|].
  change (bs """") with [34%N]. apply absent_sep; auto; [apply absent_text; reflexivity|]. apply absent_sep; auto.
  destruct fname as [f|]; [|exact T].
  repeat rewrite <- app_assoc. apply absent_sep; auto; [apply absent_text; reflexivity|]. apply absent_sep; auto.
Qed.

Lemma text_headers_utf8 name fname ctype : utf8_string name ->
  match fname with Some f => utf8_string f | None => True end ->
  match ctype with Some m => utf8_string m | None => True end -> copy_headers (text_headers name fname ctype) = true.
Proof.
  intros Un Uf Uc.
  assert (U : forall s, forallb (fun c => c <? 128)%N (bs s) = true -> utf8_string (bs s)).
  { intros s Hs. exists (bs s). split.
    - apply Forall_forall. intros d Hd. rewrite forallb_forall in Hs. specialize (Hs d Hd). left. lia.
    - clear - Hs. induction (bs s) as [|d l IH]; auto. cbn [forallb] in Hs. apply andb_true_iff in Hs as [H1 H2].
      cbn [map concat]. unfold encode_char at 1. rewrite H1. simpl. f_equal. auto. }
  assert (UQ : forall s, utf8_string s -> utf8_string (quoted s)).
  { intros s Hs. unfold quoted. apply utf8_string_app; [now apply U|]. apply utf8_string_app; auto. }
  apply copy_headers_iff. unfold text_headers. constructor.
  - simpl. unfold disp_value. apply utf8_string_app; [now apply U|]. apply utf8_string_app; auto.
    destruct fname as [f|]; [|apply utf8_string_nil]. apply utf8_string_app; [now apply U|]. now apply UQ.
  - destruct ctype as [m|]; constructor; [|constructor]. exact Uc.
Qed.

Section WithMime.
Context (ML : mime_lib).

(** Fields that arrive as they were sent: the strings are representable in the header, the delimiter does not
    occur in the field, and the header block is not too long. *)
Definition sendable (b : bytes) (p : part) : Prop :=
  plain (p_name p) /\ utf8_string (p_name p) /\
  match p_fname p with Some f => plain f /\ utf8_string f | None => True end /\
  match p_ctype p with Some m => ctype_text m /\ utf8_string m /\ mime_parse ML m <> None | None => True end /\
  free b (Some (p_name p)) /\ free b (p_fname p) /\ free b (p_ctype p) /\ free b (Some (p_data p)) /\
  length (p_head p) + length b + 3 <= MIN_BUF_SIZE.

(** What the server makes of it. *)
Definition received (p : part) : field_headers ML * bytes :=
  (mkFH ML (p_name p) (p_fname p) (match p_ctype p with Some m => mime_parse ML m | None => None end), p_data p).

Definition body (b q : bytes) (l : list part) : bytes :=
  concat (map (fun p => delimiter b ++ CRLF ++ p_head p ++ p_data p ++ CRLF) l) ++ delimiter b ++ DASHES ++ q.

Lemma body_starts b q l : exists t, body b q l = delimiter b ++ t.
Proof. unfold body. destruct l; cbn [map concat]; repeat rewrite <- app_assoc; [rewrite app_nil_l|]; eexists; reflexivity. Qed.

Lemma split_crlf b x post : alnums b -> absent (delimiter b) x ->
  first_split (delimiter b) (x ++ CRLF ++ delimiter b ++ post) (x ++ CRLF) post.
Proof.
  intros A X. change (x ++ CRLF ++ delimiter b ++ post) with (x ++ [CR] ++ LF :: delimiter b ++ post).
  rewrite app_assoc. change CRLF with ([CR] ++ [LF]). rewrite app_assoc. apply split_sep.
  - apply not_in_delimiter; auto. unfold LF. lia.
  - apply absent_sep; auto using absent_nil. apply not_in_delimiter; auto. unfold CR. lia.
Qed.

Lemma split_start D post : first_split D (D ++ post) [] post.
Proof. split; [reflexivity|]. intros i _. simpl. lia. Qed.

Lemma body_parts trim b q l : alnums b -> Forall (sendable b) l ->
  forall pre, (pre = [] \/ exists x, absent (delimiter b) x /\ pre = x ++ CRLF) ->
  parts (head_block ML trim (delimiter b)) (delimiter b) (pre ++ body b q l) (map received l).
Proof.
  intros A F. induction F as [|p l (Pn & Un & Pf & Pc & Fn & Ff & Fc & Fd & Hlen) F IH]; intros pre Hpre.
  - cbn [map]. apply parts_end with (pre := pre) (q := q). unfold body. cbn [map concat].
    destruct Hpre as [->|(x & X & ->)]; [exact (split_start (delimiter b) _)|]. rewrite <- app_assoc. now apply split_crlf.
  - cbn [map]. unfold received at 1.
    assert (E : body b q (p :: l) = delimiter b ++ CRLF ++ p_head p ++ (p_data p ++ CRLF ++ body b q l)).
    { unfold body. cbn [map concat]. repeat rewrite <- app_assoc. reflexivity. }
    apply parts_field with (pre := pre) (x := p_head p) (rest := p_data p ++ CRLF ++ body b q l).
    + rewrite E. destruct Hpre as [->|(x & X & ->)]; [exact (split_start (delimiter b) _)|]. rewrite <- app_assoc. now apply split_crlf.
    + assert (Pf' : match p_fname p with Some f => plain f | None => True end) by (destruct (p_fname p); tauto).
      split.
      * exists (text_headers (p_name p) (p_fname p) (p_ctype p)). split; [|split].
        -- assert (Pc' : match p_ctype p with Some m => ctype_text m | None => True end)
             by (destruct (p_ctype p); [exact (proj1 Pc)|exact I]).
           intros y. apply (parse_headers_block trim (head_text (p_name p) (p_fname p) (p_ctype p)));
             [exact (head_text_block trim _ _ _ Pn Pf' Pc')|].
           unfold HEADER_LEN, text_headers. destruct (p_ctype p); simpl; lia.
        -- apply text_headers_utf8; auto; [destruct (p_fname p); tauto|destruct (p_ctype p); tauto].
        -- rewrite text_headers_parsed by auto. destruct (p_ctype p) as [m|]; auto.
           destruct Pc as (_ & _ & Pc). destruct (mime_parse ML m); [reflexivity|congruence].
      * unfold delimiter. rewrite app_length. change (length DASHES) with 2. lia.
    + destruct (body_starts b q l) as [t Et]. exists ((p_head p ++ p_data p) ++ CRLF), t. split.
      * rewrite Et. rewrite (app_assoc (p_head p)). apply split_crlf; auto. unfold p_head.
        assert (H : exists h0, head_text (p_name p) (p_fname p) (p_ctype p) = h0 ++ CRLF /\ absent (delimiter b) h0).
        { pose proof (absent_head b (p_name p) (p_fname p) (p_ctype p) A Fn Ff Fc) as Ab.
          unfold head_text in *. eexists. split; [rewrite !app_assoc; reflexivity|].
          intros i (u & v & Eo & L). apply (Ab i). exists u, (v ++ CRLF). split; auto.
          rewrite !app_assoc in *. rewrite Eo. reflexivity. }
        destruct H as (h0 & -> & Ah). rewrite <- app_assoc. apply absent_crlf; auto.
      * left. rewrite <- !app_assoc. reflexivity.
    + rewrite app_assoc. apply IH. right. exists (p_data p). auto.
Qed.

Lemma wire_body b l : wire b l = body b CRLF l.
Proof.
  unfold wire, body, delimiter. change crlf with CRLF. change dashes with DASHES. repeat rewrite <- app_assoc. f_equal.
Qed.

Lemma lazy_body b l : l <> [] -> lazy_wire b l = CRLF ++ body b [] l.
Proof.
  intros N. unfold lazy_wire, body. change crlf with CRLF. change dashes with DASHES. destruct l as [|p l]; [congruence|]. clear N. generalize (p :: l) as l'. clear.
  assert (K : forall l T, concat (map (fun p => CRLF ++ DASHES ++ b ++ CRLF ++ p_head p ++ p_data p) l) ++ CRLF ++ T =
    CRLF ++ concat (map (fun p => delimiter b ++ CRLF ++ p_head p ++ p_data p ++ CRLF) l) ++ T).
  { induction l as [|p l IH]; intros T; cbn [map concat]; auto.
    repeat rewrite <- app_assoc. rewrite IH. unfold delimiter. repeat rewrite <- app_assoc. reflexivity. }
  intros l'. rewrite K. unfold delimiter at 2. repeat rewrite <- app_assoc. reflexivity.
Qed.

Lemma wire_parts trim b l : alnums b -> Forall (sendable b) l ->
  parts (head_block ML trim (delimiter b)) (delimiter b) (wire b l) (map received l).
Proof. intros A F. rewrite wire_body. apply (body_parts trim b CRLF l A F []). auto. Qed.

Lemma lazy_parts trim b l : alnums b -> Forall (sendable b) l -> l <> [] ->
  parts (head_block ML trim (delimiter b)) (delimiter b) (lazy_wire b l) (map received l).
Proof. intros A F N. rewrite lazy_body by auto. apply body_parts; auto. right. exists []. split; [apply absent_nil|reflexivity]. Qed.

End WithMime.
