(** Property theorems about the request integrations (C50, C65). *)

From Verif Require Import Bytes BytesProofs Spec Io Boundary BoundaryProofs Field HeaderSpec HeaderProofs ContentProofs ShortProofs Drive Rand EntriesProofs Client ClientProofs WireSpec WireProofs
  PropsClient Toy Requests.

(** ** C50: which requests are recognised *)

(** What the trait documents, for a parsed content type: a POST request of type multipart/form-data whose first
    parameter [boundary] is [b]. *)
Definition form_request (q : hyper_request) (b : bytes) : Prop :=
  hy_method q = Post /\ exists t s ps l a v r,
    hy_type q = Some (Mime2 t s ps) /\ top_str t = bs "multipart" /\ sub_str s = bs "form-data" /\
    ps = l ++ (a, v) :: r /\ attr_str a = bs "boundary" /\ value_str v = b /\
    forall p, In p l -> attr_str (fst p) <> bs "boundary".

(** What the parser gives: known names are never in [Ext]. *)
Definition canonical (m : mime2) : Prop :=
  match m with
  | Mime2 t s ps => t <> TExt (bs "multipart") /\ s <> SExt (bs "form-data") /\
      forall a v, In (a, v) ps -> a <> AExt (bs "boundary") /\ v <> VExt (bs "utf-8")
  end.

Definition canonical_request (q : hyper_request) : Prop := forall m, hy_type q = Some m -> canonical m.

Lemma top_name t : t <> TExt (bs "multipart") -> top_str t = bs "multipart" -> t = TMultipart.
Proof. destruct t as [|s]; auto. cbn [top_str]. intros H E. congruence. Qed.

Lemma sub_name s : s <> SExt (bs "form-data") -> sub_str s = bs "form-data" -> s = SFormData.
Proof. destruct s as [|s]; auto. cbn [sub_str]. intros H E. congruence. Qed.

Lemma find_split_list {A} (f : A -> bool) l x : find f l = Some x <->
  exists a r, l = a ++ x :: r /\ f x = true /\ forall y, In y a -> f y = false.
Proof.
  induction l as [|z l IH]; cbn [find].
  - split; [discriminate|]. intros ([|] & r & H & _); discriminate.
  - destruct (f z) eqn:E; split; intros H.
    + injection H as ->. exists [], l. split; auto. split; auto. intros y [].
    + destruct H as ([|y a] & r & H & Fx & Ha).
      * injection H as -> _. reflexivity.
      * injection H as -> _. rewrite (Ha y (or_introl eq_refl)) in E. discriminate.
    + apply IH in H as (a & r & -> & Fx & Ha). exists (z :: a), r. split; auto. split; auto. intros y [<-|Hy]; auto.
    + apply IH. destruct H as ([|y a] & r & H & Fx & Ha).
      * injection H as <- <-. congruence.
      * injection H as -> ->. exists a, r. split; auto. split; auto. intros w Hw. apply Ha. now right.
Qed.

Lemma get_param_some t s ps n v : get_param (Mime2 t s ps) n = Some v <->
  exists l a r, ps = l ++ (a, v) :: r /\ attr_str a = n /\ forall p, In p l -> attr_str (fst p) <> n.
Proof.
  unfold get_param. destruct (find _ ps) as [[a w]|] eqn:E; cbn [option_map snd].
  - apply find_split_list in E as (l & r & -> & Fa & Hl). cbn [fst] in Fa. apply beq_eq in Fa. split.
    + intros H; injection H as ->. exists l, a, r. split; auto. split; auto. intros p Hp E.
      apply Hl in Hp. apply beq_eq in E. congruence.
    + intros (l2 & a2 & r2 & E & Ha & H2).
      assert (find (fun p => beq (attr_str (fst p)) n) (l ++ (a, w) :: r) = Some (a2, v)) as F1.
      { apply find_split_list. exists l2, r2. split; auto. split; [cbn [fst]; now apply beq_eq|].
        intros y Hy. destruct (beq (attr_str (fst y)) n) eqn:B; auto. apply beq_eq in B. destruct (H2 y Hy B). }
      assert (find (fun p => beq (attr_str (fst p)) n) (l ++ (a, w) :: r) = Some (a, w)) as F2.
      { apply find_split_list. exists l, r. split; auto. split; [cbn [fst]; now apply beq_eq|auto]. }
      congruence.
  - split; [discriminate|]. intros (l & a & r & -> & Ha & _).
    pose proof (find_none _ _ E (a, v) ltac:(apply in_or_app; right; left; auto)) as F. cbn [fst] in F.
    apply beq_eq in Ha. congruence.
Qed.

(** *** hyper *)

(** Sound; and complete except for the boundary "utf-8". *)
Theorem C50_hyper_partial : forall q b, canonical_request q ->
  (hyper_boundary q = Some b <-> form_request q b /\ b <> bs "utf-8").
Proof.
  intros q b C. unfold hyper_boundary, form_request. split.
  - destruct (hy_method q) as [|m]; [|discriminate]. destruct (hy_type q) as [[t s ps]|] eqn:E; [|discriminate].
    specialize (C _ E) as (Ct & Cs & Cp).
    destruct t; [|discriminate]. destruct s; [|discriminate].
    destruct (find _ ps) as [[a v]|] eqn:F; [|discriminate]. apply find_split_list in F as (l & r & -> & Fa & Hl).
    cbn [fst] in Fa. destruct a; [|discriminate]. destruct v as [|v]; [discriminate|]. intros H; injection H as ->.
    split; [split; auto|].
    + exists TMultipart, SFormData, (l ++ (ABoundary, VExt b) :: r), l, ABoundary, (VExt b), r. do 6 (split; auto).
      intros [a v] Hp. specialize (Hl _ Hp). cbn [fst] in *. destruct a as [|a]; [discriminate|].
      destruct (Cp (AExt a) v ltac:(apply in_or_app; auto)) as [Ca _]. cbn [attr_str]. congruence.
    + intros ->. destruct (Cp ABoundary (VExt (bs "utf-8")) ltac:(apply in_or_app; right; left; auto)) as [_ Cv]. auto.
  - intros [[-> (t & s & ps & l & a & v & r & E & Ht & Hs & -> & Ha & Hv & Hl)] Nu]. rewrite E.
    specialize (C _ E) as (Ct & Cs & Cp). apply top_name in Ht as ->; auto. apply sub_name in Hs as ->; auto.
    assert (a = ABoundary) as ->.
    { destruct (Cp a v ltac:(apply in_or_app; right; left; auto)) as [Ca _]. destruct a; auto. cbn [attr_str] in Ha. congruence. }
    replace (find _ _) with (Some (ABoundary, v)).
    + destruct v as [|v]; cbn [value_str] in Hv; congruence.
    + symmetry. apply find_split_list. exists l, r. split; auto. split; auto.
      intros [a2 v2] Hp. cbn [fst]. destruct a2; auto. destruct (Hl _ Hp eq_refl).
Qed.

Theorem C50_hyper_refuted : exists q b, canonical_request q /\ form_request q b /\ hyper_boundary q = None.
Proof.
  exists (mkHyper Post (Some (Mime2 TMultipart SFormData [(ABoundary, VUtf8)])) []), (bs "utf-8"). split; [|split; auto].
  - intros m H. injection H as <-. split; [discriminate|]. split; [discriminate|]. intros a v [H|[]]. injection H as <- <-. split; discriminate.
  - split; auto. exists TMultipart, SFormData, [(ABoundary, VUtf8)], [], ABoundary, VUtf8, []. do 6 (split; auto).
Qed.

(** *** iron: the type is looked at, the method is not *)
Theorem C50_iron_partial : forall q b, canonical_request q ->
  (iron_boundary q = Some b <-> form_request (mkHyper Post (hy_type q) (hy_body q)) b).
Proof.
  intros q b C. unfold iron_boundary, form_request. cbn [hy_method hy_type]. split.
  - destruct (hy_type q) as [[t s ps]|] eqn:E; [|discriminate]. destruct t; [|discriminate]. destruct s; [|discriminate].
    destruct (get_param _ _) as [v|] eqn:F; [|discriminate]. cbn [option_map]. intros H. injection H as <-.
    apply get_param_some in F as (l & a & r & -> & Ha & Hl). split; auto.
    exists TMultipart, SFormData, (l ++ (a, v) :: r), l, a, v, r. do 6 (split; auto).
  - intros [_ (t & s & ps & l & a & v & r & E & Ht & Hs & -> & Ha & Hv & Hl)]. rewrite E.
    specialize (C _ E) as (Ct & Cs & Cp). apply top_name in Ht as ->; auto. apply sub_name in Hs as ->; auto.
    rewrite (proj2 (get_param_some TMultipart SFormData (l ++ (a, v) :: r) (bs "boundary") v)); [cbn [option_map]; congruence|].
    exists l, a, r. auto.
Qed.

Theorem C50_iron_refuted : exists q b, canonical_request q /\ iron_boundary q = Some b /\ hy_method q <> Post.
Proof.
  exists (mkHyper (OtherMethod (bs "GET")) (Some (Mime2 TMultipart SFormData [(ABoundary, VExt (bs "x"))])) []), (bs "x").
  split; [|split; [reflexivity|discriminate]].
  intros m H. injection H as <-. split; [discriminate|]. split; [discriminate|]. intros a v [H|[]]. injection H as <- <-. split; discriminate.
Qed.

(** *** nickel: neither the type nor the method is looked at *)
Theorem C50_nickel_partial : forall q b,
  (form_request q b -> nickel_boundary q = Some b) /\
  (nickel_boundary q = Some b <-> exists t s ps l a v r, hy_type q = Some (Mime2 t s ps) /\
     ps = l ++ (a, v) :: r /\ attr_str a = bs "boundary" /\ value_str v = b /\ forall p, In p l -> attr_str (fst p) <> bs "boundary").
Proof.
  intros q b. assert (I : nickel_boundary q = Some b <-> exists t s ps l a v r, hy_type q = Some (Mime2 t s ps) /\
     ps = l ++ (a, v) :: r /\ attr_str a = bs "boundary" /\ value_str v = b /\ forall p, In p l -> attr_str (fst p) <> bs "boundary").
  { unfold nickel_boundary. split.
    - destruct (hy_type q) as [[t s ps]|] eqn:E; [|discriminate]. destruct (get_param _ _) as [v|] eqn:F; [|discriminate].
      cbn [option_map]. intros H. injection H as <-. apply get_param_some in F as (l & a & r & -> & Ha & Hl).
      exists t, s, (l ++ (a, v) :: r), l, a, v, r. do 4 (split; auto).
    - intros (t & s & ps & l & a & v & r & -> & -> & Ha & Hv & Hl).
      rewrite (proj2 (get_param_some t s (l ++ (a, v) :: r) (bs "boundary") v)); [cbn [option_map]; congruence|]. exists l, a, r. auto. }
  split; auto. intros [_ (t & s & ps & l & a & v & r & E & _ & _ & H)]. apply I. exists t, s, ps, l, a, v, r. auto.
Qed.

Theorem C50_nickel_refuted : exists q b, canonical_request q /\ nickel_boundary q = Some b /\ hy_method q <> Post /\
  hy_type q = Some (Mime2 (TExt (bs "text")) (SExt (bs "plain")) [(ABoundary, VExt b)]).
Proof.
  exists (mkHyper (OtherMethod (bs "GET")) (Some (Mime2 (TExt (bs "text")) (SExt (bs "plain")) [(ABoundary, VExt (bs "x"))])) []), (bs "x").
  split; [|split; [reflexivity|split; [discriminate|reflexivity]]].
  intros m H. injection H as <-. split; [discriminate|]. split; [discriminate|]. intros a v [H|[]]. injection H as <- <-. split; discriminate.
Qed.

Example C50_hyper_example :
  let q := mkHyper Post (Some (Mime2 TMultipart SFormData [(AExt (bs "charset"), VUtf8); (ABoundary, VExt (bs "x")); (ABoundary, VExt (bs "y"))])) [] in
  canonical_request q /\ hyper_boundary q = Some (bs "x") /\ iron_boundary q = Some (bs "x") /\ nickel_boundary q = Some (bs "x").
Proof.
  split; [|vm_compute; auto]. intros m H. injection H as <-. split; [discriminate|]. split; [discriminate|].
  intros a v [H|[H|[H|[]]]]; injection H as <- <-; split; discriminate.
Qed.

(** *** tiny_http *)

Lemma semi_split v : match find_bytes v SEMI with
  | Some k => exists post, v = firstn k v ++ SEMI ++ post /\ ~ In 59%N (firstn k v)
  | None => ~ In 59%N v
  end.
Proof.
  induction v as [|x v IH]; [vm_compute; auto|]. cbn [find_bytes]. unfold SEMI in *. change (bs ";") with [59%N] in *.
  cbn [starts_with]. destruct (N.eqb x 59) eqn:E.
  - cbn [andb]. replace (starts_with v []) with true by (destruct v; reflexivity). apply N.eqb_eq in E as ->. exists v. split; auto.
  - cbn [andb]. apply N.eqb_neq in E. destruct (find_bytes v [59%N]) as [k|].
    + destruct IH as (post & H & Nin). exists post. cbn [firstn app]. split; [now rewrite H at 1|]. intros [K|K]; auto.
    + intros [K|K]; auto.
Qed.

(** Exactly: the value of the first Content-Type header, from after the first "boundary=" to the next
    semicolon or the end. *)
Theorem C50_tiny_http_partial : forall q b,
  tiny_boundary q = Some b <->
  exists v pre post, header_value (ti_headers q) (bs "Content-Type") v /\ first_split (bs "boundary=") v pre (b ++ post) /\
    ~ In 59%N b /\ (post = [] \/ exists p, post = 59%N :: p).
Proof.
  intros q b. unfold tiny_boundary.
  assert (P : forall v, match find_bytes v BOUNDARY_EQ with
      | None => None
      | Some i => let start := i + length BOUNDARY_EQ in
          let e := match find_bytes (skipn start v) SEMI with None => length v | Some k => start + k end in
          Some (slice start e v)
      end = Some b <-> exists pre post, first_split (bs "boundary=") v pre (b ++ post) /\ ~ In 59%N b /\ (post = [] \/ exists p, post = 59%N :: p)).
  { intros v. pose proof (find_first_split (bs "boundary=") v ltac:(discriminate)) as F. change BOUNDARY_EQ with (bs "boundary=").
    destruct (find_bytes v (bs "boundary=")) as [i|].
    - cbv zeta. set (w := skipn (i + length (bs "boundary=")) v) in *. pose proof (semi_split w) as S0.
      assert (E : slice (i + length (bs "boundary=")) (match find_bytes w SEMI with None => length v | Some k => i + length (bs "boundary=") + k end) v
                  = match find_bytes w SEMI with None => w | Some k => firstn k w end).
      { unfold slice. fold w. destruct (find_bytes w SEMI) as [k|].
        - f_equal. lia.
        - apply firstn_all2. unfold w. rewrite skipn_length. lia. }
      rewrite E. split.
      + intros H. injection H as <-. destruct (find_bytes w SEMI) as [k|].
        * destruct S0 as (post & H & Nin). exists (firstn i v), (SEMI ++ post). split; [now rewrite <- H|]. split; auto. right. exists post. reflexivity.
        * exists (firstn i v), []. rewrite app_nil_r. auto.
      + intros (pre & post & F2 & Nb & Hp). destruct (first_split_fun _ _ _ _ _ _ F F2) as [_ W]. f_equal.
        destruct (find_bytes w SEMI) as [k|].
        * destruct S0 as (post2 & H & Nin). rewrite H in W. clear - W Nb Hp Nin. revert b W Nb. revert Nin. generalize (firstn k w). intros x.
          induction x as [|c x IH]; intros Nin b W Nb.
          -- destruct b as [|d b]; auto. destruct Nb. cbn in W. injection W as -> _. now left.
          -- destruct b as [|d b].
             ++ destruct Hp as [->|[p ->]]; cbn in W; [discriminate|]. injection W as -> _. destruct Nin. now left.
             ++ cbn in W. injection W as -> W. f_equal. apply IH; auto; intros K; [apply Nin|apply Nb]; now right.
        * destruct Hp as [->|[p ->]]; [now rewrite app_nil_r in W|]. destruct S0. rewrite W. apply in_or_app. right. now left.
    - split; [discriminate|]. intros (pre & post & [F2 _] & _). exfalso. apply (F (length pre)). exists pre, (b ++ post). auto. }
  split.
  - intros H. destruct (find_header _ _) as [v|] eqn:E; [|discriminate]. apply find_header_some in E.
    apply P in H as (pre & post & H). exists v, pre, post. tauto.
  - intros (v & pre & post & E & H). apply find_header_some in E. rewrite E. apply P. exists pre, post. tauto.
Qed.

(** A content type of the form [multipart/form-data; boundary=b]: names without regard to case, spaces after the
    semicolon, the value plain or in quotes (RFC 2045). *)
Definition form_type (v b : bytes) : Prop :=
  exists t n x ws, v = t ++ bs ";" ++ ws ++ n ++ bs "=" ++ x /\ same_name t (bs "multipart/form-data") /\
    same_name n (bs "boundary") /\ Forall (fun c => c = 32%N) ws /\
    ((x = b /\ Forall (fun c => alnum c \/ In c (bs "'+_-.")) b) \/ (x = bs """" ++ b ++ bs """" /\ ~ In 34%N b /\ ~ In 92%N b)).

(** Not sound: neither method nor type; not complete: case and quotes. *)
Theorem C50_tiny_http_refuted :
  (exists q b, tiny_boundary q = Some b /\ ti_method q = bs "GET" /\ ti_headers q = [(bs "Content-Type", bs "text/plain; boundary=" ++ b)]) /\
  (exists q v b, ti_method q = bs "POST" /\ ti_headers q = [(bs "Content-Type", v)] /\ form_type v b /\ tiny_boundary q = None) /\
  (exists q v b, ti_method q = bs "POST" /\ ti_headers q = [(bs "Content-Type", v)] /\ form_type v b /\ tiny_boundary q = Some (bs """" ++ b ++ bs """")).
Proof.
  assert (S0 : forall a, same_name a a).
  { intros a. apply eq_ignore_case_iff. unfold eq_ignore_case. now apply beq_eq. }
  split; [|split].
  - exists (mkTiny (bs "GET") [(bs "Content-Type", bs "text/plain; boundary=x")] []), (bs "x"). vm_compute. auto.
  - exists (mkTiny (bs "POST") [(bs "Content-Type", bs "multipart/form-data; Boundary=x")] []), (bs "multipart/form-data; Boundary=x"), (bs "x").
    do 2 (split; [reflexivity|]). split; [|vm_compute; reflexivity].
    exists (bs "multipart/form-data"), (bs "Boundary"), (bs "x"), (bs " "). split; [reflexivity|]. split; [apply S0|].
    split; [apply eq_ignore_case_iff; reflexivity|]. split; [repeat constructor|]. left. split; auto.
    constructor; auto. left. unfold alnum. vm_compute. intuition discriminate.
  - exists (mkTiny (bs "POST") [(bs "Content-Type", bs "multipart/form-data; boundary=""x""")] []), (bs "multipart/form-data; boundary=""x"""), (bs "x").
    do 2 (split; [reflexivity|]). split; [|vm_compute; reflexivity].
    exists (bs "multipart/form-data"), (bs "boundary"), (bs """x"""), (bs " "). split; [reflexivity|]. split; [apply S0|].
    split; [apply S0|]. split; [repeat constructor|]. right. split; [reflexivity|]. split; vm_compute; intuition discriminate.
Qed.

(** With "boundary" in lower case and no quotes it is complete, whatever parameters follow. *)
Theorem C50_tiny_http_plain_partial : forall q v t ws b rest,
  header_value (ti_headers q) (bs "Content-Type") v -> v = t ++ bs ";" ++ ws ++ bs "boundary=" ++ b ++ rest ->
  same_name t (bs "multipart/form-data") -> Forall (fun c => c = 32%N) ws -> ~ In 59%N b -> (rest = [] \/ exists p, rest = 59%N :: p) ->
  tiny_boundary q = Some b.
Proof.
  intros q v t ws b rest Hv E Ht Hw Nb Hr. apply C50_tiny_http_partial.
  exists v, (t ++ bs ";" ++ ws), rest. split; auto. split; [|auto].
  assert (Nn : ~ In 98%N (t ++ bs ";" ++ ws)).
  { intros K. apply in_app_or in K as [K|K]; [|apply in_app_or in K as [K|K]].
    - clear - K Ht. assert (N : forall y, In y (bs "multipart/form-data") -> ~ case_variant 98%N y).
      { intros y Hy C. apply lower_variant in C. vm_compute in Hy. repeat (destruct Hy as [<-|Hy]; [vm_compute in C; discriminate|]). destruct Hy. }
      unfold same_name in Ht. revert N. induction Ht as [|x y t' s' C _ IH]; intros N; [destruct K|]. destruct K as [->|K].
      + apply (N y); [now left|auto].
      + apply IH; auto. intros z Hz. apply N. now right.
    - vm_compute in K. destruct K as [K|[]]. discriminate.
    - rewrite Forall_forall in Hw. apply Hw in K. discriminate. }
  split.
  - rewrite E, <- !app_assoc. reflexivity.
  - intros i (a & c & Ea & <-). destruct (Nat.le_gt_cases (length (t ++ bs ";" ++ ws)) (length a)) as [|L]; auto. exfalso. apply Nn.
    rewrite E in Ea. replace (t ++ bs ";" ++ ws ++ bs "boundary=" ++ b ++ rest) with ((t ++ bs ";" ++ ws) ++ bs "boundary=" ++ b ++ rest) in Ea by now rewrite <- !app_assoc.
    apply (nth_error_In _ (length a)). rewrite <- (nth_error_app1 _ (bs "boundary=" ++ b ++ rest)); auto. rewrite Ea.
    rewrite nth_error_app2, Nat.sub_diag; auto.
Qed.

Example C50_tiny_http_example :
  tiny_boundary (mkTiny (bs "POST") [(bs "host", bs "x"); (bs "content-type", bs "Multipart/Form-Data;  boundary=AaB03x; charset=utf-8")] []) = Some (bs "AaB03x").
Proof. reflexivity. Qed.

(** ** C50 and C56: our own client is recognised *)

(** What mime 0.2 parses the client's header to; [Value::from_str] knows "utf-8". *)
Definition parsed_form (b : bytes) : mime2 := Mime2 TMultipart SFormData [(ABoundary, if beq b (bs "utf-8") then VUtf8 else VExt b)].

Theorem C50_own_client : forall g t ms,
  let b := boundary_of g in
  (forall pre, (forall h, In h pre -> ~ same_name (fst h) (bs "Content-Type")) ->
   tiny_boundary (mkTiny ms (pre ++ [(bs "Content-Type", mime2_show (multipart_mime b))]) t) = Some b) /\
  hyper_boundary (mkHyper Post (Some (parsed_form b)) t) = Some b /\
  iron_boundary (mkHyper Post (Some (parsed_form b)) t) = Some b /\
  nickel_boundary (mkHyper Post (Some (parsed_form b)) t) = Some b.
Proof.
  intros g t ms b. split.
  - intros pre Hp. apply (C50_tiny_http_plain_partial _ (mime2_show (multipart_mime b)) (bs "multipart/form-data") (bs " ") b []).
    + exists pre, (bs "Content-Type"), []. split; auto. split; auto. apply eq_ignore_case_iff. reflexivity.
    + unfold mime2_show, multipart_mime, top_str, sub_str, attr_str, value_str. cbn [map concat fst snd]. reflexivity.
    + apply eq_ignore_case_iff. reflexivity.
    + repeat constructor.
    + intros K. destruct (C56_boundary g) as [_ N]. apply N in K as [K _]. apply K. vm_compute. tauto.
    + auto.
  - assert (E : beq b (bs "utf-8") = false).
    { destruct (beq b (bs "utf-8")) eqn:E; auto. apply beq_eq in E. pose proof (proj1 (C56_boundary g)) as L.
      change (fst (gen_boundary g)) with b in L. rewrite E in L. discriminate. }
    unfold parsed_form. rewrite E. auto.
Qed.

(** [from_request] gives the reader of the body at that boundary, or the request back as it was. *)
Theorem C50_from_request : forall R (mb : R -> option bytes) (body : R -> transport) q,
  (forall b, mb q = Some b -> server_from_request mb body q = inl (with_body (body q) b)) /\
  (mb q = None -> server_from_request mb body q = inr q).
Proof. intros R mb body q. unfold server_from_request. split; [intros b ->|intros ->]; reflexivity. Qed.

(** [Switch]: the multipart handler gets exactly the POST multipart/form-data requests (but for "utf-8"). *)
Theorem C50_switch : forall q, canonical_request q ->
  (exists b, form_request q b /\ b <> bs "utf-8" /\ switch_handle q = HMultipart (with_body (hy_body q) b)) \/
  ((forall b, form_request q b -> b = bs "utf-8") /\ switch_handle q = HNormal q).
Proof.
  intros q C. unfold switch_handle, server_from_request. destruct (hyper_boundary q) as [b|] eqn:E.
  - left. exists b. apply C50_hyper_partial in E; tauto.
  - right. split; auto. intros b Hb. destruct (beq b (bs "utf-8")) eqn:B; [now apply beq_eq|].
    assert (hyper_boundary q = Some b) by (apply C50_hyper_partial; auto; split; auto; intros ->; discriminate). congruence.
Qed.

(** From a form to the fields: a request made by the client, received by tiny_http. *)
Theorem C50_round_trip : forall ML octet guess trim g q fs q' t sz pre ms,
  client ML octet guess g q fs = (None, q') -> written (q_log q) = [] ->
  Forall (fun f => sendable ML (boundary_of g) (describe ML octet guess f) /\
    forall c, sent_ctype octet guess f = Some c -> mime_parse ML (mime_show ML c) = Some c) fs ->
  stream t = written (q_log q') -> live t -> quiet t -> (forall k, 0 < sz k) ->
  exact_chunks (delimiter (boundary_of g)) t (map snd (map (@expected ML octet guess) fs)) \/ (forall k, sz k < MIN_BUF_SIZE) ->
  (forall h, In h pre -> ~ same_name (fst h) (bs "Content-Type")) ->
  exists r r', server_from_request tiny_boundary ti_body (mkTiny ms (pre ++ [(bs "Content-Type", mime2_show (multipart_mime (boundary_of g)))]) t) = inl r /\
    read_all ML trim (S (length fs)) sz r = (Ok (map (expected octet guess) fs), r').
Proof.
  intros ML octet guess trim g q fs q' t sz pre ms H W F St Hl Hq Hz Hx Hp.
  destruct (C28_round_trip _ _ _ trim _ _ _ _ t sz H W F St Hl Hq Hz Hx) as [r' R].
  exists (with_body t (boundary_of g)), r'. split; auto. unfold server_from_request.
  now rewrite (proj1 (C50_own_client g t ms) pre Hp).
Qed.

(** ** C65: the headers of the Hyper client *)

(** For POST the content type and, if known, the length are set; other methods are refused and nothing is set. *)
Theorem C65_headers : forall b len q,
  (hc_method q = Post -> exists q', hyper_apply b len q = (true, q') /\ hc_method q' = Post /\
     option_map mime2_show (hc_type q') = Some (bs "multipart/form-data; boundary=" ++ b) /\
     (forall n, len = Some n -> hc_len q' = Some n) /\ (len = None -> hc_len q' = hc_len q)) /\
  (hc_method q <> Post -> hyper_apply b len q = (false, q)).
Proof.
  intros b len q. unfold hyper_apply. split.
  - intros ->. eexists. split; [reflexivity|]. split; auto. split.
    + cbn [hc_type option_map]. unfold mime2_show, multipart_mime, top_str, sub_str, attr_str, value_str. cbn [map concat fst snd].
      rewrite app_nil_r. reflexivity.
    + split; [intros n ->; reflexivity|intros ->; reflexivity].
  - destruct (hc_method q); congruence.
Qed.

Example C65_example :
  hyper_apply (bs "x") (Some 5%N) (mkHC Post None None) = (true, mkHC Post (Some (multipart_mime (bs "x"))) (Some 5%N)) /\
  hyper_apply (bs "x") None (mkHC (OtherMethod (bs "PUT")) None None) = (false, mkHC (OtherMethod (bs "PUT")) None None).
Proof. split; reflexivity. Qed.
