(** Facts about requests whose temporary directories are made in different directories of one disk. *)

From Verif Require Import Bytes BytesProofs Io Boundary Utf8 Httparse Field Rand Fs Save Savedir EntriesProofs Together TogetherProofs PropsTogether Lives LivesProofs.

(** As in LivesProofs.v, where all directories are made in one; here the [i]-th program makes its own in [tb i].  One of these may lie in another. *)

Lemma base_outside (t a b : path) : t = a ++ b -> ~ inside t a.
Proof. intros E (c & d & E2). apply (f_equal (@length _)) in E, E2. rewrite app_length in *. cbn [length] in E2. lia. Qed.

#[local] Hint Resolve spends_nil : core.

Section Bases.
Context {A : Type} (tb : nat -> path) (s0 : pool A) (T : nat -> path -> Prop) (Q : nat -> phase -> A -> Prop).
Context (Base : forall i a b, i < length (snd s0) -> tb i = a ++ b -> a <> [] -> fst s0 a = Some NDir).
Context (Tree : forall i c b, i < length (snd s0) -> fst s0 (tb i ++ c :: b) <> None -> fst s0 (tb i ++ [c]) <> None).

Notation met := (met T).

Definition one_ok (s : pool A) (ph : phase) (g : fs) (i : nat) (q0 : prog A) (e0 : env) (q : prog A) (e : env) : Prop :=
  confined (tb i) (T i) ph q (Q i) /\
  (exists mkp opp, (forall mk op, solo q0 (mkEnv (fst s0) (e_w e0) (mkp ++ mk) (opp ++ op)) = solo q (mkEnv g (e_w e) mk op)) /\
     spends (taken (met i)) mkp (e_mkdir e0) (e_mkdir e) /\ spends never opp (e_open e0) (e_open e)) /\
  match ph with
  | Owns r => (T i r /\ exists c, r = tb i ++ [c]) /\ fst s0 r = None /\ g r = Some NDir /\ (forall b, fst s (r ++ b) = g (r ++ b)) /\
      forall p, (forall b, p <> r ++ b) -> g p = fst s0 p
  | _ => forall p, g p = fst s0 p
  end.

Definition all_ok (s : pool A) (ph : nat -> phase) (G : nat -> fs) : Prop :=
  (forall p, (forall i, i < length (snd s0) -> ~ inside (tb i) p) -> fst s p = fst s0 p) /\
  (forall p n, fst s0 p = Some n -> fst s p = Some n) /\
  (forall i c b, i < length (snd s0) -> fst s (tb i ++ c :: b) <> None -> fst s (tb i ++ [c]) <> None) /\
  (forall i j r, ph i = Owns r -> ph j = Owns r -> i = j) /\
  (forall p n, fst s p = Some n -> fst s0 p = Some n \/ exists i r b, ph i = Owns r /\ p = r ++ b) /\
  length (snd s) = length (snd s0) /\
  (forall i r, ph i = Owns r -> i < length (snd s0)) /\
  forall i q0 e0 q e, nth_error (snd s0) i = Some (q0, e0) -> nth_error (snd s) i = Some (q, e) -> one_ok s (ph i) (G i) i q0 e0 q e.

Lemma prefix_split (x y u v : path) : x ++ u = y ++ v -> (exists z, y = x ++ z) \/ exists z, z <> [] /\ x = y ++ z.
Proof.
  revert y. induction x as [|c x IH]; intros [|d y] E; [left; exists []; reflexivity|left; exists (d :: y); reflexivity|right; exists (c :: x); split; [discriminate|reflexivity]|].
  injection E as <- E. destruct (IH _ E) as [[z ->]|(z & Nz & ->)]; [left; exists z; reflexivity|right; exists z; split; auto].
Qed.

(** What is strictly above a new entry of a base is there from the start. *)
Lemma above_root j c r z : j < length (snd s0) -> tb j ++ [c] = r ++ z -> z <> [] -> r <> [] -> fst s0 r = Some NDir.
Proof.
  intros Lj E Nz Nr. destruct (exists_last Nz) as (z' & c' & ->). rewrite app_assoc in E. apply app_inj_tail in E as [E _].
  eapply Base; eauto.
Qed.

(** Two new entries of bases with a path in common are the same. *)
Lemma roots_eq i j c c' b b' : i < length (snd s0) -> j < length (snd s0) -> fst s0 (tb i ++ [c]) = None -> fst s0 (tb j ++ [c']) = None ->
  (tb i ++ [c]) ++ b = (tb j ++ [c']) ++ b' -> tb i ++ [c] = tb j ++ [c'].
Proof.
  intros Li Lj Fi Fj E. assert (Ni : forall x (y : bytes), x ++ [y] <> []) by (intros [|? ?] ?; discriminate).
  destruct (prefix_split _ _ _ _ E) as [[z Ez]|(z & Nz & Ez)].
  - destruct z as [|z0 z]; [now rewrite app_nil_r in Ez|]. rewrite (above_root j c' _ _ Lj Ez) in Fi; auto; discriminate.
  - rewrite (above_root i c _ _ Li Ez) in Fj; auto; discriminate.
Qed.

(** The owner of a directory is there. *)
Lemma owner s ph G i r : all_ok s ph G -> ph i = Owns r ->
  (T i r /\ exists c, r = tb i ++ [c]) /\ fst s0 r = None /\ G i r = Some NDir /\ (forall b, fst s (r ++ b) = G i (r ++ b)) /\
  forall p, (forall b, p <> r ++ b) -> G i p = fst s0 p.
Proof.
  intros (_ & _ & _ & _ & _ & Len & Rng & Th) E. pose proof (Rng _ _ E) as Li.
  destruct (nth_error (snd s0) i) as [[q0 e0]|] eqn:N0; [|apply nth_error_None in N0; lia].
  destruct (nth_error (snd s) i) as [[q e]|] eqn:N1; [|apply nth_error_None in N1; lia].
  destruct (Th _ _ _ _ _ N0 N1) as (_ & _ & K). rewrite E in K. exact K.
Qed.

(** A call that changes nothing but paths of the directory [r]. *)
Lemma act s ph G i q0 e0 q e q' e' r ph' g' : all_ok s ph G ->
  nth_error (snd s0) i = Some (q0, e0) -> nth_error (snd s) i = Some (q, e) -> step q (set_fs (fst s) e) = (q', e') ->
  (exists c, r = tb i ++ [c]) -> fst s0 r = None -> (forall j, j <> i -> ph j <> Owns r) -> (forall r', ph i = Owns r' -> r' = r) ->
  (forall p, (forall b, p <> r ++ b) -> e_fs e' p = fst s p) -> (forall b, e_fs e' (r ++ b) <> None -> e_fs e' r <> None) ->
  (ph' = Owns r \/ (ph' = Gone /\ forall b, e_fs e' (r ++ b) = None)) ->
  (forall s', fst s' = e_fs e' -> one_ok s' ph' g' i q0 e0 q' e') ->
  all_ok (turn i s) (at_i i ph' ph) (at_i i g' G).
Proof.
  intros Ok N0 N1 St [c Ec] Fr Oth Own Out Reg Hph Ne. pose proof Ok as (A1 & A2 & A3 & A4 & A5 & A6 & A7 & A8).
  assert (Li : i < length (snd s0)) by (apply nth_error_Some; congruence).
  assert (Tn : turn i s = (e_fs e', set_nth i (q', e') (snd s))) by (unfold turn; now rewrite N1, St).
  assert (Dec : forall p, (exists b, p = r ++ b) \/ forall b, p <> r ++ b).
  { intros p. destruct (path_eq_dec (firstn (length r) p) r) as [E|E].
    - left. exists (skipn (length r) p). rewrite <- E at 1. now rewrite firstn_skipn.
    - right. intros b ->. apply E. rewrite firstn_app, Nat.sub_diag, firstn_all, firstn_O. apply app_nil_r. }
  assert (F0 : forall b, fst s0 (r ++ b) = None).
  { intros b. destruct (fst s0 (r ++ b)) eqn:E; auto. exfalso. subst r. rewrite <- app_assoc in E. cbn in E.
    apply (Tree i c b); [auto|congruence|auto]. }
  rewrite Tn. split; [|split; [|split; [|split; [|split; [|split; [|split]]]]]]; cbn [fst snd].
  - intros p Np. rewrite Out; auto. intros b ->. apply (Np i Li). subst r. exists c, b. now rewrite <- app_assoc.
  - intros p n Hp. destruct (Dec p) as [[b ->]|D]; [rewrite F0 in Hp; discriminate|]. rewrite Out; auto.
  - intros j c' b Lj H. assert (Nr : r <> []) by (subst r; destruct (tb i); discriminate).
    destruct (Dec (tb j ++ [c'])) as [[z Ez]|D].
    + destruct z as [|z0 z]; [rewrite app_nil_r in Ez; rewrite Ez; apply (Reg b); now rewrite <- Ez, <- app_assoc|].
      exfalso. rewrite (above_root j c' r (z0 :: z) Lj Ez) in Fr; [discriminate|discriminate|auto].
    + rewrite Out by exact D. destruct (Dec (tb j ++ c' :: b)) as [[z Ez]|D2]; [|rewrite Out in H by exact D2; eauto].
      change (c' :: b) with ([c'] ++ b) in Ez. rewrite app_assoc in Ez.
      destruct (prefix_split _ _ _ _ Ez) as [[y Ey]|(y & _ & Ey)]; [|exfalso; eapply D; eauto].
      rewrite (A2 _ NDir); [discriminate|]. rewrite Ec in Ey. apply (above_root i c _ y Li Ey).
      * intros ->. apply (D []). rewrite Ec, Ey. now rewrite !app_nil_r.
      * destruct (tb j); discriminate.
  - assert (Q1 : forall j r', j <> i -> ph j = Owns r' -> ph' <> Owns r').
    { intros j r' Nj Pj Pi. destruct Hph as [-> |[-> _]]; [|discriminate]. injection Pi as ->. eapply Oth; eauto. }
    intros j k r' Hj Hk. destruct (Nat.eq_dec j i) as [->|Nj], (Nat.eq_dec k i) as [->|Nk]; auto.
    + rewrite at_same in Hj. rewrite at_other in Hk by auto. exfalso. eapply Q1; eauto.
    + rewrite at_same in Hk. rewrite at_other in Hj by auto. exfalso. eapply Q1; eauto.
    + rewrite at_other in Hj, Hk by auto. eauto.
  - intros p n Hp. destruct (Dec p) as [[b ->]|D].
    + destruct Hph as [-> |[_ Hn]]; [right; exists i, r, b; rewrite at_same; auto|rewrite Hn in Hp; discriminate].
    + rewrite Out in Hp by auto. destruct (A5 _ _ Hp) as [|(j & r' & b & Pj & ->)]; auto. right. exists j, r', b. split; auto.
      rewrite at_other; auto. intros ->. rewrite (Own _ Pj) in D. eapply D; reflexivity.
  - now rewrite set_length.
  - intros j r' Hj. destruct (Nat.eq_dec j i) as [->|Nj]; auto. rewrite at_other in Hj by auto. eauto.
  - intros j qa ea qb eb Na Nb. rewrite nth_set in Nb. destruct (Nat.eq_dec i j) as [<-|Nj].
    + rewrite N1 in Nb. injection Nb as <- <-. rewrite N0 in Na. injection Na as <- <-. rewrite !at_same. now apply Ne.
    + rewrite !at_other by auto. destruct (A8 _ _ _ _ _ Na Nb) as (B1 & B2 & B3). split; auto. split; auto.
      destruct (ph j) as [|r'|] eqn:Pj; auto. destruct B3 as ([Tr [c' Ec']] & B4 & B5 & B6 & B7). split; [eauto|]. split; auto. split; auto. split; auto.
      intros b. cbn [fst]. rewrite <- B6. apply Out. intros b' E. apply (Oth j); [auto|]. rewrite Pj. f_equal.
      subst r r'. symmetry. eapply roots_eq; eauto.
Qed.

(** A call that changes nothing. *)
Lemma idle s ph G i q0 e0 q e q' e' : all_ok s ph G ->
  nth_error (snd s0) i = Some (q0, e0) -> nth_error (snd s) i = Some (q, e) -> step q (set_fs (fst s) e) = (q', e') ->
  (forall p, e_fs e' p = fst s p) -> (forall s', fst s' = e_fs e' -> one_ok s' (ph i) (G i) i q0 e0 q' e') ->
  all_ok (turn i s) ph G.
Proof.
  intros (A1 & A2 & A3 & A4 & A5 & A6 & A7 & A8) N0 N1 St Out Ne.
  assert (Tn : turn i s = (e_fs e', set_nth i (q', e') (snd s))) by (unfold turn; now rewrite N1, St).
  rewrite Tn. split; [|split; [|split; [|split; [|split; [|split; [|split]]]]]]; cbn [fst snd]; auto.
  - intros p Np. rewrite Out. auto.
  - intros p n Hp. rewrite Out. auto.
  - intros j c b. rewrite !Out. apply A3.
  - intros p n. rewrite Out. auto.
  - now rewrite set_length.
  - intros j qa ea qb eb Na Nb. rewrite nth_set in Nb. destruct (Nat.eq_dec i j) as [<-|Nj].
    + rewrite N1 in Nb. injection Nb as <- <-. rewrite N0 in Na. injection Na as <- <-. now apply Ne.
    + destruct (A8 _ _ _ _ _ Na Nb) as (B1 & B2 & B3). split; auto. split; auto.
      destruct (ph j) as [|r'|] eqn:Pj; auto. destruct B3 as (B3 & B4 & B5 & B6 & B7). split; auto. split; auto. split; auto. split; auto.
      intros b. cbn [fst]. rewrite Out. auto.
Qed.

Lemma turn_bases s ph G i : all_ok s ph G -> exists ph' G', all_ok (turn i s) ph' G'.
Proof.
  intros Ok. destruct (nth_error (snd s) i) as [[q e]|] eqn:N1; [|exists ph, G; unfold turn; now rewrite N1].
  pose proof Ok as (A1 & A2 & A3 & A4 & A5 & A6 & A7 & A8).
  destruct (nth_error (snd s0) i) as [[q0 e0]|] eqn:N0.
  2: { apply nth_error_None in N0. assert (i < length (snd s)) by (apply nth_error_Some; congruence). lia. }
  assert (Li : i < length (snd s0)) by (apply nth_error_Some; congruence).
  destruct (A8 _ _ _ _ _ N0 N1) as (Cf & (mkp & opp & Eq & Nf) & Own).
  destruct (step q (set_fs (fst s) e)) as [q' e'] eqn:St.
  (* the solo run after a call *)
  assert (Next : forall q' e' g' mk0 op0,
     (forall mk op, solo q (mkEnv (G i) (e_w e) (mk0 ++ mk) (op0 ++ op)) = solo q' (mkEnv g' (e_w e') mk op)) ->
     spends (taken (met i)) mk0 (e_mkdir e) (e_mkdir e') -> spends never op0 (e_open e) (e_open e') ->
     exists mkp opp, (forall mk op, solo q0 (mkEnv (fst s0) (e_w e0) (mkp ++ mk) (opp ++ op)) = solo q' (mkEnv g' (e_w e') mk op)) /\
       spends (taken (met i)) mkp (e_mkdir e0) (e_mkdir e') /\ spends never opp (e_open e0) (e_open e')).
  { intros q1 e1 g1 mk0 op0 E1 E2 E3. exists (mkp ++ mk0), (opp ++ op0). split; [intros mk op; now rewrite <- !app_assoc, Eq|].
    destruct Nf as [F1 F2]. split; eapply spends_app; eauto. }
  (* a call at one path of its directory *)
  assert (Local : forall X (call : env -> X * env) (k : X -> prog A) p r, ph i = Owns r -> (exists b, p = r ++ b) -> same_call call p ->
     (forall e, step q e = let '(x, e1) := call e in (k x, e1)) -> (forall e, solo q e = let '(x, e1) := call e in solo (k x) e1) ->
     (forall x, call (set_fs (fst s) e) = (x, e') -> confined (tb i) (T i) (Owns r) (k x) (Q i)) ->
     exists ph' G', all_ok (turn i s) ph' G').
  { intros X call k p r Pi [b Hb] Sc Hst Hso Hcf. rewrite Pi in Own. destruct Own as ([Tr [c Ec]] & Fr & Gr & Reg & Rest).
    destruct (Sc (fst s) e (G i)) as (x & e1 & mk0 & op0 & g' & C1 & C2 & C3 & C4 & C5); [subst p; now rewrite Reg|].
    pose proof St as St'. rewrite Hst, C1 in St'. injection St' as <- <-.
    assert (Rt : g' r = Some NDir).
    { destruct C3 as [[_ C3]|(n & Nd & C3 & C3')]; [now rewrite C3|]. rewrite C3'. unfold upd. destruct (path_eq_dec r p) as [E|_]; auto.
      exfalso. apply Nd. now rewrite <- E. }
    assert (Rg : forall b, e_fs e1 (r ++ b) = g' (r ++ b)).
    { intros b'. destruct C3 as [[C3 C3']|(n & Nd & C3 & C3')]; rewrite C3, C3'; auto. unfold upd. destruct (path_eq_dec (r ++ b') p); auto. }
    exists (at_i i (Owns r) ph), (at_i i g' G). apply act with (q0 := q0) (e0 := e0) (q := q) (e := e) (q' := k x) (e' := e1) (r := r); auto.
    - eauto.
    - intros j Nj Pj. apply Nj. eapply A4; eauto.
    - intros r' Pr. congruence.
    - intros z Nz. destruct C3 as [[C3 _]|(n & _ & C3 & _)]; rewrite C3; auto. unfold upd. destruct (path_eq_dec z p) as [->|_]; auto. exfalso. eapply Nz; eauto.
    - intros b' _. specialize (Rg []). rewrite app_nil_r in Rg. rewrite Rg, Rt. discriminate.
    - intros s' Es. split; [auto|]. split.
      + apply (Next _ _ _ mk0 op0).
        * intros mk op. rewrite Hso, C2. reflexivity.
        * apply C4.
        * apply C5.
      + split; [eauto|]. split; auto. split; auto. rewrite Es. split; auto.
        intros z Nz. destruct C3 as [[_ C3]|(n & _ & _ & C3)]; rewrite C3; auto. unfold upd. destruct (path_eq_dec z p) as [->|_]; auto. exfalso. eapply Nz; eauto. }
  (* no change *)
  assert (Still : forall x e1, e' = e1 -> (forall z, e_fs e1 z = fst s z) -> e_w e1 = e_w e -> q' = x -> confined (tb i) (T i) (ph i) x (Q i) -> forall mk0 op0,
     (forall mk op, solo q (mkEnv (G i) (e_w e) (mk0 ++ mk) (op0 ++ op)) = solo x (mkEnv (G i) (e_w e) mk op)) ->
     spends (taken (met i)) mk0 (e_mkdir e) (e_mkdir e1) -> spends never op0 (e_open e) (e_open e1) ->
     exists ph' G', all_ok (turn i s) ph' G').
  { intros x e1 <- Fe We <- Cx mk0 op0 Sx Nx Px. exists ph, G. apply idle with (q0 := q0) (e0 := e0) (q := q) (e := e) (q' := q') (e' := e'); auto.
    intros s' Es. split; auto. split; [apply (Next _ _ _ mk0 op0); auto; now rewrite We|].
    destruct (ph i) as [|r|]; auto. rewrite Es. destruct Own as (O1 & O2 & O3 & O4 & O5). repeat (split; auto). intros b. now rewrite Fe. }
  destruct q as [a|p l k|o p k|h b k|p k|ev p k|p k]; cbn [confined] in Cf.
  - cbn [step] in St. injection St as <- <-. apply (Still (PRet a) (set_fs (fst s) e) eq_refl) with (mk0 := []) (op0 := []); auto.
  - destruct Cf as [(r & Pi & [(Np & a & Ea)|Hb]) Ck].
    + assert (Gp : G i p = Some NDir).
      { rewrite Pi in Own. destruct Own as ([Tr [c Ec]] & _ & _ & _ & Rest). rewrite Rest; [eapply Base; eauto|].
        intros b ->. apply (base_outside _ _ _ Ea). subst r. exists c, b. now rewrite <- app_assoc. }
      assert (Sp : fst s p = Some NDir) by (apply A2; eapply Base; eauto).
      cbn [step] in St. unfold do_dir in St. cbn [set_fs e_fs] in St. rewrite Sp in St. injection St as <- <-.
      apply (Still (k None) (set_fs (fst s) e) eq_refl) with (mk0 := []) (op0 := []); auto.
      intros mk op. cbn [solo app]. unfold do_dir. cbn [e_fs]. now rewrite Gp.
    + apply (Local _ (do_dir p l) k p r Pi Hb (same_dir p l)); auto. intros x _. rewrite <- Pi. auto.
  - destruct Cf as [(r & Pi & c & b & Ep) [Ck1 Ck2]]. apply (Local _ (open_file o p) k p r Pi); eauto.
    + apply same_open.
    + intros [h|x] Hc; rewrite <- Pi; auto. apply Ck1. eapply open_path; eauto.
  - destruct Cf as [(r & Pi & c & b' & Ep) Ck]. apply (Local _ (do_write h b) k (h_path h) r Pi); eauto.
    + apply same_write.
    + intros [x h'] Hc; rewrite <- Pi. apply Ck. eapply write_path; eauto.
  - destruct Cf as (Pi & [Tp [c Ep]] & Ck1 & Ck2). rewrite Pi in Own. cbn [step] in St.
    assert (Rl : removelast p = tb i) by (subst p; apply removelast_last).
    assert (Cd : forall f w mk op, (tb i <> [] -> f (tb i) = Some NDir) -> create_dir p (mkEnv f w mk op) =
       match f p with
       | Some _ => (Some KAlreadyExists, mkEnv f w mk op)
       | None => match mk with
          | Some k :: m => (Some k, mkEnv f w m op)
          | None :: m => (None, mkEnv (upd f p (Some NDir)) w m op)
          | [] => (None, mkEnv (upd f p (Some NDir)) w [] op)
          end
       end).
    { intros f w mk op Ht. unfold create_dir. rewrite Rl. cbn [e_fs e_mkdir e_w e_open set_fs]. destruct (tb i) as [|t1 t']; [|rewrite Ht by discriminate]; destruct (f p), mk as [|[]]; reflexivity. }
    assert (T0 : tb i <> [] -> fst s0 (tb i) = Some NDir) by (intros Nt; apply (Base i (tb i) []); [auto|symmetry; apply app_nil_r|auto]).
    assert (Ts : tb i <> [] -> fst s (tb i) = Some NDir) by (intros Nt; apply A2; auto).
    assert (Tg : tb i <> [] -> G i (tb i) = Some NDir) by (intros Nt; rewrite Own; auto).
    destruct e as [ef ew em eo]. unfold set_fs in St. cbn [e_w e_mkdir e_open] in St. rewrite (Cd _ _ _ _ Ts) in St.
    destruct (fst s p) as [n|] eqn:Sp.
    + injection St as <- <-. destruct (fst s0 p) as [n0|] eqn:S0p.
      * apply (Still (k (Some KAlreadyExists)) _ eq_refl) with (mk0 := []) (op0 := []); auto; [now rewrite Pi|].
        intros mk op. cbn [solo app e_w]. now rewrite (Cd _ _ _ _ Tg), Own, S0p.
      * apply (Still (k (Some KAlreadyExists)) _ eq_refl) with (mk0 := [Some KAlreadyExists]) (op0 := []); auto; [now rewrite Pi| |].
        2: { cbn [e_mkdir]. apply spends_more. split; auto.
             destruct (A5 _ _ Sp) as [X|(j & r & b & Pj & Eb)]; [congruence|].
             destruct (owner _ _ _ _ _ Ok Pj) as ((Tj & c' & Er) & Fj & _). exists p, j. split; [intros ->; congruence|]. split; auto.
             replace p with r; auto. subst r p. symmetry. apply (roots_eq i j c c' [] b); auto; [apply (A7 _ _ Pj)|]. now rewrite app_nil_r. }
        intros mk op. cbn [solo app e_w]. now rewrite (Cd _ _ _ _ Tg), Own, S0p.
    + assert (S0p : fst s0 p = None) by (destruct (fst s0 p) eqn:E; auto; apply A2 in E; congruence).
      assert (Made : forall mk0 em', q' = k None -> e' = mkEnv (upd (fst s) p (Some NDir)) ew em' eo ->
        (forall mk op, create_dir p (mkEnv (G i) ew (mk0 ++ mk) op) = (None, mkEnv (upd (G i) p (Some NDir)) ew mk op)) ->
        spends (taken (met i)) mk0 em em' -> exists ph' G', all_ok (turn i s) ph' G').
      { intros mk0 em' Eq' Ee' Cg Hm. exists (at_i i (Owns p) ph), (at_i i (upd (G i) p (Some NDir)) G).
        apply act with (q0 := q0) (e0 := e0) (q := PTemp p k) (e := mkEnv ef ew em eo) (q' := q') (e' := e') (r := p); auto.
        - unfold set_fs. cbn [step e_w e_mkdir e_open]. rewrite (Cd _ _ _ _ Ts), Sp. exact St.
        - eauto.
        - intros j Nj Pj. destruct (owner _ _ _ _ _ Ok Pj) as (_ & _ & Gj & Rj & _). specialize (Rj []). rewrite app_nil_r in Rj. congruence.
        - congruence.
        - intros z Nz. subst e'. cbn [e_fs]. unfold upd. destruct (path_eq_dec z p) as [->|_]; auto. exfalso. apply (Nz []). symmetry; apply app_nil_r.
        - intros b _. subst e'. cbn [e_fs]. unfold upd. destruct (path_eq_dec p p); [discriminate|congruence].
        - intros s' Es. subst q'. split; auto. split.
          + apply (Next _ _ _ mk0 []).
            * intros mk op. cbn [solo app e_w]. rewrite Cg. subst e'. reflexivity.
            * subst e'. exact Hm.
            * subst e'. apply spends_nil.
          + split; [eauto|]. split; auto. split; [unfold upd; destruct (path_eq_dec p p); congruence|]. split.
            * intros b. rewrite Es. subst e'. cbn [e_fs]. unfold upd. destruct (path_eq_dec (p ++ b) p); auto.
              rewrite Own. destruct (fst s0 (p ++ b)) eqn:E0.
              { exfalso. subst p. rewrite <- app_assoc in E0. cbn in E0. apply (Tree i c b); congruence. }
              destruct (fst s (p ++ b)) eqn:E1; auto. exfalso. subst p. rewrite <- app_assoc in E1. cbn in E1. apply (A3 i c b); congruence.
            * intros z Nz. unfold upd. destruct (path_eq_dec z p) as [->|_]; auto. exfalso. apply (Nz []). symmetry; apply app_nil_r. }
      destruct em as [|[y|] m]; injection St as <- <-.
      * apply (Made [None] []); auto; [|apply (spends_own _ [])]. intros mk op. cbn [app]. now rewrite (Cd _ _ _ _ Tg), Own, S0p.
      * apply (Still (k (Some y)) _ eq_refl) with (mk0 := [Some y]) (op0 := []); auto; [now rewrite Pi| |apply (spends_own _ (Some y :: m))].
        intros mk op. cbn [solo app e_w]. now rewrite (Cd _ _ _ _ Tg), Own, S0p.
      * apply (Made [None] m); auto; [|apply (spends_own _ (None :: m))]. intros mk op. cbn [app]. now rewrite (Cd _ _ _ _ Tg), Own, S0p.
  - destruct Cf as (Pi & Ty & Ck). rewrite Pi in Own. destruct Own as ([Tr [c Ec]] & Fr & Gr & Reg & Rest).
    assert (Sr : fst s p = Some NDir) by (specialize (Reg []); rewrite app_nil_r in Reg; congruence).
    assert (F0 : forall b, fst s0 (p ++ b) = None).
    { intros b. destruct (fst s0 (p ++ b)) eqn:E; auto. exfalso. rewrite Ec, <- app_assoc in E. cbn in E.
      apply (Tree i c b); [auto|congruence|]. now rewrite <- Ec. }
    assert (Bl : forall b, below p (p ++ b) = true) by (intros b; apply below_iff; eauto).
    assert (Nb : forall z, (forall b, z <> p ++ b) -> below p z = false).
    { intros z Nz. destruct (below p z) eqn:E; auto. apply below_iff in E as [b ->]. exfalso. eapply Nz; eauto. }
    set (cut := fun z => below p z && negb (match ev with RmOk => false | RmFail _ kept => kept z end)).
    set (x := match ev with RmOk => None | RmFail k _ => Some k end).
    assert (Rm : forall f, f p = Some NDir -> exists f', remove_dir_all ev p f = (x, f') /\ forall z, f' z = if cut z then None else f z).
    { intros f Hf. unfold remove_dir_all, x, cut. destruct ev as [|y kept].
      - rewrite Hf. eexists. split; [reflexivity|]. intros z. cbn [negb]. now rewrite andb_true_r.
      - eexists. split; [reflexivity|]. reflexivity. }
    destruct (Rm _ Sr) as (f' & R1 & F1), (Rm _ Gr) as (g' & R2 & G1).
    cbn [step] in St. unfold do_remove in St. cbn [set_fs e_fs] in St. rewrite R1 in St. cbn [set_fs e_w e_mkdir e_open] in St. injection St as <- <-.
    exists (at_i i (after ev p) ph), (at_i i g' G).
    assert (Cp : forall z, (forall b, z <> p ++ b) -> cut z = false) by (intros z Nz; unfold cut; now rewrite Nb).
    assert (Go : after ev p = Owns p /\ cut p = false \/ after ev p = Gone /\ forall b, cut (p ++ b) = true).
    { unfold after, cut. destruct ev as [|y kept]; [right; split; auto; intros b; now rewrite Bl|].
      destruct (kept p) eqn:Kp; [left; split; auto; apply andb_false_r|]. right. split; auto. intros b. rewrite Bl.
      destruct (kept (p ++ b)) eqn:Kb; auto. rewrite (Ty _ (Bl b) Kb) in Kp. discriminate. }
    apply act with (q0 := q0) (e0 := e0) (q := PRemove ev p k) (e := e) (q' := k x) (e' := mkEnv f' (e_w e) (e_mkdir e) (e_open e)) (r := p); auto.
    + cbn [step]. unfold do_remove. cbn [set_fs e_fs]. now rewrite R1.
    + eauto.
    + intros j' Nj Pj. apply Nj. eapply A4; eauto.
    + congruence.
    + intros z Nz. cbn [e_fs]. now rewrite F1, Cp.
    + intros b. cbn [e_fs]. rewrite !F1. destruct Go as [[_ ->]|[_ Ca]]; [rewrite Sr; discriminate|]. rewrite Ca. congruence.
    + destruct Go as [[-> _]|[-> Ca]]; auto. right. split; auto. intros b. cbn [e_fs]. now rewrite F1, Ca.
    + intros s' Es. split; auto. split.
      * apply (Next _ _ _ [] []); auto. intros mk op. cbn [solo app e_w]. unfold do_remove. cbn [e_fs]. now rewrite R2.
      * destruct Go as [[-> Ca]|[-> Ca]].
        -- split; [eauto|]. split; auto. split; [now rewrite G1, Ca|]. rewrite Es. cbn [e_fs]. split; [intros b; now rewrite F1, G1, Reg|].
           intros z Nz. rewrite G1, Cp; auto.
        -- intros z. rewrite G1. destruct (below p z) eqn:E; [apply below_iff in E as [b ->]; now rewrite Ca, F0|].
           unfold cut. rewrite E. cbn [andb]. apply Rest. intros b ->. now rewrite Bl in E.
  - destruct Cf as [(r & b & Pi & Ep) Ck]. cbn [step set_fs e_fs] in St. injection St as <- <-.
    apply (Still (k (fst s p)) (set_fs (fst s) e) eq_refl) with (mk0 := []) (op0 := []); auto.
    intros mk op. cbn [solo e_fs app]. rewrite Pi in Own. destruct Own as (_ & _ & _ & Reg & _). subst p. now rewrite Reg.
Qed.

Lemma bases_all : (forall i q e, nth_error (snd s0) i = Some (q, e) -> confined (tb i) (T i) Before q (Q i)) ->
  forall h, exists ph G, all_ok (turns h s0) ph G.
Proof.
  intros H0 h. assert (K : forall h s, (exists ph G, all_ok s ph G) -> exists ph G, all_ok (turns h s) ph G).
  { clear h. induction h as [|i h IH]; intros s (ph & G & Ok); cbn [turns]; [eauto|]. apply IH. eapply turn_bases; eauto. }
  apply K. exists (fun _ => Before), (fun _ => fst s0).
  split; [|split; [|split; [|split; [|split; [|split; [|split]]]]]]; auto; try discriminate.
  intros i q0 e0 q e N0 N1. rewrite N0 in N1. injection N1 as <- <-. split; eauto. split; auto.
  exists [], []. split; auto.
Qed.

End Bases.
