(** Requests with temporary directories, from the upload to the removal, several at once on one disk. *)

From Verif Require Import Bytes Io Boundary Utf8 Httparse Field Rand Fs Save Savedir Together.

(** What a server does with one request: [temp_with_prefix] (src/server/save.rs:248-253), then it reads back some paths in the
    directory, uses the [SaveDir], and ends it.  [l_base] is [std::env::temp_dir()].  [l_rm] is the outcome of the removal of the directory;
    [l_stages] say what is still there at moments before it is over. *)
Record life := mkLife {
  l_trim : bool;
  l_saver : saver;
  l_base : path;
  l_prefix : bytes;
  l_tries : nat;
  l_fuel : nat;
  l_rng : rng;
  l_reader : breader;
  l_looks : list path;
  l_ops : list dir_op;
  l_end : dir_end;
  l_stages : list (path -> bool);
  l_rm : rmevent;
}.

Section WithMime.
Context (ML : mime_lib).

(** The result of saving, what was read back, and the result of [delete]. *)
Definition tale : Type := answer ML * list (option node) * option iokind.

(** The [SaveDir] at the end of the life, with the way it ends.  It is the [Temp] that went into the [Entries] (src/server/save.rs:621, C54);
    if nothing was returned it was dropped with the [Entries]. *)
Definition last_dir {S P} (l : life) (dir : path) (x : sres S P) : dir_end * save_dir :=
  match x with
  | Full _ | Part _ _ => (l_end l, snd (dir_steps (l_ops l) (Temp dir)))
  | _ => (EDrop, Temp dir)
  end.

(** By the functions of [Savedir]. *)
Definition run_life (l : life) (e : env) : tale * env :=
  match tempdir_in (l_tries l) (l_prefix l) (l_base l) (l_rng l) e with
  | (inl dir, g1, e1) =>
      let '(x, g2, r1, e2) := with_temp_dir ML (l_trim l) (l_saver l) dir (l_fuel l) g1 (l_reader l) e1 in
      let '(w, d) := last_dir l dir x in
      let '(y, f) := dir_finish w (l_rm l) d (e_fs e2) in
      (AEntries ML x g2 r1, map (fun q => e_fs e2 (dir ++ q)) (l_looks l), y, set_fs f e2)
  | (inr k, g1, e1) => (AEntries ML (SErr (XDst k)) g1 (l_reader l), [], None, e1)
  end.

(** [tempfile::Builder::tempdir_in] as a program. *)
Fixpoint ptempdir (tries : nat) (prefix : bytes) (base : path) (g : rng) : prog ((path + iokind) * rng) :=
  match tries with
  | 0 => PRet (inr KAlreadyExists, g)
  | S n =>
      let '(name, g1) := random_alphanumeric TEMPDIR_RAND g in
      let p := base ++ [prefix ++ name] in
      PTemp p (fun x =>
        match x with
        | None => PRet (inl p, g1)
        | Some k => if iokind_eqb k KAlreadyExists then ptempdir n prefix base g1 else PRet (inr k, g1)
        end)
  end.

(** Reading paths back, one after the other. *)
Fixpoint plooks (dir : path) (qs : list path) : prog (list (option node)) :=
  match qs with
  | [] => PRet []
  | q :: qs' => PLook (dir ++ q) (fun n => pbind (plooks dir qs') (fun ns => PRet (n :: ns)))
  end.

(** What is left of the directory [p] at a moment during its removal: itself, what is not yet removed, and what will not be. *)
Definition stage (ev : rmevent) (p : path) (st : path -> bool) : path -> bool :=
  fun q => (if path_eq_dec q p then true else false) || st q || match ev with RmOk => false | RmFail _ kept => kept q end.

(** [std::fs::remove_dir_all]: calls of unlink(2) and rmdir(2), in any groups, each of which removes some of the paths in the
    directory; the last one removes the directory or fails. *)
Fixpoint premove (stages : list (path -> bool)) (ev : rmevent) (p : path) : prog (option iokind) :=
  match stages with
  | [] => PRemove ev p (fun x => PRet x)
  | st :: stages' => PRemove (RmFail (KOther 0) (stage ev p st)) p (fun _ => premove stages' ev p)
  end.

(** src/server/save.rs:733-774 and the destructor of [TempDir]: the end of a [SaveDir]. *)
Definition pfinish (w : dir_end) (stages : list (path -> bool)) (ev : rmevent) (d : save_dir) : prog (option iokind) :=
  match w, d with
  | EDrop, Temp p => pbind (premove stages ev p) (fun _ => PRet None)
  | EDelete, Temp p => premove stages ev p
  | EDelete, Perm p => premove stages ev p
  | _, _ => PRet None
  end.

(** The life as a program. *)
Definition plife (wf : nat) (l : life) : prog tale :=
  pbind (ptempdir (l_tries l) (l_prefix l) (l_base l) (l_rng l)) (fun z =>
    let '(y, g1) := z in
    match y with
    | inr k => PRet (AEntries ML (SErr (XDst k)) g1 (l_reader l), [], None)
    | inl dir =>
        pbind (pwith_entries ML wf (l_trim l) (l_saver l) (l_fuel l) (entries_new ML dir true) g1 (l_reader l)) (fun z =>
          let '(x, g2, r1) := z in
          pbind (plooks dir (l_looks l)) (fun ns =>
            let '(w, d) := last_dir l dir x in
            pbind (pfinish w (l_stages l) (l_rm l) d) (fun y => PRet (AEntries ML x g2 r1, ns, y))))
    end).

(** All lives start on the disk [f]. *)
Definition born (f : fs) (ls : list (life * env)) : pool tale :=
  (f, map (fun le => (plife (S (length (e_w (snd le)))) (fst le), snd le)) ls).

End WithMime.
