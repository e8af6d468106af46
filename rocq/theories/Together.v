(** Several saves at once on one disk.

    [Fs] assumes that nothing else changes the file system while the code runs.  Here saving is written as a program
    whose only contact with the outside are single system calls on the disk: making one directory, opening a file, one
    call of [write], making a temporary directory, reading a file back, removing a
    directory.  Between two calls of one program any number of calls of others may happen.  Run alone, the
    programs are the functions of [Save] (TogetherProofs.v).

    Reading from the connection and the random draws are private to each save and happen between the calls.  Nobody
    renames anything.  [remove_dir_all] is a number of calls (see [Lives.premove]), each of which removes some of the paths: the
    [rmevent] says which are left. *)

From Verif Require Import Bytes Io Boundary Utf8 Httparse Field Rand Fs Save Savedir.

(** A program that gives an [A]. *)
Inductive prog (A : Type) :=
| PRet (a : A)
| PDir (p : path) (last : bool) (k : option iokind -> prog A)
| POpen (o : oopts) (p : path) (k : handle + iokind -> prog A)
| PWrite (h : handle) (b : bytes) (k : (nat + iokind) * handle -> prog A)
| PTemp (p : path) (k : option iokind -> prog A)
| PRemove (ev : rmevent) (p : path) (k : option iokind -> prog A)
| PLook (p : path) (k : option node -> prog A).
Arguments PRet {A} a.
Arguments PDir {A} p last k.
Arguments POpen {A} o p k.
Arguments PWrite {A} h b k.
Arguments PTemp {A} p k.
Arguments PRemove {A} ev p k.
Arguments PLook {A} p k.

Fixpoint pbind {A B} (q : prog A) (f : A -> prog B) : prog B :=
  match q with
  | PRet a => f a
  | PDir p l k => PDir p l (fun x => pbind (k x) f)
  | POpen o p k => POpen o p (fun x => pbind (k x) f)
  | PWrite h b k => PWrite h b (fun x => pbind (k x) f)
  | PTemp p k => PTemp p (fun x => pbind (k x) f)
  | PRemove ev p k => PRemove ev p (fun x => pbind (k x) f)
  | PLook p k => PLook p (fun x => pbind (k x) f)
  end.

(** ** The system calls *)

(** One step of [std::fs::create_dir_all]: mkdir(2), where a directory that is there already is no error ([last]: the last
    component, see [Fs.mkdirs]). *)
Definition do_dir (p : path) (last : bool) (e : env) : option iokind * env :=
  match e_fs e p with
  | Some NDir => (None, e)
  | Some (NFile _) => (Some (if last then KAlreadyExists else KOther 20), e)
  | None =>
      match e_mkdir e with
      | Some k :: m => (Some k, mkEnv (e_fs e) (e_w e) m (e_open e))
      | None :: m => (None, mkEnv (upd (e_fs e) p (Some NDir)) (e_w e) m (e_open e))
      | [] => (None, set_fs (upd (e_fs e) p (Some NDir)) e)
      end
  end.

(** One call of [File::write] (write(2)). *)
Definition do_write (h : handle) (b : bytes) (e : env) : (nat + iokind) * handle * env :=
  let e1 := mkEnv (e_fs e) (tl (e_w e)) (e_mkdir e) (e_open e) in
  match e_w e with
  | WFail k :: _ => (inr k, h, e1)
  | WAccept n :: _ =>
      let m := Nat.min n (length b) in
      if m =? 0 then (inl 0, h, e1) else let '(h1, e2) := file_put h (firstn m b) e1 in (inl m, h1, e2)
  | [] => let '(h1, e2) := file_put h b e1 in (inl (length b), h1, e2)
  end.

(** A step of [remove_dir_all], as in [Savedir]. *)
Definition do_remove (ev : rmevent) (p : path) (e : env) : option iokind * env :=
  let '(x, f) := remove_dir_all ev p (e_fs e) in (x, set_fs f e).

(** One call of a program. *)
Definition step {A} (q : prog A) (e : env) : prog A * env :=
  match q with
  | PRet a => (PRet a, e)
  | PDir p l k => let '(x, e1) := do_dir p l e in (k x, e1)
  | POpen o p k => let '(x, e1) := open_file o p e in (k x, e1)
  | PWrite h b k => let '(x, e1) := do_write h b e in (k x, e1)
  | PTemp p k => let '(x, e1) := create_dir p e in (k x, e1)
  | PRemove ev p k => let '(x, e1) := do_remove ev p e in (k x, e1)
  | PLook p k => (k (e_fs e p), e)
  end.

(** A program on its own. *)
Fixpoint solo {A} (q : prog A) (e : env) : A * env :=
  match q with
  | PRet a => (a, e)
  | PDir p l k => let '(x, e1) := do_dir p l e in solo (k x) e1
  | POpen o p k => let '(x, e1) := open_file o p e in solo (k x) e1
  | PWrite h b k => let '(x, e1) := do_write h b e in solo (k x) e1
  | PTemp p k => let '(x, e1) := create_dir p e in solo (k x) e1
  | PRemove ev p k => let '(x, e1) := do_remove ev p e in solo (k x) e1
  | PLook p k => solo (k (e_fs e p)) e
  end.

(** ** Many programs

    Each has its own schedule of failures; of its [env] the file system is not used.  A schedule says whose turn it is. *)
Definition pool (A : Type) : Type := fs * list (prog A * env).

Fixpoint set_nth {X} (i : nat) (x : X) (l : list X) : list X :=
  match l, i with
  | [], _ => []
  | _ :: l', 0 => x :: l'
  | y :: l', S i' => y :: set_nth i' x l'
  end.

Definition turn {A} (i : nat) (s : pool A) : pool A :=
  match nth_error (snd s) i with
  | Some (q, e) => let '(q1, e1) := step q (set_fs (fst s) e) in (e_fs e1, set_nth i (q1, e1) (snd s))
  | None => s
  end.

Fixpoint turns {A} (sched : list nat) (s : pool A) : pool A :=
  match sched with
  | [] => s
  | i :: sched' => turns sched' (turn i s)
  end.

(** ** Saving as a program

    [wf] bounds the number of calls of [write] for one buffer. *)

(** src/server/save.rs:1019-1045, [try_write_all]. *)
Fixpoint pwrite_all (wf : nat) (h : handle) (b : bytes) (total : nat) : prog (sres nat nat * handle) :=
  match b with
  | [] => PRet (Full total, h)
  | _ =>
      match wf with
      | 0 => PRet (SFuel, h)
      | S wf' =>
          PWrite h b (fun xh =>
            let '(x, h1) := xh in
            match x with
            | inr k =>
                if iokind_eqb k KInterrupted then pwrite_all wf' h1 b total
                else if total =? 0 then PRet (SErr (XDst k), h1) else PRet (Part total (RIo (XDst k)), h1)
            | inl m =>
                if m =? 0 then (if total =? 0 then PRet (SErr (XDst KWriteZero), h1) else PRet (Part total (RIo (XDst KWriteZero)), h1))
                else pwrite_all wf' h1 (skipn m b) (total + m)
            end)
      end
  end.

(** src/server/save.rs:983-1017, [try_read_buf], with a closure that writes to the disk. *)
Fixpoint ptry_read_buf {W} (with_buf : W -> bytes -> prog (sres nat nat * W)) (fuel : nat) (total : N) (w : W) (r : breader)
  : prog (sres N N * W * breader) :=
  match fuel with
  | 0 => PRet (SFuel, w, r)
  | S fuel' =>
      match read_to_boundary r with
      | (Ok [], r1) => PRet (Full total, w, r1)
      | (Ok b, r1) =>
          pbind (with_buf w b) (fun xw =>
            match xw with
            | (Full n, w1) => ptry_read_buf with_buf fuel' (total + N.of_nat n)%N w1 (consume n r1)
            | (Part n why, w1) => PRet (Part (total + N.of_nat n)%N why, w1, consume n r1)
            | (SErr e, w1) => PRet (Part total (RIo e), w1, r1)
            | (SPanic, w1) => PRet (SPanic, w1, r1)
            | (SFuel, w1) => PRet (SFuel, w1, r1)
            end)
      | (Err e, r1) =>
          if iokind_eqb (berr_kind e) KInterrupted then ptry_read_buf with_buf fuel' total w r1
          else if (total =? 0)%N then PRet (SErr (XSrc e), w, r1)
          else PRet (Part total (RIo (XSrc e)), w, r1)
      | (Panic, r1) => PRet (SPanic, w, r1)
      | (OutOfFuel, r1) => PRet (SFuel, w, r1)
      end
  end.

(** src/server/save.rs:972-981, the closure of [try_copy_limited]. *)
Definition plimited {W} (limit : N) (with_buf : W -> bytes -> prog (sres nat nat * W)) (s : N * W) (b : bytes)
  : prog (sres nat nat * (N * W)) :=
  let '(copied, w) := s in
  let new_copied := sat_add copied (N.of_nat (length b)) in
  if (limit <? new_copied)%N then PRet (Part 0 RSize, (copied, w))
  else pbind (with_buf w b) (fun xw => let '(x, w1) := xw in PRet (x, (new_copied, w1))).

(** src/server/save.rs:435-441, [write_to] on a file. *)
Definition pwrite_to (wf : nat) (s : saver) (fuel : nat) (h : handle) (r : breader) : prog (sres N N * breader) :=
  if (s_size_limit s <? U64MAX)%N
  then pbind (ptry_read_buf (plimited (s_size_limit s) (fun h b => pwrite_all wf h b 0)) fuel 0%N (0%N, h) r)
         (fun z => let '(x, _, r1) := z in PRet (x, r1))
  else pbind (ptry_read_buf (fun h b => pwrite_all wf h b 0) fuel 0%N h r) (fun z => let '(x, _, r1) := z in PRet (x, r1)).

(** [std::fs::create_dir_all], as in [Fs.mkdirs]. *)
Fixpoint pmkdirs (done todo : path) : prog (option iokind) :=
  match todo with
  | [] => PRet None
  | c :: t =>
      PDir (done ++ [c]) (match t with [] => true | _ => false end)
        (fun x => match x with None => pmkdirs (done ++ [c]) t | Some k => PRet (Some k) end)
  end.

(** src/server/save.rs:962-970, [create_dir_all]. *)
Definition pcreate_dir_all (p : path) : prog (option iokind) := pmkdirs [] (removelast p).

(** src/server/save.rs:413-425: the part of [with_path] that uses the disk. *)
Definition psave_disk (wf : nat) (s : saver) (p : path) (fuel : nat) (ob : bytes) (r : breader) : prog (sres saved saved * breader) :=
  pbind (pcreate_dir_all p) (fun x =>
    match x with
    | Some k => PRet (SErr (XDst k), r)
    | None =>
        POpen (s_opts s) p (fun y =>
          match y with
          | inr k => PRet (SErr (XDst k), r)
          | inl h =>
              pbind (pwrite_all wf h ob 0) (fun xh =>
                let '(x, h1) := xh in
                match smap (fun n => n) (fun n => SFile p (N.of_nat n)) x with
                | Full data =>
                    pbind (pwrite_to wf s fuel h1 r) (fun yr =>
                      let '(y, r1) := yr in PRet (smap (fun n => n) (fun n => add_size data n) y, r1))
                | other => PRet (other, r)
                end)
          end)
    end).

(** src/server/save.rs:404-425: [with_path] once the text phase is over. *)
Definition psave_rest (wf : nat) (s : saver) (p : path) (fuel : nat) (ob : bytes) (r : breader) : prog (sres saved saved * breader) :=
  match save_mem s fuel ob r with
  | (Full b, r1) => PRet (Full (SBytes b), r1)
  | (Part b RSize, r1) =>
      if cmp_size_limit s (length b) then PRet (Part (SBytes b) RSize, r1) else psave_disk wf s p fuel b r1
  | (Part b why, r1) => PRet (Part (SBytes b) why, r1)
  | (SErr x, r1) => PRet (SErr x, r1)
  | (SPanic, r1) => PRet (SPanic, r1)
  | (SFuel, r1) => PRet (SFuel, r1)
  end.

(** src/server/save.rs:394-426, [with_path]. *)
Definition pwith_path (wf : nat) (s : saver) (p : path) (fuel : nat) (r : breader) : prog (sres saved saved * breader) :=
  match s_policy s with
  | TIgnore => psave_rest wf s p fuel [] r
  | _ =>
      match save_text s fuel r with
      | (Full t, r1) => PRet (Full (SText t), r1)
      | (Part t RSize, r1) =>
          if cmp_size_limit s (length t) then PRet (Part (SText t) RSize, r1) else psave_rest wf s p fuel t r1
      | (Part t RUtf8, r1) =>
          match s_policy s with
          | TForce => PRet (Part (SText t) RUtf8, r1)
          | _ => psave_rest wf s p fuel t r1
          end
      | (Part t why, r1) => PRet (Part (SText t) why, r1)
      | (SErr x, r1) => PRet (SErr x, r1)
      | (SPanic, r1) => PRet (SPanic, r1)
      | (SFuel, r1) => PRet (SFuel, r1)
      end
  end.

(** src/server/save.rs:379-383, [with_dir] of a field. *)
Definition pwith_dir (wf : nat) (s : saver) (dir : path) (fuel : nat) (g : rng) (r : breader) : prog (sres saved saved * rng * breader) :=
  let '(name, g1) := rand_filename g in
  pbind (pwith_path wf s (dir ++ [name]) fuel r) (fun xr => let '(x, r1) := xr in PRet (x, g1, r1)).

Section WithMime.
Context (ML : mime_lib).

(** src/server/save.rs:298-306, the closure [save_field]. *)
Definition psave_field (wf : nat) (s : saver) (h : field_headers ML) (en : entries ML) (fuel : nat) (g : rng) (r : breader) :=
  pwith_dir wf (mkSaver (s_size_limit s) (s_count_limit s) (s_threshold s) (if is_text ML h then s_policy s else TIgnore) (s_opts s))
    (en_dir ML en) fuel g r.

(** src/server/save.rs:308-350, the loop of [with_entries]. *)
Fixpoint pentries_loop (wf : nat) (trim : bool) (s : saver) (fuel : nat) (res : res eerr (option (field_headers ML)))
    (en : entries ML) (g : rng) (r : breader) : prog (sres (entries ML) (partial_entries ML) * rng * breader) :=
  match fuel with
  | 0 => PRet (SFuel, g, r)
  | S fuel' =>
      if (en_count ML en <? s_count_limit s)%N then
        match res with
        | Ok (Some h) =>
            pbind (psave_field wf s h en fuel g r) (fun z =>
              match z with
              | (Full d, g1, r1) =>
                  let '(res', r2) := read_entry ML trim r1 in
                  pentries_loop wf trim s fuel' res' (push_field ML en h d) g1 r2
              | (Part d why, g1, r1) => PRet (Part (mkPE ML en (Some (h, Some d))) why, g1, r1)
              | (SErr x, g1, r1) => PRet (Part (mkPE ML en (Some (h, None))) (RIo x), g1, r1)
              | (SPanic, g1, r1) => PRet (SPanic, g1, r1)
              | (SFuel, g1, r1) => PRet (SFuel, g1, r1)
              end)
        | Ok None => PRet (Full en, g, r)
        | Err x => PRet (Part (mkPE ML en None) (RIo (XEntry x)), g, r)
        | Panic => PRet (SPanic, g, r)
        | OutOfFuel => PRet (SFuel, g, r)
        end
      else PRet (Part (mkPE ML en None) RCount, g, r)
  end.

(** src/server/save.rs:288-351, [with_entries]. *)
Definition pwith_entries (wf : nat) (trim : bool) (s : saver) (fuel : nat) (en : entries ML) (g : rng) (r : breader) :=
  let '(res, r1) := read_entry ML trim r in
  pentries_loop wf trim s fuel res (recount_fields ML en) g r1.

(** src/server/save.rs:264-270, [with_dir] of a request. *)
Definition pentries_with_dir (wf : nat) (trim : bool) (s : saver) (dir : path) (fuel : nat) (g : rng) (r : breader)
  : prog (sres (entries ML) (partial_entries ML) * rng * breader) :=
  pbind (pcreate_dir_all dir) (fun x =>
    match x with
    | Some k => PRet (SErr (XDst k), g, r)
    | None => pwith_entries wf trim s fuel (entries_new ML dir false) g r
    end).

(** What can be going on at the same time: a field saved to a path, a request saved into its [Entries] or into a
    directory. *)
Inductive job :=
| JField (s : saver) (p : path) (fuel : nat) (r : breader)
| JEntries (trim : bool) (s : saver) (fuel : nat) (en : entries ML) (g : rng) (r : breader)
| JDir (trim : bool) (s : saver) (dir : path) (fuel : nat) (g : rng) (r : breader).

Inductive answer :=
| AField (x : sres saved saved) (r : breader)
| AEntries (x : sres (entries ML) (partial_entries ML)) (g : rng) (r : breader).

Definition job_saver (j : job) : saver :=
  match j with JField s _ _ _ => s | JEntries _ s _ _ _ _ => s | JDir _ s _ _ _ _ => s end.

(** The job by the functions of [Save]. *)
Definition run_job (j : job) (e : env) : answer * env :=
  match j with
  | JField s p fuel r => let '(x, r1, e1) := with_path s p fuel r e in (AField x r1, e1)
  | JEntries trim s fuel en g r => let '(x, g1, r1, e1) := with_entries ML trim s fuel en g r e in (AEntries x g1 r1, e1)
  | JDir trim s dir fuel g r => let '(x, g1, r1, e1) := entries_with_dir ML trim s dir fuel g r e in (AEntries x g1 r1, e1)
  end.

(** The job as a program. *)
Definition job_prog (wf : nat) (j : job) : prog answer :=
  match j with
  | JField s p fuel r => pbind (pwith_path wf s p fuel r) (fun z => let '(x, r1) := z in PRet (AField x r1))
  | JEntries trim s fuel en g r => pbind (pwith_entries wf trim s fuel en g r) (fun z => let '(x, g1, r1) := z in PRet (AEntries x g1 r1))
  | JDir trim s dir fuel g r => pbind (pentries_with_dir wf trim s dir fuel g r) (fun z => let '(x, g1, r1) := z in PRet (AEntries x g1 r1))
  end.

(** All jobs start on the disk [f]; each with its schedule (the number of [write] calls for a buffer is then no bound). *)
Definition start (f : fs) (js : list (job * env)) : pool answer :=
  (f, map (fun je => (job_prog (S (length (e_w (snd je)))) (fst je), snd je)) js).

End WithMime.
