(** Model of src/server/save.rs: saving fields and whole requests. *)

From Verif Require Import Bytes Io Boundary Utf8 Httparse Field Rand Fs.

Definition U64MAX : N := 18446744073709551615%N.
Definition U32MAX : N := 4294967295%N.

(** [u64::saturating_add]. *)
Definition sat_add (a b : N) : N := N.min (a + b) U64MAX.

(** [io::Error]s by origin: reading the field, writing / opening the destination, reading an entry. *)
Inductive ioerr := XSrc (e : berr) | XDst (k : iokind) | XEntry (e : eerr).

(** [io::Error::kind]. *)
Definition xkind (e : ioerr) : iokind :=
  match e with XSrc e => berr_kind e | XDst k => k | XEntry e => eerr_kind e end.

(** src/server/save.rs:780-797, [PartialReason]. *)
Inductive reason := RCount | RSize | RIo (e : ioerr) | RUtf8.

(** src/server/save.rs:878-889, [SaveResult]; [SPanic] and [SFuel] are the model's own. *)
Inductive sres (S P : Type) := Full (s : S) | Part (p : P) (why : reason) | SErr (e : ioerr) | SPanic | SFuel.
Arguments Full {S P} s.
Arguments Part {S P} p why.
Arguments SErr {S P} e.
Arguments SPanic {S P}.
Arguments SFuel {S P}.

(** src/server/save.rs:916-923, [SaveResult::map] (with [P: Into<S>] given by [into]). *)
Definition smap {S P T} (into : P -> S) (f : S -> T) (x : sres S P) : sres T T :=
  match x with
  | Full s => Full (f s)
  | Part p why => Part (f (into p)) why
  | SErr e => SErr e
  | SPanic => SPanic
  | SFuel => SFuel
  end.

(** src/server/save.rs:983-1017, [try_read_buf].  The closure [with_buf] passes its captured state [w].
    [total] is [total_copied]; it counts bytes consumed from the field, so it cannot overflow [u64]. *)
Fixpoint try_read_buf {W} (with_buf : W -> bytes -> sres nat nat * W) (fuel : nat) (total : N) (w : W) (r : breader)
  : sres N N * W * breader :=
  match fuel with
  | 0 => (SFuel, w, r)
  | S fuel' =>
      match read_to_boundary r with
      | (Ok [], r1) => (Full total, w, r1)
      | (Ok b, r1) =>
          match with_buf w b with
          | (Full n, w1) => try_read_buf with_buf fuel' (total + N.of_nat n)%N w1 (consume n r1)
          | (Part n why, w1) => (Part (total + N.of_nat n)%N why, w1, consume n r1)
          | (SErr e, w1) => (Part total (RIo e), w1, r1)
          | (SPanic, w1) => (SPanic, w1, r1)
          | (SFuel, w1) => (SFuel, w1, r1)
          end
      | (Err e, r1) =>
          if iokind_eqb (berr_kind e) KInterrupted then try_read_buf with_buf fuel' total w r1
          else if (total =? 0)%N then (SErr (XSrc e), w, r1)
          else (Part total (RIo (XSrc e)), w, r1)
      | (Panic, r1) => (SPanic, w, r1)
      | (OutOfFuel, r1) => (SFuel, w, r1)
      end
  end.

(** src/server/save.rs:972-981: the closure that [try_copy_limited] passes to [try_read_buf]; its state
    is [copied] and the state of [with_buf]. *)
Definition limited {W} (limit : N) (with_buf : W -> bytes -> sres nat nat * W) (s : N * W) (b : bytes)
  : sres nat nat * (N * W) :=
  let '(copied, w) := s in
  let new_copied := sat_add copied (N.of_nat (length b)) in
  if (limit <? new_copied)%N then (Part 0 RSize, (copied, w))
  else let '(x, w1) := with_buf w b in (x, (new_copied, w1)).

(** src/server/save.rs:972-981, [try_copy_limited]. *)
Definition try_copy_limited {W} (with_buf : W -> bytes -> sres nat nat * W) (limit : N) (fuel : nat) (w : W) (r : breader)
  : sres N N * W * breader :=
  let '(x, (_, w1), r1) := try_read_buf (limited limit with_buf) fuel 0%N (0%N, w) r in (x, w1, r1).

(** src/server/save.rs:1019-1045, [try_write_all]: the calls of [write] on schedule [sched].  The bytes
    taken are the first [accepted] of the result. *)
Fixpoint try_write_all (sched : list wevent) (buf : bytes) (total : nat) : sres nat nat * list wevent :=
  match buf with
  | [] => (Full total, sched)
  | _ =>
      match sched with
      | [] => (Full (total + length buf), [])
      | WFail k :: s =>
          if iokind_eqb k KInterrupted then try_write_all s buf total
          else if total =? 0 then (SErr (XDst k), s) else (Part total (RIo (XDst k)), s)
      | WAccept n :: s =>
          let m := Nat.min n (length buf) in
          if m =? 0 then (if total =? 0 then (SErr (XDst KWriteZero), s) else (Part total (RIo (XDst KWriteZero)), s))
          else try_write_all s (skipn m buf) (total + m)
      end
  end.

Definition accepted (x : sres nat nat) : nat := match x with Full n | Part n _ => n | _ => 0 end.

(** A writer [W: Write]: the bytes it has taken and its schedule. *)
Record dest := mkDest { d_out : bytes; d_sched : list wevent }.

(** The closure [|buf| try_write_all(buf, &mut dest)] of [write_to] (save.rs:436-439). *)
Definition write_dest (d : dest) (b : bytes) : sres nat nat * dest :=
  let '(x, s) := try_write_all (d_sched d) b 0 in
  (x, mkDest (d_out d ++ firstn (accepted x) b) s).

(** The same for a file. *)
Definition write_file (s : handle * env) (b : bytes) : sres nat nat * (handle * env) :=
  let '(h, e) := s in
  let '(x, ws) := try_write_all (e_w e) b 0 in
  (x, file_put h (firstn (accepted x) b) (mkEnv (e_fs e) ws (e_mkdir e) (e_open e))).

(** src/server/save.rs:60-68, [TextPolicy]. *)
Inductive text_policy := TTry | TForce | TIgnore.

(** src/server/save.rs:124-131, [SaveBuilder] (without [savable]). *)
Record saver := mkSaver {
  s_size_limit : N;
  s_count_limit : N;
  s_threshold : N;
  s_policy : text_policy;
  s_opts : oopts;
}.

(** src/server/save.rs:138-156, [SaveBuilder::new]. *)
Definition default_opts : oopts := mkOpts true false false false.
Definition saver_new : saver := mkSaver (8 * 1024 * 1024) 256 (10 * 1024) TTry default_opts.

(** src/server/save.rs:500-509, [SavedData]. *)
Inductive saved := SText (b : bytes) | SBytes (b : bytes) | SFile (p : path) (size : N).

(** src/server/save.rs:543-550, [add_size]. *)
Definition add_size (d : saved) (n : N) : saved :=
  match d with SFile p size => SFile p (sat_add size n) | d => d end.

(** src/server/save.rs:526-534, [size]. *)
Definition saved_size (d : saved) : N :=
  match d with SText b | SBytes b => N.of_nat (length b) | SFile _ n => n end.

(** src/server/save.rs:537-542, [is_memory]. *)
Definition is_memory (d : saved) : bool := match d with SFile _ _ => false | _ => true end.

(** src/server/save.rs:478-482, [read_mem]: the limit. *)
Definition mem_limit (s : saver) (pre_read : N) : N := N.min (s_size_limit s) (s_threshold s) - pre_read.

(** src/server/save.rs:445, the closure of [save_mem]. *)
Definition mem_buf (w : bytes) (b : bytes) : sres nat nat * bytes := (Full (length b), w ++ b).

(** src/server/save.rs:443-452, [save_mem]. *)
Definition save_mem (s : saver) (fuel : nat) (ob : bytes) (r : breader) : sres bytes bytes * breader :=
  let '(x, w, r1) := try_copy_limited mem_buf (mem_limit s (N.of_nat (length ob))) fuel ob r in
  (match x with
   | Full _ => Full w
   | Part _ why => Part w why
   | SErr e => match w with [] => SErr e | _ => Part w (RIo e) end
   | SPanic => SPanic
   | SFuel => SFuel
   end, r1).

(** src/server/save.rs:458-469, the closure of [save_text]. *)
Definition text_buf (w : bytes) (b : bytes) : sres nat nat * bytes :=
  if valid_utf8 b then (Full (length b), w ++ b)
  else if length b <? 4 then (Part 0 RUtf8, w)
  else (Full (valid_up_to b), w ++ firstn (valid_up_to b) b).

(** src/server/save.rs:454-476, [save_text]. *)
Definition save_text (s : saver) (fuel : nat) (r : breader) : sres bytes bytes * breader :=
  let '(x, w, r1) := try_copy_limited text_buf (mem_limit s 0) fuel [] r in
  (match x with
   | Full _ => Full w
   | Part _ why => Part w why
   | SErr e => SErr e
   | SPanic => SPanic
   | SFuel => SFuel
   end, r1).

(** src/server/save.rs:435-441, [write_to], for any writer given by its closure. *)
Definition write_to {W} (write : W -> bytes -> sres nat nat * W) (s : saver) (fuel : nat) (w : W) (r : breader)
  : sres N N * W * breader :=
  if (s_size_limit s <? U64MAX)%N then try_copy_limited write (s_size_limit s) fuel w r
  else try_read_buf write fuel 0%N w r.

(** src/server/save.rs:484-486, [cmp_size_limit]. *)
Definition cmp_size_limit (s : saver) (size : nat) : bool := (s_size_limit s <=? N.of_nat size)%N.

(** src/server/save.rs:962-970, [create_dir_all] of the parent of [p] (nothing for a path without parent). *)
Definition create_dir_all (p : path) (e : env) : option iokind * env := mkdirs [] (removelast p) e.

(** src/server/save.rs:413-425: the part of [with_path] that uses the disk. *)
Definition save_disk (s : saver) (p : path) (fuel : nat) (ob : bytes) (r : breader) (e : env)
  : sres saved saved * breader * env :=
  match create_dir_all p e with
  | (Some k, e1) => (SErr (XDst k), r, e1)
  | (None, e1) =>
      match open_file (s_opts s) p e1 with
      | (inr k, e2) => (SErr (XDst k), r, e2)
      | (inl h, e2) =>
          let '(x, (h1, e3)) := write_file (h, e2) ob in
          match smap (fun n => n) (fun n => SFile p (N.of_nat n)) x with
          | Full data =>
              let '(y, (_, e4), r1) := write_to write_file s fuel (h1, e3) r in
              (smap (fun n => n) (fun n => add_size data n) y, r1, e4)
          | other => (other, r, e3)
          end
      end
  end.

(** src/server/save.rs:404-425: [with_path] once the text phase is over. *)
Definition save_rest (s : saver) (p : path) (fuel : nat) (ob : bytes) (r : breader) (e : env)
  : sres saved saved * breader * env :=
  match save_mem s fuel ob r with
  | (Full b, r1) => (Full (SBytes b), r1, e)
  | (Part b RSize, r1) =>
      if cmp_size_limit s (length b) then (Part (SBytes b) RSize, r1, e) else save_disk s p fuel b r1 e
  | (Part b why, r1) => (Part (SBytes b) why, r1, e)
  | (SErr x, r1) => (SErr x, r1, e)
  | (SPanic, r1) => (SPanic, r1, e)
  | (SFuel, r1) => (SFuel, r1, e)
  end.

(** src/server/save.rs:394-426, [with_path]. *)
Definition with_path (s : saver) (p : path) (fuel : nat) (r : breader) (e : env) : sres saved saved * breader * env :=
  match s_policy s with
  | TIgnore => save_rest s p fuel [] r e
  | _ =>
      match save_text s fuel r with
      | (Full t, r1) => (Full (SText t), r1, e)
      | (Part t RSize, r1) =>
          if cmp_size_limit s (length t) then (Part (SText t) RSize, r1, e) else save_rest s p fuel t r1 e
      | (Part t RUtf8, r1) =>
          match s_policy s with
          | TForce => (Part (SText t) RUtf8, r1, e)
          | _ => save_rest s p fuel t r1 e
          end
      | (Part t why, r1) => (Part (SText t) why, r1, e)
      | (SErr x, r1) => (SErr x, r1, e)
      | (SPanic, r1) => (SPanic, r1, e)
      | (SFuel, r1) => (SFuel, r1, e)
      end
  end.

(** src/server/save.rs:27-31, [rand_filename]. *)
Definition RANDOM_FILENAME_LEN : nat := 12.
Definition rand_filename (g : rng) : bytes * rng := random_alphanumeric RANDOM_FILENAME_LEN g.

(** src/server/save.rs:379-383, [with_dir] of a field. *)
Definition with_dir (s : saver) (dir : path) (fuel : nat) (g : rng) (r : breader) (e : env)
  : sres saved saved * rng * breader * env :=
  let '(name, g1) := rand_filename g in
  let '(x, r1, e1) := with_path s (dir ++ [name]) fuel r e in
  (x, g1, r1, e1).

(** src/server/save.rs:358-363, [temp] of a field. *)
Definition save_temp (s : saver) (temp_dir : path) (fuel : nat) (g : rng) (r : breader) (e : env) :=
  with_dir s temp_dir fuel g r e.

(** [PathBuf::set_file_name] for a path whose last component is a normal one (true of any real temporary
    directory other than the root): replace it. *)
Definition set_file_name (p : path) (f : bytes) : path := removelast p ++ [f].

(** src/server/save.rs:369-374, [with_filename]. *)
Definition with_filename (s : saver) (temp_dir : path) (f : bytes) (fuel : nat) (r : breader) (e : env) :=
  with_path s (set_file_name temp_dir f) fuel r e.

Section WithMime.
Context (ML : mime_lib).

(** src/server/save.rs:491-498, [SavedField]. *)
Record saved_field := mkSF { sf_headers : field_headers ML; sf_data : saved }.

(** src/server/save.rs:610-625, [Entries]; the [HashMap] as an association list without repeated keys. *)
Record entries := mkEntries {
  en_fields : list (bytes * list saved_field);
  en_dir : path;
  en_temp : bool;
  en_count : N;
}.

(** src/server/save.rs:629-635, [Entries::new]. *)
Definition entries_new (dir : path) (temp : bool) : entries := mkEntries [] dir temp 0.

(** src/server/save.rs:652-657, [recount_fields]. *)
Definition recount_fields (en : entries) : entries :=
  mkEntries (en_fields en) (en_dir en) (en_temp en)
    (N.min U32MAX (N.of_nat (list_sum (map (fun kv => length (snd kv)) (en_fields en))))).

(** [HashMap::entry] with push (save.rs:662-669). *)
Fixpoint push_assoc (l : list (bytes * list saved_field)) (k : bytes) (f : saved_field) : list (bytes * list saved_field) :=
  match l with
  | [] => [(k, [f])]
  | (k', fs) :: l' => if beq k' k then (k', fs ++ [f]) :: l' else (k', fs) :: push_assoc l' k f
  end.

(** src/server/save.rs:659-672, [push_field]. *)
Definition push_field (en : entries) (h : field_headers ML) (d : saved) : entries :=
  mkEntries (push_assoc (en_fields en) (fh_name ML h) (mkSF h d)) (en_dir en) (en_temp en)
    (N.min (en_count en + 1) U32MAX).

(** src/server/save.rs:821-851, [PartialSavedField] and [PartialEntries]. *)
Record partial_entries := mkPE {
  pe_entries : entries;
  pe_partial : option (field_headers ML * option saved);
}.

(** src/server/save.rs:866-875, [keep_partial]. *)
Definition keep_partial (p : partial_entries) : entries :=
  match pe_partial p with
  | Some (h, Some d) => push_field (pe_entries p) h d
  | _ => pe_entries p
  end.

(** src/server/save.rs:298-306, the closure [save_field] (for a builder with the policy of the field). *)
Definition save_field (s : saver) (h : field_headers ML) (en : entries) (fuel : nat) (g : rng) (r : breader) (e : env) :=
  with_dir (mkSaver (s_size_limit s) (s_count_limit s) (s_threshold s)
              (if is_text ML h then s_policy s else TIgnore) (s_opts s))
    (en_dir en) fuel g r e.

(** src/server/save.rs:308-350, the loop of [with_entries]; [res] is the result of the last [read_entry].
    The [Multipart] is handed back (in the code the caller of [Multipart::save] keeps it). *)
Fixpoint entries_loop (trim : bool) (s : saver) (fuel : nat) (res : res eerr (option (field_headers ML)))
    (en : entries) (g : rng) (r : breader) (e : env)
  : sres entries partial_entries * rng * breader * env :=
  match fuel with
  | 0 => (SFuel, g, r, e)
  | S fuel' =>
      if (en_count en <? s_count_limit s)%N then
        match res with
        | Ok (Some h) =>
            match save_field s h en fuel g r e with
            | (Full d, g1, r1, e1) =>
                let '(res', r2) := read_entry ML trim r1 in
                entries_loop trim s fuel' res' (push_field en h d) g1 r2 e1
            | (Part d why, g1, r1, e1) => (Part (mkPE en (Some (h, Some d))) why, g1, r1, e1)
            | (SErr x, g1, r1, e1) => (Part (mkPE en (Some (h, None))) (RIo x), g1, r1, e1)
            | (SPanic, g1, r1, e1) => (SPanic, g1, r1, e1)
            | (SFuel, g1, r1, e1) => (SFuel, g1, r1, e1)
            end
        | Ok None => (Full en, g, r, e)
        | Err x => (Part (mkPE en None) (RIo (XEntry x)), g, r, e)
        | Panic => (SPanic, g, r, e)
        | OutOfFuel => (SFuel, g, r, e)
        end
      else (Part (mkPE en None) RCount, g, r, e)
  end.

(** src/server/save.rs:288-351, [with_entries]. *)
Definition with_entries (trim : bool) (s : saver) (fuel : nat) (en : entries) (g : rng) (r : breader) (e : env) :=
  let '(res, r1) := read_entry ML trim r in
  entries_loop trim s fuel res (recount_fields en) g r1 e.

(** src/server/save.rs:264-270, [with_dir] of a request. *)
Definition entries_with_dir (trim : bool) (s : saver) (dir : path) (fuel : nat) (g : rng) (r : breader) (e : env)
  : sres entries partial_entries * rng * breader * env :=
  match create_dir_all dir e with
  | (Some k, e1) => (SErr (XDst k), g, r, e1)
  | (None, e1) => with_entries trim s fuel (entries_new dir false) g r e1
  end.

End WithMime.

(** src/server/save.rs:928-960: [into_opt_both], [okish], [into_result], [into_result_strict]. *)
Definition into_opt_both {S P} (into : P -> S) (x : sres S P) : option S * option ioerr :=
  match x with
  | Full s => (Some s, None)
  | Part p (RIo e) => (Some (into p), Some e)
  | Part p _ => (Some (into p), None)
  | SErr e => (None, Some e)
  | _ => (None, None)
  end.

Definition okish {S P} (into : P -> S) (x : sres S P) : option S := fst (into_opt_both into x).

Definition into_result {S P} (into : P -> S) (x : sres S P) : res ioerr S :=
  match x with
  | Full s => Ok s
  | Part p _ => Ok (into p)
  | SErr e => Err e
  | SPanic => Panic
  | SFuel => OutOfFuel
  end.

Definition into_result_strict {S P} (into : P -> S) (x : sres S P) : res ioerr S :=
  match x with
  | Full s => Ok s
  | Part _ (RIo e) | SErr e => Err e
  | Part p _ => Ok (into p)
  | SPanic => Panic
  | SFuel => OutOfFuel
  end.

(** src/server/save.rs:511-524, [readable] followed by reading to the end; [None] if the file cannot be
    opened. *)
Definition readable (d : saved) (f : fs) : option bytes :=
  match d with
  | SText b | SBytes b => Some b
  | SFile p _ => match f p with Some (NFile c) => Some c | _ => None end
  end.
