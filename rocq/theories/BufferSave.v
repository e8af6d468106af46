(** Saving through the finite buffer.

    [Save] is written for the reader of [Boundary], whose buffer has always room.  Here the same functions are given for
    any reader [R] with [read_to_boundary], [consume] and [read_entry]; with those of [Boundary] and [Field] they are
    the ones of [Save] ([gwith_entries_same] and the lemmas before it, by computation), and with those of [Buffer] they are
    saving as it really happens, through the 8 KiB of [buf_redux]. *)

From Verif Require Import Bytes Io Boundary Utf8 Httparse Field Drive Rand Fs Save Buffer.

Section Reader.
Context {R : Type} (rtb : R -> res berr bytes * R) (scons : nat -> R -> R).

(** src/server/save.rs:983-1017, [try_read_buf].  The closure [with_buf] passes its captured state [w].
    [total] is [total_copied]; it counts bytes consumed from the field, so it cannot overflow [u64]. *)
Fixpoint gtry_read_buf {W} (with_buf : W -> bytes -> sres nat nat * W) (fuel : nat) (total : N) (w : W) (r : R)
  : sres N N * W * R :=
  match fuel with
  | 0 => (SFuel, w, r)
  | S fuel' =>
      match rtb r with
      | (Ok [], r1) => (Full total, w, r1)
      | (Ok b, r1) =>
          match with_buf w b with
          | (Full n, w1) => gtry_read_buf with_buf fuel' (total + N.of_nat n)%N w1 (scons n r1)
          | (Part n why, w1) => (Part (total + N.of_nat n)%N why, w1, scons n r1)
          | (SErr e, w1) => (Part total (RIo e), w1, r1)
          | (SPanic, w1) => (SPanic, w1, r1)
          | (SFuel, w1) => (SFuel, w1, r1)
          end
      | (Err e, r1) =>
          if iokind_eqb (berr_kind e) KInterrupted then gtry_read_buf with_buf fuel' total w r1
          else if (total =? 0)%N then (SErr (XSrc e), w, r1)
          else (Part total (RIo (XSrc e)), w, r1)
      | (Panic, r1) => (SPanic, w, r1)
      | (OutOfFuel, r1) => (SFuel, w, r1)
      end
  end.

(** src/server/save.rs:972-981, [try_copy_limited]. *)
Definition gtry_copy_limited {W} (with_buf : W -> bytes -> sres nat nat * W) (limit : N) (fuel : nat) (w : W) (r : R)
  : sres N N * W * R :=
  let '(x, (_, w1), r1) := gtry_read_buf (limited limit with_buf) fuel 0%N (0%N, w) r in (x, w1, r1).

(** src/server/save.rs:443-452, [save_mem]. *)
Definition gsave_mem (s : saver) (fuel : nat) (ob : bytes) (r : R) : sres bytes bytes * R :=
  let '(x, w, r1) := gtry_copy_limited mem_buf (mem_limit s (N.of_nat (length ob))) fuel ob r in
  (match x with
   | Full _ => Full w
   | Part _ why => Part w why
   | SErr e => match w with [] => SErr e | _ => Part w (RIo e) end
   | SPanic => SPanic
   | SFuel => SFuel
   end, r1).

(** src/server/save.rs:454-476, [save_text]. *)
Definition gsave_text (s : saver) (fuel : nat) (r : R) : sres bytes bytes * R :=
  let '(x, w, r1) := gtry_copy_limited text_buf (mem_limit s 0) fuel [] r in
  (match x with
   | Full _ => Full w
   | Part _ why => Part w why
   | SErr e => SErr e
   | SPanic => SPanic
   | SFuel => SFuel
   end, r1).

(** src/server/save.rs:435-441, [write_to], for any writer given by its closure. *)
Definition gwrite_to {W} (write : W -> bytes -> sres nat nat * W) (s : saver) (fuel : nat) (w : W) (r : R)
  : sres N N * W * R :=
  if (s_size_limit s <? U64MAX)%N then gtry_copy_limited write (s_size_limit s) fuel w r
  else gtry_read_buf write fuel 0%N w r.

(** src/server/save.rs:413-425: the part of [with_path] that uses the disk. *)
Definition gsave_disk (s : saver) (p : path) (fuel : nat) (ob : bytes) (r : R) (e : env)
  : sres saved saved * R * env :=
  match create_dir_all p e with
  | (Some k, e1) => (SErr (XDst k), r, e1)
  | (None, e1) =>
      match open_file (s_opts s) p e1 with
      | (inr k, e2) => (SErr (XDst k), r, e2)
      | (inl h, e2) =>
          let '(x, (h1, e3)) := write_file (h, e2) ob in
          match smap (fun n => n) (fun n => SFile p (N.of_nat n)) x with
          | Full data =>
              let '(y, (_, e4), r1) := gwrite_to write_file s fuel (h1, e3) r in
              (smap (fun n => n) (fun n => add_size data n) y, r1, e4)
          | other => (other, r, e3)
          end
      end
  end.

(** src/server/save.rs:404-425: [with_path] once the text phase is over. *)
Definition gsave_rest (s : saver) (p : path) (fuel : nat) (ob : bytes) (r : R) (e : env)
  : sres saved saved * R * env :=
  match gsave_mem s fuel ob r with
  | (Full b, r1) => (Full (SBytes b), r1, e)
  | (Part b RSize, r1) =>
      if cmp_size_limit s (length b) then (Part (SBytes b) RSize, r1, e) else gsave_disk s p fuel b r1 e
  | (Part b why, r1) => (Part (SBytes b) why, r1, e)
  | (SErr x, r1) => (SErr x, r1, e)
  | (SPanic, r1) => (SPanic, r1, e)
  | (SFuel, r1) => (SFuel, r1, e)
  end.

(** src/server/save.rs:394-426, [with_path]. *)
Definition gwith_path (s : saver) (p : path) (fuel : nat) (r : R) (e : env) : sres saved saved * R * env :=
  match s_policy s with
  | TIgnore => gsave_rest s p fuel [] r e
  | _ =>
      match gsave_text s fuel r with
      | (Full t, r1) => (Full (SText t), r1, e)
      | (Part t RSize, r1) =>
          if cmp_size_limit s (length t) then (Part (SText t) RSize, r1, e) else gsave_rest s p fuel t r1 e
      | (Part t RUtf8, r1) =>
          match s_policy s with
          | TForce => (Part (SText t) RUtf8, r1, e)
          | _ => gsave_rest s p fuel t r1 e
          end
      | (Part t why, r1) => (Part (SText t) why, r1, e)
      | (SErr x, r1) => (SErr x, r1, e)
      | (SPanic, r1) => (SPanic, r1, e)
      | (SFuel, r1) => (SFuel, r1, e)
      end
  end.

(** src/server/save.rs:379-383, [with_dir] of a field. *)
Definition gwith_dir (s : saver) (dir : path) (fuel : nat) (g : rng) (r : R) (e : env)
  : sres saved saved * rng * R * env :=
  let '(name, g1) := rand_filename g in
  let '(x, r1, e1) := gwith_path s (dir ++ [name]) fuel r e in
  (x, g1, r1, e1).

Section WithMime.
Context (ML : mime_lib) (entry : bool -> R -> res eerr (option (field_headers ML)) * R).

(** src/server/save.rs:298-306, the closure [save_field] (for a builder with the policy of the field). *)
Definition gsave_field (s : saver) (h : field_headers ML) (en : entries ML) (fuel : nat) (g : rng) (r : R) (e : env) :=
  gwith_dir (mkSaver (s_size_limit s) (s_count_limit s) (s_threshold s)
              (if is_text ML h then s_policy s else TIgnore) (s_opts s))
    (en_dir ML en) fuel g r e.

(** src/server/save.rs:308-350, the loop of [with_entries]; [res] is the result of the last [read_entry].
    The [Multipart] is handed back (in the code the caller of [Multipart::save] keeps it). *)
Fixpoint gentries_loop (trim : bool) (s : saver) (fuel : nat) (res : res eerr (option (field_headers ML)))
    (en : entries ML) (g : rng) (r : R) (e : env)
  : sres (entries ML) (partial_entries ML) * rng * R * env :=
  match fuel with
  | 0 => (SFuel, g, r, e)
  | S fuel' =>
      if (en_count ML en <? s_count_limit s)%N then
        match res with
        | Ok (Some h) =>
            match gsave_field s h en fuel g r e with
            | (Full d, g1, r1, e1) =>
                let '(res', r2) := entry trim r1 in
                gentries_loop trim s fuel' res' (push_field ML en h d) g1 r2 e1
            | (Part d why, g1, r1, e1) => (Part (mkPE ML en (Some (h, Some d))) why, g1, r1, e1)
            | (SErr x, g1, r1, e1) => (Part (mkPE ML en (Some (h, None))) (RIo x), g1, r1, e1)
            | (SPanic, g1, r1, e1) => (SPanic, g1, r1, e1)
            | (SFuel, g1, r1, e1) => (SFuel, g1, r1, e1)
            end
        | Ok None => (Full en, g, r, e)
        | Err x => (Part (mkPE ML en None) (RIo (XEntry x)), g, r, e)
        | Panic => (SPanic, g, r, e)
        | OutOfFuel => (SFuel, g, r, e)
        end
      else (Part (mkPE ML en None) RCount, g, r, e)
  end.

(** src/server/save.rs:288-351, [with_entries]. *)
Definition gwith_entries (trim : bool) (s : saver) (fuel : nat) (en : entries ML) (g : rng) (r : R) (e : env) :=
  let '(res, r1) := entry trim r in
  gentries_loop trim s fuel res (recount_fields ML en) g r1 e.

(** src/server/save.rs:264-270, [with_dir] of a request. *)
Definition gentries_with_dir (trim : bool) (s : saver) (dir : path) (fuel : nat) (g : rng) (r : R) (e : env)
  : sres (entries ML) (partial_entries ML) * rng * R * env :=
  match create_dir_all dir e with
  | (Some k, e1) => (SErr (XDst k), g, r, e1)
  | (None, e1) => gwith_entries trim s fuel (entries_new ML dir false) g r e1
  end.

End WithMime.
End Reader.

(** With the reader of [Boundary] and [Field] these are the functions of [Save]. *)
Lemma gwrite_to_same : @gwrite_to breader read_to_boundary consume = @write_to.
Proof. reflexivity. Qed.

Lemma gwith_path_same : gwith_path read_to_boundary consume = with_path.
Proof. reflexivity. Qed.

Lemma gwith_entries_same ML : gwith_entries read_to_boundary consume ML (read_entry ML) = with_entries ML.
Proof. reflexivity. Qed.

Lemma gentries_with_dir_same ML : gentries_with_dir read_to_boundary consume ML (read_entry ML) = entries_with_dir ML.
Proof. reflexivity. Qed.

(** src/server/save.rs:394-426, 435-441, 288-351 and 264-270 through the finite buffer. *)
Definition fwrite_to {W} := @gwrite_to freader fread_to_boundary fconsume W.
Definition fwith_path := gwith_path fread_to_boundary fconsume.
Definition fwith_entries (ML : mime_lib) := gwith_entries fread_to_boundary fconsume ML (fread_entry ML).
Definition fentries_with_dir (ML : mime_lib) := gentries_with_dir fread_to_boundary fconsume ML (fread_entry ML).

(** Histories of a request: reading and saving in any order (each call takes [&mut Multipart] or the field that borrows it). *)
Section Histories.
Context (ML : mime_lib).

Inductive ucall :=
| UOps (os : list op)
| UPath (s : saver) (p : path) (fuel : nat)
| UWriter (s : saver) (d : dest) (fuel : nat)
| URequest (s : saver) (en : entries ML) (g : rng) (fuel : nat).

Inductive uanswer :=
| VOps (l : list (obs ML))
| VPath (x : sres saved saved)
| VWriter (x : sres N N) (d : dest)
| VRequest (x : sres (entries ML) (partial_entries ML)) (g : rng).

(** Over any reader, given what the operations of [Drive] do. *)
Section Any.
Context {R : Type} (rtb : R -> res berr bytes * R) (scons : nat -> R -> R)
  (entry : bool -> R -> res eerr (option (field_headers ML)) * R) (ops : bool -> list op -> R -> list (obs ML) * R).

Definition gcall (trim : bool) (k : ucall) (r : R) (e : env) : uanswer * R * env :=
  match k with
  | UOps os => let '(l, r1) := ops trim os r in (VOps l, r1, e)
  | UPath s p fuel => let '(x, r1, e1) := gwith_path rtb scons s p fuel r e in (VPath x, r1, e1)
  | UWriter s d fuel => let '(x, d1, r1) := gwrite_to rtb scons write_dest s fuel d r in (VWriter x d1, r1, e)
  | URequest s en g fuel => let '(x, g1, r1, e1) := gwith_entries rtb scons ML entry trim s fuel en g r e in (VRequest x g1, r1, e1)
  end.

Fixpoint gcalls (trim : bool) (ks : list ucall) (r : R) (e : env) : list uanswer * R * env :=
  match ks with
  | [] => ([], r, e)
  | k :: ks' =>
      let '(a, r1, e1) := gcall trim k r e in
      let '(l, r2, e2) := gcalls trim ks' r1 e1 in (a :: l, r2, e2)
  end.
End Any.

Definition ucalls := gcalls read_to_boundary consume (read_entry ML) (run ML).
Definition fcalls := gcalls fread_to_boundary fconsume (fread_entry ML) (frun ML).

End Histories.
