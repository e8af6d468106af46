(** Model of the middleware [Intercept] of src/server/iron.rs. *)

From Verif Require Import Bytes Io Boundary Field Rand Fs Save Savedir.

(** src/server/iron.rs:72-95, [Intercept]; [ic_continue] is [limit_behavior == Continue]. *)
Record intercept := mkIntercept { ic_temp : option path; ic_size : N; ic_count : N; ic_continue : bool }.

(** src/server/iron.rs:38-41, 189-198, [Default for Intercept]. *)
Definition intercept_default : intercept := mkIntercept None (2 * 1024 * 1024) 16 false.

Section WithMime.
Context (ML : mime_lib).

(** The errors of src/server/iron.rs:129-181: [io_to_iron] with its message, [FileCountLimitError] (257),
    [FileSizeLimitError] (229-232). *)
Inductive iron_error :=
| ITempDir (k : iokind)
| IMidway (e : ioerr)
| IStart (e : ioerr)
| ICountLimit (n : N)
| ISizeLimit (h : field_headers ML).

(** [multipart.save().size_limit(..).count_limit(..)] (iron.rs:142-143, 162-163, 172-173). *)
Definition iron_saver (ic : intercept) : saver := count_limit (Some (ic_count ic)) (size_limit (Some (ic_size ic)) saver_new).

(** The entries that go out of scope are dropped and with them their directory; [ev] is that removal. *)
Definition dropped (ev : rmevent) (p : partial_entries ML) (e : env) : env :=
  set_fs (drop_dir ev (dir_of (pe_entries ML p)) (e_fs e)) e.

(** src/server/iron.rs:141-159, [read_request_strict]; [unreachable!] and [expect] are [Panic]
    (unwinding drops the entries). *)
Definition read_request_strict (trim : bool) (ic : intercept) (ev : rmevent) (dir : path) (fuel : nat) (g : rng) (r : breader) (e : env)
  : res iron_error (option (entries ML)) * env :=
  match with_temp_dir ML trim (iron_saver ic) dir fuel g r e with
  | (Full en, _, _, e1) => (Ok (Some en), e1)
  | (Part p RUtf8, _, _, e1) => (Panic, dropped ev p e1)
  | (Part p (RIo x), _, _, e1) => (Err (IMidway x), dropped ev p e1)
  | (Part p RCount, _, _, e1) => (Err (ICountLimit (ic_count ic)), dropped ev p e1)
  | (Part p RSize, _, _, e1) =>
      match pe_partial ML p with
      | Some (h, _) => (Err (ISizeLimit h), dropped ev p e1)
      | None => (Panic, dropped ev p e1)
      end
  | (SErr x, _, _, e1) => (Err (IStart x), e1)
  | (SPanic, _, _, e1) => (Panic, e1)
  | (SFuel, _, _, e1) => (OutOfFuel, e1)
  end.

(** src/server/iron.rs:170-180, the [loop] of [read_request_lenient].  [rounds] bounds its iterations. *)
Fixpoint lenient_loop (trim : bool) (ic : intercept) (ev : rmevent) (rounds fuel : nat) (en : entries ML) (g : rng) (r : breader) (e : env)
  : res iron_error (option (entries ML)) * env :=
  match rounds with
  | 0 => (OutOfFuel, e)
  | S n =>
      match with_entries ML trim (iron_saver ic) fuel en g r e with
      | (Full en1, _, _, e1) => (Ok (Some en1), e1)
      | (Part p (RIo x), _, _, e1) => (Err (IMidway x), dropped ev p e1)
      | (Part p _, g1, r1, e1) => lenient_loop trim ic ev n fuel (keep_partial ML p) g1 r1 e1
      | (SErr x, _, _, e1) => (Err (IStart x), e1)
      | (SPanic, _, _, e1) => (Panic, e1)
      | (SFuel, _, _, e1) => (OutOfFuel, e1)
      end
  end.

(** src/server/iron.rs:161-181, [read_request_lenient]. *)
Definition read_request_lenient (trim : bool) (ic : intercept) (ev : rmevent) (dir : path) (rounds fuel : nat) (g : rng) (r : breader) (e : env)
  : res iron_error (option (entries ML)) * env :=
  match with_temp_dir ML trim (iron_saver ic) dir fuel g r e with
  | (Full en, _, _, e1) => (Ok (Some en), e1)
  | (Part p (RIo x), _, _, e1) => (Err (IMidway x), dropped ev p e1)
  | (Part p _, g1, r1, e1) => lenient_loop trim ic ev rounds fuel (keep_partial ML p) g1 r1 e1
  | (SErr x, _, _, e1) => (Err (IStart x), e1)
  | (SPanic, _, _, e1) => (Panic, e1)
  | (SFuel, _, _, e1) => (OutOfFuel, e1)
  end.

(** src/server/iron.rs:122-139, [read_request], of a request with boundary [b] (the result of
    [multipart_boundary]) and body [t]. *)
Definition read_request (trim : bool) (ic : intercept) (ev : rmevent) (os_temp : path) (tries rounds fuel : nat) (g : rng)
    (b : option bytes) (t : transport) (e : env) : res iron_error (option (entries ML)) * env :=
  match b with
  | None => (Ok None, e)
  | Some b =>
      let base := match ic_temp ic with Some p => p | None => os_temp end in
      match tempdir_in tries (bs "multipart-iron") base g e with
      | (inr k, _, e1) => (Err (ITempDir k), e1)
      | (inl dir, g1, e1) =>
          if ic_continue ic then read_request_lenient trim ic ev dir rounds fuel g1 (with_body t b) e1
          else read_request_strict trim ic ev dir fuel g1 (with_body t b) e1
      end
  end.

End WithMime.
