(** The results handed to the user and their conversions: [ReadEntryResult] (src/server/field.rs:468-532),
    [PartialReason] and [SaveResult] (src/server/save.rs:785-924), iterating by value with [into_entry] and
    [next_entry], and [Entries::write_debug]. *)

From Verif Require Import Bytes Io Boundary Utf8 Httparse Field Inplace Rand Fs Save Client.

(** A call that may panic: the message given to [panic!] up to the [{:?}] of the last argument, and that
    argument.  (How [Debug] shows an error is not modelled.) *)
Inductive outcome (X A : Type) := Returns (a : A) | Panics (msg : bytes) (arg : option X).
Arguments Returns {X A}.
Arguments Panics {X A}.

(** ** ReadEntryResult *)

(** src/server/field.rs:470-477. *)
Inductive rentry (M E : Type) := REntry (e : E) | REnd (m : M) | RError (m : M) (k : eerr).
Arguments REntry {M E}.
Arguments REnd {M E}.
Arguments RError {M E}.

Section Conversions.
Context {M E : Type}.

(** src/server/field.rs:485-491. *)
Definition rentry_result (x : rentry M E) : res eerr (option E) :=
  match x with
  | REntry e => Ok (Some e)
  | REnd _ => Ok None
  | RError _ k => Err k
  end.

(** src/server/field.rs:510-516. *)
Definition expect_alt (end_msg err_msg : bytes) (x : rentry M E) : outcome eerr E :=
  match x with
  | REntry e => Returns e
  | REnd _ => Panics end_msg None
  | RError _ k => Panics (err_msg ++ bs ": ") (Some k)
  end.

(** src/server/field.rs:494-499. *)
Definition rentry_unwrap : rentry M E -> outcome eerr E :=
  expect_alt (bs "`ReadEntryResult::unwrap()` called on `End` value")
             (bs "`ReadEntryResult::unwrap()` called on `Error` value: {:?}").

(** src/server/field.rs:503-505. *)
Definition rentry_expect (msg : bytes) : rentry M E -> outcome eerr E := expect_alt msg msg.

(** src/server/field.rs:525-531. *)
Definition expect_opt (msg : bytes) (x : rentry M E) : outcome eerr (option E) :=
  match x with
  | REntry e => Returns (Some e)
  | REnd _ => Returns None
  | RError _ k => Panics (msg ++ bs ": ") (Some k)
  end.

(** src/server/field.rs:519-521. *)
Definition unwrap_opt : rentry M E -> outcome eerr (option E) :=
  expect_opt (bs "`ReadEntryResult::unwrap_opt()` called on `Error` value").

End Conversions.

Section WithMime.
Context (ML : mime_lib).

(** src/server/mod.rs:130-132, [into_entry] by [ReadEntry::read_entry] (src/server/field.rs:386-415) on the
    [Multipart] itself, which is kept in the field or handed back.  The result is [None] if [read_entry] panics. *)
Definition into_entry (trim : bool) (r : breader) : option (rentry breader (mfield ML)) :=
  match read_entry ML trim r with
  | (Ok (Some h), r1) => Some (REntry (mkMF ML h (Some r1)))
  | (Ok None, r1) => Some (REnd r1)
  | (Err k, r1) => Some (RError r1 k)
  | _ => None
  end.

(** src/server/field.rs:246-248, [next_entry]: [into_inner] (field.rs:301-303) panics without [inner]. *)
Definition next_entry (trim : bool) (f : mfield ML) : option (rentry breader (mfield ML)) :=
  match mf_inner ML f with
  | Some r => into_entry trim r
  | None => None
  end.

(** The loop [while let Some(mut field) = res.unwrap_opt() { ...; res = field.next_entry() }]: reading by
    value, as an alternative to [foreach_entry].  [f n h] are the calls made on the [n]-th field.  The result
    is the outcome of the last [unwrap_opt] and the visits; [None] for the outcome is a panic of [read_entry] or
    of a call on the field, or the end of the fuel. *)
Fixpoint owned_loop (trim : bool) (f : nat -> field_headers ML -> list op) (fuel n : nat)
    (x : option (rentry breader (mfield ML)))
  : option (outcome eerr unit) * list (field_headers ML * list (option (obs ML))) :=
  match fuel with
  | 0 => (None, [])
  | S fuel' =>
      match x with
      | None => (None, [])
      | Some x =>
          match unwrap_opt x with
          | Panics msg arg => (Some (Panics msg arg), [])
          | Returns None => (Some (Returns tt), [])
          | Returns (Some field) =>
              let '(os, field1) := frun ML trim (f n (mf_headers ML field)) field in
              let '(y, l) := owned_loop trim f fuel' (S n) (next_entry trim field1) in
              (y, (mf_headers ML field, os) :: l)
          end
      end
  end.

(** src/server/save.rs:856-860, [Into<Entries> for PartialEntries]. *)
Definition pe_into (p : partial_entries ML) : entries ML := pe_entries ML p.

(** src/server/save.rs:902-907, [into_entries]. *)
Definition into_entries (x : sres (entries ML) (partial_entries ML)) : option (entries ML) :=
  match x with
  | Full en => Some en
  | Part p _ => Some (pe_entries ML p)
  | _ => None
  end.

End WithMime.

(** ** PartialReason: src/server/save.rs:819-824 and 813-815. *)
Definition expect_err (msg : bytes) (why : reason) : outcome reason ioerr :=
  match why with
  | RIo e => Returns e
  | _ => Panics (msg ++ bs ": ") (Some why)
  end.

Definition unwrap_err : reason -> outcome reason ioerr := expect_err (bs "`PartialReason` was not `IoError`").

(** src/server/save.rs:918-924, [SaveResult::map]. *)
Definition save_map {S P T} (into : P -> S) (f : S -> T) (x : sres S P) : sres T T :=
  match x with
  | Full s => Full (f s)
  | Part p why => Part (f (into p)) why
  | SErr e => SErr e
  | SPanic => SPanic
  | SFuel => SFuel
  end.

(** ** Entries::write_debug *)

(** [std::io::Write::write_all] on a writer that took [out] and whose next calls do what [sched] says: retries interrupted calls, [Ok(0)] is an error. *)
Fixpoint std_write_all (sched : list wevent) (buf out : bytes) : option iokind * dest :=
  match buf with
  | [] => (None, mkDest out sched)
  | _ =>
      match sched with
      | [] => (None, mkDest (out ++ buf) [])
      | WFail k :: s =>
          if iokind_eqb k KInterrupted then std_write_all s buf out else (Some k, mkDest out s)
      | WAccept n :: s =>
          let m := Nat.min n (length buf) in
          if m =? 0 then (Some KWriteZero, mkDest out s)
          else std_write_all s (skipn m buf) (out ++ firstn m buf)
      end
  end.

Definition dest_write_all (d : dest) (buf : bytes) : option iokind * dest := std_write_all (d_sched d) buf (d_out d).

Section Debug.
Context (ML : mime_lib).
(** The formatting of the standard library: [Debug] of a name, a file name and a content type, [Display] of a number. *)
Context (show_name : bytes -> bytes) (show_file : option bytes -> bytes) (show_type : option (mime ML) -> bytes) (show_num : nat -> bytes).
(** The files, what reading each of them returns and the error of opening a path that is no file. *)
Context (f : fs) (reads : path -> transport) (no_file : path -> iokind).
(** The [write_all] of the writer. *)
Context {W : Type} (write : W -> bytes -> option iokind * W).

(** src/server/save.rs:513-523, [readable], as a source for [io::copy]. *)
Definition debug_source (d : saved) : iokind + transport :=
  match d with
  | SText b | SBytes b => inr (slice_source b)
  | SFile p _ => match f p with Some (NFile _) => inr (reads p) | _ => inl (no_file p) end
  end.

(** src/server/save.rs:686-691, the inner loop. *)
Fixpoint debug_fields (idx : nat) (l : list (saved_field ML)) (w : W) : option iokind * W :=
  match l with
  | [] => (None, w)
  | x :: l' =>
      match debug_source (sf_data ML x) with
      | inl k => (Some k, w)
      | inr t =>
          chain (write_pieces write
                   [show_num idx; bs ": "; show_file (fh_filename ML (sf_headers ML x)); bs " (";
                    show_type (fh_ctype ML (sf_headers ML x)); bs "):" ++ [LF]])
            (chain (io_copy write t) (debug_fields (S idx) l')) w
      end
  end.

(** src/server/save.rs:682-695, [write_debug]; [order] is the order in which the [HashMap] is traversed. *)
Fixpoint write_debug (order : list (bytes * list (saved_field ML))) (w : W) : option iokind * W :=
  match order with
  | [] => (None, w)
  | (name, l) :: order' =>
      chain (write_pieces write [bs "Field "; show_name name; bs " has "; show_num (length l); bs " entries:" ++ [LF]])
        (chain (debug_fields 0 l) (write_debug order')) w
  end.

End Debug.
