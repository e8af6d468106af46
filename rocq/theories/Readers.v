(** Readers handed to the user: reading a field to the end ([Read::read_to_end], [read_to_string] on
    [MultipartData]) and the reader of saved data ([SavedData::readable], [DataReader]). *)

From Verif Require Import Bytes Io Boundary Utf8 Httparse Field Fs Save.

(** [std::io::Read::read_to_end] on the data of a field (its [read] is src/server/field.rs:328-332, and
    src/server/boundary.rs:237-248 below it): call [read] with some non-empty buffer until [Ok(0)], retry
    if interrupted, return at any other error; what was read is appended to the vector, also before an
    error.  [sz k] is the size of the buffer of the [k]-th call: the growth policy of the vector is not modelled. *)
Fixpoint read_to_end (fuel : nat) (sz : nat -> nat) (k : nat) (r : breader) (v : bytes) : res berr unit * bytes * breader :=
  match fuel with
  | 0 => (OutOfFuel, v, r)
  | S fuel' =>
      match read (sz k) r with
      | (Ok [], r1) => (Ok tt, v, r1)
      | (Ok out, r1) => read_to_end fuel' sz (S k) r1 (v ++ out)
      | (Err e, r1) => match berr_kind e with KInterrupted => read_to_end fuel' sz (S k) r1 v | _ => (Err e, v, r1) end
      | (Panic, r1) => (Panic, v, r1)
      | (OutOfFuel, r1) => (OutOfFuel, v, r1)
      end
  end.

(** The errors of [read_to_string]: of the reader, or [InvalidData] from the standard library. *)
Inductive serr := SRead (e : berr) | SInvalid.

(** [PrivReadEntry::read_to_string], src/server/field.rs:442-449, with [std::io::Read::read_to_string]
    inlined: the bytes become the string if all of them are valid UTF-8; the string is dropped on error. *)
Definition read_to_string (fuel : nat) (sz : nat -> nat) (r : breader) : res serr bytes * breader :=
  match read_to_end fuel sz 0 r [] with
  | (Ok _, v, r1) => (if valid_utf8 v then Ok v else Err SInvalid, r1)
  | (Err e, _, r1) => (Err (SRead e), r1)
  | (Panic, _, r1) => (Panic, r1)
  | (OutOfFuel, _, r1) => (OutOfFuel, r1)
  end.

(** ** src/server/save.rs:569-575, [DataReader].  The file below the [BufReader]
    (that of buf_redux with its default policy, save.rs:9, which behaves as the standard one) is a transport:
    what its remaining reads return. *)
Inductive dreader := DBytes (b : bytes) | DFile (avail : bytes) (t : transport).

(** src/server/save.rs:510-521, [readable]; [t] is what reading the opened file will return. *)
Definition open_data (d : saved) (f : fs) (t : transport) : option dreader :=
  match d with
  | SText b | SBytes b => Some (DBytes b)
  | SFile p _ => match f p with Some (NFile _) => Some (DFile [] t) | _ => None end
  end.

(** One [read(2)] of at most [n] bytes. *)
Definition file_read (n : nat) (t : transport) : res iokind bytes * transport :=
  match t with
  | [] => (Ok [], [])
  | Fail k :: t' => (Err k, t')
  | Chunk c :: t' => (Ok (firstn n c), if length c <=? n then t' else Chunk (skipn n c) :: t')
  end.

(** A [BufReader] has a buffer of 8 KiB. *)
Definition STD_BUF : nat := N.to_nat 8192.

(** src/server/save.rs:588-596, [fill_buf]. *)
Definition data_fill (d : dreader) : res iokind bytes * dreader :=
  match d with
  | DBytes b => (Ok b, d)
  | DFile [] t =>
      match file_read STD_BUF t with
      | (Ok c, t') => (Ok c, DFile c t')
      | (Err k, t') => (Err k, DFile [] t')
      | (Panic, t') => (Panic, DFile [] t')
      | (OutOfFuel, t') => (OutOfFuel, DFile [] t')
      end
  | DFile a t => (Ok a, d)
  end.

(** src/server/save.rs:598-606, [consume]: on a slice it is [&self[amt..]], which panics beyond the end;
    [BufReader] stops at the end of its buffer. *)
Definition data_consume (n : nat) (d : dreader) : res iokind dreader :=
  match d with
  | DBytes b => if n <=? length b then Ok (DBytes (skipn n b)) else Panic
  | DFile a t => Ok (DFile (skipn n a) t)
  end.

(** src/server/save.rs:577-586, [read]: from the slice; the [BufReader] bypasses its empty buffer when asked
    for at least a buffer of data. *)
Definition data_read (n : nat) (d : dreader) : res iokind bytes * dreader :=
  match d with
  | DBytes b => (Ok (firstn n b), DBytes (skipn n b))
  | DFile a t =>
      match a with
      | [] =>
          if STD_BUF <=? n then
            let '(x, t') := file_read n t in (x, DFile [] t')
          else
            match file_read STD_BUF t with
            | (Ok c, t') => (Ok (firstn n c), DFile (skipn n c) t')
            | (x, t') => (x, DFile [] t')
            end
      | _ => (Ok (firstn n a), DFile (skipn n a) t)
      end
  end.

(** Programs over the reader. *)
Inductive dop := DRead (n : nat) | DFill | DConsume (n : nat).

(** What was handed over for good by one call: the bytes read, or the bytes consumed. *)
Definition data_step (o : dop) (d : dreader) : res iokind bytes * bytes * dreader :=
  match o with
  | DRead n => let '(x, d1) := data_read n d in (x, match x with Ok out => out | _ => [] end, d1)
  | DFill => let '(x, d1) := data_fill d in (x, [], d1)
  | DConsume n =>
      match data_consume n d with
      | Ok d1 => (Ok [], match d with DBytes b => firstn n b | DFile a _ => firstn n a end, d1)
      | _ => (Panic, [], d)
      end
  end.

(** A sequence of calls; errors do not stop it, a panic does. *)
Fixpoint data_run (os : list dop) (d : dreader) : list (res iokind bytes) * bytes * dreader :=
  match os with
  | [] => ([], [], d)
  | o :: os' =>
      match data_step o d with
      | (Panic, out, d1) => ([Panic], out, d1)
      | (x, out, d1) => let '(xs, out', d2) := data_run os' d1 in (x :: xs, out ++ out', d2)
      end
  end.
