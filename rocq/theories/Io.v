(** I/O errors, the transport (an arbitrary [R: Read]) and the buffered reader of [buf_redux]. *)

From Verif Require Import Bytes.

(** [std::io::ErrorKind]; [KOther n] stands for every kind the code does not single out. *)
Inductive iokind :=
| KInterrupted | KUnexpectedEof | KInvalidData | KWriteZero | KAlreadyExists | KOther (n : N).

Definition iokind_eqb (a b : iokind) : bool :=
  match a, b with
  | KInterrupted, KInterrupted | KUnexpectedEof, KUnexpectedEof | KInvalidData, KInvalidData
  | KWriteZero, KWriteZero | KAlreadyExists, KAlreadyExists => true
  | KOther n, KOther m => N.eqb n m
  | _, _ => false
  end.

(** Result of one [Read::read] call of the transport: [Chunk b] is [Ok(b.len())] having stored [b]
    ([Chunk []] is [Ok(0)], i.e. end of file at that moment), [Fail k] is [Err] of kind [k].
    A transport is the list of its future results; the empty list is end of file for ever.
    Simplification: a chunk is never larger than the room in the buffer; since chunk sizes are
    arbitrary this loses no behaviour, a real run with a truncated read is the run whose transport
    list has the truncated chunk. *)
Inductive revent := Chunk (b : bytes) | Fail (k : iokind).
Definition transport := list revent.

(** All bytes that the transport will deliver. *)
Fixpoint stream (t : transport) : bytes :=
  match t with
  | [] => []
  | Chunk b :: t' => b ++ stream t'
  | Fail _ :: t' => stream t'
  end.

(** [buf_redux::BufReader::fill_buf] with policy [MinBuffered(min)] (external crate, by contract):
    while fewer than [min] bytes are buffered, read once more; stop at [Ok(0)]; an error is
    propagated, keeping what was buffered.  The buffer always has room: capacity is 8 KiB or [min] if
    larger, and data is moved to the front when needed (true as long as [2 * min <= 8192], see Buffer.v and C88). *)
Fixpoint fill_buf (min : nat) (buf : bytes) (t : transport) : option iokind * bytes * transport :=
  if min <=? length buf then (None, buf, t)
  else match t with
       | [] => (None, buf, [])
       | Chunk [] :: t' => (None, buf, t')
       | Chunk c :: t' => fill_buf min (buf ++ c) t'
       | Fail k :: t' => (Some k, buf, t')
       end.
