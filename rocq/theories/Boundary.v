(** Model of src/server/boundary.rs. *)

From Verif Require Import Bytes Io.

(** src/server/boundary.rs:24 *)
Definition MIN_BUF_SIZE : nat := 1024.

(** src/server/boundary.rs:26-31 *)
Inductive bstate := Searching | BoundaryRead | AtEnd.

Definition bstate_eqb (a b : bstate) : bool :=
  match a, b with
  | Searching, Searching | BoundaryRead, BoundaryRead | AtEnd, AtEnd => true
  | _, _ => false
  end.

(** src/server/boundary.rs:35-40.  The fields [buf], [src], [minb] are the [BufReader<R, MinBuffered>]
    in [source]: its buffered bytes, the transport it wraps, and the policy's parameter. *)
Record breader := mkBR {
  buf : bytes;
  src : transport;
  minb : nat;
  bnd : bytes;          (* [boundary], with the leading "--" *)
  idx : nat;            (* [search_idx] *)
  st : bstate;
}.

Definition set_idx_st (r : breader) (i : nat) (s : bstate) : breader :=
  mkBR (buf r) (src r) (minb r) (bnd r) i s.
Definition set_source (r : breader) (b : bytes) (t : transport) : breader :=
  mkBR b t (minb r) (bnd r) (idx r) (st r).

(** Errors of the reader: [ETransport k] is an error returned by the transport; the others are created
    at boundary.rs:125-126, 158-159 and 170-174. *)
Inductive berr :=
| ETransport (k : iokind)
| EEndOfBody                  (* "unexpected end of request body" *)
| EShortBoundary              (* "not enough bytes to verify boundary" *)
| EBadBoundary (a b : byte).  (* "unexpected bytes following multipart boundary" *)

(** [io::Error::kind]. *)
Definition berr_kind (e : berr) : iokind :=
  match e with
  | ETransport k => k
  | EEndOfBody | EShortBoundary => KUnexpectedEof
  | EBadBoundary _ _ => KInvalidData
  end.

(** Outcome of a call: a value, an [io::Error], a panic (out-of-range slice or failed
    [debug_assert_eq!]), or fuel exhausted in a loop (proved impossible). *)
Inductive res (E A : Type) :=
| Ok (a : A)
| Err (e : E)
| Panic
| OutOfFuel.
Arguments Ok {E A} a.
Arguments Err {E A} e.
Arguments Panic {E A}.
Arguments OutOfFuel {E A}.

(** src/server/boundary.rs:200-215.  [inl i] is [Ok(i)], [inr y] is [Err(y)]. *)
Fixpoint find_fragment (b boundary : bytes) (i : nat) (n : nat) : nat :=
  (* lines 208-214: [for i in search_start .. buf.len()], [n] iterations left *)
  match n with
  | 0 => length b
  | S n' => if starts_with boundary (skipn i b) then i
            else find_fragment b boundary (S i) n'
  end.

Definition find_boundary (b boundary : bytes) : nat + nat :=
  match find_bytes b boundary with
  | Some i => inl i
  | None =>
      let search_start := length b - length boundary in   (* saturating_sub *)
      inr (find_fragment b boundary search_start (length b - search_start))
  end.

(** src/server/boundary.rs:44-55, [BoundaryReader::from_reader]. *)
Definition from_reader (t : transport) (boundary : bytes) : breader :=
  mkBR [] t MIN_BUF_SIZE (DASHES ++ boundary) 0 Searching.

(** Lines 69-98 of [read_to_boundary] in state [Searching]: search, then back up over a CRLF.
    [None] is an out-of-range slice. *)
Definition search_step (b boundary : bytes) (i : nat) : option (nat * bstate) :=
  let '(i1, s1) :=
    if i <? length b
    then match find_boundary (skipn i b) boundary with
         | inl found => (i + found, BoundaryRead)
         | inr yield => (i + yield, Searching)
         end
    else (i, Searching) in
  if length b <? i1 then None
  else if (2 <=? i1) && negb (starts_with (skipn i1 b) CRLF) && beq (slice (i1 - 2) i1 b) CRLF
       then Some (i1 - 2, s1)
       else Some (i1, s1).

(** src/server/boundary.rs:57-105, [read_to_boundary]; also [BufRead::fill_buf], 251-253. *)
Definition read_to_boundary (r : breader) : res berr bytes * breader :=
  let '(e, b, t) := fill_buf (minb r) (buf r) (src r) in
  let r1 := set_source r b t in
  match e with
  | Some k => (Err (ETransport k), r1)
  | None =>
      match st r with
      | BoundaryRead | AtEnd =>
          if length b <? idx r then (Panic, r1) else (Ok (firstn (idx r) b), r1)
      | Searching =>
          match search_step b (bnd r) (idx r) with
          | None => (Panic, r1)
          | Some (i, s) => (Ok (firstn i b), set_idx_st r1 i s)
          end
      end
  end.

(** src/server/boundary.rs:107-112, [set_min_buf_size]. *)
Definition set_min_buf_size (n : nat) (r : breader) : breader :=
  mkBR (buf r) (src r) (Nat.max (length (bnd r) * 2) n) (bnd r) (idx r) (st r).

(** src/server/boundary.rs:255-262, [BufRead::consume].  [BufReader::consume] clips to what is buffered. *)
Definition consume (amt : nat) (r : breader) : breader :=
  let true_amt := Nat.min amt (idx r) in
  mkBR (skipn true_amt (buf r)) (src r) (minb r) (bnd r) (idx r - true_amt) (st r).

(** src/server/boundary.rs:237-248, [Read::read] with an output slice of length [n]. *)
Definition read (n : nat) (r : breader) : res berr bytes * breader :=
  match read_to_boundary r with
  | (Ok b, r1) => let out := firstn n b in (Ok out, consume (length out) r1)
  | (Err e, r1) => (Err e, r1)
  | (Panic, r1) => (Panic, r1)
  | (OutOfFuel, r1) => (OutOfFuel, r1)
  end.

(** src/server/boundary.rs:119-132, the loop of [consume_boundary]. *)
Fixpoint skip_to_boundary (fuel : nat) (r : breader) : res berr unit * breader :=
  match st r with
  | Searching =>
      match fuel with
      | 0 => (OutOfFuel, r)
      | S fuel' =>
          match read_to_boundary r with
          | (Ok b, r1) =>
              if (length b =? 0) && bstate_eqb (st r1) Searching
              then (Err EEndOfBody, r1)
              else skip_to_boundary fuel' (consume (length b) r1)
          | (Err e, r1) => (Err e, r1)
          | (Panic, r1) => (Panic, r1)
          | (OutOfFuel, r1) => (OutOfFuel, r1)
          end
      end
  | _ => (Ok tt, r)
  end.

(** src/server/boundary.rs:134-195, the rest of [consume_boundary]. *)
Definition verify_boundary (r : breader) : res berr bool * breader :=
  let '(e, b, t) := fill_buf (minb r) (buf r) (src r) in
  let r1 := set_source r b t in
  match e with
  | Some k => (Err (ETransport k), r1)
  | None =>
      let nb := length (bnd r) in
      if length b <? idx r then (Panic, r1)               (* &buf[search_idx..] *)
      else
        let seg := skipn (idx r) b in
        let lead := if starts_with seg CRLF then 2 else 0 in
        (* the slices in debug_assert_eq!, lines 148 and 151 *)
        if length seg <? lead + nb then (Panic, r1)
        else if negb (beq (bnd r) (slice lead (lead + nb) seg)) then (Panic, r1)
        else
          let amt := idx r + nb + lead + 2 in
          if length b <? amt then (Err EShortBoundary, r1)
          else
            match slice (amt - 2) amt b with
            | [x; y] =>
                let s' := if N.eqb x CR && N.eqb y LF then Some Searching
                          else if N.eqb x DASH && N.eqb y DASH then Some AtEnd
                          else None in
                match s' with
                | Some s2 =>
                    (Ok (negb (bstate_eqb s2 AtEnd)),
                     mkBR (skipn amt b) t (minb r) (bnd r) 0 s2)
                | None => (Err (EBadBoundary x y), set_idx_st r1 (idx r) Searching)
                end
            | _ => (Panic, r1)
            end
  end.

(** src/server/boundary.rs:114-196, [consume_boundary]. *)
Definition consume_boundary (r : breader) : res berr bool * breader :=
  match st r with
  | AtEnd => (Ok false, r)
  | _ =>
      match skip_to_boundary (length (buf r) + length (stream (src r)) + 2) r with
      | (Ok _, r1) => verify_boundary r1
      | (Err e, r1) => (Err e, r1)
      | (Panic, r1) => (Panic, r1)
      | (OutOfFuel, r1) => (OutOfFuel, r1)
      end
  end.
