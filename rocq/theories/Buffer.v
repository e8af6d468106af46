(** The reader with the finite buffer it really has.

    [Io.fill_buf] assumes that there is always room in the buffer of [buf_redux::BufReader].  Here the buffer of
    [source] (src/server/boundary.rs:36, 47) has a capacity, its data a place in it, and a read asks the transport for
    at most the room behind the data.  [buf_redux] 0.8 (Cargo.toml:31, without [slice-deque]) is not part of the
    repository: [before_read], [read_some] and [ffill] are its documented behaviour ([policy::MinBuffered],
    [Buffer::{make_room, reserve, usable_space, free_space}], [BufReader::fill_buf]).  Simplification: [reserve] gives
    exactly the capacity asked for.  The other functions are those of [Boundary] and [Field] over this buffer. *)

From Verif Require Import Bytes Io Boundary Httparse Field Drive.

(** The capacity of the buffer and the place of its data ([fill_buf] never sees bytes outside). *)
Record room := mkRoom { cap : nat; off : nat }.

(** [Buffer::usable_space]: behind the data.  [Buffer::free_space]: all that is not data. *)
Definition usable_space (m : room) (b : bytes) : nat := cap m - (off m + length b).
Definition free_space (m : room) (b : bytes) : nat := cap m - length b.

(** [MinBuffered::before_read]: whether to read, after moving the data to the front or growing the buffer. *)
Definition before_read (min : nat) (m : room) (b : bytes) : bool * room :=
  if min <=? length b then (false, m)
  else if (usable_space m b <? min) && (min <=? free_space m b) then (true, mkRoom (cap m) 0)
  else if cap m <? min then (true, mkRoom min (off m))
  else (true, m).

(** [Read::read] of the transport with [n] bytes of room: a longer chunk is delivered in pieces. *)
Definition read_some (n : nat) (t : transport) : (bytes + iokind) * transport :=
  match t with
  | [] => (inl [], [])
  | Chunk c :: t' => if length c <=? n then (inl c, t') else (inl (firstn n c), Chunk (skipn n c) :: t')
  | Fail k :: t' => (inr k, t')
  end.

(** [BufReader::fill_buf]: [while self.should_read() && self.buf.usable_space() > 0 { if self.read_into_buf()? == 0 { break } }].
    [None]: fuel exhausted (never, see [ffill_total]). *)
Fixpoint ffill (fuel min : nat) (m : room) (b : bytes) (t : transport) : option (option iokind * bytes * transport * room) :=
  match fuel with
  | 0 => None
  | S fuel' =>
      let '(go, m1) := before_read min m b in
      if go && (0 <? usable_space m1 b) then
        match read_some (usable_space m1 b) t with
        | (inr k, t1) => Some (Some k, b, t1, m1)
        | (inl [], t1) => Some (None, b, t1, m1)
        | (inl c, t1) => ffill fuel' min m1 (b ++ c) t1
        end
      else Some (None, b, t, m1)
  end.

(** [BoundaryReader] (src/server/boundary.rs:35-40) with the room of its buffer. *)
Record freader := mkFR { fr : breader; fm : room }.

(** [fill_buf] of [source], as called at boundary.rs:58 and 135. *)
Definition fsource (f : freader) : option (option iokind * freader) :=
  let r := fr f in
  match ffill (S (length (src r) + length (stream (src r)))) (minb r) (fm f) (buf r) (src r) with
  | Some (e, b, t, m) => Some (e, mkFR (set_source r b t) m)
  | None => None
  end.

(** [BufReader::consume]: the data begins further behind; an empty buffer begins at the front ([Buffer::check_cursors]). *)
Definition moved_on (amt : nat) (b : bytes) (m : room) : room :=
  mkRoom (cap m) (if length b <=? amt then 0 else off m + amt).

(** src/server/boundary.rs:44-55, [from_reader]; [c] is [buf_redux]'s [DEFAULT_BUF_SIZE]. *)
Definition ffrom_reader (c : nat) (t : transport) (boundary : bytes) : freader :=
  mkFR (from_reader t boundary) (mkRoom c 0).

(** src/server/boundary.rs:57-105, [read_to_boundary]. *)
Definition fread_to_boundary (f : freader) : res berr bytes * freader :=
  match fsource f with
  | None => (OutOfFuel, f)
  | Some (Some k, f1) => (Err (ETransport k), f1)
  | Some (None, f1) =>
      let r1 := fr f1 in
      match st r1 with
      | BoundaryRead | AtEnd =>
          if length (buf r1) <? idx r1 then (Panic, f1) else (Ok (firstn (idx r1) (buf r1)), f1)
      | Searching =>
          match search_step (buf r1) (bnd r1) (idx r1) with
          | None => (Panic, f1)
          | Some (i, s) => (Ok (firstn i (buf r1)), mkFR (set_idx_st r1 i s) (fm f1))
          end
      end
  end.

(** src/server/boundary.rs:107-112, [set_min_buf_size]. *)
Definition fset_min (n : nat) (f : freader) : freader := mkFR (set_min_buf_size n (fr f)) (fm f).

(** src/server/boundary.rs:255-262, [BufRead::consume]. *)
Definition fconsume (amt : nat) (f : freader) : freader :=
  mkFR (consume amt (fr f)) (moved_on (Nat.min amt (idx (fr f))) (buf (fr f)) (fm f)).

(** src/server/boundary.rs:237-248, [Read::read]. *)
Definition fread (n : nat) (f : freader) : res berr bytes * freader :=
  match fread_to_boundary f with
  | (Ok b, f1) => let out := firstn n b in (Ok out, fconsume (length out) f1)
  | (Err e, f1) => (Err e, f1)
  | (Panic, f1) => (Panic, f1)
  | (OutOfFuel, f1) => (OutOfFuel, f1)
  end.

(** src/server/boundary.rs:119-132, the loop of [consume_boundary]. *)
Fixpoint fskip_to_boundary (fuel : nat) (f : freader) : res berr unit * freader :=
  match st (fr f) with
  | Searching =>
      match fuel with
      | 0 => (OutOfFuel, f)
      | S fuel' =>
          match fread_to_boundary f with
          | (Ok b, f1) =>
              if (length b =? 0) && bstate_eqb (st (fr f1)) Searching
              then (Err EEndOfBody, f1)
              else fskip_to_boundary fuel' (fconsume (length b) f1)
          | (Err e, f1) => (Err e, f1)
          | (Panic, f1) => (Panic, f1)
          | (OutOfFuel, f1) => (OutOfFuel, f1)
          end
      end
  | _ => (Ok tt, f)
  end.

(** src/server/boundary.rs:134-195, the rest of [consume_boundary]. *)
Definition fverify_boundary (f : freader) : res berr bool * freader :=
  match fsource f with
  | None => (OutOfFuel, f)
  | Some (Some k, f1) => (Err (ETransport k), f1)
  | Some (None, f1) =>
      let r1 := fr f1 in
      let nb := length (bnd r1) in
      if length (buf r1) <? idx r1 then (Panic, f1)
      else
        let seg := skipn (idx r1) (buf r1) in
        let lead := if starts_with seg CRLF then 2 else 0 in
        if length seg <? lead + nb then (Panic, f1)
        else if negb (beq (bnd r1) (slice lead (lead + nb) seg)) then (Panic, f1)
        else
          let amt := idx r1 + nb + lead + 2 in
          if length (buf r1) <? amt then (Err EShortBoundary, f1)
          else
            match slice (amt - 2) amt (buf r1) with
            | [x; y] =>
                let s' := if N.eqb x CR && N.eqb y LF then Some Searching
                          else if N.eqb x DASH && N.eqb y DASH then Some AtEnd
                          else None in
                match s' with
                | Some s2 =>
                    (Ok (negb (bstate_eqb s2 AtEnd)),
                     mkFR (mkBR (skipn amt (buf r1)) (src r1) (minb r1) (bnd r1) 0 s2) (moved_on amt (buf r1) (fm f1)))
                | None => (Err (EBadBoundary x y), mkFR (set_idx_st r1 (idx r1) Searching) (fm f1))
                end
            | _ => (Panic, f1)
            end
  end.

(** src/server/boundary.rs:114-196, [consume_boundary]. *)
Definition fconsume_boundary (f : freader) : res berr bool * freader :=
  match st (fr f) with
  | AtEnd => (Ok false, f)
  | _ =>
      match fskip_to_boundary (length (buf (fr f)) + length (stream (src (fr f))) + 2) f with
      | (Ok _, f1) => fverify_boundary f1
      | (Err e, f1) => (Err e, f1)
      | (Panic, f1) => (Panic, f1)
      | (OutOfFuel, f1) => (OutOfFuel, f1)
      end
  end.

(** src/server/field.rs:53-92, [with_headers]. *)
Fixpoint fwith_headers (trim : bool) (fuel : nat) (last_len : nat) (f : freader) : res perr (list header) * freader :=
  match fuel with
  | 0 => (OutOfFuel, f)
  | S fuel' =>
      match fread_to_boundary f with
      | (Ok b, f1) =>
          if length b =? last_len then (Err PTooLarge, f1)
          else match parse_headers trim HEADER_LEN b with
               | HErr e => (Err (PTokenize e), f1)
               | HPartial => fwith_headers trim fuel' (length b) f1
               | HDone hs rest =>
                   if copy_headers hs then (Ok hs, fconsume (length b - length rest) f1)
                   else (Err PUtf8, f1)
               end
      | (Err e, f1) => (Err (PIo e), f1)
      | (Panic, f1) => (Panic, f1)
      | (OutOfFuel, f1) => (OutOfFuel, f1)
      end
  end.

Section WithMime.
Context (ML : mime_lib).

(** src/server/field.rs:131-133 and 437-440. *)
Definition fread_headers (trim : bool) (f : freader) : res perr (field_headers ML) * freader :=
  match fwith_headers trim (length (src (fr f)) + length (stream (src (fr f))) + 3) 0 f with
  | (Ok hs, f1) => (parse_field_headers ML hs, f1)
  | (Err e, f1) => (Err e, f1)
  | (Panic, f1) => (Panic, f1)
  | (OutOfFuel, f1) => (OutOfFuel, f1)
  end.

(** src/server/field.rs:386-415, [read_entry]. *)
Definition fread_entry (trim : bool) (f : freader) : res eerr (option (field_headers ML)) * freader :=
  match fconsume_boundary (fset_min MIN_BUF_SIZE f) with
  | (Ok false, f1) => (Ok None, f1)
  | (Ok true, f1) =>
      match fread_headers trim f1 with
      | (Ok h, f2) => (Ok (Some h), f2)
      | (Err e, f2) => (Err (EHdr e), f2)
      | (Panic, f2) => (Panic, f2)
      | (OutOfFuel, f2) => (OutOfFuel, f2)
      end
  | (Err e, f1) => (Err (EBnd e), f1)
  | (Panic, f1) => (Panic, f1)
  | (OutOfFuel, f1) => (OutOfFuel, f1)
  end.

(** The calls of a user, as [Field.step] and [Field.run]. *)
Definition fstep (trim : bool) (o : op) (f : freader) : obs ML * freader :=
  match o with
  | ORead n => let '(x, f1) := fread n f in (BRead ML x, f1)
  | OFill => let '(x, f1) := fread_to_boundary f in (BFill ML x, f1)
  | OConsume n => (BConsumed ML (firstn (Nat.min n (idx (fr f))) (buf (fr f))), fconsume n f)
  | OSetMin n => (BUnit ML, fset_min n f)
  | ONext => let '(x, f1) := fread_entry trim f in (BNext ML x, f1)
  end.

Fixpoint frun (trim : bool) (os : list op) (f : freader) : list (obs ML) * freader :=
  match os with
  | [] => ([], f)
  | o :: os' =>
      let '(b, f1) := fstep trim o f in
      let '(bs, f2) := frun trim os' f1 in
      (b :: bs, f2)
  end.

(** The user programs [Drive.drain] and [Drive.read_all]. *)
Fixpoint fdrain (fuel : nat) (sz : nat -> nat) (k : nat) (f : freader) : res berr bytes * freader :=
  match fuel with
  | 0 => (OutOfFuel, f)
  | S fuel' =>
      match fread (sz k) f with
      | (Ok [], f1) => (Ok [], f1)
      | (Ok out, f1) =>
          match fdrain fuel' sz (S k) f1 with
          | (Ok more, f2) => (Ok (out ++ more), f2)
          | x => x
          end
      | (Err e, f1) => (Err e, f1)
      | (Panic, f1) => (Panic, f1)
      | (OutOfFuel, f1) => (OutOfFuel, f1)
      end
  end.

Fixpoint fread_all (trim : bool) (fuel : nat) (sz : nat -> nat) (f : freader)
  : res eerr (list (field_headers ML * bytes)) * freader :=
  match fuel with
  | 0 => (OutOfFuel, f)
  | S fuel' =>
      match fread_entry trim f with
      | (Ok (Some h), f1) =>
          match fdrain (S (length (buf (fr f1)) + length (stream (src (fr f1))))) sz 0 f1 with
          | (Ok data, f2) =>
              match fread_all trim fuel' sz f2 with
              | (Ok l, f3) => (Ok ((h, data) :: l), f3)
              | x => x
              end
          | (Err e, f2) => (Err (EBnd e), f2)
          | (Panic, f2) => (Panic, f2)
          | (OutOfFuel, f2) => (OutOfFuel, f2)
          end
      | (Ok None, f1) => (Ok [], f1)
      | (Err e, f1) => (Err e, f1)
      | (Panic, f1) => (Panic, f1)
      | (OutOfFuel, f1) => (OutOfFuel, f1)
      end
  end.

End WithMime.
