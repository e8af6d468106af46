(** Model of src/server/field.rs. *)

From Verif Require Import Bytes Io Boundary Utf8 Httparse.

(** The [mime] crate: an abstract type with parsing ([str::parse::<Mime>]), printing, the test
    [type_() == mime::TEXT] and the test [type_() == mime::MULTIPART].  Nothing is assumed of it
    except where a theorem says so. *)
Record mime_lib := {
  mime : Type;
  mime_parse : bytes -> option mime;
  mime_show : mime -> bytes;
  mime_is_text : mime -> bool;
}.

(** src/server/field.rs:35-38, [StrHeader]. *)
Definition header := (bytes * bytes)%type.

(** src/server/field.rs:536-565, [ParseHeaderError] (payloads that only serve for messages dropped);
    [PIo] is [Io(io::Error)] with an error of the source, [PUtf8] is [Io] from [io_str_utf8]. *)
Inductive perr :=
| PMissingContentDisposition
| PDispType            (* InvalidContDisp("unexpected Content-Disposition value", _) *)
| PDispNoParams        (* InvalidContDisp("expected additional data ...", _) *)
| PDispNoName          (* InvalidContDisp("expected field name and maybe filename, got", _) *)
| PTokenize (e : herr)
| PMime
| PTooLarge
| PIo (e : berr)
| PUtf8.

(** src/server/field.rs:94-104, [copy_headers]. *)
Definition copy_headers (hs : list header) : bool := forallb (fun h => valid_utf8 (snd h)) hs.

(** src/server/field.rs:58, [HEADER_LEN]. *)
Definition HEADER_LEN : nat := 4.

(** src/server/field.rs:53-92, [with_headers]; the closure is applied by the caller (it does not see
    the reader, so the order of [closure] and [consume] is immaterial). *)
Fixpoint with_headers (trim : bool) (fuel : nat) (last_len : nat) (r : breader)
  : res perr (list header) * breader :=
  match fuel with
  | 0 => (OutOfFuel, r)
  | S fuel' =>
      match read_to_boundary r with
      | (Ok b, r1) =>
          if length b =? last_len then (Err PTooLarge, r1)
          else match parse_headers trim HEADER_LEN b with
               | HErr e => (Err (PTokenize e), r1)
               | HPartial => with_headers trim fuel' (length b) r1
               | HDone hs rest =>
                   if copy_headers hs then (Ok hs, consume (length b - length rest) r1)
                   else (Err PUtf8, r1)
               end
      | (Err e, r1) => (Err (PIo e), r1)
      | (Panic, r1) => (Panic, r1)
      | (OutOfFuel, r1) => (OutOfFuel, r1)
      end
  end.

(** [u8::to_ascii_lowercase]. *)
Definition lower (b : byte) : byte := if ((65 <=? b) && (b <=? 90))%N then (b + 32)%N else b.

(** [str::eq_ignore_ascii_case]. *)
Definition eq_ignore_case (a b : bytes) : bool := beq (map lower a) (map lower b).

(** src/server/field.rs:375-381, [find_header]. *)
Definition find_header (hs : list header) (name : bytes) : option bytes :=
  option_map snd (find (fun h => eq_ignore_case (fst h) name) hs).

(** src/server/field.rs:347-349, [split_once]: the delimiter stays in the second half. *)
Definition split_once (s : bytes) (delim : byte) : option (bytes * bytes) :=
  match find_bytes s [delim] with
  | Some i => Some (firstn i s, skipn i s)
  | None => None
  end.

(** [str::trim_start_matches(c)] for an ASCII [c]. *)
Fixpoint drop_byte (c : byte) (s : bytes) : bytes :=
  match s with
  | x :: t => if (x =? c)%N then drop_byte c t else s
  | [] => []
  end.

Definition QUOTE : byte := 34%N.
Definition SEMI : byte := 59%N.

(** src/server/field.rs:351-353, [trim_quotes]. *)
Definition trim_quotes (s : bytes) : bytes := rev (drop_byte QUOTE (rev (drop_byte QUOTE s))).

(** src/server/field.rs:355-369, [get_str_after] (the delimiter is always [';']). *)
Definition get_str_after (needle : bytes) (delim : byte) (hay : bytes) : option (bytes * bytes) :=
  match find_bytes hay needle with
  | None => None
  | Some i =>
      let start := i + length needle in
      let stop := match find_bytes (skipn start hay) [delim] with
                  | Some e => e + start
                  | None => length hay
                  end in
      Some (slice start stop hay, skipn stop hay)
  end.

(** Encodings of the characters with the Unicode property White_Space ([char::is_whitespace]). *)
Definition white_chars : list bytes :=
  [[9]; [10]; [11]; [12]; [13]; [32]; [194; 133]; [194; 160]; [225; 154; 128];
   [226; 128; 128]; [226; 128; 129]; [226; 128; 130]; [226; 128; 131]; [226; 128; 132];
   [226; 128; 133]; [226; 128; 134]; [226; 128; 135]; [226; 128; 136]; [226; 128; 137];
   [226; 128; 138]; [226; 128; 168]; [226; 128; 169]; [226; 128; 175]; [226; 129; 159];
   [227; 128; 128]]%N.

(** Remove one leading element of [ws]. *)
Definition strip_one (ws : list bytes) (s : bytes) : option bytes :=
  match find (fun w => starts_with s w) ws with
  | Some w => Some (skipn (length w) s)
  | None => None
  end.

Fixpoint strip_all (ws : list bytes) (fuel : nat) (s : bytes) : bytes :=
  match fuel with
  | 0 => s
  | S f => match strip_one ws s with
           | Some s' => strip_all ws f s'
           | None => s
           end
  end.

(** [str::trim] on valid UTF-8. Stripping byte suffixes is the same as stripping characters because
    UTF-8 is self-synchronising. *)
Definition trim_white (s : bytes) : bytes :=
  let s1 := strip_all white_chars (length s) s in
  rev (strip_all (map (@rev _) white_chars) (length s1) (rev s1)).

(** src/server/field.rs:147-152 and 154-200, [ContentDisp::parse_required]. *)
Definition parse_content_disp (hs : list header) : res perr (bytes * option bytes) :=
  match find_header hs (bs "Content-Disposition") with
  | None => Err PMissingContentDisposition
  | Some v =>
      match split_once v SEMI with
      | None => Err PDispNoParams
      | Some (disp_type, after) =>
          if negb (beq (trim_white disp_type) (bs "form-data")) then Err PDispType
          else match get_str_after (bs "name=") SEMI after with
               | None => Err PDispNoName
               | Some (name, after_name) =>
                   Ok (trim_quotes name,
                       match get_str_after (bs "filename=") SEMI after_name with
                       | Some (fname, _) => Some (trim_quotes fname)
                       | None => None
                       end)
               end
      end
  end.

Section WithMime.
Context (ML : mime_lib).

(** src/server/field.rs:112-127, [FieldHeaders]. *)
Record field_headers := mkFH {
  fh_name : bytes;
  fh_filename : option bytes;
  fh_ctype : option (mime ML);
}.

(** src/server/field.rs:202-212, [parse_content_type]. *)
Definition parse_content_type (hs : list header) : res perr (option (mime ML)) :=
  match find_header hs (bs "Content-Type") with
  | None => Ok None
  | Some v => match mime_parse ML v with
              | Some m => Ok (Some m)
              | None => Err PMime
              end
  end.

(** src/server/field.rs:135-143, [FieldHeaders::parse]. *)
Definition parse_field_headers (hs : list header) : res perr field_headers :=
  match parse_content_disp hs with
  | Ok (name, fname) =>
      match parse_content_type hs with
      | Ok ct => Ok (mkFH name fname ct)
      | Err e => Err e
      | Panic => Panic
      | OutOfFuel => OutOfFuel
      end
  | Err e => Err e
  | Panic => Panic
  | OutOfFuel => OutOfFuel
  end.

(** src/server/field.rs:131-133 and 437-440, [read_from] and [read_headers] (before the error is
    wrapped as [InvalidData]). *)
Definition read_headers (trim : bool) (r : breader) : res perr field_headers * breader :=
  match with_headers trim (length (src r) + 3) 0 r with
  | (Ok hs, r1) => (parse_field_headers hs, r1)
  | (Err e, r1) => (Err e, r1)
  | (Panic, r1) => (Panic, r1)
  | (OutOfFuel, r1) => (OutOfFuel, r1)
  end.

(** The error of [read_entry]: from [consume_boundary], or from [read_headers]. *)
Inductive eerr := EBnd (e : berr) | EHdr (e : perr).

(** [io::Error::kind]; field.rs:438-439 wraps every header error as [InvalidData]. *)
Definition eerr_kind (e : eerr) : iokind :=
  match e with EBnd e => berr_kind e | EHdr _ => KInvalidData end.

(** src/server/field.rs:386-415, [ReadEntry::read_entry].  [Some h] is [Entry], [None] is [End]; the
    reader is handed back in every case ([Entry] holds it in [MultipartData]).  The [info!] message
    about nested multipart fields is not modelled. *)
Definition read_entry (trim : bool) (r : breader) : res eerr (option field_headers) * breader :=
  let r0 := set_min_buf_size MIN_BUF_SIZE r in
  match consume_boundary r0 with
  | (Ok false, r1) => (Ok None, r1)
  | (Ok true, r1) =>
      match read_headers trim r1 with
      | (Ok h, r2) => (Ok (Some h), r2)
      | (Err e, r2) => (Err (EHdr e), r2)
      | (Panic, r2) => (Panic, r2)
      | (OutOfFuel, r2) => (OutOfFuel, r2)
      end
  | (Err e, r1) => (Err (EBnd e), r1)
  | (Panic, r1) => (Panic, r1)
  | (OutOfFuel, r1) => (OutOfFuel, r1)
  end.

(** src/server/field.rs:238-243, [is_text]. *)
Definition is_text (h : field_headers) : bool :=
  match fh_ctype h with
  | None => true
  | Some m => mime_is_text ML m
  end.

(** src/server/mod.rs:108-116, [Multipart::with_body]. *)
Definition with_body (t : transport) (boundary : bytes) : breader := from_reader t boundary.

(** Calls a user can make on a [Multipart] and the [MultipartData] of the current field:
    [Read::read] with a buffer of length [n] (field.rs:328-332), [BufRead::fill_buf] and [consume]
    (337-345), [set_min_buf_size] (311-313), [read_entry] / [next_entry] (mod.rs:124-132, field.rs:246). *)
Inductive op := ORead (n : nat) | OFill | OConsume (n : nat) | OSetMin (n : nat) | ONext.

(** What a call returns. *)
Inductive obs :=
| BRead (x : res berr bytes)
| BFill (x : res berr bytes)
| BConsumed (dropped : bytes)
| BUnit
| BNext (x : res eerr (option field_headers)).

Definition step (trim : bool) (o : op) (r : breader) : obs * breader :=
  match o with
  | ORead n => let '(x, r1) := read n r in (BRead x, r1)
  | OFill => let '(x, r1) := read_to_boundary r in (BFill x, r1)
  | OConsume n => (BConsumed (firstn (Nat.min n (idx r)) (buf r)), consume n r)
  | OSetMin n => (BUnit, set_min_buf_size n r)
  | ONext => let '(x, r1) := read_entry trim r in (BNext x, r1)
  end.

(** A sequence of calls. *)
Fixpoint run (trim : bool) (os : list op) (r : breader) : list obs * breader :=
  match os with
  | [] => ([], r)
  | o :: os' =>
      let '(b, r1) := step trim o r in
      let '(bs, r2) := run trim os' r1 in
      (b :: bs, r2)
  end.

(** src/server/mod.rs:140-148, [foreach_entry] with a callback that performs the calls
    [f n headers] on the [n]-th entry; returns the entries with what the calls returned. *)
Fixpoint foreach_entry (trim : bool) (f : nat -> field_headers -> list op) (fuel : nat) (n : nat) (r : breader)
  : res eerr unit * list (field_headers * list obs) * breader :=
  match fuel with
  | 0 => (OutOfFuel, [], r)
  | S fuel' =>
      match read_entry trim r with
      | (Ok (Some h), r1) =>
          let '(os, r2) := run trim (f n h) r1 in
          let '(x, l, r3) := foreach_entry trim f fuel' (S n) r2 in
          (x, (h, os) :: l, r3)
      | (Ok None, r1) => (Ok tt, [], r1)
      | (Err e, r1) => (Err e, [], r1)
      | (Panic, r1) => (Panic, [], r1)
      | (OutOfFuel, r1) => (OutOfFuel, [], r1)
      end
  end.

End WithMime.
