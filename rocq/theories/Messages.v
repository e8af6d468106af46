(** Model of the errors of src/server/field.rs with what they carry, and of the texts of the errors of reading (src/server/field.rs and
    src/server/boundary.rs).  [Field] has the same functions with errors that carry nothing. *)

From Verif Require Import Bytes Io Boundary Httparse Field.

(** src/server/field.rs:41-51, [Display for DisplayHeaders]. *)
Definition display_headers (hs : list header) : bytes := concat (map (fun h => fst h ++ bs ": " ++ snd h ++ [LF]) hs).

(** The reasons given to [invalid_cont_disp!] (src/server/field.rs:25-32, 170, 174-177, 182-185). *)
Inductive disp_reason := DType | DParams | DName.
Definition reason_text (d : disp_reason) : bytes :=
  match d with
  | DType => bs "unexpected Content-Disposition value"
  | DParams => bs "expected additional data after Content-Disposition type"
  | DName => bs "expected field name and maybe filename, got"
  end.

(** src/server/field.rs:536-569, [ParseHeaderError].  [FUtf8] is [Io] with the error of [io_str_utf8]. *)
Inductive perr_full :=
| FMissing (headers : bytes)
| FDisp (why : disp_reason) (cause : bytes)
| FTokenize (e : herr)
| FMime (cont_type : bytes)
| FTooLarge
| FIo (e : berr)
| FUtf8.

(** src/server/field.rs:536-569, the [description]s (with 533). *)
Definition description (e : perr_full) : bytes :=
  match e with
  | FMissing _ => bs """Content-Disposition"" header not found in field headers"
  | FDisp _ _ => bs "invalid ""Content-Disposition"" header"
  | FTokenize _ => bs "an error occurred while parsing field headers"
  | FMime _ => bs "Failed to parse Content-Type"
  | FTooLarge => bs "field headers section ridiculously long or missing trailing CRLF-CRLF"
  | FIo _ | FUtf8 => bs "an io error occurred while parsing the headers"
  end.

(** [Display for httparse::Error] (by contract). *)
Definition herr_text (e : herr) : bytes :=
  match e with
  | HHeaderName => bs "invalid header name"
  | HHeaderValue => bs "invalid header value"
  | HNewLine => bs "invalid new line"
  | HTooManyHeaders => bs "too many headers"
  end.

(** [{:X}] of a byte: one or two digits. *)
Definition hex_digit (d : N) : byte := if (d <? 10)%N then (48 + d)%N else (55 + d)%N.
Definition hex (b : byte) : bytes := (if (b <? 16)%N then [] else [hex_digit (b / 16)]) ++ [hex_digit (b mod 16)].

Section Texts.
(** [Display] of the errors of the transport and of [Utf8Error]. *)
Context (sh : iokind -> bytes) (u8 : bytes).

(** src/server/boundary.rs:125-126, 158-159, 170-174. *)
Definition berr_text (e : berr) : bytes :=
  match e with
  | ETransport k => sh k
  | EEndOfBody => bs "unexpected end of request body"
  | EShortBoundary => bs "not enough bytes to verify boundary"
  | EBadBoundary a b => bs "unexpected bytes following multipart boundary: " ++ hex a ++ bs " " ++ hex b
  end.

(** src/server/field.rs:536-569, the [display]s; without one it is the description. *)
Definition perr_text (e : perr_full) : bytes :=
  match e with
  | FMissing headers => description e ++ bs ":" ++ [LF] ++ headers
  | FDisp why cause => description e ++ bs ": " ++ reason_text why ++ bs ": " ++ cause
  | FTokenize h => description e ++ bs ": " ++ herr_text h
  | FMime m => description e ++ bs ": " ++ m
  | FTooLarge => description e
  | FIo x => description e ++ bs ": " ++ berr_text x
  | FUtf8 => description e ++ bs ": " ++ u8
  end.

(** The text of an error of [read_entry]; an [io::Error] made from another error shows that one. *)
Definition entry_text (e : berr + perr_full) : bytes := match e with inl x => berr_text x | inr x => perr_text x end.

End Texts.

(** src/server/field.rs:154-200, [ContentDisp::parse_required]. *)
Definition disp_full (hs : list header) : res perr_full (bytes * option bytes) :=
  match find_header hs (bs "Content-Disposition") with
  | None => Err (FMissing (display_headers hs))
  | Some v =>
      match split_once v SEMI with
      | None => Err (FDisp DParams v)
      | Some (disp_type, after) =>
          if negb (beq (trim_white disp_type) (bs "form-data")) then Err (FDisp DType disp_type)
          else match get_str_after (bs "name=") SEMI after with
               | None => Err (FDisp DName after)
               | Some (name, after_name) =>
                   Ok (trim_quotes name,
                       match get_str_after (bs "filename=") SEMI after_name with
                       | Some (fname, _) => Some (trim_quotes fname)
                       | None => None
                       end)
               end
      end
  end.

Section WithMime.
Context (ML : mime_lib).

(** src/server/field.rs:202-212, [parse_content_type]. *)
Definition ctype_full (hs : list header) : res perr_full (option (mime ML)) :=
  match find_header hs (bs "Content-Type") with
  | None => Ok None
  | Some v => match mime_parse ML v with Some m => Ok (Some m) | None => Err (FMime v) end
  end.

(** src/server/field.rs:135-143, [FieldHeaders::parse]. *)
Definition headers_full (hs : list header) : res perr_full (field_headers ML) :=
  match disp_full hs with
  | Ok (name, fname) =>
      match ctype_full hs with Ok ct => Ok (mkFH ML name fname ct) | Err e => Err e | Panic => Panic | OutOfFuel => OutOfFuel end
  | Err e => Err e
  | Panic => Panic
  | OutOfFuel => OutOfFuel
  end.

(** src/server/field.rs:53-92, the errors of [with_headers]. *)
Definition scan_error (e : perr) : perr_full :=
  match e with
  | PTokenize h => FTokenize h
  | PIo x => FIo x
  | PUtf8 => FUtf8
  | _ => FTooLarge
  end.

(** src/server/field.rs:131-133 and 437-440, [read_from] and [read_headers]. *)
Definition read_headers_full (trim : bool) (r : breader) : res perr_full (field_headers ML) * breader :=
  match with_headers trim (length (src r) + 3) 0 r with
  | (Ok hs, r1) => (headers_full hs, r1)
  | (Err e, r1) => (Err (scan_error e), r1)
  | (Panic, r1) => (Panic, r1)
  | (OutOfFuel, r1) => (OutOfFuel, r1)
  end.

(** src/server/field.rs:386-415, [ReadEntry::read_entry]. *)
Definition read_entry_full (trim : bool) (r : breader) : res (berr + perr_full) (option (field_headers ML)) * breader :=
  match consume_boundary (set_min_buf_size MIN_BUF_SIZE r) with
  | (Ok false, r1) => (Ok None, r1)
  | (Ok true, r1) =>
      match read_headers_full trim r1 with
      | (Ok h, r2) => (Ok (Some h), r2)
      | (Err e, r2) => (Err (inr e), r2)
      | (Panic, r2) => (Panic, r2)
      | (OutOfFuel, r2) => (OutOfFuel, r2)
      end
  | (Err e, r1) => (Err (inl e), r1)
  | (Panic, r1) => (Panic, r1)
  | (OutOfFuel, r1) => (OutOfFuel, r1)
  end.

End WithMime.

(** ** Lazy errors *)

(** src/client/lazy.rs:91-102, [Debug for LazyError]; 104-119, [Display].  [debug] is how the core library shows a string with its quotes,
    [show] how the inner error shows itself. *)
Definition lazy_debug (debug : bytes -> bytes) (show : iokind -> bytes) (e : option bytes * iokind) : bytes :=
  match fst e with
  | Some n => bs "LazyError (on field " ++ debug n ++ bs "): " ++ show (snd e)
  | None => bs "LazyError (misc): " ++ show (snd e)
  end.

Definition lazy_display (debug : bytes -> bytes) (show : iokind -> bytes) (e : option bytes * iokind) : bytes :=
  match fst e with
  | Some n => bs "Error writing field " ++ debug n ++ bs ": " ++ show (snd e)
  | None => bs "Error opening or flushing stream: " ++ show (snd e)
  end.
