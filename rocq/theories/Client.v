(** Model of src/client/mod.rs and src/client/sized.rs. *)

From Verif Require Import Bytes Io Utf8 Field Rand Fs.

(** ** The request and its stream

    src/client/mod.rs:157-189, the traits [HttpRequest] and [HttpStream], implemented outside the crate.
    One record stands for the request and for the stream opened from it.  Its behaviour is arbitrary: the
    answer of [apply_headers], the results of [open_stream], of each [write] and of [finish].  The log has
    the calls made on it (for [write] the bytes taken).  The response and the payload of errors are not
    modelled. *)
Inductive call := CApply (b : bytes) (len : option N) | COpen | CWrite (d : bytes) | CFinish.

Record http := mkHttp {
  q_accept : bytes -> option N -> bool;
  q_open : option iokind;
  q_sched : list wevent;
  q_finish : option iokind;
  q_log : list call;
}.

Definition logged (c : call) (q : http) : http :=
  mkHttp (q_accept q) (q_open q) (q_sched q) (q_finish q) (q_log q ++ [c]).

(** [HttpRequest::apply_headers]. *)
Definition apply_headers (b : bytes) (len : option N) (q : http) : bool * http :=
  (q_accept q b len, logged (CApply b len) q).

(** [HttpRequest::open_stream]. *)
Definition open_http (q : http) : option iokind * http := (q_open q, logged COpen q).

(** [HttpStream::finish]. *)
Definition finish_http (q : http) : option iokind * http := (q_finish q, logged CFinish q).

(** [std::io::Write::write_all]: retries interrupted calls, [Ok(0)] is an error.  When the schedule is
    used up a call takes everything. *)
Fixpoint write_all_http (sched : list wevent) (buf : bytes) (q : http) : option iokind * http :=
  let upd s d := mkHttp (q_accept q) (q_open q) s (q_finish q) (q_log q ++ d) in
  match buf with
  | [] => (None, upd sched [])
  | _ =>
      match sched with
      | [] => (None, upd [] [CWrite buf])
      | WFail k :: s =>
          if iokind_eqb k KInterrupted then write_all_http s buf q else (Some k, upd s [])
      | WAccept n :: s =>
          let m := Nat.min n (length buf) in
          if m =? 0 then (Some KWriteZero, upd s [])
          else write_all_http s (skipn m buf) (upd s [CWrite (firstn m buf)])
      end
  end.

Definition http_write_all (q : http) (buf : bytes) : option iokind * http := write_all_http (q_sched q) buf q.

(** ** MultipartWriter *)

(** src/client/mod.rs:222-226. *)
Record mwriter (W : Type) := mkMW { m_inner : W; m_boundary : bytes; m_written : bool }.
Arguments mkMW {W}. Arguments m_inner {W}. Arguments m_boundary {W}. Arguments m_written {W}.

(** src/client/mod.rs:78-92, 94-108, 110-132: the arguments of the three writing methods.  A path is its list of
    components; the result of [File::open] is an error or the file as a source. *)
Inductive cfield (M : Type) :=
| CText (name val : bytes)
| CStream (name : bytes) (fname : option bytes) (ctype : option M) (src : transport)
| CFile (name : bytes) (p : path) (opened : iokind + transport).
Arguments CText {M}. Arguments CStream {M}. Arguments CFile {M}.

Section Writer.
Context {W : Type} (write_all : W -> bytes -> option iokind * W).

(** [write!(w, ...)] ([Write::write_fmt]): one [write_all] for each piece of the format. *)
Fixpoint write_pieces (ps : list bytes) (w : W) : option iokind * W :=
  match ps with
  | [] => (None, w)
  | p :: ps' => match write_all w p with
                | (None, w1) => write_pieces ps' w1
                | x => x
                end
  end.

(** [std::io::copy]: read until [Ok(0)], retrying interrupted reads.  Chunks stand for what fits in its
    buffer (chunk sizes are arbitrary).  Specialisations of std for particular types are not modelled. *)
Fixpoint io_copy (t : transport) (w : W) : option iokind * W :=
  match t with
  | [] => (None, w)
  | Chunk [] :: _ => (None, w)
  | Chunk c :: t' => match write_all w c with
                     | (None, w1) => io_copy t' w1
                     | x => x
                     end
  | Fail k :: t' => if iokind_eqb k KInterrupted then io_copy t' w else (Some k, w)
  end.

Definition with_inner (m : mwriter W) (x : option iokind * W) : option iokind * mwriter W :=
  (fst x, mkMW (snd x) (m_boundary m) (m_written m)).

(** src/lib.rs:101-108, [chain_result!]. *)
Definition chain {A} (f g : A -> option iokind * A) (a : A) : option iokind * A :=
  match f a with
  | (None, a1) => g a1
  | x => x
  end.

(** [write!] and [write_all] on the inner stream. *)
Definition emit (ps : list bytes) (m : mwriter W) := with_inner m (write_pieces ps (m_inner m)).

(** src/client/mod.rs:237-243. *)
Definition write_boundary : mwriter W -> option iokind * mwriter W :=
  chain (fun m => if m_written m then emit [CRLF] m else (None, m))
        (fun m => emit [DASHES; m_boundary m; CRLF] m).

Context (ML : mime_lib) (octet : mime ML) (guess : path -> mime ML).

(** src/client/mod.rs:274-291. *)
Definition write_field_headers (name : bytes) (fname : option bytes) (ctype : option (mime ML))
  : mwriter W -> option iokind * mwriter W :=
  chain write_boundary
  (chain (fun m => (None, mkMW (m_inner m) (m_boundary m) true))
  (chain (emit [bs "Content-Disposition: form-data; name="""; name; bs """"])
  (chain (match fname with Some f => emit [bs "; filename="""; f; bs """"] | None => fun m => (None, m) end)
  (chain (match ctype with Some c => emit [CRLF ++ bs "Content-Type: "; mime_show ML c] | None => fun m => (None, m) end)
         (emit [CRLF ++ CRLF]))))).

(** src/client/mod.rs:245-250. *)
Definition write_text (name text : bytes) : mwriter W -> option iokind * mwriter W :=
  chain (write_field_headers name None None) (emit [text]).

(** src/client/mod.rs:258-272. *)
Definition write_stream (src : transport) (name : bytes) (fname : option bytes) (ctype : option (mime ML))
  : mwriter W -> option iokind * mwriter W :=
  let ct := match ctype with Some c => c | None => octet end in
  chain (write_field_headers name fname (Some ct)) (fun m => with_inner m (io_copy src (m_inner m))).

(** src/client/mod.rs:313-315, [opt_filename]: the last component, unless it is [..] or not UTF-8. *)
Definition opt_filename (p : path) : option bytes :=
  match rev p with
  | [] => None
  | c :: _ => if beq c (bs "..") then None else if valid_utf8 c then Some c else None
  end.

(** src/client/mod.rs:307-311; [guess] is [mime_guess::from_path(path).first_or_octet_stream()]. *)
Definition mime_filename (p : path) : mime ML * option bytes := (guess p, opt_filename p).

(** src/client/mod.rs:252-256. *)
Definition write_file (name : bytes) (p : path) (opened : iokind + transport) (m : mwriter W)
  : option iokind * mwriter W :=
  let '(ct, fname) := mime_filename p in
  match opened with
  | inl k => (Some k, m)
  | inr src => write_stream src name fname (Some ct) m
  end.

(** src/client/mod.rs:67-132, one call of a writing method of [Multipart]. *)
Definition write_field (f : cfield (mime ML)) : mwriter W -> option iokind * mwriter W :=
  match f with
  | CText name val => write_text name val
  | CStream name fname ctype src => write_stream src name fname ctype
  | CFile name p opened => write_file name p opened
  end.

(** Calls in sequence, stopping at the first error (as with [?] after each call). *)
Fixpoint write_fields (fs : list (cfield (mime ML))) : mwriter W -> option iokind * mwriter W :=
  match fs with
  | [] => fun m => (None, m)
  | f :: fs' => chain (write_field f) (write_fields fs')
  end.

(** src/client/mod.rs:293-304, [MultipartWriter::finish]. *)
Definition finish_writer : mwriter W -> option iokind * mwriter W :=
  chain (fun m => if m_written m then emit [CRLF] m else (None, m))
        (fun m => emit [DASHES; m_boundary m; DASHES ++ CRLF] m).

End Writer.

(** ** The regular client *)

(** src/client/mod.rs:28, 209-211. *)
Definition BOUNDARY_LEN : nat := 16.
Definition gen_boundary (g : rng) : bytes * rng := random_alphanumeric BOUNDARY_LEN g.

(** src/client/mod.rs:213-220, [open_stream]; 53-59, [from_request]. *)
Definition from_request (g : rng) (q : http) : (iokind + mwriter http) * http * rng :=
  let '(b, g1) := gen_boundary g in
  let '(_, q1) := apply_headers b None q in
  match open_http q1 with
  | (Some k, q2) => (inl k, q2, g1)
  | (None, q2) => (inr (mkMW q2 b false), q2, g1)
  end.

(** src/client/mod.rs:135-140, [send]. *)
Definition send (m : mwriter http) : option iokind * http :=
  match finish_writer http_write_all m with
  | (Some k, m1) => (Some k, m_inner m1)
  | (None, m1) => finish_http (m_inner m1)
  end.

(** A program: [from_request(req)?], the fields with [?] after each, [send()]. *)
Definition client (ML : mime_lib) (octet : mime ML) (guess : path -> mime ML) (g : rng) (q : http) (fs : list (cfield (mime ML)))
  : option iokind * http :=
  match from_request g q with
  | (inl k, q1, _) => (Some k, q1)
  | (inr m, _, _) =>
      match write_fields http_write_all ML octet guess fs m with
      | (Some k, m1) => (Some k, m_inner m1)
      | (None, m1) => send m1
      end
  end.

(** ** SizedRequest *)

(** src/client/sized.rs:27-31. *)
Record sized := mkSized { z_inner : http; z_buffer : bytes; z_boundary : bytes }.

(** src/client/sized.rs:44-50, [Write for SizedRequest]: appends to a [Vec]; [write_all] through it. *)
Definition sized_write_all (z : sized) (b : bytes) : option iokind * sized :=
  (None, mkSized (z_inner z) (z_buffer z ++ b) (z_boundary z)).

(** The reads of [io::copy] on a slice: pieces of the size of its buffer. *)
Fixpoint cut (n : nat) (fuel : nat) (b : bytes) : list bytes :=
  match fuel, b with
  | 0, _ | _, [] => []
  | S f, _ => firstn n b :: cut n f (skipn n b)
  end.
Definition COPY_BUF : nat := N.to_nat 8192.
Definition slice_source (b : bytes) : transport := map Chunk (cut COPY_BUF (length b) b).

(** src/client/sized.rs:76-90, [HttpStream::finish]. *)
Definition finish_sized (z : sized) : option iokind * http :=
  let '(ok, q1) := apply_headers (z_boundary z) (Some (N.of_nat (length (z_buffer z)))) (z_inner z) in
  if negb ok then (Some (KOther 0), q1)
  else match open_http q1 with
       | (Some k, q2) => (Some k, q2)
       | (None, q2) =>
           match io_copy http_write_all (slice_source (z_buffer z)) q2 with
           | (Some k, q3) => (Some k, q3)
           | (None, q3) => finish_http q3
           end
       end.

(** src/client/mod.rs:147-149 with 213-220 and sized.rs:34-41, 58-67: [from_request_sized]. *)
Definition from_request_sized (g : rng) (q : http) : mwriter sized * rng :=
  let '(b, g1) := gen_boundary g in
  (mkMW (mkSized q [] b) b false, g1).

(** src/client/mod.rs:135-140, [send] on a [SizedRequest]. *)
Definition send_sized (m : mwriter sized) : option iokind * http :=
  match finish_writer sized_write_all m with
  | (Some k, m1) => (Some k, z_inner (m_inner m1))
  | (None, m1) => finish_sized (m_inner m1)
  end.

Definition client_sized (ML : mime_lib) (octet : mime ML) (guess : path -> mime ML) (g : rng) (q : http)
    (fs : list (cfield (mime ML))) : option iokind * http :=
  let '(m, _) := from_request_sized g q in
  match write_fields sized_write_all ML octet guess fs m with
  | (Some k, m1) => (Some k, z_inner (m_inner m1))
  | (None, m1) => send_sized m1
  end.
