(** Model of src/client/lazy.rs. *)

From Verif Require Import Bytes Io Boundary Utf8 Field Rand Fs Client.

(** [std::io::Cursor] over a vector or string: contents and position. *)
Record cursor := mkCur { c_data : bytes; c_pos : nat }.
Definition cursor_new (d : bytes) : cursor := mkCur d 0.

(** src/client/lazy.rs:481-483. *)
Definition cursor_at_end (c : cursor) : bool := c_pos c =? length (c_data c).

(** [Read for Cursor] with a buffer of [n] bytes. *)
Definition cursor_read (n : nat) (c : cursor) : bytes * cursor :=
  let d := firstn n (skipn (c_pos c) (c_data c)) in
  (d, mkCur (c_data c) (c_pos c + length d)).

(** [Read::read] of an arbitrary source with a buffer of [n] bytes: what does not fit stays for the next
    call. *)
Definition source_read (n : nat) (t : transport) : (iokind + bytes) * transport :=
  match t with
  | [] => (inr [], [])
  | Fail k :: t' => (inl k, t')
  | Chunk c :: t' => if length c <=? n then (inr c, t') else (inr (firstn n c), Chunk (skipn n c) :: t')
  end.

(** src/client/lazy.rs:38-46, [LazyError]: the name of the field, if any, and the error. *)
Definition lazy_error : Type := option bytes * iokind.

(** src/client/lazy.rs:229-233 and 245-249, [Data] and [Stream].  For a path the results of [File::open]
    and of [metadata().len()] are given with it. *)
Inductive ldata (M : Type) :=
| LText (text : bytes)
| LFile (p : path) (opened : iokind + (iokind + N) * transport)
| LStream (fname : option bytes) (ctype : M) (src : transport).
Arguments LText {M}. Arguments LFile {M}. Arguments LStream {M}.

(** src/client/lazy.rs:224-227. *)
Record lfield (M : Type) := mkLF { l_name : bytes; l_data : ldata M }.
Arguments mkLF {M}. Arguments l_name {M}. Arguments l_data {M}.

(** src/client/lazy.rs:128-130, [Multipart]. *)
Definition lazy_form (M : Type) : Type := list (lfield M).

(** src/client/lazy.rs:371-374. *)
Record pfield := mkPF { f_header : cursor; f_stream : transport }.

(** src/client/lazy.rs:260-265.  [s_streams] is the vector with its last element first, so that [push] is
    [::] and [pop] takes the head. *)
Record prepared := mkPrep {
  s_text : cursor;
  s_streams : list pfield;
  s_end : cursor;
  s_len : option N;
}.

Section WithMime.
Context (ML : mime_lib) (octet : mime ML) (guess : path -> mime ML).

(** src/client/lazy.rs:134-192, [new], [add_text], [add_file], [add_stream]. *)
Definition lazy_new : lazy_form (mime ML) := [].
Definition add_text (name text : bytes) (l : lazy_form (mime ML)) := l ++ [mkLF name (LText text)].
Definition add_file (name : bytes) (p : path) o (l : lazy_form (mime ML)) := l ++ [mkLF name (LFile p o)].
Definition add_stream (name : bytes) (src : transport) (fname : option bytes) (ct : option (mime ML)) (l : lazy_form (mime ML)) :=
  l ++ [mkLF name (LStream fname (match ct with Some c => c | None => octet end) src)].

(** src/client/lazy.rs:394-420. *)
Definition from_stream (name boundary : bytes) (ct : mime ML) (fname : option bytes) (src : transport) : pfield :=
  let h := boundary ++ CRLF ++ bs "Content-Disposition: form-data; name=""" ++ name ++ bs """" in
  let h := match fname with Some f => h ++ bs "; filename=""" ++ f ++ bs """" | None => h end in
  mkPF (cursor_new (h ++ CRLF ++ bs "Content-Type: " ++ mime_show ML ct ++ CRLF ++ CRLF)) src.

(** src/client/lazy.rs:377-392. *)
Definition from_path (name : bytes) (p : path) (o : iokind + (iokind + N) * transport) (boundary : bytes)
  : lazy_error + pfield * N :=
  let '(ct, fname) := mime_filename ML guess p in
  match o with
  | inl k => inl (Some name, k)
  | inr (inl k, _) => inl (Some name, k)
  | inr (inr len, src) =>
      let s := from_stream name boundary ct fname src in
      inr (s, (len + N.of_nat (length (c_data (f_header s))))%N)
  end.

(** src/client/lazy.rs:275-306: the loop over the drained fields.  The [u64] sum of lengths is an
    unbounded number here; [Lazy64] has its overflow (above 2^64 bytes of files). *)
Fixpoint from_fields_loop (boundary : bytes) (fs : lazy_form (mime ML)) (text : bytes) (streams : list pfield) (len : N) (use : bool)
  : lazy_error + bytes * list pfield * N * bool :=
  match fs with
  | [] => inr (text, streams, len, use)
  | f :: fs' =>
      match l_data f with
      | LText t =>
          from_fields_loop boundary fs'
            (text ++ boundary ++ CRLF ++ bs "Content-Disposition: form-data; name=""" ++ l_name f ++ bs """" ++ CRLF ++ CRLF ++ t)
            streams len use
      | LFile p o =>
          match from_path (l_name f) p o boundary with
          | inl e => inl e
          | inr (s, n) => from_fields_loop boundary fs' text (s :: streams) (len + n)%N use
          end
      | LStream fname ct src =>
          from_fields_loop boundary fs' text (from_stream (l_name f) boundary ct fname src :: streams) len false
      end
  end.

(** src/client/lazy.rs:268-323. *)
Definition from_fields (g : rng) (fs : lazy_form (mime ML)) : (lazy_error + prepared) * rng :=
  let '(b, g1) := gen_boundary g in
  let boundary := CRLF ++ DASHES ++ b in
  match from_fields_loop boundary fs [] [] 0%N true with
  | inl e => (inl e, g1)
  | inr (text, streams, len, use) =>
      let closing := match text, streams with [], [] => [] | _, _ => boundary ++ DASHES end in
      let len := (len + N.of_nat (length closing))%N in
      (inr (mkPrep (cursor_new text) streams (cursor_new closing) (if use then Some len else None)), g1)
  end.

(** src/client/lazy.rs:218-220, [prepare].  [fields.drain(..)] empties the vector, also if the loop is left
    early. *)
Definition prepare (g : rng) (fs : lazy_form (mime ML)) : (lazy_error + prepared) * rng * lazy_form (mime ML) :=
  let '(x, g1) := from_fields g fs in (x, g1, []).

End WithMime.

(** src/client/lazy.rs:327-329. *)
Definition content_len (s : prepared) : option N := s_len s.

(** src/client/lazy.rs:332-337: [&boundary[4..len - 2]]; [len - 2] below zero, or a range that is out of
    order, panics.  (All characters are ASCII, so any other range is fine.) *)
Definition boundary_str (s : prepared) : res iokind bytes :=
  let b := c_data (s_end s) in
  if length b <? 6 then Panic else Ok (firstn (length b - 6) (skipn 4 b)).

(** src/client/lazy.rs:423-433. *)
Definition field_read (n : nat) (f : pfield) : (iokind + bytes) * pfield :=
  if negb (cursor_at_end (f_header f)) then
    let '(d, c) := cursor_read n (f_header f) in (inr d, mkPF c (f_stream f))
  else
    let '(x, t) := source_read n (f_stream f) in (x, mkPF (f_header f) t).

(** src/client/lazy.rs:349-365: the loop of [read] with a buffer of [n] bytes; [acc] is what the buffer
    holds.  An error drops it. *)
Fixpoint read_loop (fuel : nat) (n : nat) (acc : bytes) (s : prepared) : res iokind bytes * prepared :=
  match fuel with
  | 0 => (OutOfFuel, s)
  | S fuel' =>
      if (length acc <? n) && negb (cursor_at_end (s_end s)) then
        let room := n - length acc in
        if negb (cursor_at_end (s_text s)) then
          let '(d, c) := cursor_read room (s_text s) in
          read_loop fuel' n (acc ++ d) (mkPrep c (s_streams s) (s_end s) (s_len s))
        else match s_streams s with
             | f :: rest =>
                 match field_read room f with
                 | (inr [], _) => read_loop fuel' n acc (mkPrep (s_text s) rest (s_end s) (s_len s))
                 | (inr d, f') => read_loop fuel' n (acc ++ d) (mkPrep (s_text s) (f' :: rest) (s_end s) (s_len s))
                 | (inl k, f') => (Err k, mkPrep (s_text s) (f' :: rest) (s_end s) (s_len s))
                 end
             | [] =>
                 let '(d, c) := cursor_read room (s_end s) in
                 read_loop fuel' n (acc ++ d) (mkPrep (s_text s) [] c (s_len s))
             end
      else (Ok acc, s)
  end.

(** src/client/lazy.rs:340-369, [Read for PreparedFields]. *)
Definition lazy_read (n : nat) (s : prepared) : res iokind bytes * prepared :=
  if n =? 0 then (Ok [], s) else read_loop (S (n + length (s_streams s))) n [] s.

(** [io::copy(&mut prepared, &mut stream)] with a buffer of [n] bytes: reads until [Ok(0)], retrying
    interrupted reads. *)
Fixpoint copy_prepared (fuel : nat) (n : nat) (s : prepared) (q : http) : res iokind unit * prepared * http :=
  match fuel with
  | 0 => (OutOfFuel, s, q)
  | S fuel' =>
      match lazy_read n s with
      | (Ok [], s1) => (Ok tt, s1, q)
      | (Ok d, s1) => match http_write_all q d with
                      | (None, q1) => copy_prepared fuel' n s1 q1
                      | (Some k, q1) => (Err k, s1, q1)
                      end
      | (Err k, s1) => if iokind_eqb k KInterrupted then copy_prepared fuel' n s1 q else (Err k, s1, q)
      | (Panic, s1) => (Panic, s1, q)
      | (OutOfFuel, s1) => (OutOfFuel, s1, q)
      end
  end.

(** Bytes and calls left: enough fuel for [copy_prepared]. *)
Definition transport_size (t : transport) : nat := length t + length (stream t).
Definition field_size (f : pfield) : nat := length (c_data (f_header f)) + transport_size (f_stream f).
Definition prepared_size (s : prepared) : nat :=
  length (c_data (s_text s)) + list_sum (map field_size (s_streams s)) + length (c_data (s_end s)).

(** src/client/lazy.rs:198-212, [send]. *)
Definition lazy_send (ML : mime_lib) (guess : path -> mime ML) (g : rng) (fs : lazy_form (mime ML)) (q : http)
  : res lazy_error unit * http * lazy_form (mime ML) :=
  match prepare ML guess g fs with
  | (inl e, _, fs1) => (Err e, q, fs1)
  | (inr s, _, fs1) =>
      match boundary_str s with
      | Ok b =>
          let '(_, q1) := apply_headers b (content_len s) q in
          match open_http q1 with
          | (Some k, q2) => (Err (None, k), q2, fs1)
          | (None, q2) =>
              match copy_prepared (S (prepared_size s)) COPY_BUF s q2 with
              | (Ok _, _, q3) => match finish_http q3 with
                                 | (None, q4) => (Ok tt, q4, fs1)
                                 | (Some k, q4) => (Err (None, k), q4, fs1)
                                 end
              | (Err k, _, q3) => (Err (None, k), q3, fs1)
              | (Panic, _, q3) => (Panic, q3, fs1)
              | (OutOfFuel, _, q3) => (OutOfFuel, q3, fs1)
              end
          end
      | _ => (Panic, q, fs1)
      end
  end.
