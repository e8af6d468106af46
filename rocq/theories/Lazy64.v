(** The length of a lazy request as the [u64] it is in src/client/lazy.rs.  [Lazy] counts without bound; here the additions
    are those of the machine: a build with overflow checks ([checked], the default of debug builds) panics, one without
    wraps round. *)

From Verif Require Import Bytes Io Boundary Utf8 Field Rand Fs Client Lazy.

(** [a + b] on [u64]. *)
Definition add64 (checked : bool) (a b : N) : option N :=
  if (a + b <? 2 ^ 64)%N then Some (a + b)%N else if checked then None else Some ((a + b) mod 2 ^ 64)%N.

Section WithMime.
Context (ML : mime_lib) (guess : path -> mime ML) (checked : bool).

(** src/client/lazy.rs:377-392, [from_path]. *)
Definition from_path64 (name : bytes) (p : path) (o : iokind + (iokind + N) * transport) (boundary : bytes)
  : res lazy_error (pfield * N) :=
  let '(ct, fname) := mime_filename ML guess p in
  match o with
  | inl k => Err (Some name, k)
  | inr (inl k, _) => Err (Some name, k)
  | inr (inr len, src) =>
      let s := from_stream ML name boundary ct fname src in
      match add64 checked len (N.of_nat (length (c_data (f_header s)))) with
      | Some n => Ok (s, n)
      | None => Panic
      end
  end.

(** src/client/lazy.rs:275-306. *)
Fixpoint from_fields_loop64 (boundary : bytes) (fs : lazy_form (mime ML)) (text : bytes) (streams : list pfield) (len : N) (use : bool)
  : res lazy_error (bytes * list pfield * N * bool) :=
  match fs with
  | [] => Ok (text, streams, len, use)
  | f :: fs' =>
      match l_data f with
      | LText t =>
          from_fields_loop64 boundary fs'
            (text ++ boundary ++ CRLF ++ bs "Content-Disposition: form-data; name=""" ++ l_name f ++ bs """" ++ CRLF ++ CRLF ++ t)
            streams len use
      | LFile p o =>
          match from_path64 (l_name f) p o boundary with
          | Ok (s, n) =>
              match add64 checked len n with
              | Some len' => from_fields_loop64 boundary fs' text (s :: streams) len' use
              | None => Panic
              end
          | Err e => Err e
          | Panic => Panic
          | OutOfFuel => OutOfFuel
          end
      | LStream fname ct src =>
          from_fields_loop64 boundary fs' text (from_stream ML (l_name f) boundary ct fname src :: streams) len false
      end
  end.

(** src/client/lazy.rs:268-323. *)
Definition from_fields64 (g : rng) (fs : lazy_form (mime ML)) : res lazy_error prepared * rng :=
  let '(b, g1) := gen_boundary g in
  let boundary := CRLF ++ DASHES ++ b in
  (match from_fields_loop64 boundary fs [] [] 0%N true with
   | Ok (text, streams, len, use) =>
       let closing := match text, streams with [], [] => [] | _, _ => boundary ++ DASHES end in
       match add64 checked len (N.of_nat (length closing)) with
       | Some len => Ok (mkPrep (cursor_new text) streams (cursor_new closing) (if use then Some len else None))
       | None => Panic
       end
   | Err e => Err e
   | Panic => Panic
   | OutOfFuel => OutOfFuel
   end, g1).

(** src/client/lazy.rs:218-220, [prepare]. *)
Definition prepare64 (g : rng) (fs : lazy_form (mime ML)) : res lazy_error prepared * rng * lazy_form (mime ML) :=
  let '(x, g1) := from_fields64 g fs in (x, g1, []).

(** src/client/lazy.rs:198-212, [send]. *)
Definition lazy_send64 (g : rng) (fs : lazy_form (mime ML)) (q : http) : res lazy_error unit * http * lazy_form (mime ML) :=
  match prepare64 g fs with
  | (Err e, _, fs1) => (Err e, q, fs1)
  | (Panic, _, fs1) => (Panic, q, fs1)
  | (OutOfFuel, _, fs1) => (OutOfFuel, q, fs1)
  | (Ok s, _, fs1) =>
      match boundary_str s with
      | Ok b =>
          let '(_, q1) := apply_headers b (content_len s) q in
          match open_http q1 with
          | (Some k, q2) => (Err (None, k), q2, fs1)
          | (None, q2) =>
              match copy_prepared (S (prepared_size s)) COPY_BUF s q2 with
              | (Ok _, _, q3) => match finish_http q3 with
                                 | (None, q4) => (Ok tt, q4, fs1)
                                 | (Some k, q4) => (Err (None, k), q4, fs1)
                                 end
              | (Err k, _, q3) => (Err (None, k), q3, fs1)
              | (Panic, _, q3) => (Panic, q3, fs1)
              | (OutOfFuel, _, q3) => (OutOfFuel, q3, fs1)
              end
          end
      | _ => (Panic, q, fs1)
      end
  end.

End WithMime.
