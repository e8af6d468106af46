(** Model of the remaining programs that come with the crate: the example clients (examples/hyper_client.rs,
    hyper_reqbuilder.rs), the example of the Iron middleware (examples/iron_intercept.rs) and the tool src/bin/form_test.rs. *)

From Verif Require Import Bytes Io Boundary Field Rand Fs Save Savedir Client Lazy Mock Results Requests Iron Servers.

Section WithMime.
Context (ML : mime_lib) (octet : mime ML) (guess : path -> mime ML).

(** ** The clients *)

Definition LOREM : path := [bs "lorem_ipsum.txt"].

(** examples/hyper_client.rs:38-47, [write_body]; [lorem] is what [File::open] gives.  A slice gives its bytes in one read
    (they fit the buffer of [io::copy]). *)
Definition example_fields (lorem : iokind + transport) : list (cfield (mime ML)) :=
  [CText (bs "text") (bs "Hello, world!"); CFile (bs "file") LOREM lorem;
   CStream (bs "binary") None None [Chunk (bs "Hello world from binary!")]].

(** examples/hyper_client.rs:12-36, [main], up to the answer: [from_request], [write_body] (a [?] after each call but the last, whose
    error is the result) and [send], each with [expect].  [q] is hyper's request. *)
Definition hyper_client_main (g : rng) (q : http) (lorem : iokind + transport) : res iokind unit * http :=
  match client ML octet guess g q (example_fields lorem) with
  | (None, q1) => (Ok tt, q1)
  | (Some _, q1) => (Panic, q1)
  end.

(** examples/hyper_reqbuilder.rs:10-16: the form.  [File::open] and the length of the file are given. *)
Definition example_form (lorem : iokind + (iokind + N) * transport) : lazy_form (mime ML) :=
  add_stream ML octet (bs "binary") [Chunk (bs "Hello world in binary!")] None None
    (add_file ML (bs "file") LOREM lorem (add_text ML (bs "text") (bs "Hello, world!") (lazy_new ML))).

(** examples/hyper_reqbuilder.rs:8-20, [main]: [client_request] up to hyper's [send] (see [client_request_mut]), with [expect]. *)
Definition reqbuilder_main (g : rng) (lorem : iokind + (iokind + N) * transport) : res iokind (mime2 * hyper_body) :=
  match fst (client_request_mut ML guess g (example_form lorem)) with
  | Ok x => Ok x
  | Err _ => Panic
  | Panic => Panic
  | OutOfFuel => OutOfFuel
  end.

(** ** The Iron middleware *)

(** [iron::Response]: the status, if one was set, and the body. *)
Definition iron_response : Type := option N * bytes.

(** What Iron sends ([Response::write_back], by contract): 404 if no status was set. *)
Definition iron_sends (x : iron_response) : N * bytes := (match fst x with Some n => n | None => 404%N end, snd x).

(** examples/iron_intercept.rs:11-17, the handler; [show] is [Debug] of [Entries]. *)
Definition intercept_handler (show : entries ML -> bytes) (q : iron_request ML) : iron_response :=
  match ir_entries ML q with
  | Some en => (None, show en)
  | None => (None, bs "Not a multipart request")
  end.

(** examples/iron_intercept.rs:9-25: a [Chain] with that handler behind [Intercept::default()] (by contract of Iron: an error of
    [before] is answered with its response, here the text without a status, and the handler is not called).  When the answer
    is made the request goes out of scope and with it the entries; [ev] is the removal of their directory. *)
Definition intercept_main (show : entries ML -> bytes) (trim : bool) (ev : rmevent) (os_temp : path) (tries fuel : nat) (g : rng)
    (q : hyper_request) (e : env) : res iokind iron_response * env :=
  match before ML trim intercept_default ev ev os_temp tries 0 fuel g (mkIron ML q None) e with
  | (Ok _, q1, e1) =>
      (Ok (intercept_handler show q1),
       match ir_entries ML q1 with Some en => set_fs (drop_dir ev (dir_of en) (e_fs e1)) e1 | None => e1 end)
  | (Err x, _, e1) => (Ok (None, iron_text ML x), e1)
  | (Panic, _, e1) => (Panic, e1)
  | (OutOfFuel, _, e1) => (OutOfFuel, e1)
  end.

(** ** form_test *)

(** src/bin/form_test.rs:19-34, [read_multipart]: [page] is what [File::open] gives, [started] the error of [start], [w] the response.
    What is printed is not modelled. *)
Definition form_test (trim : bool) (fuel : nat) (page : iokind + transport) (started : option iokind) (w : dest) (q : hyper_request) : answer :=
  let serve :=
    match page, started with
    | inr src, None =>
        match io_copy dest_write_all src w with
        | (None, w1) => Responds 200 (d_out w1)
        | (Some _, w1) => Broken (d_out w1)
        end
    | _, _ => Crashed
    end in
  match server_from_request hyper_boundary hy_body q with
  | inr _ => serve
  | inl r =>
      match foreach_entry ML trim (fun _ _ => []) fuel 0 r with
      | (Ok _, _, _) | (Err _, _, _) => serve
      | (Panic, _, _) => Crashed
      | (OutOfFuel, _, _) => Unfinished
      end
  end.

End WithMime.
