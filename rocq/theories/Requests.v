(** Model of the request integrations: src/server/tiny_http.rs, hyper.rs, iron.rs, nickel.rs,
    [Multipart::from_request] of src/server/mod.rs and src/client/hyper.rs. *)

From Verif Require Import Bytes Io Boundary Field Rand Fs Client Lazy.

(** ** tiny_http *)

(** [tiny_http::Request]: method, headers in order, body. *)
Record tiny_request := mkTiny { ti_method : bytes; ti_headers : list (bytes * bytes); ti_body : transport }.

Definition BOUNDARY_EQ : bytes := bs "boundary=".
Definition SEMI : bytes := bs ";".

(** src/server/tiny_http.rs:16-31, [multipart_boundary].  [HeaderField::equiv] ignores ASCII case
    ([find_header]); searching a [str] for ASCII text is searching its bytes. *)
Definition tiny_boundary (q : tiny_request) : option bytes :=
  match find_header (ti_headers q) (bs "Content-Type") with
  | None => None
  | Some ct =>
      match find_bytes ct BOUNDARY_EQ with
      | None => None
      | Some i =>
          let start := i + length BOUNDARY_EQ in
          let e := match find_bytes (skipn start ct) SEMI with None => length ct | Some k => start + k end in
          Some (slice start e ct)
      end
  end.

(** ** hyper 0.10, iron and nickel: the crate mime 0.2

    The enumerations of mime 0.2 with their known values and [Ext].  [TExt] also stands for the known values
    that this crate does not mention.  The parser of the header is hyper's; its result is the input here. *)
Inductive toplevel := TMultipart | TExt (s : bytes).
Inductive sublevel := SFormData | SExt (s : bytes).
Inductive attr := ABoundary | AExt (s : bytes).
Inductive mvalue := VUtf8 | VExt (s : bytes).
Inductive mime2 := Mime2 (t : toplevel) (s : sublevel) (ps : list (attr * mvalue)).

(** [as_str] of the four. *)
Definition top_str (t : toplevel) : bytes := match t with TMultipart => bs "multipart" | TExt s => s end.
Definition sub_str (s : sublevel) : bytes := match s with SFormData => bs "form-data" | SExt s => s end.
Definition attr_str (a : attr) : bytes := match a with ABoundary => bs "boundary" | AExt s => s end.
Definition value_str (v : mvalue) : bytes := match v with VUtf8 => bs "utf-8" | VExt s => s end.

(** A request of hyper: method, parsed content type if there is one, body. *)
Inductive hmethod := Post | OtherMethod (m : bytes).
Record hyper_request := mkHyper { hy_method : hmethod; hy_type : option mime2; hy_body : transport }.

(** src/server/hyper.rs:75-99 and 110-134, [multipart_boundary]. *)
Definition hyper_boundary (q : hyper_request) : option bytes :=
  match hy_method q with
  | OtherMethod _ => None
  | Post =>
      match hy_type q with
      | None => None
      | Some (Mime2 TMultipart SFormData params) =>
          match find (fun p : attr * mvalue => match fst p with ABoundary => true | _ => false end) params with
          | None => None
          | Some (_, VExt v) => Some v
          | Some (_, _) => None
          end
      | Some _ => None
      end
  end.

(** [Mime::get_param] of mime 0.2: the first parameter of that name. *)
Definition get_param (m : mime2) (name : bytes) : option mvalue :=
  match m with Mime2 _ _ ps => option_map snd (find (fun p => beq (attr_str (fst p)) name) ps) end.

(** src/server/iron.rs:23-30. *)
Definition iron_boundary (q : hyper_request) : option bytes :=
  match hy_type q with
  | None => None
  | Some m =>
      match m with
      | Mime2 TMultipart SFormData _ => option_map value_str (get_param m (bs "boundary"))
      | _ => None
      end
  end.

(** src/server/nickel.rs:21-25. *)
Definition nickel_boundary (q : hyper_request) : option bytes :=
  match hy_type q with
  | None => None
  | Some m => option_map value_str (get_param m (bs "boundary"))
  end.

(** ** from_request *)

(** src/server/mod.rs:85-97, [Multipart::from_request], for any implementation of [HttpRequest]. *)
Definition server_from_request {R} (multipart_boundary : R -> option bytes) (body : R -> transport) (req : R) : breader + R :=
  match multipart_boundary req with
  | Some boundary => inl (with_body (body req) boundary)
  | None => inr req
  end.

(** src/server/hyper.rs:43-50, [Switch::handle]: which of the two handlers is called, and with what. *)
Inductive handled := HMultipart (r : breader) | HNormal (q : hyper_request).
Definition switch_handle (q : hyper_request) : handled :=
  match server_from_request hyper_boundary hy_body q with
  | inl multi => HMultipart multi
  | inr req => HNormal req
  end.

(** ** The client side: src/client/hyper.rs *)

(** src/client/hyper.rs:78-83, [multipart_mime]. *)
Definition multipart_mime (bound : bytes) : mime2 :=
  Mime2 TMultipart (SExt (bs "form-data")) [(AExt (bs "boundary"), VExt bound)].

(** [Display for Mime] of mime 0.2. *)
Definition mime2_show (m : mime2) : bytes :=
  match m with
  | Mime2 t s ps => top_str t ++ bs "/" ++ sub_str s ++ concat (map (fun p => bs "; " ++ attr_str (fst p) ++ bs "=" ++ value_str (snd p)) ps)
  end.

(** The headers of a fresh [hyper::client::Request]; only the two that are set here. *)
Record hyper_client := mkHC { hc_method : hmethod; hc_type : option mime2; hc_len : option N }.

(** src/client/hyper.rs:33-52, [apply_headers]. *)
Definition hyper_apply (boundary : bytes) (len : option N) (q : hyper_client) : bool * hyper_client :=
  match hc_method q with
  | OtherMethod _ => (false, q)
  | Post => (true, mkHC Post (Some (multipart_mime boundary)) (match len with Some n => Some n | None => hc_len q end))
  end.

(** ** The lazy client and hyper: src/client/lazy.rs:485-546 *)

(** [hyper::client::Body], with the [PreparedFields] it reads from. *)
Inductive hyper_body := SizedBody (s : prepared) (n : N) | ChunkedBody (s : prepared).

(** src/client/lazy.rs:535-544, [to_body]. *)
Definition to_body (s : prepared) : hyper_body :=
  match content_len s with Some n => SizedBody s n | None => ChunkedBody s end.

(** src/client/lazy.rs:510-528, [client_request_mut], up to [send]: the content type and the body given to hyper, or the
    error of [prepare] without the name of the field; and the form that is left.  What the closure does to the request
    builder and what hyper does with the request is not modelled. *)
Definition client_request_mut (ML : mime_lib) (guess : path -> mime ML) (g : rng) (fs : lazy_form (mime ML))
  : res iokind (mime2 * hyper_body) * lazy_form (mime ML) :=
  match prepare ML guess g fs with
  | (inl (_, k), _, fs1) => (Err k, fs1)
  | (inr s, _, fs1) =>
      match boundary_str s with
      | Ok b => (Ok (multipart_mime b, to_body s), fs1)
      | _ => (Panic, fs1)
      end
  end.
