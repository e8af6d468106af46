(** Model of the Iron middleware as Iron calls it (src/server/iron.rs:200-284) and of the example servers
    (examples/tiny_http.rs, iron.rs, rocket.rs, hyper_server.rs, nickel.rs). *)

From Verif Require Import Bytes Io Boundary Field Rand Fs Save Savedir Client Mock Results Requests Iron.

(** ** [BeforeMiddleware for Intercept] *)

(** [Display] of an unsigned integer (core library, by contract): its decimal digits. *)
Fixpoint digits (fuel : nat) (n : N) : bytes :=
  match fuel with
  | 0 => []
  | S fuel' => (if (n <? 10)%N then [] else digits fuel' (n / 10)) ++ [(48 + n mod 10)%N]
  end.
Definition decimal (n : N) : bytes := digits (S (N.to_nat (N.log2 n))) n.

Section WithMime.
Context (ML : mime_lib).

(** The text of the answer for each error: the messages of src/server/iron.rs:129-156, 166, 177, 179, [Display for FileSizeLimitError]
    (242-249) with 251-256, [Display for FileCountLimitError] (269-273) with 275-280, and [io_to_iron] (282-284). *)
Definition iron_text (x : iron_error ML) : bytes :=
  match x with
  | ITempDir _ _ => bs "Error opening temporary directory for request."
  | IMidway _ _ => bs "Error midway through request"
  | IStart _ _ => bs "Error at start of request"
  | ICountLimit _ n => bs "File count limit reached for request. Limit: " ++ decimal n
  | ISizeLimit _ h =>
      match fh_filename ML h with
      | Some f => bs "File size limit reached for field """ ++ fh_name ML h ++ bs """ (filename: """ ++ f ++ bs """)"
      | None => bs "File size limit reached for field """ ++ fh_name ML h ++ bs """ (no filename)"
      end
  end.

(** A request of Iron: what hyper parsed, and the [Entries] in its extensions. *)
Record iron_request := mkIron { ir_head : hyper_request; ir_entries : option (entries ML) }.

(** src/server/iron.rs:200-207, [before].  [insert] returns the [Entries] that were there before, which are dropped ([ev0]).  How
    much of the body is left is not modelled. *)
Definition before (trim : bool) (ic : intercept) (ev ev0 : rmevent) (os_temp : path) (tries rounds fuel : nat) (g : rng)
    (q : iron_request) (e : env) : res (iron_error ML) unit * iron_request * env :=
  match read_request ML trim ic ev os_temp tries rounds fuel g (iron_boundary (ir_head q)) (hy_body (ir_head q)) e with
  | (Ok (Some en), e1) =>
      (Ok tt, mkIron (ir_head q) (Some en),
       match ir_entries q with Some old => set_fs (drop_dir ev0 (dir_of old) (e_fs e1)) e1 | None => e1 end)
  | (Ok None, e1) => (Ok tt, q, e1)
  | (Err x, e1) => (Err x, q, e1)
  | (Panic, e1) => (Panic, q, e1)
  | (OutOfFuel, e1) => (OutOfFuel, q, e1)
  end.

(** ** The example servers *)

(** [Write::write_all] of the standard library on a [StdoutTee]; each call but the last uses an event of standard output. *)
Definition tee_write_all (t : tee) (d : bytes) : option iokind * tee :=
  match write_all tee_write (S (length (te_osched t))) d t with
  | (Ok _, t1) => (None, t1)
  | (Err k, t1) => (Some k, t1)
  | (_, t1) => (Some (KOther 0), t1)
  end.

(** Formatting done by other crates: [Debug] of names, file names, content types and reasons, [Display] of numbers and errors,
    [Debug] of errors. *)
Record shows := mkShows {
  sh_name : bytes -> bytes; sh_file : option bytes -> bytes; sh_type : option (mime ML) -> bytes; sh_num : nat -> bytes;
  sh_err : ioerr -> bytes; sh_reason : reason -> bytes; sh_headers : field_headers ML -> bytes;
  sh_debug : ioerr -> bytes }.

(** The machine: what reading a file returns, the error for a path without a file, the order in which the [HashMap] of some
    entries is traversed, how removing the temporary directory goes, [std::env::temp_dir()] and the attempts at making a directory in it. *)
Record machine := mkMachine {
  ma_reads : fs -> path -> transport; ma_no_file : path -> iokind;
  ma_order : entries ML -> list (bytes * list (saved_field ML)); ma_rm : rmevent; ma_temp : path; ma_tries : nat }.

(** What a handler gives to its server: an answer with status and body, an error, a panic.  [Broken]: a panic after the status 200 and a part
    of the body were sent. *)
Inductive answer := Responds (status : N) (body : bytes) | Failed (x : ioerr) | Crashed | Broken (body : bytes) | Unfinished.

Context (sh : shows) (ma : machine).

(** [entries.write_debug(StdoutTee::new(inner, &stdout))]. *)
Definition print_entries (en : entries ML) (f : fs) (t : tee) : option iokind * tee :=
  write_debug ML (sh_name sh) (sh_file sh) (sh_type sh) (sh_num sh) f (ma_reads ma f) (ma_no_file ma) tee_write_all (ma_order ma en) t.

(** The entries go out of scope. *)
Definition forget (en : entries ML) (e : env) : env := set_fs (drop_dir (ma_rm ma) (dir_of en) (e_fs e)) e.

(** Standard output: what it took and how its next calls go. *)
Definition stdout : Type := bytes * list wevent.

Definition PROCESSED : bytes := bs "Entries processed" ++ [LF].

(** examples/tiny_http.rs:56-68, iron.rs:49-66, rocket.rs:73-81, [process_entries], with [data] already in the vector.  Writing to a [Vec] does not fail. *)
Definition process_entries (en : entries ML) (data : bytes) (o : stdout) (e : env) : (iokind + bytes) * stdout * env :=
  match print_entries en (e_fs e) (mkTee data [] (fst o) (snd o)) with
  | (Some k, t) => (inl k, (te_stdout t, te_osched t), forget en e)
  | (None, t) => (inr (te_inner t ++ PROCESSED), (te_stdout t, te_osched t), forget en e)
  end.

(** [multipart.save().temp()]. *)
Definition save_request (trim : bool) (fuel : nat) (g : rng) (r : breader) (e : env) : sres (entries ML) (partial_entries ML) * env :=
  match temp ML trim saver_new (ma_temp ma) (ma_tries ma) fuel g r e with (x, _, _, e1) => (x, e1) end.

(** examples/tiny_http.rs:33-52, [process_request]. *)
Definition tiny_process (trim : bool) (fuel : nat) (g : rng) (q : tiny_request) (o : stdout) (e : env) : answer * stdout * env :=
  match server_from_request tiny_boundary ti_body q with
  | inr _ => (Responds 400 (bs "The request is not multipart"), o, e)
  | inl r =>
      match save_request trim fuel g r e with
      | (Full en, e1) =>
          match process_entries en [] o e1 with
          | (inr d, o1, e2) => (Responds 200 d, o1, e2)
          | (inl k, o1, e2) => (Failed (XDst k), o1, e2)
          end
      | (Part p why, e1) =>
          match process_entries (keep_partial ML p) [] o e1 with
          | (inl k, o1, e2) => (Failed (XDst k), o1, e2)
          | (inr _, o1, e2) => match unwrap_err why with Returns x => (Failed x, o1, e2) | Panics _ _ => (Crashed, o1, e2) end
          end
      | (SErr x, e1) => (Failed x, o, e1)
      | (SPanic, e1) => (Crashed, o, e1)
      | (SFuel, e1) => (Unfinished, o, e1)
      end
  end.

(** examples/tiny_http.rs:11-27, one turn of the loop of [main]; what it prints about errors is not modelled.  A panic ends the program. *)
Definition tiny_serve (trim : bool) (fuel : nat) (g : rng) (q : tiny_request) (o : stdout) (e : env) : answer * stdout * env :=
  match tiny_process trim fuel g q o e with
  | (Failed _, o1, e1) => (Responds 500 (bs "The received data was not correctly proccessed on the server"), o1, e1)
  | x => x
  end.

(** examples/iron.rs:19-45, [process_request]; an [IronError] is answered with its response. *)
Definition iron_process (trim : bool) (fuel : nat) (g : rng) (q : hyper_request) (o : stdout) (e : env) : answer * stdout * env :=
  match server_from_request iron_boundary hy_body q with
  | inr _ => (Responds 400 (bs "The request is not multipart"), o, e)
  | inl r =>
      match save_request trim fuel g r e with
      | (Full en, e1) =>
          match process_entries en [] o e1 with
          | (inr d, o1, e2) => (Responds 200 d, o1, e2)
          | (inl _, o1, e2) => (Responds 500 (bs "Error printing request fields"), o1, e2)
          end
      | (Part p why, e1) =>
          match process_entries (keep_partial ML p) [] o e1 with
          | (inl _, o1, e2) => (Responds 500 (bs "Error printing request fields"), o1, e2)
          | (inr _, o1, e2) =>
              match unwrap_err why with
              | Returns x => (Responds 400 (bs "error reading request: " ++ sh_err sh x), o1, e2)
              | Panics _ _ => (Crashed, o1, e2)
              end
          end
      | (SErr x, e1) => (Responds 400 (bs "error reading request: " ++ sh_err sh x), o, e1)
      | (SPanic, e1) => (Crashed, o, e1)
      | (SFuel, e1) => (Unfinished, o, e1)
      end
  end.

(** examples/rocket.rs:49-69, [process_upload] with 43-46: the answers 200 and 500.  The content type is checked by [rocket] before, see
    [rocket_upload]. *)
Definition rocket_process (trim : bool) (fuel : nat) (g : rng) (b : bytes) (t : transport) (o : stdout) (e : env) : answer * stdout * env :=
  let finish x := match x with
    | (inr d, o1, e2) => (Responds 200 d, o1, e2)
    | (inl k, o1, e2) => (Responds 500 (sh_err sh (XDst k)), o1, e2)
    end in
  match save_request trim fuel g (with_body t b) e with
  | (Full en, e1) => finish (process_entries en [] o e1)
  | (Part p why, e1) =>
      finish (process_entries (pe_entries ML p)
        (bs "Request partially processed: " ++ sh_reason sh why ++ [LF] ++
         match pe_partial ML p with Some (h, _) => bs "Stopped on field: " ++ sh_headers sh h ++ [LF] | None => [] end) o e1)
  | (SErr x, e1) => (Responds 500 (sh_err sh x), o, e1)
  | (SPanic, e1) => (Crashed, o, e1)
  | (SFuel, e1) => (Unfinished, o, e1)
  end.

(** examples/rocket.rs:26-47, [multipart_upload]: [form] is [is_form_data()], [ps] are the parameters. *)
Definition rocket_upload (trim : bool) (fuel : nat) (g : rng) (form : bool) (ps : list (bytes * bytes)) (t : transport) (o : stdout) (e : env)
  : answer * stdout * env :=
  if form then
    match find (fun p => beq (fst p) (bs "boundary")) ps with
    | None => (Responds 400 (bs "`Content-Type: multipart/form-data` boundary param not provided"), o, e)
    | Some (_, b) => rocket_process trim fuel g b t o e
    end
  else (Responds 400 (bs "Content-Type not multipart/form-data"), o, e).

(** examples/hyper_server.rs:37-42, [process_entries] with the [unwrap] of its callers: [started] is the error of [res.start()], [is]
    how the next calls of the response go.  The status is hyper's default. *)
Definition hyper_entries (started : option iokind) (is : list wevent) (en : entries ML) (o : stdout) (e : env) : answer * stdout * env :=
  match started with
  | Some _ => (Crashed, o, forget en e)
  | None =>
      match print_entries en (e_fs e) (mkTee [] is (fst o) (snd o)) with
      | (None, t) => (Responds 200 (te_inner t), (te_stdout t, te_osched t), forget en e)
      | (Some _, t) => (Broken (te_inner t), (te_stdout t, te_osched t), forget en e)
      end
  end.

(** examples/hyper_server.rs:12-35.  [send] of the short texts is taken to succeed; what [println!] adds to standard output is not modelled. *)
Definition hyper_serve (trim : bool) (fuel : nat) (g : rng) (started : option iokind) (is : list wevent) (q : hyper_request) (o : stdout) (e : env)
  : answer * stdout * env :=
  match switch_handle q with
  | HNormal _ => (Responds 418 (bs "Please send a multipart req :(" ++ [LF]), o, e)
  | HMultipart r =>
      match save_request trim fuel g r e with
      | (Full en, e1) => hyper_entries started is en o e1
      | (Part p _, e1) => hyper_entries started is (pe_entries ML p) o e1
      | (SErr x, e1) => (Responds 200 (bs "An error occurred " ++ sh_err sh x), o, e1)
      | (SPanic, e1) => (Crashed, o, e1)
      | (SFuel, e1) => (Unfinished, o, e1)
      end
  end.

(** examples/nickel.rs:39-47, [process_entries]: an error of [write_debug] is written to the response, after what is there. *)
Definition nickel_entries (started : option iokind) (is : list wevent) (en : entries ML) (o : stdout) (e : env) : answer * stdout * env :=
  match started with
  | Some k => (Failed (XDst k), o, forget en e)
  | None =>
      match print_entries en (e_fs e) (mkTee [] is (fst o) (snd o)) with
      | (None, t) => (Responds 200 (te_inner t), (te_stdout t, te_osched t), forget en e)
      | (Some k, t) =>
          let '(x, w) := write_pieces dest_write_all [bs "Error while reading entries: "; sh_err sh (XDst k); [LF]] (mkDest (te_inner t) (te_isched t)) in
          (match x with None => Responds 200 (d_out w) | Some _ => Broken (d_out w) end, (te_stdout t, te_osched t), forget en e)
      end
  end.

(** examples/nickel.rs:12-35, [handle_multipart], with [multipart_body] (src/server/nickel.rs:40-44). *)
Definition nickel_serve (trim : bool) (fuel : nat) (g : rng) (started : option iokind) (is : list wevent) (q : hyper_request) (o : stdout) (e : env)
  : answer * stdout * env :=
  match server_from_request nickel_boundary hy_body q with
  | inr _ => (Responds 400 (bs "Request seems not was a multipart request"), o, e)
  | inl r =>
      match save_request trim fuel g r e with
      | (Full en, e1) => nickel_entries started is en o e1
      | (Part p _, e1) => nickel_entries started is (keep_partial ML p) o e1
      | (SErr x, e1) => (Responds 500 (bs "Server could not handle multipart POST! " ++ sh_debug sh x), o, e1)
      | (SPanic, e1) => (Crashed, o, e1)
      | (SFuel, e1) => (Unfinished, o, e1)
      end
  end.

End WithMime.
