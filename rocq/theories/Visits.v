(** Requests through the Iron middleware, several at once on one disk. *)

From Verif Require Import Bytes Io Boundary Utf8 Httparse Field Rand Fs Save Savedir Iron Together Lives.

(** What an Iron server with the middleware does with one request: [read_request] (src/server/iron.rs:122-139, called by [before], 200-207); if
    it gives entries, the handler reads some paths in their directory; then the request is dropped and with it the
    entries.  [v_boundary] is the result of [multipart_boundary], [v_tmp] is [std::env::temp_dir()]; [v_rm] and [v_stages] are the removal of
    the directory, whenever it happens (see [Lives]). *)
Record visit := mkVisit {
  v_trim : bool;
  v_ic : intercept;
  v_tmp : path;
  v_tries : nat;
  v_rounds : nat;
  v_fuel : nat;
  v_rng : rng;
  v_boundary : option bytes;
  v_body : transport;
  v_looks : list path;
  v_stages : list (path -> bool);
  v_rm : rmevent;
}.

(** src/server/iron.rs:127-129: where the temporary directory is made. *)
Definition v_base (v : visit) : path := match ic_temp (v_ic v) with Some p => p | None => v_tmp v end.

Section WithMime.
Context (ML : mime_lib).

(** The answer of the middleware, and what the handler read. *)
Definition reply : Type := res (iron_error ML) (option (entries ML)) * list (option node).

(** By the functions of [Iron]. *)
Definition run_visit (v : visit) (e : env) : reply * env :=
  let '(x, e1) := read_request ML (v_trim v) (v_ic v) (v_rm v) (v_tmp v) (v_tries v) (v_rounds v) (v_fuel v) (v_rng v) (v_boundary v) (v_body v) e in
  match x with
  | Ok (Some en) => (x, map (fun q => e_fs e1 (en_dir ML en ++ q)) (v_looks v), set_fs (drop_dir (v_rm v) (dir_of en) (e_fs e1)) e1)
  | _ => (x, [], e1)
  end.

(** Entries go out of scope. *)
Definition pdropped {A} (v : visit) (en : entries ML) (a : A) : prog A :=
  pbind (pfinish EDrop (v_stages v) (v_rm v) (dir_of en)) (fun _ => PRet a).

(** src/server/iron.rs:144-157: what a partial result becomes. *)
Definition strict_answer (v : visit) (p : partial_entries ML) (why : reason) : res (iron_error ML) (option (entries ML)) :=
  match why with
  | RUtf8 => Panic
  | RIo x => Err (IMidway ML x)
  | RCount => Err (ICountLimit ML (ic_count (v_ic v)))
  | RSize => match pe_partial ML p with Some (h, _) => Err (ISizeLimit ML h) | None => Panic end
  end.

(** src/server/iron.rs:141-159, [read_request_strict]. *)
Definition pstrict (wf : nat) (v : visit) (dir : path) (g : rng) (r : breader) : prog (res (iron_error ML) (option (entries ML))) :=
  pbind (pwith_entries ML wf (v_trim v) (iron_saver (v_ic v)) (v_fuel v) (entries_new ML dir true) g r) (fun z =>
    match z with
    | (Full en, _, _) => PRet (Ok (Some en))
    | (Part p why, _, _) => pdropped v (pe_entries ML p) (strict_answer v p why)
    | (SErr x, _, _) => PRet (Err (IStart ML x))
    | (SPanic, _, _) => PRet Panic
    | (SFuel, _, _) => PRet OutOfFuel
    end).

(** src/server/iron.rs:161-181, [read_request_lenient]: the first round is the one before the loop. *)
Fixpoint plenient (wf : nat) (v : visit) (rounds : nat) (en : entries ML) (g : rng) (r : breader) : prog (res (iron_error ML) (option (entries ML))) :=
  match rounds with
  | 0 => PRet OutOfFuel
  | S n =>
      pbind (pwith_entries ML wf (v_trim v) (iron_saver (v_ic v)) (v_fuel v) en g r) (fun z =>
        match z with
        | (Full en1, _, _) => PRet (Ok (Some en1))
        | (Part p (RIo x), _, _) => pdropped v (pe_entries ML p) (Err (IMidway ML x))
        | (Part p _, g1, r1) => plenient wf v n (keep_partial ML p) g1 r1
        | (SErr x, _, _) => PRet (Err (IStart ML x))
        | (SPanic, _, _) => PRet Panic
        | (SFuel, _, _) => PRet OutOfFuel
        end)
  end.

(** The visit as a program. *)
Definition pvisit (wf : nat) (v : visit) : prog reply :=
  match v_boundary v with
  | None => PRet (Ok None, [])
  | Some b =>
      pbind (ptempdir (v_tries v) (bs "multipart-iron") (v_base v) (v_rng v)) (fun z =>
        let '(y, g1) := z in
        match y with
        | inr k => PRet (Err (ITempDir ML k), [])
        | inl dir =>
            pbind (if ic_continue (v_ic v) then plenient wf v (S (v_rounds v)) (entries_new ML dir true) g1 (with_body (v_body v) b)
                   else pstrict wf v dir g1 (with_body (v_body v) b)) (fun x =>
              match x with
              | Ok (Some en) => pbind (plooks (en_dir ML en) (v_looks v)) (fun ns => pdropped v en (x, ns))
              | _ => PRet (x, [])
              end)
        end)
  end.

(** All visits start on the disk [f]. *)
Definition come (f : fs) (vs : list (visit * env)) : pool reply :=
  (f, map (fun ve => (pvisit (S (length (e_w (snd ve)))) (fst ve), snd ve)) vs).

End WithMime.
