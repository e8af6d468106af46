(** Model of src/mock.rs: in-memory request, buffer and tee used to test the client and the server. *)

From Verif Require Import Bytes Io Boundary Field Rand Fs Client.

(** [Rng::gen_range(1..=n)] for [0 < n] (external crate, by contract: any value of the range). *)
Definition gen_range1 (n : nat) (g : rng) : nat * rng :=
  let '(x, g1) := draw g in (S (N.to_nat (x mod N.of_nat n)), g1).

(** [std::io::Write::write_all] for a writer given by its [write]: empty data is no call, interrupted calls
    are retried, [Ok(0)] is an error.  [fuel] bounds the number of calls. *)
Fixpoint write_all {W} (write : W -> bytes -> (iokind + nat) * W) (fuel : nat) (d : bytes) (w : W) : res iokind unit * W :=
  match d with
  | [] => (Ok tt, w)
  | _ =>
      match fuel with
      | 0 => (OutOfFuel, w)
      | S fuel' =>
          match write w d with
          | (inl k, w1) => if iokind_eqb k KInterrupted then write_all write fuel' d w1 else (Err k, w1)
          | (inr 0, w1) => (Err KWriteZero, w1)
          | (inr n, w1) => write_all write fuel' (skipn n d) w1
          end
      end
  end.

(** ** ClientRequest and HttpBuffer *)

(** src/mock.rs:18-21. *)
Record creq := mkCReq { cr_boundary : option bytes; cr_len : option N }.
Definition creq_default : creq := mkCReq None None.

(** src/mock.rs:48-56, [HttpBuffer]. *)
Record hbuf := mkHBuf { hb_buf : bytes; hb_boundary : bytes; hb_len : option N; hb_rng : rng }.

(** src/mock.rs:28-32. *)
Definition mock_apply (b : bytes) (len : option N) (c : creq) : bool * creq := (true, mkCReq (Some b) len).

(** src/mock.rs:34-41, with [new_empty] and [with_buf] (60-73); [g] is the generator of the new buffer. *)
Definition mock_open (c : creq) (g : rng) : res iokind hbuf :=
  match cr_boundary c with
  | Some b => Ok (mkHBuf [] b (cr_len c) g)
  | None => Panic
  end.

(** src/mock.rs:89-101, [write] of [HttpBuffer]. *)
Definition hbuf_write (h : hbuf) (d : bytes) : (iokind + nat) * hbuf :=
  match d with
  | [] => (inr 0, h)
  | _ => let '(n, g1) := gen_range1 (length d) (hb_rng h) in
         (inr n, mkHBuf (hb_buf h ++ firstn n d) (hb_boundary h) (hb_len h) g1)
  end.

(** [write_all] on an [HttpBuffer].  Every call takes at least one byte, so [length d] calls are enough
    (PropsMock, [hbuf_write_all]); the last case does not happen. *)
Definition hbuf_write_all (h : hbuf) (d : bytes) : option iokind * hbuf :=
  match write_all hbuf_write (length d) d h with
  | (Ok _, h1) => (None, h1)
  | (Err k, h1) => (Some k, h1)
  | (_, h1) => (Some (KOther 0), h1)
  end.

(** src/client/mod.rs:53-59, 213-220 on a [ClientRequest]; [finish] returns the buffer (mock.rs:113-114). *)
Definition mock_client (ML : mime_lib) (octet : mime ML) (guess : path -> mime ML) (g gbuf : rng) (c : creq)
    (fs : list (cfield (mime ML))) : res iokind hbuf :=
  let '(b, _) := gen_boundary g in
  let '(_, c1) := mock_apply b None c in
  match mock_open c1 gbuf with
  | Ok h =>
      match write_fields hbuf_write_all ML octet guess fs (mkMW h b false) with
      | (Some k, _) => Err k
      | (None, m1) =>
          match finish_writer hbuf_write_all m1 with
          | (Some k, _) => Err k
          | (None, m2) => Ok (m_inner m2)
          end
      end
  | Err k => Err k
  | Panic => Panic
  | OutOfFuel => OutOfFuel
  end.

(** The same with [SizedRequest] (src/client/sized.rs:76-90): the fields are buffered, then the headers are
    applied and the buffer is copied. *)
Definition mock_client_sized (ML : mime_lib) (octet : mime ML) (guess : path -> mime ML) (g gbuf : rng) (c : creq)
    (fs : list (cfield (mime ML))) : res iokind hbuf :=
  let '(b, _) := gen_boundary g in
  let q := mkHttp (fun _ _ => true) None [] None [] in
  match write_fields sized_write_all ML octet guess fs (mkMW (mkSized q [] b) b false) with
  | (Some k, _) => Err k
  | (None, m1) =>
      match finish_writer sized_write_all m1 with
      | (Some k, _) => Err k
      | (None, m2) =>
          let body := z_buffer (m_inner m2) in
          let '(ok, c1) := mock_apply b (Some (N.of_nat (length body))) c in
          if negb ok then Err (KOther 0)
          else match mock_open c1 gbuf with
               | Ok h => match io_copy hbuf_write_all (slice_source body) h with
                         | (Some k, _) => Err k
                         | (None, h1) => Ok h1
                         end
               | Err k => Err k
               | Panic => Panic
               | OutOfFuel => OutOfFuel
               end
      end
  end.

(** ** ServerRequest *)

(** src/mock.rs:130-138. *)
Record sreq := mkSReq { sr_data : bytes; sr_boundary : bytes; sr_len : option N; sr_rng : rng }.

(** src/mock.rs:75-83, [for_server]. *)
Definition for_server (h : hbuf) (g : rng) : sreq := mkSReq (hb_buf h) (hb_boundary h) (hb_len h) g.

(** src/mock.rs:155-168, [read] with [room] bytes for the result ([Read for &[u8]] copies what fits). *)
Definition sreq_read (room : nat) (q : sreq) : bytes * sreq :=
  if room =? 0 then ([], q)
  else let '(n, g1) := gen_range1 room (sr_rng q) in
       (firstn n (sr_data q), mkSReq (skipn n (sr_data q)) (sr_boundary q) (sr_len q) g1).

(** The results of reads with the given rooms. *)
Fixpoint sreq_reads (rooms : list nat) (q : sreq) : list bytes * sreq :=
  match rooms with
  | [] => ([], q)
  | n :: l => let '(b, q1) := sreq_read n q in
              let '(bl, q2) := sreq_reads l q1 in (b :: bl, q2)
  end.

(** src/mock.rs:170-178. *)
Definition sreq_multipart_boundary (q : sreq) : option bytes := Some (sr_boundary q).

(** ** StdoutTee *)

(** src/mock.rs:181-184; the inner writer and standard output are each the bytes taken and a schedule. *)
Record tee := mkTee { te_inner : bytes; te_isched : list wevent; te_stdout : bytes; te_osched : list wevent }.

(** One [write] of a scheduled writer that has taken [out]. *)
Definition sched_write (s : bytes * list wevent) (d : bytes) : (iokind + nat) * (bytes * list wevent) :=
  let '(out, sched) := s in
  match sched with
  | [] => (inr (length d), (out ++ d, []))
  | WAccept n :: s' => (inr (Nat.min n (length d)), (out ++ firstn n d, s'))
  | WFail k :: s' => (inl k, (out, s'))
  end.

(** src/mock.rs:195-199, [write] of [StdoutTee].  The inner [write_all] makes at most one call for each event
    of its schedule and one more, so [S (length (te_isched t))] calls are enough. *)
Definition tee_write (t : tee) (d : bytes) : (iokind + nat) * tee :=
  match write_all sched_write (S (length (te_isched t))) d (te_inner t, te_isched t) with
  | (Ok _, (i, s)) =>
      let '(x, (o, s')) := sched_write (te_stdout t, te_osched t) d in (x, mkTee i s o s')
  | (Err k, (i, s)) => (inl k, mkTee i s (te_stdout t) (te_osched t))
  | (_, (i, s)) => (inl (KOther 0), mkTee i s (te_stdout t) (te_osched t))
  end.
