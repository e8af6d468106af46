(** User programs over the server API, used to state whole-body properties.  They are not part of the
    crate: [drain] is what [Read::read_to_end] (or any read loop) does on the data of a field, with the
    buffer sizes [sz 0], [sz 1], ...; [read_all] is [while let Some(field) = multipart.read_entry()?]
    draining every field. *)

From Verif Require Import Bytes Io Boundary Httparse Field.

(** The call pattern of [std::io::Read::read_to_end] on [MultipartData] (src/server/field.rs:328-332). *)
Fixpoint drain (fuel : nat) (sz : nat -> nat) (k : nat) (r : breader) : res berr bytes * breader :=
  match fuel with
  | 0 => (OutOfFuel, r)
  | S fuel' =>
      match read (sz k) r with
      | (Ok [], r1) => (Ok [], r1)
      | (Ok out, r1) =>
          match drain fuel' sz (S k) r1 with
          | (Ok more, r2) => (Ok (out ++ more), r2)
          | x => x
          end
      | (Err e, r1) => (Err e, r1)
      | (Panic, r1) => (Panic, r1)
      | (OutOfFuel, r1) => (OutOfFuel, r1)
      end
  end.

Section WithMime.
Context (ML : mime_lib).

(** The loop over [read_entry] (src/server/mod.rs:124-132). *)
Fixpoint read_all (trim : bool) (fuel : nat) (sz : nat -> nat) (r : breader)
  : res eerr (list (field_headers ML * bytes)) * breader :=
  match fuel with
  | 0 => (OutOfFuel, r)
  | S fuel' =>
      match read_entry ML trim r with
      | (Ok (Some h), r1) =>
          match drain (S (length (buf r1) + length (stream (src r1)))) sz 0 r1 with
          | (Ok data, r2) =>
              match read_all trim fuel' sz r2 with
              | (Ok l, r3) => (Ok ((h, data) :: l), r3)
              | x => x
              end
          | (Err e, r2) => (Err (EBnd e), r2)
          | (Panic, r2) => (Panic, r2)
          | (OutOfFuel, r2) => (OutOfFuel, r2)
          end
      | (Ok None, r1) => (Ok [], r1)
      | (Err e, r1) => (Err e, r1)
      | (Panic, r1) => (Panic, r1)
      | (OutOfFuel, r1) => (OutOfFuel, r1)
      end
  end.

End WithMime.

(** [r] is the state in which a call of [read_entry] (src/server/field.rs:386-415) has just returned the
    entry [h], after any history of calls on a [Multipart] built from transport [t] and boundary [b]. *)
Definition at_field (ML : mime_lib) (trim : bool) (t : transport) (b : bytes) (h : field_headers ML) (r : breader) : Prop :=
  exists os bs r0, run ML trim os (with_body t b) = (bs, r0) /\ read_entry ML trim r0 = (Ok (Some h), r).

(** [r] is reached by some history of calls. *)
Definition reached (ML : mime_lib) (trim : bool) (t : transport) (b : bytes) (r : breader) : Prop :=
  exists os bs, run ML trim os (with_body t b) = (bs, r).
