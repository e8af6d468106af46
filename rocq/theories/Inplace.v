(** Model of [MultipartField] / [MultipartData] with their optional inner reader
    (src/server/field.rs:214-345). *)

From Verif Require Import Bytes Io Boundary Httparse Field.

Section WithMime.
Context (ML : mime_lib).

(** src/server/field.rs:214-226 and 291-294: [MultipartField] with its [MultipartData { inner }]. *)
Record mfield := mkMF { mf_headers : field_headers ML; mf_inner : option breader }.

(** src/server/field.rs:318-320, [take_inner]: [expect] panics on [None]; otherwise [inner] becomes [None]. *)
Definition take_inner (f : mfield) : option (breader * mfield) :=
  match mf_inner f with
  | Some r => Some (r, mkMF (mf_headers f) None)
  | None => None
  end.

(** src/server/field.rs:322-324, [give_inner]. *)
Definition give_inner (f : mfield) (r : breader) : mfield := mkMF (mf_headers f) (Some r).

(** src/server/field.rs:254-274, [next_entry_inplace]; [Ok true] is [Ok(Some(self))].  If [read_entry]
    panicked, [inner] would stay [None]. *)
Definition next_entry_inplace (trim : bool) (f : mfield) : res (eerr) bool * mfield :=
  match take_inner f with
  | None => (Panic, f)
  | Some (r, f0) =>
      match read_entry ML trim r with
      | (Ok (Some h), r1) => (Ok true, mkMF h (Some r1))
      | (Ok None, r1) => (Ok false, give_inner f0 r1)
      | (Err e, r1) => (Err e, give_inner f0 r1)
      | (Panic, _) => (Panic, f0)
      | (OutOfFuel, _) => (OutOfFuel, f0)
      end
  end.

(** Calls on a [&mut MultipartField]: the data calls of [op] go through [inner_mut] (field.rs:314-316,
    which panics on [None]), [ONext] is [next_entry_inplace].  The second component is the new field;
    [None] as a result is a panic. *)
Definition fstep (trim : bool) (o : op) (f : mfield) : option (obs ML) * mfield :=
  match o with
  | ONext =>
      match next_entry_inplace trim f with
      | (Ok true, f1) => (Some (BNext ML (Ok (Some (mf_headers f1)))), f1)
      | (Ok false, f1) => (Some (BNext ML (Ok None)), f1)
      | (Err e, f1) => (Some (BNext ML (Err e)), f1)
      | (_, f1) => (None, f1)
      end
  | _ =>
      match mf_inner f with
      | None => (None, f)
      | Some r => let '(x, r1) := step ML trim o r in (Some x, mkMF (mf_headers f) (Some r1))
      end
  end.

Fixpoint frun (trim : bool) (os : list op) (f : mfield) : list (option (obs ML)) * mfield :=
  match os with
  | [] => ([], f)
  | o :: os' =>
      let '(x, f1) := fstep trim o f in
      let '(xs, f2) := frun trim os' f1 in
      (x :: xs, f2)
  end.

End WithMime.
