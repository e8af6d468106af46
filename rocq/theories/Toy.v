(** A concrete [mime_lib] for examples and counterexamples: a content type is its text. *)

From Verif Require Import Bytes Io Boundary Httparse Field.

(** Stands for the [mime] crate (src/server/field.rs:202-212). *)
Definition toy : mime_lib := {|
  mime := bytes;
  mime_parse := fun b => Some b;
  mime_show := fun m => m;
  mime_is_text := fun m => starts_with m (bs "text/");
|}.

(** The header block that a browser writes for a text field, and a part with it. *)
Definition toy_head (name : bytes) : bytes :=
  bs "Content-Disposition: form-data; name=""" ++ name ++ bs """" ++ CRLF ++ CRLF.

Definition toy_part (name data : bytes) : bytes :=
  bs "--b" ++ CRLF ++ toy_head name ++ data ++ CRLF.

Definition toy_end : bytes := bs "--b--" ++ CRLF.
