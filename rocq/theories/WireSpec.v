(** What a multipart body looks like (RFC 2046, RFC 7578).  Independent of the model of the client. *)

From Verif Require Import Bytes Spec Io HeaderSpec.

(** A field: name, file name, content type (as text), data. *)
Record part := mkPart { p_name : bytes; p_fname : option bytes; p_ctype : option bytes; p_data : bytes }.

Definition p_head (p : part) : bytes := head_text (p_name p) (p_fname p) (p_ctype p).

(** Line end and dashes, as numbers. *)
Definition crlf : bytes := [13; 10]%N.
Definition dashes : bytes := [45; 45]%N.

(** The body that the regular client writes for the fields [l]. *)
Definition wire (b : bytes) (l : list part) : bytes :=
  concat (map (fun p => dashes ++ b ++ crlf ++ p_head p ++ p_data p ++ crlf) l) ++ dashes ++ b ++ dashes ++ crlf.

(** The same fields as the lazy client writes them: the line end comes before each delimiter and none
    follows the closing one; no fields, no body. *)
Definition lazy_wire (b : bytes) (l : list part) : bytes :=
  match l with
  | [] => []
  | _ => concat (map (fun p => crlf ++ dashes ++ b ++ crlf ++ p_head p ++ p_data p) l) ++ crlf ++ dashes ++ b ++ dashes
  end.

(** The data of a source that is read until end of file, retrying interrupted reads; it stops short at
    any other failure. *)
Fixpoint source_data (t : transport) : bytes :=
  match t with
  | [] => []
  | Chunk [] :: _ => []
  | Chunk c :: t' => c ++ source_data t'
  | Fail KInterrupted :: t' => source_data t'
  | Fail _ :: _ => []
  end.

Fixpoint source_fails (t : transport) : Prop :=
  match t with
  | [] => False
  | Chunk [] :: _ => False
  | Chunk _ :: t' => source_fails t'
  | Fail KInterrupted :: t' => source_fails t'
  | Fail _ :: _ => True
  end.

(** The data of a source whose reader retries every failed read. *)
Fixpoint retried (t : transport) : bytes :=
  match t with
  | [] => []
  | Chunk [] :: _ => []
  | Chunk c :: t' => c ++ retried t'
  | Fail _ :: t' => retried t'
  end.

(** A source none of whose reads fails before the end of the file. *)
Fixpoint calm (t : transport) : Prop :=
  match t with
  | [] => True
  | Chunk [] :: _ => True
  | Chunk _ :: t' => calm t'
  | Fail _ :: _ => False
  end.
