(** Specification vocabulary, independent of the model of the code. *)

From Verif Require Import Bytes.

(** [d] occurs in [r] at offset [i]. *)
Definition occurs_at (d r : bytes) (i : nat) : Prop :=
  exists a b, r = a ++ d ++ b /\ length a = i.

(** [d] does not occur in [r]. *)
Definition absent (d r : bytes) : Prop := forall i, ~ occurs_at d r i.

(** [r] is [pre], then the FIRST occurrence of [d] in [r], then [post]. *)
Definition first_split (d r pre post : bytes) : Prop :=
  r = pre ++ d ++ post /\ forall i, occurs_at d r i -> length pre <= i.

(** [p] is a prefix of [q]. *)
Definition prefix_of (p q : bytes) : Prop := exists t, q = p ++ t.

(** The content of a field whose bytes up to the delimiter are [pre]: the CRLF that belongs to the
    delimiter is not part of the content (RFC 2046). *)
Definition field_content (pre c : bytes) : Prop :=
  pre = c ++ CRLF \/ (c = pre /\ forall c', pre <> c' ++ CRLF).

(** [c] is the content of the field that the bytes [R] start with: up to the first delimiter. *)
Definition content (D R c : bytes) : Prop :=
  exists pre post, first_split D R pre post /\ field_content pre c.

(** [w] is [c] with at most one CRLF as surplus. *)
Definition padded (c w : bytes) : Prop := w = c \/ w = c ++ CRLF.

(** The fields of a multipart body [R] with delimiter [D] (RFC 2046): what precedes the first delimiter
    is ignored; a delimiter followed by CRLF starts a field, which is a header block (recognised by
    [head]) followed by the content; a delimiter followed by "--" ends the body, what follows is
    ignored. *)
Inductive parts {H : Type} (head : bytes -> H -> Prop) (D : bytes) : bytes -> list (H * bytes) -> Prop :=
| parts_end R pre q :
    first_split D R pre (DASHES ++ q) -> parts head D R []
| parts_field R pre x rest h c l :
    first_split D R pre (CRLF ++ x ++ rest) -> head x h ->
    content D (x ++ rest) (x ++ c) -> parts head D rest l ->
    parts head D R ((h, c) :: l).

(** The verdict on the bytes that remain: determined by the first delimiter and what follows it. *)
Inductive verdict :=
| VField (q : bytes)       (* CRLF follows; [q] is the rest *)
| VEnd (q : bytes)         (* "--" follows *)
| VBad (a b : byte)        (* two other bytes follow *)
| VShort                   (* the body ends before two more bytes *)
| VMissing.                (* there is no delimiter *)

Definition judges (D R : bytes) (v : verdict) : Prop :=
  match v with
  | VField q => exists pre, first_split D R pre (CRLF ++ q)
  | VEnd q => exists pre, first_split D R pre (DASHES ++ q)
  | VBad a b => [a; b] <> CRLF /\ [a; b] <> DASHES /\ exists pre q, first_split D R pre (a :: b :: q)
  | VShort => exists pre post, first_split D R pre post /\ length post < 2
  | VMissing => absent D R
  end.

(** The delimiter of boundary [b] is [--b]. *)
Definition delimiter (b : bytes) : bytes := DASHES ++ b.

(** UTF-8 (RFC 3629): a string is UTF-8 iff it is the concatenation of encoded scalar values. *)
Definition scalar (c : N) : Prop := (c < 55296 \/ 57344 <= c < 1114112)%N.

Definition encode_char (c : N) : bytes :=
  if (c <? 128)%N then [c]
  else if (c <? 2048)%N then [192 + c / 64; 128 + c mod 64]%N
  else if (c <? 65536)%N then [224 + c / 4096; 128 + (c / 64) mod 64; 128 + c mod 64]%N
  else [240 + c / 262144; 128 + (c / 4096) mod 64; 128 + (c / 64) mod 64; 128 + c mod 64]%N.

Definition utf8_string (b : bytes) : Prop :=
  exists cs, Forall scalar cs /\ b = concat (map encode_char cs).
