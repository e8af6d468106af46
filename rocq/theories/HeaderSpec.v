(** What a header block is (RFC 7230, with the leniency of [httparse]: bare LF line ends), and what a
    form-data [Content-Disposition] is.  Independent of the model of the code. *)

From Verif Require Import Bytes Spec.

(** Characters of a header name (tchar), of a value, and blanks. *)
Definition tchar (c : byte) : Prop :=
  In c (bs "!#$%&'*+-.^_`|~0123456789ABCDEFGHIJKLMNOPQRSTUVWXYZabcdefghijklmnopqrstuvwxyz").
Definition vchar (c : byte) : Prop := (c = 9 \/ (32 <= c /\ c <> 127))%N.
Definition space (c : byte) : Prop := (c = 32 \/ c = 9)%N.
Definition eol (e : bytes) : Prop := e = CRLF \/ e = [LF].

Definition starts_spaced (v : bytes) : Prop := exists c t, v = c :: t /\ space c.
Definition ends_spaced (v : bytes) : Prop := exists c t, v = t ++ [c] /\ space c.

(** The value [v] that is kept of the text [val]: without trailing blanks if [trim]. *)
Definition kept (trim : bool) (val v : bytes) : Prop :=
  if trim then exists w, val = v ++ w /\ Forall space w /\ ~ ends_spaced v else v = val.

(** [x] is a header block with the headers [hs]. *)
Inductive header_block (trim : bool) : bytes -> list (bytes * bytes) -> Prop :=
| hb_end e : eol e -> header_block trim e []
| hb_line n w val v e x hs :
    n <> [] -> Forall tchar n -> Forall space w -> Forall vchar val -> ~ starts_spaced val ->
    kept trim val v -> eol e -> header_block trim x hs ->
    header_block trim (n ++ bs ":" ++ w ++ val ++ e ++ x) ((n, v) :: hs).

(** ASCII case variants. *)
Definition case_variant (x y : byte) : Prop :=
  (x = y \/ (65 <= x <= 90 /\ y = x + 32) \/ (65 <= y <= 90 /\ x = y + 32))%N.
Definition same_name (a b : bytes) : Prop := Forall2 case_variant a b.
Definition same_headers (a b : list (bytes * bytes)) : Prop :=
  Forall2 (fun h h' => same_name (fst h) (fst h') /\ snd h = snd h') a b.

(** [v] is the value of the first header called [name]. *)
Definition header_value (hs : list (bytes * bytes)) (name v : bytes) : Prop :=
  exists l n r, hs = l ++ (n, v) :: r /\ same_name n name /\ forall h, In h l -> ~ same_name (fst h) name.

(** White space: the scalar values with the Unicode property White_Space. *)
Definition white_scalars : list N :=
  ([9; 10; 11; 12; 13; 32; 133; 160; 5760; 8192; 8193; 8194; 8195; 8196; 8197; 8198; 8199; 8200; 8201;
    8202; 8232; 8233; 8239; 8287; 12288])%N.
Definition white_space (w : bytes) : Prop :=
  exists cs, Forall (fun c => In c white_scalars) cs /\ w = concat (map encode_char cs).

(** The value of a [Content-Disposition] header of type form-data with parameters [ps]. *)
Definition form_data (v ps : bytes) : Prop :=
  exists w1 w2, v = w1 ++ bs "form-data" ++ w2 ++ bs ";" ++ ps /\ white_space w1 /\ white_space w2.

(** A parameter value: no [;], no control characters, no quote at either end. *)
Definition plain (s : bytes) : Prop :=
  Forall vchar s /\ ~ In 59%N s /\ (forall t, s <> 34%N :: t) /\ (forall t, s <> t ++ [34%N]).

Definition quoted (s : bytes) : bytes := bs """" ++ s ++ bs """".

(** Header text that browsers and this crate's client write. *)
Definition disp_value (name : bytes) (fname : option bytes) : bytes :=
  bs "form-data; name=" ++ quoted name ++
  match fname with Some f => bs "; filename=" ++ quoted f | None => [] end.

Definition head_text (name : bytes) (fname ctype : option bytes) : bytes :=
  bs "Content-Disposition: " ++ disp_value name fname ++
  match ctype with Some m => CRLF ++ bs "Content-Type: " ++ m | None => [] end ++ CRLF ++ CRLF.
