(** Model of [httparse::parse_headers] (external crate, version 1.x, modelled from its published source).

    [trim] distinguishes the versions: older releases keep trailing blanks of a header value, newer
    ones drop them.  Every theorem holds for both. *)

From Verif Require Import Bytes.

(** [httparse::Error] variants that [parse_headers] can return. *)
Inductive herr := HHeaderName | HHeaderValue | HNewLine | HTooManyHeaders.

(** [is_header_name_token]: the tchar set of RFC 7230. *)
Definition name_token (b : byte) : bool :=
  ((48 <=? b) && (b <=? 57) || (65 <=? b) && (b <=? 90) || (97 <=? b) && (b <=? 122)
   || (b =? 33) || (b =? 35) || (b =? 36) || (b =? 37) || (b =? 38) || (b =? 39) || (b =? 42)
   || (b =? 43) || (b =? 45) || (b =? 46) || (b =? 94) || (b =? 95) || (b =? 96) || (b =? 124)
   || (b =? 126))%N.

(** [is_header_value_token]: everything but control characters, with HTAB. *)
Definition value_token (b : byte) : bool :=
  ((b =? 9) || ((32 <=? b) && negb (b =? 127)))%N.

(** [b' '] or [b'\t']. *)
Definition blank (b : byte) : bool := ((b =? 32) || (b =? 9))%N.

Inductive hstep (A : Type) := HPartial | HErr (e : herr) | HDone (a : A) (rest : bytes).
Arguments HPartial {A}.
Arguments HErr {A} e.
Arguments HDone {A} a rest.

(** Rest of the header name up to the colon; [acc] is the name so far, reversed. *)
Fixpoint scan_name (acc : bytes) (b : bytes) : hstep bytes :=
  match b with
  | [] => HPartial
  | c :: t => if (c =? 58)%N then HDone (rev acc) t
              else if name_token c then scan_name (c :: acc) t
              else HErr HHeaderName
  end.

(** Blanks between the colon and the value. *)
Fixpoint skip_blanks (b : bytes) : bytes :=
  match b with
  | c :: t => if blank c then skip_blanks t else b
  | [] => []
  end.

(** The value up to the end of line. *)
Fixpoint scan_value (acc : bytes) (b : bytes) : hstep bytes :=
  match b with
  | [] => HPartial
  | c :: t =>
      if value_token c then scan_value (c :: acc) t
      else if (c =? CR)%N then
        match t with
        | [] => HPartial
        | d :: t' => if (d =? LF)%N then HDone (rev acc) t' else HErr HHeaderValue
        end
      else if (c =? LF)%N then HDone (rev acc) t
      else HErr HHeaderValue
  end.

(** Trailing blanks of the value (newer versions). *)
Definition trim_end (v : bytes) : bytes := rev (skip_blanks (rev v)).

(** [parse_headers_iter]; [slots] is the number of unused entries of the headers array. *)
Fixpoint parse_headers (trim : bool) (slots : nat) (b : bytes) : hstep (list (bytes * bytes)) :=
  match b with
  | [] => HPartial
  | c :: t =>
      if (c =? CR)%N then
        match t with
        | [] => HPartial
        | d :: t' => if (d =? LF)%N then HDone [] t' else HErr HNewLine
        end
      else if (c =? LF)%N then HDone [] t
      else if negb (name_token c) then HErr HHeaderName
      else match slots with
           | 0 => HErr HTooManyHeaders
           | S slots' =>
               match scan_name [c] t with
               | HPartial => HPartial
               | HErr e => HErr e
               | HDone name t1 =>
                   match scan_value [] (skip_blanks t1) with
                   | HPartial => HPartial
                   | HErr e => HErr e
                   | HDone v t2 =>
                       match parse_headers trim slots' t2 with
                       | HPartial => HPartial
                       | HErr e => HErr e
                       | HDone hs t3 => HDone ((name, if trim then trim_end v else v) :: hs) t3
                       end
                   end
               end
           end
  end.
