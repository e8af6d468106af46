(** The unit tests of the crate, as programs over the model of the reader. *)

From Verif Require Import Bytes Io Boundary Httparse Field Drive.

(** What the tests of [BoundaryReader] do: [Read::read_to_string] (src/server/boundary.rs:346, 396 ...), [consume_boundary]
    and [read_to_boundary]. *)
Inductive call := Text | Next | Peek.

(** What the calls return.  ([read_to_string] is [drain] with the buffer sizes of the standard library; all texts of the tests are ASCII.) *)
Inductive said :=
| SText (x : res berr bytes)
| SNext (x : res berr bool)
| SPeek (x : res berr bytes).

Definition failed (x : said) : bool :=
  match x with SText (Ok _) | SNext (Ok _) | SPeek (Ok _) => false | _ => true end.

Definition make (sz : nat -> nat) (c : call) (r : breader) : said * breader :=
  match c with
  | Text => let '(x, r1) := drain (S (length (buf r) + length (stream (src r)))) sz 0 r in (SText x, r1)
  | Next => let '(x, r1) := consume_boundary r in (SNext x, r1)
  | Peek => let '(x, r1) := read_to_boundary r in (SPeek x, r1)
  end.

(** A test unwraps every result: it goes on only after success. *)
Fixpoint calls (sz : nat -> nat) (cs : list call) (r : breader) : list said * breader :=
  match cs with
  | [] => ([], r)
  | c :: cs' =>
      let '(x, r1) := make sz c r in
      if failed x then ([x], r1) else let '(xs, r2) := calls sz cs' r1 in (x :: xs, r2)
  end.

(** src/server/boundary.rs:272-277. *)
Definition BOUNDARY : bytes := bs "boundary".
Definition TEST_VAL : bytes :=
  bs "--boundary" ++ CRLF ++ bs "dashed-value-1" ++ CRLF ++ bs "--boundary" ++ CRLF ++ bs "dashed-value-2" ++ CRLF ++ bs "--boundary--".

(** src/server/boundary.rs:343-373, [test_boundary_reader], as used by [test_boundary] (280-291) and [test_split_boundary] (326-341). *)
Definition boundary_calls : list call := [Text; Next; Text; Next; Text; Next; Text].
Definition boundary_says : list said :=
  [SText (Ok []); SNext (Ok true); SText (Ok (bs "dashed-value-1")); SNext (Ok true); SText (Ok (bs "dashed-value-2")); SNext (Ok false); SText (Ok [])].

(** src/server/boundary.rs:375-395, [test_empty_body]. *)
Definition empty_body : bytes := bs "--boundary--".
Definition empty_calls : list call := [Next; Text; Next].
Definition empty_says : list said := [SNext (Ok false); SText (Ok []); SNext (Ok false)].

(** src/server/boundary.rs:397-423, [test_leading_crlf]. *)
Definition leading_body : bytes :=
  CRLF ++ CRLF ++ bs "--boundary" ++ CRLF ++ bs "asdf1234" ++ CRLF ++ CRLF ++ bs "--boundary--".
Definition leading_calls : list call := [Next; Text; Next; Text].
Definition leading_says : list said := [SNext (Ok true); SText (Ok (bs "asdf1234" ++ CRLF)); SNext (Ok false); SText (Ok [])].

(** src/server/boundary.rs:425-466, [test_trailing_crlf]; the two calls of [read_to_boundary] are [Peek]. *)
Definition trailing_body : bytes :=
  bs "--boundary" ++ CRLF ++ bs "asdf1234" ++ CRLF ++ CRLF ++ bs "--boundary" ++ CRLF ++ bs "hjkl5678" ++ CRLF ++ bs "--boundary--".
Definition trailing_calls : list call := [Next; Peek; Peek; Text; Next; Text; Next; Text].
Definition trailing_says (p : bytes) : list said :=
  [SNext (Ok true); SPeek (Ok p); SPeek (Ok p); SText (Ok (bs "asdf1234" ++ CRLF)); SNext (Ok true); SText (Ok (bs "hjkl5678"));
   SNext (Ok false); SText (Ok [])].

(** src/server/boundary.rs:468-509, [test_trailing_lflf]. *)
Definition lflf_body : bytes :=
  bs "--boundary" ++ CRLF ++ bs "asdf1234" ++ [LF; LF] ++ CRLF ++ bs "--boundary" ++ CRLF ++ bs "hjkl5678" ++ CRLF ++ bs "--boundary--".
Definition lflf_says (p : bytes) : list said :=
  [SNext (Ok true); SPeek (Ok p); SPeek (Ok p); SText (Ok (bs "asdf1234" ++ [LF; LF])); SNext (Ok true); SText (Ok (bs "hjkl5678"));
   SNext (Ok false); SText (Ok [])].

(** src/server/boundary.rs:511-548, [test_unterminated_body]; the error is that of the last [consume_boundary]. *)
Definition unterminated_body : bytes :=
  bs "--boundary" ++ CRLF ++ bs "asdf1234" ++ [LF; LF] ++ CRLF ++ bs "--boundary" ++ CRLF ++ bs "hjkl5678  ".
Definition unterminated_calls : list call := [Next; Peek; Peek; Text; Next; Text; Next].
Definition unterminated_says (p : bytes) : list said :=
  [SNext (Ok true); SPeek (Ok p); SPeek (Ok p); SText (Ok (bs "asdf1234" ++ [LF; LF])); SNext (Ok true); SText (Ok (bs "hjkl5678  "));
   SNext (Err EEndOfBody)].

(** src/server/boundary.rs:550-562, [test_lone_boundary] and [test_invalid_boundary]. *)
Definition lone_body : bytes := bs "--boundary".
Definition invalid_body : bytes := bs "--boundary" ++ [0%N; 0%N].

(** src/server/boundary.rs:564-579, [test_skip_field]. *)
Definition skip_body : bytes := bs "--boundary" ++ CRLF ++ bs "field1" ++ CRLF ++ bs "--boundary" ++ CRLF ++ bs "field2" ++ CRLF ++ bs "--boundary--".
Definition skip_calls : list call := [Next; Next; Text; Next].
Definition skip_says : list said := [SNext (Ok true); SNext (Ok true); SText (Ok (bs "field2")); SNext (Ok false)].

(** src/server/mod.rs:202-221, [issue_104]: a request in which the boundary does not occur. *)
Definition issue_104_body : bytes :=
  bs "POST /test.html HTTP/1.1" ++ CRLF ++ bs "Host: example.org" ++ CRLF ++
  bs "Content-Type: multipart/form-data;boundary=""boundary""" ++ CRLF ++ CRLF ++
  bs "Content-Disposition: form-data; name=""field1""" ++ CRLF ++ CRLF ++ bs "value1" ++ CRLF ++
  bs "Content-Disposition: form-data; name=""field2""; filename=""example.txt""" ++ CRLF ++ CRLF ++ bs "value2 ".

(** src/server/mod.rs:223-290, [issue_114]: three fields; [foreach_entry] is called three times. *)
Definition issue_114_boundary : bytes := bs "------------------------c616e5fded96a3c7".
Definition issue_114_part (name value : bytes) : bytes :=
  DASHES ++ issue_114_boundary ++ CRLF ++ bs "Content-Disposition: form-data; name=""" ++ name ++ bs """" ++ CRLF ++ CRLF ++ value ++ CRLF.
Definition issue_114_body : bytes :=
  issue_114_part (bs "key1") (bs "v1,") ++ issue_114_part (bs "key2") (bs "v2,") ++ issue_114_part (bs "key3") (bs "v3") ++
  DASHES ++ issue_114_boundary ++ DASHES ++ CRLF.

(** [foreach_entry] three times on the same [Multipart], each with its own callback; [None]: one of the [unwrap]s panicked. *)
Definition thrice (ML : mime_lib) (trim : bool) (fuel : nat) (f1 f2 f3 : nat -> field_headers ML -> list op) (r : breader)
  : option (list (field_headers ML * list (obs ML)) * list (field_headers ML * list (obs ML)) * list (field_headers ML * list (obs ML))) :=
  match foreach_entry ML trim f1 fuel 0 r with
  | (Ok tt, l1, r1) =>
      match foreach_entry ML trim f2 fuel 0 r1 with
      | (Ok tt, l2, r2) =>
          match foreach_entry ML trim f3 fuel 0 r2 with
          | (Ok tt, l3, _) => Some (l1, l2, l3)
          | _ => None
          end
      | _ => None
      end
  | _ => None
  end.
