(** Byte strings and the slice primitives that the Rust code uses.

    Bytes are natural numbers [N]; real bytes are those below 256.  Theorems quantify over all of
    [list N], which includes every real byte string. *)

From Coq Require Export String Ascii.
From Coq Require Export List NArith Arith Lia Bool.
From Coq Require Export ZifyBool ZifyNat ZifyN.
Export ListNotations.
Open Scope list_scope.

Definition byte := N.
Bind Scope N_scope with byte.
Definition bytes := list N.

(** A byte-string literal ([b"..."] in Rust). *)
Definition bs (s : string) : bytes := map N_of_ascii (list_ascii_of_string s).

Definition CR : byte := 13%N.
Definition LF : byte := 10%N.
Definition DASH : byte := 45%N.
Definition CRLF : bytes := [CR; LF].
Definition DASHES : bytes := [DASH; DASH].

(** [<[u8]>::eq]. *)
Fixpoint beq (a b : bytes) : bool :=
  match a, b with
  | [], [] => true
  | x :: a', y :: b' => N.eqb x y && beq a' b'
  | _, _ => false
  end.

(** [buf.starts_with(pre)] on slices. *)
Fixpoint starts_with (buf pre : bytes) : bool :=
  match pre, buf with
  | [], _ => true
  | p :: pre', x :: buf' => N.eqb x p && starts_with buf' pre'
  | _ :: _, [] => false
  end.

(** [twoway::find_bytes(hay, needle)]: index of the first occurrence (external crate [twoway],
    modelled by its contract: the least index, found naively). Also [str::find] with an ASCII needle. *)
Fixpoint find_bytes (hay needle : bytes) : option nat :=
  if starts_with hay needle then Some 0
  else match hay with
       | [] => None
       | _ :: t => match find_bytes t needle with
                   | Some i => Some (S i)
                   | None => None
                   end
       end.

(** [&buf[a..b]] for [a <= b <= len]. *)
Definition slice (a b : nat) (buf : bytes) : bytes := firstn (b - a) (skipn a buf).
