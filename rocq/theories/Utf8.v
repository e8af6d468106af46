(** [std::str::from_utf8] (external, by contract: [run_utf8_validation] of the standard library). *)

From Verif Require Import Bytes.

Definition in_range (lo hi x : N) : bool := (N.leb lo x && N.leb x hi)%bool.

(** Well-formed continuation tables of [core::str::validations]. *)
Definition utf8_two (a b : byte) : bool := in_range 194 223 a && in_range 128 191 b.

Definition utf8_three (a b c : byte) : bool :=
  ((N.eqb a 224 && in_range 160 191 b)
   || (in_range 225 236 a && in_range 128 191 b)
   || (N.eqb a 237 && in_range 128 159 b)
   || (in_range 238 239 a && in_range 128 191 b))
  && in_range 128 191 c.

Definition utf8_four (a b c d : byte) : bool :=
  ((N.eqb a 240 && in_range 144 191 b)
   || (in_range 241 243 a && in_range 128 191 b)
   || (N.eqb a 244 && in_range 128 143 b))
  && in_range 128 191 c && in_range 128 191 d.

(** [Utf8Error::valid_up_to] (the whole length if the string is valid). *)
Fixpoint valid_up_to (b : bytes) : nat :=
  match b with
  | [] => 0
  | a :: t =>
      if N.ltb a 128 then S (valid_up_to t)
      else match t with
           | [] => 0
           | b1 :: t1 =>
               if utf8_two a b1 then 2 + valid_up_to t1
               else match t1 with
                    | [] => 0
                    | b2 :: t2 =>
                        if utf8_three a b1 b2 then 3 + valid_up_to t2
                        else match t2 with
                             | [] => 0
                             | b3 :: t3 =>
                                 if utf8_four a b1 b2 b3 then 4 + valid_up_to t3 else 0
                             end
                    end
           end
  end.

(** [str::from_utf8(b).is_ok()]. *)
Definition valid_utf8 (b : bytes) : bool := valid_up_to b =? length b.
