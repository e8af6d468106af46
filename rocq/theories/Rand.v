(** Random strings (src/lib.rs:120-126).  The generator is a list of arbitrary samples. *)

From Verif Require Import Bytes.

(** The character set of [rand::distributions::Alphanumeric] (external crate, by contract: each character
    is drawn from this set). *)
Definition ALNUM : bytes :=
  bs "ABCDEFGHIJKLMNOPQRSTUVWXYZabcdefghijklmnopqrstuvwxyz0123456789".

Definition alnum_char (n : N) : byte := nth (N.to_nat (n mod 62)) ALNUM 0%N.

(** The samples still to be drawn; when the list is used up the generator yields zeros. *)
Definition rng := list N.
Definition draw (g : rng) : N * rng := (hd 0%N g, tl g).

(** src/lib.rs:120-126, [random_alphanumeric]. *)
Fixpoint random_alphanumeric (len : nat) (g : rng) : bytes * rng :=
  match len with
  | 0 => ([], g)
  | S n => let '(x, g1) := draw g in
           let '(s, g2) := random_alphanumeric n g1 in
           (alnum_char x :: s, g2)
  end.
