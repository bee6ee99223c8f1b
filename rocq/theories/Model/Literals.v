(** operator""_decode_hex (zpp_bits.h:5552-5586).  Characters are the values of the character
    type, whatever its width and signedness.  [None]: a static_assert fires. *)

From Coq Require Import List ZArith NArith Bool.
From Verif Require Import Base.Bytes.
Import ListNotations.
Local Open Scope Z_scope.

(** 5555-5560; 'A' is 65, 'Z' 90, 'a' 97. *)
Definition tolower (c : Z) : Z := if (65 <=? c) && (c <=? 90) then c - 65 + 97 else c.

(** 5564-5568: the condition negated in find_if; '0' is 48, '9' 57, 'f' 102. *)
Definition hex_char (c : Z) : bool :=
  ((48 <=? c) && (c <=? 57)) || ((97 <=? tolower c) && (tolower c <=? 102)).

(** 5570-5576 *)
Definition hex (c : Z) : Z := if 97 <=? c then c - 97 + 10 else c - 48.

(** The byte computed at 5580-5582; the conversion of an int to std::byte keeps its value
    modulo 256. *)
Definition hex_byte (c d : Z) : byte :=
  n2b (Z.to_N (Z.lor (Z.shiftl (hex (tolower c)) 4) (hex (tolower d)) mod 256)).

(** The loop (5579-5584). *)
Fixpoint hex_loop (n : nat) (s : list Z) : list byte :=
  match n, s with
  | S n, c :: d :: s => hex_byte c d :: hex_loop n s
  | _, _ => []
  end.

Definition decode_hex (s : list Z) : option (list byte) :=
  if Nat.eqb (length s mod 2) 0 && forallb hex_char s then Some (hex_loop (length s / 2) s)
  else None.
