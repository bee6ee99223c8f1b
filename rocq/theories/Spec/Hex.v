(** Hexadecimal notation, in ASCII. *)

From Coq Require Import List ZArith NArith Bool Ascii String.
From Verif Require Import Base.Bytes.
Import ListNotations.

Definition code (a : ascii) : Z := Z.of_N (N_of_ascii a).
Definition codes (s : string) : list Z := map code (list_ascii_of_string s).

(** The digits, in both cases: the digit at position [d] stands for [d]. *)
Definition lower : list Z := codes "0123456789abcdef".
Definition upper : list Z := codes "0123456789ABCDEF".

Definition digit (c : Z) (d : nat) : Prop := nth_error lower d = Some c \/ nth_error upper d = Some c.

(** Two digits stand for a byte, the first is the more significant. *)
Inductive denotes : list Z -> list byte -> Prop :=
| denotes_nil : denotes [] []
| denotes_cons c1 c2 d1 d2 s bs :
    digit c1 d1 -> digit c2 d2 -> denotes s bs ->
    denotes (c1 :: c2 :: s) (n2b (N.of_nat (16 * d1 + d2)) :: bs).

(** Writing a byte string in a given set of digits. *)
Definition encode_byte (digits : list Z) (b : byte) : list Z :=
  [nth (N.to_nat (b2n b / 16)) digits 0%Z; nth (N.to_nat (b2n b mod 16)) digits 0%Z].
Definition encode_hex (digits : list Z) (bs : list byte) : list Z := flat_map (encode_byte digits) bs.

(** A letter in the other case, other characters unchanged. *)
Definition lower_case (c : Z) : Z :=
  if (code "A" <=? c)%Z && (c <=? code "Z")%Z then (c + (code "a" - code "A"))%Z else c.
