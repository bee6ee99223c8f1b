(** Specification of base-128 integers and of the zig-zag mapping, independent of the code. *)

From Coq Require Import List NArith ZArith Lia Bool Arith.
From Verif Require Import Base.Bytes.
Import ListNotations.
Local Open Scope N_scope.

(** [leb n l]: [l] is the canonical (shortest) LEB128 encoding of [n]: base-128 digits,
    least significant first, the high bit set on all but the last. *)
Inductive leb : N -> list byte -> Prop :=
| leb_last n : n < 128 -> leb n [n2b n]
| leb_more n l : 128 <= n -> leb (n / 128) l -> leb n (n2b (128 + n mod 128) :: l).

(** The same as a function. *)
Fixpoint leb_fuel (fuel : nat) (n : N) : list byte :=
  match fuel with
  | O => []
  | S f => if n <? 128 then [n2b n] else n2b (128 + n mod 128) :: leb_fuel f (n / 128)
  end.
Definition leb128 (n : N) : list byte := leb_fuel (S (N.size_nat n)) n.

(** Value denoted by a (not necessarily shortest) terminated base-128 string: the digits up
    to and including the first byte below 128; [None] if there is no terminator. *)
Fixpoint leb_value (l : list byte) : option (N * nat) :=
  match l with
  | [] => None
  | b :: l' =>
      if b2n b <? 128 then Some (b2n b, 1%nat)
      else match leb_value l' with
           | Some (v, k) => Some (b2n b - 128 + 128 * v, S k)
           | None => None
           end
  end.

(** Two's complement reading of a [w]-byte word, and its inverse. *)
Definition to_signed (w : nat) (n : N) : Z :=
  if 2 * n <? pow256 w then Z.of_N n else (Z.of_N n - Z.of_N (pow256 w))%Z.
Definition of_signed (w : nat) (z : Z) : N :=
  Z.to_N (z mod Z.of_N (pow256 w)).

(** The protobuf zig-zag mapping 0, -1, 1, -2, 2, ... -> 0, 1, 2, 3, 4, ... *)
Definition zigzag (z : Z) : N := Z.to_N (if (0 <=? z)%Z then 2 * z else - 2 * z - 1).
Definition unzigzag (n : N) : Z :=
  if N.even n then Z.of_N (n / 2) else (- Z.of_N (n / 2) - 1)%Z.
