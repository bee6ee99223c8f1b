(** numbers::big_endian (zpp_bits.h:5179-5316).

    [n] is sizeof(Type); Type is unsigned (for a signed Type the two's complement number of
    the same bytes stands for the value).  An object is its member [value], a number below
    256^n; [h] tells whether the host is little-endian.

    Not modelled: for Type narrower than int the operators [~], [&], [^] and [|] do not
    compile (narrowing inside braces, 5283, 5294-5306); the model gives them the meaning they
    have for the other widths. *)

From Coq Require Import List NArith Arith.
From Verif Require Import Base.Bytes Model.Machine.
Import ListNotations.
Local Open Scope N_scope.

(** The bytes of an object in memory, and back: std::bit_cast. *)
Definition mem_of (h : bool) (n : nat) (v : N) : list byte :=
  if h then le_bytes n v else rev (le_bytes n v).
Definition of_mem (h : bool) (d : list byte) : N :=
  if h then le_val d else le_val (rev d).

Definition at_ (d : list byte) (i : nat) : N := b2n (nth i d x00).
Definition put (d : list byte) (i : nat) (b : byte) : list byte := overwrite d i [b].

(** big_endian(Type) (5192-5201): the loop from the last byte to the first. *)
Fixpoint be_fill (i : nat) (value : N) (d : list byte) : list byte :=
  match i with
  | O => d
  | S i' => be_fill i' (value / 256) (put d i' (n2b (N.land value 0xff)))
  end.

Definition be_make (h : bool) (n : nat) (value : N) : N := of_mem h (be_fill n value (zeros n)).

(** operator<< (5203-5232): the body of the loop for the byte [i], then the loop.  [current]
    is a std::size_t.  The test offset >= 0 always succeeds: the offset is 8 minus a
    remainder modulo 8. *)
Definition be_shl_byte (n : nat) (k : N) (d : list byte) (i : nat) : byte :=
  let offset := k mod 8 in
  let current := wadd (N.of_nat i) (k / 8) in
  if N.of_nat n <=? current then x00
  else
    let b := n2b (N.shiftl (at_ d (N.to_nat current)) offset) in
    if current =? wsub (N.of_nat n) 1 then b
    else n2b (N.lor (b2n b) (N.shiftr (at_ d (N.to_nat current + 1)) (8 - offset))).

Definition be_shl (h : bool) (n : nat) (v k : N) : N :=
  of_mem h (fold_left (fun d i => put d i (be_shl_byte n k d i)) (List.seq 0 n) (mem_of h n v)).

(** operator>> (5234-5264); the subtraction i - value / 8 wraps around. *)
Definition be_shr_byte (n : nat) (k : N) (d : list byte) (i : nat) : byte :=
  let offset := k mod 8 in
  let current := wsub (N.of_nat i) (k / 8) in
  if N.of_nat n <=? current then x00
  else
    let b := n2b (N.shiftr (at_ d (N.to_nat current)) offset) in
    if current =? 0 then b
    else n2b (N.lor (b2n b) (N.shiftl (at_ d (N.to_nat current - 1)) (8 - offset))).

Definition be_shr (h : bool) (n : nat) (v k : N) : N :=
  of_mem h (fold_left (fun d j => let i := (n - 1 - j)%nat in put d i (be_shr_byte n k d i))
    (List.seq 0 n) (mem_of h n v)).

(** operator+ (5266-5282) and operator+= (5289-5293): from the last byte to the first with a
    carry; the sum of two bytes and a carry is a std::uint16_t. *)
Fixpoint be_sum (i : nat) (remaining : N) (l r : list byte) : list byte :=
  match i with
  | O => l
  | S current =>
      let sum := (at_ l current + at_ r current + remaining) mod 2 ^ 16 in
      be_sum current (N.land (N.shiftr sum 8) 0xff) (put l current (n2b (N.land sum 0xff))) r
  end.

Definition be_add (h : bool) (n : nat) (a b : N) : N :=
  of_mem h (be_sum n 0 (mem_of h n a) (mem_of h n b)).

(** operator~ (5284-5287), operator& ^ | (5295-5308): on the member. *)
Definition be_not (n : nat) (a : N) : N := N.ldiff (N.ones (8 * N.of_nat n)) a.
Definition be_and (a b : N) : N := N.land a b.
Definition be_xor (a b : N) : N := N.lxor a b.
Definition be_or (a b : N) : N := N.lor a b.

(** operator<=> (5310-5311), defaulted: compares the members. *)
Definition be_compare (a b : N) : comparison := N.compare a b.
