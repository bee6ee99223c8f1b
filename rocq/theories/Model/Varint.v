(** Varints (zpp_bits.h:1586-1857). *)

From Coq Require Import List NArith ZArith Lia Bool Arith.
From Verif Require Import Base.Bytes Model.Types Model.Machine.
Import ListNotations.
Local Open Scope N_scope.

Definition bits (w : nat) : N := 8 * N.of_nat w.

(** Truncation to a [w]-byte unsigned integer. *)
Definition trunc (w : nat) (n : N) : N := n mod pow256 w.

(** varint_max_size (1641-1642): sizeof * 8 / 7 + 1. *)
Definition varint_max_size (w : nat) : nat := w * 8 / 7 + 1.

(** varint_size (1645-1658) of the (already zig-zag mapped) unsigned value:
    (bits - countl_zero(value | 1) + 6) / 7; bits - countl_zero = number of significant bits. *)
Definition varint_size (v : N) : N := (N.size (N.lor v 1) + 6) / 7.

(** Arithmetic / logical right shift by bits-1 of the original value (1671-1672): all ones
    for a negative signed value, the top bit for an unsigned one. *)
Definition sign_mask (w : nat) (sg : bool) (v : N) : N :=
  let top := N.shiftr v (bits w - 1) in
  if sg then (if top =? 0 then 0 else pow256 w - 1) else top.

(** Zig-zag mapping on output (1670-1673): (value << 1) ^ (orig_value >> (bits - 1)). *)
Definition zz_enc (w : nat) (sg : bool) (v : N) : N :=
  N.lxor (trunc w (N.shiftl v 1)) (sign_mask w sg v).

(** Zig-zag mapping on input (1775-1776): (value >> 1) ^ -(value & 1). *)
Definition zz_dec (w : nat) (v : N) : N :=
  N.lxor (N.shiftr v 1) (if N.land v 1 =? 0 then 0 else pow256 w - 1).

(** The value put on the wire. *)
Definition wire_value (w : nat) (sg zz : bool) (v : N) : N :=
  if zz then zz_enc w sg v else v.

Definition unwire_value (w : nat) (zz : bool) (v : N) : N :=
  if zz then zz_dec w v else v.

(** The output loop (1692-1697).  [fuel] bounds the number of bytes; with
    fuel = varint_max_size it never runs out (proved in Proofs/VarintP.v). *)
Fixpoint vloop (fuel : nat) (v : N) : list byte :=
  match fuel with
  | O => []
  | S f => if v <? 0x80 then [n2b v]
           else n2b (N.lor (N.land v 0x7f) 0x80) :: vloop f (N.shiftr v 7)
  end.

(** Space check of varint output: enlarge_for(max_size) on growable buffers, otherwise
    fail only if fewer than max_size and fewer than varint_size bytes remain (1675-1688). *)
Definition varint_reserve (c : cfg) (w : nat) (value : N) : act := fun st =>
  let max_size := N.of_nat (varint_max_size w) in
  if growable c then enlarge_for c max_size st
  else
    let data_size := wsub (N.of_nat (length (obuf st))) (N.of_nat (opos st)) in
    if (data_size <? max_size) && (data_size <? varint_size value)
    then (RErr result_out_of_range, st) else (ROk, st).

(** serialize(archive, varint) for output (1660-1701). *)
Definition ser_varint (c : cfg) (w : nat) (sg zz : bool) (orig : N) : act :=
  let value := wire_value w sg zz orig in
  varint_reserve c w value ;; store (vloop (varint_max_size w) value).

(** Result of decoding from the remaining data: value and number of bytes consumed, an
    error, or an out-of-range read. *)
Inductive vres := VOk (v : N) (n : nat) | VFail (e : errc) | VUB.

(** The loop used when fewer than varint_max_size bytes remain (1706-1718). *)
Fixpoint dec_short (w : nat) (data : list byte) (shift value : N) (i : nat) : vres :=
  match data with
  | [] => VFail result_out_of_range
  | b :: rest =>
      let next := trunc w (b2n b) in
      let value := N.lor value (trunc w (N.shiftl (N.land next 0x7f) shift)) in
      if 0x80 <=? next then dec_short w rest (shift + 7) value (S i)
      else VOk value (S i)
  end.

(** Number of unrolled steps (1721-1738), selected by varint_max_size. *)
Definition unrolled_steps (max : nat) : nat :=
  (2 + if 2 <? max then 1 + (if 3 <? max then 2 + (if 5 <? max then 5 else 0) else 0) else 0)%nat.

(** The unrolled decoder (1719-1742).  Step 9 (the tenth byte) uses the mask 0x01. *)
Fixpoint dec_long (w : nat) (steps : nat) (data : list byte) (i : nat) (value : N) : vres :=
  match steps with
  | O => VFail value_too_large
  | S steps' =>
      match data with
      | [] => VUB
      | b :: rest =>
          let next := trunc w (b2n b) in
          let mask := if (i =? 9)%nat then 0x01 else 0x7f in
          let value := N.lor value (trunc w (N.shiftl (N.land next mask) (7 * N.of_nat i))) in
          if next <? 0x80 then VOk value (S i)
          else dec_long w steps' rest (S i) value
      end
  end.

(** decode_varint (1703-1743). *)
Definition decode_varint (w : nat) (data : list byte) : vres :=
  if (length data <? varint_max_size w)%nat then dec_short w data 0 0 0
  else dec_long w (unrolled_steps (varint_max_size w)) data 0 0.

(** serialize(archive, varint &) for input, out-of-line variant (1756-1781): one byte fast
    path, then decode_varint. *)
Definition varint_in (w : nat) (data : list byte) : vres :=
  match data with
  | b :: _ => if N.land (trunc w (b2n b)) 0x80 =? 0 then VOk (trunc w (b2n b)) 1
              else decode_varint w data
  | [] => decode_varint w data
  end.

(** The ZPP_BITS_INLINE_DECODE_VARINT variant (1783-1832). *)
Definition varint_in_inline (w : nat) (data : list byte) : vres :=
  if (length data <? varint_max_size w)%nat then dec_short w data 0 0 0
  else dec_long w (unrolled_steps (varint_max_size w)) data 0 0.

(** remaining_data(): a span from the position to the end (2559-2563).  A position beyond
    the end makes the span length wrap: reported as [None] (undefined). *)
Definition rest_of (data : list byte) (pos : nat) : option (list byte) :=
  if (pos <=? length data)%nat then Some (skipn pos data) else None.

(** serialize(archive, varint &) on an input archive: the target is assigned and the
    position advanced only on success. *)
Definition des_varint (w : nat) (zz : bool) (prior : N) (data : list byte) (pos : nat)
  : res * N * nat :=
  match rest_of data pos with
  | None => (RUB, prior, pos)
  | Some rest =>
      match varint_in w rest with
      | VOk v n => (ROk, unwire_value w zz v, (pos + n)%nat)
      | VFail e => (RErr e, prior, pos)
      | VUB => (RUB, prior, pos)
      end
  end.
