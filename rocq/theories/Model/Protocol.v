(** Items serialized by a protocol, with a size prefix (zpp_bits.h:2341-2415, 3095-3122).
    The protocol itself is an arbitrary action [body] on the same buffer. *)

From Coq Require Import List NArith ZArith Lia Bool Arith.
From Verif Require Import Base.Bytes Model.Types Model.Machine Model.Varint Model.Out Model.In
  Model.Loops.
Import ListNotations.
Local Open Scope N_scope.

(** sizeof(SizeType); a varint holds just its value (1586-1639). *)
Definition size_width (s : sizety) : nat :=
  match s with SzNone => O | SzFix w | SzVar w => w end.

(** The size written over the placeholder (2400-2403) through a basic_out without options on
    a span of sizeof(SizeType) bytes: native byte order, and a varint that does not fit in
    sizeof(SizeType) bytes is refused.  (The span may extend past the end of the buffer when
    a short varint is written there; only the bytes stored are modelled.) *)
Definition patch_size (c : cfg) (s : sizety) (at_ : nat) (n : N) : act := fun st =>
  let e :=
    match s with
    | SzNone => []
    | SzFix w => hostrep c w (trunc w n)
    | SzVar w => vloop (varint_max_size w) (trunc w n)
    end in
  let refused :=
    match s with
    | SzVar w =>
        (N.of_nat w <? N.of_nat (varint_max_size w)) && (N.of_nat w <? varint_size (trunc w n))
    | _ => false
    end in
  if refused then (RErr result_out_of_range, st)
  else if (at_ + length e <=? length (obuf st))%nat
       then (ROk, mkO (overwrite (obuf st) at_ e) (opos st))
       else (RUB, st).

(** Make room for a longer varint (2371-2399): [by_] more bytes, shifting the [n] bytes of
    the message that starts at [start]. *)
Definition shift_message (c : cfg) (start : nat) (n by_ : N) : act :=
  if by_ =? 0 then ret
  else
    reserve c by_ ;;
    fun st =>
      match memmove (obuf st) start (N.to_nat n) (N.to_nat by_) with
      | Some buf => (ROk, mkO buf (opos st + N.to_nat by_))
      | None => (RUB, st)
      end.

(** basic_out::serialize_one<SizeType>(by_protocol) (2341-2415). *)
Definition ser_protocol (c : cfg) (s : sizety) (body : act) : act :=
  match s with
  | SzNone => body
  | SzFix w => fun st =>
      let at_ := opos st in
      (ser_size c s 0 ;; body ;;
       fun st' =>
         let n := wsub (wsub (N.of_nat (opos st')) (N.of_nat at_)) (N.of_nat w) in
         patch_size c s at_ n st') st
  | SzVar w => fun st =>
      let at_ := opos st in
      (ser_size c s 0 ;; body ;;
       fun st' =>
         let n := wsub (wsub (N.of_nat (opos st')) (N.of_nat at_)) 1 in
         (shift_message c (at_ + 1) n (varint_size n - 1) ;; patch_size c s at_ n) st') st
  end.

(** in::serialize_one<SizeType>(by_protocol) (3095-3122): the protocol receives the announced
    size, or none ([body None]). *)
Definition des_protocol (c : cfg) (data : list byte) (s : sizety)
  (body : option N -> val -> nat -> dres) (prior : val) (pos : nat) : dres :=
  match s with
  | SzNone => body None prior pos
  | _ =>
      match des_size c data s pos with
      | (ROk, n, pos') => body (Some n) prior pos'
      | (r, _, pos') => (r, prior, pos')
      end
  end.
