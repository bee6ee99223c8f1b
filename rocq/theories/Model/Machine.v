(** Outcomes, archive states and the memory primitives of the model. *)

From Coq Require Import List NArith ZArith Lia Bool Arith.
From Verif Require Import Base.Bytes Model.Types.
Import ListNotations.
Local Open Scope N_scope.

(** The std::errc values the library returns (zpp_bits.h:111-164 wraps std::errc). *)
Inductive errc :=
| result_out_of_range | no_buffer_space | value_too_large | message_size
| bad_message | invalid_argument | not_supported | protocol_error.

(** Outcome of an operation.  [RUB]: undefined behaviour (out-of-range access, null
    dereference, invalid bool representation, missing return); [RThrow]: an allocation
    raised an exception; [RStack]: the call stack is exhausted (recursive types). *)
Inductive res := ROk | RErr (e : errc) | RUB | RThrow | RStack.

Definition is_ok (r : res) : bool := match r with ROk => true | _ => false end.

(** std::size_t arithmetic (64 bit). *)
Definition two64 : N := 2 ^ 64.
Definition wadd (a b : N) : N := (a + b) mod two64.
Definition wmul (a b : N) : N := (a * b) mod two64.
Definition wsub (a b : N) : N := (a + (two64 - b mod two64)) mod two64.

(** State of an output archive: m_data contents and m_position (2420-2421). *)
Record ost := mkO { obuf : list byte; opos : nat }.

(** An output action. *)
Definition act := ost -> res * ost.

Definition ret : act := fun st => (ROk, st).
Definition fail (r : res) : act := fun st => (r, st).

(** Sequencing as in serialize_many (2005-2019): stop at the first failure. *)
Definition seq (a b : act) : act := fun st =>
  match a st with
  | (ROk, st') => b st'
  | other => other
  end.
Notation "a ;; b" := (seq a b) (at level 61, right associativity).

(** Requests above 2^63 - 1 bytes exceed max_size() of every standard container and make
    resize throw std::length_error; others depend on the allocator. *)
Definition can_alloc (c : cfg) (n : N) : bool := (n <? 2 ^ 63) && alloc_ok c n.

Definition within_limit (c : cfg) (n : N) : bool :=
  match alim c with None => true | Some l => n <=? l end.

(** m_data.resize(n): new bytes are zero (value-initialised), may throw when growing. *)
Definition buf_resize (c : cfg) (n : N) : act := fun st =>
  if n <=? N.of_nat (length (obuf st)) then
    (ROk, mkO (firstn (N.to_nat n) (obuf st)) (opos st))
  else if can_alloc c n then
    (ROk, mkO (obuf st ++ zeros (N.to_nat n - length (obuf st))) (opos st))
  else (RThrow, st).

(** basic_out::enlarge_for (1966-2002), all arithmetic modulo 2^64. *)
Definition enlarge_for (c : cfg) (add : N) : act := fun st =>
  let size := N.of_nat (length (obuf st)) in
  if wsub size (N.of_nat (opos st)) <? add then
    let required := wadd size add in
    if negb (noovf c) && (required <? size) then (RErr no_buffer_space, st)
    else
      let scaled := if emul c =? 1 then required else wmul required (emul c) in
      if negb (emul c =? 1) && negb (noovf c) && negb (scaled / emul c =? required)
      then (RErr no_buffer_space, st)
      else
        let new := if ediv c =? 1 then scaled else scaled / ediv c in
        if negb (within_limit c new) then (RErr no_buffer_space, st)
        else buf_resize c new st
  else (ROk, st).

(** Make room for [n] bytes at the current position: enlarge_for on growable buffers, the
    remaining-space check on fixed ones (2050-2058, 2100-2108, 2322-2330). *)
Definition reserve (c : cfg) (n : N) : act := fun st =>
  if growable c then enlarge_for c n st
  else if wsub (N.of_nat (length (obuf st))) (N.of_nat (opos st)) <? n
       then (RErr result_out_of_range, st)
       else (ROk, st).

(** Store bytes at the position and advance (memcpy / reverse_copy / byte loop followed by
    m_position += n; 2060-2084, 2110-2140).  Storing outside the buffer is undefined. *)
Definition store (e : list byte) : act := fun st =>
  if (opos st + length e <=? length (obuf st))%nat
  then (ROk, mkO (overwrite (obuf st) (opos st) e) (opos st + length e))
  else (RUB, st).

Definition put (c : cfg) (e : list byte) : act :=
  reserve c (N.of_nat (length e)) ;; store e.

(** Object representation of an integer of [w] bytes on the host. *)
Definition hostrep (c : cfg) (w : nat) (n : N) : list byte :=
  if host_le c then le_bytes w n else rev (le_bytes w n).

Definition hostval (c : cfg) (l : list byte) : N :=
  if host_le c then le_val l else le_val (rev l).

(** Bytes of a scalar as stored: memory order, reversed when endian_aware (2060-2083). *)
Definition scalar_bytes (c : cfg) (w : nat) (n : N) : list byte :=
  if swap c then rev (hostrep c w n) else hostrep c w n.

Definition scalar_val (c : cfg) (l : list byte) : N :=
  if swap c then hostval c (rev l) else hostval c l.

(** Reading: [load data pos n] are the n bytes at [pos]; [None] = outside the data. *)
Definition load (data : list byte) (pos n : nat) : option (list byte) :=
  if (pos + n <=? length data)%nat then Some (window data pos n) else None.

(** m_data.size() - m_position of an input archive. *)
Definition remaining (data : list byte) (pos : nat) : N :=
  wsub (N.of_nat (length data)) (N.of_nat pos).
