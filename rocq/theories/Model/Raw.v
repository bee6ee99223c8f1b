(** Explicitly counted raw bytes, bytes(items, count) (zpp_bits.h:1000-1057), and variants whose
    id is supplied at run time, known_id(id, variant) (3330-3360). *)

From Coq Require Import List NArith ZArith Lia Bool Arith.
From Verif Require Import Base.Bytes Model.Types Model.Machine Model.Varint Model.Out Model.In.
Import ListNotations.
Local Open Scope N_scope.

(** bytes::size_in_bytes (1020-1023): m_size * sizeof(Item), which wraps.  [count] is the
    second constructor argument (1010-1013) or items.size(); nothing compares the two. *)
Definition size_in_bytes (w : nat) (count : N) : N := wmul count (N.of_nat w).

(** basic_out::serialize_one(bytes) at run time (2087-2141).  [mem] is the memory of the items
    the span refers to; reading outside of it is undefined. *)
Definition out_raw (c : cfg) (mem : list byte) (w : nat) (count : N) : act :=
  let size := size_in_bytes w count in
  if size =? 0 then ret
  else reserve c size ;;
       fun st => if size <=? N.of_nat (length mem) then store (firstn (N.to_nat size) mem) st
                 else (RUB, st).

(** in::serialize_one(bytes) at run time (2642-2689): outcome, memory of the items and position
    afterwards.  Writing outside of the items is undefined. *)
Definition in_raw (data mem : list byte) (w : nat) (count : N) (pos : nat) : res * list byte * nat :=
  let size := size_in_bytes w count in
  if size =? 0 then (ROk, mem, pos)
  else if remaining data pos <? size then (RErr result_out_of_range, mem, pos)
  else if size <=? N.of_nat (length mem) then
    match load data pos (N.to_nat size) with
    | Some e => (ROk, overwrite mem 0 e, (pos + N.to_nat size)%nat)
    | None => (RUB, mem, pos)
    end
  else (RUB, mem, pos).

(** in::serialize_one(variant, id) (3014-3056), as called by known_dynamic_id_variant::serialize
    (3345-3349): traits::variant::index(id), then the loader of that alternative.  basic_out has
    no such overload, so known_id(id, variant) is for input only. *)
Definition des_dynamic (G : tenv) (c : cfg) (data : list byte) (fuel : nat)
  (meta : list (N * bool)) (alts : list ty) (id : N) (prior : val) (pos : nat) : dres :=
  match find_id meta id with
  | None => (RErr bad_message, prior, pos)
  | Some i =>
      match nth_error alts i with
      | None => (RUB, prior, pos)
      | Some t' =>
          let dc := match nth_error meta i with Some (_, b) => b | None => true end in
          des_inplace dc (des G c data fuel t') (VAlt i) (active i prior) (dflt G t') prior pos
      end
  end.
