(** The constant-evaluation code paths (zpp_bits.h:2062-2070, 2112-2124, 2390-2394,
    2615-2627, 2661-2676): element by element loops with bounds-checked subscripts, where the
    run-time paths use memcpy, reverse_copy and memmove ([store], [load] in Model/Machine.v,
    [memmove] below). *)

From Coq Require Import List NArith ZArith Lia Bool Arith.
From Verif Require Import Base.Bytes Model.Types Model.Machine Model.In.
Import ListNotations.
Local Open Scope N_scope.

(** a[i] = x; [None]: subscript out of range (in constant evaluation a compile error). *)
Definition assign {A} (a : list A) (i : nat) (x : A) : option (list A) :=
  if (i <? length a)%nat then Some (overwrite a i [x]) else None.

(** a[i] = b[j]. *)
Definition copy1 {A} (a : list A) (i : nat) (b : list A) (j : nat) : option (list A) :=
  match nth_error b j with Some x => assign a i x | None => None end.

Section For.
  Context {S : Type} (body : nat -> S -> option S).
  (** for (i = first; i < first + n; ++i) body *)
  Fixpoint for_up (n first : nat) (s : S) : option S :=
    match n with
    | O => Some s
    | Datatypes.S n' =>
        match body first s with Some s' => for_up n' (Datatypes.S first) s' | None => None end
    end.
  (** for (p = first + n - 1; p >= first; --p) body *)
  Fixpoint for_down (n first : nat) (s : S) : option S :=
    match n with
    | O => Some s
    | Datatypes.S n' =>
        match body (first + n')%nat s with Some s' => for_down n' first s' | None => None end
    end.
End For.

(** Scalar output (2062-2070): [value] is the bit_cast of the item to a byte array. *)
Definition const_store_scalar (c : cfg) (value : list byte) : act := fun st =>
  let n := length value in
  match for_up (fun i buf => copy1 buf (opos st + i) value (if swap c then n - 1 - i else i))%nat
          n 0 (obuf st)
  with
  | Some buf => (ROk, mkO buf (opos st + n))
  | None => (RUB, st)
  end.

Definition const_put_scalar (c : cfg) (w : nat) (n : N) : act :=
  reserve c (N.of_nat w) ;; const_store_scalar c (hostrep c w n).

(** bytes output (2112-2124): [items] are the bit_casts of item.data()[index], each of
    [w] = sizeof(value_type) bytes. *)
Definition const_store_bytes (w : nat) (items : list (list byte)) : act := fun st =>
  match for_up (fun index buf =>
          match nth_error items index with
          | None => None
          | Some value =>
              for_up (fun i buf => copy1 buf (opos st + index * w + i) value i)%nat w 0 buf
          end) (length items) 0 (obuf st)
  with
  | Some buf => (ROk, mkO buf (opos st + length items * w))
  | None => (RUB, st)
  end.

Definition const_put_bytes (c : cfg) (w : nat) (items : list (list byte)) : act :=
  if N.of_nat (length items) * N.of_nat w =? 0 then ret
  else reserve c (N.of_nat (length items) * N.of_nat w) ;; const_store_bytes w items.

(** Scalar input (2615-2627): [init] is the indeterminate initial content of the array. *)
Definition const_des_scalar (c : cfg) (data : list byte) (w : nat) (init : list byte)
  (prior : N) (pos : nat) : res * N * nat :=
  if remaining data pos <? N.of_nat w then (RErr result_out_of_range, prior, pos)
  else
    match for_up (fun i value => copy1 value (if swap c then w - 1 - i else i) data (pos + i))%nat
            w 0 init
    with
    | Some value => (ROk, hostval c value, (pos + w)%nat)
    | None => (RUB, prior, pos)
    end.

(** bytes input (2661-2676). *)
Definition const_des_bytes (c : cfg) (data : list byte) (t : ty) (init : list byte)
  (prior : list val) (pos : nat) : res * list val * nat :=
  let n := length prior in
  let w := bsize t in
  let size := N.of_nat n * N.of_nat w in
  if size =? 0 then (ROk, prior, pos)
  else if remaining data pos <? size then (RErr result_out_of_range, prior, pos)
  else
    match for_up (fun index items =>
            match for_up (fun i value => copy1 value i data (pos + index * w + i))%nat w 0 init with
            | None => None
            | Some value =>
                match objparse c t value with
                | Some v => assign items index v
                | None => None
                end
            end) n 0 prior
    with
    | Some items => (ROk, items, (pos + n * w)%nat)
    | None => (RUB, prior, pos)
    end.

(** std::memmove of [n] bytes from [start] to [start + by] inside the buffer (2396-2398);
    outside the buffer it is undefined. *)
Definition memmove (buf : list byte) (start n by_ : nat) : option (list byte) :=
  if (start + by_ + n <=? length buf)%nat
  then Some (overwrite buf (start + by_) (window buf start n))
  else None.

(** The backward loop of constant evaluation (2390-2394). *)
Definition const_memmove (buf : list byte) (start n by_ : nat) : option (list byte) :=
  for_down (fun p b => copy1 b (p + by_) b p)%nat n start buf.
