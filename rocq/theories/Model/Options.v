(** Archive options and how they determine the configuration (zpp_bits.h:1060-1172,
    653-730, 1889-1909, 2021-2040, 2435-2437, 2510-2520), and positioning. *)

From Coq Require Import List NArith ZArith Lia Bool Arith.
From Verif Require Import Base.Bytes Model.Types Model.Machine.
Import ListNotations.
Local Open Scope N_scope.

(** The option types (1073-1171). *)
Inductive opt :=
| OAppend | OReserve (n : N) | OResize (n : N)
| OAllocLimit (l : N) | OEnlarger (mul div : N)
| OBig | OLittle            (* endian::big = network, endian::little *)
| OSwapped | ONative        (* aliases chosen by the host byte order (1123-1127) *)
| ONoFitSize | ONoEnlargeOverflow | OEnlargeOverflow
| OSize (s : sizety).       (* no_size, size1b .. size_native, size_varint *)

(** endian_aware (1889-1891, 2510-2512): some option is the type endian::swapped, i.e.
    endian::big on a little endian host and endian::little on a big endian one. *)
Definition is_swapped (host_le : bool) (o : opt) : bool :=
  match o with
  | OBig => host_le
  | OLittle => negb host_le
  | OSwapped => true
  | _ => false
  end.

(** get_default_size_type (653-680): the first option that has one; uint32 otherwise. *)
Fixpoint default_size (os : list opt) : sizety :=
  match os with
  | [] => SzFix 4
  | OSize s :: _ => s
  | _ :: os' => default_size os'
  end.

(** get_alloc_limit (682-705): the first limit; otherwise the maximal size_t, which no
    64-bit size exceeds ([None]). *)
Fixpoint alloc_limit_of (os : list opt) : option N :=
  match os with
  | [] => None
  | OAllocLimit l :: _ => Some l
  | _ :: os' => alloc_limit_of os'
  end.

(** get_enlarger (707-730). *)
Fixpoint enlarger_of (os : list opt) : N * N :=
  match os with
  | [] => (3, 2)
  | OEnlarger m d :: _ => (m, d)
  | _ :: os' => enlarger_of os'
  end.

Definition has_opt (p : opt -> bool) (os : list opt) : bool := existsb p os.

(** The configuration of an archive over a growable or fixed byte view. *)
Definition config (host_le growable : bool) (os : list opt)
  (alloc_ok : N -> bool) (abi : ty -> N) : cfg :=
  mkCfg host_le (has_opt (is_swapped host_le) os) (default_size os) (alloc_limit_of os)
    (fst (enlarger_of os)) (snd (enlarger_of os))
    (has_opt (fun o => match o with ONoEnlargeOverflow => true | _ => false end) os)
    (has_opt (fun o => match o with ONoFitSize => true | _ => false end) os)
    growable alloc_ok abi.

(** option(append), option(reserve), option(resize) run by the constructor (2021-2040); the
    other options have no run-time effect (1063-1070).  reserve may throw but has no other
    observable effect. *)
Definition run_option (c : cfg) (o : opt) : act := fun st =>
  match o with
  | OAppend => (ROk, mkO (obuf st) (length (obuf st)))
  | OReserve n =>
      if (n <=? N.of_nat (length (obuf st))) || can_alloc c n then (ROk, st) else (RThrow, st)
  | OResize n =>
      match buf_resize c n st with
      | (ROk, st') =>
          (ROk, mkO (obuf st') (if (N.to_nat n <? opos st')%nat then N.to_nat n else opos st'))
      | other => other
      end
  | _ => (ROk, st)
  end.

Fixpoint run_options (c : cfg) (os : list opt) : act :=
  match os with
  | [] => ret
  | o :: os' => run_option c o ;; run_options c os'
  end.

(** The constructor: position 0, then the options in order (1911-1921, 2421). *)
Definition construct (c : cfg) (os : list opt) (data : list byte) : res * ost :=
  run_options c os (mkO data 0).

(** reset(p) and assignment through position() (1937-1960): no check at all. *)
Definition reset (p : nat) (st : ost) : ost := mkO (obuf st) p.
