(** Containers of protobuf messages written to an ordinary archive: a message type that is
    byte serializable is copied as memory, because the test for serialize_as_bytes
    (zpp_bits.h:2188-2193, 2706-2713, 2738-2850) comes before the element would be handed to its
    protocol, and access::byte_serializable (1270-1328) does not look at the protocol.

    Modelled messages: those whose members are all integers, floats, bool or std::byte,
    declared without padding. *)

From Coq Require Import List NArith ZArith Lia Bool Arith.
From Verif Require Import Base.Bytes Model.Types Model.Machine Model.Varint Model.Out Model.In
  Model.Loops Model.Protocol Model.Pb.
Import ListNotations.
Local Open Scope N_scope.

(** The member as an ordinary type. *)
Definition raw_ty (t : pty) : ty :=
  match t with
  | PFix w => TScalar w false
  | PBool => TBool
  | PByte => TScalar 1 true
  | _ => TEmpty
  end.

Definition flat_pty (t : pty) : bool :=
  match t with PFix _ | PBool | PByte => true | _ => false end.

(** At least one member, all of them flat. *)
Definition flat_msg (P : penv) (k : nat) : bool :=
  (0 <? length (m_fields (P k)))%nat && forallb (fun fd => flat_pty (snd fd)) (m_fields (P k)).

(** The message class as an ordinary class without padding. *)
Definition raw_msg (P : penv) (k : nat) : ty :=
  let ms := map (fun fd => raw_ty (snd fd)) (m_fields (P k)) in
  TStruct (mkSinfo (sum (map bsize ms)) true false (VSeq (m_dflt (P k)))) ms.

(** basic_out::serialize_one(container) (2182-2250) with elements of class [k]. *)
Definition ser_pb_vec (P : penv) (c : cfg) (s : option sizety) (contig : bool) (k : nat)
  (l : list val) : act :=
  ser_size c (sz_of c s) (N.of_nat (length l)) ;;
  if as_bytes c (raw_msg P k) && contig
  then put_bytes c (flat_map (fun x => objrep c x (raw_msg P k)) l)
  else ser_each (fun x => ser_pb_item P c (dsize c) k (as_seq x)) l.

(** in::serialize_one(container) (2725-2850). *)
Definition des_pb_vec (P : penv) (c : cfg) (data : list byte) (fuel : nat) (s : option sizety)
  (contig : bool) (k : nat) (prior : val) (pos : nat) : dres :=
  let t := raw_msg P k in
  let elems := des_elems c data (as_bytes c t && contig) (des_pb_item P c data fuel (dsize c) k) t in
  match sz_of c s with
  | SzNone => elems (as_seq prior) pos
  | sz =>
      match des_size c data sz pos with
      | (ROk, n, pos') =>
          match vec_resize no_types c t n (as_seq prior) with
          | (ROk, l) => elems l pos'
          | (r, l) => (r, VSeq l, pos')
          end
      | (r, _, pos') => (r, prior, pos')
      end
  end.
