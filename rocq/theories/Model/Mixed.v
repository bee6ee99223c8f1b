(** Protobuf messages anywhere inside ordinary data: members and bases of ordinary classes,
    elements of containers, arrays and tuples, keys and values of maps, alternatives of variants,
    optional and pointed-to objects.  Every serialize_one hands an item whose class has a protocol
    to serialize_one(by_protocol) with the archive's default_size_type (zpp_bits.h:2341-2415 for
    output, 3095-3122 for input), which writes and reads a length and then the message.

    A named class [k] is message [k] of [P] if [M k], else the ordinary class [k] of [G].
    Message classes here are not byte serializable (see Model/PbNative.v for those that are; they
    are copied like any other byte serializable class, which is a [TStruct]). *)

From Coq Require Import List NArith ZArith Lia Bool Arith.
From Verif Require Import Base.Bytes Model.Types Model.Machine Model.Varint Model.Out Model.In
  Model.Protocol Model.Pb.
Import ListNotations.
Local Open Scope N_scope.

(** basic_out::serialize_one as in Model/Out.v, except for messages (2341-2415). *)
Fixpoint mser (G : tenv) (M : nat -> bool) (P : penv) (c : cfg) (v : val) (t : ty) {struct v} : act :=
  match t, v with
  | TScalar w _, VN n => put c (scalar_bytes c w n)
  | TBool, VN n => put c (scalar_bytes c 1 n)
  | TVarint w sg zz, VN n => ser_varint c w sg zz n
  | TEmpty, VSeq [] => ret
  | TStruct si ms, VSeq l =>
      if negb (s_expl si) && is_empty t then ret
      else if as_bytes c t then put_bytes c (objrep c v t)
      else ser_many (mser G M P c) l ms
  | TRec k, VSeq l =>
      if M k then ser_pb_item P c (dsize c) k l
      else ser_many (mser G M P c) l (t_mems G k)
  | TArray n t', VSeq l =>
      if as_bytes c t' then put_bytes c (objrep c v t)
      else ser_all (mser G M P c) l t'
  | TTuple ts, VSeq l => ser_many (mser G M P c) l ts
  | TVec s contig t', VSeq l =>
      ser_size c (sz_of c s) (N.of_nat (length l)) ;;
      if as_bytes c t' && contig
      then put_bytes c (flat_map (fun x => objrep c x t') l)
      else ser_all (mser G M P c) l t'
  | TAssoc s k t', VSeq l =>
      ser_size c (sz_of c s) (N.of_nat (length l)) ;; ser_all (mser G M P c) l t'
  | TSpan s t', VSeq l =>
      ser_size c (sz_of c s) (N.of_nat (length l)) ;;
      if as_bytes c t' then put_bytes c (flat_map (fun x => objrep c x t') l)
      else ser_all (mser G M P c) l t'
  | TOpt _ _, VNone => ser_flag c false
  | TOpt _ t', VSome x => ser_flag c true ;; mser G M P c x t'
  | TOptPtr _, VNone => ser_flag c false
  | TOptPtr t', VSome x => ser_flag c true ;; mser G M P c x t'
  | TPtr _, VNone => fail (RErr invalid_argument)
  | TPtr t', VSome x => mser G M P c x t'
  | TVariant _ _ _, VValueless => fail (RErr invalid_argument)
  | TVariant ik meta alts, VAlt i x =>
      match nth_error meta i, nth_error alts i with
      | Some (id, _), Some t' => ser_id c ik id ;; mser G M P c x t'
      | _, _ => fail RUB
      end
  | TBitset n, VBits l => ser_bitset c n l
  | TView (VwSized s), VBytes l =>
      ser_size c (sz_of c s) (N.of_nat (length l)) ;; put_bytes c l
  | TView (VwFixed _), VBytes l => put_bytes c l
  | TView VwRest, VBytes l => put_bytes c l
  | _, _ => fail RUB
  end.

(** Named classes of input archives: messages (3095-3122) with [pf] levels of nested messages,
    others as in Model/In.v with [fuel] levels of recursion. *)
Fixpoint mdes_rec (G : tenv) (M : nat -> bool) (P : penv) (c : cfg) (data : list byte) (pf : nat)
  (fuel : nat) (k : nat) (prior : val) (pos : nat) : dres :=
  if M k then des_pb_item P c data pf (dsize c) k prior pos
  else match fuel with
       | O => (RStack, prior, pos)
       | S f =>
           seq_res (des_many (des_ty G c data (mdes_rec G M P c data pf f)) (t_mems G k) (as_seq prior) pos)
       end.

(** in::serialize_one. *)
Definition mdes (G : tenv) (M : nat -> bool) (P : penv) (c : cfg) (data : list byte) (pf fuel : nat)
  : ty -> val -> nat -> dres :=
  des_ty G c data (mdes_rec G M P c data pf fuel).

(** The members of a message class as members of an ordinary class: which objects there are. *)
Definition elems_ty (ck : ckind) (t : ty) : ty :=
  match ck with CSeq contig _ => TVec None contig t | CSet k _ => TAssoc None k t end.

Fixpoint member_ty (t : pty) : ty :=
  match t with
  | PFix w => TScalar w false
  | PBool => TBool
  | PByte => TScalar 1 true
  | PVar w sg zz => TVarint w sg zz
  | PEmpty => TEmpty
  | PMsg k => TRec k
  | PFixes ck w => elems_ty ck (TScalar w false)
  | PVars ck w sg zz => elems_ty ck (TVarint w sg zz)
  | PStrs ck contig w => elems_ty ck (TVec None contig (TScalar w false))
  | PMsgs ck k => elems_ty ck (TRec k)
  | PMap ak kt vt => TAssoc None ak (TTuple [member_ty kt; member_ty vt])
  | PArr n w => TArray n (TScalar w false)
  end.

(** The classes of a program: messages as declared in [P], the others as in [G]. *)
Definition classes (G : tenv) (M : nat -> bool) (P : penv) : tenv :=
  mkTenv
    (fun k => if M k
              then mkSinfo (s_size (t_info G k)) false false (VSeq (m_dflt (P k)))
              else t_info G k)
    (fun k => if M k then map (fun fd => member_ty (snd fd)) (m_fields (P k)) else t_mems G k).
