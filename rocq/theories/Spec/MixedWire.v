(** Ordinary data with protobuf messages in it: a message is its length in the archive's size
    type and its records. *)

From Coq Require Import List NArith ZArith Bool Arith.
From Verif Require Import Base.Bytes Model.Types Model.Machine Model.Protocol Model.Pb
  Spec.Leb128 Spec.Wire Spec.PbWire Proofs.OutP Proofs.ProtoP.
Import ListNotations.
Local Open Scope N_scope.

Definition message_item (P : penv) (c : cfg) (k : nat) (l : list val) : list byte :=
  proto_prefix c (dsize c) (N.of_nat (length (message_bytes P k l))) ++ message_bytes P k l.

Fixpoint menc (G : tenv) (M : nat -> bool) (P : penv) (c : cfg) (v : val) (t : ty) {struct v} : pout :=
  match t, v with
  | TScalar w _, VN n => pdone (wscalar (fmt_of c) w n)
  | TBool, VN n => pdone (wscalar (fmt_of c) 1 n)
  | TVarint w sg zz, VN n => pdone (leb128 (varint_number w sg zz n))
  | TStruct _ ms, VSeq l => enc_many (menc G M P c) l ms
  | TRec k, VSeq l =>
      if M k then pdone (message_item P c k l)
      else enc_many (menc G M P c) l (t_mems G k)
  | TArray _ t', VSeq l => enc_all (menc G M P c) l t'
  | TTuple ts, VSeq l => enc_many (menc G M P c) l ts
  | TVec s _ t', VSeq l =>
      pseq (pdone (wire_size (fmt_of c) s (N.of_nat (length l)))) (enc_all (menc G M P c) l t')
  | TAssoc s _ t', VSeq l =>
      pseq (pdone (wire_size (fmt_of c) s (N.of_nat (length l)))) (enc_all (menc G M P c) l t')
  | TSpan s t', VSeq l =>
      pseq (pdone (wire_size (fmt_of c) s (N.of_nat (length l)))) (enc_all (menc G M P c) l t')
  | TOpt _ _, VNone => pdone [x00]
  | TOpt _ t', VSome x => pseq (pdone [x01]) (menc G M P c x t')
  | TOptPtr _, VNone => pdone [x00]
  | TOptPtr t', VSome x => pseq (pdone [x01]) (menc G M P c x t')
  | TPtr _, VNone => ([], false)
  | TPtr t', VSome x => menc G M P c x t'
  | TVariant _ _ _, VValueless => ([], false)
  | TVariant ik meta alts, VAlt i x =>
      match nth_error meta i, nth_error alts i with
      | Some (id, _), Some t' => pseq (pdone (wire_id (fmt_of c) ik id)) (menc G M P c x t')
      | _, _ => ([], false)
      end
  | TBitset n, VBits l => pdone (le_bytes ((n + 7) / 8) (bits_number l))
  | TView (VwSized s), VBytes l => pdone (wire_size (fmt_of c) s (N.of_nat (length l)) ++ l)
  | TView _, VBytes l => pdone l
  | _, _ => pnil
  end.

(** [Q] holds of every message in an object that is not inside another message. *)
Fixpoint messages (Q : nat -> list val -> bool) (G : tenv) (M : nat -> bool) (v : val) (t : ty)
  {struct v} : bool :=
  match t, v with
  | TStruct _ ms, VSeq l => forall2b (fun x m => messages Q G M x m) l ms
  | TRec k, VSeq l =>
      if M k then Q k l else forall2b (fun x m => messages Q G M x m) l (t_mems G k)
  | TTuple ms, VSeq l => forall2b (fun x m => messages Q G M x m) l ms
  | TArray _ t', VSeq l => forallb (fun x => messages Q G M x t') l
  | TVec _ _ t', VSeq l => forallb (fun x => messages Q G M x t') l
  | TAssoc _ _ t', VSeq l => forallb (fun x => messages Q G M x t') l
  | TSpan _ t', VSeq l => forallb (fun x => messages Q G M x t') l
  | TOpt _ t', VSome x => messages Q G M x t'
  | TOptPtr t', VSome x => messages Q G M x t'
  | TPtr t', VSome x => messages Q G M x t'
  | TVariant _ _ alts, VAlt i x =>
      match nth_error alts i with Some t' => messages Q G M x t' | None => false end
  | _, _ => true
  end.
