(** Serialize functions whose locals are of classes with such functions themselves
    (zpp_bits.h:2046-2051 and 2606-2611): typically an object is converted to one of another
    class, which is serialized in its place.  The functions are those of Model/Custom.v, which
    leaves such locals out; written values are then no longer parts of the object, so that
    writing, as reading, counts the calls of functions inside of one another. *)

From Coq Require Import List NArith ZArith Lia Bool Arith.
From Verif Require Import Base.Bytes Model.Types Model.Machine Model.Varint Model.Out Model.In Model.Pb
  Model.Custom.
Import ListNotations.
Local Open Scope N_scope.

(** basic_out::serialize_one as in Model/Out.v; [rec] writes an object of a named class. *)
Fixpoint wser (c : cfg) (rec : nat -> list val -> act) (v : val) (t : ty) {struct v} : act :=
  match t, v with
  | TScalar w _, VN n => put c (scalar_bytes c w n)
  | TBool, VN n => put c (scalar_bytes c 1 n)
  | TVarint w sg zz, VN n => ser_varint c w sg zz n
  | TEmpty, VSeq [] => ret
  | TStruct si ms, VSeq l =>
      if negb (s_expl si) && is_empty t then ret
      else if as_bytes c t then put_bytes c (objrep c v t)
      else ser_many (wser c rec) l ms
  | TRec k, VSeq l => rec k l
  | TArray n t', VSeq l =>
      if as_bytes c t' then put_bytes c (objrep c v t)
      else ser_all (wser c rec) l t'
  | TTuple ts, VSeq l => ser_many (wser c rec) l ts
  | TVec s contig t', VSeq l =>
      ser_size c (sz_of c s) (N.of_nat (length l)) ;;
      if as_bytes c t' && contig
      then put_bytes c (flat_map (fun x => objrep c x t') l)
      else ser_all (wser c rec) l t'
  | TAssoc s k t', VSeq l =>
      ser_size c (sz_of c s) (N.of_nat (length l)) ;; ser_all (wser c rec) l t'
  | TSpan s t', VSeq l =>
      ser_size c (sz_of c s) (N.of_nat (length l)) ;;
      if as_bytes c t' then put_bytes c (flat_map (fun x => objrep c x t') l)
      else ser_all (wser c rec) l t'
  | TOpt _ _, VNone => ser_flag c false
  | TOpt _ t', VSome x => ser_flag c true ;; wser c rec x t'
  | TOptPtr _, VNone => ser_flag c false
  | TOptPtr t', VSome x => ser_flag c true ;; wser c rec x t'
  | TPtr _, VNone => fail (RErr invalid_argument)
  | TPtr t', VSome x => wser c rec x t'
  | TVariant _ _ _, VValueless => fail (RErr invalid_argument)
  | TVariant ik meta alts, VAlt i x =>
      match nth_error meta i, nth_error alts i with
      | Some (id, _), Some t' => ser_id c ik id ;; wser c rec x t'
      | _, _ => fail RUB
      end
  | TBitset n, VBits l => ser_bitset c n l
  | TView (VwSized s), VBytes l =>
      ser_size c (sz_of c s) (N.of_nat (length l)) ;; put_bytes c l
  | TView (VwFixed _), VBytes l => put_bytes c l
  | TView VwRest, VBytes l => put_bytes c l
  | _, _ => fail RUB
  end.

(** The function on an output archive (2046-2051); [wr] writes an item, member or local. *)
Section RunW.
  Variables (wr : val -> ty -> act) (self : list val).
  Fixpoint run_w (p : prog) : act :=
    match p with
    | PRet => ret
    | PFail e => fail (RErr e)
    | PThrow => fail RThrow
    | PMem i t k =>
        match nth_error self i with
        | Some x => wr x t ;; run_w (k self)
        | None => fail RUB
        end
    | PLoc t f k => wr (f self) t ;; run_w (k (f self) self)
    | PSet _ k => run_w k
    end.
End RunW.

(** One unit of [fuel] per function inside of functions: the stack. *)
Fixpoint pser_rec (F : funs) (c : cfg) (fuel : nat) (k : nat) (l : list val) : act :=
  match fuel with
  | O => fail RStack
  | S f => run_w (wser c (pser_rec F c f)) l (F k)
  end.

(** out::serialize_one. *)
Definition pser (F : funs) (c : cfg) (fuel : nat) : val -> ty -> act := wser c (pser_rec F c fuel).

(** Reading (2606-2611): locals are read as members are. *)
Fixpoint pdes_rec (G : tenv) (F : funs) (c : cfg) (data : list byte) (fuel : nat) (k : nat)
  (prior : val) (pos : nat) : dres :=
  match fuel with
  | O => (RStack, prior, pos)
  | S f =>
      seq_res (run_in (des_ty G c data (pdes_rec G F c data f)) (des_ty G c data (pdes_rec G F c data f))
        (F k) (as_seq prior) pos)
  end.

(** in::serialize_one. *)
Definition pdes (G : tenv) (F : funs) (c : cfg) (data : list byte) (fuel : nat) : ty -> val -> nat -> dres :=
  des_ty G c data (pdes_rec G F c data fuel).

(** An object serialized as one of class [k], and back:
      K x = to(self);
      if (auto r = archive(x); failure(r)) return r;
      if constexpr (in) self = from(x);
      return errc{};
    (what an output archive assigns is not looked at any more). *)
Definition through (k : nat) (to : list val -> list val) (from : val -> list val) : prog :=
  PLoc (TRec k) (fun self => VSeq (to self)) (fun x _ => PSet (fun _ => from x) PRet).
