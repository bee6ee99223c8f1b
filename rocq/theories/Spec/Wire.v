(** Specification of the wire format, as documented (README "Byte order", "Size type",
    "Variants", "Optionals", ...): a pure function from values to bytes.  It does not
    mention buffers, positions, growth or bulk copies. *)

From Coq Require Import List NArith ZArith Lia Bool Arith.
From Verif Require Import Base.Bytes Model.Types Spec.Leb128.
Import ListNotations.
Local Open Scope N_scope.

(** What the wire format depends on: byte order of scalars and default size type. *)
Record wfmt := mkWfmt { little : bool; wsize : sizety }.

Definition wscalar (o : wfmt) (w : nat) (n : N) : list byte :=
  if little o then le_bytes w n else rev (le_bytes w n).

Definition wire_size (o : wfmt) (s : option sizety) (n : N) : list byte :=
  match (match s with Some s => s | None => wsize o end) with
  | SzNone => []
  | SzFix w => wscalar o w (n mod pow256 w)
  | SzVar w => leb128 (n mod pow256 w)
  end.

(** The unsigned number written for a varint object: its bits, or the zig-zag image of the
    signed value.  (zig_zag on an unsigned type rotates the bits left by one.) *)
Definition varint_number (w : nat) (sg zz : bool) (n : N) : N :=
  if zz then
    if sg then zigzag (to_signed w n)
    else (2 * n) mod pow256 w + 2 * n / pow256 w
  else n.

Definition wire_id (o : wfmt) (k : idkind) (i : N) : list byte :=
  match k with IdInt w => wscalar o w i | IdBytes n => le_bytes n i end.

(** The number whose bit i is the i-th element. *)
Fixpoint bits_number (l : list bool) : N :=
  match l with
  | [] => 0
  | b :: l' => (if b then 1 else 0) + 2 * bits_number l'
  end.

(** Partial outputs: bytes and whether the value could be written to the end (a null owning
    pointer or a valueless variant stops the output). *)
Definition pout := (list byte * bool)%type.
Definition pnil : pout := ([], true).
Definition pdone (e : list byte) : pout := (e, true).
Definition pseq (a b : pout) : pout :=
  if snd a then (fst a ++ fst b, snd b) else a.

Section EncLoops.
  Context (f : val -> ty -> pout).
  Fixpoint enc_many (l : list val) (ms : list ty) : pout :=
    match l, ms with
    | x :: l', m :: ms' => pseq (f x m) (enc_many l' ms')
    | _, _ => pnil
    end.
  Fixpoint enc_all (l : list val) (t : ty) : pout :=
    match l with
    | [] => pnil
    | x :: l' => pseq (f x t) (enc_all l' t)
    end.
End EncLoops.

Fixpoint enc (G : tenv) (o : wfmt) (v : val) (t : ty) {struct v} : pout :=
  match t, v with
  | TScalar w _, VN n => pdone (wscalar o w n)
  | TBool, VN n => pdone (wscalar o 1 n)
  | TVarint w sg zz, VN n => pdone (leb128 (varint_number w sg zz n))
  | TStruct _ ms, VSeq l => enc_many (enc G o) l ms
  | TRec k, VSeq l => enc_many (enc G o) l (t_mems G k)
  | TArray _ t', VSeq l => enc_all (enc G o) l t'
  | TTuple ts, VSeq l => enc_many (enc G o) l ts
  | TVec s _ t', VSeq l =>
      pseq (pdone (wire_size o s (N.of_nat (length l)))) (enc_all (enc G o) l t')
  | TAssoc s _ t', VSeq l =>
      pseq (pdone (wire_size o s (N.of_nat (length l)))) (enc_all (enc G o) l t')
  | TSpan s t', VSeq l =>
      pseq (pdone (wire_size o s (N.of_nat (length l)))) (enc_all (enc G o) l t')
  | TOpt _ _, VNone => pdone [x00]
  | TOpt _ t', VSome x => pseq (pdone [x01]) (enc G o x t')
  | TOptPtr _, VNone => pdone [x00]
  | TOptPtr t', VSome x => pseq (pdone [x01]) (enc G o x t')
  | TPtr _, VNone => ([], false)
  | TPtr t', VSome x => enc G o x t'
  | TVariant _ _ _, VValueless => ([], false)
  | TVariant ik meta alts, VAlt i x =>
      match nth_error meta i, nth_error alts i with
      | Some (id, _), Some t' => pseq (pdone (wire_id o ik id)) (enc G o x t')
      | _, _ => ([], false)
      end
  | TBitset n, VBits l => pdone (le_bytes ((n + 7) / 8) (bits_number l))
  | TView (VwSized s), VBytes l => pdone (wire_size o s (N.of_nat (length l)) ++ l)
  | TView _, VBytes l => pdone l
  | _, _ => pnil
  end.

(** The bytes of a value. *)
Definition encode (G : tenv) (o : wfmt) (v : val) (t : ty) : list byte := fst (enc G o v t).

(** The value contains no null owning pointer and no valueless variant (where one would be
    written). *)
Definition writable (G : tenv) (o : wfmt) (v : val) (t : ty) : bool := snd (enc G o v t).
