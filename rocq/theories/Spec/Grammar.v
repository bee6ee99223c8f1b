(** Specification of the inputs a reader accepts: [denotes G o t e v] holds when the bytes [e]
    are a representation of the value [v] of type [t].  Writers produce only some of these
    representations (Spec/Wire.v); readers accept all of them.  Nothing here mentions buffers,
    positions, bulk copies or previous contents of the target.

    The relation covers the types that determine their own extent: no containers without a
    size, no spans, no views of the rest of the input. *)

From Coq Require Import List NArith ZArith Bool Arith.
From Verif Require Import Base.Bytes Model.Types Spec.Leb128 Spec.Wire.
Import ListNotations.
Local Open Scope N_scope.

(** The number a group of bytes stands for in the byte order of the format. *)
Definition word (o : wfmt) (e : list byte) : N :=
  if little o then le_val e else le_val (rev e).

(** Base-128 digits up to a terminator, possibly with superfluous zeros, in at most
    8w/7 + 1 bytes; the excess bits are dropped. *)
Definition base128 (w : nat) (e : list byte) (n : N) : Prop :=
  exists m, leb_value e = Some (m, length e) /\ (length e <= w * 8 / 7 + 1)%nat /\ n = m mod pow256 w.

Definition size_is (o : wfmt) (s : option sizety) (e : list byte) (n : N) : Prop :=
  match (match s with Some s => s | None => wsize o end) with
  | SzNone => False
  | SzFix w => length e = w /\ word o e = n
  | SzVar w => base128 w e n
  end.

Definition id_is (o : wfmt) (k : idkind) (e : list byte) (i : N) : Prop :=
  match k with
  | IdInt w => length e = w /\ word o e = i
  | IdBytes n => length e = n /\ le_val e = i
  end.

(** Adding an element to an associative container: dropped if the container holds an
    equivalent one and may not hold two; otherwise put before the first greater element, or at
    the end if there is no order. *)
Fixpoint put_before (greater : val -> bool) (l : list val) (x : val) : list val :=
  match l with
  | [] => [x]
  | y :: l' => if greater y then x :: l else y :: put_before greater l' x
  end.

Definition include (k : akind) (l : list val) (x : val) : list val :=
  if negb (a_multi k) && existsb (fun y => equivalent k y x) l then l
  else match a_cmp k with
       | AOrd lt => put_before (fun y => lt (akey k x) (akey k y)) l x
       | AHash _ => l ++ [x]
       end.

Section Grammar.
  Variables (G : tenv) (o : wfmt).

  Inductive denotes : ty -> list byte -> val -> Prop :=
  | D_scalar w b e : length e = w -> denotes (TScalar w b) e (VN (word o e))
  | D_bool e : length e = 1%nat -> word o e < 2 -> denotes TBool e (VN (word o e))
  | D_varint w sg e n : base128 w e n -> denotes (TVarint w sg false) e (VN n)
  | D_zigzag w sg e n :
      base128 w e n -> denotes (TVarint w sg true) e (VN (of_signed w (unzigzag n)))
  | D_empty : denotes TEmpty [] (VSeq [])
  | D_struct si ms e l : sequence ms e l -> denotes (TStruct si ms) e (VSeq l)
  | D_rec k e l : sequence (t_mems G k) e l -> denotes (TRec k) e (VSeq l)
  | D_tuple ts e l : sequence ts e l -> denotes (TTuple ts) e (VSeq l)
  | D_array t e l : elements t e l -> denotes (TArray (length l) t) e (VSeq l)
  | D_vec s cg t e1 e2 l :
      size_is o s e1 (N.of_nat (length l)) -> elements t e2 l ->
      denotes (TVec s cg t) (e1 ++ e2) (VSeq l)
  | D_assoc s k t e1 e2 l :
      size_is o s e1 (N.of_nat (length l)) -> elements t e2 l ->
      denotes (TAssoc s k t) (e1 ++ e2) (VSeq (fold_left (include k) l []))
  | D_none dc t : denotes (TOpt dc t) [x00] VNone
  | D_some dc t b e x : b <> x00 -> denotes t e x -> denotes (TOpt dc t) (b :: e) (VSome x)
  | D_null t : denotes (TOptPtr t) [x00] VNone
  | D_nonnull t b e x : b <> x00 -> denotes t e x -> denotes (TOptPtr t) (b :: e) (VSome x)
  | D_ptr t e x : denotes t e x -> denotes (TPtr t) e (VSome x)
  | D_variant ik meta alts i id dc t e1 e2 x :
      nth_error meta i = Some (id, dc) -> nth_error alts i = Some t ->
      id_is o ik e1 id -> denotes t e2 x ->
      denotes (TVariant ik meta alts) (e1 ++ e2) (VAlt i x)
  | D_bitset n e :
      length e = ((n + 7) / 8)%nat ->
      denotes (TBitset n) e
        (VBits (map (fun i => N.testbit (le_val e) (N.of_nat i)) (List.seq 0 n)))
  | D_sized s e1 l :
      size_is o s e1 (N.of_nat (length l)) -> denotes (TView (VwSized s)) (e1 ++ l) (VBytes l)
  | D_fixed l : denotes (TView (VwFixed (length l))) l (VBytes l)
  (** One value of each type, one after another. *)
  with sequence : list ty -> list byte -> list val -> Prop :=
  | S_nil : sequence [] [] []
  | S_cons t ts e1 e2 x l :
      denotes t e1 x -> sequence ts e2 l -> sequence (t :: ts) (e1 ++ e2) (x :: l)
  (** Any number of values of one type. *)
  with elements : ty -> list byte -> list val -> Prop :=
  | E_nil t : elements t [] []
  | E_cons t e1 e2 x l :
      denotes t e1 x -> elements t e2 l -> elements t (e1 ++ e2) (x :: l).
End Grammar.

Scheme denotes_mut := Minimality for denotes Sort Prop
  with sequence_mut := Minimality for sequence Sort Prop
  with elements_mut := Minimality for elements Sort Prop.
Combined Scheme grammar_ind from denotes_mut, sequence_mut, elements_mut.
