(** What a failed read may leave in its target: which parts may have been replaced and which
    must still be what they were.  No mention of bytes, positions or of the reader. *)

From Coq Require Import List Bool.
From Verif Require Import Base.Bytes Model.Types.
Import ListNotations.

Section Torn.
  Variables (G : tenv) (c : cfg).

  (** A resizable container given [n] elements: the first ones stay, new ones are default. *)
  Definition resized (d : val) (n : nat) (l l' : list val) : Prop :=
    length l' = n /\
    forall i x, nth_error l' i = Some x ->
      nth_error l i = Some x \/ (length l <= i /\ x = d).

  (** [torn t v v']: a target of type [t] holding [v] may hold [v'] after a failed read.
      Everything not mentioned - numbers, bit sets, views, owning pointers, optionals and
      alternatives that are not default constructible, objects and arrays copied as bytes -
      has to be unchanged. *)
  Inductive torn : ty -> val -> val -> Prop :=
  | torn_same t v : torn t v v
  | torn_struct si ms l l' :
      as_bytes c (TStruct si ms) = false -> torn_members ms l l' ->
      torn (TStruct si ms) (VSeq l) (VSeq l')
  | torn_rec k l l' : torn_members (t_mems G k) l l' -> torn (TRec k) (VSeq l) (VSeq l')
  | torn_tuple ts l l' : torn_members ts l l' -> torn (TTuple ts) (VSeq l) (VSeq l')
  | torn_array n t l l' :
      as_bytes c t = false -> torn_members (repeat t (length l)) l l' ->
      torn (TArray n t) (VSeq l) (VSeq l')
  | torn_resized s contig t n l l' :
      sz_of c s <> SzNone -> resized (dflt G t) n l l' ->
      torn (TVec s contig t) (VSeq l) (VSeq l')
  | torn_vec s contig t n l l1 l' :
      resized (dflt G t) n l l1 -> (sz_of c s = SzNone -> l1 = l) ->
      as_bytes c t && contig = false -> torn_members (repeat t (length l1)) l1 l' ->
      torn (TVec s contig t) (VSeq l) (VSeq l')
  | torn_assoc s k t l l' : torn (TAssoc s k t) (VSeq l) (VSeq l')
  | torn_shrunk s t n l : sz_of c s <> SzNone -> torn (TSpan s t) (VSeq l) (VSeq (firstn n l))
  | torn_span s t n l l' :
      (sz_of c s = SzNone -> firstn n l = l) -> as_bytes c t = false ->
      torn_members (repeat t (length (firstn n l))) (firstn n l) l' ->
      torn (TSpan s t) (VSeq l) (VSeq l')
  | torn_opt t x y : torn t x y -> torn (TOpt true t) (VSome x) (VSome y)
  | torn_opt_new t y : torn t (dflt G t) y -> torn (TOpt true t) VNone (VSome y)
  | torn_alt ik meta alts i id t x y :
      nth_error meta i = Some (id, true) -> nth_error alts i = Some t -> torn t x y ->
      torn (TVariant ik meta alts) (VAlt i x) (VAlt i y)
  | torn_alt_new ik meta alts i id t v y :
      nth_error meta i = Some (id, true) -> nth_error alts i = Some t ->
      (forall x, v <> VAlt i x) -> torn t (dflt G t) y ->
      torn (TVariant ik meta alts) v (VAlt i y)
  (** Members or elements in order: some have been read, one is torn, the rest is unchanged. *)
  with torn_members : list ty -> list val -> list val -> Prop :=
  | torn_here t ts x y l : torn t x y -> torn_members (t :: ts) (x :: l) (y :: l)
  | torn_later t ts x y l l' :
      torn_members ts l l' -> torn_members (t :: ts) (x :: l) (y :: l').
End Torn.
