(** Which types may stand for each other on the two sides of the wire, and what a value of one
    becomes when it is read as the other.  [G]: the named classes of the writer; [G']: those of
    the reader; [d]: the default size type.  No bytes are mentioned. *)

From Coq Require Import List NArith ZArith Bool.
From Verif Require Import Base.Bytes Model.Types Spec.Leb128 Spec.Grammar.
Import ListNotations.
Local Open Scope N_scope.

(** Fixed sequences of parts: classes, tuples, arrays.  [group G t vs ts]: a value of type [t]
    consists of the parts [vs], of types [ts]. *)
Inductive group (G : tenv) : ty -> list val -> list ty -> Prop :=
| g_struct si ms vs : length vs = length ms -> group G (TStruct si ms) vs ms
| g_named k vs : length vs = length (t_mems G k) -> group G (TRec k) vs (t_mems G k)
| g_tuple ts vs : length vs = length ts -> group G (TTuple ts) vs ts
| g_array n t vs : length vs = n -> group G (TArray n t) vs (repeat t n)
| g_empty : group G TEmpty [] [].

(** Containers with a size: [container t s e]: [t] has elements of type [e] and size type [s]. *)
Inductive container : ty -> option sizety -> ty -> Prop :=
| h_vec s cg e : container (TVec s cg e) s e
| h_assoc s k e : container (TAssoc s k e) s e
| h_span s e : container (TSpan s e) s e.

Inductive optional_like : ty -> ty -> Prop :=
| o_opt dc t : optional_like (TOpt dc t) t
| o_ptr t : optional_like (TOptPtr t) t.

(** One byte standing for the number [n]. *)
Inductive byte_like : ty -> N -> Prop :=
| b_bool n : n < 2 -> byte_like TBool n
| b_number b n : n < 256 -> byte_like (TScalar 1 b) n.

Definition size_of (d : sizety) (s : option sizety) : sizety := match s with Some s => s | None => d end.

(** [n] elements can be announced. *)
Definition announces (s : sizety) (n : nat) : Prop :=
  match s with
  | SzNone => False
  | SzFix w => N.of_nat n < pow256 w
  | SzVar w => wfw w = true /\ N.of_nat n < pow256 w
  end.

Definition numbers (l : list byte) : list val := map (fun b => VN (b2n b)) l.

Section Compat.
  Variables (G G' : tenv) (d : sizety).

  (** The two sides agree about the size of [n] elements. *)
  Definition agreed (s s' : option sizety) (n : nat) : Prop :=
    size_of d s = size_of d s' /\ announces (size_of d s) n.

  (** [conv t v t' v']: the value [v] of type [t], written and read as a [t'], is [v']. *)
  Inductive conv : ty -> val -> ty -> val -> Prop :=
  | V_scalar w b b' n : n < pow256 w -> conv (TScalar w b) (VN n) (TScalar w b') (VN n)
  | V_byte t t' n : byte_like t n -> byte_like t' n -> conv t (VN n) t' (VN n)
  | V_varint w sg w' sg' n :
      wfw w' = true -> n < pow256 w' -> conv (TVarint w sg false) (VN n) (TVarint w' sg' false) (VN n)
  | V_zigzag w w' n n' :
      wfw w = true -> wfw w' = true -> n < pow256 w -> n' < pow256 w' -> to_signed w n = to_signed w' n' ->
      conv (TVarint w true true) (VN n) (TVarint w' true true) (VN n')
  | V_group t vs ts t' vs' ts' :
      group G t vs ts -> group G' t' vs' ts' -> convs ts vs ts' vs' ->
      conv t (VSeq vs) t' (VSeq vs')
  | V_list t l s e s' cg' e' l' :
      container t s e -> agreed s s' (length l) -> conve e l e' l' ->
      conv t (VSeq l) (TVec s' cg' e') (VSeq l')
  | V_set t l s e s' k' e' l' :
      container t s e -> agreed s s' (length l) -> conve e l e' l' ->
      conv t (VSeq l) (TAssoc s' k' e') (VSeq (fold_left (include k') l' []))
  | V_view_list s s' cg b l :
      agreed s s' (length l) ->
      conv (TView (VwSized s)) (VBytes l) (TVec s' cg (TScalar 1 b)) (VSeq (numbers l))
  | V_list_view t s b s' l :
      container t s (TScalar 1 b) -> agreed s s' (length l) ->
      conv t (VSeq (numbers l)) (TView (VwSized s')) (VBytes l)
  | V_view s s' l : agreed s s' (length l) -> conv (TView (VwSized s)) (VBytes l) (TView (VwSized s')) (VBytes l)
  | V_fixed n l : length l = n -> conv (TView (VwFixed n)) (VBytes l) (TView (VwFixed n)) (VBytes l)
  | V_none t e t' e' : optional_like t e -> optional_like t' e' -> conv t VNone t' VNone
  | V_some t e t' e' x x' :
      optional_like t e -> optional_like t' e' -> conv e x e' x' -> conv t (VSome x) t' (VSome x')
  | V_from_ptr t x t' x' : conv t x t' x' -> conv (TPtr t) (VSome x) t' x'
  | V_to_ptr t x t' x' : conv t x t' x' -> conv t x (TPtr t') (VSome x')
  | V_alt ik meta alts meta' alts' i j id dc dc' t t' x x' :
      nth_error meta i = Some (id, dc) -> nth_error alts i = Some t ->
      nth_error meta' j = Some (id, dc') -> nth_error alts' j = Some t' ->
      id < pow256 (idwidth ik) -> conv t x t' x' ->
      conv (TVariant ik meta alts) (VAlt i x) (TVariant ik meta' alts') (VAlt j x')
  | V_bitset n l : length l = n -> conv (TBitset n) (VBits l) (TBitset n) (VBits l)
  (** Parts in order; a group may be taken apart on either side. *)
  with convs : list ty -> list val -> list ty -> list val -> Prop :=
  | VS_nil : convs [] [] [] []
  | VS_cons t v t' v' ts vs ts' vs' :
      conv t v t' v' -> convs ts vs ts' vs' -> convs (t :: ts) (v :: vs) (t' :: ts') (v' :: vs')
  | VS_open t us us_ty ts vs ts' vs' :
      group G t us us_ty -> convs (us_ty ++ ts) (us ++ vs) ts' vs' ->
      convs (t :: ts) (VSeq us :: vs) ts' vs'
  | VS_close t' us' us_ty' ts vs ts' vs' :
      group G' t' us' us_ty' -> convs ts vs (us_ty' ++ ts') (us' ++ vs') ->
      convs ts vs (t' :: ts') (VSeq us' :: vs')
  (** Elements of containers. *)
  with conve : ty -> list val -> ty -> list val -> Prop :=
  | VE_nil t t' : conve t [] t' []
  | VE_cons t v t' v' l l' : conv t v t' v' -> conve t l t' l' -> conve t (v :: l) t' (v' :: l').
End Compat.

Scheme conv_mut := Minimality for conv Sort Prop
  with convs_mut := Minimality for convs Sort Prop
  with conve_mut := Minimality for conve Sort Prop.
Combined Scheme conv_ind3 from conv_mut, convs_mut, conve_mut.
