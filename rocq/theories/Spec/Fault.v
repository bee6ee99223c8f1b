(** What can be wrong with an input, and what each fault is called (README "Error Codes").
    [fails t e k]: reading a [t] from [e] - all the input that is left - goes wrong with the
    fault [k], everything before the fault being representations in the sense of
    Spec/Grammar.v.  No mention of buffers, positions, bulk copies or targets. *)

From Coq Require Import List NArith ZArith Bool Arith.
From Verif Require Import Base.Bytes Model.Types Model.Machine Spec.Leb128 Spec.Wire Spec.Grammar.
Import ListNotations.
Local Open Scope N_scope.

Inductive fault :=
| Short      (* the input ends too early *)
| Overlong   (* a variable length integer does not end within the longest encoding *)
| TooMany    (* a container asks for more memory than the allocation limit *)
| UnknownId  (* no alternative of the variant has this id *)
| BadBool.   (* a bool that is neither 0 nor 1 *)

(** The documented error codes; a bad bool has none. *)
Definition code (k : fault) : option errc :=
  match k with
  | Short => Some result_out_of_range
  | Overlong => Some value_too_large
  | TooMany => Some message_size
  | UnknownId => Some bad_message
  | BadBool => None
  end.

(** No base-128 terminator where one has to be. *)
Definition base128_fails (w : nat) (e : list byte) (k : fault) : Prop :=
  leb_value (firstn (w * 8 / 7 + 1) e) = None
  /\ k = if (length e <? w * 8 / 7 + 1)%nat then Short else Overlong.

Definition size_fails (o : wfmt) (s : option sizety) (e : list byte) (k : fault) : Prop :=
  match (match s with Some s => s | None => wsize o end) with
  | SzNone => False
  | SzFix w => (length e < w)%nat /\ k = Short
  | SzVar w => base128_fails w e k
  end.

(** More memory than the limit allows: [n] elements of [size] bytes. *)
Definition exceeds (limit : option N) (size n : N) : Prop :=
  match limit with None => False | Some l => l < n * size end.

Section Fault.
  Variables (G : tenv) (o : wfmt) (limit : option N) (size_of : ty -> N).

  Inductive fails : ty -> list byte -> fault -> Prop :=
  | F_scalar w b e : (length e < w)%nat -> fails (TScalar w b) e Short
  | F_bool : fails TBool [] Short
  | F_bad b e : 2 <= b2n b -> fails TBool (b :: e) BadBool
  | F_varint w sg zz e k : base128_fails w e k -> fails (TVarint w sg zz) e k
  | F_struct si ms e k : part_fails ms e k -> fails (TStruct si ms) e k
  | F_rec j e k : part_fails (t_mems G j) e k -> fails (TRec j) e k
  | F_tuple ts e k : part_fails ts e k -> fails (TTuple ts) e k
  | F_array n t e k : element_fails n t e k -> fails (TArray n t) e k
  | F_vec_size s cg t e k : size_fails o s e k -> fails (TVec s cg t) e k
  | F_vec_limit s cg t e1 e2 n :
      size_is o s e1 n -> exceeds limit (size_of t) n -> fails (TVec s cg t) (e1 ++ e2) TooMany
  | F_vec s cg t e1 e2 n k :
      size_is o s e1 n -> ~ exceeds limit (size_of t) n -> element_fails (N.to_nat n) t e2 k ->
      fails (TVec s cg t) (e1 ++ e2) k
  | F_assoc_size s a t e k : size_fails o s e k -> fails (TAssoc s a t) e k
  | F_assoc s a t e1 e2 n k :
      size_is o s e1 n -> element_fails (N.to_nat n) t e2 k -> fails (TAssoc s a t) (e1 ++ e2) k
  | F_opt_flag dc t : fails (TOpt dc t) [] Short
  | F_opt dc t b e k : b <> x00 -> fails t e k -> fails (TOpt dc t) (b :: e) k
  | F_optptr_flag t : fails (TOptPtr t) [] Short
  | F_optptr t b e k : b <> x00 -> fails t e k -> fails (TOptPtr t) (b :: e) k
  | F_ptr t e k : fails t e k -> fails (TPtr t) e k
  | F_id ik meta alts e :
      (length e < match ik with IdInt w => w | IdBytes n => n end)%nat ->
      fails (TVariant ik meta alts) e Short
  | F_unknown ik meta alts e1 e2 id :
      id_is o ik e1 id -> ~ In id (map fst meta) -> fails (TVariant ik meta alts) (e1 ++ e2) UnknownId
  | F_variant ik meta alts i id dc t e1 e2 k :
      id_is o ik e1 id -> nth_error meta i = Some (id, dc) -> nth_error alts i = Some t ->
      fails t e2 k -> fails (TVariant ik meta alts) (e1 ++ e2) k
  | F_bitset n e : (length e < (n + 7) / 8)%nat -> fails (TBitset n) e Short
  | F_view_size s e k : size_fails o s e k -> fails (TView (VwSized s)) e k
  | F_view s e1 e2 n :
      size_is o s e1 n -> N.of_nat (length e2) < n -> fails (TView (VwSized s)) (e1 ++ e2) Short
  | F_fixed n e : (length e < n)%nat -> fails (TView (VwFixed n)) e Short
  (** One value of each type: the first fault decides. *)
  with part_fails : list ty -> list byte -> fault -> Prop :=
  | P_here t ts e k : fails t e k -> part_fails (t :: ts) e k
  | P_later t ts e1 e2 x k :
      denotes G o t e1 x -> part_fails ts e2 k -> part_fails (t :: ts) (e1 ++ e2) k
  (** [n] values of one type: the first fault decides. *)
  with element_fails : nat -> ty -> list byte -> fault -> Prop :=
  | L_here n t e k : fails t e k -> element_fails (S n) t e k
  | L_later n t e1 e2 x k :
      denotes G o t e1 x -> element_fails n t e2 k -> element_fails (S n) t (e1 ++ e2) k.
End Fault.

Scheme fails_mut := Minimality for fails Sort Prop
  with part_fails_mut := Minimality for part_fails Sort Prop
  with element_fails_mut := Minimality for element_fails Sort Prop.
Combined Scheme faults_ind from fails_mut, part_fails_mut, element_fails_mut.
