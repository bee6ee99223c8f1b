(** Compile-time computations on types: variant ids (zpp_bits.h:434-583), tuple dispatch
    (585-603), traits::unique (751-759), the static assertions of protobuf messages
    (4349-4358, 4484-4573, 4613-4618).

    A C++ type is represented by a number.  [None]: a
    static_assert fires or an expression does not compile. *)

From Coq Require Import List NArith Bool Arith.
From Verif Require Import Base.Bytes Model.Types Model.Pb.
Import ListNotations.
Local Open Scope N_scope.

(** A constant used as id: its type and value.  std::byte is type 0. *)
Notation ident := (nat * N)%type.
Definition byte_type : nat := 0.

Definition ident_eqb (a b : ident) : bool := (fst a =? fst b)%nat && (snd a =? snd b).

(** get_id<Index, CurrentIndex, FirstType, OtherTypes...> (439-469) on the list of remaining
    types, each with its serialize_id if it declares one; std::byte{Index} does not compile when
    Index does not fit. *)
Fixpoint get_id (index cur : nat) (types : list (option ident)) : option ident :=
  match types with
  | [] => None
  | first :: other =>
      if (index =? cur)%nat then
        match first with
        | Some i => Some i
        | None => if N.of_nat index <? 256 then Some (byte_type, N.of_nat index) else None
        end
      else get_id index (S cur) other
  end.

(** id<Index>() (470-474). *)
Definition id_const (types : list (option ident)) (index : nat) : option ident :=
  get_id index 0 types.

(** All ids, as the fold expressions of unique_ids instantiate them. *)
Fixpoint all_ids (n : nat) (types : list (option ident)) : option (list ident) :=
  match n with
  | O => Some []
  | S n' =>
      match all_ids n' types, id_const types n' with
      | Some l, Some i => Some (l ++ [i])
      | _, _ => None
      end
  end.

Definition variant_ids (types : list (option ident)) : option (list ident) :=
  all_ids (length types) types.

(** id(index) (476-488): the ids are compared one after the other, the last one is returned
    without a comparison. *)
Fixpoint id_at (ids : list ident) (index cur : nat) : option ident :=
  match ids with
  | [] => None
  | [last] => Some last
  | i :: ids' => if (index =? cur)%nat then Some i else id_at ids' index (S cur)
  end.

(** index(id) (502-515); [None] is std::numeric_limits<std::size_t>::max(). *)
Fixpoint index_at (ids : list ident) (id : ident) (cur : nat) : option nat :=
  match ids with
  | [] => None
  | i :: ids' => if ident_eqb i id then Some cur else index_at ids' id (S cur)
  end.

(** unique_ids (517-529): both folds run over all indices. *)
Definition unique_ids (ids : list ident) : bool :=
  forallb (fun l => forallb (fun r =>
    (fst l =? fst r)%nat || negb (ident_eqb (snd l) (snd r)))
    (combine (List.seq 0 (length ids)) ids)) (combine (List.seq 0 (length ids)) ids).

(** same_id_types (531-544). *)
Definition same_id_types (ids : list ident) : bool :=
  forallb (fun l => forallb (fun r => (fst l =? fst r)%nat) ids) ids.

(** index_by_type (546-561): the sum of the indices at which the type occurs. *)
Definition index_by_type (types : list nat) (t : nat) : nat :=
  fold_right Nat.add O
    (map (fun p => if (snd p =? t)%nat then fst p else O) (combine (List.seq 0 (length types)) types)).

(** tuple::visit (590-602): the position visited when asked for [index]. *)
Fixpoint visited (n : nat) (cur index : nat) : option nat :=
  match n with
  | O => None
  | 1%nat => Some cur
  | S n' => if (cur =? index)%nat then Some cur else visited n' (S cur) index
  end.

(** traits::variant (566-583): the types for which the header can be instantiated, as a type of
    the model.  [K]: the representation of an id of the given type; [dcs]: which alternatives are
    default constructible. *)
Definition variant_of (K : nat -> idkind) (types : list (option ident)) (dcs : list bool)
  (alts : list ty) : option ty :=
  match variant_ids types with
  | Some ids =>
      if unique_ids ids && same_id_types ids
      then match ids with
           | i :: _ => Some (TVariant (K (fst i)) (combine (map snd ids) dcs) alts)
           | [] => None
           end
      else None
  | None => None
  end.

(** traits::unique (751-759): [&value == &values] holds only for the same argument. *)
Definition unique (values : list N) : bool :=
  forallb (fun l => forallb (fun r =>
    (fst l =? fst r)%nat || negb (snd l =? snd r))
    (combine (List.seq 0 (length values)) values)) (combine (List.seq 0 (length values)) values).

(** The static assertions for a message: numbers in pb_map are not 0 (4352), explicit numbers
    are not 0 (4495), at most one option maps a member (4518, 4538), numbers are distinct
    (4552-4573, 4617). *)
Definition pb_checks (m : pmsg) : bool :=
  forallb (fun ft => negb (fst ft =? 0) && negb (snd ft =? 0)) (m_map m)
  && forallb (fun fd => match fst fd with Some n => negb (n =? 0) | None => true end) (m_fields m)
  && forallb (fun i =>
       Nat.leb (length (filter (fun ft => (N.of_nat i + 1 =? fst ft) && negb (snd ft =? 0)) (m_map m))) 1)
       (List.seq 0 (length (m_fields m)))
  && unique (numbers m).
