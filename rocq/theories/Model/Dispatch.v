(** Which serialize_one overload is selected for a type, and which members a class without a
    serialize function is taken apart into (zpp_bits.h:216-343, 606-939, 1173-1268 and the
    heads of the overloads in basic_out, 2042-2345, and in, 2601-3100).

    A type is given by the answers of the compiler to the elementary questions the concepts
    ask; the concepts and the overload set are computed from them.  The answers are arbitrary,
    they need not come from an existing type. *)

From Coq Require Import List Bool Arith Lia.
Import ListNotations.

(** A declared member list: [serialize] naming members<N> or protocol<P, N>; [None] for N is
    the default argument numeric_limits<size_t>::max(), that is, not given (92-103). *)
Inductive decl := NoDecl | Members (n : option nat) | Proto (n : option nat).

Record facts := mkFacts {
  d_type : decl;        (* type::serialize *)
  d_adl : decl;         (* the return type of serialize(item) *)
  e_static : bool;      (* type::serialize(archive, item) is valid *)
  e_adl : bool;         (* serialize(archive, item) is valid *)
  q_variant : bool;     (* index(), std::get_if<0>, std::variant_size_v *)
  q_optional : bool;    (* value(), has_value(), operator bool, operator* *)
  q_container : bool;   (* value_type, size(), begin(), end() *)
  q_key : bool;         (* key_type *)
  q_tuple : bool;       (* std::tuple_size is complete *)
  q_index : bool;       (* index() *)
  q_bitset : bool;      (* flip(), set(), test(0), to_ullong() *)
  q_fixed : bool;       (* has_fixed_nonzero_size: size() is a constant other than 0 *)
  q_whole : bool;       (* size() * sizeof(value_type) == sizeof(Type), data() *)
  is_owner : bool;      (* unique_ptr or shared_ptr *)
  is_arr : bool;        (* C array *)
  is_class : bool;
  is_aggregate : bool;
  is_empty_class : bool;
  extent : nat;         (* of a C array *)
  fixed_size : nat;     (* size() of a container with [q_fixed] *)
  tuple_size : nat;
  accepts : nat -> bool (* type{any{}, ..., any{}} with that many initialisers is valid *)
}.

Definition is_decl (d : decl) : bool := match d with NoDecl => false | _ => true end.
Definition is_proto (d : decl) : bool := match d with Proto _ => true | _ => false end.

(** access::has_explicit_serialize (314-325), has_serialize (274-311), has_protocol (345-363). *)
Definition has_explicit (f : facts) : bool := e_static f || e_adl f.
Definition has_serialize (f : facts) : bool := is_decl (d_type f) || is_decl (d_adl f) || has_explicit f.
Definition has_protocol (f : facts) : bool := is_proto (d_type f) || is_proto (d_adl f).

(** The concepts (787-856). *)
Definition c_variant (f : facts) : bool := negb (has_serialize f) && q_variant f.
Definition c_optional (f : facts) : bool := negb (has_serialize f) && q_optional f.
Definition c_container (f : facts) : bool :=
  negb (has_serialize f) && negb (c_optional f) && q_container f.
Definition c_associative (f : facts) : bool := c_container f && q_key f.
Definition c_tuple (f : facts) : bool :=
  negb (has_serialize f) && negb (c_container f) && q_tuple f && negb (q_index f).
Definition c_owner (f : facts) : bool := negb (c_optional f) && is_owner f.
Definition c_bitset (f : facts) : bool := negb (has_serialize f) && q_bitset f.
Definition c_protocol (f : facts) : bool := has_protocol f && negb (has_explicit f).
Definition c_unspecialized (f : facts) : bool :=
  negb (c_container f) && negb (c_owner f) && negb (c_tuple f) && negb (c_variant f)
  && negb (c_optional f) && negb (c_bitset f) && negb (is_arr f) && negb (c_protocol f).

(** concepts::array (924-932).  [lv]: the argument is an lvalue, so that Type is a reference;
    then [Type{}] is not valid and only C arrays satisfy the concept. *)
Definition c_array (lv : bool) (f : facts) : bool :=
  is_arr f || (c_container f && q_fixed f && negb lv && q_whole f).

(** concepts::inspection_guarded (934-937), asked for the type without reference. *)
Definition c_guarded (f : facts) : bool :=
  (c_container f && negb (c_array false f)) || c_owner f || c_variant f || c_optional f || c_bitset f.

Inductive overload :=
| OUnspecialized | OArray | OContainer | OAssociative | OTuple | OOptional | OVariant | OOwner
| OBitset | OProtocol.

Definition viable (l : list (overload * bool)) : list overload := map fst (filter snd l).

(** basic_out (2042, 2163, 2183, 2253, 2268, 2279, 2305, 2315, 2342). *)
Definition out_viable (lv : bool) (f : facts) : list overload :=
  viable [(OUnspecialized, c_unspecialized f); (OArray, c_array lv f); (OContainer, c_container f);
          (OTuple, c_tuple f); (OOptional, c_optional f); (OVariant, c_variant f);
          (OOwner, c_owner f); (OBitset, c_bitset f); (OProtocol, c_protocol f)].

(** in (2601, 2707, 2727, 2853, 2907, 2922, 2969, 3059, 3074, 3096); the one for variants takes
    an lvalue of a template specialisation, which every type with the operations is assumed to
    be. *)
Definition in_viable (lv : bool) (f : facts) : list overload :=
  viable [(OUnspecialized, c_unspecialized f); (OArray, c_array lv f); (OContainer, c_container f);
          (OAssociative, c_associative f); (OTuple, c_tuple f); (OOptional, c_optional f);
          (OVariant, c_variant f && lv); (OOwner, c_owner f); (OBitset, c_bitset f);
          (OProtocol, c_protocol f)].

Definition overload_eqb (a b : overload) : bool :=
  match a, b with
  | OUnspecialized, OUnspecialized | OArray, OArray | OContainer, OContainer
  | OAssociative, OAssociative | OTuple, OTuple | OOptional, OOptional | OVariant, OVariant
  | OOwner, OOwner | OBitset, OBitset | OProtocol, OProtocol => true
  | _, _ => false
  end.

(** Partial ordering by constraints: associative_container is container and more (812-816);
    no other concept of the list subsumes another one ([array] is a disjunction, and negated
    concepts are atomic).  [None]: no or more than one overload remains. *)
Definition resolve (l : list overload) : option overload :=
  match filter (fun o => negb (overload_eqb o OContainer && existsb (overload_eqb OAssociative) l)) l with
  | [o] => Some o
  | _ => None
  end.

(** The branches of the unspecialized overload (2047-2160, 2606-2704). *)
Inductive branch := BStatic | BAdl | BFundamental | BBytes | BEmpty | BAsBytes | BMembers.

Definition unspecialized_branch (f : facts) (fundamental bytes as_bytes : bool) : branch :=
  if e_static f then BStatic else if e_adl f then BAdl
  else if fundamental then BFundamental
  else if bytes then BBytes
  else if is_empty_class f then BEmpty
  else if as_bytes then BAsBytes
  else BMembers.

(** How members are counted when nothing is declared: by structured binding packs (C++26), by
    the number of initialisers (mode 0), or by trying structured bindings (mode 1). *)
Inductive mode := Packs | Initialisers | Bindings.

Definition declared_members (d : decl) : option nat := match d with Members n => n | _ => None end.
Definition declared_proto (d : decl) : option nat := match d with Proto n => n | _ => None end.

(** The chain of 50, 49, ..., 1 initialisers (1245), [n] = the number tried first. *)
Fixpoint most_initialisers (ok : nat -> bool) (n : nat) : option nat :=
  match n with
  | O => None
  | S k => if ok n then Some n else most_initialisers ok k
  end.

(** access::number_of_members (1173-1268), for a class with [m] members that a structured
    binding can bind; [None] is -1.  *)
Definition number_of_members (md : mode) (f : facts) (m : nat) : option nat :=
  if is_arr f then Some (extent f)
  else if negb (is_class f) then Some 0
  else if c_container f && q_fixed f then Some (fixed_size f)
  else if c_tuple f then Some (tuple_size f)
  else match declared_members (d_type f) with Some n => Some n | None =>
       match declared_members (d_adl f) with Some n => Some n | None =>
       match declared_proto (d_type f) with Some n => Some n | None =>
       match declared_proto (d_adl f) with Some n => Some n | None =>
       match md with
       | Packs => if c_guarded f then None else Some m
       | Initialisers =>
           if is_aggregate f then
             match most_initialisers (accepts f) 50 with
             | Some n => Some n
             | None => if is_empty_class f then Some 0 else None
             end
           else None
       | Bindings => if (1 <=? m) && (m <=? 50) then Some m else None
       end end end end end.

(** visit_members (216-222; 239-250): with packs the binding takes all members; otherwise the
    count selects a binding of that many names, which compiles only if the class has that many
    members; count 0 calls the visitor without looking at the object. *)
Definition visit_members {A} (md : mode) (f : facts) (members : list A) : option (list A) :=
  match md with
  | Packs => Some members
  | _ =>
      match number_of_members md f (length members) with
      | None => None
      | Some O => Some []
      | Some n => if (n <=? 50) && (n =? length members) then Some members else None
      end
  end.
