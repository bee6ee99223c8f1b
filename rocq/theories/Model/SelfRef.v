(** access::self_referencing (zpp_bits.h:1391-1445) and the concept type_references (882-912):
    the classes whose members are visited by an ordinary lambda rather than one that must be
    inlined (2147-2158, 2691-2702, 4715-4745, 5001-5023).

    A type is given by its shape; classes are numbers, looked up in an environment.  Not
    represented: cv-qualifiers and references (removed by remove_cvref_t); the value_type
    pair<const Key, Value> of a map, which is the type of no class member in question. *)

From Coq Require Import List Bool Arith Lia.
Import ListNotations.

Inductive sty :=
| SFund                               (* not a class *)
| SClass (k : nat)                    (* a class without the shape of the library types *)
| STuple (ts : list sty)              (* std::tuple, std::pair *)
| SArr (std : bool) (n : nat) (t : sty) (* std::array or C array of n elements *)
| SSeq (t : sty)                      (* container without key_type *)
| SSet (k : sty)
| SMap (k v : sty)
| SOwn (t : sty)                      (* std::unique_ptr, std::shared_ptr *)
| SOpt (t : sty)                      (* std::optional, optional_ptr *)
| SVar (ts : list sty).

Record class := mkClass {
  cl_empty : bool;                    (* std::is_empty *)
  cl_explicit : bool;                 (* has_explicit_serialize with traits::visitor *)
  cl_members : option (list sty)      (* None: number_of_members is -1 *)
}.
Definition senv := nat -> class.

Section SubtypeEq.
  Context (f : sty -> sty -> bool).
  Fixpoint stys_eqb (a b : list sty) : bool :=
    match a, b with
    | [], [] => true
    | x :: a', y :: b' => f x y && stys_eqb a' b'
    | _, _ => false
    end.
End SubtypeEq.

(** std::same_as. *)
Fixpoint sty_eqb (a b : sty) {struct a} : bool :=
  match a, b with
  | SFund, SFund => true
  | SClass j, SClass k => j =? k
  | STuple l, STuple l' | SVar l, SVar l' => stys_eqb sty_eqb l l'
  | SArr s n t, SArr s' n' t' => eqb s s' && (n =? n') && sty_eqb t t'
  | SSeq t, SSeq t' | SSet t, SSet t' | SOwn t, SOwn t' | SOpt t, SOpt t' => sty_eqb t t'
  | SMap k v, SMap k' v' => sty_eqb k k' && sty_eqb v v'
  | _, _ => false
  end.

(** type_references (882-912). *)
Definition type_references (t self : sty) : bool :=
  match t with
  | SSeq e | SArr true _ e | SSet e | SOwn e | SOpt e => sty_eqb e self
  | SMap k v => sty_eqb k self || sty_eqb v self
  | _ => false
  end.

Section AnyOf.
  Context (f : sty -> option bool).
  (** The fold over ||: every operand is instantiated. *)
  Fixpoint any_of (l : list sty) : option bool :=
    match l with
    | [] => Some false
    | t :: l' =>
        match f t, any_of l' with
        | Some a, Some b => Some (a || b)
        | _, _ => None
        end
    end.
End AnyOf.

(** self_referencing (1421-1445) and its visitor (1391-1419).  [None]: [fuel] levels of
    instantiation do not suffice. *)
Fixpoint self_ref (E : senv) (fuel : nat) (t self : sty) (visited : list sty) : option bool :=
  match fuel with
  | O => None
  | S f =>
      let visitor (empty : bool) (ms : list sty) :=
        if empty then Some false
        else if existsb (fun m => type_references m self) ms then Some true
        else if existsb (sty_eqb t) visited then Some false
        else any_of (fun m => self_ref E f m self (t :: visited)) ms in
      match t with
      | SClass k =>
          match cl_members (E k) with
          | None => Some false
          | Some ms =>
              if cl_explicit (E k) then Some false
              else match ms with [] => Some false | _ => visitor (cl_empty (E k)) ms end
          end
      | STuple ts => match ts with [] => Some false | _ => visitor false ts end
      | SArr _ n e => if n =? 0 then Some false else self_ref E f e self visited
      | _ => Some false
      end
  end.

(** The concept self_referencing (914-915). *)
Definition self_referencing (E : senv) (fuel : nat) (t : sty) : option bool := self_ref E fuel t t [].

(** The members visited by serialize_one for a plain class (2114-2159). *)
Definition class_members (E : senv) (k : nat) : list sty :=
  if cl_explicit (E k) || cl_empty (E k) then []
  else match cl_members (E k) with Some ms => ms | None => [] end.

(** The types whose serialize_one is called from the serialize_one of a type, all of them
    functions that must be inlined. *)
Definition calls (E : senv) (t : sty) : list sty :=
  match t with
  | SFund => []
  | SClass k => class_members E k
  | STuple ts | SVar ts => ts
  | SArr _ _ e | SSeq e | SSet e | SOwn e | SOpt e => [e]
  | SMap k v => [STuple [k; v]]
  end.

(** The calls that are inlined: not those from within the ordinary lambda. *)
Definition inlined (E : senv) (fuel : nat) (t : sty) : list sty :=
  match t with
  | SClass _ =>
      match self_referencing E fuel t with
      | Some false => calls E t
      | _ => []
      end
  | _ => calls E t
  end.
