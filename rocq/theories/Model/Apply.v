(** value_or_errc (zpp_bits.h:3457-3623) and apply (3625-3742).

    Simplifications as in Model/Rpc.v: functions are total and do not throw; the three copies
    of the code in apply (function object, function pointer, member function) differ only in how
    the function is named and are one definition here.  References are not modelled as return
    types, and the coroutine operators (3563-3579) are not modelled. *)

From Coq Require Import List NArith Bool Arith.
From Verif Require Import Base.Bytes Model.Types Model.Machine Model.Out Model.In Model.Rpc.
Import ListNotations.
Local Open Scope N_scope.

(** The content of a zpp::bits::errc: a library result or the code a function returned. *)
Definition code := (res + N)%type.

(** The errc a function returned; the code 0 is std::errc{}. *)
Definition errc_code (v : val) : code :=
  match v with VN 0 => inl ROk | VN n => inr n | _ => inl ROk end.

(** failure(errc) (161-164). *)
Definition code_failure (c : code) : bool :=
  match c with inl ROk => false | inl _ => true | inr n => negb (n =? 0) end.

(** Looking at an object: what is found, the exception thrown, or undefined behaviour (reading
    the member of the union that is not active). *)
Inductive got (A : Type) := Got (a : A) | Throws (c : code) | Undefined.
Arguments Got {A}. Arguments Throws {A}. Arguments Undefined {A}.

(** The union (3617-3621) and the flag (3622). *)
Inductive cell := CError (c : code) | CValue (v : val).
Record voe := mkVoe { v_cell : cell; v_failure : bool }.

(** 3481: m_error is initialised, m_failure is false. *)
Definition voe_default : voe := mkVoe (CError (inl ROk)) false.
(** 3483-3486. *)
Definition voe_value (v : val) : voe := mkVoe (CValue v) false.
(** 3488-3492. *)
Definition voe_error (c : code) : voe := mkVoe (CError c) true.

(** 3521-3529. *)
Definition voe_success (x : voe) : bool := negb (v_failure x).

(** Move construction (3494-3509). *)
Definition voe_move (x : voe) : got voe :=
  if voe_success x then
    match v_cell x with CValue v => Got (mkVoe (CValue v) false) | CError _ => Undefined end
  else
    match v_cell x with CError c => Got (mkVoe (CError c) (v_failure x)) | CValue _ => Undefined end.

(** value() (3531-3556), for Type other than errc. *)
Definition voe_get (x : voe) : got val :=
  match v_cell x with CValue v => Got v | CError _ => Undefined end.

(** error() (3558-3561). *)
Definition voe_code (x : voe) : got code :=
  match v_cell x with CError c => Got c | CValue _ => Undefined end.

(** or_throw() (3581-3615). *)
Definition voe_or_throw (x : voe) : got val :=
  if v_failure x then
    match voe_code x with Got c => Throws c | _ => Undefined end
  else voe_get x.

(** The destructor (3511-3519) destroys the value if there is one: true when that is what is
    there (Type not trivially destructible). *)
Definition voe_destroy_ok (x : voe) : bool :=
  if voe_success x then match v_cell x with CValue _ => true | CError _ => false end else true.

(** value_or_errc<Type>{value}: when Type is errc both constructors match equally well and the
    one that is not a template (3488) is chosen. *)
Definition voe_make (rt : rret) (v : val) : voe :=
  match rt with
  | RetErrc => voe_error (errc_code v)
  | _ => voe_value v
  end.

(** What apply returns: nothing, an errc, the value itself (no parameters) or a
    value_or_errc. *)
Inductive returned := RNothing | RCode (c : code) | RDirect (v : val) | RVoe (x : voe).

(** [ap_ret]: [inr r]: apply does not return ([r] is an exception or worse, from reading the
    arguments). *)
Record applied (S : Type) := mkApplied {
  ap_ret : returned + res; ap_ctx : S; ap_pos : nat; ap_calls : list (list val) }.
Arguments mkApplied {S}. Arguments ap_ret {S}. Arguments ap_ctx {S}. Arguments ap_pos {S}.
Arguments ap_calls {S}.

Section Apply.
  Variables (S : Type) (G : tenv).

  (** Calling a function without parameters: its own return value (3634, 3664, 3698). *)
  Definition direct (rt : rret) (v : val) : returned :=
    match rt with
    | RetVoid => RNothing
    | RetErrc => RCode (errc_code v)
    | RetVal _ => RDirect v
    end.

  (** 3625-3742. *)
  Definition apply (c : cfg) (data : list byte) (fuel : nat) (rt : rret) (params : list ty)
    (f : S -> list val -> S * val) (s : S) (pos : nat) : applied S :=
    match params with
    | [] => let (s', v) := f s [] in mkApplied (inl (direct rt v)) s' pos [[]]
    | _ =>
        match in_call G c data fuel [TTuple params] [dflt G (TTuple params)] pos with
        | (ROk, [VSeq args], pos') =>
            let (s', v) := f s args in
            mkApplied (inl (match rt with RetVoid => RCode (inl ROk) | _ => RVoe (voe_make rt v) end))
              s' pos' [args]
        | (RErr e, _, pos') =>
            mkApplied (inl (match rt with
                            | RetVoid => RCode (inl (RErr e))
                            | _ => RVoe (voe_error (inl (RErr e)))
                            end)) s pos' []
        | (r, _, pos') => mkApplied (inr r) s pos' []
        end
    end.

  (** What server::call_binding does with the result of bind::call, which is apply
      (4063-4089; bind 3744-3765). *)
  Definition answer (co : cfg) (rt : rret) (x : returned) (so : ost) : got (code * ost) :=
    match x with
    | RNothing => Got (inl ROk, so)
    | RCode c => Got (if code_failure c then c else inl ROk, so)
    | RDirect v =>
        match rt with
        | RetVal t => match out_call G co [v] [t] so with (r, so') => Got (inl r, so') end
        | _ => Undefined
        end
    | RVoe x =>
        if v_failure x then
          match voe_code x with Got c => Got (c, so) | _ => Undefined end
        else
          match voe_get x, rt with
          | Got v, RetVal t => match out_call G co [v] [t] so with (r, so') => Got (inl r, so') end
          | _, _ => Undefined
          end
    end.
End Apply.
