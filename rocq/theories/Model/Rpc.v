(** Remote procedure calls: zpp::bits::apply, bind, bind_opaque, rpc_impl::client and
    rpc_impl::server (zpp_bits.h:3624-4343).

    Simplifications.  Bound functions are total functions of the context object and the
    arguments ([S] is the type of the context; free functions ignore it); they do not throw.
    Arguments are given as already converted to the parameter types (the static_cast at
    3898-3911).  The coroutine variants (call_binding_throwing, 4141-4272, and 3993-4010),
    present only when zpp_throwing.h is installed, are in Model/RpcCo.v.  Opaque functions that
    are handed the archives may do anything to them: they are arbitrary functions on the
    archive states. *)

From Coq Require Import List NArith ZArith Lia Bool Arith.
From Verif Require Import Base.Bytes Model.Types Model.Machine Model.Varint Model.Out Model.In
  Spec.RpcQueue.
Import ListNotations.
Local Open Scope N_scope.

(** The return type of a bound function: void, zpp::bits::errc, or any other type. *)
Inductive rret := RetVoid | RetErrc | RetVal (t : ty).

(** The bound function.  [Plain]: bind (3744-3765), with the parameter types
    (function_parameters_t).  [Archives]: bind_opaque (3767-3834) for a function taking in
    and/or out or nothing; given the input bytes, the input position and the output archive
    it returns the new context, position, output archive and result.  [RawData]: bind_opaque
    for a function taking the remaining data by reference; it returns the new context, the
    size of the span it leaves behind, and the result. *)
Inductive body (S : Type) :=
| Plain (params : list ty) (f : S -> list val -> S * val)
| Archives (f : S -> list byte -> nat -> ost -> S * nat * ost * val)
| RawData (f : S -> list byte -> S * nat * val).
Arguments Plain {S}. Arguments Archives {S}. Arguments RawData {S}.

Record binding (S : Type) := mkBinding { b_id : val; b_ret : rret; b_body : body S }.
Arguments mkBinding {S}. Arguments b_id {S}. Arguments b_ret {S}. Arguments b_body {S}.

(** The types serialize_id (3283-3299) gives to ids. *)
Definition id_type (t : ty) : bool :=
  match t with
  | TScalar w isbyte => (0 <? w)%nat
  | TArray n (TScalar 1 true) => (0 <? n)%nat
  | _ => false
  end.

(** operator== on ids (4063, 4101). *)
Fixpoint ids_eqb (l m : list val) : bool :=
  match l, m with
  | [], [] => true
  | VN a :: l, VN b :: m => (a =? b) && ids_eqb l m
  | _, _ => false
  end.

Definition id_eqb (a b : val) : bool :=
  match a, b with
  | VN a, VN b => a =? b
  | VSeq l, VSeq m => ids_eqb l m
  | _, _ => false
  end.

(** What a bound function was invoked with. *)
Inductive invoked := WithArgs (l : list val) | WithData (d : list byte) | WithArchives.

(** serve(): the result (a library result, or the code a function returned), the context, the
    input position, the output archive, and the functions invoked: their number in the
    binding list and what they were given. *)
Record served (S : Type) := mkServed {
  sv_res : res + N; sv_ctx : S; sv_pos : nat; sv_out : ost; sv_log : list (nat * invoked) }.
Arguments mkServed {S}. Arguments sv_res {S}. Arguments sv_ctx {S}. Arguments sv_pos {S}.
Arguments sv_out {S}. Arguments sv_log {S}.

Section Rpc.
  Variables (S : Type) (G : tenv).

  (** client::request (3870-3926): out(Id::value, arguments...). *)
  Definition request (c : cfg) (idt : ty) (id : val) (args : list val) (ts : list ty) : act :=
    out_call G c (id :: args) (idt :: ts).

  (** client::request_body (3928-3983): the same without the id. *)
  Definition request_body (c : cfg) (args : list val) (ts : list ty) : act :=
    match ts with [] => ret | _ => out_call G c args ts end.

  (** The end of call_binding (4063-4089, 4101-4133): a void function sends nothing; an errc
      becomes the result of serve() and is not sent (with parameters, value_or_errc's errc
      constructor wins the overload resolution, so it counts as a failure even when it
      signals success); anything else goes to the output archive. *)
  Definition send (co : cfg) (r : rret) (v : val) (so : ost) : (res + N) * ost :=
    match r with
    | RetVoid => (inl ROk, so)
    | RetErrc => (match v with VN 0 => inl ROk | VN n => inr n | _ => inl ROk end, so)
    | RetVal t => match out_call G co [v] [t] so with (r, so') => (inl r, so') end
    end.

  (** bind::call through apply (3625-3742): the parameters are read into a
      std::tuple before the function is called; without parameters nothing is read. *)
  Definition call_plain (ci co : cfg) (data : list byte) (fuel : nat) (i : nat) (rt : rret)
    (params : list ty) (f : S -> list val -> S * val) (s : S) (pos : nat) (so : ost) : served S :=
    let go args pos' :=
      let (s', v) := f s args in
      let (r, so') := send co rt v so in
      mkServed r s' pos' so' [(i, WithArgs args)] in
    match params with
    | [] => go [] pos
    | _ =>
        match in_call G ci data fuel [TTuple params] [dflt G (TTuple params)] pos with
        | (ROk, [VSeq args], pos') => go args pos'
        | (r, _, pos') => mkServed (inl r) s pos' so []
        end
    end.

  (** One binding whose id matched (4063-4089, 4101-4133).  [RawData]: the guard advances the
      position by the size the span has after the call (3794-3803, 3818-3827). *)
  Definition call_one (ci co : cfg) (data : list byte) (fuel : nat) (i : nat) (b : binding S)
    (s : S) (pos : nat) (so : ost) : served S :=
    match b_body b with
    | Plain params f => call_plain ci co data fuel i (b_ret b) params f s pos so
    | Archives f =>
        match f s data pos so with
        | (s', pos', so', v) =>
            let (r, so'') := send co (b_ret b) v so' in
            mkServed r s' pos' so'' [(i, WithArchives)]
        end
    | RawData f =>
        let d := skipn pos data in
        match f s d with
        | (s', n, v) =>
            let (r, so') := send co (b_ret b) v so in
            mkServed r s' (pos + n) so' [(i, WithData d)]
        end
    end.

  (** server::call_binding (4059-4139): the first binding with the given id. *)
  Fixpoint call_binding (ci co : cfg) (data : list byte) (fuel : nat) (i : nat)
    (bs : list (binding S)) (id : val) (s : S) (pos : nat) (so : ost) : served S :=
    match bs with
    | [] => mkServed (inl (RErr not_supported)) s pos so []
    | b :: bs =>
        if id_eqb (b_id b) id then call_one ci co data fuel i b s pos so
        else call_binding ci co data fuel (i + 1) bs id s pos so
    end.

  (** server::serve(id) (4275-4290). *)
  Definition serve_id (ci co : cfg) (data : list byte) (fuel : nat) (bs : list (binding S))
    (id : val) (s : S) (pos : nat) (so : ost) : served S :=
    call_binding ci co data fuel 0 bs id s pos so.

  (** server::serve() (4292-4300): rpc_impl::id is the type of the first binding's id, which
      rpc_checker (4334-4340) makes the type of all ids. *)
  Definition serve (ci co : cfg) (data : list byte) (fuel : nat) (idt : ty)
    (bs : list (binding S)) (s : S) (pos : nat) (so : ost) : served S :=
    match in_call G ci data fuel [idt] [dflt G idt] pos with
    | (ROk, [id], pos') => serve_id ci co data fuel bs id s pos' so
    | (r, _, pos') => mkServed (inl r) s pos' so []
    end.

  (** zpp::bits::errc (111-164) as read by response(), if the compiler accepts it as a class
      with one member. *)
  Definition errc_ty : ty := TStruct (mkSinfo 4 true false (VSeq [VN 0])) [TScalar 4 false].

  (** client::response (3985-4024). *)
  Definition response (c : cfg) (data : list byte) (fuel : nat) (rt : rret) (pos : nat)
    : res * option val * nat :=
    let get t :=
      match in_call G c data fuel [t] [dflt G t] pos with
      | (ROk, [v], pos') => (ROk, Some v, pos')
      | (r, _, pos') => (r, None, pos')
      end in
    match rt with
    | RetVoid => (ROk, None, pos)
    | RetErrc => get errc_ty
    | RetVal t => get t
    end.
End Rpc.

(** A client and a server in use: the operations in the order the program performs them,
    stopping at the first failure (or_throw).  [sys2]: two buffers, one for requests and one for
    responses; [sys1]: one buffer, one input and one output archive used by both sides
    (rpc_impl::client_server on data_in_out, 4311-4330). *)
Record sys2 (S : Type) := mkSys2 { y_ctx : S; y_req : ost; y_reqpos : nat; y_resp : ost; y_resppos : nat }.
Arguments mkSys2 {S}. Arguments y_ctx {S}. Arguments y_req {S}. Arguments y_reqpos {S}.
Arguments y_resp {S}. Arguments y_resppos {S}.
Record sys1 (S : Type) := mkSys1 { z_ctx : S; z_buf : ost; z_pos : nat }.
Arguments mkSys1 {S}. Arguments z_ctx {S}. Arguments z_buf {S}. Arguments z_pos {S}.

Section Run.
  Variables (S : Type) (G : tenv) (idt : ty) (bs : list (binding S)).
  (** The archives: client out, server in, server out, client in. *)
  Variables (cw ci co cr : cfg) (fuel : nat).

  Definition params_of (b : binding S) : list ty :=
    match b_body b with Plain params _ => params | _ => [] end.

  Definition opt_list {A} (x : option A) : list A := match x with Some v => [v] | None => [] end.

  Definition step2 (o : op) (y : sys2 S) : (res + N) * list val * sys2 S :=
    match o with
    | Request i args =>
        match nth_error bs i with
        | Some b =>
            match request G cw idt (b_id b) args (params_of b) (y_req y) with
            | (r, st) => (inl r, [], mkSys2 (y_ctx y) st (y_reqpos y) (y_resp y) (y_resppos y))
            end
        | None => (inl RUB, [], y)
        end
    | Serve =>
        let R := serve S G ci co (obuf (y_req y)) fuel idt bs (y_ctx y) (y_reqpos y) (y_resp y) in
        (sv_res R, [], mkSys2 (sv_ctx R) (y_req y) (sv_pos R) (sv_out R) (y_resppos y))
    | Response i =>
        match nth_error bs i with
        | Some b =>
            match response G cr (obuf (y_resp y)) fuel (b_ret b) (y_resppos y) with
            | (r, v, p) => (inl r, opt_list v, mkSys2 (y_ctx y) (y_req y) (y_reqpos y) (y_resp y) p)
            end
        | None => (inl RUB, [], y)
        end
    end.

  Definition step1 (o : op) (z : sys1 S) : (res + N) * list val * sys1 S :=
    match o with
    | Request i args =>
        match nth_error bs i with
        | Some b =>
            match request G cw idt (b_id b) args (params_of b) (z_buf z) with
            | (r, st) => (inl r, [], mkSys1 (z_ctx z) st (z_pos z))
            end
        | None => (inl RUB, [], z)
        end
    | Serve =>
        let R := serve S G ci co (obuf (z_buf z)) fuel idt bs (z_ctx z) (z_pos z) (z_buf z) in
        (sv_res R, [], mkSys1 (sv_ctx R) (sv_out R) (sv_pos R))
    | Response i =>
        match nth_error bs i with
        | Some b =>
            match response G cr (obuf (z_buf z)) fuel (b_ret b) (z_pos z) with
            | (r, v, p) => (inl r, opt_list v, mkSys1 (z_ctx z) (z_buf z) p)
            end
        | None => (inl RUB, [], z)
        end
    end.

  (** The values returned, the final state, and the operation that failed, if any. *)
  Fixpoint run {Y : Type} (step : op -> Y -> (res + N) * list val * Y) (os : list op) (y : Y)
    : list val * Y * option op :=
    match os with
    | [] => ([], y, None)
    | o :: os =>
        match step o y with
        | (inl ROk, vs, y') =>
            match run step os y' with (vs', y'', e) => (vs ++ vs', y'', e) end
        | (_, _, y') => ([], y', Some o)
        end
    end.
End Run.
