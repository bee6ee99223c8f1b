(** Remote calls of functions that throw: bind, bind_opaque and rpc_impl::server (zpp_bits.h:3744-3834,
    4026-4300) once more, now with functions that may leave by an exception.

    serve() has no handler: the exception reaches the program.  What has been read stays read; the output archive
    is only touched after the function has returned (4080-4087, 4125-4130).  The context is what the function left
    behind.  [None] is a function that threw; which exception it was does not matter here.  Otherwise as
    Model/Rpc.v. *)

From Coq Require Import List NArith ZArith Lia Bool Arith.
From Verif Require Import Base.Bytes Model.Types Model.Machine Model.Varint Model.Out Model.In
  Spec.RpcQueue Model.Rpc.
Import ListNotations.
Local Open Scope N_scope.

Inductive tbody (S : Type) :=
| TPlain (params : list ty) (f : S -> list val -> S * option val)
| TArchives (f : S -> list byte -> nat -> ost -> S * nat * ost * option val)
| TRawData (f : S -> list byte -> S * nat * option val).
Arguments TPlain {S}. Arguments TArchives {S}. Arguments TRawData {S}.

Record tbinding (S : Type) := mkTbinding { tb_id : val; tb_ret : rret; tb_body : tbody S }.
Arguments mkTbinding {S}. Arguments tb_id {S}. Arguments tb_ret {S}. Arguments tb_body {S}.

Section RpcThrow.
  Variables (S : Type) (G : tenv).

  Definition tsend (co : cfg) (r : rret) (v : option val) (so : ost) : (res + N) * ost :=
    match v with
    | Some v => send G co r v so
    | None => (inl RThrow, so)
    end.

  Definition tcall_plain (ci co : cfg) (data : list byte) (fuel : nat) (i : nat) (rt : rret)
    (params : list ty) (f : S -> list val -> S * option val) (s : S) (pos : nat) (so : ost) : served S :=
    let go args pos' :=
      let (s', v) := f s args in
      let (r, so') := tsend co rt v so in
      mkServed r s' pos' so' [(i, WithArgs args)] in
    match params with
    | [] => go [] pos
    | _ =>
        match in_call G ci data fuel [TTuple params] [dflt G (TTuple params)] pos with
        | (ROk, [VSeq args], pos') => go args pos'
        | (r, _, pos') => mkServed (inl r) s pos' so []
        end
    end.

  (** The guard of 3794-3803, 3818-3827 advances the position when an exception passes as well. *)
  Definition tcall_one (ci co : cfg) (data : list byte) (fuel : nat) (i : nat) (b : tbinding S)
    (s : S) (pos : nat) (so : ost) : served S :=
    match tb_body b with
    | TPlain params f => tcall_plain ci co data fuel i (tb_ret b) params f s pos so
    | TArchives f =>
        match f s data pos so with
        | (s', pos', so', v) =>
            let (r, so'') := tsend co (tb_ret b) v so' in
            mkServed r s' pos' so'' [(i, WithArchives)]
        end
    | TRawData f =>
        let d := skipn pos data in
        match f s d with
        | (s', n, v) =>
            let (r, so') := tsend co (tb_ret b) v so in
            mkServed r s' (pos + n) so' [(i, WithData d)]
        end
    end.

  Fixpoint tcall_binding (ci co : cfg) (data : list byte) (fuel : nat) (i : nat)
    (bs : list (tbinding S)) (id : val) (s : S) (pos : nat) (so : ost) : served S :=
    match bs with
    | [] => mkServed (inl (RErr not_supported)) s pos so []
    | b :: bs =>
        if id_eqb (tb_id b) id then tcall_one ci co data fuel i b s pos so
        else tcall_binding ci co data fuel (i + 1) bs id s pos so
    end.

  Definition tserve (ci co : cfg) (data : list byte) (fuel : nat) (idt : ty)
    (bs : list (tbinding S)) (s : S) (pos : nat) (so : ost) : served S :=
    match in_call G ci data fuel [idt] [dflt G idt] pos with
    | (ROk, [id], pos') => tcall_binding ci co data fuel 0 bs id s pos' so
    | (r, _, pos') => mkServed (inl r) s pos' so []
    end.

  (** A server that goes on whatever happened: try { server.serve(); } catch (...) {}, [n] times.  The outcomes
      and what was invoked, in order, and the final state. *)
  Fixpoint serve_on (ci co : cfg) (data : list byte) (fuel : nat) (idt : ty) (bs : list (tbinding S))
    (n : nat) (s : S) (pos : nat) (so : ost)
    : list (res + N) * list (nat * invoked) * S * nat * ost :=
    match n with
    | O => ([], [], s, pos, so)
    | Datatypes.S n' =>
        let R := tserve ci co data fuel idt bs s pos so in
        match serve_on ci co data fuel idt bs n' (sv_ctx R) (sv_pos R) (sv_out R) with
        | (rs, log, s', pos', so') => (sv_res R :: rs, sv_log R ++ log, s', pos', so')
        end
    end.

  (** A client that asks for several responses. *)
  Fixpoint responses (cr : cfg) (data : list byte) (fuel : nat) (rts : list rret) (pos : nat)
    : res * list val * nat :=
    match rts with
    | [] => (ROk, [], pos)
    | rt :: rts' =>
        match response G cr data fuel rt pos with
        | (ROk, v, pos') =>
            match responses cr data fuel rts' pos' with (r, vs, pos'') => (r, opt_list v ++ vs, pos'') end
        | (r, _, pos') => (r, [], pos')
        end
    end.

  Definition tparams (b : tbinding S) : list ty :=
    match tb_body b with TPlain params _ => params | _ => [] end.

  (** Requests, one after the other. *)
  Fixpoint requests (c : cfg) (idt : ty) (bs : list (tbinding S)) (calls : list (nat * list val)) : act :=
    match calls with
    | [] => ret
    | (i, args) :: calls' =>
        match nth_error bs i with
        | Some b =>
            request G c idt (tb_id b) args (tparams b) ;;
            requests c idt bs calls'
        | None => fun st => (RUB, st)
        end
    end.
End RpcThrow.
