(** Remote calls of coroutines: rpc_impl::server::call_binding_throwing, serve() and
    client::response() as compiled when zpp_throwing.h is present (zpp_bits.h:127-135, 3563-3579,
    3985-4019, 4141-4300).

    zpp::throwing<T>, the type of such coroutines, is not part of the repository.  Assumed of it is
    only what its use here says: awaiting one gives its value or passes on the error it ended
    with, co_yield of an error code ends the coroutine with it, awaiting an errc does so if it is a
    failure.  Whether a coroutine runs when it is called or when it is awaited is the parameter
    [eager].  What a co_yield of the code for success means is left open: [CoYield 0].

    A function gives the new context and a value, or the error (numbered) its coroutine ended
    with.  Otherwise as Model/Rpc.v. *)

From Coq Require Import List NArith ZArith Lia Bool Arith.
From Verif Require Import Base.Bytes Model.Types Model.Machine Model.Varint Model.Out Model.In
  Spec.RpcQueue Model.Rpc.
Import ListNotations.
Local Open Scope N_scope.

(** The return type: an ordinary one, throwing<void> or throwing<T>. *)
Inductive coret := Ordinary (r : rret) | CoVoid | CoVal (t : ty).

(** As in Model/Rpc.v.  A function of the remaining data takes the span by reference ([byref]) or
    by value. *)
Inductive cobody (S : Type) :=
| CoPlain (params : list ty) (f : S -> list val -> S * (val + N))
| CoArchives (f : S -> list byte -> nat -> ost -> S * nat * ost * (val + N))
| CoRawData (byref : bool) (f : S -> list byte -> S * nat * (val + N)).
Arguments CoPlain {S}. Arguments CoArchives {S}. Arguments CoRawData {S}.

Record cobinding (S : Type) := mkCobinding { cb_id : val; cb_ret : coret; cb_body : cobody S }.
Arguments mkCobinding {S}. Arguments cb_id {S}. Arguments cb_ret {S}. Arguments cb_body {S}.

(** What awaiting serve() gives: it has ended, with an error of the library (or by a failed
    allocation or undefined behaviour), by co_yield of a code of the function, or with the error
    of the function's coroutine. *)
Inductive cores := CoDone | CoFail (r : res) | CoYield (n : N) | CoError (x : N).

Record coserved (S : Type) := mkCoserved {
  co_res : cores; co_ctx : S; co_pos : nat; co_out : ost; co_log : list (nat * invoked) }.
Arguments mkCoserved {S}. Arguments co_res {S}. Arguments co_ctx {S}. Arguments co_pos {S}.
Arguments co_out {S}. Arguments co_log {S}.

(** Which return types have await_ready() (4277-4282). *)
Definition awaitable (r : coret) : bool := match r with Ordinary _ => false | _ => true end.

Section RpcCo.
  Variables (eager : bool) (S : Type) (G : tenv).

  (** co_await of the errc of an archive (127-135). *)
  Definition await_errc (x : res * ost) : cores * ost :=
    match x with
    | (ROk, so) => (CoDone, so)
    | (r, so) => (CoFail r, so)
    end.

  (** What is done with the result of a function that has been run (4151-4195, 4214-4262).
      [params]: the function is bound by bind and has parameters, so that its result is wrapped in
      a value_or_errc; an errc in there counts as a failure whatever it says (4178-4181), and a
      throwing<void> in there is not awaited (4182-4190). *)
  Definition settle (co : cfg) (params : bool) (r : coret) (v : val + N) (so : ost) : cores * ost :=
    match r with
    | Ordinary RetVoid => (CoDone, so)
    | Ordinary RetErrc =>
        match v with
        | inl (VN n) => (if params then CoYield n else if n =? 0 then CoDone else CoYield n, so)
        | _ => (CoDone, so)
        end
    | Ordinary (RetVal t) =>
        match v with inl v => await_errc (out_call G co [v] [t] so) | inr _ => (CoDone, so) end
    | CoVoid =>
        if params then (CoDone, so)
        else match v with inl _ => (CoDone, so) | inr x => (CoError x, so) end
    | CoVal t =>
        match v with inl v => await_errc (out_call G co [v] [t] so) | inr x => (CoError x, so) end
    end.

  (** The body of the function runs at all: a coroutine that runs when it is awaited does not if it
      is not (4182-4190). *)
  Definition runs (params : bool) (r : coret) : bool :=
    match r with CoVoid => eager || negb params | _ => true end.

  (** bind (4141-4203).  The arguments are read before the function is called; that fails as in the
      server without coroutines (4158-4162, 4178-4181). *)
  Definition cocall_plain (ci co : cfg) (data : list byte) (fuel : nat) (i : nat) (rt : coret)
    (params : list ty) (f : S -> list val -> S * (val + N)) (s : S) (pos : nat) (so : ost) : coserved S :=
    let p := match params with [] => false | _ => true end in
    let go args pos' :=
      if runs p rt then
        let (s', v) := f s args in
        let (r, so') := settle co p rt v so in
        mkCoserved r s' pos' so' [(i, WithArgs args)]
      else mkCoserved CoDone s pos' so [] in
    match params with
    | [] => go [] pos
    | _ =>
        match in_call G ci data fuel [TTuple params] [dflt G (TTuple params)] pos with
        | (ROk, [VSeq args], pos') => go args pos'
        | (r, _, pos') => mkCoserved (CoFail r) s pos' so []
        end
    end.

  (** bind_opaque (4205-4272).  The guard (3794-3803, 3818-3827) advances the position when call()
      returns, by the size of its span: that of the data if the function has a copy, and also if it
      has not run yet; a reference to it is dangling when the coroutine is awaited. *)
  Definition cocall_one (ci co : cfg) (data : list byte) (fuel : nat) (i : nat) (b : cobinding S)
    (s : S) (pos : nat) (so : ost) : coserved S :=
    match cb_body b with
    | CoPlain params f => cocall_plain ci co data fuel i (cb_ret b) params f s pos so
    | CoArchives f =>
        match f s data pos so with
        | (s', pos', so', v) =>
            let (r, so'') := settle co false (cb_ret b) v so' in
            mkCoserved r s' pos' so'' [(i, WithArchives)]
        end
    | CoRawData byref f =>
        let d := skipn pos data in
        if byref && awaitable (cb_ret b) && negb eager
        then mkCoserved (CoFail RUB) s (pos + length d) so []
        else
          match f s d with
          | (s', n, v) =>
              let (r, so') := settle co false (cb_ret b) v so in
              mkCoserved r s' (pos + (if byref then n else length d)) so' [(i, WithData d)]
          end
    end.

  (** call_binding_throwing: the first binding with the id (4145, 4209); none: co_yield
      not_supported (4196-4198, 4265-4267). *)
  Fixpoint cocall_binding (ci co : cfg) (data : list byte) (fuel : nat) (i : nat)
    (bs : list (cobinding S)) (id : val) (s : S) (pos : nat) (so : ost) : coserved S :=
    match bs with
    | [] => mkCoserved (CoFail (RErr not_supported)) s pos so []
    | b :: bs =>
        if id_eqb (cb_id b) id then cocall_one ci co data fuel i b s pos so
        else cocall_binding ci co data fuel (i + 1) bs id s pos so
    end.

  (** serve(id) (4275-4290) of a server one of whose functions is a coroutine, awaited while the id
      lives.  Functions that run late must not take their arguments by reference: those live in
      apply (3697-3742). *)
  Definition coserve_id (ci co : cfg) (data : list byte) (fuel : nat) (bs : list (cobinding S))
    (id : val) (s : S) (pos : nat) (so : ost) : coserved S :=
    cocall_binding ci co data fuel 0 bs id s pos so.

  (** serve() (4292-4300).  The id is a variable of serve() and the coroutine has a reference to it
      (4143, 4207): one that runs late compares with an object that is gone. *)
  Definition coserve (ci co : cfg) (data : list byte) (fuel : nat) (idt : ty)
    (bs : list (cobinding S)) (s : S) (pos : nat) (so : ost) : coserved S :=
    match in_call G ci data fuel [idt] [dflt G idt] pos with
    | (ROk, [id], pos') =>
        if eager then coserve_id ci co data fuel bs id s pos' so
        else mkCoserved (CoFail RUB) s pos' so []
    | (r, _, pos') => mkCoserved (CoFail r) s pos' so []
    end.

  (** in(id), then serve(id), as in the README. *)
  Definition read_and_serve (ci co : cfg) (data : list byte) (fuel : nat) (idt : ty)
    (bs : list (cobinding S)) (s : S) (pos : nat) (so : ost) : coserved S :=
    match in_call G ci data fuel [idt] [dflt G idt] pos with
    | (ROk, [id], pos') => coserve_id ci co data fuel bs id s pos' so
    | (r, _, pos') => mkCoserved (CoFail r) s pos' so []
    end.

  (** client::response (3985-4019). *)
  Definition coresponse (c : cfg) (data : list byte) (fuel : nat) (rt : coret) (pos : nat)
    : res * option val * nat :=
    match rt with
    | Ordinary r => response G c data fuel r pos
    | CoVoid => (ROk, None, pos)
    | CoVal t =>
        match in_call G c data fuel [t] [dflt G t] pos with
        | (ROk, [v], pos') => (ROk, Some v, pos')
        | (r, _, pos') => (r, None, pos')
        end
    end.

  Definition coparams (b : cobinding S) : list ty :=
    match cb_body b with CoPlain params _ => params | _ => [] end.
End RpcCo.

Arguments cocall_plain eager {S}. Arguments cocall_one eager {S}. Arguments cocall_binding eager {S}.
Arguments coserve eager {S}. Arguments coserve_id eager {S}. Arguments read_and_serve eager {S}. Arguments coparams {S}.

(** serve() as compiled for a table (4275-4290): with coroutines if there is one among the
    functions, otherwise as in Model/Rpc.v. *)
Definition has_coroutine {S} (bs : list (cobinding S)) : bool := existsb (fun b => awaitable (cb_ret b)) bs.
