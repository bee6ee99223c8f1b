(** What a sequence of remote calls should do, without bytes: requests and responses wait in
    queues. *)

From Coq Require Import List.
From Verif Require Import Model.Types.
Import ListNotations.

(** client.request<i>(args), server.serve(), client.response<i>(). *)
Inductive op := Request (i : nat) (args : list val) | Serve | Response (i : nat).

Section Queue.
  Context {S : Type}.
  (** The bound functions; the flag tells whether they return a value. *)
  Variable fns : nat -> option (bool * (S -> list val -> S * val)).

  (** Requests and responses travel separately. *)
  Record duplex := mkDuplex { d_ctx : S; d_req : list (nat * list val); d_resp : list (nat * val) }.

  (** The next state and the value returned to the caller, if any; [None]: the operation does
      not make sense in this state. *)
  Definition duplex_step (o : op) (a : duplex) : option (duplex * list val) :=
    match o with
    | Request i args =>
        match fns i with
        | Some _ => Some (mkDuplex (d_ctx a) (d_req a ++ [(i, args)]) (d_resp a), [])
        | None => None
        end
    | Serve =>
        match d_req a with
        | (i, args) :: q =>
            match fns i with
            | Some (sends, f) =>
                let (s', v) := f (d_ctx a) args in
                Some (mkDuplex s' q (if sends then d_resp a ++ [(i, v)] else d_resp a), [])
            | None => None
            end
        | [] => None
        end
    | Response i =>
        match fns i with
        | Some (true, _) =>
            match d_resp a with
            | (j, v) :: q => if Nat.eqb i j then Some (mkDuplex (d_ctx a) (d_req a) q, [v]) else None
            | [] => None
            end
        | Some (false, _) => Some (a, [])
        | None => None
        end
    end.

  Fixpoint duplex_run (os : list op) (a : duplex) : option (duplex * list val) :=
    match os with
    | [] => Some (a, [])
    | o :: os =>
        match duplex_step o a with
        | Some (a', vs) =>
            match duplex_run os a' with
            | Some (a'', vs') => Some (a'', vs ++ vs')
            | None => None
            end
        | None => None
        end
    end.

  (** Everything travels through one queue. *)
  Inductive message := ARequest (i : nat) (args : list val) | AResponse (i : nat) (v : val).
  Record shared := mkShared { h_ctx : S; h_queue : list message }.

  Definition shared_step (o : op) (a : shared) : option (shared * list val) :=
    match o with
    | Request i args =>
        match fns i with
        | Some _ => Some (mkShared (h_ctx a) (h_queue a ++ [ARequest i args]), [])
        | None => None
        end
    | Serve =>
        match h_queue a with
        | ARequest i args :: q =>
            match fns i with
            | Some (sends, f) =>
                let (s', v) := f (h_ctx a) args in
                Some (mkShared s' (if sends then q ++ [AResponse i v] else q), [])
            | None => None
            end
        | _ => None
        end
    | Response i =>
        match fns i with
        | Some (true, _) =>
            match h_queue a with
            | AResponse j v :: q => if Nat.eqb i j then Some (mkShared (h_ctx a) q, [v]) else None
            | _ => None
            end
        | Some (false, _) => Some (a, [])
        | None => None
        end
    end.

  Fixpoint shared_run (os : list op) (a : shared) : option (shared * list val) :=
    match os with
    | [] => Some (a, [])
    | o :: os =>
        match shared_step o a with
        | Some (a', vs) =>
            match shared_run os a' with
            | Some (a'', vs') => Some (a'', vs ++ vs')
            | None => None
            end
        | None => None
        end
    end.
End Queue.
Arguments duplex : clear implicits.
Arguments shared : clear implicits.
