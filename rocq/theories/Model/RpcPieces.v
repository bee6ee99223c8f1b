(** C92: a server that serves requests while they are still arriving.

    As in Model/Pieces.v the program collects pieces in a buffer and calls server.serve()
    (zpp_bits.h 4292-4300) after every piece, from the position where the request starts, as long
    as the answer is std::errc::result_out_of_range.  The answer of serve() is a code of the library
    or one that the function called returned (4063-4089, 4101-4133); a program cannot tell them
    apart.  [erange] is the number of the code on the platform. *)

From Coq Require Import List NArith Arith.
From Verif Require Import Base.Bytes Model.Types Model.Machine Model.Out Model.In Model.Rpc.
Import ListNotations.
Local Open Scope N_scope.

Definition erange : N := 34.

Definition short (r : res + N) : bool :=
  match r with
  | inl (RErr result_out_of_range) => true
  | inr n => n =? erange
  | _ => false
  end.

(** The last answer with all functions that were called, what had arrived by then, and the pieces
    not waited for. *)
Fixpoint serve_pieces (S : Type) (G : tenv) (ci co : cfg) (fuel : nat) (idt : ty) (bs : list (binding S))
  (pos : nat) (have : list byte) (todo : list (list byte)) (s : S) (so : ost)
  : served S * list byte * list (list byte) :=
  let R := serve S G ci co have fuel idt bs s pos so in
  if short (sv_res R) then
    match todo with
    | [] => (R, have, [])
    | x :: todo' =>
        match serve_pieces S G ci co fuel idt bs pos (have ++ x) todo' (sv_ctx R) (sv_out R) with
        | (R', have', rest) =>
            (mkServed (sv_res R') (sv_ctx R') (sv_pos R') (sv_out R') (sv_log R ++ sv_log R'), have', rest)
        end
    end
  else (R, have, todo).
