(** C90: a program that reads a message while it is still arriving.

    A library user who gets data in pieces (from a socket, say) collects them in a buffer and
    tries to read after every piece: zpp::bits::in in(buffer); in.reset(pos); in(items...)
    (zpp_bits.h 2520-2534, 2563-2566).  When the answer is std::errc::result_out_of_range the
    program waits for the next piece, appends it and tries again from the same position, into the same items, which by then
    hold whatever the attempt left in them.  Any other answer ends the loop.

    The program is the user's; what it does with the library is made of in::operator() alone. *)

From Coq Require Import List NArith Arith.
From Verif Require Import Base.Bytes Model.Types Model.Machine Model.Out Model.In.
Import ListNotations.

(** [have] is what has arrived, [todo] the pieces to come.  The result: the outcome of the last
    attempt, what had arrived by then, and the pieces not waited for. *)
Fixpoint receive (G : tenv) (c : cfg) (fuel : nat) (ts : list ty) (pos : nat)
  (have : list byte) (todo : list (list byte)) (items : list val)
  : (res * list val * nat) * list byte * list (list byte) :=
  match in_call G c have fuel ts items pos with
  | (RErr result_out_of_range, items', p) =>
      match todo with
      | [] => ((RErr result_out_of_range, items', p), have, [])
      | x :: todo' => receive G c fuel ts pos (have ++ x) todo' items'
      end
  | o => (o, have, todo)
  end.

(** One message after the other from the same stream: each is read where the one before it ended.
    [msgs] has the types of each message and what the items for it hold. *)
Fixpoint receive_all (G : tenv) (c : cfg) (fuel : nat) (pos : nat) (have : list byte)
  (todo : list (list byte)) (msgs : list (list ty * list val)) : res * list (list val) * nat :=
  match msgs with
  | [] => (ROk, [], pos)
  | (ts, items) :: msgs' =>
      match receive G c fuel ts pos have todo items with
      | ((ROk, vs, p), have', rest) =>
          let '(r, l, q) := receive_all G c fuel p have' rest msgs' in (r, vs :: l, q)
      | ((r, _, p), _, _) => (r, [], p)
      end
  end.
