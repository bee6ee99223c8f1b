(** C91: a program that reads protobuf messages while they are still arriving.

    As in Model/Pieces.v the program collects pieces in a buffer.  A message is preceded by its
    size (serialize_one<SizeType>(by_protocol), zpp_bits.h 3095-3122).  Before it reads the message
    the program reads the size as an item of its own, an integer or varint of the size type, and
    waits until as many bytes are there. *)

From Coq Require Import List NArith Arith.
From Verif Require Import Base.Bytes Model.Types Model.Machine Model.Varint Model.Out Model.In Model.Protocol Model.Pb.
Import ListNotations.
Local Open Scope N_scope.

(** in(size), then in(message) from the same position when all of it is there.  [have], [todo] and
    the result are those of [receive]. *)
Fixpoint pb_receive (P : penv) (c : cfg) (fuel : nat) (s : sizety) (k : nat) (pos : nat)
  (have : list byte) (todo : list (list byte)) (item : val)
  : dres * list byte * list (list byte) :=
  let wait :=
    match todo with
    | [] => ((RErr result_out_of_range, item, pos), have, [])
    | x :: todo' => pb_receive P c fuel s k pos (have ++ x) todo' item
    end in
  match des_size c have s pos with
  | (ROk, n, p) =>
      if N.of_nat p + n <=? N.of_nat (length have)
      then (des_pb_item P c have fuel s k item pos, have, todo)
      else wait
  | (RErr result_out_of_range, _, _) => wait
  | (r, _, p) => ((r, item, p), have, todo)
  end.

(** The simpler program, which reads the message at once and waits on result_out_of_range. *)
Fixpoint pb_retry (P : penv) (c : cfg) (fuel : nat) (s : sizety) (k : nat) (pos : nat)
  (have : list byte) (todo : list (list byte)) (item : val)
  : dres * list byte * list (list byte) :=
  match des_pb_item P c have fuel s k item pos with
  | (RErr result_out_of_range, item', p) =>
      match todo with
      | [] => ((RErr result_out_of_range, item', p), have, [])
      | x :: todo' => pb_retry P c fuel s k pos (have ++ x) todo' item'
      end
  | o => (o, have, todo)
  end.

(** One message after the other. *)
Fixpoint pb_receive_all (P : penv) (c : cfg) (fuel : nat) (s : sizety) (pos : nat)
  (have : list byte) (todo : list (list byte)) (msgs : list (nat * val)) : res * list val * nat :=
  match msgs with
  | [] => (ROk, [], pos)
  | (k, item) :: msgs' =>
      match pb_receive P c fuel s k pos have todo item with
      | ((ROk, v, p), have', rest) =>
          let '(r, l, q) := pb_receive_all P c fuel s p have' rest msgs' in (r, v :: l, q)
      | ((r, _, p), _, _) => (r, [], p)
      end
  end.
