(** C93: objects of classes with a serialize function, read while they are still arriving.

    The program of Model/Pieces.v, with one item whose class, or whose parts' classes, have
    functions as in Model/Custom.v: after each piece, zpp::bits::in in(buffer); in.reset(pos);
    in(item) (zpp_bits.h 2520-2534, 2563-2566, 2606-2611), and once more after the next piece if
    the answer is std::errc::result_out_of_range.  An answer of a function is an answer like any
    other. *)

From Coq Require Import List NArith Arith.
From Verif Require Import Base.Bytes Model.Types Model.Machine Model.Out Model.In Model.Custom.
Import ListNotations.

Fixpoint creceive (G : tenv) (F : funs) (c : cfg) (fuel : nat) (t : ty) (pos : nat)
  (have : list byte) (todo : list (list byte)) (item : val) : dres * list byte * list (list byte) :=
  match cdes G F c have fuel t item pos with
  | (RErr result_out_of_range, item', p) =>
      match todo with
      | [] => ((RErr result_out_of_range, item', p), have, [])
      | x :: todo' => creceive G F c fuel t pos (have ++ x) todo' item'
      end
  | o => (o, have, todo)
  end.
