(** Reading a protobuf message again after memory ran out.  No function of the library: the loop is
    what a program does that catches std::bad_alloc around [in(message)] and calls again. *)

From Coq Require Import List NArith Bool Arith.
From Verif Require Import Base.Bytes Model.Types Model.Machine Model.Protocol Model.Pb Model.Heap Model.PbHeap.
Import ListNotations.

Section PbAgain.
  Variables (ok : nat -> bool) (room : nat -> N) (P : penv) (c : cfg) (data : list byte).
  Variables (fuel : nat) (s : sizety) (k : nat).

  (** [reset]: the position is set back to where it was (in.position() = start, 2547-2550) before the
      message is read again; otherwise it stays where the exception left it.  At most [tries] more
      attempts, into the same object, with whatever memory there is by then ([ok] is asked with the
      number of the allocation, which goes on counting). *)
  Fixpoint pb_again (reset : bool) (tries : nat) (h : hval) (pos : nat) (H : heap) : hres :=
    match hdes_pb_item ok room P c data fuel s k h pos H with
    | (RThrow, h', p, H') =>
        match tries with
        | O => (RThrow, h', p, H')
        | S n => pb_again reset n h' (if reset then pos else p) H'
        end
    | x => x
    end.
End PbAgain.
