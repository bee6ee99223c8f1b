(** Reading objects again after memory ran out.  No function of the library: the loop is what a
    program does that catches std::bad_alloc around [in(items...)], sets the position back
    (in.position() = start, 2547-2550) and calls again with the same items. *)

From Coq Require Import List NArith Bool Arith.
From Verif Require Import Base.Bytes Model.Types Model.Machine Model.Heap.
Import ListNotations.

Section InAgain.
  Variables (ok : nat -> bool) (G : tenv) (c : cfg) (data : list byte) (shared : ty -> bool).
  Variables (fuel : nat) (ts : list ty).

  (** At most [tries] more attempts, with whatever memory there is by then ([ok] is asked with the
      number of the allocation, which goes on counting).  Without [reset] the position stays where
      the exception left it. *)
  Fixpoint in_again (reset : bool) (tries : nat) (vars : list hval) (pos : nat) (H : heap)
    : res * list hval * nat * heap :=
    match hin_call ok G c data shared fuel ts vars pos H with
    | (RThrow, vars', p, H') =>
        match tries with
        | O => (RThrow, vars', p, H')
        | S n => in_again reset n vars' (if reset then pos else p) H'
        end
    | x => x
    end.
End InAgain.
