(** Writing objects again after memory or room ran out.  No function of the library: the loop is
    what a program does that catches std::bad_alloc around [out(items...)], or looks at the error,
    sets the position back (out.position() = start, 1940-1943, or reset, 1956-1959) and calls again with the same items. *)

From Coq Require Import List NArith Bool Arith.
From Verif Require Import Base.Bytes Model.Types Model.Machine Model.Out.
Import ListNotations.

(** Another attempt may help: an exception of the allocator, the limit, the end of a fixed buffer. *)
Definition out_of_room (r : res) : bool :=
  match r with
  | RThrow | RErr no_buffer_space | RErr result_out_of_range => true
  | _ => false
  end.

Section OutAgain.
  Variables (G : tenv) (vs : list val) (ts : list ty).

  (** The first attempt finds the memory of [c] (what its alloc_ok grants), the others those of
      [cs].  Without [reset] the position stays where the failure left it. *)
  Fixpoint out_again (reset : bool) (c : cfg) (cs : list cfg) (st : ost) : res * ost :=
    match out_call G c vs ts st with
    | (r, st') =>
        if out_of_room r then
          match cs with
          | [] => (r, st')
          | c' :: cs' => out_again reset c' cs' (if reset then mkO (obuf st') (opos st) else st')
          end
        else (r, st')
    end.
End OutAgain.
