(** Writing data with protobuf messages again after memory or room ran out: the loop of
    Model/OutAgain.v around items that hold messages (Model/Mixed.v). *)

From Coq Require Import List NArith Bool Arith.
From Verif Require Import Base.Bytes Model.Types Model.Machine Model.Out Model.Pb Model.Mixed Model.OutAgain.
Import ListNotations.

Section MixedAgain.
  Variables (G : tenv) (M : nat -> bool) (P : penv) (vs : list val) (ts : list ty).

  (** out::operator() (2443-2456), as in Model/Out.v. *)
  Definition mout_call (c : cfg) (st : ost) : res * ost :=
    match ser_many (mser G M P c) vs ts st with
    | (r, st') =>
        if growable c && negb (nofit c) && negb (exact_enlarger c)
        then fit_size c (length (obuf st)) r st' else (r, st')
    end.

  Fixpoint mout_again (reset : bool) (c : cfg) (cs : list cfg) (st : ost) : res * ost :=
    match mout_call c st with
    | (r, st') =>
        if out_of_room r then
          match cs with
          | [] => (r, st')
          | c' :: cs' => mout_again reset c' cs' (if reset then mkO (obuf st') (opos st) else st')
          end
        else (r, st')
    end.
End MixedAgain.
