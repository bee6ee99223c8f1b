(** A queue of values, without bytes. *)

From Coq Require Import List.
From Verif Require Import Model.Types.
Import ListNotations.

(** [fifo q tr q']: the trace of writes (the items written) and reads (the items taken) leads
    from queue [q] to queue [q']: written items go to the end, reads take from the front. *)
Inductive event := Wrote (items : list (val * ty)) | Took (items : list (val * ty)).

Inductive fifo : list (val * ty) -> list event -> list (val * ty) -> Prop :=
| fifo_nil q : fifo q [] q
| fifo_wrote q items tr q' : fifo (q ++ items) tr q' -> fifo q (Wrote items :: tr) q'
| fifo_took q items tr q' : fifo q tr q' -> fifo (items ++ q) (Took items :: tr) q'.
