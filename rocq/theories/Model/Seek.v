(** Moving the positions of archives: position() and reset() (zpp_bits.h:1932-1957, 2545-2577). *)

From Coq Require Import List NArith Bool Arith.
From Verif Require Import Base.Bytes Model.Types Model.Machine Model.Out Model.In Model.Duplex.
Import ListNotations.

(** out.position() and out.reset(p); in.position() and in.reset(p). *)
Definition seek_out (n : nat) (p : pipe) : pipe := mkPipe (p_data p) (p_in p) n.
Definition seek_in (n : nat) (p : pipe) : pipe := mkPipe (p_data p) n (p_out p).

(** processed_data() and remaining_data() of the output archive (1942-1951). *)
Definition processed (p : pipe) : list byte := firstn (p_out p) (p_data p).
Definition remaining_of (p : pipe) : list byte := skipn (p_out p) (p_data p).

(** Programs that write, read, and move either position. *)
Inductive sop := SOp (o : pop) | SOut (n : nat) | SIn (n : nat).

(** Run until an operation fails; the values read, in order. *)
Fixpoint srun (G : tenv) (co ci : cfg) (fuel : nat) (os : list sop) (p : pipe)
  : res * list (list val) * pipe :=
  match os with
  | [] => (ROk, [], p)
  | SOut n :: os' => srun G co ci fuel os' (seek_out n p)
  | SIn n :: os' => srun G co ci fuel os' (seek_in n p)
  | SOp (PWrite vs ts) :: os' =>
      match pipe_write G co vs ts p with
      | (ROk, p') => srun G co ci fuel os' p'
      | (r, p') => (r, [], p')
      end
  | SOp (PRead ts targets) :: os' =>
      match pipe_read G ci fuel ts targets p with
      | (ROk, vs, p') =>
          match srun G co ci fuel os' p' with
          | (r, out, p'') => (r, vs :: out, p'')
          end
      | (r, _, p') => (r, [], p')
      end
  end.
