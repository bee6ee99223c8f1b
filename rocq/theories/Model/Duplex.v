(** An input and an output archive over one growable buffer: in_out and data_in_out
    (zpp_bits.h:3156-3183). *)

From Coq Require Import List NArith Bool Arith.
From Verif Require Import Base.Bytes Model.Types Model.Machine Model.Out Model.In.
Import ListNotations.

(** The shared vector and the positions of the two archives.  Both archives refer to the vector
    itself (view_type is a reference for resizable containers, 1915-1919, 2511-2517), so each
    sees what the other did to it. *)
Record pipe := mkPipe { p_data : list byte; p_in : nat; p_out : nat }.

(** data_in_out() (3164-3180): an empty vector, both positions zero. *)
Definition data_in_out : pipe := mkPipe [] 0 0.

(** output(items...) *)
Definition pipe_write (G : tenv) (c : cfg) (vs : list val) (ts : list ty) (p : pipe) : res * pipe :=
  match out_call G c vs ts (mkO (p_data p) (p_out p)) with
  | (r, st) => (r, mkPipe (obuf st) (p_in p) (opos st))
  end.

(** input(targets...): outcome, targets and archives afterwards. *)
Definition pipe_read (G : tenv) (c : cfg) (fuel : nat) (ts : list ty) (targets : list val) (p : pipe)
  : res * list val * pipe :=
  match in_call G c (p_data p) fuel ts targets (p_in p) with
  | (r, vs, pos) => (r, vs, mkPipe (p_data p) pos (p_out p))
  end.

(** A program using both archives. *)
Inductive pop := PWrite (vs : list val) (ts : list ty) | PRead (ts : list ty) (targets : list val).

(** Run it until an operation fails; the values read, in order. *)
Fixpoint pipe_run (G : tenv) (co ci : cfg) (fuel : nat) (os : list pop) (p : pipe)
  : res * list (list val) * pipe :=
  match os with
  | [] => (ROk, [], p)
  | PWrite vs ts :: os' =>
      match pipe_write G co vs ts p with
      | (ROk, p') => pipe_run G co ci fuel os' p'
      | (r, p') => (r, [], p')
      end
  | PRead ts targets :: os' =>
      match pipe_read G ci fuel ts targets p with
      | (ROk, vs, p') =>
          match pipe_run G co ci fuel os' p' with
          | (r, out, p'') => (r, vs :: out, p'')
          end
      | (r, _, p') => (r, [], p')
      end
  end.
