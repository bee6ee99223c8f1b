(** A file with a cursor. *)

From Coq Require Import List NArith Bool Arith.
From Verif Require Import Base.Bytes Model.Types Model.Duplex Model.Seek Spec.Wire.
Import ListNotations.

Record file := mkF { f_data : list byte; f_pos : nat }.

(** Writing [e] at [p]: over what is there, past the end if need be. *)
Definition pwrite (d : list byte) (p : nat) (e : list byte) : list byte :=
  firstn p d ++ e ++ skipn (p + length e) d.

(** The operations on the file: a write puts the encodings of its items at the cursor. *)
Definition fstep (G : tenv) (o : wfmt) (s : sop) (f : file) : file :=
  match s with
  | SOut n => mkF (f_data f) n
  | SIn _ => f
  | SOp (PWrite vs ts) =>
      let e := encode G o (VSeq vs) (TTuple ts) in
      mkF (pwrite (f_data f) (f_pos f) e) (f_pos f + length e)
  | SOp (PRead _ _) => f
  end.

Fixpoint frun (G : tenv) (o : wfmt) (os : list sop) (f : file) : file :=
  match os with
  | [] => f
  | s :: os' => frun G o os' (fstep G o s f)
  end.

(** Every position moved to is in the file, or its end. *)
Fixpoint placed (G : tenv) (o : wfmt) (os : list sop) (f : file) : Prop :=
  match os with
  | [] => True
  | s :: os' =>
      match s with
      | SOut n | SIn n => (n <= length (f_data f))%nat
      | _ => True
      end /\ placed G o os' (fstep G o s f)
  end.

(** No write touches the [n] bytes at [a]. *)
Fixpoint spares (G : tenv) (o : wfmt) (a n : nat) (os : list sop) (f : file) : Prop :=
  match os with
  | [] => True
  | s :: os' =>
      match s with
      | SOp (PWrite vs ts) =>
          (f_pos f + length (encode G o (VSeq vs) (TTuple ts)) <= a \/ a + n <= f_pos f)%nat
      | _ => True
      end /\ spares G o a n os' (fstep G o s f)
  end.
