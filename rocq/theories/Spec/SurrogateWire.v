(** What classes whose functions go through other classes put on the wire. *)

From Coq Require Import List NArith ZArith Bool Arith.
From Verif Require Import Base.Bytes Model.Types Model.Machine Model.Custom Model.Pb Spec.Leb128 Spec.Wire
  Spec.CustomWire.
Import ListNotations.
Local Open Scope N_scope.

(** What is written, if the functions called come to an end. *)
Definition yout := option xout.
Definition ynil : yout := Some xnil.
Definition ydone (e : list byte) : yout := Some (xdone e).
Definition yseq (a b : yout) : yout :=
  match a with
  | None => None
  | Some (e, Some s) => Some (e, Some s)
  | Some (e, None) => match b with Some (e', s) => Some (e ++ e', s) | None => None end
  end.

Section Loops.
  Context (f : val -> ty -> yout).
  Fixpoint yenc_many (l : list val) (ms : list ty) : yout :=
    match l, ms with
    | x :: l', m :: ms' => yseq (f x m) (yenc_many l' ms')
    | _, _ => ynil
    end.
  Fixpoint yenc_all (l : list val) (t : ty) : yout :=
    match l with
    | [] => ynil
    | x :: l' => yseq (f x t) (yenc_all l' t)
    end.
End Loops.

(** Items, given the encodings of objects of named classes. *)
Fixpoint yenc (G : tenv) (o : wfmt) (rec : nat -> list val -> yout) (v : val) (t : ty) {struct v} : yout :=
  match t, v with
  | TStruct _ ms, VSeq l => yenc_many (yenc G o rec) l ms
  | TRec k, VSeq l => rec k l
  | TArray _ t', VSeq l => yenc_all (yenc G o rec) l t'
  | TTuple ts, VSeq l => yenc_many (yenc G o rec) l ts
  | TVec s _ t', VSeq l =>
      yseq (ydone (wire_size o s (N.of_nat (length l)))) (yenc_all (yenc G o rec) l t')
  | TAssoc s _ t', VSeq l =>
      yseq (ydone (wire_size o s (N.of_nat (length l)))) (yenc_all (yenc G o rec) l t')
  | TSpan s t', VSeq l =>
      yseq (ydone (wire_size o s (N.of_nat (length l)))) (yenc_all (yenc G o rec) l t')
  | TOpt _ t', VSome x => yseq (ydone [x01]) (yenc G o rec x t')
  | TOptPtr t', VSome x => yseq (ydone [x01]) (yenc G o rec x t')
  | TPtr t', VSome x => yenc G o rec x t'
  | TVariant ik meta alts, VAlt i x =>
      match nth_error meta i, nth_error alts i with
      | Some (id, _), Some t' => yseq (ydone (wire_id o ik id)) (yenc G o rec x t')
      | _, _ => Some (lift ([], false))
      end
  | _, _ => Some (lift (enc G o v t))
  end.

(** The items transferred by a function for the object [self], one after the other. *)
Section Path.
  Variables (item : val -> ty -> yout) (self : list val).
  Fixpoint ypath (p : prog) : yout :=
    match p with
    | PRet => ynil
    | PFail e => Some ([], Some (Failed e))
    | PThrow => Some ([], Some Threw)
    | PMem i t k =>
        match nth_error self i with
        | Some x => yseq (item x t) (ypath (k self))
        | None => ynil
        end
    | PLoc t f k => yseq (item (f self) t) (ypath (k (f self) self))
    | PSet _ k => ypath k
    end.
End Path.

(** With at most [n] functions inside of one another. *)
Fixpoint penc_rec (G : tenv) (F : funs) (o : wfmt) (n : nat) (k : nat) (l : list val) : yout :=
  match n with
  | O => None
  | S m => ypath (yenc G o (penc_rec G F o m)) l (F k)
  end.
Definition penc (G : tenv) (F : funs) (o : wfmt) (n : nat) : val -> ty -> yout := yenc G o (penc_rec G F o n).

(** [e] is what is written for [v]. *)
Definition spells (G : tenv) (F : funs) (o : wfmt) (v : val) (t : ty) (e : xout) : Prop :=
  exists n, penc G F o n v t = Some e.

(** [sound], locals of any type. *)
Fixpoint psound (G : tenv) (Q : ty -> Prop) (ts : list ty) (p : prog) : Prop :=
  match p with
  | PRet | PFail _ | PThrow => True
  | PMem i t k =>
      (exists t0, nth_error ts i = Some t0 /\ forall x, wt G x t = wt G x t0) /\
      wf G t = true /\ Q t /\
      forall self, object G self ts -> psound G Q ts (k self)
  | PLoc t f k =>
      wf G t = true /\ Q t /\
      (forall self, object G self ts -> wt G (f self) t = true) /\
      forall x self, wt G x t = true -> object G self ts -> psound G Q ts (k x self)
  | PSet f k => (forall self, object G self ts -> object G (f self) ts) /\ psound G Q ts k
  end.

(** Functions without locals of classes with functions. *)
Fixpoint lone (p : prog) : Prop :=
  match p with
  | PRet | PFail _ | PThrow => True
  | PMem _ _ k => forall self, lone (k self)
  | PLoc t _ k =>
      tall (fun t => match t with TRec _ => false | _ => true end) t = true
      /\ forall x self, lone (k x self)
  | PSet _ k => lone k
  end.
