(** What classes with a serialize function put on the wire: the encodings of the items the
    function transfers, one after the other. *)

From Coq Require Import List NArith ZArith Bool Arith.
From Verif Require Import Base.Bytes Model.Types Model.Machine Model.Custom Model.Pb Spec.Leb128 Spec.Wire.
Import ListNotations.
Local Open Scope N_scope.

(** Bytes, and the error or exception that ended the output, if any. *)
Inductive stop := Failed (e : errc) | Threw.
Definition xout := (list byte * option stop)%type.
(** The result of the archive. *)
Definition xresult (p : xout) : res :=
  match snd p with None => ROk | Some (Failed e) => RErr e | Some Threw => RThrow end.
Definition xnil : xout := ([], None).
Definition xdone (e : list byte) : xout := (e, None).
Definition xseq (a b : xout) : xout :=
  match snd a with None => (fst a ++ fst b, snd b) | Some _ => a end.
(** Items without functions: null pointers and valueless variants are invalid arguments. *)
Definition lift (p : pout) : xout := (fst p, if snd p then None else Some (Failed invalid_argument)).

Section Loops.
  Context (f : val -> ty -> xout).
  Fixpoint xenc_many (l : list val) (ms : list ty) : xout :=
    match l, ms with
    | x :: l', m :: ms' => xseq (f x m) (xenc_many l' ms')
    | _, _ => xnil
    end.
  Fixpoint xenc_all (l : list val) (t : ty) : xout :=
    match l with
    | [] => xnil
    | x :: l' => xseq (f x t) (xenc_all l' t)
    end.
End Loops.

(** The items transferred by a function for the object [self]; [ms]: the members encoded. *)
Section Path.
  Variables (G : tenv) (o : wfmt) (ms : list (ty -> xout)) (self : list val).
  Fixpoint path (p : prog) : xout :=
    match p with
    | PRet => xnil
    | PFail e => ([], Some (Failed e))
    | PThrow => ([], Some Threw)
    | PMem i t k =>
        match nth_error ms i with
        | Some a => xseq (a t) (path (k self))
        | None => xnil
        end
    | PLoc t f k => xseq (lift (enc G o (f self) t)) (path (k (f self) self))
    | PSet _ k => path k
    end.
End Path.

Fixpoint xenc (G : tenv) (F : funs) (o : wfmt) (v : val) (t : ty) {struct v} : xout :=
  match t, v with
  | TStruct _ ms, VSeq l => xenc_many (xenc G F o) l ms
  | TRec k, VSeq l => path G o (map (xenc G F o) l) l (F k)
  | TArray _ t', VSeq l => xenc_all (xenc G F o) l t'
  | TTuple ts, VSeq l => xenc_many (xenc G F o) l ts
  | TVec s _ t', VSeq l =>
      xseq (xdone (wire_size o s (N.of_nat (length l)))) (xenc_all (xenc G F o) l t')
  | TAssoc s _ t', VSeq l =>
      xseq (xdone (wire_size o s (N.of_nat (length l)))) (xenc_all (xenc G F o) l t')
  | TSpan s t', VSeq l =>
      xseq (xdone (wire_size o s (N.of_nat (length l)))) (xenc_all (xenc G F o) l t')
  | TOpt _ t', VSome x => xseq (xdone [x01]) (xenc G F o x t')
  | TOptPtr t', VSome x => xseq (xdone [x01]) (xenc G F o x t')
  | TPtr t', VSome x => xenc G F o x t'
  | TVariant ik meta alts, VAlt i x =>
      match nth_error meta i, nth_error alts i with
      | Some (id, _), Some t' => xseq (xdone (wire_id o ik id)) (xenc G F o x t')
      | _, _ => lift ([], false)
      end
  | _, _ => lift (enc G o v t)
  end.

(** [mirrors R ms self p q cur res]: while a function [p] writes [self], a function [q] reading
    what it writes into an object [cur] transfers the same kinds of items in the same order,
    and the object is [res] in the end.  [R], [ms]: the locals and the members the reader can
    rebuild, as items of a type; members in place of what the object has there. *)
Inductive mirrors (R : val -> ty -> Prop) (ms : list (ty -> val -> Prop)) (self : list val)
  : prog -> prog -> list val -> list val -> Prop :=
| mi_ret cur : mirrors R ms self PRet PRet cur cur
| mi_mem i t k k' cur x y rd res :
    nth_error self i = Some x -> nth_error ms i = Some rd -> nth_error cur i = Some y -> rd t y ->
    mirrors R ms self (k self) (k' (set_nth i x cur)) (set_nth i x cur) res ->
    mirrors R ms self (PMem i t k) (PMem i t k') cur res
| mi_loc t f f' k k' cur res :
    R (f self) t ->
    mirrors R ms self (k (f self) self) (k' (f self) cur) cur res ->
    mirrors R ms self (PLoc t f k) (PLoc t f' k') cur res
| mi_write_set f k q cur res : mirrors R ms self k q cur res -> mirrors R ms self (PSet f k) q cur res
| mi_read_set f p k cur res : mirrors R ms self p k (f cur) res -> mirrors R ms self p (PSet f k) cur res.

(** The members of an object. *)
Definition object (G : tenv) (self : list val) (ts : list ty) : Prop :=
  forall2b (fun x t => wt G x t) self ts = true.

(** A function that compiles for a class with members of types [ts]: it names members that
    exist, as items that denote the same objects, and its locals and assignments are of the
    types they are declared with.  [Q]: what is asked of the types of items. *)
Fixpoint sound (G : tenv) (Q : ty -> Prop) (ts : list ty) (p : prog) : Prop :=
  match p with
  | PRet | PFail _ | PThrow => True
  | PMem i t k =>
      (exists t0, nth_error ts i = Some t0 /\ forall x, wt G x t = wt G x t0) /\
      wf G t = true /\ Q t /\
      forall self, object G self ts -> sound G Q ts (k self)
  | PLoc t f k =>
      wf G t = true /\ tall (fun t => match t with TRec _ => false | _ => true end) t = true /\ Q t /\
      (forall self, object G self ts -> wt G (f self) t = true) /\
      forall x self, wt G x t = true -> object G self ts -> sound G Q ts (k x self)
  | PSet f k => (forall self, object G self ts -> object G (f self) ts) /\ sound G Q ts k
  end.

(** The objects agree on the members [D]. *)
Definition agree_on (D : list nat) (self self' : list val) : Prop :=
  forall i, In i D -> nth_error self i = nth_error self' i.

(** Functions that decide and assign knowing only the members transferred so far, [D], and
    their locals. *)
Fixpoint causal (D : list nat) (p : prog) : Prop :=
  match p with
  | PRet | PFail _ | PThrow => True
  | PMem i _ k =>
      (forall s s', agree_on (i :: D) s s' -> k s = k s') /\ forall s, causal (i :: D) (k s)
  | PLoc _ _ k =>
      (forall x s s', agree_on D s s' -> k x s = k x s') /\ forall x s, causal D (k x s)
  | PSet f k => (forall s, agree_on D s (f s)) /\ causal D k
  end.

(** The path of a causal function for [self]: its items can be rebuilt, and in the end all
    members have been transferred. *)
Fixpoint complete (R : val -> ty -> Prop) (M : val -> ty -> Prop) (self : list val) (D : list nat) (p : prog) : Prop :=
  match p with
  | PRet => forall i, (i < length self)%nat -> In i D
  | PFail _ | PThrow => False
  | PMem i t k => (exists x, nth_error self i = Some x /\ M x t) /\ complete R M self (i :: D) (k self)
  | PLoc t f k => R (f self) t /\ complete R M self D (k (f self) self)
  | PSet _ k => complete R M self D k
  end.

(** The function that returns [e] where the given one throws. *)
Fixpoint returning (e : errc) (p : prog) : prog :=
  match p with
  | PRet => PRet
  | PFail e' => PFail e'
  | PThrow => PFail e
  | PMem i t k => PMem i t (fun self => returning e (k self))
  | PLoc t f k => PLoc t f (fun x self => returning e (k x self))
  | PSet f k => PSet f (returning e k)
  end.

(** Results of the function that throws and of the one that returns [e]. *)
Definition told (e : errc) (r r' : res) : Prop := r' = r \/ r = RThrow /\ r' = RErr e.
