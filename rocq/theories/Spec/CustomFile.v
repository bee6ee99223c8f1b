(** What functions that move the position do to the buffer: operations on a file with a cursor. *)

From Coq Require Import List NArith ZArith Bool Arith.
From Verif Require Import Base.Bytes Model.Types Model.Machine Model.Custom Model.CustomSeek Model.Pb
  Spec.Leb128 Spec.Wire Spec.File Spec.CustomWire.
Import ListNotations.
Local Open Scope N_scope.

(** A byte is put at the cursor, which moves on; the cursor is moved. *)
Inductive fop := FPut (b : byte) | FSeek (p : nat).

Definition fdo (f : file) (o : fop) : file :=
  match o with
  | FPut b => mkF (pwrite (f_data f) (f_pos f) [b]) (S (f_pos f))
  | FSeek p => mkF (f_data f) p
  end.
Definition play (os : list fop) (f : file) : file := fold_left fdo os f.

(** Where the cursor is afterwards. *)
Definition cursor (os : list fop) (p : nat) : nat :=
  fold_left (fun p o => match o with FPut _ => S p | FSeek n => n end) os p.

(** The cursor is never moved past the end of the file. *)
Fixpoint seated (os : list fop) (f : file) : Prop :=
  match os with
  | [] => True
  | o :: os' =>
      match o with FSeek n => (n <= length (f_data f))%nat | FPut _ => True end /\ seated os' (fdo f o)
  end.

(** The operations from a position on, and the error or exception that ended them, if any. *)
Definition trace := nat -> list fop * option stop.
Definition tresult (s : option stop) : res :=
  match s with None => ROk | Some (Failed e) => RErr e | Some Threw => RThrow end.
(** Items without functions. *)
Definition puts (x : xout) : trace := fun _ => (map FPut (fst x), snd x).
Definition tseq (a b : trace) : trace := fun p =>
  match a p with
  | (o, None) => match b (cursor o p) with (o', s) => (o ++ o', s) end
  | x => x
  end.

Section Loops.
  Context (f : val -> ty -> trace).
  Fixpoint tenc_many (l : list val) (ms : list ty) : trace :=
    match l, ms with
    | x :: l', m :: ms' => tseq (f x m) (tenc_many l' ms')
    | _, _ => puts xnil
    end.
  Fixpoint tenc_all (l : list val) (t : ty) : trace :=
    match l with
    | [] => puts xnil
    | x :: l' => tseq (f x t) (tenc_all l' t)
    end.
End Loops.

Section Path.
  Variables (G : tenv) (o : wfmt) (ms : list (ty -> trace)) (self : list val).
  Fixpoint tpath (p : sprog) : trace :=
    match p with
    | MRet => puts xnil
    | MFail e => puts ([], Some (Failed e))
    | MThrow => puts ([], Some Threw)
    | MMem i t k =>
        match nth_error ms i with
        | Some a => tseq (a t) (tpath (k self))
        | None => puts xnil
        end
    | MLoc t f k => tseq (puts (lift (enc G o (f self) t))) (tpath (k (f self) self))
    | MSet _ k => tpath k
    | MPos k => fun p => tpath (k p) p
    | MMove n k => fun _ => match tpath k n with (os, s) => (FSeek n :: os, s) end
    | MLeft k => tpath (k O)
    end.
End Path.

Fixpoint tenc (G : tenv) (F : sfuns) (o : wfmt) (v : val) (t : ty) {struct v} : trace :=
  match t, v with
  | TStruct _ ms, VSeq l => tenc_many (tenc G F o) l ms
  | TRec k, VSeq l => tpath G o (map (tenc G F o) l) l (F k)
  | TArray _ t', VSeq l => tenc_all (tenc G F o) l t'
  | TTuple ts, VSeq l => tenc_many (tenc G F o) l ts
  | TVec s _ t', VSeq l =>
      tseq (puts (xdone (wire_size o s (N.of_nat (length l))))) (tenc_all (tenc G F o) l t')
  | TAssoc s _ t', VSeq l =>
      tseq (puts (xdone (wire_size o s (N.of_nat (length l))))) (tenc_all (tenc G F o) l t')
  | TSpan s t', VSeq l =>
      tseq (puts (xdone (wire_size o s (N.of_nat (length l))))) (tenc_all (tenc G F o) l t')
  | TOpt _ t', VSome x => tseq (puts (xdone [x01])) (tenc G F o x t')
  | TOptPtr t', VSome x => tseq (puts (xdone [x01])) (tenc G F o x t')
  | TPtr t', VSome x => tenc G F o x t'
  | TVariant ik meta alts, VAlt i x =>
      match nth_error meta i, nth_error alts i with
      | Some (id, _), Some t' => tseq (puts (xdone (wire_id o ik id))) (tenc G F o x t')
      | _, _ => puts (lift ([], false))
      end
  | _, _ => puts (lift (enc G o v t))
  end.

(** A function that compiles, as [sound]. *)
Fixpoint ssound (G : tenv) (Q : ty -> Prop) (ts : list ty) (p : sprog) : Prop :=
  match p with
  | MRet | MFail _ | MThrow => True
  | MMem i t k =>
      (exists t0, nth_error ts i = Some t0 /\ forall x, wt G x t = wt G x t0) /\
      wf G t = true /\ Q t /\
      forall self, object G self ts -> ssound G Q ts (k self)
  | MLoc t f k =>
      wf G t = true /\ tall (fun t => match t with TRec _ => false | _ => true end) t = true /\ Q t /\
      (forall self, object G self ts -> wt G (f self) t = true) /\
      forall x self, wt G x t = true -> object G self ts -> ssound G Q ts (k x self)
  | MSet f k => (forall self, object G self ts -> object G (f self) ts) /\ ssound G Q ts k
  | MPos k | MLeft k => forall n, ssound G Q ts (k n)
  | MMove _ k => ssound G Q ts k
  end.

(** Reading [n] bytes from position [pos] on, the function never moves past the end, whatever
    its items turn out to be and wherever they end. *)
Fixpoint within (G : tenv) (n : nat) (ts : list ty) (pos : nat) (p : sprog) : Prop :=
  match p with
  | MRet | MFail _ | MThrow => True
  | MMem i t k => forall self q, object G self ts -> (q <= n)%nat -> within G n ts q (k self)
  | MLoc t f k => forall x self q, wt G x t = true -> object G self ts -> (q <= n)%nat ->
      within G n ts q (k x self)
  | MSet f k => within G n ts pos k
  | MPos k => within G n ts pos (k pos)
  | MLeft k => within G n ts pos (k (n - pos)%nat)
  | MMove q k => (q <= n)%nat /\ within G n ts q k
  end.

(** The operations amount to putting down [x] at the cursor: wherever they start, they stay in
    the file, and unless they are ended early, the file and the cursor are those of [x]. *)
Definition nets (T : trace) (x : xout) : Prop :=
  forall d p, (p <= length d)%nat ->
    seated (fst (T p)) (mkF d p) /\ snd (T p) = snd x /\
    (snd x = None -> play (fst (T p)) (mkF d p) = mkF (pwrite d p (fst x)) (p + length (fst x))).

(** The functions [F] of moving classes amount to the functions [F0], provided those of the
    members do. *)
Definition tidy (G : tenv) (F : sfuns) (F0 : funs) (o : wfmt) : Prop :=
  forall k l, object G l (t_mems G k) ->
    (forall x t, In x l -> wt G x t = true -> nets (tenc G F o x t) (xenc G F0 o x t)) ->
    nets (tpath G o (map (tenc G F o) l) l (F k)) (path G o (map (xenc G F0 o) l) l (F0 k)).

(** Frames: classes with [W k = Some w] put a length of [w] bytes in front of what [B k] writes,
    the others just write it. *)
Section Frames.
  Variables (G : tenv) (o : wfmt) (W : nat -> option nat) (B : nat -> prog).
  Definition frame_out : sfuns := fun k =>
    match W k with Some w => patched w (still (B k)) | None => still (B k) end.
  (** How far the cursor gets. *)
  Definition body_len (k : nat) (self : list val) : nat :=
    cursor (fst (tpath G o (map (tenc G frame_out o) self) self (still (B k)) O)) O.
  (** Functions that write the same without moving: the length is known in advance. *)
  Definition frame_wire : funs := fun k =>
    match W k with
    | Some w => PLoc (TScalar w false) (fun self => VN (N.of_nat (body_len k self) mod pow256 w)) (fun _ _ => B k)
    | None => B k
    end.
  (** Readers: moving, and not. *)
  Definition frame_in : sfuns := fun k =>
    match W k with Some w => framed w (still (B k)) | None => still (B k) end.
  Definition frame_back : funs := fun k =>
    match W k with Some w => PLoc (TScalar w false) (fun _ => VN 0) (fun _ _ => B k) | None => B k end.
End Frames.

(** [p], and when it is done, [q]. *)
Fixpoint pthen (p q : prog) : prog :=
  match p with
  | PRet => q
  | PFail e => PFail e
  | PThrow => PThrow
  | PMem i t k => PMem i t (fun self => pthen (k self) q)
  | PLoc t f k => PLoc t f (fun x self => pthen (k x self) q)
  | PSet f k => PSet f (pthen k q)
  end.
