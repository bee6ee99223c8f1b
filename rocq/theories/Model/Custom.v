(** Classes with a serialize function written by the user (README "Explicit Serialization";
    zpp_bits.h:2046-2051 and 2606-2611): the archive calls the function, which calls the
    archive for whatever it likes, in whatever order, and may decide what to do next. *)

From Coq Require Import List NArith ZArith Lia Bool Arith.
From Verif Require Import Base.Bytes Model.Types Model.Machine Model.Varint Model.Out Model.In Model.Pb.
Import ListNotations.
Local Open Scope N_scope.

(** A serialize function, as a tree of what it does with the archive.  [self] is the list of the
    members of the object.  One function serves both kinds of archive (README 1055-1066):
    - [PRet], [PFail e], [PThrow]: return errc{}, return std::errc::e, throw an exception;
    - [PMem i t k]: archive(self.m_i), as an item of type [t] (the type of the member or a
      wrapper such as sized or unsized); a failure is returned, else the function goes on,
      depending on the object as it is then;
    - [PLoc t f k]: T x = f(self); archive(x); goes on depending on [x] and on the object;
    - [PSet f k]: if constexpr (kind() == kind::in) changes the object.
    Left out: moving the position of the archive, locals of class types with such a function,
    and functions that catch exceptions of the archive's own. *)
Inductive prog :=
| PRet
| PFail (e : errc)
| PThrow
| PMem (i : nat) (t : ty) (k : list val -> prog)
| PLoc (t : ty) (f : list val -> val) (k : val -> list val -> prog)
| PSet (f : list val -> list val) (k : prog).

(** The functions of the named classes. *)
Definition funs := nat -> prog.

(** The function on an output archive: serialize(archive, const self) (2046-2051).  [ms]
    writes the members. *)
Section RunOut.
  Variables (G : tenv) (c : cfg) (ms : list (ty -> act)) (self : list val).
  Fixpoint run_out (p : prog) : act :=
    match p with
    | PRet => ret
    | PFail e => fail (RErr e)
    | PThrow => fail RThrow
    | PMem i t k =>
        match nth_error ms i with
        | Some a => a t ;; run_out (k self)
        | None => fail RUB
        end
    | PLoc t f k => ser G c (f self) t ;; run_out (k (f self) self)
    | PSet _ k => run_out k
    end.
End RunOut.

(** basic_out::serialize_one as in Model/Out.v; named classes have functions. *)
Fixpoint cser (G : tenv) (F : funs) (c : cfg) (v : val) (t : ty) {struct v} : act :=
  match t, v with
  | TScalar w _, VN n => put c (scalar_bytes c w n)
  | TBool, VN n => put c (scalar_bytes c 1 n)
  | TVarint w sg zz, VN n => ser_varint c w sg zz n
  | TEmpty, VSeq [] => ret
  | TStruct si ms, VSeq l =>
      if negb (s_expl si) && is_empty t then ret
      else if as_bytes c t then put_bytes c (objrep c v t)
      else ser_many (cser G F c) l ms
  | TRec k, VSeq l => run_out G c (map (cser G F c) l) l (F k)
  | TArray n t', VSeq l =>
      if as_bytes c t' then put_bytes c (objrep c v t)
      else ser_all (cser G F c) l t'
  | TTuple ts, VSeq l => ser_many (cser G F c) l ts
  | TVec s contig t', VSeq l =>
      ser_size c (sz_of c s) (N.of_nat (length l)) ;;
      if as_bytes c t' && contig
      then put_bytes c (flat_map (fun x => objrep c x t') l)
      else ser_all (cser G F c) l t'
  | TAssoc s k t', VSeq l =>
      ser_size c (sz_of c s) (N.of_nat (length l)) ;; ser_all (cser G F c) l t'
  | TSpan s t', VSeq l =>
      ser_size c (sz_of c s) (N.of_nat (length l)) ;;
      if as_bytes c t' then put_bytes c (flat_map (fun x => objrep c x t') l)
      else ser_all (cser G F c) l t'
  | TOpt _ _, VNone => ser_flag c false
  | TOpt _ t', VSome x => ser_flag c true ;; cser G F c x t'
  | TOptPtr _, VNone => ser_flag c false
  | TOptPtr t', VSome x => ser_flag c true ;; cser G F c x t'
  | TPtr _, VNone => fail (RErr invalid_argument)
  | TPtr t', VSome x => cser G F c x t'
  | TVariant _ _ _, VValueless => fail (RErr invalid_argument)
  | TVariant ik meta alts, VAlt i x =>
      match nth_error meta i, nth_error alts i with
      | Some (id, _), Some t' => ser_id c ik id ;; cser G F c x t'
      | _, _ => fail RUB
      end
  | TBitset n, VBits l => ser_bitset c n l
  | TView (VwSized s), VBytes l =>
      ser_size c (sz_of c s) (N.of_nat (length l)) ;; put_bytes c l
  | TView (VwFixed _), VBytes l => put_bytes c l
  | TView VwRest, VBytes l => put_bytes c l
  | _, _ => fail RUB
  end.

(** The function on an input archive: serialize(archive, self) (2606-2611).  [rd] reads an
    item of a type. *)
Section RunIn.
  Variables (rd : ty -> val -> nat -> dres) (loc : ty -> val -> nat -> dres).
  Fixpoint run_in (p : prog) (self : list val) (pos : nat) : res * list val * nat :=
    match p with
    | PRet => (ROk, self, pos)
    | PFail e => (RErr e, self, pos)
    | PThrow => (RThrow, self, pos)
    | PMem i t k =>
        match nth_error self i with
        | Some x =>
            match rd t x pos with
            | (ROk, y, pos') => run_in (k (set_nth i y self)) (set_nth i y self) pos'
            | (r, y, pos') => (r, set_nth i y self, pos')
            end
        | None => (RUB, self, pos)
        end
    | PLoc t f k =>
        match loc t (f self) pos with
        | (ROk, y, pos') => run_in (k y self) self pos'
        | (r, _, pos') => (r, self, pos')
        end
    | PSet f k => run_in k (f self) pos
    end.
End RunIn.

(** Locals contain no named classes. *)
Definition no_rec (_ : nat) (prior : val) (pos : nat) : dres := (RUB, prior, pos).

(** Named classes: one unit of [fuel] per level of recursion, as in Model/In.v. *)
Fixpoint cdes_rec (G : tenv) (F : funs) (c : cfg) (data : list byte) (fuel : nat) (k : nat)
  (prior : val) (pos : nat) : dres :=
  match fuel with
  | O => (RStack, prior, pos)
  | S f =>
      seq_res (run_in (des_ty G c data (cdes_rec G F c data f)) (des_ty G c data no_rec)
        (F k) (as_seq prior) pos)
  end.

(** in::serialize_one. *)
Definition cdes (G : tenv) (F : funs) (c : cfg) (data : list byte) (fuel : nat) : ty -> val -> nat -> dres :=
  des_ty G c data (cdes_rec G F c data fuel).

(** The function that transfers all members in order. *)
Fixpoint in_order (i : nat) (ts : list ty) : prog :=
  match ts with
  | [] => PRet
  | t :: ts' => PMem i t (fun _ => in_order (S i) ts')
  end.

(** out::operator() (2443-2456) on items with functions: an exception leaves before the buffer
    is fitted to the position. *)
Definition cout_call (G : tenv) (F : funs) (c : cfg) (vs : list val) (ts : list ty) : act := fun st =>
  if growable c && negb (nofit c) && negb (exact_enlarger c) then
    match ser_many (cser G F c) vs ts st with
    | (r, st') => fit_size c (length (obuf st)) r st'
    end
  else ser_many (cser G F c) vs ts st.
