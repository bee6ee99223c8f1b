(** Serialize functions that move the position of the archive (zpp_bits.h:1932-1957 and 2545-2577:
    position(), reset(), remaining_data()): the functions of Model/Custom.v, which may also ask
    where the archive stands, go elsewhere, and go on from there.  Typical are functions that
    leave room for a length and fill it in afterwards, and functions that look ahead. *)

From Coq Require Import List NArith ZArith Lia Bool Arith.
From Verif Require Import Base.Bytes Model.Types Model.Machine Model.Varint Model.Out Model.In Model.Pb
  Model.Custom.
Import ListNotations.
Local Open Scope N_scope.

(** As [prog], and:
    - [MPos k]: size_t p = archive.position();
    - [MMove p k]: archive.position() = p, archive.reset(p);
    - [MLeft k]: if constexpr (kind() == kind::in), n = archive.remaining_data().size(), else 0.
    Left out: what an output archive's remaining_data() says, which depends on how the buffer
    has grown, and access to the bytes past the archive. *)
Inductive sprog :=
| MRet
| MFail (e : errc)
| MThrow
| MMem (i : nat) (t : ty) (k : list val -> sprog)
| MLoc (t : ty) (f : list val -> val) (k : val -> list val -> sprog)
| MSet (f : list val -> list val) (k : sprog)
| MPos (k : nat -> sprog)
| MMove (p : nat) (k : sprog)
| MLeft (k : nat -> sprog).

Definition sfuns := nat -> sprog.

(** The function on an output archive (2046-2051). *)
Section RunOut.
  Variables (G : tenv) (c : cfg) (ms : list (ty -> act)) (self : list val).
  Fixpoint srun_out (p : sprog) : act :=
    match p with
    | MRet => ret
    | MFail e => fail (RErr e)
    | MThrow => fail RThrow
    | MMem i t k =>
        match nth_error ms i with
        | Some a => a t ;; srun_out (k self)
        | None => fail RUB
        end
    | MLoc t f k => ser G c (f self) t ;; srun_out (k (f self) self)
    | MSet _ k => srun_out k
    | MPos k => fun st => srun_out (k (opos st)) st
    | MMove n k => fun st => srun_out k (mkO (obuf st) n)
    | MLeft k => srun_out (k O)
    end.
End RunOut.

(** basic_out::serialize_one as in Model/Out.v; named classes have functions. *)
Fixpoint sser (G : tenv) (F : sfuns) (c : cfg) (v : val) (t : ty) {struct v} : act :=
  match t, v with
  | TScalar w _, VN n => put c (scalar_bytes c w n)
  | TBool, VN n => put c (scalar_bytes c 1 n)
  | TVarint w sg zz, VN n => ser_varint c w sg zz n
  | TEmpty, VSeq [] => ret
  | TStruct si ms, VSeq l =>
      if negb (s_expl si) && is_empty t then ret
      else if as_bytes c t then put_bytes c (objrep c v t)
      else ser_many (sser G F c) l ms
  | TRec k, VSeq l => srun_out G c (map (sser G F c) l) l (F k)
  | TArray n t', VSeq l =>
      if as_bytes c t' then put_bytes c (objrep c v t)
      else ser_all (sser G F c) l t'
  | TTuple ts, VSeq l => ser_many (sser G F c) l ts
  | TVec s contig t', VSeq l =>
      ser_size c (sz_of c s) (N.of_nat (length l)) ;;
      if as_bytes c t' && contig
      then put_bytes c (flat_map (fun x => objrep c x t') l)
      else ser_all (sser G F c) l t'
  | TAssoc s k t', VSeq l =>
      ser_size c (sz_of c s) (N.of_nat (length l)) ;; ser_all (sser G F c) l t'
  | TSpan s t', VSeq l =>
      ser_size c (sz_of c s) (N.of_nat (length l)) ;;
      if as_bytes c t' then put_bytes c (flat_map (fun x => objrep c x t') l)
      else ser_all (sser G F c) l t'
  | TOpt _ _, VNone => ser_flag c false
  | TOpt _ t', VSome x => ser_flag c true ;; sser G F c x t'
  | TOptPtr _, VNone => ser_flag c false
  | TOptPtr t', VSome x => ser_flag c true ;; sser G F c x t'
  | TPtr _, VNone => fail (RErr invalid_argument)
  | TPtr t', VSome x => sser G F c x t'
  | TVariant _ _ _, VValueless => fail (RErr invalid_argument)
  | TVariant ik meta alts, VAlt i x =>
      match nth_error meta i, nth_error alts i with
      | Some (id, _), Some t' => ser_id c ik id ;; sser G F c x t'
      | _, _ => fail RUB
      end
  | TBitset n, VBits l => ser_bitset c n l
  | TView (VwSized s), VBytes l =>
      ser_size c (sz_of c s) (N.of_nat (length l)) ;; put_bytes c l
  | TView (VwFixed _), VBytes l => put_bytes c l
  | TView VwRest, VBytes l => put_bytes c l
  | _, _ => fail RUB
  end.

(** The function on an input archive (2606-2611); [left pos]: the size of remaining_data(), an
    unsigned difference (2561-2565). *)
Section RunIn.
  Variables (left : nat -> nat) (rd : ty -> val -> nat -> dres) (loc : ty -> val -> nat -> dres).
  Fixpoint srun_in (p : sprog) (self : list val) (pos : nat) : res * list val * nat :=
    match p with
    | MRet => (ROk, self, pos)
    | MFail e => (RErr e, self, pos)
    | MThrow => (RThrow, self, pos)
    | MMem i t k =>
        match nth_error self i with
        | Some x =>
            match rd t x pos with
            | (ROk, y, pos') => srun_in (k (set_nth i y self)) (set_nth i y self) pos'
            | (r, y, pos') => (r, set_nth i y self, pos')
            end
        | None => (RUB, self, pos)
        end
    | MLoc t f k =>
        match loc t (f self) pos with
        | (ROk, y, pos') => srun_in (k y self) self pos'
        | (r, _, pos') => (r, self, pos')
        end
    | MSet f k => srun_in k (f self) pos
    | MPos k => srun_in (k pos) self pos
    | MMove n k => srun_in k self n
    | MLeft k => srun_in (k (left pos)) self pos
    end.
End RunIn.

Fixpoint sdes_rec (G : tenv) (F : sfuns) (c : cfg) (data : list byte) (fuel : nat) (k : nat)
  (prior : val) (pos : nat) : dres :=
  match fuel with
  | O => (RStack, prior, pos)
  | S f =>
      seq_res (srun_in (fun q => N.to_nat (remaining data q)) (des_ty G c data (sdes_rec G F c data f))
        (des_ty G c data no_rec) (F k) (as_seq prior) pos)
  end.

(** in::serialize_one. *)
Definition sdes (G : tenv) (F : sfuns) (c : cfg) (data : list byte) (fuel : nat) : ty -> val -> nat -> dres :=
  des_ty G c data (sdes_rec G F c data fuel).

(** out::operator() (2443-2456): the buffer is fitted to wherever the position is left. *)
Definition sout_call (G : tenv) (F : sfuns) (c : cfg) (vs : list val) (ts : list ty) : act := fun st =>
  if growable c && negb (nofit c) && negb (exact_enlarger c) then
    match ser_many (sser G F c) vs ts st with
    | (r, st') => fit_size c (length (obuf st)) r st'
    end
  else ser_many (sser G F c) vs ts st.

(** Functions that do not move. *)
Fixpoint still (p : prog) : sprog :=
  match p with
  | PRet => MRet
  | PFail e => MFail e
  | PThrow => MThrow
  | PMem i t k => MMem i t (fun self => still (k self))
  | PLoc t f k => MLoc t f (fun x self => still (k x self))
  | PSet f k => MSet f (still k)
  end.

(** [p], and when it is done, [q]. *)
Fixpoint andthen (p : sprog) (q : sprog) : sprog :=
  match p with
  | MRet => q
  | MFail e => MFail e
  | MThrow => MThrow
  | MMem i t k => MMem i t (fun self => andthen (k self) q)
  | MLoc t f k => MLoc t f (fun x self => andthen (k x self) q)
  | MSet f k => MSet f (andthen k q)
  | MPos k => MPos (fun n => andthen (k n) q)
  | MMove n k => MMove n (andthen k q)
  | MLeft k => MLeft (fun n => andthen (k n) q)
  end.

(** The usual way to put a length of [w] bytes in front of what [body] writes:
      auto start = archive.position();
      archive(uintw_t{}); body; auto end = archive.position();
      archive.position() = start; archive(uintw_t(end - start - w)); archive.position() = end; *)
Definition patched (w : nat) (body : sprog) : sprog :=
  MPos (fun a =>
    MLoc (TScalar w false) (fun _ => VN 0) (fun _ _ =>
      andthen body
        (MPos (fun b =>
          MMove a (MLoc (TScalar w false) (fun _ => VN (N.of_nat (b - (a + w)) mod pow256 w)) (fun _ _ =>
            MMove b MRet)))))).

(** Its reader: the length is checked against what is there, and whatever of the frame [body] has
    not read is skipped:
      uintw_t n{}; archive(n); auto a = archive.position();
      if (n > archive.remaining_data().size()) return std::errc::result_out_of_range;
      body; archive.position() = a + n; *)
Definition framed (w : nat) (body : sprog) : sprog :=
  MLoc (TScalar w false) (fun _ => VN 0) (fun x _ =>
    MPos (fun a =>
      MLeft (fun left =>
        let n := match x with VN n => N.to_nat n | _ => O end in
        if (n <=? left)%nat then andthen body (MMove (a + n) MRet)
        else MFail result_out_of_range))).

(** The same without the check. *)
Definition trusting (w : nat) (body : sprog) : sprog :=
  MLoc (TScalar w false) (fun _ => VN 0) (fun x _ =>
    MPos (fun a =>
      let n := match x with VN n => N.to_nat n | _ => O end in
      andthen body (MMove (a + n) MRet))).
