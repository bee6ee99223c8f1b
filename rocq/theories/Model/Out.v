(** Output archives: basic_out::serialize_one and out::operator() (zpp_bits.h:1860-2456). *)

From Coq Require Import List NArith ZArith Lia Bool Arith.
From Verif Require Import Base.Bytes Model.Types Model.Machine Model.Varint.
Import ListNotations.
Local Open Scope N_scope.

Section Loops.
  Context (f : val -> ty -> act).

  (** serialize_many over members (2005-2019); a shape mismatch cannot be written in C++. *)
  Fixpoint ser_many (l : list val) (ms : list ty) : act :=
    match l, ms with
    | [], [] => ret
    | x :: l', m :: ms' => f x m ;; ser_many l' ms'
    | _, _ => fail RUB
    end.

  (** for (auto & item : container) serialize_one(item) (2171-2177, 2241-2247). *)
  Fixpoint ser_all (l : list val) (t : ty) : act :=
    match l with
    | [] => ret
    | x :: l' => f x t ;; ser_all l' t
    end.
End Loops.

Section Reps.
  Context {A : Type} (f : val -> A -> list byte).
  Fixpoint reps_many (l : list val) (ms : list A) : list byte :=
    match l, ms with
    | x :: l', m :: ms' => f x m ++ reps_many l' ms'
    | _, _ => []
    end.
End Reps.

(** Object representation of a byte-serializable object: its members one after the other
    without padding (guaranteed by the sizeof test at 1283), scalars in host order.  The
    byte of an empty object is unspecified in C++; the model uses 0. *)
Fixpoint objrep (c : cfg) (v : val) (t : ty) {struct v} : list byte :=
  match t, v with
  | TScalar w _, VN n => hostrep c w n
  | TBool, VN n => hostrep c 1 n
  | TEmpty, _ => [x00]
  | TStruct _ ms, VSeq l => reps_many (objrep c) l ms
  | TArray _ t', VSeq l => flat_map (fun x => objrep c x t') l
  | _, _ => []
  end.

(** Serializing a [bytes] item (2086-2142): nothing at all if it is empty. *)
Definition put_bytes (c : cfg) (e : list byte) : act :=
  match e with [] => ret | _ => put c e end.

(** serialize_one(static_cast<SizeType>(size)) (2207-2211, 2234-2238). *)
Definition ser_size (c : cfg) (s : sizety) (n : N) : act :=
  match s with
  | SzNone => ret
  | SzFix w => put c (scalar_bytes c w (trunc w n))
  | SzVar w => ser_varint c w false false (trunc w n)
  end.

(** serialize_one of a variant id: an integer / std::byte or an array of bytes. *)
Definition ser_id (c : cfg) (k : idkind) (i : N) : act :=
  match k with
  | IdInt w => put c (scalar_bytes c w i)
  | IdBytes n => put_bytes c (le_bytes n i)
  end.

(** std::byte flag. *)
Definition ser_flag (c : cfg) (b : bool) : act :=
  put c (scalar_bytes c 1 (if b then 1 else 0)).

(** value = byte_type(unsigned char(value) | (bit << (i & 7))) (2332-2336). *)
Definition or_bit (buf : list byte) (p : nat) (i : nat) (b : bool) : list byte :=
  match nth_error buf (p + i / 8) with
  | None => buf
  | Some old =>
      overwrite buf (p + i / 8)
        [n2b (N.lor (b2n old) (N.shiftl (if b then 1 else 0) (N.of_nat (i mod 8))))]
  end.

Fixpoint or_bits (buf : list byte) (p : nat) (i : nat) (l : list bool) : list byte :=
  match l with
  | [] => buf
  | b :: l' => or_bits (or_bit buf p i b) p (S i) l'
  end.

Definition bitset_bytes (n : nat) : nat := ((n + 7) / 8)%nat.

(** serialize_one(bitset) (2315-2339). *)
Definition ser_bitset (c : cfg) (n : nat) (l : list bool) : act :=
  reserve c (N.of_nat (bitset_bytes n)) ;;
  fun st =>
    if (opos st + bitset_bytes n <=? length (obuf st))%nat
    then (ROk, mkO (or_bits (obuf st) (opos st) 0 l) (opos st + bitset_bytes n))
    else (RUB, st).

(** basic_out::serialize_one (2042-2339), one branch per overload. *)
Fixpoint ser (G : tenv) (c : cfg) (v : val) (t : ty) {struct v} : act :=
  match t, v with
  (* fundamental / enum: 2049-2085 *)
  | TScalar w _, VN n => put c (scalar_bytes c w n)
  | TBool, VN n => put c (scalar_bytes c 1 n)
  (* varint, through its explicit serialize: 2048, 1660-1701 *)
  | TVarint w sg zz, VN n => ser_varint c w sg zz n
  (* empty class: 2143-2144 *)
  | TEmpty, VSeq [] => ret
  (* class: explicit serialize 2046-2048, bytes 2145-2147, members 2148-2160 *)
  | TStruct si ms, VSeq l =>
      if negb (s_expl si) && is_empty t then ret
      else if as_bytes c t then put_bytes c (objrep c v t)
      else ser_many (ser G c) l ms
  | TRec k, VSeq l => ser_many (ser G c) l (t_mems G k)
  (* array: 2162-2180 *)
  | TArray n t', VSeq l =>
      if as_bytes c t' then put_bytes c (objrep c v t)
      else ser_all (ser G c) l t'
  (* tuple: 2253-2266 *)
  | TTuple ts, VSeq l => ser_many (ser G c) l ts
  (* container: 2182-2250 *)
  | TVec s contig t', VSeq l =>
      ser_size c (sz_of c s) (N.of_nat (length l)) ;;
      if as_bytes c t' && contig
      then put_bytes c (flat_map (fun x => objrep c x t') l)
      else ser_all (ser G c) l t'
  | TAssoc s k t', VSeq l =>
      ser_size c (sz_of c s) (N.of_nat (length l)) ;; ser_all (ser G c) l t'
  | TSpan s t', VSeq l =>
      ser_size c (sz_of c s) (N.of_nat (length l)) ;;
      if as_bytes c t' then put_bytes c (flat_map (fun x => objrep c x t') l)
      else ser_all (ser G c) l t'
  (* optional: 2268-2276 *)
  | TOpt _ _, VNone => ser_flag c false
  | TOpt _ t', VSome x => ser_flag c true ;; ser G c x t'
  (* optional_ptr: 1480-1490 *)
  | TOptPtr _, VNone => ser_flag c false
  | TOptPtr t', VSome x => ser_flag c true ;; ser G c x t'
  (* owning pointer: 2304-2312 *)
  | TPtr _, VNone => fail (RErr invalid_argument)
  | TPtr t', VSome x => ser G c x t'
  (* variant: 2278-2302 *)
  | TVariant _ _ _, VValueless => fail (RErr invalid_argument)
  | TVariant ik meta alts, VAlt i x =>
      match nth_error meta i, nth_error alts i with
      | Some (id, _), Some t' => ser_id c ik id ;; ser G c x t'
      | _, _ => fail RUB
      end
  (* bitset: 2314-2339 *)
  | TBitset n, VBits l => ser_bitset c n l
  (* const byte views: container branch with a span / string_view (2182-2250) *)
  | TView (VwSized s), VBytes l =>
      ser_size c (sz_of c s) (N.of_nat (length l)) ;; put_bytes c l
  | TView (VwFixed _), VBytes l => put_bytes c l
  | TView VwRest, VBytes l => put_bytes c l
  | _, _ => fail RUB
  end.

(** known_id: serialize_one<KnownId>(variant) (2283-2288): the alternative without its id;
    get_if of an inactive alternative is a null pointer, whose dereference is undefined. *)
Definition ser_known (G : tenv) (c : cfg) (i : nat) (alts : list ty) (v : val) : act :=
  match v with
  | VAlt j x =>
      if (i =? j)%nat
      then match nth_error alts i with Some t' => ser G c x t' | None => fail RUB end
      else fail RUB
  | _ => fail RUB
  end.

(** out::operator() (2443-2456): fit the buffer to the position afterwards, unless
    no_fit_size or exact_enlarger; also after a failure. *)
Definition fit_size (c : cfg) (e : nat) (r : res) (st : ost) : res * ost :=
  match r with
  | RUB | RThrow | RStack => (r, st)
  | _ =>
      if (e <=? opos st)%nat then
        match buf_resize c (N.of_nat (opos st)) st with
        | (ROk, st') => (r, st')
        | other => other
        end
      else (r, st)
  end.

Definition exact_enlarger (c : cfg) : bool := (emul c =? 1) && (ediv c =? 1).

Definition out_call (G : tenv) (c : cfg) (vs : list val) (ts : list ty) : act := fun st =>
  if growable c && negb (nofit c) && negb (exact_enlarger c) then
    let e := length (obuf st) in
    match ser_many (ser G c) vs ts st with
    | (r, st') => fit_size c e r st'
    end
  else ser_many (ser G c) vs ts st.
