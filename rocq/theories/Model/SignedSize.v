(** Containers whose size type is signed (int, char where that is signed, vint32_t):
    in::serialize_one for containers and associative containers (zpp_bits.h:2725-2880).

    The size read is an object of the size type; comparing it with a std::size_t (2762, 2773, 2780,
    2873) and passing it to container.resize(size) and bytes(container, size) (2766, 2800) converts
    it, so that a negative size becomes one of 2^63 or more.  Writing is the conversion of the
    number of elements to the size type (2196-2206, 2233-2243) and gives the same bytes as for the
    unsigned type of that width: Model/Out.v.

    [sgn s] says whether the size type [s] is signed.  Simplifications as in Model/In.v.  Size types
    with zig-zag (vsint32_t) are not modelled.  For views and spans, container = {data, size} (2776,
    2783) with a signed size is a narrowing conversion, which some compilers reject. *)

From Coq Require Import List NArith ZArith Lia Bool Arith.
From Verif Require Import Base.Bytes Model.Types Model.Machine Model.Varint Model.Out Model.In.
Import ListNotations.
Local Open Scope N_scope.

(** The number a size of width [w] with bits [n] is converted to. *)
Definition extend (w : nat) (n : N) : N :=
  if n <? pow256 w / 2 then n else two64 - (pow256 w - n).

Definition extend_size (sgn : sizety -> bool) (s : sizety) (n : N) : N :=
  match s with
  | SzNone => n
  | SzFix w | SzVar w => if sgn s then extend w n else n
  end.

(** SizeType size{}; serialize_one(size); and the conversion (2751-2755, 2858-2862). *)
Definition gdes_size (sgn : sizety -> bool) (c : cfg) (data : list byte) (s : sizety) (pos : nat) : res * N * nat :=
  match des_size c data s pos with
  | (ROk, n, pos') => (ROk, extend_size sgn s n, pos')
  | other => other
  end.

Section In.
  Variables (sgn : sizety -> bool) (G : tenv) (c : cfg) (data : list byte).
  Variable rec : nat -> val -> nat -> dres.

  (** in::serialize_one (2485-3093), branch by branch as in Model/In.v. *)
  Fixpoint gdes_ty (t : ty) {struct t} : val -> nat -> dres := fun prior pos =>
    match t with
    | TScalar w _ =>
        nres VN (des_scalar c data w (match prior with VN n => n | _ => 0 end) pos)
    | TBool =>
        match des_scalar c data 1 0 pos with
        | (ROk, n, pos') => if n <? 2 then (ROk, VN n, pos') else (RUB, prior, pos')
        | (r, _, pos') => (r, prior, pos')
        end
    | TVarint w sg zz =>
        nres VN (des_varint w zz (match prior with VN n => n | _ => 0 end) data pos)
    | TEmpty => (ROk, prior, pos)
    | TStruct si ms =>
        if negb (s_expl si) && is_empty t then (ROk, prior, pos)
        else if as_bytes c t then
          match des_bytes c data t 1 [prior] pos with
          | (r, [x], pos') => (r, x, pos')
          | (r, _, pos') => (r, prior, pos')
          end
        else seq_res (des_many gdes_ty ms (as_seq prior) pos)
    | TRec k => rec k prior pos
    | TArray n t' => des_elems c data (as_bytes c t') (gdes_ty t') t' (as_seq prior) pos
    | TTuple ts => seq_res (des_many gdes_ty ts (as_seq prior) pos)
    | TVec s contig t' =>
        match sz_of c s with
        | SzNone => des_elems c data (as_bytes c t' && contig) (gdes_ty t') t' (as_seq prior) pos
        | sz =>
            match gdes_size sgn c data sz pos with
            | (ROk, n, pos') =>
                match vec_resize G c t' n (as_seq prior) with
                | (ROk, l) => des_elems c data (as_bytes c t' && contig) (gdes_ty t') t' l pos'
                | (r, l) => (r, VSeq l, pos')
                end
            | (r, _, pos') => (r, prior, pos')
            end
        end
    | TAssoc s k t' =>
        (* with SizeType = void this overload does not compile (void size{}); the model
           then uses container.size(), as line 2867 intends *)
        match (match sz_of c s with
               | SzNone => (ROk, N.of_nat (length (as_seq prior)), pos)
               | sz => gdes_size sgn c data sz pos
               end) with
        | (ROk, n, pos') =>
            seq_res (des_assoc (gdes_ty t') (assoc_insert k) (dflt G t') (N.to_nat n) [] pos')
        | (r, _, pos') => (r, prior, pos')
        end
    | TSpan s t' =>
        match sz_of c s with
        | SzNone => des_elems c data (as_bytes c t') (gdes_ty t') t' (as_seq prior) pos
        | sz =>
            match gdes_size sgn c data sz pos with
            | (ROk, n, pos') =>
                if N.of_nat (length (as_seq prior)) <? n
                then (RErr result_out_of_range, prior, pos')
                else des_elems c data (as_bytes c t') (gdes_ty t') t'
                       (firstn (N.to_nat n) (as_seq prior)) pos'
            | (r, _, pos') => (r, prior, pos')
            end
        end
    | TOpt dc t' =>
        match des_flag c data pos with
        | (ROk, 0, pos') => (ROk, VNone, pos')
        | (ROk, _, pos') =>
            des_inplace dc (gdes_ty t') VSome (opt_cur prior) (dflt G t') prior pos'
        | (r, _, pos') => (r, prior, pos')
        end
    | TOptPtr t' =>
        match des_flag c data pos with
        | (ROk, 0, pos') => (ROk, VNone, pos')
        | (ROk, _, pos') => des_ptr (gdes_ty t') (dflt G t') prior pos'
        | (r, _, pos') => (r, prior, pos')
        end
    | TPtr t' => des_ptr (gdes_ty t') (dflt G t') prior pos
    | TVariant ik meta alts =>
        match des_id c data ik pos with
        | (ROk, id, pos') =>
            match find_id meta id with
            | None => (RErr bad_message, prior, pos')
            | Some i =>
                let dc := match nth_error meta i with Some (_, b) => b | None => true end in
                (fix pick (l : list ty) (j : nat) {struct l} : dres :=
                   match l, j with
                   | t' :: _, O =>
                       des_inplace dc (gdes_ty t') (VAlt i) (active i prior) (dflt G t') prior pos'
                   | _ :: l', S j' => pick l' j'
                   | [], _ => (RUB, prior, pos')
                   end) alts i
            end
        | (r, _, pos') => (r, prior, pos')
        end
    | TBitset n => des_bitset data n prior pos
    | TView (VwSized s) =>
        match gdes_size sgn c data (sz_of c s) pos with
        | (ROk, n, pos') =>
            match sz_of c s with
            | SzNone => (* default size type void: takes the rest (2826-2831) *)
                match load data pos (length data - pos) with
                | Some e => (ROk, VBytes e, length data)
                | None => (RUB, prior, pos)
                end
            | _ =>
                if remaining data pos' <? n then (RErr result_out_of_range, prior, pos')
                else match load data pos' (N.to_nat n) with
                     | Some e => (ROk, VBytes e, (pos' + N.to_nat n)%nat)
                     | None => (RUB, prior, pos')
                     end
            end
        | (r, _, pos') => (r, prior, pos')
        end
    | TView (VwFixed n) =>
        if remaining data pos <? N.of_nat n then (RErr result_out_of_range, prior, pos)
        else match load data pos n with
             | Some e => (ROk, VBytes e, (pos + n)%nat)
             | None => (RUB, prior, pos)
             end
    | TView VwRest =>
        match load data pos (length data - pos) with
        | Some e => (ROk, VBytes e, length data)
        | None => (RUB, prior, pos)
        end
    end.
End In.

Fixpoint gdes_rec (sgn : sizety -> bool) (G : tenv) (c : cfg) (data : list byte) (fuel : nat) (k : nat) (prior : val) (pos : nat)
  : dres :=
  match fuel with
  | O => (RStack, prior, pos)
  | S f =>
      seq_res (des_many (gdes_ty sgn G c data (gdes_rec sgn G c data f)) (t_mems G k) (as_seq prior) pos)
  end.

Definition gdes (sgn : sizety -> bool) (G : tenv) (c : cfg) (data : list byte) (fuel : nat) : ty -> val -> nat -> dres :=
  gdes_ty sgn G c data (gdes_rec sgn G c data fuel).

(** in::operator() (2531-2534). *)
Definition gin_call (sgn : sizety -> bool) (G : tenv) (c : cfg) (data : list byte) (fuel : nat)
  (ts : list ty) (priors : list val) (pos : nat) : res * list val * nat :=
  des_many (gdes sgn G c data fuel) ts priors pos.
