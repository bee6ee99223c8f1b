(** Platforms whose std::size_t has [W] bits: enlarge_for (zpp_bits.h:1966-2002), the checks for
    room (2050-2058, 2100-2108, 2322-2330, 1675-1688) and resizing containers (2751-2767).

    Size types may be wider than std::size_t there: the size read is compared with the allocation
    limit as it is and then converted to std::size_t by container.resize(size) and
    bytes(container, size) (1011-1014).  The comparisons for views and spans (2773, 2780) are those
    of the wider type.  As in Model/Machine.v and Model/In.v otherwise.

    Simplifications.  [W] is at least the width of int, so that there is no promotion.  Positions of
    input archives are within the data (C10), where m_data.size() - m_position does not depend on
    [W].  The loop of associative containers (2873) has an index of [W] bits; with 2^[W] or more
    elements that take no bytes it would not end, the model ends after the number read. *)

From Coq Require Import List NArith ZArith Lia Bool Arith.
From Verif Require Import Base.Bytes Model.Types Model.Machine Model.Varint Model.Out Model.In.
Import ListNotations.
Local Open Scope N_scope.

Definition nadd (W a b : N) : N := (a + b) mod 2 ^ W.
Definition nmul (W a b : N) : N := (a * b) mod 2 ^ W.
Definition nsub (W a b : N) : N := (a + (2 ^ W - b mod 2 ^ W)) mod 2 ^ W.

(** ** Output *)

(** basic_out::enlarge_for (1966-2002). *)
Definition nenlarge (W : N) (c : cfg) (add : N) : act := fun st =>
  let size := N.of_nat (length (obuf st)) in
  if nsub W size (N.of_nat (opos st)) <? add then
    let required := nadd W size add in
    if negb (noovf c) && (required <? size) then (RErr no_buffer_space, st)
    else
      let scaled := if emul c =? 1 then required else nmul W required (emul c) in
      if negb (emul c =? 1) && negb (noovf c) && negb (scaled / emul c =? required)
      then (RErr no_buffer_space, st)
      else
        let new := if ediv c =? 1 then scaled else scaled / ediv c in
        if negb (within_limit c new) then (RErr no_buffer_space, st)
        else buf_resize c new st
  else (ROk, st).

(** Room for [n] bytes (2050-2058, 2100-2108, 2322-2330). *)
Definition nreserve (W : N) (c : cfg) (n : N) : act := fun st =>
  if growable c then nenlarge W c n st
  else if nsub W (N.of_nat (length (obuf st))) (N.of_nat (opos st)) <? n
       then (RErr result_out_of_range, st)
       else (ROk, st).

(** Room for a varint (1675-1688). *)
Definition nvarint_reserve (W : N) (c : cfg) (w : nat) (value : N) : act := fun st =>
  let max_size := N.of_nat (varint_max_size w) in
  if growable c then nenlarge W c max_size st
  else
    let data_size := nsub W (N.of_nat (length (obuf st))) (N.of_nat (opos st)) in
    if (data_size <? max_size) && (data_size <? varint_size value)
    then (RErr result_out_of_range, st) else (ROk, st).

(** The elementary writes of Model/Machine.v, Model/Varint.v and Model/Out.v. *)
Definition nput (W : N) (c : cfg) (e : list byte) : act :=
  nreserve W c (N.of_nat (length e)) ;; store e.

Definition nput_bytes (W : N) (c : cfg) (e : list byte) : act :=
  match e with [] => ret | _ => nput W c e end.

Definition nser_varint (W : N) (c : cfg) (w : nat) (sg zz : bool) (orig : N) : act :=
  let value := wire_value w sg zz orig in
  nvarint_reserve W c w value ;; store (vloop (varint_max_size w) value).

Definition nser_size (W : N) (c : cfg) (s : sizety) (n : N) : act :=
  match s with
  | SzNone => ret
  | SzFix w => nput W c (scalar_bytes c w (trunc w n))
  | SzVar w => nser_varint W c w false false (trunc w n)
  end.

Definition nser_id (W : N) (c : cfg) (k : idkind) (i : N) : act :=
  match k with
  | IdInt w => nput W c (scalar_bytes c w i)
  | IdBytes n => nput_bytes W c (le_bytes n i)
  end.

Definition nser_flag (W : N) (c : cfg) (b : bool) : act :=
  nput W c (scalar_bytes c 1 (if b then 1 else 0)).

Definition nser_bitset (W : N) (c : cfg) (n : nat) (l : list bool) : act :=
  nreserve W c (N.of_nat (bitset_bytes n)) ;;
  fun st =>
    if (opos st + bitset_bytes n <=? length (obuf st))%nat
    then (ROk, mkO (or_bits (obuf st) (opos st) 0 l) (opos st + bitset_bytes n))
    else (RUB, st).

(** basic_out::serialize_one (2042-2339). *)
Fixpoint nser (W : N) (G : tenv) (c : cfg) (v : val) (t : ty) {struct v} : act :=
  match t, v with
  (* fundamental / enum: 2049-2085 *)
  | TScalar w _, VN n => nput W c (scalar_bytes c w n)
  | TBool, VN n => nput W c (scalar_bytes c 1 n)
  (* varint, through its explicit serialize: 2048, 1660-1701 *)
  | TVarint w sg zz, VN n => nser_varint W c w sg zz n
  (* empty class: 2143-2144 *)
  | TEmpty, VSeq [] => ret
  (* class: explicit serialize 2046-2048, bytes 2145-2147, members 2148-2160 *)
  | TStruct si ms, VSeq l =>
      if negb (s_expl si) && is_empty t then ret
      else if as_bytes c t then nput_bytes W c (objrep c v t)
      else ser_many (nser W G c) l ms
  | TRec k, VSeq l => ser_many (nser W G c) l (t_mems G k)
  (* array: 2162-2180 *)
  | TArray n t', VSeq l =>
      if as_bytes c t' then nput_bytes W c (objrep c v t)
      else ser_all (nser W G c) l t'
  (* tuple: 2253-2266 *)
  | TTuple ts, VSeq l => ser_many (nser W G c) l ts
  (* container: 2182-2250 *)
  | TVec s contig t', VSeq l =>
      nser_size W c (sz_of c s) (N.of_nat (length l)) ;;
      if as_bytes c t' && contig
      then nput_bytes W c (flat_map (fun x => objrep c x t') l)
      else ser_all (nser W G c) l t'
  | TAssoc s k t', VSeq l =>
      nser_size W c (sz_of c s) (N.of_nat (length l)) ;; ser_all (nser W G c) l t'
  | TSpan s t', VSeq l =>
      nser_size W c (sz_of c s) (N.of_nat (length l)) ;;
      if as_bytes c t' then nput_bytes W c (flat_map (fun x => objrep c x t') l)
      else ser_all (nser W G c) l t'
  (* optional: 2268-2276 *)
  | TOpt _ _, VNone => nser_flag W c false
  | TOpt _ t', VSome x => nser_flag W c true ;; nser W G c x t'
  (* optional_ptr: 1480-1490 *)
  | TOptPtr _, VNone => nser_flag W c false
  | TOptPtr t', VSome x => nser_flag W c true ;; nser W G c x t'
  (* owning pointer: 2304-2312 *)
  | TPtr _, VNone => fail (RErr invalid_argument)
  | TPtr t', VSome x => nser W G c x t'
  (* variant: 2278-2302 *)
  | TVariant _ _ _, VValueless => fail (RErr invalid_argument)
  | TVariant ik meta alts, VAlt i x =>
      match nth_error meta i, nth_error alts i with
      | Some (id, _), Some t' => nser_id W c ik id ;; nser W G c x t'
      | _, _ => fail RUB
      end
  (* bitset: 2314-2339 *)
  | TBitset n, VBits l => nser_bitset W c n l
  (* const byte views: container branch with a span / string_view (2182-2250) *)
  | TView (VwSized s), VBytes l =>
      nser_size W c (sz_of c s) (N.of_nat (length l)) ;; nput_bytes W c l
  | TView (VwFixed _), VBytes l => nput_bytes W c l
  | TView VwRest, VBytes l => nput_bytes W c l
  | _, _ => fail RUB
  end.

(** out::operator() (2443-2456). *)
Definition nout_call (W : N) (G : tenv) (c : cfg) (vs : list val) (ts : list ty) : act := fun st =>
  if growable c && negb (nofit c) && negb (exact_enlarger c) then
    let e := length (obuf st) in
    match ser_many (nser W G c) vs ts st with
    | (r, st') => fit_size c e r st'
    end
  else ser_many (nser W G c) vs ts st.

(** ** Input *)

(** The check against the limit and container.resize(size) (2757-2767). *)
Definition nvec_resize (W : N) (G : tenv) (c : cfg) (t : ty) (n : N) (l : list val) : res * list val :=
  if over_limit c t n then (RErr message_size, l)
  else
    let m := n mod 2 ^ W in
    if (m <=? N.of_nat (length l)) || can_alloc c (m * csizeof c t)
    then (ROk, vresize (dflt G t) (N.to_nat m) l)
    else (RThrow, l).

Section In.
  Variables (W : N) (G : tenv) (c : cfg) (data : list byte).
  Variable rec : nat -> val -> nat -> dres.

  (** in::serialize_one (2485-3093), branch by branch as in Model/In.v. *)
  Fixpoint ndes_ty (t : ty) {struct t} : val -> nat -> dres := fun prior pos =>
    match t with
    | TScalar w _ =>
        nres VN (des_scalar c data w (match prior with VN n => n | _ => 0 end) pos)
    | TBool =>
        match des_scalar c data 1 0 pos with
        | (ROk, n, pos') => if n <? 2 then (ROk, VN n, pos') else (RUB, prior, pos')
        | (r, _, pos') => (r, prior, pos')
        end
    | TVarint w sg zz =>
        nres VN (des_varint w zz (match prior with VN n => n | _ => 0 end) data pos)
    | TEmpty => (ROk, prior, pos)
    | TStruct si ms =>
        if negb (s_expl si) && is_empty t then (ROk, prior, pos)
        else if as_bytes c t then
          match des_bytes c data t 1 [prior] pos with
          | (r, [x], pos') => (r, x, pos')
          | (r, _, pos') => (r, prior, pos')
          end
        else seq_res (des_many ndes_ty ms (as_seq prior) pos)
    | TRec k => rec k prior pos
    | TArray n t' => des_elems c data (as_bytes c t') (ndes_ty t') t' (as_seq prior) pos
    | TTuple ts => seq_res (des_many ndes_ty ts (as_seq prior) pos)
    | TVec s contig t' =>
        match sz_of c s with
        | SzNone => des_elems c data (as_bytes c t' && contig) (ndes_ty t') t' (as_seq prior) pos
        | sz =>
            match des_size c data sz pos with
            | (ROk, n, pos') =>
                match nvec_resize W G c t' n (as_seq prior) with
                | (ROk, l) => des_elems c data (as_bytes c t' && contig) (ndes_ty t') t' l pos'
                | (r, l) => (r, VSeq l, pos')
                end
            | (r, _, pos') => (r, prior, pos')
            end
        end
    | TAssoc s k t' =>
        (* with SizeType = void this overload does not compile (void size{}); the model
           then uses container.size(), as line 2867 intends *)
        match (match sz_of c s with
               | SzNone => (ROk, N.of_nat (length (as_seq prior)), pos)
               | sz => des_size c data sz pos
               end) with
        | (ROk, n, pos') =>
            seq_res (des_assoc (ndes_ty t') (assoc_insert k) (dflt G t') (N.to_nat n) [] pos')
        | (r, _, pos') => (r, prior, pos')
        end
    | TSpan s t' =>
        match sz_of c s with
        | SzNone => des_elems c data (as_bytes c t') (ndes_ty t') t' (as_seq prior) pos
        | sz =>
            match des_size c data sz pos with
            | (ROk, n, pos') =>
                if N.of_nat (length (as_seq prior)) <? n
                then (RErr result_out_of_range, prior, pos')
                else des_elems c data (as_bytes c t') (ndes_ty t') t'
                       (firstn (N.to_nat n) (as_seq prior)) pos'
            | (r, _, pos') => (r, prior, pos')
            end
        end
    | TOpt dc t' =>
        match des_flag c data pos with
        | (ROk, 0, pos') => (ROk, VNone, pos')
        | (ROk, _, pos') =>
            des_inplace dc (ndes_ty t') VSome (opt_cur prior) (dflt G t') prior pos'
        | (r, _, pos') => (r, prior, pos')
        end
    | TOptPtr t' =>
        match des_flag c data pos with
        | (ROk, 0, pos') => (ROk, VNone, pos')
        | (ROk, _, pos') => des_ptr (ndes_ty t') (dflt G t') prior pos'
        | (r, _, pos') => (r, prior, pos')
        end
    | TPtr t' => des_ptr (ndes_ty t') (dflt G t') prior pos
    | TVariant ik meta alts =>
        match des_id c data ik pos with
        | (ROk, id, pos') =>
            match find_id meta id with
            | None => (RErr bad_message, prior, pos')
            | Some i =>
                let dc := match nth_error meta i with Some (_, b) => b | None => true end in
                (fix pick (l : list ty) (j : nat) {struct l} : dres :=
                   match l, j with
                   | t' :: _, O =>
                       des_inplace dc (ndes_ty t') (VAlt i) (active i prior) (dflt G t') prior pos'
                   | _ :: l', S j' => pick l' j'
                   | [], _ => (RUB, prior, pos')
                   end) alts i
            end
        | (r, _, pos') => (r, prior, pos')
        end
    | TBitset n => des_bitset data n prior pos
    | TView (VwSized s) =>
        match des_size c data (sz_of c s) pos with
        | (ROk, n, pos') =>
            match sz_of c s with
            | SzNone => (* default size type void: takes the rest (2826-2831) *)
                match load data pos (length data - pos) with
                | Some e => (ROk, VBytes e, length data)
                | None => (RUB, prior, pos)
                end
            | _ =>
                if remaining data pos' <? n then (RErr result_out_of_range, prior, pos')
                else match load data pos' (N.to_nat n) with
                     | Some e => (ROk, VBytes e, (pos' + N.to_nat n)%nat)
                     | None => (RUB, prior, pos')
                     end
            end
        | (r, _, pos') => (r, prior, pos')
        end
    | TView (VwFixed n) =>
        if remaining data pos <? N.of_nat n then (RErr result_out_of_range, prior, pos)
        else match load data pos n with
             | Some e => (ROk, VBytes e, (pos + n)%nat)
             | None => (RUB, prior, pos)
             end
    | TView VwRest =>
        match load data pos (length data - pos) with
        | Some e => (ROk, VBytes e, length data)
        | None => (RUB, prior, pos)
        end
    end.
End In.

Fixpoint ndes_rec (W : N) (G : tenv) (c : cfg) (data : list byte) (fuel : nat) (k : nat) (prior : val) (pos : nat)
  : dres :=
  match fuel with
  | O => (RStack, prior, pos)
  | S f =>
      seq_res (des_many (ndes_ty W G c data (ndes_rec W G c data f)) (t_mems G k) (as_seq prior) pos)
  end.

Definition ndes (W : N) (G : tenv) (c : cfg) (data : list byte) (fuel : nat) : ty -> val -> nat -> dres :=
  ndes_ty W G c data (ndes_rec W G c data fuel).

(** in::operator() (2531-2534). *)
Definition nin_call (W : N) (G : tenv) (c : cfg) (data : list byte) (fuel : nat)
  (ts : list ty) (priors : list val) (pos : nat) : res * list val * nat :=
  des_many (ndes W G c data fuel) ts priors pos.
