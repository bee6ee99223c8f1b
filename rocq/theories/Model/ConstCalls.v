(** Whole calls in constant evaluation: the functions of Model/Out.v, Model/In.v, Model/Protocol.v and Model/Pb.v
    once more, with the branches taken if std::is_constant_evaluated() (zpp_bits.h:1763-1765, 2062-2070, 2112-2124,
    2390-2394, 2615-2627, 2661-2676; Model/Loops.v) in place of the others.

    The compiler refuses what is undefined: [RUB] stands for that.  [sx]: the byte type of the archive is a signed
    char, which decode_varint then converts with its sign (1711, 1725-1736); at run time the data are looked at as
    std::byte (1767-1770).  [junk w]: the [w] bytes of an array before anything is assigned to it. *)

From Coq Require Import List NArith ZArith Lia Bool Arith.
From Verif Require Import Base.Bytes Model.Types Model.Machine Model.Varint Model.Out Model.In Model.Loops
  Model.Protocol Model.Pb.
Import ListNotations.
Local Open Scope N_scope.

(** ** Writing *)

(** bytes of [l], objects of type [t]; of [l], bytes. *)
Definition kput_objects (c : cfg) (t : ty) (l : list val) : act :=
  const_put_bytes c (bsize t) (map (fun x => objrep c x t) l).
Definition kput_bytes (c : cfg) (l : list byte) : act := const_put_bytes c 1 (map (fun b => [b]) l).

Definition kser_size (c : cfg) (s : sizety) (n : N) : act :=
  match s with
  | SzNone => ret
  | SzFix w => const_put_scalar c w (trunc w n)
  | SzVar w => ser_varint c w false false (trunc w n)
  end.

Definition kser_id (c : cfg) (k : idkind) (i : N) : act :=
  match k with
  | IdInt w => const_put_scalar c w i
  | IdBytes n => kput_bytes c (le_bytes n i)
  end.

Definition kser_flag (c : cfg) (b : bool) : act := const_put_scalar c 1 (if b then 1 else 0).

Fixpoint kser (G : tenv) (c : cfg) (v : val) (t : ty) {struct v} : act :=
  match t, v with
  | TScalar w _, VN n => const_put_scalar c w n
  | TBool, VN n => const_put_scalar c 1 n
  | TVarint w sg zz, VN n => ser_varint c w sg zz n
  | TEmpty, VSeq [] => ret
  | TStruct si ms, VSeq l =>
      if negb (s_expl si) && is_empty t then ret
      else if as_bytes c t then kput_objects c t [v]
      else ser_many (kser G c) l ms
  | TRec k, VSeq l => ser_many (kser G c) l (t_mems G k)
  | TArray n t', VSeq l =>
      if as_bytes c t' then kput_objects c t' l
      else ser_all (kser G c) l t'
  | TTuple ts, VSeq l => ser_many (kser G c) l ts
  | TVec s contig t', VSeq l =>
      kser_size c (sz_of c s) (N.of_nat (length l)) ;;
      if as_bytes c t' && contig then kput_objects c t' l
      else ser_all (kser G c) l t'
  | TAssoc s k t', VSeq l =>
      kser_size c (sz_of c s) (N.of_nat (length l)) ;; ser_all (kser G c) l t'
  | TSpan s t', VSeq l =>
      kser_size c (sz_of c s) (N.of_nat (length l)) ;;
      if as_bytes c t' then kput_objects c t' l
      else ser_all (kser G c) l t'
  | TOpt _ _, VNone => kser_flag c false
  | TOpt _ t', VSome x => kser_flag c true ;; kser G c x t'
  | TOptPtr _, VNone => kser_flag c false
  | TOptPtr t', VSome x => kser_flag c true ;; kser G c x t'
  | TPtr _, VNone => fail (RErr invalid_argument)
  | TPtr t', VSome x => kser G c x t'
  | TVariant _ _ _, VValueless => fail (RErr invalid_argument)
  | TVariant ik meta alts, VAlt i x =>
      match nth_error meta i, nth_error alts i with
      | Some (id, _), Some t' => kser_id c ik id ;; kser G c x t'
      | _, _ => fail RUB
      end
  | TBitset n, VBits l => ser_bitset c n l
  | TView (VwSized s), VBytes l =>
      kser_size c (sz_of c s) (N.of_nat (length l)) ;; kput_bytes c l
  | TView (VwFixed _), VBytes l => kput_bytes c l
  | TView VwRest, VBytes l => kput_bytes c l
  | _, _ => fail RUB
  end.

Definition kout_call (G : tenv) (c : cfg) (vs : list val) (ts : list ty) : act := fun st =>
  if growable c && negb (nofit c) && negb (exact_enlarger c) then
    let e := length (obuf st) in
    match ser_many (kser G c) vs ts st with
    | (r, st') => fit_size c e r st'
    end
  else ser_many (kser G c) vs ts st.

(** The size of a protocol message, stored through a second archive at [at_] (2400-2403). *)
Definition kpatch_size (c : cfg) (s : sizety) (at_ : nat) (n : N) : act := fun st =>
  match s with
  | SzFix w =>
      match const_store_scalar
              (mkCfg (host_le c) false (SzFix 4) None 3 2 false false false (alloc_ok c) (abi c))
              (hostrep c w (trunc w n)) (mkO (obuf st) at_) with
      | (ROk, st') => (ROk, mkO (obuf st') (opos st))
      | (r, _) => (r, st)
      end
  | _ => patch_size c s at_ n st
  end.

Definition kshift_message (c : cfg) (start : nat) (n by_ : N) : act :=
  if by_ =? 0 then ret
  else
    reserve c by_ ;;
    fun st =>
      match const_memmove (obuf st) start (N.to_nat n) (N.to_nat by_) with
      | Some buf => (ROk, mkO buf (opos st + N.to_nat by_))
      | None => (RUB, st)
      end.

Definition kser_protocol (c : cfg) (s : sizety) (body : act) : act :=
  match s with
  | SzNone => body
  | SzFix w => fun st =>
      let at_ := opos st in
      (kser_size c s 0 ;; body ;;
       fun st' =>
         let n := wsub (wsub (N.of_nat (opos st')) (N.of_nat at_)) (N.of_nat w) in
         kpatch_size c s at_ n st') st
  | SzVar w => fun st =>
      let at_ := opos st in
      (kser_size c s 0 ;; body ;;
       fun st' =>
         let n := wsub (wsub (N.of_nat (opos st')) (N.of_nat at_)) 1 in
         (kshift_message c (at_ + 1) n (varint_size n - 1) ;; kpatch_size c s at_ n) st') st
  end.

Fixpoint kser_pb (P : penv) (c : cfg) (tg etg : N -> act) (v : val) (t : pty) {struct v} : act :=
  match t, v with
  | PEmpty, _ => ret
  | PFix w, VN n => tg (wire_type t) ;; const_put_scalar c w n
  | PBool, VN n => tg (wire_type t) ;; const_put_scalar c 1 n
  | PByte, VN n => tg (wire_type t) ;; const_put_scalar c 1 n
  | PVar w sg zz, VN n => tg (wire_type t) ;; ser_varint c w sg zz n
  | PMsg k, VSeq l =>
      tg (wire_type t) ;;
      kser_protocol c (dsize c)
        (ser_members
           (fun idx fd x =>
              kser_pb P c (ser_tag c (m_map (P k)) (fst fd) idx)
                (ser_tag c (m_map (P k)) None idx) x (snd fd))
           0 l (m_fields (P k)))
  | PFixes ck w, VSeq l =>
      match l with
      | [] => ret
      | _ =>
          tg (wire_type t) ;;
          ser_varint c 8 false false (wmul (N.of_nat (length l)) (N.of_nat w)) ;;
          kser no_types c (VSeq l) (unsized_ty ck w)
      end
  | PVars ck w sg zz, VSeq l =>
      if varints_size w sg zz l =? 0 then ret
      else
        tg (wire_type t) ;;
        ser_varint c 8 false false (varints_size w sg zz l) ;;
        ser_each (fun x => ser_varint c w sg zz (vnum x)) l
  | PStrs ck contig w, VSeq l =>
      ser_each (fun x => etg 2 ;; kser no_types c x (TVec None contig (scalar_ty w))) l
  | PMsgs ck k, VSeq l =>
      ser_each
        (fun x =>
           etg 2 ;;
           match x with
           | VSeq m =>
               kser_protocol c (dsize c)
                 (ser_members
                    (fun idx fd x =>
                       kser_pb P c (ser_tag c (m_map (P k)) (fst fd) idx)
                         (ser_tag c (m_map (P k)) None idx) x (snd fd))
                    0 m (m_fields (P k)))
           | _ => fail RUB
           end) l
  | PMap ak kt vt, VSeq l =>
      ser_each
        (fun x =>
           tg (wire_type t) ;;
           match x with
           | VSeq [a; b] =>
               kser_protocol c (dsize c)
                 (kser_pb P c (ser_tag c [] None 0) (ser_tag c [] None 0) a kt ;;
                  kser_pb P c (ser_tag c [] None 1) (ser_tag c [] None 1) b vt)
           | _ => fail RUB
           end) l
  | PArr n w, VSeq l => tg (wire_type t) ;; kser no_types c (VSeq l) (TArray n (scalar_ty w))
  | _, _ => fail RUB
  end.

Definition kser_message (P : penv) (c : cfg) (k : nat) (l : list val) : act :=
  ser_members
    (fun idx fd x =>
       kser_pb P c (ser_tag c (m_map (P k)) (fst fd) idx) (ser_tag c (m_map (P k)) None idx)
         x (snd fd))
    0 l (m_fields (P k)).

Definition kser_pb_item (P : penv) (c : cfg) (s : sizety) (k : nat) (l : list val) : act :=
  kser_protocol c s (pb_nested c (kser_message P (pb_ocfg c) k l)).

(** ** Reading *)

Section KIn.
  Variables (sx : bool) (junk : nat -> list byte).

  (** value_type(byte): with the sign of the byte if it has one. *)
  Definition kbyte (w : nat) (b : byte) : N :=
    if sx && (0x80 <=? b2n b) then pow256 w - 256 + b2n b else trunc w (b2n b).

  Fixpoint kdec_short (w : nat) (data : list byte) (shift value : N) (i : nat) : vres :=
    match data with
    | [] => VFail result_out_of_range
    | b :: rest =>
        let next := kbyte w b in
        let value := N.lor value (trunc w (N.shiftl (N.land next 0x7f) shift)) in
        if 0x80 <=? next then kdec_short w rest (shift + 7) value (S i)
        else VOk value (S i)
    end.

  Fixpoint kdec_long (w : nat) (steps : nat) (data : list byte) (i : nat) (value : N) : vres :=
    match steps with
    | O => VFail value_too_large
    | S steps' =>
        match data with
        | [] => VUB
        | b :: rest =>
            let next := kbyte w b in
            let mask := if (i =? 9)%nat then 0x01 else 0x7f in
            let value := N.lor value (trunc w (N.shiftl (N.land next mask) (7 * N.of_nat i))) in
            if next <? 0x80 then VOk value (S i)
            else kdec_long w steps' rest (S i) value
        end
    end.

  Definition kdecode_varint (w : nat) (data : list byte) : vres :=
    if (length data <? varint_max_size w)%nat then kdec_short w data 0 0 0
    else kdec_long w (unrolled_steps (varint_max_size w)) data 0 0.

  Definition kvarint_in (w : nat) (data : list byte) : vres :=
    match data with
    | b :: _ => if N.land (kbyte w b) 0x80 =? 0 then VOk (kbyte w b) 1 else kdecode_varint w data
    | [] => kdecode_varint w data
    end.

  Definition kdes_varint (w : nat) (zz : bool) (prior : N) (data : list byte) (pos : nat)
    : res * N * nat :=
    match rest_of data pos with
    | None => (RUB, prior, pos)
    | Some rest =>
        match kvarint_in w rest with
        | VOk v n => (ROk, unwire_value w zz v, (pos + n)%nat)
        | VFail e => (RErr e, prior, pos)
        | VUB => (RUB, prior, pos)
        end
    end.

  Definition kdes_scalar (c : cfg) (data : list byte) (w : nat) (prior : N) (pos : nat) : res * N * nat :=
    const_des_scalar c data w (junk w) prior pos.
  Definition kdes_bytes (c : cfg) (data : list byte) (t : ty) (prior : list val) (pos : nat)
    : res * list val * nat :=
    const_des_bytes c data t (junk (bsize t)) prior pos.

  Definition kdes_size (c : cfg) (data : list byte) (s : sizety) (pos : nat) : res * N * nat :=
    match s with
    | SzNone => (ROk, 0, pos)
    | SzFix w => kdes_scalar c data w 0 pos
    | SzVar w => kdes_varint w false 0 data pos
    end.

  Definition kdes_id (c : cfg) (data : list byte) (k : idkind) (pos : nat) : res * N * nat :=
    match k with
    | IdInt w => kdes_scalar c data w 0 pos
    | IdBytes n =>
        match kdes_bytes c data (TScalar 1 true) (repeat (VN 0) n) pos with
        | (ROk, l, pos') => (ROk, le_val (map (fun v => n2b (vnum v)) l), pos')
        | (r, _, pos') => (r, 0, pos')
        end
    end.

  Section KTy.
    Variables (G : tenv) (c : cfg) (data : list byte).
    Variable rec : nat -> val -> nat -> dres.

    Definition kdes_flag (pos : nat) : res * N * nat := kdes_scalar c data 1 0 pos.

    Definition kdes_elems (bytes : bool) (f : val -> nat -> dres) (t : ty) (l : list val) (pos : nat)
      : dres :=
      seq_res (if bytes then kdes_bytes c data t l pos else des_all f l pos).

    Fixpoint kdes_ty (t : ty) {struct t} : val -> nat -> dres := fun prior pos =>
      match t with
      | TScalar w _ =>
          nres VN (kdes_scalar c data w (match prior with VN n => n | _ => 0 end) pos)
      | TBool =>
          match kdes_scalar c data 1 0 pos with
          | (ROk, n, pos') => if n <? 2 then (ROk, VN n, pos') else (RUB, prior, pos')
          | (r, _, pos') => (r, prior, pos')
          end
      | TVarint w sg zz =>
          nres VN (kdes_varint w zz (match prior with VN n => n | _ => 0 end) data pos)
      | TEmpty => (ROk, prior, pos)
      | TStruct si ms =>
          if negb (s_expl si) && is_empty t then (ROk, prior, pos)
          else if as_bytes c t then
            match kdes_bytes c data t [prior] pos with
            | (r, [x], pos') => (r, x, pos')
            | (r, _, pos') => (r, prior, pos')
            end
          else seq_res (des_many kdes_ty ms (as_seq prior) pos)
      | TRec k => rec k prior pos
      | TArray n t' => kdes_elems (as_bytes c t') (kdes_ty t') t' (as_seq prior) pos
      | TTuple ts => seq_res (des_many kdes_ty ts (as_seq prior) pos)
      | TVec s contig t' =>
          match sz_of c s with
          | SzNone => kdes_elems (as_bytes c t' && contig) (kdes_ty t') t' (as_seq prior) pos
          | sz =>
              match kdes_size c data sz pos with
              | (ROk, n, pos') =>
                  match vec_resize G c t' n (as_seq prior) with
                  | (ROk, l) => kdes_elems (as_bytes c t' && contig) (kdes_ty t') t' l pos'
                  | (r, l) => (r, VSeq l, pos')
                  end
              | (r, _, pos') => (r, prior, pos')
              end
          end
      | TAssoc s k t' =>
          match (match sz_of c s with
                 | SzNone => (ROk, N.of_nat (length (as_seq prior)), pos)
                 | sz => kdes_size c data sz pos
                 end) with
          | (ROk, n, pos') =>
              seq_res (des_assoc (kdes_ty t') (assoc_insert k) (dflt G t') (N.to_nat n) [] pos')
          | (r, _, pos') => (r, prior, pos')
          end
      | TSpan s t' =>
          match sz_of c s with
          | SzNone => kdes_elems (as_bytes c t') (kdes_ty t') t' (as_seq prior) pos
          | sz =>
              match kdes_size c data sz pos with
              | (ROk, n, pos') =>
                  if N.of_nat (length (as_seq prior)) <? n
                  then (RErr result_out_of_range, prior, pos')
                  else kdes_elems (as_bytes c t') (kdes_ty t') t'
                         (firstn (N.to_nat n) (as_seq prior)) pos'
              | (r, _, pos') => (r, prior, pos')
              end
          end
      | TOpt dc t' =>
          match kdes_flag pos with
          | (ROk, 0, pos') => (ROk, VNone, pos')
          | (ROk, _, pos') =>
              des_inplace dc (kdes_ty t') VSome (opt_cur prior) (dflt G t') prior pos'
          | (r, _, pos') => (r, prior, pos')
          end
      | TOptPtr t' =>
          match kdes_flag pos with
          | (ROk, 0, pos') => (ROk, VNone, pos')
          | (ROk, _, pos') => des_ptr (kdes_ty t') (dflt G t') prior pos'
          | (r, _, pos') => (r, prior, pos')
          end
      | TPtr t' => des_ptr (kdes_ty t') (dflt G t') prior pos
      | TVariant ik meta alts =>
          match kdes_id c data ik pos with
          | (ROk, id, pos') =>
              match find_id meta id with
              | None => (RErr bad_message, prior, pos')
              | Some i =>
                  let dc := match nth_error meta i with Some (_, b) => b | None => true end in
                  (fix pick (l : list ty) (j : nat) {struct l} : dres :=
                     match l, j with
                     | t' :: _, O =>
                         des_inplace dc (kdes_ty t') (VAlt i) (active i prior) (dflt G t') prior pos'
                     | _ :: l', S j' => pick l' j'
                     | [], _ => (RUB, prior, pos')
                     end) alts i
              end
          | (r, _, pos') => (r, prior, pos')
          end
      | TBitset n => des_bitset data n prior pos
      | TView (VwSized s) =>
          match kdes_size c data (sz_of c s) pos with
          | (ROk, n, pos') =>
              match sz_of c s with
              | SzNone =>
                  match load data pos (length data - pos) with
                  | Some e => (ROk, VBytes e, length data)
                  | None => (RUB, prior, pos)
                  end
              | _ =>
                  if remaining data pos' <? n then (RErr result_out_of_range, prior, pos')
                  else match load data pos' (N.to_nat n) with
                       | Some e => (ROk, VBytes e, (pos' + N.to_nat n)%nat)
                       | None => (RUB, prior, pos')
                       end
              end
          | (r, _, pos') => (r, prior, pos')
          end
      | TView (VwFixed n) =>
          if remaining data pos <? N.of_nat n then (RErr result_out_of_range, prior, pos)
          else match load data pos n with
               | Some e => (ROk, VBytes e, (pos + n)%nat)
               | None => (RUB, prior, pos)
               end
      | TView VwRest =>
          match load data pos (length data - pos) with
          | Some e => (ROk, VBytes e, length data)
          | None => (RUB, prior, pos)
          end
      end.
  End KTy.

  Fixpoint kdes_rec (G : tenv) (c : cfg) (data : list byte) (fuel : nat) (k : nat) (prior : val) (pos : nat)
    : dres :=
    match fuel with
    | O => (RStack, prior, pos)
    | S f =>
        seq_res (des_many (kdes_ty G c data (kdes_rec G c data f)) (t_mems G k) (as_seq prior) pos)
    end.

  Definition kin_call (G : tenv) (c : cfg) (data : list byte) (fuel : nat)
    (ts : list ty) (priors : list val) (pos : nat) : res * list val * nat :=
    des_many (kdes_ty G c data (kdes_rec G c data fuel)) ts priors pos.

  (** Protocol buffers. *)
  Definition kdes_protocol (c : cfg) (data : list byte) (s : sizety)
    (body : option N -> val -> nat -> dres) (prior : val) (pos : nat) : dres :=
    match s with
    | SzNone => body None prior pos
    | _ =>
        match kdes_size c data s pos with
        | (ROk, n, pos') => body (Some n) prior pos'
        | (r, _, pos') => (r, prior, pos')
        end
    end.

  Section KFieldLoop.
    Variables (data : list byte) (nums : list N).
    Variable fld : nat -> N -> val -> nat -> dres.

    Fixpoint kfield_loop (n : nat) (vals : list val) (pos : nat) : res * list val * nat :=
      if (pos <? length data)%nat then
        match n with
        | O => (RStack, vals, pos)
        | S n' =>
            match kdes_varint 4 false 0 data pos with
            | (ROk, tag, pos1) =>
                let num := N.shiftr tag 3 in
                match index_of nums num with
                | None =>
                    if num =? 0 then (RErr protocol_error, vals, pos1)
                    else kfield_loop n' vals pos1
                | Some i =>
                    match nth_error vals i with
                    | None => (RUB, vals, pos1)
                    | Some prior =>
                        match fld i (N.land tag 7) prior pos1 with
                        | (ROk, v, pos2) => kfield_loop n' (set_nth i v vals) pos2
                        | (r, v, pos2) => (r, set_nth i v vals, pos2)
                        end
                    end
                end
            | (r, _, pos1) => (r, vals, pos1)
            end
        end
      else (ROk, vals, pos).
  End KFieldLoop.

  Definition kdes_scalars (c : cfg) (data : list byte) (ck : ckind) (w : nat)
    (resize : bool) (fetch : nat -> res * N * nat) (wt : N) (prior : val) (pos : nat) : dres :=
    let l := as_seq prior in
    if negb (wt =? 2) then
      match fetch pos with
      | (ROk, x, pos') => (ROk, VSeq (cinsert ck l (VN x)), pos')
      | (r, _, pos') => (r, VSeq l, pos')
      end
    else
      match kdes_varint 8 false 0 data pos with
      | (ROk, len, pos') =>
          if resize then
            if match alim c with Some lim => lim <? len | None => false end
            then (RErr message_size, VSeq l, pos')
            else
              let n := len / N.of_nat w in
              if (n <=? N.of_nat (length l)) || can_alloc c (n * N.of_nat w)
              then kdes_ty no_types c data (fun _ p pos => (RUB, p, pos)) (unsized_ty ck w)
                     (VSeq (vresize (VN 0) (N.to_nat n) l)) pos'
              else (RThrow, VSeq l, pos')
          else if reserve_ok c ck len l
          then packed_loop fetch (cinsert ck) (wadd len (N.of_nat pos')) (S (length data)) l pos'
          else (RThrow, VSeq l, pos')
      | (r, _, pos') => (r, VSeq l, pos')
      end.

  Section KPbIn.
    Variables (P : penv) (c : cfg).
    Variable rec : nat -> list byte -> list val -> res * list val * nat.

    Fixpoint kdes_field (t : pty) : list byte -> N -> val -> nat -> dres := fun data wt prior pos =>
      match t with
      | PEmpty => (ROk, prior, pos)
      | PFix w => nres VN (kdes_scalar c data w (vnum prior) pos)
      | PBool =>
          match kdes_scalar c data 1 0 pos with
          | (ROk, n, pos') => if n <? 2 then (ROk, VN n, pos') else (RUB, prior, pos')
          | (r, _, pos') => (r, prior, pos')
          end
      | PByte => nres VN (kdes_varint 1 false (vnum prior) data pos)
      | PVar w sg zz => nres VN (kdes_varint w zz (vnum prior) data pos)
      | PMsg k => kdes_protocol c data (dsize c) (des_nested data (rec k)) prior pos
      | PFixes ck w =>
          kdes_scalars c data ck w (match ck with CSeq _ _ => true | CSet _ _ => false end)
            (kdes_scalar c data w 0) wt prior pos
      | PVars ck w sg zz =>
          kdes_scalars c data ck w false (kdes_varint w zz 0 data) wt prior pos
      | PStrs ck contig w =>
          add_object (cinsert ck) prior
            (kdes_ty no_types c data (fun _ p pos => (RUB, p, pos)) (TVec None contig (scalar_ty w))
               (VSeq []) pos)
      | PMsgs ck k =>
          add_object (cinsert ck) prior
            (kdes_protocol c data (dsize c) (des_nested data (rec k)) (VSeq (m_dflt (P k))) pos)
      | PMap ak kt vt =>
          add_object (assoc_insert ak) prior
            (kdes_protocol c data (dsize c)
               (des_nested data
                  (fun sub vals =>
                     kfield_loop sub [1; 2]
                       (fun i => match i with O => kdes_field kt sub | S _ => kdes_field vt sub end)
                       (S (length sub))
                       (clear_members [kt; vt] vals) 0))
               (VSeq [pdflt P kt; pdflt P vt]) pos)
      | PArr n w =>
          kdes_ty no_types c data (fun _ p pos => (RUB, p, pos)) (TArray n (scalar_ty w)) prior pos
      end.
  End KPbIn.

  Fixpoint kdes_fields (P : penv) (c : cfg) (fuel : nat) (k : nat) (data : list byte) (vals : list val)
    : res * list val * nat :=
    match fuel with
    | O => (RStack, vals, O)
    | S f =>
        kfield_loop data (numbers (P k))
          (fun i wt prior pos =>
             match nth_error (m_fields (P k)) i with
             | Some fd => kdes_field P c (kdes_fields P c f) (snd fd) data wt prior pos
             | None => (RUB, prior, pos)
             end)
          (S (length data)) (clear_members (map snd (m_fields (P k))) vals) 0
    end.

  Definition kdes_pb_item (P : penv) (c : cfg) (data : list byte) (fuel : nat) (s : sizety)
    (k : nat) (prior : val) (pos : nat) : dres :=
    kdes_protocol c data s (des_nested data (kdes_fields P (pb_icfg c) fuel k)) prior pos.
End KIn.
