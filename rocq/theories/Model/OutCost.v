(** How much work writing takes: the overloads of basic_out::serialize_one (zpp_bits.h:2042-2339)
    once more, counting.

    A step is a call of serialize_one, a byte stored (a bitset counts its bytes), a byte that
    m_data.resize() adds to the buffer (value-initialised), or a byte it moves to a larger block.
    Which calls are made and what they do to the buffer is what Model/Out.v says.  Whether the
    container moves its bytes when it goes from one size to another depends on its capacity, which
    is its own business: [mv] is any function of the two sizes. *)

From Coq Require Import List NArith Bool Arith.
From Verif Require Import Base.Bytes Model.Types Model.Machine Model.Varint Model.Out.
Import ListNotations.
Local Open Scope N_scope.

Section Cost.
  Variable mv : N -> N -> bool.

  (** m_data.resize() (1998-2001) between two states. *)
  Definition resized (st st' : ost) : N :=
    let l := N.of_nat (length (obuf st)) in
    let l' := N.of_nat (length (obuf st')) in
    (l' - l) + (if (l <? l') && mv l l' then l else 0).

  (** An elementary write: the bytes the position advances over, and room for them. *)
  Definition spent (a : act) : ost -> N := fun st =>
    N.of_nat (opos (snd (a st)) - opos st) + resized st (snd (a st)).

  (** What comes after [a] is only done if [a] succeeds. *)
  Definition after (a : act) (w : ost -> N) : ost -> N := fun st =>
    match a st with (ROk, st') => w st' | _ => 0 end.

  Definition also (w : ost -> N) (a : act) (w' : ost -> N) : ost -> N := fun st => w st + after a w' st.

  Section Loops.
    Context (g : val -> ty -> ost -> N) (f : val -> ty -> act).
    (** serialize_many over members (2005-2019). *)
    Fixpoint cost_many (l : list val) (ms : list ty) : ost -> N :=
      match l, ms with
      | x :: l', m :: ms' => also (g x m) (f x m) (cost_many l' ms')
      | _, _ => fun _ => 0
      end.
    (** The elements one after the other (2171-2177, 2241-2247). *)
    Fixpoint cost_all (l : list val) (t : ty) : ost -> N :=
      match l with
      | [] => fun _ => 0
      | x :: l' => also (g x t) (f x t) (cost_all l' t)
      end.
  End Loops.

  (** basic_out::serialize_one (2042-2339), branch by branch as in Model/Out.v. *)
  Fixpoint cost (G : tenv) (c : cfg) (v : val) (t : ty) {struct v} : ost -> N := fun st =>
    1 +
    match t, v with
    | TScalar w _, VN n => spent (put c (scalar_bytes c w n)) st
    | TBool, VN n => spent (put c (scalar_bytes c 1 n)) st
    | TVarint w sg zz, VN n => spent (ser_varint c w sg zz n) st
    | TStruct si ms, VSeq l =>
        if negb (s_expl si) && is_empty t then 0
        else if as_bytes c t then spent (put_bytes c (objrep c v t)) st
        else cost_many (cost G c) (ser G c) l ms st
    | TRec k, VSeq l => cost_many (cost G c) (ser G c) l (t_mems G k) st
    | TArray n t', VSeq l =>
        if as_bytes c t' then spent (put_bytes c (objrep c v t)) st
        else cost_all (cost G c) (ser G c) l t' st
    | TTuple ts, VSeq l => cost_many (cost G c) (ser G c) l ts st
    | TVec s contig t', VSeq l =>
        let a := ser_size c (sz_of c s) (N.of_nat (length l)) in
        also (spent a) a
          (if as_bytes c t' && contig then spent (put_bytes c (flat_map (fun x => objrep c x t') l))
           else cost_all (cost G c) (ser G c) l t') st
    | TAssoc s k t', VSeq l =>
        let a := ser_size c (sz_of c s) (N.of_nat (length l)) in
        also (spent a) a (cost_all (cost G c) (ser G c) l t') st
    | TSpan s t', VSeq l =>
        let a := ser_size c (sz_of c s) (N.of_nat (length l)) in
        also (spent a) a
          (if as_bytes c t' then spent (put_bytes c (flat_map (fun x => objrep c x t') l))
           else cost_all (cost G c) (ser G c) l t') st
    | TOpt _ t', VSome x => also (spent (ser_flag c true)) (ser_flag c true) (cost G c x t') st
    | TOptPtr t', VSome x => also (spent (ser_flag c true)) (ser_flag c true) (cost G c x t') st
    | TOpt _ _, VNone => spent (ser_flag c false) st
    | TOptPtr _, VNone => spent (ser_flag c false) st
    | TPtr t', VSome x => cost G c x t' st
    | TVariant ik meta alts, VAlt i x =>
        match nth_error meta i, nth_error alts i with
        | Some (id, _), Some t' => also (spent (ser_id c ik id)) (ser_id c ik id) (cost G c x t') st
        | _, _ => 0
        end
    | TBitset n, VBits l => spent (ser_bitset c n l) st
    | TView (VwSized s), VBytes l =>
        let a := ser_size c (sz_of c s) (N.of_nat (length l)) in
        also (spent a) a (spent (put_bytes c l)) st
    | TView (VwFixed _), VBytes l => spent (put_bytes c l) st
    | TView VwRest, VBytes l => spent (put_bytes c l) st
    | _, _ => 0
    end.

  (** out::operator() (2443-2456): fitting the buffer to the position only makes it shorter, which
      costs nothing. *)
  Definition call_cost (G : tenv) (c : cfg) (vs : list val) (ts : list ty) : ost -> N :=
    cost_many (cost G c) (ser G c) vs ts.

  (** Calls of one archive, one after the other, as long as they succeed. *)
  Fixpoint calls_cost (G : tenv) (c : cfg) (xs : list (list val * list ty)) : ost -> N :=
    match xs with
    | [] => fun _ => 0
    | (vs, ts) :: xs' => also (call_cost G c vs ts) (out_call G c vs ts) (calls_cost G c xs')
    end.
End Cost.

Fixpoint out_calls (G : tenv) (c : cfg) (xs : list (list val * list ty)) : act :=
  match xs with
  | [] => ret
  | (vs, ts) :: xs' => out_call G c vs ts ;; out_calls G c xs'
  end.
