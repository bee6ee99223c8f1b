(** Protobuf messages read on platforms where std::size_t has [z] bytes: pb::operator() on an input
    archive and what it calls (zpp_bits.h:4929-5172), as in Model/Pb.v, which is the case of 8.

    What depends on the width is vsize_t = varint<std::size_t> (1850), in which the lengths of
    packed fields (5116) and, through size_varint (1853-1857), of strings and nested messages are
    read, and the sum length + archive.position() (5140).  Tags are 32-bit numbers everywhere
    (4970).  Data is shorter than 2^(8z) bytes, so that other sums do not wrap.  Writing is not
    repeated here: the lengths written are the same numbers, of the type std::size_t. *)

From Coq Require Import List NArith ZArith Lia Bool Arith.
From Verif Require Import Base.Bytes Model.Types Model.Machine Model.Varint Model.Out Model.In
  Model.Loops Model.Protocol Model.Pb.
Import ListNotations.
Local Open Scope N_scope.

(** in in{..., size_varint{}, endian::little{}, alloc_limit<...>{}} (4936-4941). *)
Definition qb_icfg (z : nat) (c : cfg) : cfg :=
  mkCfg (host_le c) (negb (host_le c)) (SzVar z) (alim c) (emul c) (ediv c)
    (noovf c) (nofit c) (growable c) (alloc_ok c) (abi c).

(** Containers of fundamentals and varints (5091-5149): the length is a vsize_t, and
    length + archive.position() a sum of that width. *)
Definition qdes_scalars (z : nat) (c : cfg) (data : list byte) (ck : ckind) (w : nat)
  (resize : bool) (fetch : nat -> res * N * nat) (wt : N) (prior : val) (pos : nat) : dres :=
  let l := as_seq prior in
  if negb (wt =? 2) then
    match fetch pos with
    | (ROk, x, pos') => (ROk, VSeq (cinsert ck l (VN x)), pos')
    | (r, _, pos') => (r, VSeq l, pos')
    end
  else
    match des_varint z false 0 data pos with
    | (ROk, len, pos') =>
        if resize then
          if match alim c with Some lim => lim <? len | None => false end
          then (RErr message_size, VSeq l, pos')
          else
            let n := len / N.of_nat w in
            if (n <=? N.of_nat (length l)) || can_alloc c (n * N.of_nat w)
            then des_ty no_types c data (fun _ p pos => (RUB, p, pos)) (unsized_ty ck w)
                   (VSeq (vresize (VN 0) (N.to_nat n) l)) pos'
            else (RThrow, VSeq l, pos')
        else if reserve_ok c ck len l
        then packed_loop fetch (cinsert ck) ((len + N.of_nat pos') mod pow256 z) (S (length data)) l pos'
        else (RThrow, VSeq l, pos')
    | (r, _, pos') => (r, VSeq l, pos')
    end.

Section PbNarrow.
  Variables (z : nat) (P : penv) (c : cfg).
  (** Reading the fields of message [k] from a nested archive. *)
  Variable rec : nat -> list byte -> list val -> res * list val * nat.

  (** deserialize_field(archive, field_type, item) (5026-5172). *)
  Fixpoint qdes_field (t : pty) : list byte -> N -> val -> nat -> dres := fun data wt prior pos =>
    match t with
    | PEmpty => (ROk, prior, pos)
    | PFix w => nres VN (des_scalar c data w (vnum prior) pos)
    | PBool =>
        match des_scalar c data 1 0 pos with
        | (ROk, n, pos') => if n <? 2 then (ROk, VN n, pos') else (RUB, prior, pos')
        | (r, _, pos') => (r, prior, pos')
        end
    | PByte => nres VN (des_varint 1 false (vnum prior) data pos) (* is an enum: 5033-5040 *)
    | PVar w sg zz => nres VN (des_varint w zz (vnum prior) data pos)
    | PMsg k => des_protocol c data (dsize c) (des_nested data (rec k)) prior pos
    | PFixes ck w =>
        qdes_scalars z c data ck w (match ck with CSeq _ _ => true | CSet _ _ => false end)
          (des_scalar c data w 0) wt prior pos
    | PVars ck w sg zz =>
        qdes_scalars z c data ck w false (des_varint w zz 0 data) wt prior pos
    | PStrs ck contig w =>
        add_object (cinsert ck) prior
          (des_ty no_types c data (fun _ p pos => (RUB, p, pos)) (TVec None contig (scalar_ty w))
             (VSeq []) pos)
    | PMsgs ck k =>
        add_object (cinsert ck) prior
          (des_protocol c data (dsize c) (des_nested data (rec k)) (VSeq (m_dflt (P k))) pos)
    | PMap ak kt vt =>
        add_object (assoc_insert ak) prior
          (des_protocol c data (dsize c)
             (des_nested data
                (fun sub vals =>
                   field_loop sub [1; 2]
                     (fun i => match i with O => qdes_field kt sub | S _ => qdes_field vt sub end)
                     (S (length sub))
                     (clear_members [kt; vt] vals) 0))
             (VSeq [pdflt P kt; pdflt P vt]) pos)
    | PArr n w =>
        des_ty no_types c data (fun _ p pos => (RUB, p, pos)) (TArray n (scalar_ty w)) prior pos
    end.
End PbNarrow.

(** deserialize_fields (4947-4983); one unit of [fuel] per level of message nesting. *)
Fixpoint qdes_fields (z : nat) (P : penv) (c : cfg) (fuel : nat) (k : nat) (data : list byte) (vals : list val)
  : res * list val * nat :=
  match fuel with
  | O => (RStack, vals, O)
  | S f =>
      field_loop data (numbers (P k))
        (fun i wt prior pos =>
           match nth_error (m_fields (P k)) i with
           | Some fd => qdes_field z P c (qdes_fields z P c f) (snd fd) data wt prior pos
           | None => (RUB, prior, pos)
           end)
        (S (length data)) (clear_members (map snd (m_fields (P k))) vals) 0
  end.

(** pb::operator() on an input archive (4929-4945), called through 3095-3122 with the size
    type [s] of the archive. *)
Definition qdes_pb_item (z : nat) (P : penv) (c : cfg) (data : list byte) (fuel : nat) (s : sizety)
  (k : nat) (prior : val) (pos : nat) : dres :=
  des_protocol c data s (des_nested data (qdes_fields z P (qb_icfg z c) fuel k)) prior pos.
