(** How much work reading a protobuf message takes: the functions of Model/Pb.v (zpp_bits.h:4929-5172)
    once more, counting.

    A step is a record, a byte the position advances over, a member whose number is compared or
    that is cleared, a call of deserialize_field, an element read or inserted, a byte of an object
    that is created ([obj], which includes what a value-initialised object holds), and an element
    that resize or reserve creates or moves.  Which calls are made is what Model/Pb.v says.  Not
    counted: the comparisons or hashes of an insertion, the moves of push_back (a constant per
    element over the whole container), destroying what containers held before, and the up to ten
    bytes a varint that is refused has looked at. *)

From Coq Require Import List NArith Bool Arith.
From Verif Require Import Base.Bytes Model.Types Model.Machine Model.Varint Model.Out Model.In
  Model.Protocol Model.Pb Model.Cost.
Import ListNotations.
Local Open Scope N_scope.

Section LoopWork.
  Variables (data : list byte) (nums : list N).
  Variable fld : nat -> N -> val -> nat -> dres.
  Variable fldw : nat -> N -> val -> nat -> N.

  (** The loop of deserialize_fields (4969-4980) with the search for the member (4985-5024). *)
  Fixpoint loop_work (n : nat) (vals : list val) (pos : nat) : N :=
    if (pos <? length data)%nat then
      match n with
      | O => 0
      | S n' =>
          1 + past pos (des_varint 4 false 0 data pos) +
          match des_varint 4 false 0 data pos with
          | (ROk, tag, pos1) =>
              let num := N.shiftr tag 3 in
              match index_of nums num with
              | None => N.of_nat (length nums) + if num =? 0 then 0 else loop_work n' vals pos1
              | Some i =>
                  N.of_nat (S i) +
                  match nth_error vals i with
                  | None => 0
                  | Some prior =>
                      fldw i (N.land tag 7) prior pos1 +
                      match fld i (N.land tag 7) prior pos1 with
                      | (ROk, v, pos2) => loop_work n' (set_nth i v vals) pos2
                      | _ => 0
                      end
                  end
              end
          | _ => 0
          end
      end
    else 0.
End LoopWork.

Section PackedWork.
  Variable fetch : nat -> res * N * nat.
  Variable stop : N.

  (** The elements of a packed record (5140-5146): read and insert. *)
  Fixpoint packed_work (n : nat) (pos : nat) : N :=
    if N.of_nat pos <? stop then
      match n with
      | O => 0
      | S n' =>
          1 + past pos (fetch pos) +
          match fetch pos with
          | (ROk, _, pos') => 1 + packed_work n' pos'
          | _ => 0
          end
      end
    else 0.
End PackedWork.

(** The elements reserve moves (5136-5138). *)
Definition reserve_work (ck : ckind) (n : N) (l : list val) : N :=
  match ck with
  | CSeq _ (Some _) | CSet _ (Some _) => if n <=? N.of_nat (length l) then 0 else N.of_nat (length l)
  | _ => 0
  end.

(** Containers of fundamentals and varints (5091-5149). *)
Definition scalars_work (c : cfg) (data : list byte) (ck : ckind) (w : nat)
  (resize : bool) (fetch : nat -> res * N * nat) (wt : N) (prior : val) (pos : nat) : N :=
  let l := as_seq prior in
  if negb (wt =? 2) then
    past pos (fetch pos) + 1
  else
    past pos (des_varint 8 false 0 data pos) +
    match des_varint 8 false 0 data pos with
    | (ROk, len, pos') =>
        if resize then
          if match alim c with Some lim => lim <? len | None => false end
          then 0
          else
            let n := len / N.of_nat w in
            if (n <=? N.of_nat (length l)) || can_alloc c (n * N.of_nat w)
            then (if n <=? N.of_nat (length l) then 0 else n * N.of_nat w)
                 + work_ty no_types c data (fun _ p pos => (RUB, p, pos)) (fun _ _ _ => 0) (unsized_ty ck w)
                     (VSeq (vresize (VN 0) (N.to_nat n) l)) pos'
            else 0
        else if reserve_ok c ck len l
        then reserve_work ck len l + packed_work fetch (wadd len (N.of_nat pos')) (S (length data)) pos'
        else 0
    | _ => 0
    end.

(** A nested message (4929-4945) behind its size (3095-3122). *)
Definition nested_work (data : list byte) (fieldsw : list byte -> list val -> N)
  (size : option N) (prior : val) (pos : nat) : N :=
  match rest_of data pos with
  | None => 0
  | Some rest =>
      let n := match size with
               | Some s => N.to_nat (N.min s (N.of_nat (length rest)))
               | None => length rest
               end in
      fieldsw (firstn n rest) (as_seq prior)
  end.

Definition protocol_work (c : cfg) (data : list byte) (s : sizety)
  (body : option N -> val -> nat -> N) (prior : val) (pos : nat) : N :=
  match s with
  | SzNone => body None prior pos
  | _ =>
      past pos (des_size c data s pos) +
      match des_size c data s pos with
      | (ROk, n, pos') => body (Some n) prior pos'
      | _ => 0
      end
  end.

Section PbWork.
  Variables (P : penv) (c : cfg).
  (** The bytes of an object of a member type, and of a message. *)
  Variable obj : pty -> N.
  Variable rec : nat -> list byte -> list val -> res * list val * nat.
  Variable recw : nat -> list byte -> list val -> N.

  (** deserialize_field(archive, field_type, item) (5026-5172). *)
  Fixpoint field_work (t : pty) : list byte -> N -> val -> nat -> N := fun data wt prior pos =>
    1 +
    match t with
    | PEmpty | PFix _ | PBool | PByte | PVar _ _ _ => past pos (des_field P c rec t data wt prior pos)
    | PMsg k => protocol_work c data (dsize c) (nested_work data (recw k)) prior pos
    | PFixes ck w =>
        scalars_work c data ck w (match ck with CSeq _ _ => true | CSet _ _ => false end)
          (des_scalar c data w 0) wt prior pos
    | PVars ck w sg zz =>
        scalars_work c data ck w false (des_varint w zz 0 data) wt prior pos
    | PStrs ck contig w =>
        obj (PStrs ck contig w) +
        work_ty no_types c data (fun _ p pos => (RUB, p, pos)) (fun _ _ _ => 0)
          (TVec None contig (scalar_ty w)) (VSeq []) pos + 1
    | PMsgs ck k =>
        obj (PMsg k) +
        protocol_work c data (dsize c) (nested_work data (recw k)) (VSeq (m_dflt (P k))) pos + 1
    | PMap ak kt vt =>
        obj kt + obj vt +
        protocol_work c data (dsize c)
          (nested_work data
             (fun sub vals =>
                2 + loop_work sub [1; 2]
                      (fun i => match i with O => des_field P c rec kt sub | S _ => des_field P c rec vt sub end)
                      (fun i => match i with O => field_work kt sub | S _ => field_work vt sub end)
                      (S (length sub)) (clear_members [kt; vt] vals) 0))
          (VSeq [pdflt P kt; pdflt P vt]) pos + 1
    | PArr n w =>
        work_ty no_types c data (fun _ p pos => (RUB, p, pos)) (fun _ _ _ => 0)
          (TArray n (scalar_ty w)) prior pos
    end.
End PbWork.

(** deserialize_fields (4947-4983): the members are cleared, then the records are read. *)
Fixpoint fields_work (P : penv) (c : cfg) (obj : pty -> N) (fuel : nat) (k : nat) (data : list byte) (vals : list val) : N :=
  match fuel with
  | O => 0
  | S f =>
      N.of_nat (length (m_fields (P k))) +
      loop_work data (numbers (P k))
        (fun i wt prior pos =>
           match nth_error (m_fields (P k)) i with
           | Some fd => des_field P c (des_fields P c f) (snd fd) data wt prior pos
           | None => (RUB, prior, pos)
           end)
        (fun i wt prior pos =>
           match nth_error (m_fields (P k)) i with
           | Some fd =>
               field_work P c obj (des_fields P c f) (fields_work P c obj f) (snd fd) data wt prior pos
           | None => 0
           end)
        (S (length data)) (clear_members (map snd (m_fields (P k))) vals) 0
  end.

Definition pb_item_work (P : penv) (c : cfg) (obj : pty -> N) (data : list byte) (fuel : nat) (s : sizety)
  (k : nat) (prior : val) (pos : nat) : N :=
  protocol_work c data s (nested_work data (fields_work P (pb_icfg c) obj fuel k)) prior pos.
