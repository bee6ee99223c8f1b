(** Specification of the messages the protobuf reader accepts, and of what it makes of them:
    every input, not only sequences of records as in Spec/PbMerge.v.  Nothing here mentions
    loops, buffers, outcomes or memory.

    It is more than protobuf: numbers may have superfluous zero digits and excess bits, the
    wire type is looked at by containers of numbers only, the payload of an unknown number is
    not skipped, a length may exceed what is left, and a packed block ends with the element
    that reaches its announced end, or before the first if end and position add up to 2^64. *)

From Coq Require Import List NArith ZArith Bool Arith.
From Verif Require Import Base.Bytes Model.Types Model.In Model.Pb Spec.Leb128 Spec.Wire Spec.PbWire
  Spec.PbMerge Spec.PbBreak Spec.Grammar.
Import ListNotations.
Local Open Scope N_scope.

(** A number of [w] bytes, least significant first. *)
Definition fixed (w : nat) (e : list byte) (n : N) : Prop := length e = w /\ n = le_val e.

(** A variable length number for an integer of [w] bytes, zigzag encoded or not. *)
Definition variable (w : nat) (zz : bool) (e : list byte) (n : N) : Prop :=
  exists m, base128 w e m /\ n = if zz then of_signed w (unzigzag m) else m.

(** [run el ins stop at acc b acc' rest]: numbers given by [el] are taken from [b], which
    begins at position [at], until the position is at least [stop]. *)
Inductive run (el : list byte -> N -> Prop) (ins : list val -> val -> list val) (stop : N)
  : nat -> list val -> list byte -> list val -> list byte -> Prop :=
| run_done at_ acc b : stop <= N.of_nat at_ -> run el ins stop at_ acc b acc b
| run_more at_ acc e n b acc' rest :
    N.of_nat at_ < stop -> el e n ->
    run el ins stop (at_ + length e) (ins acc (VN n)) b acc' rest ->
    run el ins stop at_ acc (e ++ b) acc' rest.

(** A packed block: announced length, then elements. *)
Definition block (el : list byte -> N -> Prop) (ins : list val -> val -> list val)
  (at_ : nat) (acc : list val) (b : list byte) (acc' : list val) (rest : list byte) : Prop :=
  exists e n b', b = e ++ b' /\ base128 8 e n /\
    run el ins ((n + N.of_nat (at_ + length e)) mod 2 ^ 64) (at_ + length e) acc b' acc' rest.

Section Language.
  Variable P : penv.

  (** [takes t wt at prior b v rest]: a member of type [t] holding [prior] takes, under wire
      type [wt], the bytes of [b] before [rest], and then holds [v]; [b] begins at position
      [at] of the message. *)
  Inductive takes : pty -> N -> nat -> val -> list byte -> val -> list byte -> Prop :=
  | tk_empty wt at_ p b : takes PEmpty wt at_ p b p b
  | tk_fix w wt at_ p e n rest :
      fixed w e n -> takes (PFix w) wt at_ p (e ++ rest) (VN n) rest
  | tk_bool wt at_ p e n rest :
      fixed 1 e n -> n < 2 -> takes PBool wt at_ p (e ++ rest) (VN n) rest
  | tk_byte wt at_ p e n rest :
      variable 1 false e n -> takes PByte wt at_ p (e ++ rest) (VN n) rest
  | tk_var w sg zz wt at_ p e n rest :
      variable w zz e n -> takes (PVar w sg zz) wt at_ p (e ++ rest) (VN n) rest
  | tk_msg k wt at_ prior e n sub rest vals :
      base128 8 e n -> content n sub rest ->
      takes_all (msg_numbers P k) (msg_types P k) 0 (start (msg_types P k) prior) sub vals ->
      takes (PMsg k) wt at_ (VSeq prior) (e ++ sub ++ rest) (VSeq vals) rest
  | tk_msgs ck k wt at_ prior e n sub rest vals :
      base128 8 e n -> content n sub rest ->
      takes_all (msg_numbers P k) (msg_types P k) 0 (start (msg_types P k) (m_dflt (P k))) sub vals ->
      takes (PMsgs ck k) wt at_ (VSeq prior) (e ++ sub ++ rest)
        (VSeq (cinsert ck prior (VSeq vals))) rest
  | tk_map ak kt vt wt at_ prior e n sub rest vals :
      base128 8 e n -> content n sub rest ->
      takes_all [1; 2] [kt; vt] 0 (start [kt; vt] [pdflt P kt; pdflt P vt]) sub vals ->
      takes (PMap ak kt vt) wt at_ (VSeq prior) (e ++ sub ++ rest)
        (VSeq (assoc_insert ak prior (VSeq vals))) rest
  | tk_fixes_one ck w wt at_ prior e n rest :
      wt <> 2 -> fixed w e n ->
      takes (PFixes ck w) wt at_ (VSeq prior) (e ++ rest) (VSeq (cinsert ck prior (VN n))) rest
  | tk_vars_one ck w sg zz wt at_ prior e n rest :
      wt <> 2 -> variable w zz e n ->
      takes (PVars ck w sg zz) wt at_ (VSeq prior) (e ++ rest) (VSeq (cinsert ck prior (VN n))) rest
  | tk_fixes ct rv w at_ prior e n ns rest :
      (* as many numbers as fit in the announced length replace what there was *)
      base128 8 e n -> N.of_nat (length ns) = n / N.of_nat w ->
      Forall (fun x => x < pow256 w) ns ->
      takes (PFixes (CSeq ct rv) w) 2 at_ (VSeq prior) (e ++ flat_map (le_bytes w) ns ++ rest)
        (VSeq (map VN ns)) rest
  | tk_fixes_set ak rv w at_ prior b l rest :
      block (fixed w) (cinsert (CSet ak rv)) at_ prior b l rest ->
      takes (PFixes (CSet ak rv) w) 2 at_ (VSeq prior) b (VSeq l) rest
  | tk_vars ck w sg zz at_ prior b l rest :
      block (variable w zz) (cinsert ck) at_ prior b l rest ->
      takes (PVars ck w sg zz) 2 at_ (VSeq prior) b (VSeq l) rest
  | tk_strs ck contig w wt at_ prior e ns rest :
      (* the number of elements, not of bytes *)
      base128 8 e (N.of_nat (length ns)) -> Forall (fun x => x < pow256 w) ns ->
      takes (PStrs ck contig w) wt at_ (VSeq prior) (e ++ flat_map (le_bytes w) ns ++ rest)
        (VSeq (cinsert ck prior (VSeq (map VN ns)))) rest
  | tk_arr n w wt at_ prior ns rest :
      (* no length at all *)
      length ns = n -> Forall (fun x => x < pow256 w) ns ->
      takes (PArr n w) wt at_ (VSeq prior) (flat_map (le_bytes w) ns ++ rest) (VSeq (map VN ns)) rest
  (** [takes_all nums ts at vals b vals']: the members of types [ts] and numbers [nums] holding
      [vals] take all of [b], which begins at position [at] of the message. *)
  with takes_all : list N -> list pty -> nat -> list val -> list byte -> list val -> Prop :=
  | rd_end nums ts at_ vals : takes_all nums ts at_ vals [] vals
  | rd_member nums ts at_ vals e tag i t prior used rest v vals' :
      base128 4 e tag ->
      nth_error nums i = Some (tag / 8) -> nth_error ts i = Some t -> nth_error vals i = Some prior ->
      takes t (tag mod 8) (at_ + length e) prior (used ++ rest) v rest ->
      takes_all nums ts (at_ + length e + length used) (set_nth i v vals) rest vals' ->
      takes_all nums ts at_ vals (e ++ used ++ rest) vals'
  | rd_unknown nums ts at_ vals e tag rest vals' :
      base128 4 e tag -> ~ In (tag / 8) nums -> tag / 8 <> 0 ->
      takes_all nums ts (at_ + length e) vals rest vals' ->
      takes_all nums ts at_ vals (e ++ rest) vals'.
End Language.

(** The bytes [b] are read as a message of class [k] into an object holding [prior]. *)
Definition message_takes (P : penv) (k : nat) (prior : list val) (b : list byte) (res : list val) : Prop :=
  takes_all P (msg_numbers P k) (msg_types P k) 0 (start (msg_types P k) prior) b res.
