(** Specification of a failed protobuf read: where a damaged message is refused, with which
    error, and what the members hold then.  The records before the damaged one count as read;
    of the member being read: numbers stay as they were, an element that could not be read is
    not added, an embedded message keeps what its own records before the damage gave it.

    [room n]: that many bytes may be requested at once, as in Spec/PbMerge.v. *)

From Coq Require Import List NArith Bool Arith.
From Verif Require Import Base.Bytes Model.Types Model.Machine Model.In Model.Pb Spec.Leb128 Spec.Wire Spec.PbWire
  Spec.PbMerge.
Import ListNotations.
Local Open Scope N_scope.

(** [b] does not begin with a variable length number of [w] bytes: either all that is left
    are bytes announcing more, or the longest possible encoding does not end. *)
Inductive no_varint (w : nat) (b : list byte) : errc -> Prop :=
| nv_short :
    leb_value b = None -> (length b < (8 * w + 6) / 7)%nat -> no_varint w b result_out_of_range
| nv_long :
    leb_value (firstn ((8 * w + 6) / 7) b) = None -> ((8 * w + 6) / 7 <= length b)%nat ->
    no_varint w b value_too_large.

(** The bytes [sub] of a length-delimited record announcing [n] bytes, [tail] after it: when
    fewer are left, all of them. *)
Definition content (n : N) (sub tail : list byte) : Prop :=
  N.of_nat (length sub) = n \/ N.of_nat (length sub) < n /\ tail = [].

Definition delimited (t : pty) : bool :=
  match t with PMsg _ | PMsgs _ _ | PMap _ _ _ | PStrs _ _ _ => true | _ => false end.

Section Break.
  (** [native]: numbers are stored as they are sent (least significant byte first). *)
  Variables (P : penv) (room : N -> bool) (native : bool).

  (** [breaks_field t prior wt b e v q]: reading a member of type [t] holding [prior] from a
      record of wire type [wt] whose payload and all that follows is [b] fails with [e], leaves
      [v] in the member and [q] bytes of [b] consumed. *)
  Inductive breaks_field : pty -> val -> N -> list byte -> errc -> val -> nat -> Prop :=
  | bf_fix w n wt b :
      (length b < w)%nat -> breaks_field (PFix w) (VN n) wt b result_out_of_range (VN n) 0
  | bf_bool v wt : breaks_field PBool v wt [] result_out_of_range v 0
  | bf_byte n wt b e : no_varint 1 b e -> breaks_field PByte (VN n) wt b e (VN n) 0
  | bf_var w sg zz n wt b e :
      no_varint w b e -> breaks_field (PVar w sg zz) (VN n) wt b e (VN n) 0
  | bf_length t l wt b e :
      delimited t = true -> no_varint 8 b e -> breaks_field t (VSeq l) wt b e (VSeq l) 0
  | bf_msg k prior wt n sub tail e vals p :
      n < 2 ^ 64 -> content n sub tail ->
      breaks (msg_numbers P k) (msg_types P k) (start (msg_types P k) prior) sub e vals p ->
      breaks_field (PMsg k) (VSeq prior) wt (leb128 n ++ sub ++ tail) e (VSeq vals)
        (length (leb128 n) + p)
  | bf_msgs ck k prior wt n sub tail e vals p :
      n < 2 ^ 64 -> content n sub tail ->
      breaks (msg_numbers P k) (msg_types P k) (start (msg_types P k) (m_dflt (P k))) sub e vals p ->
      breaks_field (PMsgs ck k) (VSeq prior) wt (leb128 n ++ sub ++ tail) e (VSeq prior)
        (length (leb128 n) + p)
  | bf_map ak kt vt prior wt n sub tail e vals p :
      n < 2 ^ 64 -> content n sub tail ->
      breaks [1; 2] [kt; vt] (start [kt; vt] [pdflt P kt; pdflt P vt]) sub e vals p ->
      breaks_field (PMap ak kt vt) (VSeq prior) wt (leb128 n ++ sub ++ tail) e (VSeq prior)
        (length (leb128 n) + p)
  | bf_str ck prior wt n b :
      n < 2 ^ 64 -> room n = true -> N.of_nat (length b) < n ->
      breaks_field (PStrs ck true 1) (VSeq prior) wt (leb128 n ++ b) result_out_of_range
        (VSeq prior) (length (leb128 n))
  | bf_fixes_one ck w prior wt b :
      wt <> 2 -> (length b < w)%nat ->
      breaks_field (PFixes ck w) (VSeq prior) wt b result_out_of_range (VSeq prior) 0
  | bf_vars_one ck w sg zz prior wt b e :
      wt <> 2 -> no_varint w b e ->
      breaks_field (PVars ck w sg zz) (VSeq prior) wt b e (VSeq prior) 0
  | bf_packed_length t ck w sg zz prior b e :
      t = PFixes ck w \/ t = PVars ck w sg zz -> no_varint 8 b e ->
      breaks_field t (VSeq prior) 2 b e (VSeq prior) 0
  | bf_fixes rv w prior m b :
      native = true -> N.of_nat (m * w) < 2 ^ 63 -> room (N.of_nat (m * w)) = true ->
      (length b < m * w)%nat ->
      (* the container is resized first: what it held, then zeros *)
      breaks_field (PFixes (CSeq true rv) w) (VSeq prior) 2 (leb128 (N.of_nat (m * w)) ++ b)
        result_out_of_range (VSeq (firstn m prior ++ repeat (VN 0) (m - length prior)))
        (length (leb128 (N.of_nat (m * w))))
  | bf_vars ck w sg zz prior n l b e :
      let packed := flat_map (fun x => leb128 (varint_number w sg zz (vnum x))) l in
      forallb (numok w) l = true -> (zz = true -> sg = true) ->
      n < 2 ^ 63 -> element_room room ck n = true ->
      N.of_nat (length packed) < n -> no_varint w b e ->
      breaks_field (PVars ck w sg zz) (VSeq prior) 2 (leb128 n ++ packed ++ b) e
        (VSeq (fold_left (cinsert ck) l prior)) (length (leb128 n) + length packed)
  | bf_arr n w prior wt b :
      native = true -> length prior = n -> (length b < n * w)%nat ->
      breaks_field (PArr n w) (VSeq prior) wt b result_out_of_range (VSeq prior) 0
  (** [breaks nums ts vals b e vals' p]: reading records from [b] into the members [vals]. *)
  with breaks : list N -> list pty -> list val -> list byte -> errc -> list val -> nat -> Prop :=
  | br_tag nums ts vals b e : b <> [] -> no_varint 4 b e -> breaks nums ts vals b e vals 0
  | br_zero nums ts vals wt b :
      wt < 8 -> breaks nums ts vals (leb128 wt ++ b) protocol_error vals (length (leb128 wt))
  | br_field nums ts vals i num t prior wt b e v q :
      nth_error nums i = Some num -> nth_error ts i = Some t -> nth_error vals i = Some prior ->
      wt < 8 -> breaks_field t prior wt b e v q ->
      breaks nums ts vals (leb128 (8 * num + wt) ++ b) e (set_nth i v vals)
        (length (leb128 (8 * num + wt)) + q)
  | br_next nums ts vals rs mid b e vals' p :
      merges P room nums ts vals rs mid -> breaks nums ts mid b e vals' p ->
      breaks nums ts vals (records_bytes rs ++ b) e vals' (length (records_bytes rs) + p).
End Break.

Scheme breaks_field_mut := Minimality for breaks_field Sort Prop
  with breaks_mut := Minimality for breaks Sort Prop.
Combined Scheme breaks_field_breaks_ind from breaks_field_mut, breaks_mut.

(** Reading a message of class [k]. *)
Definition breaks_message (P : penv) (room : N -> bool) (native : bool) (k : nat) (prior : list val)
  (b : list byte) (e : errc) (vals : list val) (p : nat) : Prop :=
  breaks P room native (msg_numbers P k) (msg_types P k) (start (msg_types P k) prior) b e vals p.
