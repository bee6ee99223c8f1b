(** The protobuf rules for reading a message
    (protobuf.dev/programming-guides/encoding: "Last One Wins", "Repeated Elements", "Packed
    Repeated Fields", "Maps", "Updating A Message Type"), written from that text and not from
    the code: what a conforming parser makes of a sequence of records.

    - a scalar takes the last value given;
    - integers of 32 bits take the low 32 bits of the varint (negative numbers are
      sign-extended to 64 bits by protobuf writers), bools are the varints other than 0;
    - a second record of an embedded message is merged into the first: scalars replaced,
      repeated members concatenated;
    - repeated members collect their elements, numbers packed or not, in any mixture;
    - of two map entries with the same key the later one counts;
    - records of unknown numbers, or of another wire type, are skipped.

    Strings and bytes are the containers of one-byte elements.

    With [strict] the same rules are restricted to what the library reads in the same way;
    the restrictions are the premises beginning with [strict = true]. *)

From Coq Require Import List NArith ZArith Lia Bool Arith.
From Verif Require Import Base.Bytes Model.Types Model.In Model.Pb
  Spec.Leb128 Spec.Wire Spec.PbWire Spec.PbMerge.
Import ListNotations.
Local Open Scope N_scope.

(** The object (in two's complement) for the varint [n]. *)
Definition std_int (w : nat) (zz : bool) (n : N) : N :=
  let m := n mod pow256 w in
  if zz then of_signed w (unzigzag m) else m.

Definition byte_vals (b : list byte) : list val := map (fun x => VN (b2n x)) b.

(** map[key] = value. *)
Definition map_put (k : akind) (l : list val) (e : val) : list val :=
  if existsb (fun y => equivalent k y e) l
  then map (fun y => if equivalent k y e then e else y) l
  else assoc_insert k l e.

Definition conforming (p : payload) : Prop :=
  match p with
  | WVar n | W64 n => n < 2 ^ 64
  | W32 n => n < 2 ^ 32
  | WLen _ => True
  | WCount _ _ | WByte _ | WRaw _ => False
  end.

(** The wire types a parser expects for a member: varint 0, I64 1, LEN 2, I32 5. *)
Definition std_wires (t : pty) : list N :=
  match t with
  | PFix w => [if (w =? 4)%nat then 5 else 1]
  | PBool | PVar _ _ _ => [0]
  | PMsg _ | PStrs _ _ _ | PMsgs _ _ | PMap _ _ _ => [2]
  | PFixes _ w => if (w =? 1)%nat then [2] else [2; if (w =? 4)%nat then 5 else 1]
  | PVars _ _ _ _ => [2; 0]
  | PByte | PEmpty | PArr _ _ => []
  end.

(** Not for the member with that number, if there is one. *)
Definition foreign (nums : list N) (ts : list pty) (num : N) (p : payload) : Prop :=
  forall i t, nth_error nums i = Some num -> nth_error ts i = Some t -> ~ In (wire_of p) (std_wires t).

Section Standard.
  Variables (P : penv) (room : N -> bool) (strict : bool).

  Inductive std : pty -> val -> payload -> val -> Prop :=
  | st_fix4 p n : n < 2 ^ 32 -> std (PFix 4) p (W32 n) (VN n)
  | st_fix8 p n : n < 2 ^ 64 -> std (PFix 8) p (W64 n) (VN n)
  | st_bool p n :
      n < 2 ^ 64 -> (strict = true -> n < 2) ->
      std PBool p (WVar n) (VN (if n =? 0 then 0 else 1))
  | st_var w sg zz p n :
      wfw w = true -> (zz = true -> sg = true) -> n < 2 ^ 64 ->
      (strict = true -> n < pow256 w) ->
      std (PVar w sg zz) p (WVar n) (VN (std_int w zz n))
  | st_msg k prior rs res :
      (strict = true -> start (msg_types P k) prior = prior) ->
      stds (msg_numbers P k) (msg_types P k) prior rs res ->
      std (PMsg k) (VSeq prior) (WLen (records_bytes rs)) (VSeq res)
  | st_str ct rv prior b :
      (strict = true -> room (N.of_nat (length b)) = true /\ forallb (numok 1) prior = true) ->
      std (PFixes (CSeq ct rv) 1) (VSeq prior) (WLen b) (VSeq (byte_vals b))
  | st_fixes ck w prior ns :
      let b := flat_map (le_bytes w) ns in
      w = 4%nat \/ w = 8%nat -> Forall (fun n => n < pow256 w) ns ->
      (strict = true ->
       match ck with
       | CSeq _ _ => prior = [] /\ room (N.of_nat (length b)) = true
       | CSet _ _ => element_room room ck (N.of_nat (length b)) = true
       end) ->
      std (PFixes ck w) (VSeq prior) (WLen b) (VSeq (fold_left (cinsert ck) (map VN ns) prior))
  | st_fixes_one4 ck prior n :
      n < 2 ^ 32 -> std (PFixes ck 4) (VSeq prior) (W32 n) (VSeq (cinsert ck prior (VN n)))
  | st_fixes_one8 ck prior n :
      n < 2 ^ 64 -> std (PFixes ck 8) (VSeq prior) (W64 n) (VSeq (cinsert ck prior (VN n)))
  | st_vars ck w sg zz prior ns :
      let b := flat_map leb128 ns in
      wfw w = true -> (zz = true -> sg = true) -> Forall (fun n => n < 2 ^ 64) ns ->
      (strict = true -> Forall (fun n => n < pow256 w) ns /\
                        element_room room ck (N.of_nat (length b)) = true) ->
      std (PVars ck w sg zz) (VSeq prior) (WLen b)
        (VSeq (fold_left (cinsert ck) (map (fun n => VN (std_int w zz n)) ns) prior))
  | st_vars_one ck w sg zz prior n :
      wfw w = true -> (zz = true -> sg = true) -> n < 2 ^ 64 ->
      (strict = true -> n < pow256 w) ->
      std (PVars ck w sg zz) (VSeq prior) (WVar n) (VSeq (cinsert ck prior (VN (std_int w zz n))))
  | st_strs ck contig prior b :
      (strict = true -> room (N.of_nat (length b)) = true) ->
      std (PStrs ck contig 1) (VSeq prior) (WLen b) (VSeq (cinsert ck prior (VSeq (byte_vals b))))
  | st_msgs ck k prior rs res :
      stds (msg_numbers P k) (msg_types P k) (start (msg_types P k) (m_dflt (P k))) rs res ->
      std (PMsgs ck k) (VSeq prior) (WLen (records_bytes rs)) (VSeq (cinsert ck prior (VSeq res)))
  | st_map ak kt vt prior rs res :
      a_multi ak = false ->
      (strict = true -> existsb (fun y => equivalent ak y (VSeq res)) prior = false) ->
      stds [1; 2] [kt; vt] (start [kt; vt] [pdflt P kt; pdflt P vt]) rs res ->
      std (PMap ak kt vt) (VSeq prior) (WLen (records_bytes rs)) (VSeq (map_put ak prior (VSeq res)))
  with stds : list N -> list pty -> list val -> list record -> list val -> Prop :=
  | sts_nil nums ts vals : stds nums ts vals [] vals
  | sts_cons nums ts vals i num t prior p v rs vals' :
      nth_error nums i = Some num -> nth_error ts i = Some t -> nth_error vals i = Some prior ->
      std t prior p v -> stds nums ts (set_nth i v vals) rs vals' ->
      stds nums ts vals ((num, p) :: rs) vals'
  | sts_skip nums ts vals num p rs vals' :
      strict = false -> 0 < num -> conforming p -> foreign nums ts num p ->
      stds nums ts vals rs vals' ->
      stds nums ts vals ((num, p) :: rs) vals'.
End Standard.

Scheme std_mut := Minimality for std Sort Prop
  with stds_mut := Minimality for stds Sort Prop.
Combined Scheme std_stds_ind from std_mut, stds_mut.

(** What a conforming parser makes of the records, beginning with an object whose repeated
    members are empty. *)
Definition std_message (P : penv) (k : nat) (prior : list val) (rs : list record) (res : list val)
  : Prop :=
  stds P (fun _ => true) false (msg_numbers P k) (msg_types P k) prior rs res.
(** The part of it the library shares. *)
Definition shared_message (P : penv) (room : N -> bool) (k : nat) (prior : list val)
  (rs : list record) (res : list val) : Prop :=
  stds P room true (msg_numbers P k) (msg_types P k) prior rs res.

(** Objects without repeated elements anywhere. *)
Inductive blank (P : penv) : pty -> val -> Prop :=
| bl_num t n :
    repeated t = false -> (forall k, t <> PMsg k) -> t <> PEmpty -> (forall m w, t <> PArr m w) ->
    blank P t (VN n)
| bl_empty : blank P PEmpty (VSeq [])
| bl_rep t : repeated t = true -> blank P t (VSeq [])
| bl_msg k l : Forall2 (blank P) (msg_types P k) l -> blank P (PMsg k) (VSeq l).

(** Member types with a counterpart in protobuf. *)
Fixpoint protobuf_ty (t : pty) : bool :=
  match t with
  | PFix _ | PBool | PEmpty | PMsg _ | PMsgs _ _ => true
  | PByte | PArr _ _ => false
  | PVar _ sg zz | PVars _ _ sg zz => negb zz || sg
  | PFixes (CSeq _ _) w => ((w =? 1) || (w =? 4) || (w =? 8))%nat
  | PFixes (CSet _ _) w => ((w =? 4) || (w =? 8))%nat
  | PStrs _ _ w => (w =? 1)%nat
  | PMap ak kt vt => negb (a_multi ak) && protobuf_ty kt && protobuf_ty vt
  end.
Definition protobuf_env (P : penv) : Prop :=
  (forall k, forallb (fun fd => protobuf_ty (snd fd)) (m_fields (P k)) = true) /\
  (forall k, Forall2 (blank P) (msg_types P k) (m_dflt (P k))).
