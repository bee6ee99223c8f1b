(** Specification of reading protobuf records into an object, record by record.

    Scalars take the value of the last record; repeated members collect their elements, with
    scalars packed or not; an embedded message is read into the member, after emptying its
    repeated members; unpacked elements are added at the end ([cinsert]: push_back, or insert
    into the set).  Against the protobuf rules ("merging") two things differ: the repeated
    members of an embedded message that occurs twice are not concatenated, and a second packed
    record of a resizable container of fixed-width numbers replaces the first ([mg_fixes]).

    [room n]: that many bytes may be requested at once. *)

From Coq Require Import List NArith ZArith Lia Bool Arith.
From Verif Require Import Base.Bytes Model.Types Model.In Model.Pb Spec.Leb128 Spec.Wire Spec.PbWire.
Import ListNotations.
Local Open Scope N_scope.

Definition repeated (t : pty) : bool :=
  match t with
  | PFixes _ _ | PVars _ _ _ _ | PStrs _ _ _ | PMsgs _ _ | PMap _ _ _ => true
  | _ => false
  end.

(** The members before the first record. *)
Fixpoint start (ts : list pty) (vals : list val) : list val :=
  match ts, vals with
  | t :: ts', v :: vals' => (if repeated t then VSeq [] else v) :: start ts' vals'
  | _, _ => vals
  end.

Fixpoint spec_numbers (mp : list (N * N)) (idx : nat) (fs : list pfield) : list N :=
  match fs with
  | [] => []
  | fd :: fs' => spec_number mp (fst fd) idx :: spec_numbers mp (S idx) fs'
  end.

Definition msg_numbers (P : penv) (k : nat) : list N := spec_numbers (m_map (P k)) 0 (m_fields (P k)).
Definition msg_types (P : penv) (k : nat) : list pty := map snd (m_fields (P k)).

Definition element_room (room : N -> bool) (ck : ckind) (n : N) : bool :=
  match ck with CSeq _ (Some b) | CSet _ (Some b) => room (n * b) | _ => true end.

Section Merge.
  Variables (P : penv) (room : N -> bool).

  Inductive merge : pty -> val -> payload -> val -> Prop :=
  | mg_fix4 p n : n < pow256 4 -> merge (PFix 4) p (W32 n) (VN n)
  | mg_fix8 p n : n < pow256 8 -> merge (PFix 8) p (W64 n) (VN n)
  | mg_bool p n : n < 2 -> merge PBool p (WVar n) (VN n)
  | mg_byte p n : n < 128 -> merge PByte p (WByte n) (VN n)
  | mg_var w sg zz p n :
      n < pow256 w -> (zz = true -> sg = true) ->
      merge (PVar w sg zz) p (WVar (varint_number w sg zz n)) (VN n)
  | mg_msg k prior rs res :
      merges (msg_numbers P k) (msg_types P k) (start (msg_types P k) prior) rs res ->
      merge (PMsg k) (VSeq prior) (WLen (records_bytes rs)) (VSeq res)
  | mg_fixes ct rv w prior l :
      let b := flat_map (fun x => le_bytes w (vnum x)) l in
      forallb (numok w) l = true -> forallb (numok w) prior = true ->
      room (N.of_nat (length b)) = true ->
      merge (PFixes (CSeq ct rv) w) (VSeq prior) (WLen b) (VSeq l)
  | mg_fixes_set ak rv w prior l :
      let b := flat_map (fun x => le_bytes w (vnum x)) l in
      forallb (numok w) l = true -> element_room room (CSet ak rv) (N.of_nat (length b)) = true ->
      merge (PFixes (CSet ak rv) w) (VSeq prior) (WLen b)
        (VSeq (fold_left (cinsert (CSet ak rv)) l prior))
  | mg_fixes_one4 ck prior n :
      n < pow256 4 -> merge (PFixes ck 4) (VSeq prior) (W32 n) (VSeq (cinsert ck prior (VN n)))
  | mg_fixes_one8 ck prior n :
      n < pow256 8 -> merge (PFixes ck 8) (VSeq prior) (W64 n) (VSeq (cinsert ck prior (VN n)))
  | mg_vars ck w sg zz prior l :
      let b := flat_map (fun x => leb128 (varint_number w sg zz (vnum x))) l in
      forallb (numok w) l = true -> (zz = true -> sg = true) ->
      element_room room ck (N.of_nat (length b)) = true ->
      merge (PVars ck w sg zz) (VSeq prior) (WLen b) (VSeq (fold_left (cinsert ck) l prior))
  | mg_vars_one ck w sg zz prior n :
      n < pow256 w -> (zz = true -> sg = true) ->
      merge (PVars ck w sg zz) (VSeq prior) (WVar (varint_number w sg zz n))
        (VSeq (cinsert ck prior (VN n)))
  | mg_strs ck contig w prior m :
      let b := flat_map (fun x => le_bytes w (vnum x)) m in
      forallb (numok w) m = true -> room (N.of_nat (length b)) = true ->
      merge (PStrs ck contig w) (VSeq prior)
        (if (w =? 1)%nat then WLen b else WCount (N.of_nat (length m)) b)
        (VSeq (cinsert ck prior (VSeq m)))
  | mg_msgs ck k prior rs res :
      merges (msg_numbers P k) (msg_types P k) (start (msg_types P k) (m_dflt (P k))) rs res ->
      merge (PMsgs ck k) (VSeq prior) (WLen (records_bytes rs)) (VSeq (cinsert ck prior (VSeq res)))
  | mg_map ak kt vt prior rs res :
      merges [1; 2] [kt; vt] (start [kt; vt] [pdflt P kt; pdflt P vt]) rs res ->
      merge (PMap ak kt vt) (VSeq prior) (WLen (records_bytes rs))
        (VSeq (assoc_insert ak prior (VSeq res)))
  | mg_arr n w prior l :
      let b := flat_map (fun x => le_bytes w (vnum x)) l in
      length l = n -> forallb (numok w) l = true ->
      length prior = n -> forallb (numok w) prior = true ->
      merge (PArr n w) (VSeq prior) (WRaw b) (VSeq l)
  with merges : list N -> list pty -> list val -> list record -> list val -> Prop :=
  | mgs_nil nums ts vals : merges nums ts vals [] vals
  | mgs_cons nums ts vals i num t prior p v rs vals' :
      nth_error nums i = Some num -> nth_error ts i = Some t -> nth_error vals i = Some prior ->
      merge t prior p v -> merges nums ts (set_nth i v vals) rs vals' ->
      merges nums ts vals ((num, p) :: rs) vals'.
End Merge.

Scheme merge_mut := Minimality for merge Sort Prop
  with merges_mut := Minimality for merges Sort Prop.
Combined Scheme merge_merges_ind from merge_mut, merges_mut.

(** Reading a message of class [k]. *)
Definition merges_message (P : penv) (room : N -> bool) (k : nat) (prior : list val)
  (rs : list record) (res : list val) : Prop :=
  merges P room (msg_numbers P k) (msg_types P k) (start (msg_types P k) prior) rs res.

(** What reading [v] back needs: memory for its strings and packed numbers, zigzag varints of
    signed types only, std::byte members below 0x80. *)
Fixpoint preadable (P : penv) (room : N -> bool) (v : val) (t : pty) {struct v} : bool :=
  match t, v with
  | PByte, VN n => n <? 128
  | PVar _ sg zz, _ => negb zz || sg
  | PMsg k, VSeq l => forall2b (fun x fd => preadable P room x (snd fd)) l (m_fields (P k))
  | PFixes (CSeq _ _) w, VSeq l =>
      (length l =? 0)%nat || room (N.of_nat (length l * w))
  | PFixes ck w, VSeq l =>
      (length l =? 0)%nat || element_room room ck (N.of_nat (length l * w))
  | PVars ck w sg zz, VSeq l =>
      (length l =? 0)%nat ||
      ((negb zz || sg) &&
       element_room room ck
         (N.of_nat (length (flat_map (fun x => leb128 (varint_number w sg zz (vnum x))) l))))
  | PStrs _ _ w, VSeq l => forallb (fun x => room (N.of_nat (length (as_seq x) * w))) l
  | PMsgs _ k, VSeq l =>
      forallb (fun x => match x with
                        | VSeq m => forall2b (fun x fd => preadable P room x (snd fd)) m (m_fields (P k))
                        | _ => true
                        end) l
  | PMap _ kt vt, VSeq l =>
      forallb (fun x => match x with
                        | VSeq [a; b] => preadable P room a kt && preadable P room b vt
                        | _ => true
                        end) l
  | _, _ => true
  end.
