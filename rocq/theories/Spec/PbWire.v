(** Specification of the protobuf wire format
    (protobuf.dev/programming-guides/encoding), independent of the code: a message is a
    sequence of records, a record is a tag (field number and wire type) and a payload. *)

From Coq Require Import List NArith ZArith Lia Bool Arith.
From Verif Require Import Base.Bytes Model.Types Model.In Model.Pb Spec.Leb128 Spec.Wire.
Import ListNotations.
Local Open Scope N_scope.

Inductive payload :=
| WVar (n : N)                     (* VARINT *)
| W64 (n : N)                      (* I64 *)
| WLen (b : list byte)             (* LEN *)
| W32 (n : N)                      (* I32 *)
(* The following three are not protobuf; they describe what the library does with a
   container of multi-byte containers, with a std::byte and with a C array. *)
| WCount (n : N) (b : list byte)
| WByte (n : N)
| WRaw (b : list byte).

Definition record := (N * payload)%type.

Definition wire_of (p : payload) : N :=
  match p with
  | WVar _ => 0 | W64 _ => 1 | WLen _ => 2 | W32 _ => 5
  | WCount _ _ => 2 | WByte _ => 2 | WRaw _ => 2
  end.

Definition payload_bytes (p : payload) : list byte :=
  match p with
  | WVar n => leb128 n
  | W64 n => le_bytes 8 n
  | WLen b => leb128 (N.of_nat (length b)) ++ b
  | W32 n => le_bytes 4 n
  | WCount n b => leb128 n ++ b
  | WByte n => le_bytes 1 n
  | WRaw b => b
  end.

Definition record_bytes (r : record) : list byte :=
  leb128 (8 * fst r + wire_of (snd r)) ++ payload_bytes (snd r).

Definition records_bytes (l : list record) : list byte := flat_map record_bytes l.

(** Reading a sequence of records, as any protobuf parser does: [None] if malformed.  The
    budget [n] only has to exceed the length. *)
Definition take (n : nat) (l : list byte) : option (list byte * list byte) :=
  if (n <=? length l)%nat then Some (firstn n l, skipn n l) else None.

Definition parse_payload (wt : N) (l : list byte) : option (payload * list byte) :=
  match wt with
  | 0 => match leb_value l with Some (v, k) => Some (WVar v, skipn k l) | None => None end
  | 1 => match take 8 l with Some (b, r) => Some (W64 (le_val b), r) | None => None end
  | 2 => match leb_value l with
         | Some (v, k) =>
             match take (N.to_nat v) (skipn k l) with
             | Some (b, r) => Some (WLen b, r)
             | None => None
             end
         | None => None
         end
  | 5 => match take 4 l with Some (b, r) => Some (W32 (le_val b), r) | None => None end
  | _ => None
  end.

Fixpoint parse_records (n : nat) (l : list byte) : option (list record) :=
  match l with
  | [] => Some []
  | _ =>
      match n with
      | O => None
      | S n' =>
          match leb_value l with
          | Some (tag, k) =>
              if tag / 8 =? 0 then None
              else match parse_payload (tag mod 8) (skipn k l) with
                   | Some (p, rest) =>
                       match parse_records n' rest with
                       | Some rs => Some ((tag / 8, p) :: rs)
                       | None => None
                       end
                   | None => None
                   end
          | None => None
          end
      end
  end.
Definition parse (l : list byte) : option (list record) := parse_records (length l) l.

(** Field number of a member: its own number, else the number it is mapped to (members are
    counted from 1), else its position. *)
Definition spec_number (mp : list (N * N)) (expl : option N) (idx : nat) : N :=
  match expl with
  | Some n => n
  | None =>
      match find (fun ft => fst ft =? N.of_nat idx + 1) mp with
      | Some ft => snd ft
      | None => N.of_nat idx + 1
      end
  end.

Section RecordsOfMembers.
  Context (f : nat -> pfield -> val -> list record).
  Fixpoint members_records (idx : nat) (l : list val) (fs : list pfield) : list record :=
    match l, fs with
    | x :: l', fd :: fs' => f idx fd x ++ members_records (S idx) l' fs'
    | _, _ => []
    end.
End RecordsOfMembers.

(** The records of a member with number [num]: scalars always one record, repeated scalars
    packed into one record if there are any, other repeated members one record per element,
    map entries as messages with key 1 and value 2. *)
Fixpoint member_records (P : penv) (num : N) (v : val) (t : pty) {struct v} : list record :=
  match t, v with
  | PFix w, VN n => [(num, if (w =? 4)%nat then W32 n else W64 n)]
  | PBool, VN n => [(num, WVar n)]
  | PByte, VN n => [(num, WByte n)]
  | PVar w sg zz, VN n => [(num, WVar (varint_number w sg zz n))]
  | PMsg k, VSeq l =>
      [(num, WLen (records_bytes
        (members_records
           (fun idx fd x => member_records P (spec_number (m_map (P k)) (fst fd) idx) x (snd fd))
           0 l (m_fields (P k)))))]
  | PFixes _ w, VSeq l =>
      match l with
      | [] => []
      | _ => [(num, WLen (flat_map (fun x => le_bytes w (vnum x)) l))]
      end
  | PVars _ w sg zz, VSeq l =>
      match l with
      | [] => []
      | _ => [(num, WLen (flat_map (fun x => leb128 (varint_number w sg zz (vnum x))) l))]
      end
  | PStrs _ _ w, VSeq l =>
      map (fun x =>
             (num,
              let b := flat_map (fun y => le_bytes w (vnum y)) (as_seq x) in
              if (w =? 1)%nat then WLen b else WCount (N.of_nat (length (as_seq x))) b)) l
  | PMsgs _ k, VSeq l =>
      flat_map
        (fun x =>
           match x with
           | VSeq m =>
               [(num, WLen (records_bytes
                 (members_records
                    (fun idx fd x =>
                       member_records P (spec_number (m_map (P k)) (fst fd) idx) x (snd fd))
                    0 m (m_fields (P k)))))]
           | _ => []
           end) l
  | PMap _ kt vt, VSeq l =>
      flat_map
        (fun x =>
           match x with
           | VSeq [a; b] =>
               [(num, WLen (records_bytes (member_records P 1 a kt ++ member_records P 2 b vt)))]
           | _ => []
           end) l
  | PArr _ w, VSeq l => [(num, WRaw (flat_map (fun x => le_bytes w (vnum x)) l))]
  | _, _ => []
  end.

Definition message_records (P : penv) (k : nat) (l : list val) : list record :=
  members_records
    (fun idx fd x => member_records P (spec_number (m_map (P k)) (fst fd) idx) x (snd fd))
    0 l (m_fields (P k)).

Definition message_bytes (P : penv) (k : nat) (l : list val) : list byte :=
  records_bytes (message_records P k l).

(** Messages described entirely by the protobuf wire format: no std::byte members, no C
    arrays and no containers of containers of more than one byte. *)
Fixpoint standard_ty (t : pty) : bool :=
  match t with
  | PByte | PArr _ _ => false
  | PStrs _ _ w => (w =? 1)%nat
  | PMap _ kt vt => standard_ty kt && standard_ty vt
  | _ => true
  end.
Definition standard (P : penv) : Prop :=
  forall k, forallb (fun fd => standard_ty (snd fd)) (m_fields (P k)) = true.
