(** Protocol buffers (zpp_bits.h:4345-5173): message schemas, writer and reader.

    Modelled members: integers and floats of 4 / 8 bytes, bool, std::byte, varints and
    enums, empty classes, messages, containers of fundamentals (including strings), of
    varints / enums, of strings (containers of fundamentals) and of messages, maps, and C
    arrays of fundamentals.
    Not modelled: containers of pb_field, containers of containers other than those of
    fundamentals, C arrays of anything else, members with their own serialize function,
    unpacked [bool] containers. *)

From Coq Require Import List NArith ZArith Lia Bool Arith.
From Verif Require Import Base.Bytes Model.Types Model.Machine Model.Varint Model.Out Model.In
  Model.Loops Model.Protocol.
Import ListNotations.
Local Open Scope N_scope.

(** How elements are added: push_back (5102-5109, 5161-5167: vector, list, deque, string) or insert (set,
    unordered_set).  [rsv]: the container has reserve, which requests that many bytes per
    element announced. *)
Inductive ckind :=
| CSeq (contig : bool) (rsv : option N)
| CSet (k : akind) (rsv : option N).

Inductive pty : Type :=
| PFix (w : nat)                 (* integer or float of w bytes *)
| PBool
| PByte                          (* std::byte *)
| PVar (w : nat) (sg zz : bool)  (* varint; an enum is a varint of its underlying type (4800-4808, 5033-5040) *)
| PEmpty                         (* empty class *)
| PMsg (k : nat)                 (* message *)
| PFixes (ck : ckind) (w : nat)  (* container of fundamentals: string, bytes, packed fixed width *)
| PVars (ck : ckind) (w : nat) (sg zz : bool) (* container of varints or enums *)
| PStrs (ck : ckind) (contig : bool) (w : nat) (* container of containers of fundamentals (strings) *)
| PMsgs (ck : ckind) (k : nat)   (* container of messages *)
| PMap (ak : akind) (kt vt : pty)
| PArr (n w : nat).              (* C array of n fundamentals of w bytes: not a container (803-810) *)

(** A member: its pb_field number if it has one (4360-4452), and its type. *)
Definition pfield := (option N * pty)%type.

(** A message: members in order, pb_map options (4350-4358), the value-initialised object. *)
Record pmsg := mkPmsg { m_fields : list pfield; m_map : list (N * N); m_dflt : list val }.
Definition penv := nat -> pmsg.

(** ** Field numbers and tags *)

(** Sum of the mapped fields of all options (4521-4522, 4542-4543). *)
Definition mapped (mp : list (N * N)) (idx : nat) : N :=
  fold_right (fun ft acc => (if N.of_nat idx + 1 =? fst ft then snd ft else 0) + acc) 0 mp.

(** field_number<Type, Index> (4532-4550) with the width of the resulting integer:
    pb_field_number and mapped numbers are unsigned int, Index + 1 is a size_t. *)
Definition field_number (mp : list (N * N)) (expl : option N) (idx : nat) : N * nat :=
  match expl with
  | Some n => (n, 4%nat)
  | None => if mapped mp idx =? 0 then (N.of_nat idx + 1, 8%nat) else (mapped mp idx, 4%nat)
  end.

(** field_number_from_struct (4508-4530). *)
Definition number_from_struct (mp : list (N * N)) (expl : option N) (idx : nat) : N :=
  fst (field_number mp expl idx).

(** tag_type<Type> (4648-4671). *)
Definition wire_type (t : pty) : N :=
  match t with
  | PVar _ _ _ | PBool => 0
  | PFix w => if (w =? 4)%nat then 5 else 1
  | _ => 2
  end.

(** make_tag (4632-4636, 4679-4684), written as a varint of the number's type. *)
Definition ser_tag (c : cfg) (mp : list (N * N)) (expl : option N) (idx : nat) (wt : N) : act :=
  let '(num, w) := field_number mp expl idx in
  ser_varint c w false false (N.lor (trunc w (N.shiftl num 3)) wt).

(** ** Writing *)

(** The archive used for the members (4699-4714): the given one if its default size type is a
    varint and its byte order is (taken to be) little endian, otherwise a nested one with
    size_varint and endian::little over the same buffer. *)
Definition pb_direct (c : cfg) : bool :=
  match dsize c with SzVar _ => host_le c || swap c | _ => false end.

Definition pb_ocfg (c : cfg) : cfg :=
  if pb_direct c then c
  else mkCfg (host_le c) (negb (host_le c)) (SzVar 8) (alim c) (emul c) (ediv c)
         (noovf c) true (growable c) (alloc_ok c) (abi c).

(** The position is copied back afterwards (4725, 4737), except when an exception passes. *)
Definition pb_nested (c : cfg) (a : act) : act := fun st =>
  if pb_direct c then a st
  else match a st with
       | (RThrow, st') => (RThrow, mkO (obuf st') (opos st))
       | other => other
       end.

Section PbLoops.
  Context (f : nat -> pfield -> val -> act).

  (** pb::serialize_many (4763-4785). *)
  Fixpoint ser_members (idx : nat) (l : list val) (fs : list pfield) : act :=
    match l, fs with
    | [], [] => ret
    | x :: l', fd :: fs' => f idx fd x ;; ser_members (S idx) l' fs'
    | _, _ => fail RUB
    end.
End PbLoops.

Section PbEach.
  Context (f : val -> act).
  Fixpoint ser_each (l : list val) : act :=
    match l with
    | [] => ret
    | x :: l' => f x ;; ser_each l'
    end.
End PbEach.

Definition scalar_ty (w : nat) : ty := TScalar w (w =? 1)%nat.
Definition no_types : tenv := mkTenv (fun _ => mkSinfo 0 false true (VSeq [])) (fun _ => []).

Definition vnum (v : val) : N := match v with VN n => n | _ => 0 end.

(** unsized(item) of a container of fundamentals (4864-4866, through 2182-2250). *)
Definition unsized_ty (ck : ckind) (w : nat) : ty :=
  match ck with
  | CSeq contig _ => TVec (Some SzNone) contig (scalar_ty w)
  | CSet k _ => TAssoc (Some SzNone) k (scalar_ty w)
  end.

(** Total encoded size of a container of varints (4877-4881, 4897-4900), a size_t. *)
Definition varints_size (w : nat) (sg zz : bool) (l : list val) : N :=
  fold_left (fun acc x => wadd acc (varint_size (wire_value w sg zz (vnum x)))) l 0.

(** pb::serialize_one (4787-4927) of a member; [tg] writes the member's tag with a wire type,
    [etg] the tag computed from the element type, which has no pb_field number (4917-4918).
    [c] is the archive selected by [pb_ocfg], for which nested messages are direct. *)
Fixpoint ser_pb (P : penv) (c : cfg) (tg etg : N -> act) (v : val) (t : pty) {struct v} : act :=
  match t, v with
  | PEmpty, _ => ret
  | PFix w, VN n => tg (wire_type t) ;; put c (scalar_bytes c w n)
  | PBool, VN n => tg (wire_type t) ;; put c (scalar_bytes c 1 n)
  | PByte, VN n => tg (wire_type t) ;; put c (scalar_bytes c 1 n)
  | PVar w sg zz, VN n => tg (wire_type t) ;; ser_varint c w sg zz n
  | PMsg k, VSeq l =>
      tg (wire_type t) ;;
      ser_protocol c (dsize c)
        (ser_members
           (fun idx fd x =>
              ser_pb P c (ser_tag c (m_map (P k)) (fst fd) idx)
                (ser_tag c (m_map (P k)) None idx) x (snd fd))
           0 l (m_fields (P k)))
  | PFixes ck w, VSeq l =>
      match l with
      | [] => ret
      | _ =>
          tg (wire_type t) ;;
          ser_varint c 8 false false (wmul (N.of_nat (length l)) (N.of_nat w)) ;;
          ser no_types c (VSeq l) (unsized_ty ck w)
      end
  | PVars ck w sg zz, VSeq l =>
      if varints_size w sg zz l =? 0 then ret
      else
        tg (wire_type t) ;;
        ser_varint c 8 false false (varints_size w sg zz l) ;;
        ser_each (fun x => ser_varint c w sg zz (vnum x)) l
  | PStrs ck contig w, VSeq l =>
      ser_each (fun x => etg 2 ;; ser no_types c x (TVec None contig (scalar_ty w))) l
  | PMsgs ck k, VSeq l =>
      ser_each
        (fun x =>
           etg 2 ;;
           match x with
           | VSeq m =>
               ser_protocol c (dsize c)
                 (ser_members
                    (fun idx fd x =>
                       ser_pb P c (ser_tag c (m_map (P k)) (fst fd) idx)
                         (ser_tag c (m_map (P k)) None idx) x (snd fd))
                    0 m (m_fields (P k)))
           | _ => fail RUB
           end) l
  | PMap ak kt vt, VSeq l =>
      ser_each
        (fun x =>
           tg (wire_type t) ;;
           match x with
           | VSeq [a; b] =>
               ser_protocol c (dsize c)
                 (ser_pb P c (ser_tag c [] None 0) (ser_tag c [] None 0) a kt ;;
                  ser_pb P c (ser_tag c [] None 1) (ser_tag c [] None 1) b vt)
           | _ => fail RUB
           end) l
  | PArr n w, VSeq l =>
      (* like any other item that is not a container (4809-4815): no length is written *)
      tg (wire_type t) ;; ser no_types c (VSeq l) (TArray n (scalar_ty w))
  | _, _ => fail RUB
  end.

Definition ser_message (P : penv) (c : cfg) (k : nat) (l : list val) : act :=
  ser_members
    (fun idx fd x =>
       ser_pb P c (ser_tag c (m_map (P k)) (fst fd) idx) (ser_tag c (m_map (P k)) None idx)
         x (snd fd))
    0 l (m_fields (P k)).

(** pb::operator() on an output archive (4692-4761). *)
Definition pb_out (P : penv) (c : cfg) (k : nat) (l : list val) : act :=
  pb_nested c (ser_message P (pb_ocfg c) k l).

(** A message written to an archive with size type [s] (2341-2415). *)
Definition ser_pb_item (P : penv) (c : cfg) (s : sizety) (k : nat) (l : list val) : act :=
  ser_protocol c s (pb_out P c k l).

(** ** Reading *)

Fixpoint set_nth {A} (i : nat) (x : A) (l : list A) : list A :=
  match l, i with
  | [], _ => []
  | _ :: l', O => x :: l'
  | y :: l', S i' => y :: set_nth i' x l'
  end.

(** The nested input archive (4936-4941). *)
Definition pb_icfg (c : cfg) : cfg :=
  mkCfg (host_le c) (negb (host_le c)) (SzVar 8) (alim c) (emul c) (ediv c)
    (noovf c) (nofit c) (growable c) (alloc_ok c) (abi c).

(** The numbers of the members of a message, in order. *)
Fixpoint numbers_from (mp : list (N * N)) (idx : nat) (fs : list pfield) : list N :=
  match fs with
  | [] => []
  | fd :: fs' => number_from_struct mp (fst fd) idx :: numbers_from mp (S idx) fs'
  end.
Definition numbers (m : pmsg) : list N := numbers_from (m_map m) 0 (m_fields m).

(** deserialize_field<Index> (4985-5024): the first member with that number. *)
Fixpoint index_of (nums : list N) (n : N) : option nat :=
  match nums with
  | [] => None
  | x :: nums' =>
      if x =? n then Some O
      else match index_of nums' n with Some i => Some (S i) | None => None end
  end.

(** member.clear() (4954-4967); a pb_field is derived from its container, and is one. *)
Definition clear_member (t : pty) (v : val) : val :=
  match t with
  | PFixes _ _ | PVars _ _ _ _ | PStrs _ _ _ | PMsgs _ _ | PMap _ _ _ => VSeq []
  | _ => v
  end.

Fixpoint clear_members (ts : list pty) (l : list val) : list val :=
  match ts, l with
  | t :: ts', v :: l' => clear_member t v :: clear_members ts' l'
  | _, _ => l
  end.

Section FieldLoop.
  Variables (data : list byte) (nums : list N).
  Variable fld : nat -> N -> val -> nat -> dres.

  (** The loop of deserialize_fields (4969-4980).  [n] bounds the number of iterations; with
      [n] > length data it is never reached (proved). *)
  Fixpoint field_loop (n : nat) (vals : list val) (pos : nat) : res * list val * nat :=
    if (pos <? length data)%nat then
      match n with
      | O => (RStack, vals, pos)
      | S n' =>
          match des_varint 4 false 0 data pos with
          | (ROk, tag, pos1) =>
              let num := N.shiftr tag 3 in
              match index_of nums num with
              | None =>
                  (* unknown field: nothing is skipped; number 0 is refused (4993-4997) *)
                  if num =? 0 then (RErr protocol_error, vals, pos1)
                  else field_loop n' vals pos1
              | Some i =>
                  match nth_error vals i with
                  | None => (RUB, vals, pos1)
                  | Some prior =>
                      match fld i (N.land tag 7) prior pos1 with
                      | (ROk, v, pos2) => field_loop n' (set_nth i v vals) pos2
                      | (r, v, pos2) => (r, set_nth i v vals, pos2)
                      end
                  end
              end
          | (r, _, pos1) => (r, vals, pos1)
          end
      end
    else (ROk, vals, pos).
End FieldLoop.

(** push_back / insert. *)
Definition cinsert (ck : ckind) (l : list val) (x : val) : list val :=
  match ck with
  | CSeq _ _ => l ++ [x]
  | CSet k _ => assoc_insert k l x
  end.

(** item.reserve(length) (5136-5138): the elements beyond the present ones are requested. *)
Definition reserve_ok (c : cfg) (ck : ckind) (n : N) (l : list val) : bool :=
  match ck with
  | CSeq _ (Some b) | CSet _ (Some b) => (n <=? N.of_nat (length l)) || can_alloc c (n * b)
  | _ => true
  end.

Section Packed.
  Variable fetch : nat -> res * N * nat.
  Variable ins : list val -> val -> list val.
  Variable stop : N.

  (** while (archive.position() < end_position) fetch() (5140-5146); [n] as above. *)
  Fixpoint packed_loop (n : nat) (acc : list val) (pos : nat) : dres :=
    if N.of_nat pos <? stop then
      match n with
      | O => (RStack, VSeq acc, pos)
      | S n' =>
          match fetch pos with
          | (ROk, x, pos') => packed_loop n' (ins acc (VN x)) pos'
          | (r, _, pos') => (r, VSeq acc, pos')
          end
      end
    else (ROk, VSeq acc, pos).
End Packed.

(** Containers of fundamentals and varints (5091-5149). *)
Definition des_scalars (c : cfg) (data : list byte) (ck : ckind) (w : nat)
  (resize : bool) (fetch : nat -> res * N * nat) (wt : N) (prior : val) (pos : nat) : dres :=
  let l := as_seq prior in
  if negb (wt =? 2) then
    match fetch pos with
    | (ROk, x, pos') => (ROk, VSeq (cinsert ck l (VN x)), pos')
    | (r, _, pos') => (r, VSeq l, pos')
    end
  else
    match des_varint 8 false 0 data pos with
    | (ROk, len, pos') =>
        if resize then
          if match alim c with Some lim => lim <? len | None => false end
          then (RErr message_size, VSeq l, pos')
          else
            let n := len / N.of_nat w in
            if (n <=? N.of_nat (length l)) || can_alloc c (n * N.of_nat w)
            then des_ty no_types c data (fun _ p pos => (RUB, p, pos)) (unsized_ty ck w)
                   (VSeq (vresize (VN 0) (N.to_nat n) l)) pos'
            else (RThrow, VSeq l, pos')
        else if reserve_ok c ck len l
        then packed_loop fetch (cinsert ck) (wadd len (N.of_nat pos')) (S (length data)) l pos'
        else (RThrow, VSeq l, pos')
    | (r, _, pos') => (r, VSeq l, pos')
    end.

(** A nested message (4929-4945): the fields are read from at most [size] of the remaining
    bytes; the position advances by what was consumed, also on failure, but not when an
    exception passes. *)
Definition des_nested (data : list byte)
  (fields : list byte -> list val -> res * list val * nat)
  (size : option N) (prior : val) (pos : nat) : dres :=
  match rest_of data pos with
  | None => (RUB, prior, pos)
  | Some rest =>
      let n := match size with
               | Some s => N.to_nat (N.min s (N.of_nat (length rest)))
               | None => length rest
               end in
      match fields (firstn n rest) (as_seq prior) with
      | (RThrow, vs, _) => (RThrow, VSeq vs, pos)
      | (r, vs, p) => (r, VSeq vs, (pos + p)%nat)
      end
  end.

Definition pdflt (P : penv) (t : pty) : val :=
  match t with
  | PFix _ | PBool | PByte | PVar _ _ _ => VN 0
  | PMsg k => VSeq (m_dflt (P k))
  | PArr n _ => VSeq (repeat (VN 0) n)
  | _ => VSeq []
  end.

(** Adding an object read on the side (5151-5169, 5048-5082). *)
Definition add_object (ins : list val -> val -> list val) (prior : val) (r : dres) : dres :=
  match r with
  | (ROk, x, pos) => (ROk, VSeq (ins (as_seq prior) x), pos)
  | (e, _, pos) => (e, prior, pos)
  end.

Section PbIn.
  Variables (P : penv) (c : cfg).
  (** Reading the fields of message [k] from a nested archive. *)
  Variable rec : nat -> list byte -> list val -> res * list val * nat.

  (** deserialize_field(archive, field_type, item) (5026-5172). *)
  Fixpoint des_field (t : pty) : list byte -> N -> val -> nat -> dres := fun data wt prior pos =>
    match t with
    | PEmpty => (ROk, prior, pos)
    | PFix w => nres VN (des_scalar c data w (vnum prior) pos)
    | PBool =>
        match des_scalar c data 1 0 pos with
        | (ROk, n, pos') => if n <? 2 then (ROk, VN n, pos') else (RUB, prior, pos')
        | (r, _, pos') => (r, prior, pos')
        end
    | PByte => nres VN (des_varint 1 false (vnum prior) data pos) (* is an enum: 5033-5040 *)
    | PVar w sg zz => nres VN (des_varint w zz (vnum prior) data pos)
    | PMsg k => des_protocol c data (dsize c) (des_nested data (rec k)) prior pos
    | PFixes ck w =>
        des_scalars c data ck w (match ck with CSeq _ _ => true | CSet _ _ => false end)
          (des_scalar c data w 0) wt prior pos
    | PVars ck w sg zz =>
        des_scalars c data ck w false (des_varint w zz 0 data) wt prior pos
    | PStrs ck contig w =>
        add_object (cinsert ck) prior
          (des_ty no_types c data (fun _ p pos => (RUB, p, pos)) (TVec None contig (scalar_ty w))
             (VSeq []) pos)
    | PMsgs ck k =>
        add_object (cinsert ck) prior
          (des_protocol c data (dsize c) (des_nested data (rec k)) (VSeq (m_dflt (P k))) pos)
    | PMap ak kt vt =>
        add_object (assoc_insert ak) prior
          (des_protocol c data (dsize c)
             (des_nested data
                (fun sub vals =>
                   field_loop sub [1; 2]
                     (fun i => match i with O => des_field kt sub | S _ => des_field vt sub end)
                     (S (length sub))
                     (clear_members [kt; vt] vals) 0))
             (VSeq [pdflt P kt; pdflt P vt]) pos)
    | PArr n w =>
        des_ty no_types c data (fun _ p pos => (RUB, p, pos)) (TArray n (scalar_ty w)) prior pos
    end.
End PbIn.

(** deserialize_fields (4947-4983); one unit of [fuel] per level of message nesting. *)
Fixpoint des_fields (P : penv) (c : cfg) (fuel : nat) (k : nat) (data : list byte) (vals : list val)
  : res * list val * nat :=
  match fuel with
  | O => (RStack, vals, O)
  | S f =>
      field_loop data (numbers (P k))
        (fun i wt prior pos =>
           match nth_error (m_fields (P k)) i with
           | Some fd => des_field P c (des_fields P c f) (snd fd) data wt prior pos
           | None => (RUB, prior, pos)
           end)
        (S (length data)) (clear_members (map snd (m_fields (P k))) vals) 0
  end.

(** pb::operator() on an input archive (4929-4945), called through 3095-3122 with the size
    type [s] of the archive. *)
Definition des_pb_item (P : penv) (c : cfg) (data : list byte) (fuel : nat) (s : sizety)
  (k : nat) (prior : val) (pos : nat) : dres :=
  des_protocol c data s (des_nested data (des_fields P (pb_icfg c) fuel k)) prior pos.

(** ** Well-formed messages *)

Definition ckok (ck : ckind) (l : list val) : bool :=
  match ck with CSeq _ _ => true | CSet k _ => pairwise (before k) l end.

Definition numok (w : nat) (v : val) : bool :=
  match v with VN n => n <? pow256 w | _ => false end.

(** [pwt P v t]: [v] is an object of member type [t]. *)
Fixpoint pwt (P : penv) (v : val) (t : pty) {struct v} : bool :=
  match t, v with
  | PFix w, VN n => n <? pow256 w
  | PBool, VN n => n <? 2
  | PByte, VN n => n <? 256
  | PVar w _ _, VN n => n <? pow256 w
  | PEmpty, VSeq l => match l with [] => true | _ => false end
  | PMsg k, VSeq l => forall2b (fun x fd => pwt P x (snd fd)) l (m_fields (P k))
  | PFixes ck w, VSeq l => forallb (numok w) l && ckok ck l
  | PVars ck w _ _, VSeq l => forallb (numok w) l && ckok ck l
  | PStrs ck _ w, VSeq l =>
      forallb (fun x => match x with VSeq m => forallb (numok w) m | _ => false end) l && ckok ck l
  | PMsgs ck k, VSeq l => 
      forallb
        (fun x => match x with
                  | VSeq m => forall2b (fun x fd => pwt P x (snd fd)) m (m_fields (P k))
                  | _ => false
                  end) l && ckok ck l
  | PMap ak kt vt, VSeq l =>
      forallb
        (fun x => match x with VSeq [a; b] => pwt P a kt && pwt P b vt | _ => false end) l
      && pairwise (before ak) l
  | PArr n w, VSeq l => (length l =? n)%nat && forallb (numok w) l
  | _, _ => false
  end.

Fixpoint wfp (t : pty) : bool :=
  match t with
  | PFix w => ((w =? 4) || (w =? 8))%nat
  | PVar w _ _ => wfw w
  | PFixes _ w | PVars _ w _ _ | PStrs _ _ w => wfw w
  | PMap _ kt vt => wfp kt && wfp vt
  | PArr n w => (0 <? n)%nat && wfw w
  | _ => true
  end.

(** What the static assertions enforce (distinct numbers, 4617; non-zero numbers, 4352 and
    4496; at most one pb_map option per member, 4515 and 4538), and the protobuf bound on
    numbers, which they do not. *)
Definition wf_pmsg (P : penv) (k : nat) : bool :=
  forallb (fun fd => wfp (snd fd)) (m_fields (P k))
  && distinct (numbers (P k))
  && forallb (fun n => (0 <? n) && (n <? 2 ^ 29)) (numbers (P k))
  && distinct (map fst (m_map (P k)))
  && forallb (fun ft => 0 <? snd ft) (m_map (P k))
  && pwt P (VSeq (m_dflt (P k))) (PMsg k).

Definition wf_penv (P : penv) : Prop := forall k, wf_pmsg P k = true.
