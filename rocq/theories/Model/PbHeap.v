(** Heap memory while reading protobuf messages: the functions of Model/Pb.v that read (zpp_bits.h:4929-5172)
    once more, now with the blocks that the members and the temporaries own, and with every single allocation
    able to fail.

    Objects, heap and allocations are those of Model/Heap.v; a container of a member type owns one buffer if
    it is contiguous, else a node per element, and a message owns what its members own.  [room b] is the number
    of elements for which buffer [b] has space; it is an arbitrary function, so that how much a vector
    allocates beyond what it needs does not matter.  A refused allocation raises std::bad_alloc, and the stack
    is unwound: destructor_guard (394-406) destroys the temporary.

    Taken from the standard library, besides what Model/Heap.v lists: clear keeps the buffer of a contiguous
    container; push_back and insert leave the argument alone when they throw; insert looks for an equal
    element before it allocates a node, emplace (5081) afterwards, and then frees the node (libstdc++; others
    may look first, and then ask for less). *)

From Coq Require Import List NArith ZArith Lia Bool Arith.
From Verif Require Import Base.Bytes Model.Types Model.Machine Model.Varint Model.Out Model.In Model.Loops
  Model.Protocol Model.Pb Model.Heap.
Import ListNotations.
Local Open Scope N_scope.

Section PbHeap.
  Variable ok : nat -> bool.
  Variable room : nat -> N.

  (** The buffer of a contiguous container has space for [n] elements. *)
  Definition fits (bs : list nat) (n : N) : bool :=
    match bs with [b] => n <=? room b | _ => false end.

  (** A new buffer; the elements are moved, the old one is freed. *)
  Definition rebuffer (bs : list nat) (H : heap) : option (list nat) * heap :=
    match alloc ok H with
    | (Some b, H') => (Some [b], free_all bs H')
    | (None, H') => (None, H')
    end.

  (** push_back / insert of an object on the stack (5102-5109, 5161-5167), which is destroyed afterwards: what
      it owned has then been moved into the container, or is freed. *)
  Definition hadd (ck : ckind) (bs : list nat) (l : list hval) (x : hval) (H : heap)
    : res * list nat * list hval * heap :=
    match ck with
    | CSeq true _ =>
        if fits bs (N.of_nat (S (length l))) then (ROk, bs, l ++ [x], H)
        else match rebuffer bs H with
             | (Some bs', H') => (ROk, bs', l ++ [x], H')
             | (None, H') => (RThrow, bs, l, destroy x H')
             end
    | CSeq false _ =>
        match alloc ok H with
        | (Some b, H') => (ROk, bs ++ [b], l ++ [x], H')
        | (None, H') => (RThrow, bs, l, destroy x H')
        end
    | CSet k _ =>
        if negb (a_multi k) && existsb (fun y => equivalent k (erase y) (erase x)) l
        then (ROk, bs, l, destroy x H)
        else match alloc ok H with
             | (Some b, H') => (ROk, b :: bs, hplace k l x, H')
             | (None, H') => (RThrow, bs, l, destroy x H')
             end
    end.

  (** item.emplace(std::move(object->key), std::move(object->value)) (5081). *)
  Definition hemplace (k : akind) (bs : list nat) (l : list hval) (x : hval) (H : heap)
    : res * list nat * list hval * heap :=
    match alloc ok H with
    | (Some b, H') =>
        if negb (a_multi k) && existsb (fun y => equivalent k (erase y) (erase x)) l
        then (ROk, bs, l, free b (destroy x H'))
        else (ROk, b :: bs, hplace k l x, H')
    | (None, H') => (RThrow, bs, l, destroy x H')
    end.

  (** item.reserve(length) (5136-5138).  Buckets of hash containers are left out. *)
  Definition hreserve (c : cfg) (ck : ckind) (n : N) (bs : list nat) (l : list hval) (H : heap)
    : res * list nat * heap :=
    if reserve_ok c ck n (map erase l) then
      match ck with
      | CSeq true (Some _) =>
          if (n <=? N.of_nat (length l)) || fits bs n then (ROk, bs, H)
          else match rebuffer bs H with
               | (Some bs', H') => (ROk, bs', H')
               | (None, H') => (RThrow, bs, H')
               end
      | _ => (ROk, bs, H)
      end
    else (RThrow, bs, H).

  (** item.resize(length / sizeof(value_type)) (5131), of fundamentals. *)
  Definition hresize (c : cfg) (contig : bool) (w : nat) (n : N) (bs : list nat) (l : list hval) (H : heap)
    : res * list nat * list hval * heap :=
    let l' := firstn (N.to_nat n) l ++ repeat (HN 0) (N.to_nat n - length l) in
    if n <=? N.of_nat (length l) then
      if contig then (ROk, bs, l', H)
      else (ROk, firstn (N.to_nat n) bs, l', free_all (skipn (N.to_nat n) bs) H)
    else if can_alloc c (n * N.of_nat w) then
      if contig then
        if fits bs n then (ROk, bs, l', H)
        else match rebuffer bs H with
             | (Some bs', H') => (ROk, bs', l', H')
             | (None, H') => (RThrow, bs, l, H')
             end
      else match alloc_n ok (N.to_nat n - length l) H with
           | (Some new, H') => (ROk, bs ++ new, l', H')
           | (None, H') => (RThrow, bs, l, H')
           end
    else (RThrow, bs, l, H).

  (** member.clear() (4954-4967). *)
  Definition hclear_member (t : pty) (h : hval) (H : heap) : hval * heap :=
    match t with
    | PFixes (CSeq true _) _ | PVars (CSeq true _) _ _ _ | PStrs (CSeq true _) _ _ | PMsgs (CSeq true _) _ =>
        (HSeq (blocks h) [], free_all (flat_map own (has h)) H)
    | PFixes _ _ | PVars _ _ _ _ | PStrs _ _ _ | PMsgs _ _ | PMap _ _ _ => (HSeq [] [], destroy h H)
    | _ => (h, H)
    end.

  Fixpoint hclear_members (ts : list pty) (l : list hval) (H : heap) : list hval * heap :=
    match ts, l with
    | t :: ts', h :: l' =>
        let (h', H1) := hclear_member t h H in
        let (l'', H2) := hclear_members ts' l' H1 in
        (h' :: l'', H2)
    | _, _ => (l, H)
    end.

  Section FieldLoop.
    Variables (data : list byte) (nums : list N).
    Variable fld : nat -> N -> hval -> nat -> heap -> hres.

    (** The loop of deserialize_fields (4969-4980). *)
    Fixpoint hfield_loop (n : nat) (vals : list hval) (pos : nat) (H : heap) : res * list hval * nat * heap :=
      if (pos <? length data)%nat then
        match n with
        | O => (RStack, vals, pos, H)
        | S n' =>
            match des_varint 4 false 0 data pos with
            | (ROk, tag, pos1) =>
                let num := N.shiftr tag 3 in
                match index_of nums num with
                | None =>
                    if num =? 0 then (RErr protocol_error, vals, pos1, H)
                    else hfield_loop n' vals pos1 H
                | Some i =>
                    match nth_error vals i with
                    | None => (RUB, vals, pos1, H)
                    | Some prior =>
                        match fld i (N.land tag 7) prior pos1 H with
                        | (ROk, v, pos2, H') => hfield_loop n' (set_nth i v vals) pos2 H'
                        | (r, v, pos2, H') => (r, set_nth i v vals, pos2, H')
                        end
                    end
                end
            | (r, _, pos1) => (r, vals, pos1, H)
            end
        end
      else (ROk, vals, pos, H).
  End FieldLoop.

  Section Packed.
    Variable fetch : nat -> res * N * nat.
    Variable ck : ckind.
    Variable stop : N.

    (** 5140-5146 *)
    Fixpoint hpacked_loop (n : nat) (bs : list nat) (acc : list hval) (pos : nat) (H : heap) : hres :=
      if N.of_nat pos <? stop then
        match n with
        | O => (RStack, HSeq bs acc, pos, H)
        | S n' =>
            match fetch pos with
            | (ROk, x, pos') =>
                match hadd ck bs acc (HN x) H with
                | (ROk, bs', acc', H') => hpacked_loop n' bs' acc' pos' H'
                | (r, bs', acc', H') => (r, HSeq bs' acc', pos', H')
                end
            | (r, _, pos') => (r, HSeq bs acc, pos', H)
            end
        end
      else (ROk, HSeq bs acc, pos, H).
  End Packed.

  (** Containers of fundamentals and varints (5091-5149). *)
  Definition hdes_scalars (c : cfg) (data : list byte) (ck : ckind) (w : nat)
    (resize : bool) (fetch : nat -> res * N * nat) (wt : N) (prior : hval) (pos : nat) (H : heap) : hres :=
    let l := has prior in
    let bs := blocks prior in
    if negb (wt =? 2) then
      match fetch pos with
      | (ROk, x, pos') =>
          match hadd ck bs l (HN x) H with (r, bs', l', H') => (r, HSeq bs' l', pos', H') end
      | (r, _, pos') => (r, HSeq bs l, pos', H)
      end
    else
      match des_varint 8 false 0 data pos with
      | (ROk, len, pos') =>
          if resize then
            if match alim c with Some lim => lim <? len | None => false end
            then (RErr message_size, HSeq bs l, pos', H)
            else
              match hresize c (match ck with CSeq ct _ => ct | CSet _ _ => false end) w (len / N.of_nat w) bs l H with
              | (ROk, bs', l', H') =>
                  match des_ty no_types c data (fun _ p pos => (RUB, p, pos)) (unsized_ty ck w)
                          (VSeq (map erase l')) pos' with
                  | (r, v, pos'') => (r, HSeq bs' (map bare (as_seq v)), pos'', H')
                  end
              | (r, bs', l', H') => (r, HSeq bs' l', pos', H')
              end
          else
            match hreserve c ck len bs l H with
            | (ROk, bs', H') =>
                hpacked_loop fetch ck (wadd len (N.of_nat pos')) (S (length data)) bs' l pos' H'
            | (r, bs', H') => (r, HSeq bs' l, pos', H')
            end
      | (r, _, pos') => (r, HSeq bs l, pos', H)
      end.

  (** A nested message (4929-4945). *)
  Definition hdes_nested (data : list byte)
    (fields : list byte -> list hval -> heap -> res * list hval * nat * heap)
    (size : option N) (prior : hval) (pos : nat) (H : heap) : hres :=
    match rest_of data pos with
    | None => (RUB, prior, pos, H)
    | Some rest =>
        let n := match size with
                 | Some s => N.to_nat (N.min s (N.of_nat (length rest)))
                 | None => length rest
                 end in
        match fields (firstn n rest) (has prior) H with
        | (RThrow, vs, _, H') => (RThrow, HSeq [] vs, pos, H')
        | (r, vs, p, H') => (r, HSeq [] vs, (pos + p)%nat, H')
        end
    end.

  (** in::serialize_one<SizeType>(by_protocol) (3095-3122). *)
  Definition hdes_protocol (c : cfg) (data : list byte) (s : sizety)
    (body : option N -> hval -> nat -> heap -> hres) (prior : hval) (pos : nat) (H : heap) : hres :=
    match s with
    | SzNone => body None prior pos H
    | _ =>
        match des_size c data s pos with
        | (ROk, n, pos') => body (Some n) prior pos' H
        | (r, _, pos') => (r, prior, pos', H)
        end
    end.

  (** Adding an object read on the side (5048-5082, 5151-5169): if it was not read, the guard destroys it. *)
  Definition hadd_object (add : list nat -> list hval -> hval -> heap -> res * list nat * list hval * heap)
    (prior : hval) (x : hres) : hres :=
    match x with
    | (ROk, x, pos, H) =>
        match add (blocks prior) (has prior) x H with (r, bs, l, H') => (r, HSeq bs l, pos, H') end
    | (e, x, pos, H) => (e, prior, pos, destroy x H)
    end.

  Section PbIn.
    Variables (P : penv) (c : cfg).
    Variable rec : nat -> list byte -> list hval -> heap -> res * list hval * nat * heap.

    (** deserialize_field(archive, field_type, item) (5026-5172). *)
    Fixpoint hdes_field (t : pty) : list byte -> N -> hval -> nat -> heap -> hres := fun data wt prior pos H =>
      match t with
      | PEmpty | PFix _ | PBool | PByte | PVar _ _ _ | PArr _ _ =>
          hleaf (des_field P c (fun _ _ v => (RUB, v, O)) t data wt (erase prior) pos) H
      | PMsg k => hdes_protocol c data (dsize c) (hdes_nested data (rec k)) prior pos H
      | PFixes ck w =>
          hdes_scalars c data ck w (match ck with CSeq _ _ => true | CSet _ _ => false end)
            (des_scalar c data w 0) wt prior pos H
      | PVars ck w sg zz =>
          hdes_scalars c data ck w false (des_varint w zz 0 data) wt prior pos H
      | PStrs ck contig w =>
          hadd_object (hadd ck) prior
            (hdes_ty ok no_types c data (fun _ => false) (fun _ p pos H => (RUB, p, pos, H))
               (TVec None contig (scalar_ty w)) (HSeq [] []) pos H)
      | PMsgs ck k =>
          hadd_object (hadd ck) prior
            (hdes_protocol c data (dsize c) (hdes_nested data (rec k)) (bare (VSeq (m_dflt (P k)))) pos H)
      | PMap ak kt vt =>
          hadd_object (hemplace ak) prior
            (hdes_protocol c data (dsize c)
               (hdes_nested data
                  (fun sub vals H =>
                     let (vals', H') := hclear_members [kt; vt] vals H in
                     hfield_loop sub [1; 2]
                       (fun i => match i with O => hdes_field kt sub | S _ => hdes_field vt sub end)
                       (S (length sub)) vals' 0 H'))
               (HSeq [] [bare (pdflt P kt); bare (pdflt P vt)]) pos H)
      end.
  End PbIn.

  (** deserialize_fields (4947-4983). *)
  Fixpoint hdes_fields (P : penv) (c : cfg) (fuel : nat) (k : nat) (data : list byte) (vals : list hval)
    (H : heap) : res * list hval * nat * heap :=
    match fuel with
    | O => (RStack, vals, O, H)
    | S f =>
        let (vals', H') := hclear_members (map snd (m_fields (P k))) vals H in
        hfield_loop data (numbers (P k))
          (fun i wt prior pos H =>
             match nth_error (m_fields (P k)) i with
             | Some fd => hdes_field P c (hdes_fields P c f) (snd fd) data wt prior pos H
             | None => (RUB, prior, pos, H)
             end)
          (S (length data)) vals' 0 H'
    end.

  (** pb::operator() on an input archive (4929-4945), called through 3095-3122. *)
  Definition hdes_pb_item (P : penv) (c : cfg) (data : list byte) (fuel : nat) (s : sizety)
    (k : nat) (prior : hval) (pos : nat) (H : heap) : hres :=
    hdes_protocol c data s (hdes_nested data (hdes_fields P (pb_icfg c) fuel k)) prior pos H.
End PbHeap.

(** [pshaped P h t]: a member of type [t] owns blocks where such an object does. *)
Definition is_num (h : hval) : bool := match h with HN _ => true | _ => false end.

Definition ckshape (ck : ckind) (bs : list nat) (l : list hval) : bool :=
  match ck with
  | CSeq true _ => (length bs <=? 1)%nat
  | _ => (length bs =? length l)%nat
  end.

Fixpoint pshaped (P : penv) (h : hval) (t : pty) {struct h} : bool :=
  match t, h with
  | PFix _, HN _ | PBool, HN _ | PByte, HN _ | PVar _ _ _, HN _ => true
  | PEmpty, HSeq [] l => match l with [] => true | _ => false end
  | PMsg k, HSeq [] l => forall2b (fun x fd => pshaped P x (snd fd)) l (m_fields (P k))
  | PFixes ck _, HSeq bs l | PVars ck _ _ _, HSeq bs l => ckshape ck bs l && forallb is_num l
  | PStrs ck contig _, HSeq bs l =>
      ckshape ck bs l &&
      forallb (fun x => match x with
                        | HSeq bs' m => ckshape (CSeq contig None) bs' m && forallb is_num m
                        | _ => false
                        end) l
  | PMsgs ck k, HSeq bs l =>
      ckshape ck bs l &&
      forallb (fun x => match x with
                        | HSeq [] m => forall2b (fun x fd => pshaped P x (snd fd)) m (m_fields (P k))
                        | _ => false
                        end) l
  | PMap _ kt vt, HSeq bs l =>
      (length bs =? length l)%nat &&
      forallb (fun x => match x with HSeq [] [a; b] => pshaped P a kt && pshaped P b vt | _ => false end) l
  | PArr _ _, HSeq [] l => forallb is_num l
  | _, _ => false
  end.
