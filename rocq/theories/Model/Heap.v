(** Heap memory while reading: the overloads of in::serialize_one (zpp_bits.h:2485-3093) once more, now with
    the memory that the targets and the temporaries own, and with every single allocation able to fail.

    Model/In.v says which values are read; here every object also carries the blocks it owns: a vector one
    buffer, a list, set or map one node per element, an owning pointer its pointee and, for a shared_ptr, the
    control block.  Allocations are numbered in the order they are made and [ok n] says whether allocation [n]
    succeeds; a refused one raises std::bad_alloc, and the stack is unwound: destructor_guard (394-406)
    destroys the temporary, the local unique_ptr (3063) deletes what it owns.

    What is taken from the standard library: a move hands the blocks over; a container whose growth fails is
    unchanged; shared_ptr::reset(p) deletes p if it cannot allocate the control block; unique containers
    look for an equal element before they allocate a node.  Spare capacity and the short string buffer, which
    only make allocations unnecessary, and the bucket array of hash containers are left out.  Moves do not
    throw.  Value-initialised objects own nothing (a condition of the theorems). *)

From Coq Require Import List NArith ZArith Lia Bool Arith.
From Verif Require Import Base.Bytes Model.Types Model.Machine Model.Varint Model.Out Model.In.
Import ListNotations.
Local Open Scope N_scope.

(** Objects with the blocks they own. *)
Inductive hval : Type :=
| HN (n : N)
| HSeq (bs : list nat) (l : list hval)
| HNone
| HSome (bs : list nat) (x : hval)
| HAlt (i : nat) (x : hval)
| HValueless
| HBits (l : list bool)
| HBytes (l : list byte).

(** The value of an object, as in Model/Types.v. *)
Fixpoint erase (h : hval) : val :=
  match h with
  | HN n => VN n
  | HSeq _ l => VSeq (map erase l)
  | HNone => VNone
  | HSome _ x => VSome (erase x)
  | HAlt i x => VAlt i (erase x)
  | HValueless => VValueless
  | HBits l => VBits l
  | HBytes l => VBytes l
  end.

(** An object that owns nothing. *)
Fixpoint bare (v : val) : hval :=
  match v with
  | VN n => HN n
  | VSeq l => HSeq [] (map bare l)
  | VNone => HNone
  | VSome x => HSome [] (bare x)
  | VAlt i x => HAlt i (bare x)
  | VValueless => HValueless
  | VBits l => HBits l
  | VBytes l => HBytes l
  end.

(** All blocks that belong to an object. *)
Fixpoint own (h : hval) : list nat :=
  match h with
  | HSeq bs l => bs ++ flat_map own l
  | HSome bs x => bs ++ own x
  | HAlt _ x => own x
  | _ => []
  end.

(** The heap: how many allocations were attempted, the live blocks, and whether a block was freed that was
    not live. *)
Record heap := mkHeap { hnext : nat; hlive : list nat; hbad : bool }.

Fixpoint remove1 (b : nat) (l : list nat) : option (list nat) :=
  match l with
  | [] => None
  | x :: l' =>
      if (x =? b)%nat then Some l'
      else match remove1 b l' with Some m => Some (x :: m) | None => None end
  end.

Definition free (b : nat) (H : heap) : heap :=
  match remove1 b (hlive H) with
  | Some l => mkHeap (hnext H) l (hbad H)
  | None => mkHeap (hnext H) (hlive H) true
  end.

Fixpoint free_all (bs : list nat) (H : heap) : heap :=
  match bs with
  | [] => H
  | b :: bs' => free_all bs' (free b H)
  end.

(** Running the destructor. *)
Definition destroy (h : hval) (H : heap) : heap := free_all (own h) H.

Definition hres := (res * hval * nat * heap)%type.

Section Heap.
  (** Which allocations succeed. *)
  Variable ok : nat -> bool.

  Definition alloc (H : heap) : option nat * heap :=
    if ok (hnext H)
    then (Some (hnext H), mkHeap (S (hnext H)) (hnext H :: hlive H) (hbad H))
    else (None, mkHeap (S (hnext H)) (hlive H) (hbad H)).

  (** [n] nodes; if one is refused the earlier ones are given back. *)
  Fixpoint alloc_n (n : nat) (H : heap) : option (list nat) * heap :=
    match n with
    | O => (Some [], H)
    | S n' =>
        match alloc H with
        | (None, H') => (None, H')
        | (Some b, H') =>
            match alloc_n n' H' with
            | (Some bs, H'') => (Some (b :: bs), H'')
            | (None, H'') => (None, free b H'')
            end
        end
    end.

  Definition has (h : hval) : list hval := match h with HSeq _ l => l | _ => [] end.
  Definition blocks (h : hval) : list nat := match h with HSeq bs _ => bs | _ => [] end.

  (** serialize_many over members (2583-2597). *)
  Section Many.
    Context (f : ty -> hval -> nat -> heap -> hres).
    Fixpoint hdes_many (ms : list ty) (priors : list hval) (pos : nat) (H : heap)
      : res * list hval * nat * heap :=
      match ms with
      | [] => (ROk, [], pos, H)
      | m :: ms' =>
          let p := match priors with x :: _ => x | [] => HNone end in
          match f m p pos H with
          | (ROk, v, pos', H') =>
              match hdes_many ms' (tl priors) pos' H' with
              | (r, vs, pos'', H'') => (r, v :: vs, pos'', H'')
              end
          | (r, v, pos', H') => (r, v :: tl priors, pos', H')
          end
      end.
  End Many.

  Section Elems.
    Context (f : hval -> nat -> heap -> hres).

    (** for (auto & item : container) serialize_one(item) (2715-2721, 2841-2847). *)
    Fixpoint hdes_all (l : list hval) (pos : nat) (H : heap) : res * list hval * nat * heap :=
      match l with
      | [] => (ROk, [], pos, H)
      | x :: l' =>
          match f x pos H with
          | (ROk, v, pos', H') =>
              match hdes_all l' pos' H' with
              | (r, vs, pos'', H'') => (r, v :: vs, pos'', H'')
              end
          | (r, v, pos', H') => (r, v :: l', pos', H')
          end
      end.

    Variables (k : akind) (d : hval).

    Fixpoint hinsert_sorted (lt : val -> val -> bool) (l : list hval) (x : hval) : list hval :=
      match l with
      | [] => [x]
      | y :: l' => if lt (akey k (erase x)) (akey k (erase y)) then x :: y :: l'
                   else y :: hinsert_sorted lt l' x
      end.

    Definition hplace (l : list hval) (x : hval) : list hval :=
      match a_cmp k with
      | AOrd lt => hinsert_sorted lt l x
      | AHash _ => l ++ [x]
      end.

    (** The loop of associative containers (2873-2901).  The temporary is destroyed by the guard (2879,
        2893) at the end of every turn; after a move into a node it owns nothing. *)
    Fixpoint hdes_assoc (n : nat) (bs : list nat) (acc : list hval) (pos : nat) (H : heap)
      : res * list nat * list hval * nat * heap :=
      match n with
      | O => (ROk, bs, acc, pos, H)
      | S n' =>
          match f d pos H with
          | (ROk, x, pos', H') =>
              if negb (a_multi k) && existsb (fun y => equivalent k (erase y) (erase x)) acc
              then hdes_assoc n' bs acc pos' (destroy x H')
              else match alloc H' with
                   | (Some b, H'') => hdes_assoc n' (b :: bs) (hplace acc x) pos' H''
                   | (None, H'') => (RThrow, bs, acc, pos', destroy x H'')
                   end
          | (r, x, pos', H') => (r, bs, acc, pos', destroy x H')
          end
      end.
  End Elems.

  (** container.resize(size) after the limit check (2757-2767): the elements cut off are destroyed; growing
      takes one new buffer and gives back the old one, or one node per new element. *)
  Definition hvec_resize (c : cfg) (t : ty) (contig : bool) (d : hval) (n : N)
    (bs : list nat) (l : list hval) (H : heap) : res * list nat * list hval * heap :=
    if over_limit c t n then (RErr message_size, bs, l, H)
    else if n <=? N.of_nat (length l) then
      let gone := skipn (N.to_nat n) l in
      let kept := firstn (N.to_nat n) l in
      if contig then (ROk, bs, kept, free_all (flat_map own gone) H)
      else (ROk, firstn (N.to_nat n) bs, kept,
            free_all (flat_map own gone ++ skipn (N.to_nat n) bs) H)
    else if can_alloc c (n * csizeof c t) then
      let more := repeat d (N.to_nat n - length l) in
      if contig then
        match alloc H with
        | (Some b, H') => (ROk, [b], l ++ more, free_all bs H')
        | (None, H') => (RThrow, bs, l, H')
        end
      else
        match alloc_n (N.to_nat n - length l) H with
        | (Some new, H') => (ROk, bs ++ new, l ++ more, H')
        | (None, H') => (RThrow, bs, l, H')
        end
    else (RThrow, bs, l, H).

  (** Reading the alternative / contained object in place, or into a temporary under a destructor_guard
      (2938-2961, 3020-3050).  [variant = Types{}] (3026) destroys the alternative held so far;
      [optional = std::move( *object)] (2957) and [variant = std::move( *object)] (3046) give back what the
      target owned. *)
  Definition hdes_inplace (dc : bool) (f : hval -> nat -> heap -> hres) (wrap : hval -> hval)
    (cur : option hval) (d : hval) (prior : hval) (pos : nat) (H : heap) : hres :=
    if dc then
      match cur with
      | Some x => match f x pos H with (r, x', pos', H') => (r, wrap x', pos', H') end
      | None => match f d pos (destroy prior H) with (r, x', pos', H') => (r, wrap x', pos', H') end
      end
    else
      match f d pos H with
      | (ROk, x, pos', H') => (ROk, wrap x, pos', destroy prior H')
      | (r, x, pos', H') => (r, prior, pos', destroy x H')
      end.

  Definition hactive (i : nat) (h : hval) : option hval :=
    match h with HAlt j x => if (i =? j)%nat then Some x else None | _ => None end.

  Definition hopt_cur (h : hval) : option hval := match h with HSome _ x => Some x | _ => None end.

  (** Owning pointers (3058-3071): make_unique; on failure the local unique_ptr deletes the object; then
      pointer.reset(loaded.release()).  [sh]: the target is a shared_ptr. *)
  Definition hdes_ptr (sh : bool) (f : hval -> nat -> heap -> hres) (d : hval)
    (prior : hval) (pos : nat) (H : heap) : hres :=
    match alloc H with
    | (None, H1) => (RThrow, prior, pos, H1)
    | (Some b, H1) =>
        match f d pos H1 with
        | (ROk, x, pos', H2) =>
            if sh then
              match alloc H2 with
              | (Some cb, H3) => (ROk, HSome [b; cb] x, pos', destroy prior H3)
              | (None, H3) => (RThrow, prior, pos', destroy (HSome [b] x) H3)
              end
            else (ROk, HSome [b] x, pos', destroy prior H2)
        | (r, x, pos', H2) => (r, prior, pos', destroy (HSome [b] x) H2)
        end
    end.

  Definition hseq_res (bs : list nat) (p : res * list hval * nat * heap) : hres :=
    match p with (r, l, pos, H) => (r, HSeq bs l, pos, H) end.

  Section HIn.
    Variables (G : tenv) (c : cfg) (data : list byte).
    (** Which pointers are shared_ptr, by the type of the pointee. *)
    Variable shared : ty -> bool.
    Variable rec : nat -> hval -> nat -> heap -> hres.

    (** Objects without blocks are read as in Model/In.v. *)
    Definition hleaf (p : dres) (H : heap) : hres :=
      match p with (r, v, pos) => (r, bare v, pos, H) end.

    Definition hdes_elems (bytes : bool) (f : hval -> nat -> heap -> hres) (t : ty) (bs : list nat)
      (l : list hval) (pos : nat) (H : heap) : hres :=
      if bytes then
        match des_bytes c data t (length l) (map erase l) pos with
        | (r, vs, pos') => (r, HSeq bs (map bare vs), pos', H)
        end
      else hseq_res bs (hdes_all f l pos H).

    Fixpoint hdes_ty (t : ty) {struct t} : hval -> nat -> heap -> hres := fun prior pos H =>
      match t with
      | TScalar _ _ | TBool | TVarint _ _ _ | TEmpty | TBitset _ | TView _ =>
          hleaf (des_ty G c data (fun _ p pos => (RUB, p, pos)) t (erase prior) pos) H
      | TStruct si ms =>
          if negb (s_expl si) && is_empty t then (ROk, prior, pos, H)
          else if as_bytes c t then
            match des_bytes c data t 1 [erase prior] pos with
            | (r, [x], pos') => (r, bare x, pos', H)
            | (r, _, pos') => (r, prior, pos', H)
            end
          else hseq_res [] (hdes_many hdes_ty ms (has prior) pos H)
      | TRec k => rec k prior pos H
      | TArray n t' => hdes_elems (as_bytes c t') (hdes_ty t') t' [] (has prior) pos H
      | TTuple ts => hseq_res [] (hdes_many hdes_ty ts (has prior) pos H)
      | TVec s contig t' =>
          match sz_of c s with
          | SzNone =>
              hdes_elems (as_bytes c t' && contig) (hdes_ty t') t' (blocks prior) (has prior) pos H
          | sz =>
              match des_size c data sz pos with
              | (ROk, n, pos') =>
                  match hvec_resize c t' contig (bare (dflt G t')) n (blocks prior) (has prior) H with
                  | (ROk, bs, l, H') =>
                      hdes_elems (as_bytes c t' && contig) (hdes_ty t') t' bs l pos' H'
                  | (r, bs, l, H') => (r, HSeq bs l, pos', H')
                  end
              | (r, _, pos') => (r, prior, pos', H)
              end
          end
      | TAssoc s k t' =>
          match (match sz_of c s with
                 | SzNone => (ROk, N.of_nat (length (has prior)), pos)
                 | sz => des_size c data sz pos
                 end) with
          | (ROk, n, pos') =>
              (* container.clear() (2871) *)
              match hdes_assoc (hdes_ty t') k (bare (dflt G t')) (N.to_nat n) [] [] pos' (destroy prior H) with
              | (r, bs, l, pos'', H') => (r, HSeq bs l, pos'', H')
              end
          | (r, _, pos') => (r, prior, pos', H)
          end
      | TSpan s t' =>
          match sz_of c s with
          | SzNone => hdes_elems (as_bytes c t') (hdes_ty t') t' [] (has prior) pos H
          | sz =>
              match des_size c data sz pos with
              | (ROk, n, pos') =>
                  if N.of_nat (length (has prior)) <? n
                  then (RErr result_out_of_range, prior, pos', H)
                  else hdes_elems (as_bytes c t') (hdes_ty t') t' []
                         (firstn (N.to_nat n) (has prior)) pos' H
              | (r, _, pos') => (r, prior, pos', H)
              end
          end
      | TOpt dc t' =>
          match des_flag c data pos with
          | (ROk, 0, pos') => (ROk, HNone, pos', destroy prior H)
          | (ROk, _, pos') =>
              hdes_inplace dc (hdes_ty t') (HSome []) (hopt_cur prior) (bare (dflt G t')) prior pos' H
          | (r, _, pos') => (r, prior, pos', H)
          end
      | TOptPtr t' =>
          match des_flag c data pos with
          | (ROk, 0, pos') => (ROk, HNone, pos', destroy prior H)
          | (ROk, _, pos') => hdes_ptr false (hdes_ty t') (bare (dflt G t')) prior pos' H
          | (r, _, pos') => (r, prior, pos', H)
          end
      | TPtr t' => hdes_ptr (shared t') (hdes_ty t') (bare (dflt G t')) prior pos H
      | TVariant ik meta alts =>
          match des_id c data ik pos with
          | (ROk, id, pos') =>
              match find_id meta id with
              | None => (RErr bad_message, prior, pos', H)
              | Some i =>
                  let dc := match nth_error meta i with Some (_, b) => b | None => true end in
                  (fix pick (l : list ty) (j : nat) {struct l} : hres :=
                     match l, j with
                     | t' :: _, O =>
                         hdes_inplace dc (hdes_ty t') (HAlt i) (hactive i prior) (bare (dflt G t'))
                           prior pos' H
                     | _ :: l', S j' => pick l' j'
                     | [], _ => (RUB, prior, pos', H)
                     end) alts i
              end
          | (r, _, pos') => (r, prior, pos', H)
          end
      end.
  End HIn.

  Fixpoint hdes_rec (G : tenv) (c : cfg) (data : list byte) (shared : ty -> bool) (fuel : nat) (k : nat)
    (prior : hval) (pos : nat) (H : heap) : hres :=
    match fuel with
    | O => (RStack, prior, pos, H)
    | S f =>
        hseq_res []
          (hdes_many (hdes_ty G c data shared (hdes_rec G c data shared f)) (t_mems G k) (has prior) pos H)
    end.

  Definition hdes (G : tenv) (c : cfg) (data : list byte) (shared : ty -> bool) (fuel : nat)
    : ty -> hval -> nat -> heap -> hres :=
    hdes_ty G c data shared (hdes_rec G c data shared fuel).

  (** in::operator() (2531-2534) on several items. *)
  Definition hin_call (G : tenv) (c : cfg) (data : list byte) (shared : ty -> bool) (fuel : nat)
    (ts : list ty) (priors : list hval) (pos : nat) (H : heap) : res * list hval * nat * heap :=
    hdes_many (hdes G c data shared fuel) ts priors pos H.
End Heap.

(** [shaped G shared h t]: an object of type [t] owns blocks where such an object does: a vector at most one
    buffer, lists, sets and maps a node per element, owning pointers what they point to. *)
Section Shaped.
  Variables (G : tenv) (shared : ty -> bool).

  Fixpoint shaped (h : hval) (t : ty) {struct h} : bool :=
    match t, h with
    | TScalar _ _, HN _ | TBool, HN _ | TVarint _ _ _, HN _ => true
    | TEmpty, HSeq [] l => match l with [] => true | _ => false end
    | TStruct _ ms, HSeq [] l => forall2b (fun x m => shaped x m) l ms
    | TRec k, HSeq [] l => forall2b (fun x m => shaped x m) l (t_mems G k)
    | TArray _ t', HSeq [] l => forallb (fun x => shaped x t') l
    | TTuple ts, HSeq [] l => forall2b (fun x m => shaped x m) l ts
    | TVec _ contig t', HSeq bs l =>
        (if contig then (length bs <=? 1)%nat else (length bs =? length l)%nat)
        && forallb (fun x => shaped x t') l
    | TAssoc _ _ t', HSeq bs l => (length bs =? length l)%nat && forallb (fun x => shaped x t') l
    | TSpan _ t', HSeq [] l => forallb (fun x => shaped x t') l
    | TOpt _ _, HNone => true
    | TOpt _ t', HSome [] x => shaped x t'
    | TOptPtr _, HNone | TPtr _, HNone => true
    | TOptPtr t', HSome bs x => (length bs =? 1)%nat && shaped x t'
    | TPtr t', HSome bs x => (length bs =? if shared t' then 2 else 1)%nat && shaped x t'
    | TVariant _ _ alts, HAlt i x =>
        match nth_error alts i with Some t' => shaped x t' | None => false end
    | TVariant _ _ _, HValueless => true
    | TBitset _, HBits _ => true
    | TView _, HBytes _ => true
    | _, _ => false
    end.
End Shaped.
