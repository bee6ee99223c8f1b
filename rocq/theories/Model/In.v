(** Input archives: in::serialize_one (zpp_bits.h:2485-3093). *)

From Coq Require Import List NArith ZArith Lia Bool Arith.
From Verif Require Import Base.Bytes Model.Types Model.Machine Model.Varint Model.Out.
Import ListNotations.
Local Open Scope N_scope.

(** Result of reading: outcome, the target object afterwards, the position afterwards.
    The input data are never written (m_data is only read). *)
Definition dres := (res * val * nat)%type.

Definition as_seq (v : val) : list val := match v with VSeq l => l | _ => [] end.

Section DesLoops.
  Context (f : ty -> val -> nat -> dres).

  (** serialize_many over members (2583-2597). *)
  Fixpoint des_many (ms : list ty) (priors : list val) (pos : nat) : res * list val * nat :=
    match ms with
    | [] => (ROk, [], pos)
    | m :: ms' =>
        let p := match priors with x :: _ => x | [] => VNone end in
        match f m p pos with
        | (ROk, v, pos') =>
            match des_many ms' (tl priors) pos' with
            | (r, vs, pos'') => (r, v :: vs, pos'')
            end
        | (r, v, pos') => (r, v :: tl priors, pos')
        end
    end.
End DesLoops.

Section DesElems.
  Context (f : val -> nat -> dres).

  (** for (auto & item : container) serialize_one(item) (2715-2721, 2841-2847). *)
  Fixpoint des_all (l : list val) (pos : nat) : res * list val * nat :=
    match l with
    | [] => (ROk, [], pos)
    | x :: l' =>
        match f x pos with
        | (ROk, v, pos') =>
            match des_all l' pos' with
            | (r, vs, pos'') => (r, v :: vs, pos'')
            end
        | (r, v, pos') => (r, v :: l', pos')
        end
    end.

  Variable ins : list val -> val -> list val.
  Variable d : val.

  (** The insertion loop of associative containers (2873-2901): read a fresh element, then
      insert it. *)
  Fixpoint des_assoc (n : nat) (acc : list val) (pos : nat) : res * list val * nat :=
    match n with
    | O => (ROk, acc, pos)
    | S n' =>
        match f d pos with
        | (ROk, v, pos') => des_assoc n' (ins acc v) pos'
        | (r, _, pos') => (r, acc, pos')
        end
    end.
End DesElems.

(** container.insert: unique containers keep the element already present; ordered
    containers place the new element before the first greater one; hashed containers are
    listed in insertion order. *)
Fixpoint insert_sorted (lt : val -> val -> bool) (key : val -> val) (l : list val) (x : val) : list val :=
  match l with
  | [] => [x]
  | y :: l' => if lt (key x) (key y) then x :: y :: l'
               else y :: insert_sorted lt key l' x
  end.

Definition assoc_insert (k : akind) (l : list val) (x : val) : list val :=
  if negb (a_multi k) && existsb (fun y => equivalent k y x) l then l
  else match a_cmp k with
       | AOrd lt => insert_sorted lt (akey k) l x
       | AHash _ => l ++ [x]
       end.

Section Parse.
  Context (f : ty -> list byte -> option val).
  Fixpoint parse_many (ms : list ty) (l : list byte) : option (list val) :=
    match ms with
    | [] => Some []
    | m :: ms' =>
        match f m (firstn (bsize m) l), parse_many ms' (skipn (bsize m) l) with
        | Some v, Some vs => Some (v :: vs)
        | _, _ => None
        end
    end.
End Parse.

Section ParseAll.
  Context (f : list byte -> option val) (w : nat).
  Fixpoint parse_all (n : nat) (l : list byte) : option (list val) :=
    match n with
    | O => Some []
    | S n' =>
        match f (firstn w l), parse_all n' (skipn w l) with
        | Some v, Some vs => Some (v :: vs)
        | _, _ => None
        end
    end.
End ParseAll.

(** The object whose memory is [l] (memcpy into the object, 2681-2684; bit_cast, 2678).
    [None]: a bool object whose byte is neither 0 nor 1, an invalid representation. *)
Fixpoint objparse (c : cfg) (t : ty) (l : list byte) : option val :=
  match t with
  | TScalar _ _ => Some (VN (hostval c l))
  | TBool => let n := hostval c l in if n <? 2 then Some (VN n) else None
  | TEmpty => Some (VSeq [])
  | TStruct _ ms =>
      match parse_many (objparse c) ms l with Some vs => Some (VSeq vs) | None => None end
  | TArray n t' =>
      match parse_all (objparse c t') (bsize t') n l with
      | Some vs => Some (VSeq vs) | None => None
      end
  | _ => None
  end.

(** Reading a [bytes] item of [n] objects of type [t] (2640-2689): no check and no effect
    when the size is zero. *)
Definition des_bytes (c : cfg) (data : list byte) (t : ty) (n : nat)
  (prior : list val) (pos : nat) : res * list val * nat :=
  let size := N.of_nat n * N.of_nat (bsize t) in
  if size =? 0 then (ROk, prior, pos)
  else if remaining data pos <? size then (RErr result_out_of_range, prior, pos)
  else match load data pos (n * bsize t) with
       | None => (RUB, prior, pos)
       | Some e =>
           match parse_all (objparse c t) (bsize t) n e with
           | Some vs => (ROk, vs, (pos + n * bsize t)%nat)
           | None => (RUB, prior, pos)
           end
       end.

(** Reading a scalar of [w] bytes (2609-2639). *)
Definition des_scalar (c : cfg) (data : list byte) (w : nat) (prior : N) (pos : nat)
  : res * N * nat :=
  if remaining data pos <? N.of_nat w then (RErr result_out_of_range, prior, pos)
  else match load data pos w with
       | None => (RUB, prior, pos)
       | Some e => (ROk, scalar_val c e, (pos + w)%nat)
       end.

(** SizeType size{}; serialize_one(size) (2751-2755, 2859-2865). *)
Definition des_size (c : cfg) (data : list byte) (s : sizety) (pos : nat) : res * N * nat :=
  match s with
  | SzNone => (ROk, 0, pos)
  | SzFix w => des_scalar c data w 0 pos
  | SzVar w => des_varint w false 0 data pos
  end.

(** Reading a variant id (3004-3009). *)
Definition des_id (c : cfg) (data : list byte) (k : idkind) (pos : nat) : res * N * nat :=
  match k with
  | IdInt w => des_scalar c data w 0 pos
  | IdBytes n =>
      if remaining data pos <? N.of_nat n then (RErr result_out_of_range, 0, pos)
      else match load data pos n with
           | None => (RUB, 0, pos)
           | Some e => (ROk, le_val e, (pos + n)%nat)
           end
  end.

(** traits::variant::index(id) (503-516): the first alternative with that id. *)
Fixpoint find_id (meta : list (N * bool)) (id : N) : option nat :=
  match meta with
  | [] => None
  | (x, _) :: meta' =>
      if x =? id then Some O
      else match find_id meta' id with Some i => Some (S i) | None => None end
  end.

(** bitset[i] = (byte >> (i & 7)) & 1 (3085-3089). *)
Definition get_bit (e : list byte) (i : nat) : bool :=
  match nth_error e (i / 8) with
  | Some b => negb (N.land (N.shiftr (b2n b) (N.of_nat (i mod 8))) 1 =? 0)
  | None => false
  end.

Fixpoint get_bits (e : list byte) (i n : nat) : list bool :=
  match n with
  | O => []
  | S n' => get_bit e i :: get_bits e (S i) n'
  end.

Definition des_bitset (data : list byte) (n : nat) (prior : val) (pos : nat) : dres :=
  if remaining data pos <? N.of_nat (bitset_bytes n) then (RErr result_out_of_range, prior, pos)
  else match load data pos (bitset_bytes n) with
       | None => (RUB, prior, pos)
       | Some e => (ROk, VBits (get_bits e 0 n), (pos + bitset_bytes n)%nat)
       end.

Definition vresize (d : val) (n : nat) (l : list val) : list val :=
  firstn n l ++ repeat d (n - length l).

(** container.resize(size) preceded by the allocation limit check (2757-2767).  Growing
    beyond the current size requests size * sizeof(value_type) bytes; the request may throw
    and then leaves the container unchanged. *)
Definition over_limit (c : cfg) (t : ty) (n : N) : bool :=
  match alim c with None => false | Some l => l / csizeof c t <? n end.

Definition vec_resize (G : tenv) (c : cfg) (t : ty) (n : N) (l : list val) : res * list val :=
  if over_limit c t n then (RErr message_size, l)
  else if (n <=? N.of_nat (length l)) || can_alloc c (n * csizeof c t)
  then (ROk, vresize (dflt G t) (N.to_nat n) l)
  else (RThrow, l).

Definition seq_res (p : res * list val * nat) : dres :=
  match p with (r, l, pos) => (r, VSeq l, pos) end.

(** Reading the alternative / contained object in place ([dc]: default constructible type,
    the current object is reused if there is one) or into a temporary that is moved into the
    target on success only (2938-2961, 3020-3050). *)
Definition des_inplace (dc : bool) (f : val -> nat -> dres) (wrap : val -> val)
  (cur : option val) (d : val) (prior : val) (pos : nat) : dres :=
  if dc then
    match f (match cur with Some x => x | None => d end) pos with
    | (r, x, pos') => (r, wrap x, pos')
    end
  else
    match f d pos with
    | (ROk, x, pos') => (ROk, wrap x, pos')
    | (r, _, pos') => (r, prior, pos')
    end.

Definition active (i : nat) (v : val) : option val :=
  match v with VAlt j x => if (i =? j)%nat then Some x else None | _ => None end.

Definition opt_cur (v : val) : option val := match v with VSome x => Some x | _ => None end.

(** Owning pointer (3058-3071): a fresh object is read and moved into the pointer on success. *)
Definition des_ptr (f : val -> nat -> dres) (d : val) (prior : val) (pos : nat) : dres :=
  match f d pos with
  | (ROk, x, pos') => (ROk, VSome x, pos')
  | (r, _, pos') => (r, prior, pos')
  end.

Section In.
  Variables (G : tenv) (c : cfg) (data : list byte).
  (** Reading a named class. *)
  Variable rec : nat -> val -> nat -> dres.

  Definition nres (wrap : N -> val) (p : res * N * nat) : dres :=
    match p with (r, n, pos) => (r, wrap n, pos) end.

  Definition des_flag (pos : nat) : res * N * nat := des_scalar c data 1 0 pos.

  (** Elements of a container already sized to [l]. *)
  Definition des_elems (bytes : bool) (f : val -> nat -> dres) (t : ty) (l : list val) (pos : nat)
    : dres :=
    seq_res (if bytes then des_bytes c data t (length l) l pos else des_all f l pos).

  Fixpoint des_ty (t : ty) {struct t} : val -> nat -> dres := fun prior pos =>
    match t with
    | TScalar w _ =>
        nres VN (des_scalar c data w (match prior with VN n => n | _ => 0 end) pos)
    | TBool =>
        match des_scalar c data 1 0 pos with
        | (ROk, n, pos') => if n <? 2 then (ROk, VN n, pos') else (RUB, prior, pos')
        | (r, _, pos') => (r, prior, pos')
        end
    | TVarint w sg zz =>
        nres VN (des_varint w zz (match prior with VN n => n | _ => 0 end) data pos)
    | TEmpty => (ROk, prior, pos)
    | TStruct si ms =>
        if negb (s_expl si) && is_empty t then (ROk, prior, pos)
        else if as_bytes c t then
          match des_bytes c data t 1 [prior] pos with
          | (r, [x], pos') => (r, x, pos')
          | (r, _, pos') => (r, prior, pos')
          end
        else seq_res (des_many des_ty ms (as_seq prior) pos)
    | TRec k => rec k prior pos
    | TArray n t' => des_elems (as_bytes c t') (des_ty t') t' (as_seq prior) pos
    | TTuple ts => seq_res (des_many des_ty ts (as_seq prior) pos)
    | TVec s contig t' =>
        match sz_of c s with
        | SzNone => des_elems (as_bytes c t' && contig) (des_ty t') t' (as_seq prior) pos
        | sz =>
            match des_size c data sz pos with
            | (ROk, n, pos') =>
                match vec_resize G c t' n (as_seq prior) with
                | (ROk, l) => des_elems (as_bytes c t' && contig) (des_ty t') t' l pos'
                | (r, l) => (r, VSeq l, pos')
                end
            | (r, _, pos') => (r, prior, pos')
            end
        end
    | TAssoc s k t' =>
        (* with SizeType = void this overload does not compile (void size{}); the model
           then uses container.size(), as line 2867 intends *)
        match (match sz_of c s with
               | SzNone => (ROk, N.of_nat (length (as_seq prior)), pos)
               | sz => des_size c data sz pos
               end) with
        | (ROk, n, pos') =>
            seq_res (des_assoc (des_ty t') (assoc_insert k) (dflt G t') (N.to_nat n) [] pos')
        | (r, _, pos') => (r, prior, pos')
        end
    | TSpan s t' =>
        match sz_of c s with
        | SzNone => des_elems (as_bytes c t') (des_ty t') t' (as_seq prior) pos
        | sz =>
            match des_size c data sz pos with
            | (ROk, n, pos') =>
                if N.of_nat (length (as_seq prior)) <? n
                then (RErr result_out_of_range, prior, pos')
                else des_elems (as_bytes c t') (des_ty t') t'
                       (firstn (N.to_nat n) (as_seq prior)) pos'
            | (r, _, pos') => (r, prior, pos')
            end
        end
    | TOpt dc t' =>
        match des_flag pos with
        | (ROk, 0, pos') => (ROk, VNone, pos')
        | (ROk, _, pos') =>
            des_inplace dc (des_ty t') VSome (opt_cur prior) (dflt G t') prior pos'
        | (r, _, pos') => (r, prior, pos')
        end
    | TOptPtr t' =>
        match des_flag pos with
        | (ROk, 0, pos') => (ROk, VNone, pos')
        | (ROk, _, pos') => des_ptr (des_ty t') (dflt G t') prior pos'
        | (r, _, pos') => (r, prior, pos')
        end
    | TPtr t' => des_ptr (des_ty t') (dflt G t') prior pos
    | TVariant ik meta alts =>
        match des_id c data ik pos with
        | (ROk, id, pos') =>
            match find_id meta id with
            | None => (RErr bad_message, prior, pos')
            | Some i =>
                let dc := match nth_error meta i with Some (_, b) => b | None => true end in
                (fix pick (l : list ty) (j : nat) {struct l} : dres :=
                   match l, j with
                   | t' :: _, O =>
                       des_inplace dc (des_ty t') (VAlt i) (active i prior) (dflt G t') prior pos'
                   | _ :: l', S j' => pick l' j'
                   | [], _ => (RUB, prior, pos')
                   end) alts i
            end
        | (r, _, pos') => (r, prior, pos')
        end
    | TBitset n => des_bitset data n prior pos
    | TView (VwSized s) =>
        match des_size c data (sz_of c s) pos with
        | (ROk, n, pos') =>
            match sz_of c s with
            | SzNone => (* default size type void: takes the rest (2826-2831) *)
                match load data pos (length data - pos) with
                | Some e => (ROk, VBytes e, length data)
                | None => (RUB, prior, pos)
                end
            | _ =>
                if remaining data pos' <? n then (RErr result_out_of_range, prior, pos')
                else match load data pos' (N.to_nat n) with
                     | Some e => (ROk, VBytes e, (pos' + N.to_nat n)%nat)
                     | None => (RUB, prior, pos')
                     end
            end
        | (r, _, pos') => (r, prior, pos')
        end
    | TView (VwFixed n) =>
        if remaining data pos <? N.of_nat n then (RErr result_out_of_range, prior, pos)
        else match load data pos n with
             | Some e => (ROk, VBytes e, (pos + n)%nat)
             | None => (RUB, prior, pos)
             end
    | TView VwRest =>
        match load data pos (length data - pos) with
        | Some e => (ROk, VBytes e, length data)
        | None => (RUB, prior, pos)
        end
    end.
End In.

(** Named classes: one unit of [fuel] per level of recursion (stack depth). *)
Fixpoint des_rec (G : tenv) (c : cfg) (data : list byte) (fuel : nat) (k : nat) (prior : val) (pos : nat)
  : dres :=
  match fuel with
  | O => (RStack, prior, pos)
  | S f =>
      seq_res (des_many (des_ty G c data (des_rec G c data f)) (t_mems G k) (as_seq prior) pos)
  end.

(** in::serialize_one with [fuel] levels of stack for recursive types. *)
Definition des (G : tenv) (c : cfg) (data : list byte) (fuel : nat) : ty -> val -> nat -> dres :=
  des_ty G c data (des_rec G c data fuel).

(** in::operator() (2531-2534) on several items. *)
Definition in_call (G : tenv) (c : cfg) (data : list byte) (fuel : nat)
  (ts : list ty) (priors : list val) (pos : nat) : res * list val * nat :=
  des_many (des G c data fuel) ts priors pos.

(** known_id on input (2976-3002): the current alternative is reused or replaced and read in
    place; for a type that is not default constructible the function has no return
    statement after the move (line 3000), which is undefined behaviour on success. *)
Definition des_known (G : tenv) (c : cfg) (data : list byte) (fuel : nat)
  (i : nat) (dc : bool) (alts : list ty) (prior : val) (pos : nat) : dres :=
  match nth_error alts i with
  | None => (RUB, prior, pos)
  | Some t' =>
      match des_inplace dc (des G c data fuel t') (VAlt i) (active i prior) (dflt G t') prior pos with
      | (ROk, v, pos') => if dc then (ROk, v, pos') else (RUB, v, pos')
      | other => other
      end
  end.
