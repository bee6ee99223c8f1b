(** Views of const bytes read from a vector that an output archive writes to as well: in_out and
    data_in_out (zpp_bits.h:3156-3183), which README's RPC section uses for server and client.
    A view read (2819-2831) points into the vector; enlarging the vector may move its bytes to
    another block of memory and free the old one. *)

From Coq Require Import List NArith Bool Arith.
From Verif Require Import Base.Bytes Model.Types Model.Machine Model.Out Model.In.
Import ListNotations.

(** A view: the block it points into, where, and how many bytes. *)
Record view := mkV { v_blk : nat; v_off : nat; v_len : nat }.

(** The vector: the block its bytes are in (blocks are numbered in the order of their
    allocation, all but the last have been freed), its capacity, its bytes and the position of
    the output archive. *)
Record abuf := mkA { a_blk : nat; a_cap : nat; a_st : ost }.

Definition aact := abuf -> res * abuf.

Section Alias.
  (** What a standard library allocates when a vector of capacity [cap] is enlarged to [n]
      bytes: [room cap n], at least [n]. *)
  Variable room : nat -> nat -> nat.

  (** The vector after something brought its bytes to [st']: it has moved exactly if they do
      not fit the capacity.  (While items are written the vector is only ever enlarged, so the
      final size decides; fitting it to the position makes it shorter and never moves it.) *)
  Definition settle (a : abuf) (st' : ost) : abuf :=
    if (length (obuf st') <=? a_cap a)%nat then mkA (a_blk a) (a_cap a) st'
    else mkA (S (a_blk a)) (room (a_cap a) (length (obuf st'))) st'.

  Definition on (f : act) : aact := fun a =>
    match f (a_st a) with (r, st') => (r, settle a st') end.

  (** Sequencing as in Model/Machine.v. *)
  Definition aseq (f g : aact) : aact := fun a =>
    match f a with
    | (ROk, a') => g a'
    | other => other
    end.

  (** The bytes a view shows; [None]: there are some and they are in a
      freed block or behind the end. *)
  Definition deref (w : view) (a : abuf) : option (list byte) :=
    if (v_len w =? 0)%nat then Some []
    else if (v_blk w =? a_blk a)%nat && (v_off w + v_len w <=? length (obuf (a_st a)))%nat
    then Some (window (obuf (a_st a)) (v_off w) (v_len w))
    else None.

  (** std::memcpy from the view to the position (2132-2134); overlapping regions are
      undefined. *)
  Definition copy_view (w : view) : aact := fun a =>
    match deref w a with
    | None => (RUB, a)
    | Some e =>
        if (v_off w + v_len w <=? opos (a_st a))%nat || (opos (a_st a) + v_len w <=? v_off w)%nat
        then on (store e) a
        else (RUB, a)
    end.

  (** A view as a [bytes] item (2086-2142): nothing if it is empty, else room is made first. *)
  Definition put_view (c : cfg) (w : view) : aact :=
    if (v_len w =? 0)%nat then fun a => (ROk, a)
    else aseq (on (reserve c (N.of_nat (v_len w)))) (copy_view w).

  (** What is written: objects with memory of their own, and views by the number of the
      variable that holds them, with the size type of the container. *)
  Inductive witem := WOwn (v : val) (t : ty) | WView (s : option sizety) (i : nat).
  (** What is read: objects into targets, and views into new variables. *)
  Inductive ritem := ROwn (t : ty) (prior : val) | RView (s : option sizety).

  Section Write.
    Variables (G : tenv) (c : cfg) (vars : list view).
    Definition wr_item (i : witem) : aact :=
      match i with
      | WOwn v t => on (ser G c v t)
      | WView s j =>
          match nth_error vars j with
          | Some w => aseq (on (ser_size c (sz_of c s) (N.of_nat (v_len w)))) (put_view c w)
          | None => fun a => (RUB, a)
          end
      end.
    (** serialize_many (2005-2019). *)
    Fixpoint wr_items (l : list witem) : aact :=
      match l with
      | [] => fun a => (ROk, a)
      | i :: l' => aseq (wr_item i) (wr_items l')
      end.
    (** out::operator() (2443-2456). *)
    Definition aout_call (l : list witem) : aact := fun a =>
      if growable c && negb (nofit c) && negb (exact_enlarger c) then
        match wr_items l a with
        | (r, a') =>
            match fit_size c (length (obuf (a_st a))) r (a_st a') with
            | (r', st') => (r', settle a' st')
            end
        end
      else wr_items l a.
  End Write.

  Section Read.
    Variables (G : tenv) (c : cfg) (fuel : nat) (blk : nat) (data : list byte).
    (** The view branch of in::serialize_one (2805-2831). *)
    Definition rd_view (s : option sizety) (pos : nat) : res * view * nat :=
      match des_size c data (sz_of c s) pos with
      | (ROk, n, pos') =>
          match sz_of c s with
          | SzNone => (ROk, mkV blk pos (length data - pos), length data)
          | _ =>
              if (remaining data pos' <? n)%N then (RErr result_out_of_range, mkV blk 0 0, pos')
              else (ROk, mkV blk pos' (N.to_nat n), (pos' + N.to_nat n)%nat)
          end
      | (r, _, pos') => (r, mkV blk 0 0, pos')
      end.
    (** in::operator() (2531-2534): the objects read, the views read. *)
    Fixpoint rd_items (l : list ritem) (pos : nat) : res * list val * list view * nat :=
      match l with
      | [] => (ROk, [], [], pos)
      | ROwn t prior :: l' =>
          match des G c data fuel t prior pos with
          | (ROk, v, pos') =>
              match rd_items l' pos' with (r, vs, ws, p) => (r, v :: vs, ws, p) end
          | (r, _, pos') => (r, [], [], pos')
          end
      | RView s :: l' =>
          match rd_view s pos with
          | (ROk, w, pos') =>
              match rd_items l' pos' with (r, vs, ws, p) => (r, vs, w :: ws, p) end
          | (r, _, pos') => (r, [], [], pos')
          end
      end.
  End Read.

  (** The vector, the position of the input archive, the variables holding views. *)
  Record astate := mkS { s_buf : abuf; s_in : nat; s_vars : list view }.

  (** output(items...); input(targets...), new views becoming new variables; looking at the
      bytes of a view. *)
  Inductive aop := AWrite (l : list witem) | ARead (l : list ritem) | AUse (i : nat).

  (** Run a program until an operation fails; what it has seen: the objects read and the bytes
      looked at, in order. *)
  Fixpoint arun (G : tenv) (co ci : cfg) (fuel : nat) (os : list aop) (s : astate)
    : res * list val * astate :=
    match os with
    | [] => (ROk, [], s)
    | AWrite l :: os' =>
        match aout_call G co (s_vars s) l (s_buf s) with
        | (ROk, a') => arun G co ci fuel os' (mkS a' (s_in s) (s_vars s))
        | (r, a') => (r, [], mkS a' (s_in s) (s_vars s))
        end
    | ARead l :: os' =>
        match rd_items G ci fuel (a_blk (s_buf s)) (obuf (a_st (s_buf s))) l (s_in s) with
        | (ROk, vs, ws, pos) =>
            match arun G co ci fuel os' (mkS (s_buf s) pos (s_vars s ++ ws)) with
            | (r, seen, s') => (r, vs ++ seen, s')
            end
        | (r, _, _, pos) => (r, [], mkS (s_buf s) pos (s_vars s))
        end
    | AUse i :: os' =>
        match nth_error (s_vars s) i with
        | None => (RUB, [], s)
        | Some w =>
            match deref w (s_buf s) with
            | None => (RUB, [], s)
            | Some e =>
                match arun G co ci fuel os' s with (r, seen, s') => (r, VBytes e :: seen, s') end
            end
        end
    end.
End Alias.

(** An empty vector: no block, no capacity. *)
Definition fresh : astate := mkS (mkA 0 0 (mkO [] 0)) 0 [].
