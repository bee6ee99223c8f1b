(** How much work reading takes: the overloads of in::serialize_one (zpp_bits.h:2485-3093) once
    more, counting.

    A step is a call of serialize_one, a byte the position advances over, a byte of an object that
    is created (value-initialised: the elements container.resize adds, with those it moves to a
    larger buffer; temporaries, pointees, alternatives), or an insertion into a set or map.  Which
    calls are made is what Model/In.v says.  Not counted: the comparisons or hashes of an
    insertion, destroying what the targets held before, and the up to ten bytes a varint that is
    refused has looked at. *)

From Coq Require Import List NArith Bool Arith.
From Verif Require Import Base.Bytes Model.Types Model.Machine Model.Varint Model.Out Model.In.
Import ListNotations.
Local Open Scope N_scope.

(** The bytes between a position and the one after a step. *)
Definition past {A : Type} (pos : nat) (x : res * A * nat) : N := N.of_nat (snd x - pos).

(** serialize_many over members (2583-2597). *)
Section WorkMany.
  Context (g : ty -> val -> nat -> N) (f : ty -> val -> nat -> dres).
  Fixpoint work_many (ms : list ty) (priors : list val) (pos : nat) : N :=
    match ms with
    | [] => 0
    | m :: ms' =>
        let p := match priors with x :: _ => x | [] => VNone end in
        g m p pos + match f m p pos with
                    | (ROk, _, pos') => work_many ms' (tl priors) pos'
                    | _ => 0
                    end
    end.
End WorkMany.

Section WorkElems.
  Context (g : val -> nat -> N) (f : val -> nat -> dres).

  (** The elements one after the other (2715-2721, 2841-2847). *)
  Fixpoint work_all (l : list val) (pos : nat) : N :=
    match l with
    | [] => 0
    | x :: l' =>
        g x pos + match f x pos with
                  | (ROk, _, pos') => work_all l' pos'
                  | _ => 0
                  end
    end.

  (** The loop of associative containers (2873-2901): create an element ([fee]), read it,
      insert it. *)
  Variables (d : val) (fee : N).
  Fixpoint work_assoc (n : nat) (pos : nat) : N :=
    match n with
    | O => 0
    | S n' =>
        fee + g d pos + match f d pos with
                        | (ROk, _, pos') => 1 + work_assoc n' pos'
                        | _ => 0
                        end
    end.
End WorkElems.

(** container.resize(size) (2757-2767): growing creates or moves all elements; a size that is
    refused costs nothing. *)
Definition work_resize (G : tenv) (c : cfg) (t : ty) (n : N) (l : list val) : N :=
  match vec_resize G c t n l with
  | (ROk, _) => if n <=? N.of_nat (length l) then 0 else n * csizeof c t
  | _ => 0
  end.

(** An object read in place, or a new one ([fee]) (2938-2961, 3020-3050). *)
Definition work_inplace (dc : bool) (g : val -> nat -> N) (cur : option val) (d : val) (fee : N)
  (pos : nat) : N :=
  if dc then match cur with Some x => g x pos | None => fee + g d pos end
  else fee + g d pos.

Section Work.
  Variables (G : tenv) (c : cfg) (data : list byte).
  Variable rec : nat -> val -> nat -> dres.
  Variable recw : nat -> val -> nat -> N.

  Notation rd := (des_ty G c data rec).

  Definition work_elems (bytes : bool) (g : val -> nat -> N) (t : ty) (l : list val) (pos : nat) : N :=
    if bytes then past pos (des_bytes c data t (length l) l pos) else work_all g (rd t) l pos.

  Fixpoint work_ty (t : ty) {struct t} : val -> nat -> N := fun prior pos =>
    1 +
    match t with
    | TScalar _ _ | TBool | TVarint _ _ _ | TEmpty | TBitset _ | TView _ => past pos (rd t prior pos)
    | TStruct si ms =>
        if (negb (s_expl si) && is_empty t) || as_bytes c t then past pos (rd t prior pos)
        else work_many work_ty rd ms (as_seq prior) pos
    | TRec k => recw k prior pos
    | TArray n t' => work_elems (as_bytes c t') (work_ty t') t' (as_seq prior) pos
    | TTuple ts => work_many work_ty rd ts (as_seq prior) pos
    | TVec s contig t' =>
        match sz_of c s with
        | SzNone => work_elems (as_bytes c t' && contig) (work_ty t') t' (as_seq prior) pos
        | sz =>
            past pos (des_size c data sz pos) +
            match des_size c data sz pos with
            | (ROk, n, pos') =>
                work_resize G c t' n (as_seq prior) +
                match vec_resize G c t' n (as_seq prior) with
                | (ROk, l) => work_elems (as_bytes c t' && contig) (work_ty t') t' l pos'
                | _ => 0
                end
            | _ => 0
            end
        end
    | TAssoc s k t' =>
        match sz_of c s with
        | SzNone =>
            work_assoc (work_ty t') (rd t') (dflt G t') (csizeof c t') (length (as_seq prior)) pos
        | sz =>
            past pos (des_size c data sz pos) +
            match des_size c data sz pos with
            | (ROk, n, pos') =>
                work_assoc (work_ty t') (rd t') (dflt G t') (csizeof c t') (N.to_nat n) pos'
            | _ => 0
            end
        end
    | TSpan s t' =>
        match sz_of c s with
        | SzNone => work_elems (as_bytes c t') (work_ty t') t' (as_seq prior) pos
        | sz =>
            past pos (des_size c data sz pos) +
            match des_size c data sz pos with
            | (ROk, n, pos') =>
                if N.of_nat (length (as_seq prior)) <? n then 0
                else work_elems (as_bytes c t') (work_ty t') t' (firstn (N.to_nat n) (as_seq prior)) pos'
            | _ => 0
            end
        end
    | TOpt dc t' =>
        past pos (des_flag c data pos) +
        match des_flag c data pos with
        | (ROk, 0, _) => 0
        | (ROk, _, pos') =>
            work_inplace dc (work_ty t') (opt_cur prior) (dflt G t') (csizeof c t') pos'
        | _ => 0
        end
    | TOptPtr t' =>
        past pos (des_flag c data pos) +
        match des_flag c data pos with
        | (ROk, 0, _) => 0
        | (ROk, _, pos') => csizeof c t' + work_ty t' (dflt G t') pos'
        | _ => 0
        end
    | TPtr t' => csizeof c t' + work_ty t' (dflt G t') pos
    | TVariant ik meta alts =>
        past pos (des_id c data ik pos) +
        match des_id c data ik pos with
        | (ROk, id, pos') =>
            match find_id meta id with
            | None => 0
            | Some i =>
                let dc := match nth_error meta i with Some (_, b) => b | None => true end in
                (fix pick (l : list ty) (j : nat) {struct l} : N :=
                   match l, j with
                   | t' :: _, O =>
                       work_inplace dc (work_ty t') (active i prior) (dflt G t') (csizeof c t') pos'
                   | _ :: l', S j' => pick l' j'
                   | [], _ => 0
                   end) alts i
            end
        | _ => 0
        end
    end.
End Work.

(** Named classes, with [fuel] levels of stack. *)
Fixpoint work_rec (G : tenv) (c : cfg) (data : list byte) (fuel : nat) (k : nat) (prior : val) (pos : nat) : N :=
  match fuel with
  | O => 0
  | S f =>
      work_many (work_ty G c data (des_rec G c data f) (work_rec G c data f))
        (des_ty G c data (des_rec G c data f)) (t_mems G k) (as_seq prior) pos
  end.

Definition work (G : tenv) (c : cfg) (data : list byte) (fuel : nat) : ty -> val -> nat -> N :=
  work_ty G c data (des_rec G c data fuel) (work_rec G c data fuel).

(** The work of in::operator() (2531-2534) on several items. *)
Definition in_work (G : tenv) (c : cfg) (data : list byte) (fuel : nat)
  (ts : list ty) (priors : list val) (pos : nat) : N :=
  work_many (work G c data fuel) (des G c data fuel) ts priors pos.
