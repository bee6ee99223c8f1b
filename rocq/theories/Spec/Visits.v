(** How many objects a value consists of, and how many of them are not copied as part of
    another one. *)

From Coq Require Import List NArith Bool.
From Verif Require Import Base.Bytes Model.Types.
Import ListNotations.
Local Open Scope N_scope.

Fixpoint objects (v : val) : N :=
  match v with
  | VSeq l => 1 + fold_right (fun x n => objects x + n) 0 l
  | VSome x => 1 + objects x
  | VAlt _ x => 1 + objects x
  | _ => 1
  end.

Section Sums.
  Context (f : val -> ty -> N).
  Fixpoint sum_many (l : list val) (ms : list ty) : N :=
    match l, ms with
    | x :: l', m :: ms' => f x m + sum_many l' ms'
    | _, _ => 0
    end.
  Fixpoint sum_all (l : list val) (t : ty) : N :=
    match l with
    | [] => 0
    | x :: l' => f x t + sum_all l' t
    end.
End Sums.

(** Arrays and contiguous containers of byte serializable elements and byte serializable classes
    are copied at once. *)
Fixpoint visits (G : tenv) (c : cfg) (v : val) (t : ty) {struct v} : N :=
  1 +
  match t, v with
  | TStruct si ms, VSeq l =>
      if negb (s_expl si) && is_empty t || as_bytes c t then 0 else sum_many (visits G c) l ms
  | TRec k, VSeq l => sum_many (visits G c) l (t_mems G k)
  | TTuple ts, VSeq l => sum_many (visits G c) l ts
  | TArray _ t', VSeq l => if as_bytes c t' then 0 else sum_all (visits G c) l t'
  | TVec _ contig t', VSeq l => if as_bytes c t' && contig then 0 else sum_all (visits G c) l t'
  | TAssoc _ _ t', VSeq l => sum_all (visits G c) l t'
  | TSpan _ t', VSeq l => if as_bytes c t' then 0 else sum_all (visits G c) l t'
  | TOpt _ t', VSome x => visits G c x t'
  | TOptPtr t', VSome x => visits G c x t'
  | TPtr t', VSome x => visits G c x t'
  | TVariant _ _ alts, VAlt i x =>
      match nth_error alts i with Some t' => visits G c x t' | None => 0 end
  | _, _ => 0
  end.
