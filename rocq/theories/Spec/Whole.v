(** Values with a hole: an owning pointer that is null or a variant without a value, at a place
    that has to be written.  No mention of bytes or of the writer. *)

From Coq Require Import List.
From Verif Require Import Base.Bytes Model.Types.
Import ListNotations.

Section Whole.
  Variable G : tenv.

  (** The members or elements of an object with their types. *)
  Definition parts (t : ty) (l : list val) : list (val * ty) :=
    match t with
    | TStruct _ ms | TTuple ms => combine l ms
    | TRec k => combine l (t_mems G k)
    | TArray _ t' | TVec _ _ t' | TAssoc _ _ t' | TSpan _ t' => map (fun x => (x, t')) l
    | _ => []
    end.

  Inductive holed : val -> ty -> Prop :=
  | holed_null t : holed VNone (TPtr t)
  | holed_valueless ik meta alts : holed VValueless (TVariant ik meta alts)
  | holed_part t l x t' : In (x, t') (parts t l) -> holed x t' -> holed (VSeq l) t
  | holed_pointee t x : holed x t -> holed (VSome x) (TPtr t)
  | holed_optional dc t x : holed x t -> holed (VSome x) (TOpt dc t)
  | holed_optional_ptr t x : holed x t -> holed (VSome x) (TOptPtr t)
  | holed_alternative ik meta alts i x t :
      nth_error alts i = Some t -> holed x t -> holed (VAlt i x) (TVariant ik meta alts).
End Whole.
