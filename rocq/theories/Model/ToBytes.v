(** to_bytes, from_bytes, join, slice and serialize_id (zpp_bits.h:3214-3304): functions
    evaluated at compile time.

    [None]: the constant evaluation fails (or_throw throws, an access is out of range, a
    static_assert fires), so the program does not compile.  [h]: the host is little-endian
    (the compiler evaluates for the target).  The arrays start uninitialised; they are zero
    here, which makes no difference because every byte is written before it is read (types
    with bitsets cannot be template arguments). *)

From Coq Require Import List NArith ZArith Arith Bool.
From Verif Require Import Base.Bytes Model.Types Model.Machine Model.Out Model.Options Model.In.
Import ListNotations.
Local Open Scope N_scope.

(** out{data} over a std::array, in{data}: no options. *)
Definition array_cfg (h : bool) (abi : ty -> N) : cfg := config h false [] (fun _ => true) abi.

(** MaxSize (3214). *)
Definition max_size : nat := N.to_nat 0x1000.

Section Bytes.
  Variables (G : tenv) (h : bool) (abi : ty -> N).
  Let c := array_cfg h abi.

  (** out{data}(items...).or_throw() for an array of [size] bytes: the archive afterwards. *)
  Definition out_array (size : nat) (vs : list val) (ts : list ty) : option ost :=
    match out_call G c vs ts (mkO (zeros size) 0) with
    | (ROk, st) => Some st
    | _ => None
    end.

  (** to_bytes_one (3214-3231): once to find the size, once into an array of that size. *)
  Definition to_bytes_one (v : val) (t : ty) : option (list byte) :=
    match out_array max_size [v] [t] with
    | None => None
    | Some st =>
        let size := opos st in
        if (size =? 0)%nat then Some []
        else
          match out_array size [v] [t] with
          | None => None
          | Some st => Some (obuf st)
          end
    end.

  (** join (3233-3244).  The operands are std::array<std::byte, n> or the empty
      string_literal; both are written through bytes(...) without a size (2063-2141,
      2160-2176, 2182-2213), as a fixed view is. *)
  Definition join (ds : list (list byte)) : option (list byte) :=
    let size := sum (map (@length byte) ds) in
    if (size =? 0)%nat then Some []
    else
      match out_array size (map VBytes ds) (map (fun d => TView (VwFixed (length d))) ds) with
      | None => None
      | Some st => Some (obuf st)
      end.

  Fixpoint all_some {A} (l : list (option A)) : option (list A) :=
    match l with
    | [] => Some []
    | Some x :: l => match all_some l with Some m => Some (x :: m) | None => None end
    | None :: _ => None
    end.

  (** to_bytes (3261-3265). *)
  Definition to_bytes (objects : list (val * ty)) : option (list byte) :=
    match all_some (map (fun p => to_bytes_one (fst p) (snd p)) objects) with
    | Some ds => join ds
    | None => None
    end.

  (** from_bytes (3267-3281); several types are read as a tuple. *)
  Definition from_bytes (fuel : nat) (data : list byte) (t : ty) : option val :=
    match in_call G c data fuel [t] [dflt G t] 0 with
    | (ROk, [v], _) => Some v
    | _ => None
    end.

  (** slice<Left, Right> (3246-3259); Right = None stands for -1.  std::copy from beyond the
      end of the array is refused by the constant evaluator. *)
  Definition slice (left : nat) (right : option nat) (a : list byte) : option (list byte) :=
    match right with
    | None => if (left <=? length a)%nat then Some (skipn left a) else None
    | Some r =>
        if (left <? r)%nat && (r <=? length a)%nat then Some (window a left (r - left)) else None
    end.

  (** serialize_id (3283-3299): the id and its type. *)
  Definition serialize_id (fuel : nat) (id : val * ty) (max : option nat) : option (val * ty) :=
    match to_bytes [id] with
    | None => None
    | Some e =>
        match slice 0 max e with
        | None => None
        | Some s =>
            let read t := match from_bytes fuel s t with Some v => Some (v, t) | None => None end in
            match length s with
            | 0%nat => None (* sizeof(std::array<T, 0>) is 1: reads a byte from nothing *)
            | 1%nat => read (TScalar 1 true)
            | 2%nat => read (TScalar 2 false)
            | 4%nat => read (TScalar 4 false)
            | 8%nat => read (TScalar 8 false)
            | n => Some (VSeq (map (fun b => VN (b2n b)) s), TArray n (TScalar 1 true))
            end
        end
    end.
End Bytes.
