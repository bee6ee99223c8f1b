(** The universe of serializable C++ types and their values.

    [ty] is a deep embedding of the types accepted by [basic_out::serialize_one] /
    [in::serialize_one] (zpp_bits.h:2042-2339 and 2601-3093); [val] is the set of
    objects of those types.  Scalars are represented by their object bits as a number. *)

From Coq Require Import List NArith ZArith Lia Bool Arith.
From Verif Require Import Base.Bytes.
Import ListNotations.
Local Open Scope N_scope.

(** Size prefix type of a container: [void] ([no_size], zpp_bits.h:1143-1146), an
    unsigned integer of [w] bytes (size1b..size_native, 1148-1171; default uint32_t,
    line 67), or a varint over a [w]-byte integer (size_varint = vsize_t, 1852-1857). *)
Inductive sizety := SzNone | SzFix (w : nat) | SzVar (w : nat).

Inductive val : Type :=
| VN (n : N)              (* scalar, bool, varint: the bits of the object, as a number *)
| VSeq (l : list val)     (* struct, tuple, array, container *)
| VNone                   (* std::nullopt, null pointer *)
| VSome (v : val)         (* engaged optional, non-null owning pointer *)
| VAlt (i : nat) (v : val) (* variant holding alternative number i *)
| VValueless              (* valueless_by_exception variant *)
| VBits (l : list bool)   (* std::bitset, bit 0 first *)
| VBytes (l : list byte). (* the bytes a const byte view refers to *)

(** How an associative container places elements.  [a_map]: elements are pairs and the
    key is the first component; [a_multi]: equivalent keys allowed; [a_cmp]: ordered by a
    comparison, or hashed with an equality.  For hashed containers [VSeq] lists the
    elements in writer iteration / reader insertion order (iteration order of the
    rebuilt hash table is not modelled). *)
Inductive acmp := AOrd (lt : val -> val -> bool) | AHash (eqv : val -> val -> bool).
Record akind := mkAkind { a_map : bool; a_multi : bool; a_cmp : acmp }.

(** Static facts about a class type: [s_size] = sizeof, [s_triv] = trivially copyable and
    bit_cast-able (zpp_bits.h:1303-1318), [s_expl] = has an explicit serialize function
    (access::has_explicit_serialize, 314-343; modelled as visiting the members in order),
    [s_dflt] = the value-initialised object ([T{}], including default member initialisers). *)
Record sinfo := mkSinfo { s_size : nat; s_triv : bool; s_expl : bool; s_dflt : val }.

(** Wire type of variant ids: [std::byte] or an integer of [w] bytes, or a byte array of
    [n] bytes (zpp_bits.h:443-477). Ids are numbers; for byte arrays read little endian. *)
Inductive idkind := IdInt (w : nat) | IdBytes (n : nat).

Inductive viewk :=
| VwSized (sz : option sizety)  (* string_view, span<const byte>: with size prefix *)
| VwFixed (n : nat)             (* span<const byte, n> (written only; see DESIGN.md section 5) *)
| VwRest.                       (* unsized const byte view: rest of the input *)

Inductive ty : Type :=
| TScalar (w : nat) (isbyte : bool)      (* integer, enum, float of w bytes; isbyte: char, unsigned char, std::byte *)
| TBool
| TVarint (w : nat) (sg : bool) (zz : bool) (* varint<intW / uintW, normal / zig_zag> *)
| TEmpty                                  (* empty class *)
| TStruct (si : sinfo) (ms : list ty)     (* class with members ms, in order *)
| TRec (k : nat)                          (* named class, possibly self-referencing *)
| TArray (n : nat) (t : ty)               (* C array, std::array, fixed extent mutable span; n > 0 *)
| TTuple (ts : list ty)                   (* std::tuple, std::pair *)
| TVec (sz : option sizety) (contig : bool) (t : ty) (* resizable container; None = archive default size *)
| TAssoc (sz : option sizety) (k : akind) (t : ty)   (* set / map; t = element (pair for maps) *)
| TOpt (dc : bool) (t : ty)               (* std::optional; dc: T is default constructible *)
| TOptPtr (t : ty)                        (* zpp::bits::optional_ptr *)
| TPtr (t : ty)                           (* std::unique_ptr / std::shared_ptr *)
| TVariant (ik : idkind) (meta : list (N * bool)) (alts : list ty) (* meta: id and default-constructibility of each alternative *)
| TBitset (n : nat)
| TView (k : viewk)
| TSpan (sz : option sizety) (t : ty).    (* mutable span of dynamic extent *)

(** Named classes. *)
Record tenv := mkTenv { t_info : nat -> sinfo; t_mems : nat -> list ty }.

(** Archive configuration after resolving the template options
    (zpp_bits.h:1889-1909, 2435-2441, 2513-2520).
    [host_le]: the host is little endian; [swap]: endian_aware; [dsize]: default size type;
    [alim]: allocation limit; [emul]/[ediv]: enlarger; [noovf], [nofit]: options;
    [growable]: the byte view has resize (1901-1904); [alloc_ok n]: an arbitrary allocator
    predicate, whether a buffer of n bytes can be provided; [abi]: sizeof of types whose
    layout is not determined by the wire format (containers, optionals, ...). *)
Record cfg := mkCfg {
  host_le : bool; swap : bool; dsize : sizety; alim : option N;
  emul : N; ediv : N; noovf : bool; nofit : bool; growable : bool;
  alloc_ok : N -> bool; abi : ty -> N
}.

Definition sz_of (c : cfg) (o : option sizety) : sizety :=
  match o with Some s => s | None => dsize c end.

(** concepts::empty (859-864). *)
Definition is_empty (t : ty) : bool :=
  match t with
  | TEmpty => true
  | TStruct _ [] => true
  | _ => false
  end.

(** sizeof for byte-serializable types. *)
Fixpoint bsize (t : ty) : nat :=
  match t with
  | TScalar w _ => w
  | TBool => 1
  | TEmpty => 1
  | TStruct si _ => s_size si
  | TArray n t' => n * bsize t'
  | _ => 0
  end.

Definition sum (l : list nat) : nat := fold_right Nat.add O l.

(** access::byte_serializable (1270-1328): trivially copyable, no explicit serialize,
    members byte serializable and not empty, no padding.  An empty class has no members
    and is accepted (line 1326), although it is rejected as a member (line 1288).
    Tuples, pairs, containers, optionals, variants, pointers and bitsets are never byte
    serializable (number_of_members < 0 through inspection_guarded, or not trivially
    copyable). *)
Fixpoint bs (t : ty) : bool :=
  match t with
  | TScalar _ _ => true
  | TBool => true
  | TEmpty => true
  | TStruct si ms =>
      s_triv si && negb (s_expl si)
      && forallb bs ms
      && (sum (map bsize ms) =? s_size si)%nat
      && negb (existsb is_empty ms)
      && negb (is_empty (TStruct si ms))
  | TArray n t' => bs t'
  | _ => false
  end.

(** access::endian_independent_byte_serializable (1330-1390): byte types and arrays of
    byte types only (classes fail the byte_type test at 1349). *)
Fixpoint eibs (t : ty) : bool :=
  match t with
  | TScalar _ isbyte => isbyte
  | TArray _ t' => eibs t'
  | _ => false
  end.

(** concepts::serialize_as_bytes (879-881). *)
Definition as_bytes (c : cfg) (t : ty) : bool := eibs t || (negb (swap c) && bs t).

(** sizeof(T) as used by the allocation limit check (2762). *)
Definition csizeof (c : cfg) (t : ty) : N :=
  if bs t then N.of_nat (bsize t) else abi c t.

(** Value-initialised object [T{}] (access::placement_new / make_unique, 181-193;
    value_type{} at 2941; element default-insertion by container.resize). *)
Fixpoint dflt (G : tenv) (t : ty) : val :=
  match t with
  | TScalar _ _ | TBool | TVarint _ _ _ => VN 0
  | TEmpty => VSeq []
  | TStruct si _ => s_dflt si
  | TRec k => s_dflt (t_info G k)
  | TArray n t' => VSeq (repeat (dflt G t') n)
  | TTuple ts => VSeq (map (dflt G) ts)
  | TVec _ _ _ | TAssoc _ _ _ | TSpan _ _ => VSeq []
  | TOpt _ _ | TOptPtr _ | TPtr _ => VNone
  | TVariant _ _ alts =>
      match alts with t0 :: _ => VAlt O (dflt G t0) | [] => VValueless end
  | TBitset n => VBits (repeat false n)
  | TView k => match k with VwFixed n => VBytes (zeros n) | _ => VBytes [] end
  end.

(** Key of an element of an associative container. *)
Definition akey (k : akind) (v : val) : val :=
  if a_map k then match v with VSeq (x :: _) => x | _ => v end else v.

Definition equivalent (k : akind) (x y : val) : bool :=
  match a_cmp k with
  | AOrd lt => negb (lt (akey k x) (akey k y)) && negb (lt (akey k y) (akey k x))
  | AHash eqv => eqv (akey k x) (akey k y)
  end.

(** [before k x y]: [x] may precede [y] in iteration order of a well-formed container. *)
Definition before (k : akind) (x y : val) : bool :=
  match a_cmp k with
  | AOrd lt =>
      if a_multi k then negb (lt (akey k y) (akey k x))
      else lt (akey k x) (akey k y) && negb (lt (akey k y) (akey k x))
  | AHash eqv =>
      if a_multi k then true else negb (eqv (akey k x) (akey k y))
  end.

Fixpoint pairwise (r : val -> val -> bool) (l : list val) : bool :=
  match l with
  | [] => true
  | x :: l' => forallb (r x) l' && pairwise r l'
  end.

(** Generic list walks used inside the nested fixpoints. *)
Section Walk.
  Context {A B : Type} (f : A -> B -> bool).
  Fixpoint forall2b (l : list A) (m : list B) : bool :=
    match l, m with
    | [], [] => true
    | x :: l', y :: m' => f x y && forall2b l' m'
    | _, _ => false
    end.
End Walk.

(** [wt G v t]: [v] is a valid object of type [t]. *)
Fixpoint wt (G : tenv) (v : val) (t : ty) {struct v} : bool :=
  match t, v with
  | TScalar w _, VN n => n <? pow256 w
  | TBool, VN n => n <? 2
  | TVarint w _ _, VN n => n <? pow256 w
  | TEmpty, VSeq l => match l with [] => true | _ => false end
  | TStruct _ ms, VSeq l => forall2b (fun x m => wt G x m) l ms
  | TRec k, VSeq l => forall2b (fun x m => wt G x m) l (t_mems G k)
  | TArray n t', VSeq l => (length l =? n)%nat && forallb (fun x => wt G x t') l
  | TTuple ts, VSeq l => forall2b (fun x m => wt G x m) l ts
  | TVec _ _ t', VSeq l => forallb (fun x => wt G x t') l
  | TAssoc _ k t', VSeq l => forallb (fun x => wt G x t') l && pairwise (before k) l
  | TSpan _ t', VSeq l => forallb (fun x => wt G x t') l
  | TOpt _ _, VNone => true
  | TOpt _ t', VSome x => wt G x t'
  | TOptPtr _, VNone => true
  | TOptPtr t', VSome x => wt G x t'
  | TPtr _, VNone => true
  | TPtr t', VSome x => wt G x t'
  | TVariant _ _ alts, VAlt i x =>
      match nth_error alts i with Some t' => wt G x t' | None => false end
  | TVariant _ _ _, VValueless => true
  | TBitset n, VBits l => (length l =? n)%nat
  | TView (VwFixed n), VBytes l => (length l =? n)%nat
  | TView _, VBytes _ => true
  | _, _ => false
  end.

(** Well-formed types: what the C++ compiler and the static_asserts enforce. *)
Definition wfw (w : nat) : bool :=
  ((w =? 1) || (w =? 2) || (w =? 4) || (w =? 8))%nat.

Definition wfsz (s : option sizety) : bool :=
  match s with
  | Some (SzFix w) | Some (SzVar w) => wfw w
  | _ => true
  end.

Fixpoint distinct (l : list N) : bool :=
  match l with
  | [] => true
  | x :: l' => negb (existsb (N.eqb x) l') && distinct l'
  end.

Definition idwidth (k : idkind) : nat := match k with IdInt w => w | IdBytes n => n end.

Fixpoint wf (G : tenv) (t : ty) : bool :=
  match t with
  | TScalar w isbyte => (0 <? w)%nat && (negb isbyte || (w =? 1)%nat)
  | TVarint w _ _ => wfw w
  | TStruct si ms =>
      ((0 <? length ms)%nat || s_expl si) && forallb (wf G) ms && wt G (s_dflt si) t
  | TRec _ => true (* checked once and for all by wf_env *)
  | TArray n t' => (0 <? n)%nat && wf G t'
  | TTuple ts => forallb (wf G) ts
  | TVec s _ t' => wfsz s && wf G t'
  | TAssoc s _ t' => wfsz s && wf G t'
  | TSpan s t' => wfsz s && wf G t'
  | TOpt _ t' | TOptPtr t' | TPtr t' => wf G t'
  | TVariant ik meta alts =>
      (0 <? length alts)%nat && (length meta =? length alts)%nat
      && distinct (map fst meta)
      && forallb (fun i => i <? pow256 (idwidth ik)) (map fst meta)
      && forallb (wf G) alts
  | TView (VwSized s) => wfsz s
  | _ => true
  end.

Definition wf_env (G : tenv) : Prop :=
  forall k, forallb (wf G) (t_mems G k) = true /\ wt G (s_dflt (t_info G k)) (TRec k) = true.

(** [tall p t]: every type occurring in [t] satisfies [p]; for named classes see [tall_env]. *)
Fixpoint tall (p : ty -> bool) (t : ty) : bool :=
  p t &&
  match t with
  | TStruct _ ts | TTuple ts | TVariant _ _ ts => forallb (tall p) ts
  | TArray _ t' | TVec _ _ t' | TAssoc _ _ t' | TSpan _ t'
  | TOpt _ t' | TOptPtr t' | TPtr t' => tall p t'
  | _ => true
  end.

Definition tall_env (p : ty -> bool) (G : tenv) : Prop :=
  forall k, forallb (tall p) (t_mems G k) = true.

(** Induction principles. *)
Section TyInd.
  Variable P : ty -> Prop.
  Hypothesis HScalar : forall w b, P (TScalar w b).
  Hypothesis HBool : P TBool.
  Hypothesis HVarint : forall w sg zz, P (TVarint w sg zz).
  Hypothesis HEmpty : P TEmpty.
  Hypothesis HStruct : forall si ms, Forall P ms -> P (TStruct si ms).
  Hypothesis HRec : forall k, P (TRec k).
  Hypothesis HArray : forall n t, P t -> P (TArray n t).
  Hypothesis HTuple : forall ts, Forall P ts -> P (TTuple ts).
  Hypothesis HVec : forall s cg t, P t -> P (TVec s cg t).
  Hypothesis HAssoc : forall s k t, P t -> P (TAssoc s k t).
  Hypothesis HOpt : forall dc t, P t -> P (TOpt dc t).
  Hypothesis HOptPtr : forall t, P t -> P (TOptPtr t).
  Hypothesis HPtr : forall t, P t -> P (TPtr t).
  Hypothesis HVariant : forall ik meta alts, Forall P alts -> P (TVariant ik meta alts).
  Hypothesis HBitset : forall n, P (TBitset n).
  Hypothesis HView : forall k, P (TView k).
  Hypothesis HSpan : forall s t, P t -> P (TSpan s t).

  Fixpoint ty_ind' (t : ty) : P t :=
    let go := fix go (l : list ty) : Forall P l :=
      match l with
      | [] => Forall_nil P
      | x :: l' => Forall_cons x (ty_ind' x) (go l')
      end in
    match t with
    | TScalar w b => HScalar w b
    | TBool => HBool
    | TVarint w sg zz => HVarint w sg zz
    | TEmpty => HEmpty
    | TStruct si ms => HStruct si ms (go ms)
    | TRec k => HRec k
    | TArray n t' => HArray n t' (ty_ind' t')
    | TTuple ts => HTuple ts (go ts)
    | TVec s cg t' => HVec s cg t' (ty_ind' t')
    | TAssoc s k t' => HAssoc s k t' (ty_ind' t')
    | TOpt dc t' => HOpt dc t' (ty_ind' t')
    | TOptPtr t' => HOptPtr t' (ty_ind' t')
    | TPtr t' => HPtr t' (ty_ind' t')
    | TVariant ik meta alts => HVariant ik meta alts (go alts)
    | TBitset n => HBitset n
    | TView k => HView k
    | TSpan s t' => HSpan s t' (ty_ind' t')
    end.
End TyInd.

Section ValInd.
  Variable P : val -> Prop.
  Hypothesis HN : forall n, P (VN n).
  Hypothesis HSeq : forall l, Forall P l -> P (VSeq l).
  Hypothesis HNone : P VNone.
  Hypothesis HSome : forall v, P v -> P (VSome v).
  Hypothesis HAlt : forall i v, P v -> P (VAlt i v).
  Hypothesis HValueless : P VValueless.
  Hypothesis HBits : forall l, P (VBits l).
  Hypothesis HBytes : forall l, P (VBytes l).

  Fixpoint val_ind' (v : val) : P v :=
    match v with
    | VN n => HN n
    | VSeq l => HSeq l ((fix go (l : list val) : Forall P l :=
        match l with
        | [] => Forall_nil P
        | x :: l' => Forall_cons x (val_ind' x) (go l')
        end) l)
    | VNone => HNone
    | VSome x => HSome x (val_ind' x)
    | VAlt i x => HAlt i x (val_ind' x)
    | VValueless => HValueless
    | VBits l => HBits l
    | VBytes l => HBytes l
    end.
End ValInd.
