(** Concrete configurations, types and values used to show that the hypotheses of the
    theorems can be met by non-trivial inputs. *)

From Coq Require Import List NArith ZArith Lia Bool Arith.
From Verif Require Import Base.Bytes Model.Types Model.Machine Model.Varint Model.Out.
Import ListNotations.
Local Open Scope N_scope.

(** zpp::bits::out{std::vector<std::byte>} on x86-64 with default options. *)
Definition vec_cfg : cfg :=
  mkCfg true false (SzFix 4) None 3 2 false false true (fun _ => true) (fun _ => 8).

(** zpp::bits::out{std::span<std::byte>}: fixed buffer. *)
Definition span_cfg : cfg :=
  mkCfg true false (SzFix 4) None 3 2 false false false (fun _ => true) (fun _ => 8).

(** A growable archive with alloc_limit<l>. *)
Definition limit_cfg (l : N) : cfg :=
  mkCfg true false (SzFix 4) (Some l) 3 2 false false true (fun _ => true) (fun _ => 8).

(** A growable archive with endian::big on a little or big endian host. *)
Definition big_cfg (le : bool) : cfg :=
  mkCfg le le (SzFix 4) None 3 2 false false true (fun _ => true) (fun _ => 8).

(** struct node { std::uint8_t value; std::optional_ptr<node> next; } - named class 0. *)
Definition node_env : tenv :=
  mkTenv (fun k => match k with
                   | O => mkSinfo 16 false false (VSeq [VN 0; VNone])
                   | _ => mkSinfo 1 false false (VSeq [])
                   end)
         (fun k => match k with
                   | O => [TScalar 1 false; TOptPtr (TRec 0)]
                   | _ => []
                   end).

Definition lt_n (a b : val) : bool :=
  match a, b with VN x, VN y => x <? y | _, _ => false end.
Definition map_kind : akind := mkAkind true false (AOrd lt_n).

(** struct { int32 a; struct {uint16 x, y;} p[2]; std::vector<std::uint16_t> v;
    std::optional<vint64_t> o; std::variant<std::byte, std::uint32_t> w;
    std::map<std::uint8_t, bool> m; std::unique_ptr<node> n; } *)
Definition point : ty :=
  TStruct (mkSinfo 4 true false (VSeq [VN 0; VN 0])) [TScalar 2 false; TScalar 2 false].
Definition demo_members : list ty :=
  [ TScalar 4 false;
    TArray 2 point;
    TVec None true (TScalar 2 false);
    TOpt true (TVarint 8 true true);
    TVariant (IdInt 1) [(0, true); (1, true)] [TScalar 1 true; TScalar 4 false];
    TAssoc (Some (SzVar 8)) map_kind (TTuple [TScalar 1 false; TBool]);
    TPtr (TRec 0) ].
Definition demo_default : val :=
  VSeq [VN 0; VSeq [VSeq [VN 0; VN 0]; VSeq [VN 0; VN 0]]; VSeq []; VNone;
        VAlt 0 (VN 0); VSeq []; VNone].
Definition demo_ty : ty := TStruct (mkSinfo 120 false false demo_default) demo_members.

Definition demo_val : val :=
  VSeq [ VN 0x01020304;
         VSeq [VSeq [VN 1; VN 2]; VSeq [VN 3; VN 4]];
         VSeq [VN 5; VN 6; VN 0xffff];
         VSome (VN 0xfffffffffffffff0);
         VAlt 1 (VN 77);
         VSeq [VSeq [VN 1; VN 1]; VSeq [VN 9; VN 0]];
         VSome (VSeq [VN 8; VSome (VSeq [VN 9; VNone])]) ].

(** std::bitset<11>. *)
Definition demo_bits : val :=
  VBits [true;false;true;true;false;false;false;true;true;false;true].
