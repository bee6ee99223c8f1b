(** The expectations of the repository's own tests (test/src/ *.cpp), run in the model.

    Nothing is proved here for all inputs: these are the concrete inputs for which the authors of
    the library wrote down the expected bytes, values and errors, on the configuration the tests
    run on (little endian, 64 bits).  They tie the model to the code independently of the
    theorems.  Each example names the test it comes from. *)

From Coq Require Import Ascii String List NArith ZArith Bool Arith.
From Verif Require Import Base.Bytes Model.Types Model.Machine Model.Varint Model.Out Model.In Model.Options
  Model.Literals Model.ToBytes Model.Sha Model.Pb Model.Rpc Model.Apply Model.Dispatch
  Spec.Hex Spec.RpcQueue Thm.Apply.
Import ListNotations.
Local Open Scope string_scope.
Local Open Scope list_scope.
Local Open Scope N_scope.

(** ** Notation for the tests *)

Definition hexb (s : string) : list byte := match decode_hex (codes s) with Some b => b | None => [] end.
Definition text (s : string) : list byte := list_byte_of_string s.
Definition int32 (z : Z) : val := VN (Z.to_N (z mod 2 ^ 32)).
Definition int64 (z : Z) : val := VN (Z.to_N (z mod 2 ^ 64)).
Definition ints (l : list N) : val := VSeq (map VN l).
Definition str (s : string) : val := VSeq (map (fun b => VN (b2n b)) (text s)).
Definition strs (l : list string) : val := VSeq (map str l).

Definition tint : ty := TScalar 4 false.
Definition tstr : ty := TVec None true (TScalar 1 true).
Definition vector (t : ty) : ty := TVec None true t.
Definition tlist (t : ty) : ty := TVec None false t.

(** sizeof: std::string and std::vector as in libstdc++; nothing below depends on it. *)
Definition abi64 (t : ty) : N := match t with TVec _ _ (TScalar 1 true) => 32 | _ => 24 end.
Definition arch (os : list opt) : cfg := config true true os (fun n => n <? 2 ^ 40) abi64.
Definition plain : cfg := arch [].

(** out(vs...).or_throw() into an empty vector leaves exactly these bytes. *)
Definition writes (c : cfg) (vs : list val) (ts : list ty) (bytes : list byte) : Prop :=
  out_call no_types c vs ts (mkO [] 0) = (ROk, mkO bytes (length bytes)).
(** in(xs...).or_throw() yields these values and consumes [n] bytes. *)
Definition reads (c : cfg) (data : list byte) (ts : list ty) (priors vs : list val) (n : nat) : Prop :=
  in_call no_types c data 20 ts priors 0 = (ROk, vs, n).
Definition fails (c : cfg) (data : list byte) (ts : list ty) (priors : list val) (e : errc) : Prop :=
  fst (fst (in_call no_types c data 20 ts priors 0)) = RErr e.
(** Both, through one archive type. *)
Definition trip (c : cfg) (vs : list val) (ts : list ty) (priors : list val) (hex : string) : Prop :=
  writes c vs ts (hexb hex) /\ reads c (hexb hex) ts priors vs (length (hexb hex)).

Ltac run := cbv zeta; repeat match goal with |- _ /\ _ => split | |- trip _ _ _ _ _ => split end; (vm_compute; reflexivity).

Definition four : val := ints [1; 2; 3; 4].
Definition four_hex : string := "01000000020000000300000004000000".
Definition four_str : val := strs ["1"; "2"; "3"; "4"].
Definition four_str_hex : string := "0100000031010000003201000000330100000034".
Definition hex_vec : string := "04000000" ++ four_hex.
Definition hex_strs : string := "04000000" ++ four_str_hex.

(** ** Containers, arrays, pointers, optionals *)

(** test_array.cpp, test_stdarray.cpp, test_span_extent.cpp: integer, string. *)
Example test_arrays :
  trip plain [four] [TArray 4 tint] [ints [0; 0; 0; 0]] four_hex
  /\ trip plain [four_str] [TArray 4 tstr] [strs [""; ""; ""; ""]] four_str_hex.
Proof. run. Qed.

(** test_vector.cpp, test_list.cpp, test_data_sources.cpp, test_span.cpp. *)
Example test_vectors :
  trip plain [four] [vector tint] [VSeq []] hex_vec
  /\ trip plain [four_str] [vector tstr] [VSeq []] hex_strs
  /\ trip plain [four] [tlist tint] [VSeq []] hex_vec
  /\ trip plain [four_str] [tlist tstr] [VSeq []] hex_strs
  /\ trip plain [four] [TSpan None tint] [ints [0; 0; 0; 0]] hex_vec
  /\ trip plain [four_str] [TSpan None tstr] [strs [""; ""; ""; ""]] hex_strs.
Proof. run. Qed.

(** test_data_sources.cpp: stdarray, array, array_over_span: the same bytes in the first 20 of 128. *)
Example test_fixed_buffers :
  let c := config true false [] (fun n => n <? 2 ^ 40) abi64 in
  let st := snd (out_call no_types c [four] [vector tint] (mkO (zeros 128) 0)) in fst (out_call no_types c [four] [vector tint] (mkO (zeros 128) 0)) = ROk
    /\ firstn (opos st) (obuf st) = hexb hex_vec
    /\ reads c (obuf st) [vector tint] [VSeq []] [four] 20.
Proof. run. Qed.

(** test_vector.cpp, test_list.cpp: sized_1b_integer, unsized_integer, sized_t_1b_integer,
    unsized_t_integer, static_vector, vector1b. *)
Example test_sized :
  trip plain [four] [TVec (Some (SzFix 1)) true tint] [VSeq []] ("04" ++ four_hex)
  /\ trip plain [four] [TVec (Some (SzFix 1)) false tint] [VSeq []] ("04" ++ four_hex)
  /\ trip plain [four] [TVec (Some SzNone) true tint] [ints [0; 0; 0; 0]] four_hex
  /\ trip plain [four] [TVec (Some SzNone) false tint] [ints [0; 0; 0; 0]] four_hex
  /\ trip plain [four] [TVec (Some (SzFix 1)) true tint] [ints [0; 0; 0; 0]] ("04" ++ four_hex).
Proof. run. Qed.

(** test_default_size_type.cpp. *)
Example test_default_sizes :
  trip (arch [OSize (SzFix 1)]) [four] [vector tint] [VSeq []] ("04" ++ four_hex)
  /\ trip (arch [OSize (SzFix 2)]) [four] [vector tint] [VSeq []] ("0400" ++ four_hex)
  /\ trip (arch [OSize (SzFix 4)]) [four] [vector tint] [VSeq []] ("04000000" ++ four_hex)
  /\ trip (arch [OSize (SzFix 8)]) [four] [vector tint] [VSeq []] ("0400000000000000" ++ four_hex).
Proof. run. Qed.

(** test_append.cpp: the input skips the byte that was there. *)
Example test_append :
  let c := arch [OAppend] in
  let st := snd (construct c [OAppend] [xff]) in fst (construct c [OAppend] [xff]) = ROk
    /\ out_call no_types c [four] [vector tint] st = (ROk, mkO (hexb ("ff" ++ hex_vec)) 21)
    /\ in_call no_types c (hexb ("ff" ++ hex_vec)) 20 [vector tint] [VSeq []] 1 = (ROk, [four], 21%nat).
Proof. run. Qed.

(** test_span.cpp: string_input_out_of_range.  With exceptions the test accepts any
    std::system_error.  Without exceptions it asks for value_too_large, but the code returns
    result_out_of_range (zpp_bits.h:2779-2781), and so does the model. *)
Example test_span_out_of_range :
  fails plain (hexb hex_strs) [TSpan None tstr] [VSeq []] result_out_of_range
  /\ fails plain (hexb hex_strs) [TSpan None tstr] [strs [""; ""; ""]] result_out_of_range
  /\ reads plain (hexb hex_strs) [TSpan None tstr] [strs [""; ""; ""; ""]] [four_str] 24.
Proof. run. Qed.

(** test_set.cpp, test_map.cpp, test_unordered_set.cpp, test_unordered_map.cpp: the count comes
    first, and the container is restored. *)
Fixpoint lex (l m : list val) : bool :=
  match l, m with
  | [], _ :: _ => true
  | VN a :: l, VN b :: m => (a <? b) || ((a =? b) && lex l m)
  | _, _ => false
  end.
Definition less (a b : val) : bool :=
  match a, b with VN x, VN y => x <? y | VSeq l, VSeq m => lex l m | _, _ => false end.
Definition same (a b : val) : bool := negb (less a b) && negb (less b a).
Definition tset (t : ty) : ty := TAssoc None (mkAkind false false (AOrd less)) t.
Definition tmap (t u : ty) : ty := TAssoc None (mkAkind true false (AOrd less)) (TTuple [t; u]).
Definition tuset (t : ty) : ty := TAssoc None (mkAkind false false (AHash same)) t.
Definition tumap (t u : ty) : ty := TAssoc None (mkAkind true false (AHash same)) (TTuple [t; u]).
Definition twice (f : N -> val) : val := VSeq (map (fun n => VSeq [f n; f n]) [1; 2; 3; 4]).
Definition digit_str (n : N) : val := VSeq [VN (48 + n)].

Definition counted (v : val) (t : ty) : Prop :=
  exists rest, writes plain [v] [t] (hexb "04000000" ++ rest)
    /\ reads plain (hexb "04000000" ++ rest) [t] [VSeq []] [v] (4 + length rest).
Example test_associative :
  counted four (tset tint) /\ counted four_str (tset tstr)
  /\ counted four (tuset tint) /\ counted four_str (tuset tstr)
  /\ counted (twice VN) (tmap tint tint) /\ counted (twice digit_str) (tmap tstr tstr)
  /\ counted (twice VN) (tumap tint tint) /\ counted (twice digit_str) (tumap tstr tstr).
Proof.
  repeat match goal with
  | |- _ /\ _ => split
  | |- counted ?v ?t =>
      let rest := eval vm_compute in (skipn 4 (obuf (snd (out_call no_types plain [v] [t] (mkO [] 0))))) in
      exists rest; run
  end.
Qed.

(** test_optional.cpp, test_optional_ptr.cpp, test_unique_ptr.cpp, test_shared_ptr.cpp. *)
Example test_optionals :
  trip plain [VSome four] [TOpt true (vector tint)] [VNone] ("01" ++ hex_vec)
  /\ trip plain [VNone] [TOpt true (vector tint)] [VSome (ints [1; 2; 3])] "00"
  /\ trip plain [VSome (VN 0x1337)] [TOptPtr tint] [VNone] "0137130000"
  /\ trip plain [VNone] [TOptPtr tint] [VSome (VN 1337)] "00"
  /\ trip plain [VSome four] [TPtr (vector tint)] [VNone] hex_vec.
Proof. run. Qed.

(** test_bitset.cpp. *)
Definition bits7f : val := VBits [true; true; true; true; true; true; true; false].
Example test_bitset :
  trip plain [bits7f] [TBitset 8] [VBits (repeat false 8)] "7f".
Proof. run. Qed.

(** test_zero_copy_byte_types.cpp. *)
Example test_views :
  trip plain [VBytes (text "hello")] [TView (VwSized None)] [VBytes []] "0500000068656c6c6f"
  /\ writes plain [str "hello"] [TVec (Some SzNone) true (TScalar 1 true)] (text "hello")
  /\ reads plain (text "hello") [TView VwRest] [VBytes []] [VBytes (text "hello")] 5.
Proof. run. Qed.

(** ** Classes *)

(** test_byte_serializable.cpp: which types are byte serializable, and requires_padding. *)
Definition cls (size : nat) (triv expl : bool) (ms : list ty) : ty :=
  TStruct (mkSinfo size triv expl (VSeq (map (dflt no_types) ms))) ms.
Definition padded : ty := cls 8 true false [TScalar 1 true; tint].
Example test_byte_serializable :
  bs (TArray 5 tint) = true
  /\ bs (cls 8 true false [tint; tint]) = true
  /\ bs (cls 32 false false [tstr; tint]) = false
  /\ bs (vector (TScalar 1 true)) = false /\ bs tstr = false /\ bs (TView (VwSized None)) = false
  /\ bs (TSpan None (TScalar 1 true)) = false
  /\ bs (TArray 2 (TScalar 1 true)) = true
  /\ (let stdarray := cls 24 true false [TArray 5 tint; tint] in
      bs stdarray = true /\ bs (TArray 1 stdarray) = true)
  /\ (let custom := cls 24 true true [TArray 5 tint; tint] in
      bs custom = false /\ bs (TArray 1 custom) = false /\ as_bytes plain custom = false)
  /\ bs (cls 104 true false [TArray 5 (TArray 5 tint); tint]) = true
  /\ bs padded = false
  /\ trip plain [VSeq [VN 0x25; VN 0x1337]] [padded] [VSeq [VN 0; VN 0]] "2537130000".
Proof. run. Qed.

(** test_members_serialize.cpp, test_detect_members_serialize.cpp, test_sanity.cpp. *)
Definition person : ty := cls 40 false false [tstr; tint].
Example test_members :
  trip plain [VSeq [str "Person1"; VN 25]; VSeq [str "Person2"; VN 35]] [person; person]
    [VSeq [str ""; VN 0]; VSeq [str ""; VN 0]]
    "07000000506572736f6e311900000007000000506572736f6e3223000000"
  /\ trip plain [ints [1337; 1338]; ints [1339; 1340]] [cls 8 true false [tint; tint]; cls 8 true false [tint; tint]]
    [ints [0; 0]; ints [0; 0]] "390500003a0500003b0500003c050000"
  /\ trip plain [ints [1337]; ints [1338]] [cls 4 true false [tint]; cls 4 true false [tint]]
    [ints [0]; ints [0]] "390500003a050000".
Proof. run. Qed.

(** test_reflect.cpp: a point has two members, visited in order, whichever way they are counted. *)
Definition point_facts : facts :=
  {| d_type := NoDecl; d_adl := NoDecl; e_static := false; e_adl := false; q_variant := false;
     q_optional := false; q_container := false; q_key := false; q_tuple := false; q_index := false;
     q_bitset := false; q_fixed := false; q_whole := false; is_owner := false; is_arr := false;
     is_class := true; is_aggregate := true; is_empty_class := false; extent := 0; fixed_size := 0;
     tuple_size := 0; accepts := fun n => (n <=? 2)%nat |}.
Example test_reflect :
  forall md, number_of_members md point_facts 2 = Some 2%nat
    /\ visit_members md point_facts [1337; 1338] = Some [1337; 1338].
Proof. intros []; run. Qed.

(** test_graph.cpp: struct node { int value; std::vector<node> nodes; }. *)
Definition graph : tenv :=
  mkTenv (fun _ => mkSinfo 32 false false (VSeq [VN 0; VSeq []])) (fun _ => [tint; vector (TRec 0)]).
Definition node (n : N) (l : list val) : val := VSeq [VN n; VSeq l].
Definition tree : val := node 1 [node 2 [node 3 [node 4 []]]; node 5 []].
Example test_graph :
  let st := snd (out_call graph plain [tree] [TRec 0] (mkO [] 0)) in fst (out_call graph plain [tree] [TRec 0] (mkO [] 0)) = ROk
    /\ in_call graph plain (obuf st) 4 [TRec 0] [node 0 []] 0 = (ROk, [tree], opos st).
Proof. run. Qed.

(** test_endian.cpp: struct { uint8_t; uint16_t; uint32_t; uint64_t } is padded. *)
Definition integers : ty := cls 16 true false [TScalar 1 false; TScalar 2 false; tint; TScalar 8 false].
Definition integers_val : val := ints [0x12; 0x1234; 0x12345678; 0x123456789abcdef0].
Definition swapped_val : val := ints [0x12; 0x3412; 0x78563412; 0xf0debc9a78563412].
Definition integers0 : list val := [VN 0; ints [0; 0; 0; 0]].
Definition big_hex : string := "133713371212341234567812" ++ "3456789abcdef0".
Definition little_hex : string := "37133713" ++ "12" ++ "3412" ++ "78563412" ++ "f0debc9a78563412".
Example test_endian :
  let ts := [tint; integers] in
  let vs := [VN 0x13371337; integers_val] in
  let ws := [VN 0x37133713; swapped_val] in
  trip (arch [OBig]) vs ts integers0 big_hex
  /\ reads plain (hexb big_hex) ts integers0 ws 19
  /\ trip (arch [OLittle]) vs ts integers0 little_hex
  /\ reads (arch [OBig]) (hexb little_hex) ts integers0 ws 19
  /\ trip plain vs ts integers0 little_hex.
Proof. run. Qed.

(** test_constexpr.cpp. *)
Example test_constexpr :
  let c := config true false [] (fun n => n <? 2 ^ 40) abi64 in
  let zero := mkO (zeros 64) 0 in
  (let st := snd (out_call no_types c (map VN [1; 2; 3; 4; 5]) (repeat tint 5) zero) in fst (out_call no_types c (map VN [1; 2; 3; 4; 5]) (repeat tint 5) zero) = ROk
     /\ reads c (obuf st) (repeat tint 5) (repeat (VN 0) 5) (map VN [1; 2; 3; 4; 5]) 20)
  /\ (let st := snd (out_call no_types c [ints [1; 2; 3; 4; 5]] [TTuple (repeat tint 5)] zero) in fst (out_call no_types c [ints [1; 2; 3; 4; 5]] [TTuple (repeat tint 5)] zero) = ROk
     /\ reads c (obuf st) [TTuple (repeat tint 5)] [ints [0; 0; 0; 0; 0]] [ints [1; 2; 3; 4; 5]] 20)
  /\ (let st := snd (out_call no_types c [str "Hello World"] [TVec (Some SzNone) true (TScalar 1 true)] zero) in fst (out_call no_types c [str "Hello World"] [TVec (Some SzNone) true (TScalar 1 true)] zero) = ROk
     /\ reads c (obuf st) [TArray 11 (TScalar 1 true)] [ints (repeat 0 11)] [str "Hello World"] 11).
Proof. run. Qed.

(** ** Limits *)

(** test_alloc_limit.cpp: output. *)
Example test_alloc_limit_output :
  let c := arch [OAllocLimit 128] in
  let st := snd (out_call no_types c (map VN [1; 2; 3; 4]) (repeat tint 4) (mkO [] 0)) in fst (out_call no_types c (map VN [1; 2; 3; 4]) (repeat tint 4) (mkO [] 0)) = ROk
    /\ fst (out_call no_types c [ints (repeat 0 50)] [TArray 50 tint] st) = RErr no_buffer_space.
Proof. run. Qed.

(** test_alloc_limit.cpp: input. *)
Definition written (vs : list val) (ts : list ty) : list byte :=
  obuf (snd (out_call no_types plain vs ts (mkO [] 0))).
Definition tbytes : ty := vector (TScalar 1 true).
Example test_alloc_limit_input :
  let c := arch [OAllocLimit 128] in
  let zero n := ints (repeat 0 n) in
  let read t v := in_call no_types c (written [v] [t]) 1 [t] [VSeq []] 0 in
  read (vector tint) four = (ROk, [four], 20%nat)
  /\ read (vector tint) (zero 32%nat) = (ROk, [zero 32%nat], 132%nat)
  /\ fst (fst (read (vector tint) (zero 33%nat))) = RErr message_size
  /\ read tbytes (zero 128%nat) = (ROk, [zero 128%nat], 132%nat)
  /\ fst (fst (read tbytes (zero 129%nat))) = RErr message_size
  /\ in_call no_types c (written (repeat (zero 32%nat) 4) (repeat tbytes 4)) 1 (repeat tbytes 4)
       (repeat (VSeq []) 4) 0 = (ROk, repeat (zero 32%nat) 4, 144%nat).
Proof. run. Qed.

(** ** Varints: test_varint.cpp *)

Definition vint32 : ty := TVarint 4 true false.
Definition vint64 : ty := TVarint 8 true false.
Definition vuint32 : ty := TVarint 4 false false.
Definition vuint64 : ty := TVarint 8 false false.
Definition vsint32 : ty := TVarint 4 true true.
Definition vsint64 : ty := TVarint 8 true true.
Definition vsize : ty := TVarint 8 false false.
Definition bytes_of (v : val) (t : ty) : option (list byte) := to_bytes no_types true abi64 [(v, t)].
Definition value_of (hex : string) (t : ty) : option val := from_bytes no_types true abi64 1 (hexb hex) t.
Definition back (v : val) (t : ty) : option val :=
  match bytes_of v t with Some b => from_bytes no_types true abi64 1 b t | None => None end.

Example test_varint_bytes :
  bytes_of (VN 0) vuint32 = Some (hexb "00")
  /\ bytes_of (VN 150) vint32 = Some (hexb "9601")
  /\ bytes_of (int32 (-1)) vint32 = Some (hexb "ffffffff0f")
  /\ bytes_of (int64 (-1)) vint64 = Some (hexb "ffffffffffffffffff01")
  /\ bytes_of (VN 0x7f) (TVarint 1 false false) = Some (hexb "7f").
Proof. run. Qed.

Example test_varint_values :
  value_of "9601" vint32 = Some (VN 150)
  /\ value_of "960100000000000000000000" vint32 = Some (VN 150)
  /\ value_of "960100000000000000000000" vsize = Some (VN 150)
  /\ value_of "96818000" vint32 = Some (VN 150) /\ value_of "96818000" vsize = Some (VN 150)
  /\ value_of "ffffffff0f" vint32 = Some (int32 (-1))
  /\ value_of "ffffffffffffffffff01" vint64 = Some (int64 (-1)).
Proof. run. Qed.

Example test_varint_size :
  map varint_size [0xffffffff; 0xffffffffffffffff; 0; 0x7f; 0x80; 0x3fff; 0x1fffff; 0x3fffff; 0xfffffff;
                   0x1fffffff; 0xffffffff; 0xffffffff]
  = [5; 10; 1; 1; 2; 2; 3; 4; 4; 5; 5; 5].
Proof. run. Qed.

Example test_varint_zigzag :
  bytes_of (int32 0) vsint32 = bytes_of (int32 0) vint32
  /\ bytes_of (int32 (-1)) vsint32 = bytes_of (int32 1) vint32
  /\ bytes_of (int32 1) vsint32 = bytes_of (int32 2) vint32
  /\ bytes_of (int32 (-2)) vsint32 = bytes_of (int32 3) vint32
  /\ bytes_of (int32 2147483647) vsint32 = bytes_of (int32 4294967294) vuint32
  /\ bytes_of (int32 (-2147483648)) vsint32 = bytes_of (int32 4294967295) vuint32
  /\ bytes_of (int64 0) vsint64 = bytes_of (int64 0) vint64
  /\ bytes_of (int64 (-1)) vsint64 = bytes_of (int64 1) vint64
  /\ bytes_of (int64 1) vsint64 = bytes_of (int64 2) vint64
  /\ bytes_of (int64 (-2)) vsint64 = bytes_of (int64 3) vint64
  /\ bytes_of (int64 2147483647) vsint64 = bytes_of (int64 4294967294) vuint64
  /\ bytes_of (int64 (-2147483648)) vsint64 = bytes_of (int64 4294967295) vuint64.
Proof. run. Qed.

Example test_varint_back :
  forallb (fun p => match back (fst p) (snd p), fst p with Some (VN a), VN b => a =? b | _, _ => false end)
    (map (fun z => (int32 z, vint32)) [0; 1; -1; 127]%Z
     ++ map (fun z => (int64 z, vint64)) [0; 1; -1; 127; 128]%Z
     ++ map (fun z => (int32 z, vsint32)) [0; 1; 2; 2147483647; -2; -2147483648]%Z) = true.
Proof. run. Qed.

(** varint_size: the default size type is a varint. *)
Example test_varint_size_type :
  let c := arch [OSize (SzVar 8)] in
  let v := VSeq [VN 0x13; VN 0x80; VN 0x82; VN 0x1000; int32 (-1)] in
  exists b, writes c [v] [vector vint32] b /\ reads plain b [vsize] [VN 0] [VN 5] 1
    /\ reads c b [vector vint32] [VSeq []] [v] (length b).
Proof.
  let v := constr:(VSeq [VN 0x13; VN 0x80; VN 0x82; VN 0x1000; int32 (-1)]) in
  let b := eval vm_compute in (obuf (snd (out_call no_types (arch [OSize (SzVar 8)]) [v] [vector vint32] (mkO [] 0))))
  in exists b.
  run.
Qed.

(** ** Variants: test_variant.cpp *)

Definition tv : ty := TVariant (IdInt 1) [(0, true); (1, true)] [tint; tstr].
Example test_variant :
  trip plain [VAlt 0 (VN 0x1337)] [tv] [VAlt 0 (VN 0)] "0037130000"
  /\ trip plain [VAlt 1 (str "1234")] [tv] [VAlt 0 (VN 0)] "010400000031323334".
Proof. run. Qed.

(** The expected bytes are to_bytes<id, "Person1"_s.size(), "Person1"_s, 25>() etc. with a size_t of
    the default size type; the ids of a variant come from serialize_id. *)
Definition person1 : val := VSeq [str "Person1"; VN 25].
Definition person2 : val := VSeq [str "Person2"; VN 35; str "Basketball"].
Definition person_v2 : ty := cls 72 false false [tstr; tint; tstr].
Definition person1_hex : string := "07000000506572736f6e3119000000".
Definition person2_hex : string := "07000000506572736f6e32230000000a0000004261736b657462616c6c".
Definition versions (ik : idkind) (id1 id2 : N) : ty :=
  TVariant ik [(id1, true); (id2, true)] [person; person_v2].
Definition none_yet : val := VAlt 0 (VSeq [str ""; VN 0]).
Definition le (l : list byte) : N := fold_right (fun b n => b2n b + 256 * n) 0 l.

(** string_versioning_v1, v2: the id is the string itself. *)
Example test_variant_strings :
  let t := versions (IdBytes 10) (le (text "v1::person")) (le (text "v2::person")) in
  (writes plain [VAlt 0 person1] [t] (text "v1::person" ++ hexb person1_hex)
   /\ reads plain (text "v1::person" ++ hexb person1_hex) [t] [none_yet] [VAlt 0 person1] 25)
  /\ writes plain [VAlt 1 person2] [t] (text "v2::person" ++ hexb person2_hex)
  /\ reads plain (text "v2::person" ++ hexb person2_hex) [t] [none_yet] [VAlt 1 person2] 39.
Proof. run. Qed.

(** int_versioning_v1, v2. *)
Example test_variant_ints :
  trip plain [VAlt 0 person1] [versions (IdInt 4) 1337 1338] [none_yet] ("39050000" ++ person1_hex)
  /\ trip plain [VAlt 1 person2] [versions (IdInt 4) 1337 1338] [none_yet] ("3a050000" ++ person2_hex).
Proof. run. Qed.

(** ** Hashes: test_hash.cpp *)

Definition bytes_val (l : list byte) : val := VSeq (map (fun b => VN (b2n b)) l).
Definition fox : list byte := text "The quick brown fox jumps over the lazy dog".
Example test_hash :
  sha1 no_types true abi64 1 (view []) = Some (bytes_val (hexb "da39a3ee5e6b4b0d3255bfef95601890afd80709"))
  /\ sha256 no_types true abi64 1 (view [])
     = Some (bytes_val (hexb "e3b0c44298fc1c149afbf4c8996fb92427ae41e4649b934ca495991b7852b855"))
  /\ sha1 no_types true abi64 1 (view fox) = Some (bytes_val (hexb "2fd4e1c67a2d28fced849ee1bb76e7391b93eb12"))
  /\ sha256 no_types true abi64 1 (view fox)
     = Some (bytes_val (hexb "d7a8fbb307d7809469ca9abcb0082e4f8d5651e46d3cdb762d02d0bf37c9e592")).
Proof. run. Qed.

(** test_variant.cpp, hash_variant_*: ids are the first four bytes of the digest; with known_id
    they are not written. *)
Definition hash_id (s : string) : N :=
  match sha256 no_types true abi64 1 (view (text s)) with
  | Some d => match serialize_id no_types true abi64 1 (d, TArray 32 (TScalar 1 true)) (Some 4%nat) with
              | Some (VN n, TScalar 4 _) => n
              | _ => 0
              end
  | None => 0
  end.
Definition hash_bytes (s : string) : list byte :=
  match sha256 no_types true abi64 1 (view (text s)) with
  | Some (VSeq l) => firstn 4 (map (fun v => n2b (vnum v)) l)
  | _ => []
  end.
Definition id1 : N := Eval vm_compute in hash_id "v1::person".
Definition id2 : N := Eval vm_compute in hash_id "v2::person".
Example test_variant_hashes :
  let t := versions (IdInt 4) id1 id2 in
  (writes plain [VAlt 0 person1] [t] (hash_bytes "v1::person" ++ hexb person1_hex)
   /\ reads plain (hash_bytes "v1::person" ++ hexb person1_hex) [t] [none_yet] [VAlt 0 person1] 19)
  /\ (writes plain [VAlt 1 person2] [t] (hash_bytes "v2::person" ++ hexb person2_hex)
      /\ reads plain (hash_bytes "v2::person" ++ hexb person2_hex) [t] [none_yet] [VAlt 1 person2] 33)
  /\ ser_known no_types plain 0 [person] (VAlt 0 person1) (mkO [] 0)
     = (ROk, mkO (obuf (snd (ser_known no_types plain 0 [person] (VAlt 0 person1) (mkO [] 0)))) 15)
  /\ firstn 15 (obuf (snd (ser_known no_types plain 0 [person] (VAlt 0 person1) (mkO [] 0)))) = hexb person1_hex
  /\ des_known no_types plain (hexb person1_hex) 1 0 true [person] none_yet 0 = (ROk, VAlt 0 person1, 15%nat)
  /\ firstn 29 (obuf (snd (ser_known no_types plain 1 [person; person_v2] (VAlt 1 person2) (mkO [] 0))))
     = hexb person2_hex
  /\ des_known no_types plain (hexb person2_hex) 1 1 true [person; person_v2] none_yet 0
     = (ROk, VAlt 1 person2, 29%nat).
Proof. run. Qed.

(** ** Protocol buffers: test_pb_protocol.cpp *)

Definition pb_writes (P : penv) (s : sizety) (k : nat) (l : list val) (bytes : list byte) : Prop :=
  let r := ser_pb_item P plain s k l (mkO [] 0) in
  fst r = ROk /\ firstn (opos (snd r)) (obuf (snd r)) = bytes.
Definition pb_reads (P : penv) (s : sizety) (k : nat) (data : list byte) (l : list val) : Prop :=
  des_pb_item P plain data 50 s k (VSeq (m_dflt (P k))) 0 = (ROk, VSeq l, length data).
Definition pb_both (P : penv) (s : sizety) (k : nat) (l : list val) (bytes : list byte) : Prop :=
  pb_writes P s k l bytes /\ pb_reads P s k bytes l.
Ltac run_pb :=
  repeat match goal with
         | |- pb_both _ _ _ _ _ => split
         | |- pb_writes _ _ _ _ _ => split
         | |- _ /\ _ => split
         end; (vm_compute; reflexivity).

Definition msg (fs : list pfield) (d : list val) : pmsg := mkPmsg fs [] d.
Definition member (t : pty) : pfield := (None, t).
Definition pstr : pty := PFixes (CSeq true (Some 1)) 1.
Definition evint : pty := PVar 4 true false.
Definition penum : pty := PVar 4 false false.
Definition seq_of (n : N) : ckind := CSeq true (Some n).

(** 0: example; 1: nested_example; 2: nested_reserved_example; 3: nested_explicit_id_example;
    4: nested_map_id_example; 5: repeated_integers; 6: repeated_examples. *)
Definition examples : penv := fun k =>
  match k with
  | 0%nat => msg [member evint] [VN 0]
  | 1%nat => msg [member (PMsg 0)] [ints [0]]
  | 2%nat => msg [member PEmpty; member PEmpty; member (PMsg 0)] [VSeq []; VSeq []; ints [0]]
  | 3%nat => msg [(Some 3, PMsg 0)] [ints [0]]
  | 4%nat => mkPmsg [member (PMsg 0)] [(1, 3)] [ints [0]]
  | 5%nat => msg [member (PVars (seq_of 4) 4 true true)] [VSeq []]
  | 6%nat => msg [member (PMsgs (seq_of 4) 0)] [VSeq []]
  | _ => msg [] []
  end.

Example test_pb_examples :
  pb_both examples SzNone 0 [VN 150] (hexb "089601")
  /\ pb_both examples SzNone 1 [ints [150]] (hexb "0a03089601")
  /\ pb_both examples SzNone 2 [VSeq []; VSeq []; ints [150]] (hexb "1a03089601")
  /\ pb_both examples SzNone 3 [ints [150]] (hexb "1a03089601")
  /\ pb_both examples SzNone 4 [ints [150]] (hexb "1a03089601").
Proof. run_pb. Qed.

(** test_repeated_integers, test_repeated_example: what is written is read back. *)
Definition pb_back (P : penv) (s : sizety) (k : nat) (l : list val) : Prop :=
  let r := ser_pb_item P plain s k l (mkO [] 0) in
  fst r = ROk /\ pb_reads P s k (firstn (opos (snd r)) (obuf (snd r))) l.
Definition eight : list Z := [1; 2; 3; 4; -1; -2; -3; -4]%Z.
Example test_pb_repeated :
  pb_back examples SzNone 5 [VSeq (map int32 eight)]
  /\ pb_back examples SzNone 6 [VSeq (map (fun z => VSeq [int32 z]) eight)].
Proof. repeat split; (vm_compute; reflexivity). Qed.

(** test_monster, test_monster_unsized.  0: monster; 1: vec3; 2: weapon.  Floats are their bits. *)
Definition monsters : penv := fun k =>
  match k with
  | 0%nat => msg [member (PMsg 1); member evint; member (PFix 4); member pstr;
                  member (PFixes (seq_of 1) 1); member penum; member (PMsgs (seq_of 40) 2);
                  member (PMsg 2); member (PMsgs (seq_of 12) 1); member PBool]
               [ints [0; 0; 0]; VN 0; VN 0; VSeq []; VSeq []; VN 0; VSeq []; VSeq [VSeq []; VN 0]; VSeq []; VN 0]
  | 1%nat => msg [member (PFix 4); member (PFix 4); member (PFix 4)] [VN 0; VN 0; VN 0]
  | 2%nat => msg [member pstr; member (PFix 4)] [VSeq []; VN 0]
  | _ => msg [] []
  end.
Definition f1 := 0x3f800000. Definition f2 := 0x40000000. Definition f3 := 0x40400000.
Definition f4 := 0x40800000. Definition f5 := 0x40a00000. Definition f6 := 0x40c00000. Definition f7 := 0x40e00000.
Definition monster : list val :=
  [ints [f1; f2; f3]; VN 200; VN 1000; str "mushroom"; ints [1; 2; 3]; VN 1;
   VSeq [VSeq [str "sword"; VN 55]; VSeq [str "spear"; VN 150]];
   VSeq [str "none"; VN 15]; VSeq [ints [f2; f3; f4]; ints [f5; f6; f7]]; VN 1].
Example test_pb_monster :
  pb_back monsters (SzFix 4) 0 monster /\ pb_back monsters SzNone 0 monster.
Proof. repeat split; (vm_compute; reflexivity). Qed.

(** person, address_book, person_explicit, person_map, person_short, default_person_in_address_book,
    empty_address_book, empty_person.  0: person; 1: phone_number; 2: address_book;
    3: person_explicit; 4: its phone_number; 5: person_map. *)
Definition people : penv := fun k =>
  match k with
  | 0%nat => msg [member pstr; member evint; member pstr; member (PMsgs (seq_of 40) 1)]
               [VSeq []; VN 0; VSeq []; VSeq []]
  | 1%nat => msg [member pstr; member penum] [VSeq []; VN 0]
  | 2%nat => msg [member (PMsgs (seq_of 128) 0)] [VSeq []]
  | 3%nat => msg [(Some 10, pstr); (Some 1, pstr); (Some 2, evint); (Some 3, pstr);
                  (Some 4, PMsgs (seq_of 40) 4)]
               [VSeq []; VSeq []; VN 0; VSeq []; VSeq []]
  | 4%nat => msg [(Some 1, pstr); (Some 2, penum)] [VSeq []; VN 0]
  | 5%nat => msg [member pstr; member evint; member pstr;
                  member (PMap (mkAkind true false (AOrd less)) pstr penum)]
               [VSeq []; VN 0; VSeq []; VSeq []]
  | _ => msg [] []
  end.
Definition john_bytes : list byte :=
  hexb "0a08" ++ text "John Doe" ++ hexb "10d2091a10" ++ text "jdoe@example.com"
  ++ hexb "220c0a08" ++ text "555-4321" ++ hexb "1001".
Definition john : list val :=
  [str "John Doe"; VN 1234; str "jdoe@example.com"; VSeq [VSeq [str "555-4321"; VN 1]]].
Definition book_bytes : list byte :=
  hexb "0a2d" ++ john_bytes ++ hexb "0a3e0a0a" ++ text "John Doe 2" ++ hexb "10d3091a11"
  ++ text "jdoe2@example.com" ++ hexb "220c0a08" ++ text "555-4322" ++ hexb "1001"
  ++ hexb "220c0a08" ++ text "555-4323" ++ hexb "1002".
Definition book : list val :=
  [VSeq [VSeq john;
         VSeq [str "John Doe 2"; VN 1235; str "jdoe2@example.com";
               VSeq [VSeq [str "555-4322"; VN 1]; VSeq [str "555-4323"; VN 2]]]]].

Example test_pb_people :
  length john_bytes = 45%nat /\ length book_bytes = 111%nat
  /\ pb_both people SzNone 0 john john_bytes
  /\ pb_both people SzNone 2 book book_bytes
  /\ pb_reads people SzNone 3 john_bytes (str "" :: john)
  /\ pb_both people SzNone 5 john john_bytes.
Proof. run_pb. Qed.

Example test_pb_empty :
  pb_reads people SzNone 2 (hexb "0a00") [VSeq [VSeq [str ""; VN 0; str ""; VSeq []]]]
  /\ pb_writes people SzNone 2 [VSeq [VSeq [str ""; VN 0; str ""; VSeq []]]] (hexb "0a021000")
  /\ pb_both people SzNone 2 [VSeq []] []
  /\ pb_reads people SzNone 0 [] [str ""; VN 0; str ""; VSeq []]
  /\ pb_writes people SzNone 0 [str ""; VN 0; str ""; VSeq []] (hexb "1000").
Proof. run_pb. Qed.

(** ** Functions and remote procedures *)

(** test_function.cpp: normal_function, function_return_move, move_only, function_void and the
    functions without parameters.  The context records that the arguments were as expected. *)
Definition is_hello (args : list val) : bool :=
  match args with
  | [VSeq s; VN n] => (n =? 1337) && ids_eqb s (as_seq (str "hello"))
  | [VN n; VSeq s] => (n =? 1337) && ids_eqb s (as_seq (str "hello"))
  | [VN n; VSome (VSeq s)] => (n =? 1337) && ids_eqb s (as_seq (str "hello"))
  | [VSome (VN n)] => n =? 1337
  | _ => false
  end.
Definition returns (v : val) (s : bool) (args : list val) : bool * val := (s && is_hello args, v).
Definition hello_data : list byte := Eval vm_compute in written [str "hello"; VN 1337] [tstr; tint].
Example test_function :
  let ap := fun rt params f data => apply bool no_types plain data 5 rt params f true 0 in
  let value := fun A => (ap_ctx A, ap_pos A, outcome_of (ap_ret A)) in
  value (ap (RetVal tint) [tstr; tint] (returns (VN 1338)) hello_data) = (true, 13%nat, Got (Some (VN 1338)))
  /\ value (ap (RetVal (TPtr tint)) [tstr; tint] (returns (VSome (VN 1338))) hello_data)
     = (true, 13%nat, Got (Some (VSome (VN 1338))))
  /\ value (ap (RetVal tint) [TPtr tint] (returns (VN 1338)) (hexb "39050000")) = (true, 4%nat, Got (Some (VN 1338)))
  /\ value (ap RetVoid [tstr; tint] (returns (VN 0)) hello_data) = (true, 13%nat, Got None)
  /\ outcome_of (ap_ret (ap (RetVal tint) [] (fun s _ => (s, VN 1338)) [])) = Got (Some (VN 1338))
  /\ value (ap RetVoid [] (fun s _ => (s, VN 0)) []) = (true, O, Got None).
Proof. run. Qed.

(** test_rpc.cpp: normal_function, normal_function_str, function_str_move,
    normal_function_str_no_params, normal_function_void: on one buffer, with ids from SHA-256. *)
Definition sid (s : string) : val :=
  match sha256_int no_types true abi64 1 (text s) with Some (v, _) => v | None => VNone end.
Definition sid_foo := Eval vm_compute in sid "foo".
Definition sid_bar := Eval vm_compute in sid "bar".
Definition sid_foo_str := Eval vm_compute in sid "foo_str".
Definition sid_foo_str_move := Eval vm_compute in sid "foo_str_move".
Definition sid_no_params := Eval vm_compute in sid "foo_str_no_params".
Definition sid_foo_void := Eval vm_compute in sid "foo_void".
Definition hello_args : list ty := [tint; tstr].
Definition table : list (binding bool) :=
  [ mkBinding sid_foo (RetVal tint) (Plain hello_args (returns (VN 1338)));
    mkBinding sid_foo_str (RetVal tstr) (Plain hello_args (returns (str "1338")));
    mkBinding sid_foo_str_move (RetVal (TPtr tstr)) (Plain [tint; TPtr tstr] (returns (VSome (str "1338"))));
    mkBinding sid_no_params (RetVal tstr) (Plain [] (fun s _ => (s, str "1338")));
    mkBinding sid_foo_void RetVoid (Plain hello_args (returns (VN 0)));
    mkBinding sid_bar (RetVal tint) (Plain hello_args (returns (VN 1339))) ].
Definition rpc_session (os : list op) : list val * bool * option op :=
  match run (step1 bool no_types tint table plain plain plain plain 5) os (mkSys1 true (mkO [] 0) 0) with
  | (vs, y, e) => (vs, z_ctx y, e)
  end.
Definition hello : list val := [VN 1337; str "hello"].
Example test_rpc :
  rpc_session [Request 0 hello; Serve; Response 0] = ([VN 1338], true, None)
  /\ rpc_session [Request 1 hello; Serve; Response 1] = ([str "1338"], true, None)
  /\ rpc_session [Request 2 [VN 1337; VSome (str "hello")]; Serve; Response 2] = ([VSome (str "1338")], true, None)
  /\ rpc_session [Request 3 []; Serve; Response 3] = ([str "1338"], true, None)
  /\ rpc_session [Request 4 hello; Serve; Response 4] = ([], true, None).
Proof. run. Qed.

(** normal_function_str_no_id. *)
Example test_rpc_no_id :
  let st := snd (request_body no_types plain hello hello_args (mkO [] 0)) in
  let R := serve_id bool no_types plain plain (obuf st) 5 table sid_foo_str true 0 st in
  sv_res R = inl ROk /\ sv_ctx R = true
  /\ response no_types plain (obuf (sv_out R)) 5 (RetVal tstr) (sv_pos R) = (ROk, Some (str "1338"), 21%nat).
Proof. run. Qed.

(** mismatching_signatures_causing_too_large_allocation: the server reads an int where the client
    wrote a string, and the client takes the rest of the string for the size of the answer. *)
Example test_rpc_mismatch :
  let c := arch [OAllocLimit 0x20000] in
  let st := snd (request no_types c tint sid_foo [str "hello"] [tstr] (mkO [] 0)) in
  let tvec := vector (TScalar 1 true) in
  let R := serve bool no_types c c (obuf st) 5 tint
             [mkBinding sid_foo (RetVal tvec) (Plain [tint] (fun s _ => (s, ints (repeat 65 10))))] true 0 st in
  sv_res R = inl ROk
  /\ fst (fst (response no_types c (obuf (sv_out R)) 5 (RetVal tvec) (sv_pos R))) = RErr message_size.
Proof. run. Qed.

(** test_rpc_opaque.cpp: opaque_function and opaque_function_partial. *)
Definition opaque_foo (s : bool) (d : list byte) : bool * nat * val :=
  match in_call no_types plain d 5 hello_args [VN 0; VSeq []] 0 with
  | (ROk, args, _) => (s && is_hello args, length d, VN 1338)
  | _ => (false, length d, VN 0)
  end.
Definition opaque_partial (s : bool) (d : list byte) : bool * nat * val :=
  match in_call no_types plain d 5 [tint] [VN 0] 0 with
  | (ROk, [VN n], p) => (s && (n =? 1337), p, VN 1338)
  | _ => (false, length d, VN 0)
  end.
Example test_rpc_opaque :
  let st := snd (request no_types plain tint sid_foo hello hello_args (mkO [] 0)) in
  let serve_with f :=
    serve bool no_types plain plain (obuf st) 5 tint [mkBinding sid_foo (RetVal tint) (RawData f)] true 0 st in
  (let R := serve_with opaque_foo in
   sv_res R = inl ROk /\ sv_ctx R = true
   /\ response no_types plain (obuf (sv_out R)) 5 (RetVal tint) (sv_pos R) = (ROk, Some (VN 1338), 21%nat))
  /\ (let R := serve_with opaque_partial in
      sv_res R = inl ROk /\ sv_ctx R = true /\ sv_pos R = 8%nat
      /\ in_call no_types plain (obuf (sv_out R)) 5 [tstr] [VSeq []] 8 = (ROk, [str "hello"], 17%nat)
      /\ response no_types plain (obuf (sv_out R)) 5 (RetVal tint) 17 = (ROk, Some (VN 1338), 21%nat)).
Proof. run. Qed.
