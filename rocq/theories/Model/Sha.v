(** sha1 and sha256 (zpp_bits.h:5318-5534), and the literals built on them (5588-5610).

    [None]: the program does not compile.  [h]: the host is little-endian.  Objects of type
    big_endian<std::uint32_t> are their member; they are read and written as a scalar of four
    bytes, in the byte order of the host.  std::array<std::byte, n> and the empty
    string_literal are written as a view of n bytes, as in Model.ToBytes.  Only the default
    Digest, an array of bytes, is modelled. *)

From Coq Require Import List NArith ZArith Arith Bool.
From Verif Require Import Base.Bytes Model.Types Model.Machine Model.Out Model.Options Model.In
  Model.BigEndian Model.ToBytes.
Import ListNotations.
Local Open Scope N_scope.

Definition view (d : list byte) : val * ty := (VBytes d, TView (VwFixed (length d))).

(** The lambda align (5329, 5418), on std::size_t; [a] is 64. *)
Definition align (v a : N) : N := (wadd v (a - 1) / a * a) mod 2 ^ 64.

(** The size of the array of zeros (5342-5346, 5467-5471): std::size_t arithmetic. *)
Definition padding_size (size : N) : N :=
  wsub (wsub (wsub (align (wadd size 1) 64) size) 1) 8.

Definition get (w : list N) (i : nat) : N := nth i w 0.
Definition set (w : list N) (i : nat) (x : N) : list N := firstn i w ++ x :: skipn (S i) w.

Section Sha.
  Variables (G : tenv) (h : bool) (abi : ty -> N).

  Let big (x : N) : N := be_make h 4 x.
  Let add : N -> N -> N := be_add h 4.

  (** message (5339-5347, 5464-5472).  An array of [padding_size] bytes which is longer than
      what to_bytes accepts does not compile, like any other object of that size. *)
  Definition sha_message (m : list byte) : option (list byte) :=
    let size := N.of_nat (length m) in
    let zs := padding_size size in
    if zs <=? N.of_nat max_size then
      to_bytes G h abi
        [ view m
        ; (VN 0x80, TScalar 1 true)
        ; view (zeros (N.to_nat zs))
        ; (VN (be_make h 8 ((size * 8) mod 2 ^ 64)), TScalar 8 false) ]
    else None.

  Definition vwords (v : val) : list N :=
    match v with VSeq l => map (fun x => match x with VN n => n | _ => 0 end) l | _ => [] end.

  (** The range of the loop over chunks (5349-5352, 5474-5477). *)
  Definition chunks (fuel : nat) (message : list byte) : option (list (list N)) :=
    match from_bytes G h abi fuel message
            (TArray (length message / 64) (TArray 16 (TScalar 4 false))) with
    | Some (VSeq l) => Some (map vwords l)
    | _ => None
    end.

  (** digest_data and digest (5399-5404, 5528-5533). *)
  Definition digest (fuel size : nat) (hs : list N) : option val :=
    match out_array G h abi size (map VN hs) (map (fun _ => TScalar 4 false) hs) with
    | Some st => from_bytes G h abi fuel (obuf st) (TArray size (TScalar 1 true))
    | None => None
    end.

  (** *** sha1 *)

  (** 5326-5328 *)
  Definition rotate_left (n c : N) : N := be_or (be_shl h 4 n c) (be_shr h 4 n (32 - c)).

  (** 5356-5359: one word of the schedule. *)
  Definition sha1_word (w : list N) (i : nat) : list N :=
    set w i (rotate_left
      (be_xor (be_xor (be_xor (get w (i - 3)) (get w (i - 8))) (get w (i - 14))) (get w (i - 16))) 1).

  (** 5367-5390: one round. *)
  Definition sha1_step (w : list N) (s : N * N * N * N * N) (i : nat) : N * N * N * N * N :=
    let '(a, b, c, d, e) := s in
    let '(f, k) :=
      if (i <=? 19)%nat then (be_or (be_and b c) (be_and (be_not 4 b) d), big 0x5a827999)
      else if (i <=? 39)%nat then (be_xor (be_xor b c) d, big 0x6ed9eba1)
      else if (i <=? 59)%nat then
        (be_or (be_or (be_and b c) (be_and b d)) (be_and c d), big 0x8f1bbcdc)
      else (be_xor (be_xor b c) d, big 0xca62c1d6) in
    let temp := add (add (add (add (rotate_left a 5) f) e) k) (get w i) in
    (temp, a, rotate_left b 30, c, d).

  (** 5353-5397: one chunk. *)
  Definition sha1_chunk (s : N * N * N * N * N) (chunk : list N) : N * N * N * N * N :=
    let w := fold_left sha1_word (List.seq 16 64) (chunk ++ repeat 0 64) in
    let '(h0, h1, h2, h3, h4) := s in
    let '(a, b, c, d, e) := fold_left (sha1_step w) (List.seq 0 80) s in
    (add h0 a, add h1 b, add h2 c, add h3 d, add h4 e).

  (** 5318-5405 *)
  Definition sha1 (fuel : nat) (object : val * ty) : option val :=
    match to_bytes G h abi [object] with
    | None => None
    | Some original_message =>
        match sha_message original_message with
        | None => None
        | Some message =>
            match chunks fuel message with
            | None => None
            | Some cs =>
                let '(h0, h1, h2, h3, h4) :=
                  fold_left sha1_chunk cs
                    (big 0x67452301, big 0xefcdab89, big 0x98badcfe, big 0x10325476, big 0xc3d2e1f0) in
                digest fuel 20 [h0; h1; h2; h3; h4]
            end
        end
    end.

  (** *** sha256 *)

  (** 5415-5417 *)
  Definition rotate_right (n c : N) : N := be_or (be_shr h 4 n c) (be_shl h 4 n (32 - c)).

  (** 5429-5460 *)
  Definition sha256_k : list N := map big
    [ 0x428a2f98; 0x71374491; 0xb5c0fbcf; 0xe9b5dba5; 0x3956c25b; 0x59f111f1; 0x923f82a4; 0xab1c5ed5;
      0xd807aa98; 0x12835b01; 0x243185be; 0x550c7dc3; 0x72be5d74; 0x80deb1fe; 0x9bdc06a7; 0xc19bf174;
      0xe49b69c1; 0xefbe4786; 0x0fc19dc6; 0x240ca1cc; 0x2de92c6f; 0x4a7484aa; 0x5cb0a9dc; 0x76f988da;
      0x983e5152; 0xa831c66d; 0xb00327c8; 0xbf597fc7; 0xc6e00bf3; 0xd5a79147; 0x06ca6351; 0x14292967;
      0x27b70a85; 0x2e1b2138; 0x4d2c6dfc; 0x53380d13; 0x650a7354; 0x766a0abb; 0x81c2c92e; 0x92722c85;
      0xa2bfe8a1; 0xa81a664b; 0xc24b8b70; 0xc76c51a3; 0xd192e819; 0xd6990624; 0xf40e3585; 0x106aa070;
      0x19a4c116; 0x1e376c08; 0x2748774c; 0x34b0bcb5; 0x391c0cb3; 0x4ed8aa4a; 0x5b9cca4f; 0x682e6ff3;
      0x748f82ee; 0x78a5636f; 0x84c87814; 0x8cc70208; 0x90befffa; 0xa4506ceb; 0xbef9a3f7; 0xc67178f2 ].

  (** 5481-5487: one word of the schedule. *)
  Definition sha256_word (w : list N) (i : nat) : list N :=
    let s0 := be_xor (be_xor (rotate_right (get w (i - 15)) 7) (rotate_right (get w (i - 15)) 18))
                (be_shr h 4 (get w (i - 15)) 3) in
    let s1 := be_xor (be_xor (rotate_right (get w (i - 2)) 17) (rotate_right (get w (i - 2)) 19))
                (be_shr h 4 (get w (i - 2)) 10) in
    set w i (add (add (add (get w (i - 16)) s0) (get w (i - 7))) s1).

  (** 5498-5516: one round. *)
  Definition sha256_step (k w : list N) (s : N * N * N * N * (N * N * N * N)) (i : nat) :
      N * N * N * N * (N * N * N * N) :=
    let '(a, b, c, d, (e, f, g, hh)) := s in
    let s1 := be_xor (be_xor (rotate_right e 6) (rotate_right e 11)) (rotate_right e 25) in
    let ch := be_xor (be_and e f) (be_and (be_not 4 e) g) in
    let temp1 := add (add (add (add hh s1) ch) (get k i)) (get w i) in
    let s0 := be_xor (be_xor (rotate_right a 2) (rotate_right a 13)) (rotate_right a 22) in
    let maj := be_xor (be_xor (be_and a b) (be_and a c)) (be_and b c) in
    let temp2 := add s0 maj in
    (add temp1 temp2, a, b, c, (add d temp1, e, f, g)).

  (** 5478-5526: one chunk. *)
  Definition sha256_chunk (k : list N) (s : N * N * N * N * (N * N * N * N)) (chunk : list N) :
      N * N * N * N * (N * N * N * N) :=
    let w := fold_left sha256_word (List.seq 16 48) (chunk ++ repeat 0 48) in
    let '(h0, h1, h2, h3, (h4, h5, h6, h7)) := s in
    let '(a, b, c, d, (e, f, g, hh)) := fold_left (sha256_step k w) (List.seq 0 64) s in
    (add h0 a, add h1 b, add h2 c, add h3 d, (add h4 e, add h5 f, add h6 g, add h7 hh)).

  (** 5407-5534 *)
  Definition sha256 (fuel : nat) (object : val * ty) : option val :=
    match to_bytes G h abi [object] with
    | None => None
    | Some original_message =>
        match sha_message original_message with
        | None => None
        | Some message =>
            match chunks fuel message with
            | None => None
            | Some cs =>
                let '(h0, h1, h2, h3, (h4, h5, h6, h7)) :=
                  fold_left (sha256_chunk sha256_k) cs
                    (big 0x6a09e667, big 0xbb67ae85, big 0x3c6ef372, big 0xa54ff53a,
                     (big 0x510e527f, big 0x9b05688c, big 0x1f83d9ab, big 0x5be0cd19)) in
                digest fuel 32 [h0; h1; h2; h3; h4; h5; h6; h7]
            end
        end
    end.

  (** _sha1_int and _sha256_int (5600-5610): id_v<sha1<String>(), sizeof(int)>. *)
  Definition sha_int (fuel size : nat) (d : option val) : option (val * ty) :=
    match d with
    | Some v => serialize_id G h abi fuel (v, TArray size (TScalar 1 true)) (Some 4%nat)
    | None => None
    end.
  Definition sha1_int (fuel : nat) (s : list byte) : option (val * ty) :=
    sha_int fuel 20 (sha1 fuel (view s)).
  Definition sha256_int (fuel : nat) (s : list byte) : option (val * ty) :=
    sha_int fuel 32 (sha256 fuel (view s)).
End Sha.
