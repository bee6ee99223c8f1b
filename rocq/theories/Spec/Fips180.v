(** SHA-1 and SHA-256 as FIPS 180-4 defines them, on lists of bytes.  Words are numbers below
    2^32, written most significant byte first.  Nothing here comes from zpp_bits.h: the
    constants are computed from their definitions by roots of primes. *)

From Coq Require Import List NArith Arith.
From Verif Require Import Base.Bytes.
Import ListNotations.
Local Open Scope N_scope.

(** ** Words *)

Definition word : N := 2 ^ 32.
Definition plus32 (x y : N) : N := (x + y) mod word.
Definition not32 (x : N) : N := word - 1 - x.
Definition rotl (n x : N) : N := N.lor (N.shiftl x n mod word) (N.shiftr x (32 - n)).
Definition rotr (n x : N) : N := N.lor (N.shiftr x n) (N.shiftl x (32 - n) mod word).

Definition Ch (x y z : N) : N := N.lxor (N.land x y) (N.land (not32 x) z).
Definition Maj (x y z : N) : N := N.lxor (N.lxor (N.land x y) (N.land x z)) (N.land y z).
Definition Parity (x y z : N) : N := N.lxor (N.lxor x y) z.

(** Big-endian bytes of a number, and the number of big-endian bytes. *)
Fixpoint msb_bytes (n : nat) (x : N) : list byte :=
  match n with
  | O => []
  | S n => n2b (x / 256 ^ N.of_nat n mod 256) :: msb_bytes n x
  end.
Fixpoint msb_number (l : list byte) : N :=
  match l with
  | [] => 0
  | b :: l => b2n b * 256 ^ N.of_nat (length l) + msb_number l
  end.

(** ** Padding (5.1.1): a one bit, zeros up to 448 modulo 512 bits, the length in bits *)
Definition padding_zeros (len : nat) : nat := (119 - len mod 64) mod 64.
Definition padded (m : list byte) : list byte :=
  m ++ [x80] ++ repeat x00 (padding_zeros (length m)) ++ msb_bytes 8 (8 * N.of_nat (length m)).

(** ** Parsing (5.2.1): blocks of sixteen words *)
Fixpoint words (n : nat) (l : list byte) : list N :=
  match n with
  | O => []
  | S n => msb_number (firstn 4 l) :: words n (skipn 4 l)
  end.
Fixpoint blocks (n : nat) (l : list byte) : list (list N) :=
  match n with
  | O => []
  | S n => words 16 (firstn 64 l) :: blocks n (skipn 64 l)
  end.
Definition parsed (m : list byte) : list (list N) :=
  let p := padded m in blocks (length p / 64) p.

Definition W (w : list N) (t : nat) : N := nth t w 0.

(** Message schedule: words are added until there are enough of them. *)
Fixpoint grow (next : list N -> nat -> N) (n : nat) (w : list N) : list N :=
  match n with
  | O => w
  | S n => grow next n (w ++ [next w (length w)])
  end.

(** floor of the k-th root of n, for roots below 2^bits. *)
Fixpoint root_below (k : N) (bits : nat) (r n : N) : N :=
  match bits with
  | O => r
  | S b =>
      let r' := r + 2 ^ N.of_nat b in
      root_below k b (if r' ^ k <=? n then r' else r) n
  end.
Definition root (k n : N) : N := root_below k 40 0 n.

Definition prime (p : N) : bool :=
  (1 <? p) && forallb (fun d => negb (p mod N.of_nat d =? 0)) (List.seq 2 (N.to_nat p - 2)).
Definition primes (n : nat) : list N :=
  firstn n (filter prime (map N.of_nat (List.seq 0 312))).

(** ** SHA-1 (6.1.2) *)

(** 4.1.1 *)
Definition sha1_f (t : nat) : N -> N -> N -> N :=
  if (t <? 20)%nat then Ch else if (t <? 40)%nat then Parity
  else if (t <? 60)%nat then Maj else Parity.

(** 4.2.1: the first 32 bits of the square roots of 2, 3, 5 and 10, divided by four. *)
Definition sha1_K (t : nat) : N :=
  let K n := root 2 (n * 2 ^ 60) in
  if (t <? 20)%nat then K 2 else if (t <? 40)%nat then K 3
  else if (t <? 60)%nat then K 5 else K 10.

(** 5.3.1 *)
Definition sha1_H0 : list N := [0x67452301; 0xefcdab89; 0x98badcfe; 0x10325476; 0xc3d2e1f0].

Definition sha1_next (w : list N) (t : nat) : N :=
  rotl 1 (N.lxor (N.lxor (N.lxor (W w (t - 3)) (W w (t - 8))) (W w (t - 14))) (W w (t - 16))).

Definition sha1_round (w : list N) (s : list N) (t : nat) : list N :=
  match s with
  | [a; b; c; d; e] =>
      let T := plus32 (plus32 (plus32 (plus32 (rotl 5 a) (sha1_f t b c d)) e) (sha1_K t)) (W w t) in
      [T; a; rotl 30 b; c; d]
  | _ => s
  end.

Fixpoint add_all (a b : list N) : list N :=
  match a, b with
  | x :: a, y :: b => plus32 x y :: add_all a b
  | _, _ => []
  end.

Definition sha1_block (H : list N) (M : list N) : list N :=
  let w := grow sha1_next 64 M in
  add_all H (fold_left (sha1_round w) (List.seq 0 80) H).

Definition sha1_digest (m : list byte) : list byte :=
  concat (map (msb_bytes 4) (fold_left sha1_block (parsed m) sha1_H0)).

(** ** SHA-256 (6.2.2) *)

(** 4.1.2 *)
Definition Sigma0 (x : N) : N := N.lxor (N.lxor (rotr 2 x) (rotr 13 x)) (rotr 22 x).
Definition Sigma1 (x : N) : N := N.lxor (N.lxor (rotr 6 x) (rotr 11 x)) (rotr 25 x).
Definition sigma0 (x : N) : N := N.lxor (N.lxor (rotr 7 x) (rotr 18 x)) (N.shiftr x 3).
Definition sigma1 (x : N) : N := N.lxor (N.lxor (rotr 17 x) (rotr 19 x)) (N.shiftr x 10).

(** 4.2.2: the first 32 bits of the fractional parts of the cube roots of the first 64 primes. *)
Definition sha256_K : list N := map (fun p => root 3 (p * 2 ^ 96) mod word) (primes 64).

(** 5.3.3: those of the square roots of the first eight primes. *)
Definition sha256_H0 : list N := map (fun p => root 2 (p * 2 ^ 64) mod word) (primes 8).

Definition sha256_next (w : list N) (t : nat) : N :=
  plus32 (plus32 (plus32 (sigma1 (W w (t - 2))) (W w (t - 7))) (sigma0 (W w (t - 15)))) (W w (t - 16)).

Definition sha256_round (K w : list N) (s : list N) (t : nat) : list N :=
  match s with
  | [a; b; c; d; e; f; g; h] =>
      let T1 := plus32 (plus32 (plus32 (plus32 h (Sigma1 e)) (Ch e f g)) (W K t)) (W w t) in
      let T2 := plus32 (Sigma0 a) (Maj a b c) in
      [plus32 T1 T2; a; b; c; plus32 d T1; e; f; g]
  | _ => s
  end.

Definition sha256_block (K H M : list N) : list N :=
  let w := grow sha256_next 48 M in
  add_all H (fold_left (sha256_round K w) (List.seq 0 64) H).

Definition sha256_digest (m : list byte) : list byte :=
  concat (map (msb_bytes 4) (fold_left (sha256_block sha256_K) (parsed m) sha256_H0)).

(** ** Test vectors: the examples published with the standard *)

Definition abc : list byte := [x61; x62; x63].
(** "abcdbcdecdefdefgefghfghighijhijkijkljklmklmnlmnomnopnopq" *)
Definition abcdbcde : list byte :=
  concat (map (fun i => map (fun j => n2b (97 + N.of_nat (i + j))) (List.seq 0 4)) (List.seq 0 14)).

Example sha1_abc : msb_number (sha1_digest abc) = 0xa9993e364706816aba3e25717850c26c9cd0d89d.
Proof. vm_compute. reflexivity. Qed.
Example sha1_two_blocks :
  msb_number (sha1_digest abcdbcde) = 0x84983e441c3bd26ebaae4aa1f95129e5e54670f1.
Proof. vm_compute. reflexivity. Qed.
Example sha1_empty : msb_number (sha1_digest []) = 0xda39a3ee5e6b4b0d3255bfef95601890afd80709.
Proof. vm_compute. reflexivity. Qed.
Example sha256_abc : msb_number (sha256_digest abc)
  = 0xba7816bf8f01cfea414140de5dae2223b00361a396177a9cb410ff61f20015ad.
Proof. vm_compute. reflexivity. Qed.
Example sha256_two_blocks : msb_number (sha256_digest abcdbcde)
  = 0x248d6a61d20638b8e5c026930c3e6039a33ce45964ff2167f6ecedd419db06c1.
Proof. vm_compute. reflexivity. Qed.
Example sha256_empty : msb_number (sha256_digest [])
  = 0xe3b0c44298fc1c149afbf4c8996fb92427ae41e4649b934ca495991b7852b855.
Proof. vm_compute. reflexivity. Qed.
