(** C38: numbers::big_endian computes with the numbers it represents. *)

From Coq Require Import List NArith ZArith Lia Bool Arith.
From Coq Require Import ZifyBool ZifyNat ZifyN.
From Verif Require Import Base.Bytes Model.Machine Model.BigEndian.
Import ListNotations.
Local Open Scope N_scope.

(** The number an object represents: its bytes in memory, most significant first. *)
Fixpoint big_endian_number (d : list byte) : N :=
  match d with
  | [] => 0
  | b :: d => b2n b * 256 ^ N.of_nat (length d) + big_endian_number d
  end.

Definition represents (h : bool) (n : nat) (v x : N) : Prop :=
  v < 256 ^ N.of_nat n /\ big_endian_number (mem_of h n v) = x.

(** ** Bytes and numbers *)

Lemma be_number_rev d : big_endian_number d = le_val (rev d).
Proof.
  assert (Q : forall l b, le_val (l ++ [b]) = le_val l + pow256 (length l) * b2n b).
  { induction l as [|x l IH]; intro b; cbn [le_val app length].
    - rewrite pow256_0. lia.
    - rewrite IH, pow256_S. lia. }
  induction d as [|b d IH]; [reflexivity|]. cbn [big_endian_number rev].
  rewrite Q, rev_length, IH. unfold pow256. lia.
Qed.

Lemma mem_length h n v : length (mem_of h n v) = n.
Proof. unfold mem_of. destruct h; [|rewrite rev_length]; apply le_bytes_length. Qed.

Lemma mem_of_mem h d : mem_of h (length d) (of_mem h d) = d.
Proof.
  unfold mem_of, of_mem. destruct h; [apply le_bytes_le_val|].
  rewrite <- (rev_length d). rewrite le_bytes_le_val. apply rev_involutive.
Qed.

Lemma of_mem_lt h d : of_mem h d < 256 ^ N.of_nat (length d).
Proof.
  unfold of_mem. destruct h; [apply le_val_lt|]. rewrite <- (rev_length d). apply le_val_lt.
Qed.

Lemma represents_of_mem h n d x :
  length d = n -> big_endian_number d = x -> represents h n (of_mem h d) x.
Proof. intros <- <-. split; [apply of_mem_lt|now rewrite mem_of_mem]. Qed.

Lemma testbit_add_shift a c k p :
  a < 2 ^ k -> N.testbit (a + 2 ^ k * c) p = if p <? k then N.testbit a p else N.testbit c (p - k).
Proof.
  intro H. destruct (N.ltb_spec p k) as [L|L].
  - rewrite <- (N.mod_pow2_bits_low _ k p L). rewrite N.mul_comm, N.mod_add by (apply N.pow_nonzero; lia).
    now rewrite N.mod_small.
  - replace p with (p - k + k) at 1 by lia. rewrite <- N.div_pow2_bits.
    rewrite N.mul_comm, N.div_add by (apply N.pow_nonzero; lia). now rewrite N.div_small.
Qed.

Lemma le_val_testbit l p :
  N.testbit (le_val l) p = N.testbit (at_ l (N.to_nat (p / 8))) (p mod 8).
Proof.
  revert p; induction l as [|b l IH]; intro p; cbn [le_val].
  - unfold at_. rewrite nth_overflow by (cbn; lia). now rewrite !N.bits_0.
  - pose proof (b2n_lt b). change 256 with (2 ^ 8). rewrite testbit_add_shift by exact H.
    destruct (N.ltb_spec p 8) as [L|L].
    + replace (p / 8) with 0 by (symmetry; apply N.div_small; lia). cbn. now rewrite N.mod_small.
    + rewrite IH. replace (p / 8) with (N.succ ((p - 8) / 8)) by lia.
      rewrite N2Nat.inj_succ. cbn [at_ nth]. unfold at_. cbn [nth].
      f_equal. lia.
Qed.

Lemma at_rev d i : (i < length d)%nat -> at_ (rev d) i = at_ d (length d - 1 - i).
Proof. intro H. unfold at_. rewrite rev_nth by exact H. do 2 f_equal. lia. Qed.

Lemma at_out d i : (length d <= i)%nat -> at_ d i = 0.
Proof. intro H. unfold at_. now rewrite nth_overflow. Qed.

Lemma at_lt d i : at_ d i < 256.
Proof. apply b2n_lt. Qed.

Lemma at_high d i p : 8 <= p -> N.testbit (at_ d i) p = false.
Proof.
  intro H. pose proof (at_lt d i). destruct (N.eq_dec (at_ d i) 0) as [->|E]; [apply N.bits_0|].
  apply N.bits_above_log2. assert (N.log2 (at_ d i) < 8); [|lia].
  apply N.log2_lt_pow2; [lia|exact H0].
Qed.

(** The bits of the number: bit [p] is in the byte [p / 8] from the end. *)
Lemma be_testbit d p :
  N.testbit (big_endian_number d) p
  = if (p / 8) <? N.of_nat (length d)
    then N.testbit (at_ d (length d - 1 - N.to_nat (p / 8))) (p mod 8) else false.
Proof.
  rewrite be_number_rev, le_val_testbit. destruct (N.ltb_spec (p / 8) (N.of_nat (length d))) as [L|L].
  - now rewrite at_rev by lia.
  - rewrite at_out by (rewrite rev_length; lia). apply N.bits_0.
Qed.

Lemma be_number_lt d : big_endian_number d < 256 ^ N.of_nat (length d).
Proof. rewrite be_number_rev, <- rev_length. apply le_val_lt. Qed.

(** ** Construction *)

Lemma put_length d i b : (i < length d)%nat -> length (put d i b) = length d.
Proof. intro. apply overwrite_length. cbn. lia. Qed.

Lemma put_spec d i b :
  (i < length d)%nat -> put d i b = firstn i d ++ b :: skipn (S i) d.
Proof. intro H. unfold put, overwrite. cbn [length app]. now rewrite Nat.add_1_r. Qed.

Lemma be_fill_spec i : forall value d, (i <= length d)%nat ->
  be_fill i value d = rev (le_bytes i value) ++ skipn i d.
Proof.
  induction i as [|i IH]; intros value d H; cbn [be_fill le_bytes rev]; [reflexivity|].
  rewrite IH by (rewrite put_length by lia; lia). rewrite put_spec by lia.
  rewrite <- app_assoc. f_equal. rewrite skipn_app, firstn_length.
  rewrite (skipn_all2 (firstn i d)) by (rewrite firstn_length; lia).
  replace (i - Nat.min i (length d))%nat with O by lia. cbn [skipn app]. f_equal.
  apply b2n_inj. rewrite !b2n_n2b. change 0xff with (N.ones 8). rewrite N.land_ones.
  change (2 ^ 8) with 256. rewrite N.mod_mod; lia.
Qed.

Theorem big_endian_of_value h n x : represents h n (be_make h n x) (x mod 256 ^ N.of_nat n).
Proof.
  unfold be_make. rewrite be_fill_spec by (rewrite zeros_length; lia).
  rewrite skipn_all2 by (rewrite zeros_length; lia). rewrite app_nil_r. apply represents_of_mem.
  - now rewrite rev_length, le_bytes_length.
  - rewrite be_number_rev, rev_involutive. apply le_val_le_bytes.
Qed.

(** Every number of the width has exactly one object. *)
Theorem big_endian_unique h n v w x : represents h n v x -> represents h n w x -> v = w.
Proof.
  intros [H1 H2] [H3 H4].
  assert (E : mem_of h n v = mem_of h n w).
  { rewrite <- (rev_involutive (mem_of h n v)), <- (rev_involutive (mem_of h n w)).
    rewrite be_number_rev in H2, H4. f_equal.
    rewrite <- (le_bytes_le_val (rev (mem_of h n v))), <- (le_bytes_le_val (rev (mem_of h n w))).
    rewrite !rev_length, !mem_length. now rewrite H2, H4. }
  unfold mem_of in E. destruct h.
  - now apply (le_bytes_inj n).
  - apply (f_equal (@rev byte)) in E. rewrite !rev_involutive in E. now apply (le_bytes_inj n).
Qed.

(** ** Addition *)

Lemma be_number_app a b :
  big_endian_number (a ++ b) = big_endian_number a * 256 ^ N.of_nat (length b) + big_endian_number b.
Proof.
  induction a as [|x a IH]; cbn [big_endian_number app]; [lia|].
  rewrite IH, app_length, Nat2N.inj_add, N.pow_add_r. lia.
Qed.

Lemma firstn_snoc d i : (i < length d)%nat -> firstn (S i) d = firstn i d ++ [nth i d x00].
Proof.
  revert i; induction d as [|x d IH]; intros [|i] H; cbn [length] in *; try lia; [reflexivity|].
  change (x :: firstn (S i) d = x :: (firstn i d ++ [nth i d x00])). now rewrite IH by lia.
Qed.

Lemma be_sum_spec i : forall c l r, (i <= length l)%nat -> (i <= length r)%nat -> c <= 1 ->
  exists s, be_sum i c l r = s ++ skipn i l /\ length s = i /\
    big_endian_number s
    = (big_endian_number (firstn i l) + big_endian_number (firstn i r) + c) mod 256 ^ N.of_nat i.
Proof.
  induction i as [|i IH]; intros c l r Hl Hr Hc; cbn [be_sum].
  - exists []. repeat split. cbn [firstn big_endian_number]. change (256 ^ N.of_nat 0) with 1.
    now rewrite N.mod_1_r.
  - pose proof (at_lt l i). pose proof (at_lt r i).
    set (s := at_ l i + at_ r i + c) in *.
    assert (Hs : s mod 2 ^ 16 = s) by (apply N.mod_small; subst s; lia). rewrite Hs.
    assert (Hx : N.land (N.shiftr s 8) 0xff = s / 256).
    { rewrite N.shiftr_div_pow2. change 0xff with (N.ones 8). rewrite N.land_ones.
      change (2 ^ 8) with 256. apply N.mod_small. subst s. lia. }
    assert (Hy : N.land s 0xff = s mod 256).
    { change 0xff with (N.ones 8). rewrite N.land_ones. reflexivity. }
    rewrite Hx, Hy.
    destruct (IH (s / 256) (put l i (n2b (s mod 256))) r) as (t & E1 & E2 & E3);
      [rewrite put_length by lia; lia|lia|subst s; lia|].
    exists (t ++ [n2b (s mod 256)]). rewrite E1. rewrite put_spec by lia. repeat split.
    + rewrite skipn_app, firstn_length, (skipn_all2 (firstn i l)) by (rewrite firstn_length; lia).
      replace (i - Nat.min i (length l))%nat with O by lia. cbn [skipn app].
      now rewrite <- app_assoc.
    + rewrite app_length. cbn. lia.
    + rewrite be_number_app, E3. cbn [length big_endian_number].
      assert (F : firstn i (put l i (n2b (s mod 256))) = firstn i l)
        by (apply firstn_overwrite; lia).
      rewrite F, (firstn_snoc l i), (firstn_snoc r i), !be_number_app by lia.
      cbn [length big_endian_number]. change (256 ^ N.of_nat 1) with 256. change (256 ^ N.of_nat 0) with 1.
      fold (at_ l i). fold (at_ r i). rewrite b2n_n2b, N.mod_mod by lia.
      rewrite Nat2N.inj_succ, N.pow_succ_r'.
      set (A := big_endian_number (firstn i l)). set (B := big_endian_number (firstn i r)).
      pose proof (N.pow_nonzero 256 (N.of_nat i) ltac:(lia)).
      rewrite N.mod_mul_r by lia.
      replace (A * 256 + (at_ l i * 1 + 0) + (B * 256 + (at_ r i * 1 + 0)) + c)
        with (s + (A + B) * 256) by (subst s; lia).
      rewrite N.mod_add, N.div_add by lia.
      replace (s / 256 + (A + B)) with (A + B + s / 256) by lia. lia.
Qed.

Theorem big_endian_add h n a b x y :
  represents h n a x -> represents h n b y ->
  represents h n (be_add h n a b) ((x + y) mod 256 ^ N.of_nat n).
Proof.
  intros [H1 H2] [H3 H4]. unfold be_add.
  destruct (be_sum_spec n 0 (mem_of h n a) (mem_of h n b)) as (s & E1 & E2 & E3);
    try (rewrite mem_length; lia); [lia|].
  rewrite E1. rewrite skipn_all2 by (rewrite mem_length; lia). rewrite app_nil_r.
  apply represents_of_mem; [exact E2|]. rewrite E3.
  rewrite !firstn_all2 by (rewrite mem_length; lia). rewrite H2, H4. f_equal. lia.
Qed.

(** ** Bitwise operators *)

Lemma at_le_bytes n v i p :
  N.testbit (at_ (le_bytes n v) i) p
  = if (i <? n)%nat && (p <? 8) then N.testbit v (8 * N.of_nat i + p) else false.
Proof.
  revert v i; induction n as [|n IH]; intros v [|i]; cbn [le_bytes].
  - exact (N.bits_0 p).
  - exact (N.bits_0 p).
  - unfold at_. cbn [nth]. rewrite b2n_n2b. change 256 with (2 ^ 8).
    destruct (N.ltb_spec p 8) as [L|L]; cbn [andb].
    + rewrite N.mod_pow2_bits_low by exact L.
      replace (8 * N.of_nat 0 + p) with p by lia. reflexivity.
    + rewrite N.mod_pow2_bits_high by exact L. now rewrite andb_false_r.
  - change (at_ (n2b v :: le_bytes n (v / 256)) (S i)) with (at_ (le_bytes n (v / 256)) i).
    rewrite IH. change (S i <? S n)%nat with (i <? n)%nat. destruct ((i <? n)%nat && (p <? 8)); [|reflexivity].
    change 256 with (2 ^ 8). rewrite N.div_pow2_bits. f_equal. lia.
Qed.

(** Which bit of the member is bit [p] of the number. *)
Definition stored_bit (h : bool) (n : nat) (p : N) : N :=
  if h then 8 * (N.of_nat n - 1 - p / 8) + p mod 8 else p.

Lemma represents_testbit h n v p :
  N.testbit (big_endian_number (mem_of h n v)) p
  = if p <? 8 * N.of_nat n then N.testbit v (stored_bit h n p) else false.
Proof.
  rewrite be_testbit, mem_length.
  assert (E : (p / 8 <? N.of_nat n) = (p <? 8 * N.of_nat n)).
  { destruct (N.ltb_spec (p / 8) (N.of_nat n)), (N.ltb_spec p (8 * N.of_nat n)); lia. }
  rewrite E. destruct (N.ltb_spec p (8 * N.of_nat n)) as [L|L]; [|reflexivity].
  unfold mem_of, stored_bit. destruct h.
  - rewrite at_le_bytes. destruct (Nat.ltb_spec (n - 1 - N.to_nat (p / 8)) n); [|lia].
    destruct (N.ltb_spec (p mod 8) 8); [|lia]. cbn [andb]. f_equal. lia.
  - rewrite at_rev by (rewrite le_bytes_length; lia). rewrite le_bytes_length, at_le_bytes.
    destruct (Nat.ltb_spec (n - 1 - (n - 1 - N.to_nat (p / 8))) n); [|lia].
    destruct (N.ltb_spec (p mod 8) 8); [|lia]. cbn [andb]. f_equal. lia.
Qed.

Lemma pow256_pow2 n : 256 ^ N.of_nat n = 2 ^ (8 * N.of_nat n).
Proof. change 256 with (2 ^ 8). now rewrite <- N.pow_mul_r. Qed.

Lemma bits_lt v k : (forall p, k <= p -> N.testbit v p = false) -> v < 2 ^ k.
Proof.
  intro H. destruct (N.eq_dec v 0) as [->|E]; [apply N.neq_0_lt_0, N.pow_nonzero; lia|].
  apply N.log2_lt_pow2; [lia|]. destruct (N.ltb_spec (N.log2 v) k) as [L|L]; [exact L|].
  specialize (H _ L). rewrite N.bit_log2 in H by exact E. discriminate.
Qed.

Lemma lt_bits v k p : v < 2 ^ k -> k <= p -> N.testbit v p = false.
Proof.
  intros H L. destruct (N.eq_dec v 0) as [->|E]; [apply N.bits_0|].
  apply N.bits_above_log2. apply N.log2_lt_pow2 in H; lia.
Qed.

Theorem big_endian_and h n a b x y :
  represents h n a x -> represents h n b y -> represents h n (be_and a b) (N.land x y).
Proof.
  intros [H1 <-] [H3 <-]. rewrite pow256_pow2 in *. split.
  - rewrite pow256_pow2. apply bits_lt. intros p Hp. unfold be_and. rewrite N.land_spec.
    now rewrite (lt_bits a _ p H1 Hp).
  - apply N.bits_inj. intro p. unfold be_and. rewrite N.land_spec, !represents_testbit, N.land_spec.
    now destruct (_ <? _).
Qed.

Theorem big_endian_or h n a b x y :
  represents h n a x -> represents h n b y -> represents h n (be_or a b) (N.lor x y).
Proof.
  intros [H1 <-] [H3 <-]. rewrite pow256_pow2 in *. split.
  - rewrite pow256_pow2. apply bits_lt. intros p Hp. unfold be_or. rewrite N.lor_spec.
    now rewrite (lt_bits a _ p H1 Hp), (lt_bits b _ p H3 Hp).
  - apply N.bits_inj. intro p. unfold be_or. rewrite N.lor_spec, !represents_testbit, N.lor_spec.
    now destruct (_ <? _).
Qed.

Theorem big_endian_xor h n a b x y :
  represents h n a x -> represents h n b y -> represents h n (be_xor a b) (N.lxor x y).
Proof.
  intros [H1 <-] [H3 <-]. rewrite pow256_pow2 in *. split.
  - rewrite pow256_pow2. apply bits_lt. intros p Hp. unfold be_xor. rewrite N.lxor_spec.
    now rewrite (lt_bits a _ p H1 Hp), (lt_bits b _ p H3 Hp).
  - apply N.bits_inj. intro p. unfold be_xor. rewrite N.lxor_spec, !represents_testbit, N.lxor_spec.
    now destruct (_ <? _).
Qed.

(** The complement: 2^bits - 1 - x. *)
Theorem big_endian_not h n a x :
  represents h n a x -> represents h n (be_not n a) (256 ^ N.of_nat n - 1 - x).
Proof.
  intros [H1 <-].
  assert (Hx : big_endian_number (mem_of h n a) < 256 ^ N.of_nat n).
  { pose proof (be_number_lt (mem_of h n a)) as Q. now rewrite mem_length in Q. }
  assert (E : 256 ^ N.of_nat n - 1 - big_endian_number (mem_of h n a)
              = N.lnot (big_endian_number (mem_of h n a)) (8 * N.of_nat n)).
  { rewrite pow256_pow2 in *.
    destruct (N.eq_dec (big_endian_number (mem_of h n a)) 0) as [Z|Z].
    - rewrite Z. unfold N.lnot. rewrite N.lxor_0_l, N.ones_equiv. lia.
    - rewrite N.lnot_sub_low by (apply N.log2_lt_pow2; lia). rewrite N.ones_equiv. lia. }
  rewrite E. rewrite pow256_pow2 in *. split.
  - rewrite pow256_pow2. apply bits_lt. intros p Hp. unfold be_not. rewrite N.ldiff_spec.
    now rewrite N.ones_spec_high by lia.
  - apply N.bits_inj. intro p. rewrite represents_testbit. unfold be_not.
    destruct (N.ltb_spec p (8 * N.of_nat n)) as [L|L].
    + rewrite N.ldiff_spec, N.lnot_spec_low by exact L. rewrite represents_testbit.
      destruct (N.ltb_spec p (8 * N.of_nat n)); [|lia].
      assert (stored_bit h n p < 8 * N.of_nat n) by (unfold stored_bit; destruct h; lia).
      now rewrite N.ones_spec_low by lia.
    + rewrite N.lnot_spec_high by exact L. rewrite represents_testbit.
      destruct (N.ltb_spec p (8 * N.of_nat n)); [lia|reflexivity].
Qed.

(** ** Shifts *)

Lemma at_put_same d i b : (i < length d)%nat -> at_ (put d i b) i = b2n b.
Proof.
  intro H. rewrite put_spec by exact H. unfold at_.
  rewrite app_nth2 by (rewrite firstn_length; lia). rewrite firstn_length.
  replace (i - Nat.min i (length d))%nat with O by lia. reflexivity.
Qed.

Lemma at_put_other d i j b : (i < length d)%nat -> j <> i -> at_ (put d i b) j = at_ d j.
Proof.
  intros H N. rewrite put_spec by exact H. unfold at_. f_equal.
  destruct (Nat.lt_ge_cases j i).
  - rewrite app_nth1 by (rewrite firstn_length; lia).
    rewrite <- (firstn_skipn i d) at 2. now rewrite app_nth1 by (rewrite firstn_length; lia).
  - rewrite app_nth2 by (rewrite firstn_length; lia). rewrite firstn_length.
    replace (j - Nat.min i (length d))%nat with (S (j - i - 1)) by lia. cbn [nth].
    rewrite <- (firstn_skipn (S i) d) at 2. rewrite app_nth2 by (rewrite firstn_length; lia).
    rewrite firstn_length. f_equal. lia.
Qed.

(** The loops run in place; the bytes they read have not been written yet. *)
Lemma loop_up n (g : list byte -> nat -> byte) d0 :
  (forall d i, length d = n -> (i < n)%nat -> (forall j, (i <= j)%nat -> at_ d j = at_ d0 j) -> g d i = g d0 i) ->
  forall m i d, (i + m = n)%nat -> length d = n -> (forall j, (i <= j)%nat -> at_ d j = at_ d0 j) ->
  let d' := fold_left (fun d i => put d i (g d i)) (List.seq i m) d in
  length d' = n /\ (forall j, (j < i)%nat -> at_ d' j = at_ d j)
  /\ (forall j, (i <= j < n)%nat -> at_ d' j = b2n (g d0 j)).
Proof.
  intro Hg. induction m as [|m IH]; intros i d Hn Hl Hd; cbn [List.seq fold_left].
  - cbv zeta. split; [exact Hl|]. split; [reflexivity|]. intros; lia.
  - destruct (IH (S i) (put d i (g d i))) as (L & F & R); [lia|rewrite put_length; lia| |].
    { intros j Hj. rewrite at_put_other by lia. apply Hd. lia. }
    cbv zeta in *. split; [exact L|]. split.
    + intros j Hj. rewrite F by lia. apply at_put_other; lia.
    + intros j Hj. destruct (Nat.eq_dec j i) as [->|Nj]; [|apply R; lia].
      rewrite F by lia. rewrite at_put_same by lia. f_equal. apply Hg; auto; lia.
Qed.

Lemma loop_down n (g : list byte -> nat -> byte) d0 :
  (forall d i, length d = n -> (i < n)%nat -> (forall j, (j <= i)%nat -> at_ d j = at_ d0 j) -> g d i = g d0 i) ->
  forall m k d, (k + m = n)%nat -> length d = n -> (forall j, (j < m)%nat -> at_ d j = at_ d0 j) ->
  let d' := fold_left (fun d j => let i := (n - 1 - j)%nat in put d i (g d i)) (List.seq k m) d in
  length d' = n /\ (forall j, (m <= j)%nat -> at_ d' j = at_ d j)
  /\ (forall j, (j < m)%nat -> at_ d' j = b2n (g d0 j)).
Proof.
  intro Hg. induction m as [|m IH]; intros k d Hn Hl Hd; cbn [List.seq fold_left].
  - cbv zeta. split; [exact Hl|]. split; [reflexivity|]. intros; lia.
  - cbv zeta in *. replace (n - 1 - k)%nat with m by lia.
    destruct (IH (S k) (put d m (g d m))) as (L & F & R); [lia|rewrite put_length; lia| |].
    { intros j Hj. rewrite at_put_other by lia. apply Hd. lia. }
    split; [exact L|]. split.
    + intros j Hj. rewrite F by lia. apply at_put_other; lia.
    + intros j Hj. destruct (Nat.eq_dec j m) as [->|Nj]; [|apply R; lia].
      rewrite F by lia. rewrite at_put_same by lia. f_equal. apply Hg; auto; [lia|].
      intros i Hi. apply Hd. lia.
Qed.

(** The bytes the loops compute, with places outside the object reading as zero. *)
Lemma testbit_low a p : p < 8 -> N.testbit (a mod 256) p = N.testbit a p.
Proof. intro H. change 256 with (2 ^ 8). now apply N.mod_pow2_bits_low. Qed.

Lemma shl_byte_bits n k d i p :
  (i < n)%nat -> length d = n -> k < 2 ^ 64 -> N.of_nat n < 2 ^ 62 -> p < 8 ->
  N.testbit (b2n (be_shl_byte n k d i)) p
  = if p <? k mod 8
    then N.testbit (at_ d (i + N.to_nat (k / 8) + 1)) (p + 8 - k mod 8)
    else N.testbit (at_ d (i + N.to_nat (k / 8))) (p - k mod 8).
Proof.
  intros Hi Hd Hk Hn Hp. unfold be_shl_byte, wadd, wsub.
  assert (E1 : (N.of_nat i + k / 8) mod two64 = N.of_nat i + k / 8).
  { apply N.mod_small. unfold two64. change (2 ^ 64) with 18446744073709551616 in *.
    change (2 ^ 62) with 4611686018427387904 in *. lia. }
  assert (E2 : (N.of_nat n + (two64 - 1 mod two64)) mod two64 = N.of_nat n - 1).
  { unfold two64. change (2 ^ 64) with 18446744073709551616 in *.
    change (2 ^ 62) with 4611686018427387904 in *. lia. }
  rewrite E1, E2. pose proof (N.mod_upper_bound k 8 ltac:(lia)) as Ho.
  set (o := k mod 8) in *. set (q := k / 8) in *.
  destruct (N.leb_spec (N.of_nat n) (N.of_nat i + q)) as [L|L].
  - change (b2n x00) with 0. rewrite N.bits_0.
    rewrite !at_out by lia. rewrite !N.bits_0. now destruct (_ <? _).
  - replace (N.to_nat (N.of_nat i + q)) with (i + N.to_nat q)%nat by lia.
    destruct (N.eqb_spec (N.of_nat i + q) (N.of_nat n - 1)) as [E|E].
    + rewrite b2n_n2b, testbit_low by exact Hp. rewrite (at_out d (i + N.to_nat q + 1)) by lia.
      rewrite N.bits_0. destruct (N.ltb_spec p o).
      * now rewrite N.shiftl_spec_low.
      * now rewrite N.shiftl_spec_high' by lia.
    + rewrite b2n_n2b, testbit_low, N.lor_spec by exact Hp. rewrite b2n_n2b, testbit_low by exact Hp.
      rewrite N.shiftr_spec'.
      destruct (N.ltb_spec p o).
      * rewrite N.shiftl_spec_low by exact H. cbn [orb]. f_equal. lia.
      * rewrite N.shiftl_spec_high' by lia. rewrite (at_high _ _ (p + (8 - o))) by lia.
        now rewrite orb_false_r.
Qed.

Lemma shr_byte_bits n k d i p :
  (i < n)%nat -> length d = n -> k < 2 ^ 64 -> N.of_nat n < 2 ^ 62 -> p < 8 ->
  N.testbit (b2n (be_shr_byte n k d i)) p
  = if N.of_nat i <? k / 8 then false
    else if p + k mod 8 <? 8
    then N.testbit (at_ d (i - N.to_nat (k / 8))) (p + k mod 8)
    else if N.of_nat i =? k / 8 then false
    else N.testbit (at_ d (i - N.to_nat (k / 8) - 1)) (p + k mod 8 - 8).
Proof.
  intros Hi Hd Hk Hn Hp. unfold be_shr_byte.
  assert (E1 : wsub (N.of_nat i) (k / 8)
               = if N.of_nat i <? k / 8 then two64 + N.of_nat i - k / 8 else N.of_nat i - k / 8).
  { unfold wsub, two64. change (2 ^ 64) with 18446744073709551616 in *.
    change (2 ^ 62) with 4611686018427387904 in *.
    destruct (N.ltb_spec (N.of_nat i) (k / 8)); lia. }
  rewrite E1. pose proof (N.mod_upper_bound k 8 ltac:(lia)) as Ho.
  assert (Hq : k / 8 < 2 ^ 61).
  { change (2 ^ 64) with 18446744073709551616 in *. change (2 ^ 61) with 2305843009213693952. lia. }
  set (o := k mod 8) in *. set (q := k / 8) in *.
  destruct (N.ltb_spec (N.of_nat i) q) as [L|L].
  - destruct (N.leb_spec (N.of_nat n) (two64 + N.of_nat i - q)) as [L2|L2]; [apply N.bits_0|].
    unfold two64 in *. change (2 ^ 64) with 18446744073709551616 in *.
    change (2 ^ 62) with 4611686018427387904 in *. change (2 ^ 61) with 2305843009213693952 in *. lia.
  - destruct (N.leb_spec (N.of_nat n) (N.of_nat i - q)) as [L2|L2]; [lia|].
    replace (N.to_nat (N.of_nat i - q)) with (i - N.to_nat q)%nat by lia.
    destruct (N.eqb_spec (N.of_nat i - q) 0) as [E|E].
    + rewrite b2n_n2b, testbit_low by exact Hp. rewrite N.shiftr_spec'.
      destruct (N.ltb_spec (p + o) 8); [reflexivity|].
      destruct (N.eqb_spec (N.of_nat i) q); [|lia]. now apply at_high.
    + rewrite b2n_n2b, testbit_low, N.lor_spec by exact Hp. rewrite b2n_n2b, testbit_low by exact Hp.
      rewrite N.shiftr_spec'. destruct (N.eqb_spec (N.of_nat i) q); [lia|].
      destruct (N.ltb_spec (p + o) 8).
      * rewrite N.shiftl_spec_low by lia. apply orb_false_r.
      * rewrite N.shiftl_spec_high' by lia. rewrite at_high by lia. cbn [orb]. f_equal. lia.
Qed.

Lemma shl_byte_reads n k d d0 i :
  k < 2 ^ 64 -> N.of_nat n < 2 ^ 62 -> length d0 = n -> length d = n -> (i < n)%nat ->
  (forall j, (i <= j)%nat -> at_ d j = at_ d0 j) -> be_shl_byte n k d i = be_shl_byte n k d0 i.
Proof.
  intros Hk Hn H0 Hd Hi H. apply b2n_inj. apply N.bits_inj. intro p.
  destruct (N.ltb_spec p 8) as [L|L].
  - rewrite !shl_byte_bits by assumption. now rewrite !H by lia.
  - rewrite !(lt_bits _ 8 p); auto; apply b2n_lt.
Qed.

Lemma shr_byte_reads n k d d0 i :
  k < 2 ^ 64 -> N.of_nat n < 2 ^ 62 -> length d0 = n -> length d = n -> (i < n)%nat ->
  (forall j, (j <= i)%nat -> at_ d j = at_ d0 j) -> be_shr_byte n k d i = be_shr_byte n k d0 i.
Proof.
  intros Hk Hn H0 Hd Hi H. apply b2n_inj. apply N.bits_inj. intro p.
  destruct (N.ltb_spec p 8) as [L|L].
  - rewrite !shr_byte_bits by assumption. now rewrite !H by lia.
  - rewrite !(lt_bits _ 8 p); auto; apply b2n_lt.
Qed.

(** Any amount; [n] is the size of a type, [k] a number of a machine type. *)
Theorem big_endian_shift_left h n a x k :
  represents h n a x -> N.of_nat n < 2 ^ 62 -> k < 2 ^ 64 ->
  represents h n (be_shl h n a k) (N.shiftl x k mod 256 ^ N.of_nat n).
Proof.
  intros [H1 <-] Hn Hk. unfold be_shl. set (d0 := mem_of h n a).
  assert (H0 : length d0 = n) by apply mem_length.
  destruct (loop_up n (be_shl_byte n k) d0) with (m := n) (i := O) (d := d0) as (L & _ & R); auto.
  { intros d i Hd Hi H. now apply shl_byte_reads. }
  cbv zeta in *. set (d' := fold_left _ _ _) in *.
  apply represents_of_mem; [exact L|]. apply N.bits_inj. intro p.
  rewrite be_testbit, L, pow256_pow2.
  destruct (N.ltb_spec (p / 8) (N.of_nat n)) as [Lp|Lp].
  - rewrite N.mod_pow2_bits_low by lia. rewrite R by lia.
    rewrite shl_byte_bits by (auto; lia).
    destruct (N.ltb_spec p k) as [Q|Q].
    + rewrite N.shiftl_spec_low by exact Q. destruct (N.ltb_spec (p mod 8) (k mod 8)); rewrite at_out; try apply N.bits_0; lia.
    + rewrite N.shiftl_spec_high' by exact Q. rewrite be_testbit, H0.
      destruct (N.ltb_spec ((p - k) / 8) (N.of_nat n)); [|lia].
      destruct (N.ltb_spec (p mod 8) (k mod 8)).
      * f_equal; [f_equal|]; lia.
      * f_equal; [f_equal|]; lia.
  - rewrite N.mod_pow2_bits_high by lia. reflexivity.
Qed.

Theorem big_endian_shift_right h n a x k :
  represents h n a x -> N.of_nat n < 2 ^ 62 -> k < 2 ^ 64 ->
  represents h n (be_shr h n a k) (N.shiftr x k).
Proof.
  intros [H1 <-] Hn Hk. unfold be_shr. set (d0 := mem_of h n a).
  assert (H0 : length d0 = n) by apply mem_length.
  destruct (loop_down n (be_shr_byte n k) d0) with (m := n) (k := O) (d := d0) as (L & _ & R); auto.
  { intros d i Hd Hi H. now apply shr_byte_reads. }
  cbv zeta in *. set (d' := fold_left _ _ _) in *.
  apply represents_of_mem; [exact L|]. apply N.bits_inj. intro p.
  rewrite be_testbit, L, N.shiftr_spec', be_testbit, H0.
  destruct (N.ltb_spec (p / 8) (N.of_nat n)) as [Lp|Lp].
  - rewrite R by lia. rewrite shr_byte_bits by (auto; lia).
    destruct (N.ltb_spec ((p + k) / 8) (N.of_nat n)) as [Lk|Lk].
    + destruct (N.ltb_spec (N.of_nat (n - 1 - N.to_nat (p / 8))) (k / 8)); [lia|].
      destruct (N.ltb_spec (p mod 8 + k mod 8) 8).
      * f_equal; [f_equal|]; lia.
      * destruct (N.eqb_spec (N.of_nat (n - 1 - N.to_nat (p / 8))) (k / 8)); [lia|].
        f_equal; [f_equal|]; lia.
    + destruct (N.ltb_spec (N.of_nat (n - 1 - N.to_nat (p / 8))) (k / 8)); [reflexivity|].
      destruct (N.ltb_spec (p mod 8 + k mod 8) 8); [lia|].
      destruct (N.eqb_spec (N.of_nat (n - 1 - N.to_nat (p / 8))) (k / 8)); [reflexivity|lia].
  - destruct (N.ltb_spec ((p + k) / 8) (N.of_nat n)); [lia|reflexivity].
Qed.

(** ** Comparison *)

(** Equality is equality of the numbers. *)
Theorem big_endian_equal h n a b x y :
  represents h n a x -> represents h n b y -> (be_compare a b = Eq <-> x = y).
Proof.
  intros Ha Hb. unfold be_compare. rewrite N.compare_eq_iff. split.
  - intros ->. destruct Ha as [_ <-], Hb as [_ <-]. reflexivity.
  - intros <-. now apply (big_endian_unique h n a b x).
Qed.

(** On a big-endian host the order is the order of the numbers. *)
Theorem big_endian_order_big_endian_host n a b x y :
  represents false n a x -> represents false n b y -> be_compare a b = N.compare x y.
Proof.
  intros [H1 H2] [H3 H4]. unfold mem_of in *. rewrite be_number_rev, rev_involutive in H2, H4.
  rewrite le_val_le_bytes_small in H2, H4 by assumption. now subst.
Qed.

(** On a little-endian host it is not: 256 < 1 as std::uint32_t. *)
Theorem big_endian_order_refuted :
  exists n a b x y, represents true n a x /\ represents true n b y
    /\ be_compare a b = Lt /\ N.compare x y = Gt.
Proof.
  exists 4%nat, (be_make true 4 256), (be_make true 4 1), 256, 1.
  repeat split; vm_compute; reflexivity.
Qed.

Example big_endian_nontrivial :
  represents true 4 (be_make true 4 0xfffefd05) 0xfffefd05
  /\ be_make true 4 0xfffefd05 = 0x05fdfeff
  /\ represents true 4 (be_add true 4 (be_make true 4 0xfffefd05) (be_make true 4 0x010203ff)) 0x01010104
  /\ represents true 4 (be_shl true 4 (be_make true 4 0xfffefd05) 13) 0xdfa0a000
  /\ represents false 4 (be_shr false 4 (be_make false 4 0xfffefd05) 13) 0x0007fff7.
Proof. repeat split; vm_compute; reflexivity. Qed.
