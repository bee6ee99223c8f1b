(** Proofs about varints: the code model against LEB128 and zig-zag. *)

From Coq Require Import List NArith ZArith Lia Bool Arith.
From Coq Require Import ZifyBool ZifyNat ZifyN.
From Verif Require Import Base.Bytes Model.Types Model.Machine Model.Varint Spec.Leb128 Spec.Wire.
Import ListNotations.
Local Open Scope N_scope.

Ltac Zify.zify_post_hook ::= Z.div_mod_to_equations.

Lemma pow256_2 w : pow256 w = 2 ^ bits w.
Proof.
  unfold pow256, bits. change 256 with (2 ^ 8). now rewrite <- N.pow_mul_r.
Qed.

Lemma wfw_cases w : wfw w = true -> w = 1%nat \/ w = 2%nat \/ w = 4%nat \/ w = 8%nat.
Proof. unfold wfw. lia. Qed.

Lemma land_7f v : N.land v 0x7f = v mod 128.
Proof. change 0x7f with (N.ones 7). now rewrite N.land_ones. Qed.

Lemma land_1 v : N.land v 1 = v mod 2.
Proof. change 1 with (N.ones 1). now rewrite N.land_ones. Qed.

Lemma land_80 b : b < 256 -> (N.land b 0x80 =? 0) = (b <? 128).
Proof.
  intro H.
  assert (E : forall k, (k < 256)%nat ->
    (N.land (N.of_nat k) 0x80 =? 0) = (N.of_nat k <? 128)).
  { assert (A : forallb (fun k => Bool.eqb (N.land (N.of_nat k) 0x80 =? 0) (N.of_nat k <? 128)) (List.seq 0 256) = true)
      by (vm_compute; reflexivity).
    intros k Hk. rewrite forallb_forall in A. apply eqb_prop, A, in_seq. lia. }
  specialize (E (N.to_nat b) ltac:(lia)). rewrite N2Nat.id in E. exact E.
Qed.

Lemma lor_80 v : v < 128 -> N.lor v 0x80 = 128 + v.
Proof.
  intro H.
  assert (E : forall k, (k < 128)%nat -> N.lor (N.of_nat k) 0x80 = 128 + N.of_nat k).
  { assert (A : forallb (fun k => N.lor (N.of_nat k) 0x80 =? 128 + N.of_nat k) (List.seq 0 128) = true)
      by (vm_compute; reflexivity).
    intros k Hk. rewrite forallb_forall in A. apply N.eqb_eq, A, in_seq. lia. }
  specialize (E (N.to_nat v) ltac:(lia)). now rewrite N2Nat.id in E.
Qed.

Lemma shiftr_7 v : N.shiftr v 7 = v / 128.
Proof. now rewrite N.shiftr_div_pow2. Qed.

(** ** LEB128 facts *)


Lemma pow128_S f : 128 ^ N.of_nat (S f) = 128 * 128 ^ N.of_nat f.
Proof. rewrite Nat2N.inj_succ, N.pow_succ_r'. reflexivity. Qed.

Lemma leb_fuel_leb f n : n < 128 ^ N.of_nat f -> (f > 0)%nat -> leb n (leb_fuel f n).
Proof.
  revert n; induction f as [|f IH]; intros n H Hf; [lia|].
  cbn [leb_fuel]. rewrite pow128_S in H.
  destruct (N.ltb_spec n 128).
  - now constructor.
  - constructor; [assumption|]. destruct f as [|f].
    + change (128 ^ N.of_nat 0) with 1 in H. lia.
    + apply IH; [|lia]. apply N.div_lt_upper_bound; lia.
Qed.

Lemma leb_unique n l1 l2 : leb n l1 -> leb n l2 -> l1 = l2.
Proof.
  intro H; revert l2; induction H; intros l2 H2; inversion H2; subst; try lia; try reflexivity.
  f_equal. now apply IHleb.
Qed.

Lemma size_nat_pow n : n < 2 ^ N.of_nat (N.size_nat n).
Proof.
  destruct n as [|p]; [reflexivity|].
  pose proof (N.size_gt (Npos p)) as H.
  assert (N.of_nat (N.size_nat (N.pos p)) = N.size (N.pos p)) as ->; [|exact H].
  clear H. simpl. induction p; simpl; rewrite ?Nat2N.inj_succ, ?IHp; try reflexivity;
  unfold N.succ; simpl; reflexivity.
Qed.

Lemma leb128_fuel_ok n : n < 128 ^ N.of_nat (S (N.size_nat n)).
Proof.
  pose proof (size_nat_pow n). rewrite pow128_S.
  assert (2 ^ N.of_nat (N.size_nat n) <= 128 ^ N.of_nat (N.size_nat n)).
  { apply N.pow_le_mono_l. lia. }
  lia.
Qed.

Lemma leb128_spec n : leb n (leb128 n).
Proof. apply leb_fuel_leb; [apply leb128_fuel_ok | lia]. Qed.

Lemma leb128_unique n l : leb n l -> l = leb128 n.
Proof. intro H. apply (leb_unique n); [exact H | apply leb128_spec]. Qed.

Lemma leb_nonempty n l : leb n l -> (0 < length l)%nat.
Proof. intro H; destruct H; simpl; lia. Qed.

Lemma leb128_nonempty n : (0 < length (leb128 n))%nat.
Proof. apply (leb_nonempty n), leb128_spec. Qed.

Lemma leb_length_le n l k :
  leb n l -> (0 < k)%nat -> n < 128 ^ N.of_nat k -> (length l <= k)%nat.
Proof.
  intro H; revert k; induction H; intros k Hk Hn; simpl; [lia|].
  destruct k as [|k]; [lia|]. rewrite pow128_S in Hn.
  destruct k as [|k].
  - change (128 ^ N.of_nat 0) with 1 in Hn. lia.
  - specialize (IHleb (S k) ltac:(lia)).
    assert (n / 128 < 128 ^ N.of_nat (S k)) by (apply N.div_lt_upper_bound; lia).
    specialize (IHleb H1). lia.
Qed.

Lemma max_size_pow w : wfw w = true -> pow256 w <= 128 ^ N.of_nat (varint_max_size w).
Proof.
  intro H. apply wfw_cases in H as [-> | [-> | [-> | -> ]]]; vm_compute; discriminate.
Qed.

Lemma max_size_pos w : (0 < varint_max_size w)%nat.
Proof. unfold varint_max_size. lia. Qed.

Lemma max_size_le10 w : wfw w = true -> (varint_max_size w <= 10)%nat.
Proof.
  intro H. apply wfw_cases in H as [-> | [-> | [-> | -> ]]]; vm_compute; lia.
Qed.

Lemma leb128_max w n :
  wfw w = true -> n < pow256 w -> (length (leb128 n) <= varint_max_size w)%nat.
Proof.
  intros Hw Hn. apply (leb_length_le n); [apply leb128_spec | apply max_size_pos |].
  pose proof (max_size_pow w Hw). lia.
Qed.

(** The output loop computes the canonical encoding. *)
Lemma vloop_leb f n : n < 128 ^ N.of_nat f -> (0 < f)%nat -> leb n (vloop f n).
Proof.
  revert n; induction f as [|f IH]; intros n H Hf; [lia|].
  cbn [vloop]. rewrite pow128_S in H.
  change 0x80 with 128. destruct (N.ltb_spec n 128).
  - now constructor.
  - rewrite land_7f. change 128 with 0x80 at 2. rewrite lor_80 by (apply N.mod_lt; lia).
    rewrite shiftr_7. constructor; [assumption|].
    destruct f as [|f].
    + change (128 ^ N.of_nat 0) with 1 in H. lia.
    + apply IH; [|lia]. apply N.div_lt_upper_bound; lia.
Qed.

Lemma vloop_leb128 w n : wfw w = true -> n < pow256 w -> vloop (varint_max_size w) n = leb128 n.
Proof.
  intros Hw Hn. apply leb128_unique, vloop_leb; [|apply max_size_pos].
  pose proof (max_size_pow w Hw). lia.
Qed.

(** varint_size is the length of the encoding. *)
Lemma leb_length_log2 n l : leb n l -> N.of_nat (length l) = N.log2 n / 7 + 1.
Proof.
  intro H; induction H as [n Hn|n l Hn H IH].
  - simpl. change (N.of_nat 1) with 1.
    rewrite N.div_small; [reflexivity|].
    destruct (N.eq_dec n 0) as [->|]; [reflexivity|].
    apply N.log2_lt_pow2; [lia|]. exact Hn.
  - cbn [length]. rewrite Nat2N.inj_succ, IH.
    rewrite <- shiftr_7, N.log2_shiftr.
    assert (7 <= N.log2 n).
    { apply N.log2_le_pow2; [lia|]. exact Hn. }
    lia.
Qed.

Lemma varint_size_length n : varint_size n = N.of_nat (length (leb128 n)).
Proof.
  rewrite (leb_length_log2 n) by apply leb128_spec.
  unfold varint_size.
  assert (N.size (N.lor n 1) = N.log2 n + 1) as ->; [|lia].
  rewrite N.size_log2.
  - rewrite N.log2_lor. change (N.log2 1) with 0. rewrite N.max_0_r. lia.
  - intro E. apply N.lor_eq_0_iff in E. lia.
Qed.

(** ** Decoding *)

Lemma leb_value_bounds l v k : leb_value l = Some (v, k) -> (0 < k <= length l)%nat.
Proof.
  revert v k; induction l as [|b l IH]; intros v k H; cbn [leb_value] in H; [discriminate|].
  destruct (b2n b <? 128).
  - injection H as <- <-. simpl; lia.
  - destruct (leb_value l) as [[v' k']|]; [|discriminate].
    injection H as <- <-. specialize (IH _ _ eq_refl). simpl. lia.
Qed.

Lemma leb_value_app l x v k : leb_value l = Some (v, k) -> leb_value (l ++ x) = Some (v, k).
Proof.
  revert v k; induction l as [|b l IH]; intros v k H; cbn [leb_value app] in *; [discriminate|].
  destruct (b2n b <? 128); [exact H|].
  destruct (leb_value l) as [[v' k']|]; [|discriminate].
  now rewrite (IH _ _ eq_refl).
Qed.

Lemma leb_value_firstn l v k m :
  leb_value l = Some (v, k) -> (k <= m)%nat -> leb_value (firstn m l) = Some (v, k).
Proof.
  revert v k m; induction l as [|b l IH]; intros v k m H Hm; cbn [leb_value] in H; [discriminate|].
  destruct m as [|m].
  { pose proof (leb_value_bounds (b :: l) v k). cbn [leb_value] in H0. specialize (H0 H). lia. }
  cbn [firstn leb_value]. destruct (b2n b <? 128); [exact H|].
  destruct (leb_value l) as [[v' k']|]; [|discriminate].
  injection H as <- <-. now rewrite (IH _ _ m eq_refl) by lia.
Qed.

Lemma leb_value_firstn_inv l v k m :
  leb_value (firstn m l) = Some (v, k) -> leb_value l = Some (v, k).
Proof.
  intro H. rewrite <- (firstn_skipn m l). now apply leb_value_app.
Qed.

Lemma leb_value_leb n l : leb n l -> leb_value l = Some (n, length l).
Proof.
  intro H; induction H as [n Hn|n l Hn H IH]; cbn [leb_value length].
  - rewrite b2n_n2b_small by lia. now destruct (N.ltb_spec n 128); [|lia].
  - rewrite b2n_n2b_small by lia.
    destruct (N.ltb_spec (128 + n mod 128) 128); [lia|].
    rewrite IH. do 2 f_equal. lia.
Qed.

Lemma leb_value_leb128 n x : leb_value (leb128 n ++ x) = Some (n, length (leb128 n)).
Proof. apply leb_value_app, leb_value_leb, leb128_spec. Qed.

(** The result every decoder must produce. *)
Definition dec_spec (w : nat) (data : list byte) : vres :=
  match leb_value (firstn (varint_max_size w) data) with
  | Some (v, k) => VOk (v mod pow256 w) k
  | None => VFail (if (length data <? varint_max_size w)%nat then result_out_of_range
                   else value_too_large)
  end.

Lemma trunc_byte w b : wfw w = true -> trunc w (b2n b) = b2n b.
Proof.
  intro H. unfold trunc. apply N.mod_small. pose proof (b2n_lt b).
  assert (256 <= pow256 w); [|lia].
  apply wfw_cases in H as [-> | [-> | [-> | -> ]]]; vm_compute; discriminate.
Qed.

Lemma lor_disjoint a d s : a < 2 ^ s -> N.lor a (N.shiftl d s) = a + d * 2 ^ s.
Proof.
  intro H.
  assert (E : N.land a (N.shiftl d s) = 0).
  { apply N.bits_inj_0. intro m. rewrite N.land_spec.
    destruct (N.lt_ge_cases m s).
    - rewrite N.shiftl_spec_low by assumption. apply andb_false_r.
    - replace a with (a mod 2 ^ s) by (apply N.mod_small; exact H).
      rewrite N.mod_pow2_bits_high by assumption. reflexivity. }
  rewrite <- N.lxor_lor by exact E.
  rewrite <- N.add_nocarry_lxor by exact E.
  now rewrite N.shiftl_mul_pow2.
Qed.

Lemma lor_mod a b m : N.lor (a mod 2 ^ m) (b mod 2 ^ m) = N.lor a b mod 2 ^ m.
Proof.
  rewrite <- !N.land_ones. now rewrite <- N.land_lor_distr_l.
Qed.

(** One accumulation step: [value |= digit << shift] in a [w]-byte word. *)
Lemma acc_step w V d s :
  V < 2 ^ s ->
  N.lor (trunc w V) (trunc w (N.shiftl d s)) = trunc w (V + d * 2 ^ s).
Proof.
  intro H. unfold trunc. rewrite pow256_2, lor_mod, lor_disjoint by exact H. reflexivity.
Qed.

Lemma dec_short_spec w data V i :
  wfw w = true -> V < 2 ^ (7 * N.of_nat i) ->
  dec_short w data (7 * N.of_nat i) (trunc w V) i =
  match leb_value data with
  | Some (v, k) => VOk (trunc w (V + v * 2 ^ (7 * N.of_nat i))) (i + k)
  | None => VFail result_out_of_range
  end.
Proof.
  intros Hw. revert V i; induction data as [|b data IH]; intros V i HV; [reflexivity|].
  cbn [dec_short leb_value]. rewrite trunc_byte by exact Hw.
  rewrite land_7f, acc_step by exact HV.
  pose proof (b2n_lt b).
  change 0x80 with 128. destruct (N.leb_spec 128 (b2n b)).
  - destruct (N.ltb_spec (b2n b) 128); [lia|].
    replace (7 * N.of_nat i + 7) with (7 * N.of_nat (S i)) by lia.
    rewrite IH.
    + destruct (leb_value data) as [[v k]|]; [|reflexivity].
      f_equal; [|lia]. f_equal.
      replace (7 * N.of_nat (S i)) with (7 + 7 * N.of_nat i) by lia.
      rewrite N.pow_add_r. change (2 ^ 7) with 128.
      replace (b2n b mod 128) with (b2n b - 128) by lia.
      nia.
    + replace (7 * N.of_nat (S i)) with (7 + 7 * N.of_nat i) by lia.
      rewrite N.pow_add_r. change (2 ^ 7) with 128.
      assert (b2n b mod 128 < 128) by (apply N.mod_lt; lia). nia.
  - destruct (N.ltb_spec (b2n b) 128); [|lia].
    rewrite N.mod_small by assumption. f_equal. lia.
Qed.

Lemma mask_irrelevant w d : (w <= 8)%nat ->
  trunc w (N.shiftl (N.land d 0x01) 63) = trunc w (N.shiftl (N.land d 0x7f) 63).
Proof.
  intro Hw. rewrite land_7f. change 0x01 with 1. rewrite land_1.
  unfold trunc. rewrite !N.shiftl_mul_pow2.
  assert (E : exists q, 2 ^ 64 = q * pow256 w).
  { exists (pow256 (8 - w)). rewrite <- pow256_add. replace (8 - w + w)%nat with 8%nat by lia.
    reflexivity. }
  destruct E as [q Eq].
  assert (H : d mod 128 = d mod 2 + 2 * (d mod 128 / 2)) by lia.
  rewrite H, N.mul_add_distr_r.
  replace (2 * (d mod 128 / 2) * 2 ^ 63) with ((d mod 128 / 2) * 2 ^ 64)
    by (change (2 ^ 64) with (2 * 2 ^ 63); lia).
  rewrite Eq, N.mul_assoc. pose proof (pow256_pos w).
  rewrite N.mod_add by lia. reflexivity.
Qed.

Lemma dec_long_spec w steps data V i :
  wfw w = true -> V < 2 ^ (7 * N.of_nat i) -> (steps <= length data)%nat ->
  dec_long w steps data i (trunc w V) =
  match leb_value (firstn steps data) with
  | Some (v, k) => VOk (trunc w (V + v * 2 ^ (7 * N.of_nat i))) (i + k)
  | None => VFail value_too_large
  end.
Proof.
  intros Hw. revert data V i; induction steps as [|steps IH]; intros data V i HV Hl; [reflexivity|].
  destruct data as [|b data]; [simpl in Hl; lia|].
  cbn [dec_long firstn leb_value]. rewrite trunc_byte by exact Hw.
  assert (EM : trunc w (N.shiftl (N.land (b2n b) (if (i =? 9)%nat then 1 else 127)) (7 * N.of_nat i))
             = trunc w (N.shiftl (N.land (b2n b) 0x7f) (7 * N.of_nat i))).
  { destruct (Nat.eqb_spec i 9) as [->|]; [|reflexivity].
    change (7 * N.of_nat 9) with 63. apply mask_irrelevant.
    apply wfw_cases in Hw. lia. }
  rewrite EM, land_7f, acc_step by exact HV.
  pose proof (b2n_lt b). change 0x80 with 128.
  destruct (N.ltb_spec (b2n b) 128).
  - rewrite N.mod_small by assumption. f_equal. lia.
  - rewrite IH.
    + destruct (leb_value (firstn steps data)) as [[v k]|]; [|reflexivity].
      f_equal; [|lia]. f_equal.
      replace (7 * N.of_nat (S i)) with (7 + 7 * N.of_nat i) by lia.
      rewrite N.pow_add_r. change (2 ^ 7) with 128.
      replace (b2n b mod 128) with (b2n b - 128) by lia.
      nia.
    + replace (7 * N.of_nat (S i)) with (7 + 7 * N.of_nat i) by lia.
      rewrite N.pow_add_r. change (2 ^ 7) with 128.
      assert (b2n b mod 128 < 128) by (apply N.mod_lt; lia). nia.
    + simpl in Hl. lia.
Qed.

Lemma unrolled_steps_max w : wfw w = true -> unrolled_steps (varint_max_size w) = varint_max_size w.
Proof. intro H. apply wfw_cases in H as [-> | [-> | [-> | -> ]]]; reflexivity. Qed.

Lemma decode_varint_spec w data : wfw w = true -> decode_varint w data = dec_spec w data.
Proof.
  intro Hw. unfold decode_varint, dec_spec.
  destruct (Nat.ltb_spec (length data) (varint_max_size w)).
  - rewrite firstn_all2 by lia.
    pose proof (dec_short_spec w data 0 0 Hw) as E.
    change (7 * N.of_nat 0) with 0 in E. change (2 ^ 0) with 1 in E.
    assert (trunc w 0 = 0) as T by (unfold trunc; apply N.mod_0_l; pose proof (pow256_pos w); lia).
    rewrite T in E. rewrite E by lia.
    destruct (leb_value data) as [[v k]|]; [|reflexivity].
    f_equal. rewrite N.mul_1_r. reflexivity.
  - rewrite unrolled_steps_max by exact Hw.
    pose proof (dec_long_spec w (varint_max_size w) data 0 0 Hw) as E.
    change (7 * N.of_nat 0) with 0 in E. change (2 ^ 0) with 1 in E.
    assert (trunc w 0 = 0) as T by (unfold trunc; apply N.mod_0_l; pose proof (pow256_pos w); lia).
    rewrite T in E. rewrite E by lia.
    destruct (leb_value _) as [[v k]|]; [|reflexivity].
    f_equal. rewrite N.mul_1_r. reflexivity.
Qed.

Lemma varint_in_spec w data : wfw w = true -> varint_in w data = dec_spec w data.
Proof.
  intro Hw. unfold varint_in. destruct data as [|b data]; [now apply decode_varint_spec|].
  rewrite trunc_byte by exact Hw. pose proof (b2n_lt b) as Hb.
  rewrite land_80 by exact Hb.
  destruct (N.ltb_spec (b2n b) 128); [|now apply decode_varint_spec].
  unfold dec_spec. pose proof (max_size_pos w).
  destruct (varint_max_size w) eqn:E; [lia|]. cbn [firstn leb_value].
  destruct (N.ltb_spec (b2n b) 128); [|lia].
  f_equal. now rewrite <- (trunc_byte w b Hw) at 1.
Qed.

Lemma varint_in_inline_spec w data : wfw w = true -> varint_in_inline w data = dec_spec w data.
Proof. exact (decode_varint_spec w data). Qed.

(** Reading back a canonical encoding, whatever follows. *)
Lemma varint_in_leb128 w n x :
  wfw w = true -> n < pow256 w ->
  varint_in w (leb128 n ++ x) = VOk n (length (leb128 n)).
Proof.
  intros Hw Hn. rewrite varint_in_spec by exact Hw. unfold dec_spec.
  pose proof (leb128_max w n Hw Hn).
  rewrite (leb_value_firstn _ n (length (leb128 n))); [|apply leb_value_leb128|assumption].
  now rewrite N.mod_small.
Qed.

(** ** Zig-zag *)

Lemma lxor_ones a m : a < 2 ^ m -> N.lxor a (2 ^ m - 1) = 2 ^ m - 1 - a.
Proof.
  intro H. rewrite <- N.pred_sub, <- N.ones_equiv.
  change (N.lxor a (N.ones m)) with (N.lnot a m).
  destruct (N.eq_dec a 0) as [->|].
  - rewrite N.lnot_0_l. lia.
  - apply N.lnot_sub_low. apply N.log2_lt_pow2; lia.
Qed.

Lemma half_pow w : wfw w = true -> pow256 w = 2 * 2 ^ (bits w - 1).
Proof. intro H. apply wfw_cases in H as [-> | [-> | [-> | -> ]]]; reflexivity. Qed.

Lemma shiftr_top w v : wfw w = true -> v < pow256 w ->
  N.shiftr v (bits w - 1) = 2 * v / pow256 w.
Proof.
  intros Hw Hv. rewrite N.shiftr_div_pow2, (half_pow w Hw).
  rewrite N.div_mul_cancel_l; [reflexivity| |lia].
  apply N.pow_nonzero. lia.
Qed.

Lemma zz_enc_signed w v : wfw w = true -> v < pow256 w ->
  zz_enc w true v = zigzag (to_signed w v).
Proof.
  intros Hw Hv. unfold zz_enc, sign_mask, zigzag, to_signed, trunc.
  rewrite shiftr_top, N.shiftl_mul_pow2 by assumption.
  change (2 ^ 1) with 2. rewrite (N.mul_comm v 2).
  pose proof (pow256_pos w).
  destruct (N.ltb_spec (2 * v) (pow256 w)).
  - rewrite N.div_small, N.mod_small by assumption.
    rewrite N.lxor_0_r. destruct (Z.leb_spec 0 (Z.of_N v)); lia.
  - assert (2 * v / pow256 w = 1) as -> by (symmetry; apply (N.div_unique _ _ _ (2 * v - pow256 w)); lia).
    assert (2 * v mod pow256 w = 2 * v - pow256 w) as ->
      by (symmetry; apply (N.mod_unique _ _ 1); lia).
    cbn [N.eqb]. change (1 =? 0) with false. cbv iota.
    pose proof (lxor_ones (2 * v - pow256 w) (bits w)) as E.
    rewrite <- pow256_2 in E. rewrite E by lia.
    destruct (Z.leb_spec 0 (Z.of_N v - Z.of_N (pow256 w))); lia.
Qed.

Lemma zz_enc_unsigned w v : wfw w = true -> v < pow256 w ->
  zz_enc w false v = (2 * v) mod pow256 w + 2 * v / pow256 w.
Proof.
  intros Hw Hv. unfold zz_enc, sign_mask, trunc.
  rewrite shiftr_top, N.shiftl_mul_pow2 by assumption.
  change (2 ^ 1) with 2. rewrite (N.mul_comm v 2).
  pose proof (pow256_pos w).
  assert (HP : exists q, pow256 w = 2 * q) by (rewrite (half_pow w Hw); eauto).
  destruct HP as [q Hq].
  destruct (N.ltb_spec (2 * v) (pow256 w)).
  - rewrite N.div_small, N.mod_small by assumption.
    now rewrite N.lxor_0_r, N.add_0_r.
  - assert (2 * v / pow256 w = 1) as -> by (symmetry; apply (N.div_unique _ _ _ (2 * v - pow256 w)); lia).
    assert (2 * v mod pow256 w = 2 * (v - q)) as ->
      by (symmetry; apply (N.mod_unique _ _ 1); lia).
    destruct (v - q); reflexivity.
Qed.

Lemma wire_value_number w sg zz v : wfw w = true -> v < pow256 w ->
  wire_value w sg zz v = varint_number w sg zz v.
Proof.
  intros Hw Hv. unfold wire_value, varint_number.
  destruct zz; [|reflexivity]. destruct sg.
  - now apply zz_enc_signed.
  - now apply zz_enc_unsigned.
Qed.

Lemma to_signed_range w v : wfw w = true -> v < pow256 w ->
  (- Z.of_N (pow256 w) <= 2 * to_signed w v < Z.of_N (pow256 w))%Z.
Proof.
  intros Hw Hv. unfold to_signed.
  destruct (N.ltb_spec (2 * v) (pow256 w)); lia.
Qed.

Lemma varint_number_lt w sg zz v : wfw w = true -> v < pow256 w ->
  varint_number w sg zz v < pow256 w.
Proof.
  intros Hw Hv. unfold varint_number. destruct zz; [|exact Hv].
  assert (HP : exists q, pow256 w = 2 * q) by (rewrite (half_pow w Hw); eauto).
  destruct HP as [q Hq].
  destruct sg.
  - pose proof (to_signed_range w v Hw Hv). unfold zigzag.
    destruct (Z.leb_spec 0 (to_signed w v)); lia.
  - pose proof (pow256_pos w).
    destruct (N.ltb_spec (2 * v) (pow256 w)).
    + rewrite N.div_small, N.mod_small by assumption. lia.
    + assert (2 * v / pow256 w = 1) as -> by (symmetry; apply (N.div_unique _ _ _ (2 * v - pow256 w)); lia).
      assert (2 * v mod pow256 w = 2 * v - pow256 w) as ->
        by (symmetry; apply (N.mod_unique _ _ 1); lia).
      lia.
Qed.

Lemma zz_dec_spec w v : wfw w = true -> v < pow256 w ->
  zz_dec w v = of_signed w (unzigzag v).
Proof.
  intros Hw Hv. unfold zz_dec, of_signed, unzigzag.
  rewrite N.shiftr_div_pow2. change (2 ^ 1) with 2. rewrite land_1.
  assert (HP : exists q, pow256 w = 2 * q) by (rewrite (half_pow w Hw); eauto).
  destruct HP as [q Hq].
  pose proof (N.mod_eq v 2 ltac:(lia)) as Em.
  destruct (N.even v) eqn:Ev.
  - apply N.even_spec in Ev as [m ->].
    rewrite N.mul_comm, N.mod_mul by lia. change (0 =? 0) with true. cbv iota.
    rewrite N.div_mul by lia. rewrite N.lxor_0_r.
    rewrite Z.mod_small by lia. lia.
  - assert (Ho : N.odd v = true) by (now rewrite <- N.negb_even, Ev).
    apply N.odd_spec in Ho as [m ->].
    assert ((2 * m + 1) mod 2 = 1) as -> by lia.
    change (1 =? 0) with false. cbv iota.
    assert ((2 * m + 1) / 2 = m) as -> by lia.
    pose proof (lxor_ones m (bits w)) as E. rewrite <- pow256_2 in E.
    rewrite E by lia.
    replace (- Z.of_N m - 1)%Z with (Z.of_N (pow256 w) - 1 - Z.of_N m + (-1) * Z.of_N (pow256 w))%Z by lia.
    rewrite Z.mod_add by lia. rewrite Z.mod_small by lia. lia.
Qed.

Lemma unzigzag_zigzag z : unzigzag (zigzag z) = z.
Proof.
  unfold unzigzag, zigzag. destruct (Z.leb_spec 0 z).
  - replace (Z.to_N (2 * z)) with (2 * Z.to_N z) by lia.
    rewrite N.even_mul. cbn [N.even orb]. rewrite N.mul_comm, N.div_mul by lia. lia.
  - replace (Z.to_N (- 2 * z - 1)) with (1 + 2 * Z.to_N (- z - 1)) by lia.
    rewrite N.even_add_mul_2. cbn [N.even].
    rewrite (N.mul_comm 2), N.div_add by lia. change (1 / 2) with 0. lia.
Qed.

Lemma of_to_signed w v : v < pow256 w -> of_signed w (to_signed w v) = v.
Proof.
  intro Hv. unfold of_signed, to_signed.
  destruct (N.ltb_spec (2 * v) (pow256 w)).
  - rewrite Z.mod_small by lia. lia.
  - replace (Z.of_N v - Z.of_N (pow256 w))%Z with (Z.of_N v + (-1) * Z.of_N (pow256 w))%Z by lia.
    rewrite Z.mod_add by lia. rewrite Z.mod_small by lia. lia.
Qed.

Lemma zigzag_roundtrip w v : wfw w = true -> v < pow256 w ->
  zz_dec w (zz_enc w true v) = v.
Proof.
  intros Hw Hv. rewrite zz_enc_signed by assumption.
  rewrite zz_dec_spec; [|exact Hw|].
  - now rewrite unzigzag_zigzag, of_to_signed.
  - exact (varint_number_lt w true true v Hw Hv).
Qed.

(** zig-zag of a zig_zag varint over a signed type (or a normal varint) is inverted. *)
Lemma unwire_wire w sg zz v : wfw w = true -> v < pow256 w -> (zz = true -> sg = true) ->
  unwire_value w zz (varint_number w sg zz v) = v.
Proof.
  intros Hw Hv Hz. unfold unwire_value. destruct zz; [|reflexivity].
  rewrite Hz by reflexivity. cbn [varint_number].
  rewrite <- zz_enc_signed by assumption. now apply zigzag_roundtrip.
Qed.

Lemma unwire_lt w zz v : wfw w = true -> v < pow256 w -> unwire_value w zz v < pow256 w.
Proof.
  intros Hw Hv. unfold unwire_value. destruct zz; [|exact Hv].
  rewrite zz_dec_spec by assumption. unfold of_signed.
  pose proof (pow256_pos w).
  pose proof (Z.mod_pos_bound (unzigzag v) (Z.of_N (pow256 w)) ltac:(lia)). lia.
Qed.
