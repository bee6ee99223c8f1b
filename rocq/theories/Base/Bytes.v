(** Bytes, little-endian numbers and list windows.

    Generic infrastructure, not a model of any particular code.  A C++ byte
    ([std::byte], [char], [unsigned char]; zpp_bits.h:764-767) is an element of
    [Coq.Init.Byte.byte]; conversions to and from [N] are [b2n] / [n2b]. *)

From Coq Require Import List NArith ZArith Lia Bool Arith.
From Coq Require Import ZifyBool ZifyNat ZifyN.
From Coq Require Export Init.Byte.
From Coq Require Strings.Byte.
Import ListNotations.
Local Open Scope N_scope.

Ltac Zify.zify_post_hook ::= Z.div_mod_to_equations.

Arguments N.add : simpl never.
Arguments N.mul : simpl never.
Arguments N.sub : simpl never.
Arguments N.div : simpl never.
Arguments N.modulo : simpl never.
Arguments N.pow : simpl never.
Arguments N.of_nat : simpl never.
Arguments N.to_nat : simpl never.
Arguments N.ltb : simpl never.
Arguments N.leb : simpl never.
Arguments N.eqb : simpl never.
Arguments N.lor : simpl never.
Arguments N.land : simpl never.
Arguments N.lxor : simpl never.
Arguments N.shiftl : simpl never.
Arguments N.shiftr : simpl never.

Definition b2n (b : byte) : N := Byte.to_N b.

(** Narrowing conversion to a byte: keeps the low 8 bits, as every C++
    [byte_type(x)] / [std::uint8_t(x)] conversion does. *)
Definition n2b (n : N) : byte :=
  match Byte.of_N (n mod 256) with Some b => b | None => x00 end.

Lemma b2n_lt b : b2n b < 256.
Proof.
  unfold b2n. pose proof (Byte.to_N_bounded b). lia.
Qed.

Lemma b2n_n2b n : b2n (n2b n) = n mod 256.
Proof.
  unfold n2b, b2n.
  destruct (Byte.of_N (n mod 256)) eqn:E.
  - now apply Byte.to_of_N in E.
  - apply Byte.of_N_None_iff in E. lia.
Qed.

Lemma n2b_b2n b : n2b (b2n b) = b.
Proof.
  unfold n2b. rewrite N.mod_small by apply b2n_lt.
  unfold b2n. now rewrite Byte.of_to_N.
Qed.

Lemma b2n_inj a b : b2n a = b2n b -> a = b.
Proof. intro H. rewrite <- (n2b_b2n a), <- (n2b_b2n b). now rewrite H. Qed.

Lemma n2b_mod n : n2b (n mod 256) = n2b n.
Proof. unfold n2b. now rewrite N.mod_mod by lia. Qed.

Lemma b2n_n2b_small n : n < 256 -> b2n (n2b n) = n.
Proof. intro. rewrite b2n_n2b. now rewrite N.mod_small. Qed.

Definition byte_eqb (a b : byte) : bool := b2n a =? b2n b.

Lemma byte_eqb_eq a b : byte_eqb a b = true <-> a = b.
Proof.
  unfold byte_eqb. rewrite N.eqb_eq. split; [apply b2n_inj | now intros ->].
Qed.

(** Numbers as little-endian byte lists. *)

Definition pow256 (w : nat) : N := 256 ^ N.of_nat w.

Lemma pow256_0 : pow256 0 = 1.
Proof. reflexivity. Qed.

Lemma pow256_S w : pow256 (S w) = 256 * pow256 w.
Proof.
  unfold pow256. rewrite Nat2N.inj_succ, N.pow_succ_r'. reflexivity.
Qed.

Lemma pow256_pos w : 0 < pow256 w.
Proof. unfold pow256. apply N.neq_0_lt_0, N.pow_nonzero. lia. Qed.

Lemma pow256_add a b : pow256 (a + b) = pow256 a * pow256 b.
Proof. unfold pow256. rewrite Nat2N.inj_add, N.pow_add_r. reflexivity. Qed.

Fixpoint le_bytes (w : nat) (n : N) : list byte :=
  match w with
  | O => []
  | S w' => n2b n :: le_bytes w' (n / 256)
  end.

Fixpoint le_val (l : list byte) : N :=
  match l with
  | [] => 0
  | b :: l' => b2n b + 256 * le_val l'
  end.

Lemma le_bytes_length w n : length (le_bytes w n) = w.
Proof. revert n; induction w; intro; simpl; [reflexivity | now rewrite IHw]. Qed.

Lemma le_val_lt l : le_val l < pow256 (length l).
Proof.
  induction l as [|b l IH]; simpl.
  - rewrite pow256_0. lia.
  - rewrite pow256_S. pose proof (b2n_lt b). nia.
Qed.

Lemma le_val_le_bytes w n : le_val (le_bytes w n) = n mod pow256 w.
Proof.
  revert n; induction w as [|w IH]; intro n; simpl.
  - rewrite pow256_0, N.mod_1_r. reflexivity.
  - rewrite IH, b2n_n2b, pow256_S.
    pose proof (pow256_pos w).
    rewrite N.mod_mul_r by lia. lia.
Qed.

Lemma le_val_le_bytes_small w n : n < pow256 w -> le_val (le_bytes w n) = n.
Proof. intro. rewrite le_val_le_bytes. now apply N.mod_small. Qed.

Lemma le_bytes_le_val l : le_bytes (length l) (le_val l) = l.
Proof.
  induction l as [|b l IH]; simpl; [reflexivity|].
  pose proof (b2n_lt b).
  assert (n2b (b2n b + 256 * le_val l) = b) as ->.
  { apply b2n_inj. rewrite b2n_n2b. rewrite N.mul_comm, N.mod_add by lia.
    apply N.mod_small. lia. }
  rewrite N.mul_comm, N.div_add by lia.
  rewrite N.div_small by lia. rewrite N.add_0_l, IH. reflexivity.
Qed.

Lemma le_bytes_mod w n : le_bytes w (n mod pow256 w) = le_bytes w n.
Proof.
  rewrite <- (le_bytes_le_val (le_bytes w (n mod pow256 w))).
  rewrite <- (le_bytes_le_val (le_bytes w n)).
  rewrite !le_bytes_length, !le_val_le_bytes.
  pose proof (pow256_pos w). now rewrite N.mod_mod by lia.
Qed.

Lemma le_bytes_inj w a b :
  a < pow256 w -> b < pow256 w -> le_bytes w a = le_bytes w b -> a = b.
Proof.
  intros Ha Hb H. rewrite <- (le_val_le_bytes_small w a Ha).
  rewrite H. now apply le_val_le_bytes_small.
Qed.

(** Windows into byte lists. *)

Definition zeros (k : nat) : list byte := repeat x00 k.

(** [window l p n]: the [n] elements of [l] starting at index [p]. *)
Definition window {A} (l : list A) (p n : nat) : list A := firstn n (skipn p l).

(** [overwrite l p e]: [l] with [e] stored starting at index [p]. *)
Definition overwrite {A} (l : list A) (p : nat) (e : list A) : list A :=
  firstn p l ++ e ++ skipn (p + length e) l.

Section ListLemmas.
  Local Open Scope nat_scope.
  Context {A : Type}.
  Implicit Types l e : list A.

  Lemma skipn_skipn a b l : skipn a (skipn b l) = skipn (b + a) l.
  Proof.
    revert l; induction b as [|b IH]; intro l; simpl; [reflexivity|].
    destruct l; [now rewrite skipn_nil | apply IH].
  Qed.

  Lemma window_length l p n : p + n <= length l -> length (window l p n) = n.
  Proof.
    intro H. unfold window. rewrite firstn_length, skipn_length. lia.
  Qed.

  Lemma window_all l : window l 0 (length l) = l.
  Proof. unfold window. simpl. apply firstn_all. Qed.

  Lemma overwrite_length l p e :
    p + length e <= length l -> length (overwrite l p e) = length l.
  Proof.
    intro H. unfold overwrite.
    rewrite !app_length, firstn_length, skipn_length. lia.
  Qed.

  Lemma overwrite_nil l p : overwrite l p [] = l.
  Proof. unfold overwrite. simpl. rewrite Nat.add_0_r. apply firstn_skipn. Qed.

  Lemma firstn_overwrite l p e q :
    q <= p -> p <= length l -> firstn q (overwrite l p e) = firstn q l.
  Proof.
    intros. unfold overwrite.
    rewrite firstn_app, firstn_length.
    rewrite firstn_firstn. replace (Nat.min q p) with q by lia.
    replace (q - Nat.min p (length l)) with 0 by lia.
    now rewrite firstn_O, app_nil_r.
  Qed.

  Lemma skipn_app_ge (l1 l2 : list A) n :
    length l1 <= n -> skipn n (l1 ++ l2) = skipn (n - length l1) l2.
  Proof.
    intro. rewrite skipn_app. rewrite skipn_all2 by assumption. reflexivity.
  Qed.

  Lemma skipn_overwrite l p e q :
    p <= length l -> p + length e <= q -> skipn q (overwrite l p e) = skipn q l.
  Proof.
    intros. unfold overwrite.
    rewrite skipn_app_ge by (rewrite firstn_length; lia).
    rewrite firstn_length. replace (Nat.min p (length l)) with p by lia.
    rewrite skipn_app_ge by lia.
    rewrite skipn_skipn. f_equal. lia.
  Qed.

  Lemma window_overwrite l p e :
    p <= length l -> window (overwrite l p e) p (length e) = e.
  Proof.
    intros. unfold window, overwrite.
    rewrite skipn_app_ge by (rewrite firstn_length; lia).
    rewrite firstn_length. replace (p - Nat.min p (length l)) with 0 by lia.
    simpl. rewrite firstn_app, Nat.sub_diag. simpl.
    now rewrite app_nil_r, firstn_all.
  Qed.

  Lemma overwrite_app l p e1 e2 :
    p + length e1 <= length l ->
    overwrite (overwrite l p e1) (p + length e1) e2 = overwrite l p (e1 ++ e2).
  Proof.
    intros H. unfold overwrite at 1.
    rewrite skipn_overwrite by lia.
    unfold overwrite.
    rewrite firstn_app, firstn_length.
    rewrite firstn_firstn. replace (Nat.min (p + length e1) p) with p by lia.
    replace (p + length e1 - Nat.min p (length l)) with (length e1) by lia.
    rewrite firstn_app, Nat.sub_diag, firstn_all. simpl.
    rewrite app_nil_r, <- !app_assoc, app_length.
    do 3 f_equal. f_equal. lia.
  Qed.

  Lemma overwrite_app_r l p e x :
    p + length e <= length l -> overwrite (l ++ x) p e = overwrite l p e ++ x.
  Proof.
    intro. unfold overwrite.
    rewrite firstn_app. replace (p - length l) with 0 by lia.
    rewrite firstn_O, app_nil_r.
    rewrite skipn_app. replace (p + length e - length l) with 0 by lia.
    simpl. now rewrite <- !app_assoc.
  Qed.

  Lemma overwrite_at_end l e : overwrite l (length l) e = l ++ e.
  Proof.
    unfold overwrite. rewrite firstn_all.
    rewrite skipn_all2 by lia. now rewrite app_nil_r.
  Qed.

  (** [has_at l p e]: the list [l] contains [e] at index [p]. *)
  Definition has_at l p e : Prop := p + length e <= length l /\ window l p (length e) = e.

  Lemma has_at_app l p e1 e2 :
    has_at l p (e1 ++ e2) <-> has_at l p e1 /\ has_at l (p + length e1) e2.
  Proof.
    unfold has_at, window. rewrite app_length. split.
    - intros [H1 H2]. repeat split; try lia.
      + rewrite <- (firstn_skipn (length e1) (skipn p l)) in H2.
        rewrite firstn_app in H2.
        rewrite firstn_firstn in H2.
        replace (Nat.min (length e1 + length e2) (length e1)) with (length e1) in H2 by lia.
        rewrite firstn_length, skipn_length in H2.
        replace (length e1 + length e2 - Nat.min (length e1) (length l - p)) with (length e2) in H2 by lia.
        assert (length (firstn (length e1) (skipn p l)) = length e1)
          by (rewrite firstn_length, skipn_length; lia).
        pose proof (f_equal (firstn (length e1)) H2) as H3.
        rewrite firstn_app, H, Nat.sub_diag in H3.
        rewrite firstn_O, app_nil_r, firstn_firstn, Nat.min_id in H3.
        rewrite H3. rewrite firstn_app, Nat.sub_diag, firstn_O, app_nil_r. apply firstn_all.
      + rewrite <- (firstn_skipn (length e1) (skipn p l)) in H2.
        rewrite firstn_app in H2.
        assert (length (firstn (length e1) (skipn p l)) = length e1)
          by (rewrite firstn_length, skipn_length; lia).
        rewrite H in H2.
        replace (length e1 + length e2 - length e1) with (length e2) in H2 by lia.
        pose proof (f_equal (skipn (length e1)) H2) as H3.
        rewrite skipn_app in H3. rewrite firstn_firstn in H3.
        replace (Nat.min (length e1 + length e2) (length e1)) with (length e1) in H3 by lia.
        rewrite H, Nat.sub_diag in H3.
        rewrite (skipn_all2 (firstn _ _)) in H3 by lia.
        rewrite skipn_app, Nat.sub_diag, skipn_all in H3. simpl in H3.
        rewrite skipn_skipn in H3. exact H3.
    - intros [[H1 H2] [H3 H4]]. split; [lia|].
      rewrite <- (firstn_skipn (length e1) (skipn p l)).
      rewrite firstn_app.
      assert (length (firstn (length e1) (skipn p l)) = length e1)
        by (rewrite firstn_length, skipn_length; lia).
      rewrite H. rewrite firstn_firstn.
      replace (Nat.min (length e1 + length e2) (length e1)) with (length e1) by lia.
      rewrite H2. f_equal.
      replace (length e1 + length e2 - length e1) with (length e2) by lia.
      rewrite skipn_skipn. exact H4.
  Qed.

  Lemma has_at_nil l p : p <= length l -> has_at l p [].
  Proof. intro. split; simpl; [lia | reflexivity]. Qed.

  Lemma has_at_intro pre e post : has_at (pre ++ e ++ post) (length pre) e.
  Proof.
    split.
    - rewrite !app_length. lia.
    - unfold window. rewrite skipn_app, Nat.sub_diag, skipn_all. simpl.
      rewrite firstn_app, Nat.sub_diag, firstn_all. simpl. apply app_nil_r.
  Qed.

  Lemma has_at_elim l p e :
    has_at l p e -> exists pre post, l = pre ++ e ++ post /\ length pre = p.
  Proof.
    intros [H1 H2]. exists (firstn p l), (skipn (p + length e) l). split.
    - rewrite <- H2 at 1. unfold window.
      rewrite <- (firstn_skipn p l) at 1. f_equal.
      rewrite <- (firstn_skipn (length e) (skipn p l)) at 1. f_equal.
      now rewrite skipn_skipn.
    - rewrite firstn_length. lia.
  Qed.

  Lemma has_at_extend l p e x : has_at l p e -> has_at (l ++ x) p e.
  Proof.
    intro H. apply has_at_elim in H as (pre & post & -> & <-).
    rewrite <- !app_assoc. apply has_at_intro.
  Qed.

  Lemma window_has_at l p n : p + n <= length l -> has_at l p (window l p n).
  Proof.
    intro H. pose proof (window_length l p n H) as E. split.
    - rewrite E. exact H.
    - now rewrite E.
  Qed.

  Lemma has_at_window l p e : has_at l p e -> window l p (length e) = e.
  Proof. now intros []. Qed.

  Lemma window_extend l p n x : p + n <= length l -> window (l ++ x) p n = window l p n.
  Proof.
    intro H. unfold window. rewrite skipn_app.
    rewrite firstn_app, skipn_length.
    replace (n - (length l - p)) with 0 by lia.
    now rewrite firstn_O, app_nil_r.
  Qed.

  Lemma window_nil l p : window l p 0 = [].
  Proof. reflexivity. Qed.

  Lemma nth_error_window l p n i :
    i < n -> nth_error (window l p n) i = nth_error l (p + i).
  Proof.
    intro H. unfold window.
    revert l p; induction n as [|n IH] in i, H |- *; intros; [lia|].
    rewrite <- (firstn_skipn p l) at 2.
    destruct (le_lt_dec (length l) p).
    - rewrite skipn_all2 by lia. rewrite app_nil_r, firstn_nil.
      rewrite !(proj2 (nth_error_None _ _)); try reflexivity.
      + rewrite firstn_length. lia.
      + simpl. lia.
    - rewrite nth_error_app2 by (rewrite firstn_length; lia).
      rewrite firstn_length. replace (p + i - Nat.min p (length l)) with i by lia.
      destruct (skipn p l) as [|a m] eqn:E; [now destruct i|].
      destruct i as [|i]; [reflexivity|].
      simpl. specialize (IH i ltac:(lia) m 0). simpl in IH. exact IH.
  Qed.

End ListLemmas.

Lemma zeros_length k : length (zeros k) = k.
Proof. apply repeat_length. Qed.

Lemma zeros_app a b : zeros (a + b) = zeros a ++ zeros b.
Proof. apply repeat_app. Qed.
