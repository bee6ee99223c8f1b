(** C40: hexadecimal literals. *)

From Coq Require Import Ascii String List ZArith NArith Lia Bool Arith.
From Coq Require Import ZifyBool ZifyNat ZifyN.
From Verif Require Import Base.Bytes Model.Literals Spec.Hex.
Import ListNotations.

Lemma lower_codes : lower = map Z.of_nat [48;49;50;51;52;53;54;55;56;57;97;98;99;100;101;102].
Proof. reflexivity. Qed.
Lemma upper_codes : upper = map Z.of_nat [48;49;50;51;52;53;54;55;56;57;65;66;67;68;69;70].
Proof. reflexivity. Qed.

Lemma digit_hex c d : digit c d -> hex_char c = true /\ hex (tolower c) = Z.of_nat d /\ (d < 16)%nat.
Proof.
  intro H. assert (Hd : (d < 16)%nat).
  { change 16%nat with (length lower) at 1. destruct H as [H|H].
    - apply nth_error_Some. congruence.
    - change (length lower) with (length upper). apply nth_error_Some. congruence. }
  destruct H as [H|H]; do 16 (destruct d as [|d]; [injection H as <-; repeat split; lia|]); lia.
Qed.

Lemma hex_digit c : hex_char c = true -> exists d, digit c d.
Proof.
  intro H. assert (Q : (48 <= c <= 57 \/ 97 <= c <= 102 \/ 65 <= c <= 70)%Z).
  { unfold hex_char, tolower in H. destruct ((65 <=? c)%Z && (c <=? 90)%Z) eqn:E; lia. }
  destruct Q as [Q|[Q|Q]].
  - exists (Z.to_nat (c - 48)). left. rewrite lower_codes.
    replace c with (Z.of_nat (48 + Z.to_nat (c - 48))) at 2 by lia.
    assert (B : (Z.to_nat (c - 48) < 10)%nat) by lia. generalize dependent (Z.to_nat (c - 48)). intros n B.
    do 10 (destruct n as [|n]; [reflexivity|]). lia.
  - exists (Z.to_nat (c - 87)). left. rewrite lower_codes.
    replace c with (Z.of_nat (87 + Z.to_nat (c - 87))) at 2 by lia.
    assert (B : (10 <= Z.to_nat (c - 87) < 16)%nat) by lia. generalize dependent (Z.to_nat (c - 87)). intros n B.
    do 16 (destruct n as [|n]; [lia || reflexivity|]). lia.
  - exists (Z.to_nat (c - 55)). right. rewrite upper_codes.
    replace c with (Z.of_nat (55 + Z.to_nat (c - 55))) at 2 by lia.
    assert (B : (10 <= Z.to_nat (c - 55) < 16)%nat) by lia. generalize dependent (Z.to_nat (c - 55)). intros n B.
    do 16 (destruct n as [|n]; [lia || reflexivity|]). lia.
Qed.

Lemma hex_byte_value c1 c2 d1 d2 : digit c1 d1 -> digit c2 d2 ->
  hex_byte c1 c2 = n2b (N.of_nat (16 * d1 + d2)).
Proof.
  intros H1 H2. destruct (digit_hex _ _ H1) as (_ & E1 & B1). destruct (digit_hex _ _ H2) as (_ & E2 & B2).
  unfold hex_byte. rewrite E1, E2. clear -B1 B2.
  do 16 (destruct d1 as [|d1]; [do 16 (destruct d2 as [|d2]; [reflexivity|]); lia|]). lia.
Qed.

(** _decode_hex yields bytes exactly for hexadecimal notation, and exactly the bytes denoted. *)
Theorem decode_hex_denotes s bs : decode_hex s = Some bs <-> denotes s bs.
Proof.
  assert (Ev : forall c d (s : list Z), length (c :: d :: s) mod 2 = length s mod 2
     /\ length (c :: d :: s) / 2 = S (length s / 2)).
  { intros c d s'. cbn [length]. replace (S (S (length s'))) with (length s' + 1 * 2)%nat by lia.
    rewrite Nat.mod_add, Nat.div_add by discriminate. split; lia. }
  split.
  - unfold decode_hex. intro H. destruct (_ && _) eqn:E; [|discriminate].
    assert (Hb : bs = hex_loop (length s / 2) s) by congruence. subst bs. clear H.
    apply andb_true_iff in E as [E1 E2]. apply Nat.eqb_eq in E1.
    remember (length s) as n eqn:En. revert s En E1 E2. induction n as [n IH] using lt_wf_ind.
    intros [|c [|d s]] -> E1 E2; [constructor|discriminate|].
    destruct (Ev c d s) as [Ev1 Ev2]. rewrite Ev1 in E1. rewrite Ev2. cbn [hex_loop forallb] in *.
    apply andb_true_iff in E2 as [C1 E2]. apply andb_true_iff in E2 as [C2 E2].
    destruct (hex_digit c C1) as [d1 D1]. destruct (hex_digit d C2) as [d2 D2].
    rewrite (hex_byte_value c d d1 d2) by assumption. constructor; auto.
    apply (IH (length s)); auto. cbn [length]. lia.
  - induction 1 as [|c1 c2 d1 d2 s bs H1 H2 H IH]; [reflexivity|].
    unfold decode_hex in *. destruct (Ev c1 c2 s) as [-> ->]. cbn [forallb hex_loop].
    destruct (digit_hex _ _ H1) as (-> & _). destruct (digit_hex _ _ H2) as (-> & _). cbn [andb].
    destruct (_ && _); [|discriminate].
    assert (Hb : bs = hex_loop (length s / 2) s) by congruence. rewrite Hb.
    now rewrite (hex_byte_value c1 c2 d1 d2).
Qed.

(** Upper and lower case are the same. *)
Theorem decode_hex_case s : decode_hex s = decode_hex (map lower_case s).
Proof.
  assert (T : forall c, lower_case c = tolower c).
  { intro c. unfold lower_case, tolower. change (code "A") with 65%Z. change (code "Z") with 90%Z.
    change (code "a") with 97%Z. destruct (_ && _); lia. }
  assert (TT : forall c, tolower (tolower c) = tolower c).
  { intro c. unfold tolower. destruct ((65 <=? c)%Z && (c <=? 90)%Z) eqn:E; [|now rewrite E].
    replace ((65 <=? c - 65 + 97)%Z && (c - 65 + 97 <=? 90)%Z) with false; lia. }
  unfold decode_hex. rewrite map_length.
  assert (F : forallb hex_char (map lower_case s) = forallb hex_char s).
  { clear -T TT. induction s as [|c s IH]; [reflexivity|]. cbn [map forallb]. rewrite IH, T. f_equal.
    unfold hex_char. rewrite TT. unfold tolower. destruct ((65 <=? c)%Z && (c <=? 90)%Z) eqn:E; lia. }
  rewrite F. destruct (_ && _); [|reflexivity]. f_equal. generalize (length s / 2)%nat. intro n. clear F.
  revert s. induction n as [|n IH]; intros [|c [|d s]]; try reflexivity. cbn [map hex_loop]. rewrite IH. f_equal.
  unfold hex_byte. now rewrite !T, !TT.
Qed.

(** Decoding inverts encoding, in either case. *)
Theorem decode_encode_hex digits bs :
  digits = lower \/ digits = upper -> decode_hex (encode_hex digits bs) = Some bs.
Proof.
  intro Hd. apply decode_hex_denotes. induction bs as [|b bs IH]; [constructor|].
  cbn [encode_hex flat_map encode_byte app]. pose proof (b2n_lt b) as B.
  assert (D : forall n, (n < 16)%nat -> digit (nth n digits 0%Z) n).
  { intros n Hn. destruct Hd as [->| ->]; [left|right]; apply nth_error_nth'; exact Hn. }
  replace (b :: bs) with (n2b (N.of_nat (16 * N.to_nat (b2n b / 16) + N.to_nat (b2n b mod 16))) :: bs).
  - constructor; [apply D; lia|apply D; lia|exact IH].
  - f_equal. rewrite <- (n2b_b2n b) at 3. f_equal. rewrite Nat2N.inj_add, Nat2N.inj_mul, !N2Nat.id.
    symmetry. apply (N.div_mod' (b2n b) 16).
Qed.

(** Encoding inverts decoding, up to case. *)
Theorem encode_decode_hex s bs : decode_hex s = Some bs -> encode_hex lower bs = map lower_case s.
Proof.
  intro H. apply decode_hex_denotes in H. induction H as [|c1 c2 d1 d2 s bs H1 H2 H IH]; [reflexivity|].
  cbn [encode_hex flat_map encode_byte app map]. fold (encode_hex lower bs). rewrite IH.
  destruct (digit_hex _ _ H1) as (_ & _ & B1). destruct (digit_hex _ _ H2) as (_ & _ & B2).
  rewrite b2n_n2b, N.mod_small by lia.
  replace (N.to_nat (N.of_nat (16 * d1 + d2) / 16)) with d1 by lia.
  replace (N.to_nat (N.of_nat (16 * d1 + d2) mod 16)) with d2 by lia.
  assert (D : forall c d, digit c d -> (d < 16)%nat -> nth d lower 0%Z = lower_case c).
  { clear. intros c d H B. destruct H as [H|H];
      do 16 (destruct d as [|d]; [injection H as <-; reflexivity|]); lia. }
  now rewrite (D c1 d1), (D c2 d2).
Qed.

(** Strings of odd length and other characters do not compile. *)
Theorem decode_hex_refuses s :
  (length s mod 2 = 1)%nat \/ (exists c, In c s /\ forall d, ~ digit c d) -> decode_hex s = None.
Proof.
  intro H. destruct (decode_hex s) as [bs|] eqn:E; [|reflexivity]. exfalso.
  unfold decode_hex in E. destruct (_ && _) eqn:F; [|discriminate]. apply andb_true_iff in F as [F1 F2].
  apply Nat.eqb_eq in F1. destruct H as [H|(c & Hc & H)]; [lia|].
  rewrite forallb_forall in F2. destruct (hex_digit c (F2 c Hc)) as [d D]. now apply (H d).
Qed.

Example decode_hex_nontrivial :
  decode_hex (codes "0a03Ff9E") = Some [x0a; x03; xff; x9e]
  /\ denotes (codes "fE") [xfe]
  /\ decode_hex (codes "0g") = None /\ decode_hex (codes "012") = None
  /\ decode_hex [48; -1]%Z = None.
Proof.
  repeat (split; [vm_compute; reflexivity|]). split; [|repeat split; vm_compute; reflexivity].
  change [xfe] with [n2b (N.of_nat (16 * 15 + 14))].
  apply denotes_cons; [left; reflexivity|right; reflexivity|constructor].
Qed.
