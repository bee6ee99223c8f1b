(** C39: sha1 and sha256 are the digests of FIPS 180-4, where they compile. *)

From Coq Require Import List NArith ZArith Lia Bool Arith.
From Coq Require Import ZifyBool ZifyNat ZifyN.
From Verif Require Import Base.Bytes Model.Types Model.Machine Model.Out Model.Options
  Model.In Model.BigEndian Model.ToBytes Model.Sha Spec.Wire Spec.Fips180 Proofs.OutP
  Proofs.InBase Proofs.InRound Thm.Demo Thm.Output Thm.BigEndian Thm.ToBytes.
Import ListNotations.
Local Open Scope N_scope.

(** ** Words *)

Section Words.
  Variable h : bool.

  (** The object [v] represents the word [x]. *)
  Definition rep (v x : N) : Prop := represents h 4 v x.

  Lemma word256 : 256 ^ N.of_nat 4 = word.
  Proof. reflexivity. Qed.

  Lemma rep_lt v x : rep v x -> x < word.
  Proof.
    intros [H1 <-]. rewrite <- word256. pose proof (be_number_lt (mem_of h 4 v)) as Q.
    now rewrite mem_length in Q.
  Qed.

  Lemma rep_big x : x < word -> rep (be_make h 4 x) x.
  Proof.
    intro Hx. pose proof (big_endian_of_value h 4 x) as Q. rewrite word256, N.mod_small in Q; auto.
  Qed.

  Lemma rep_add a b x y : rep a x -> rep b y -> rep (be_add h 4 a b) (plus32 x y).
  Proof. apply big_endian_add. Qed.
  Lemma rep_and a b x y : rep a x -> rep b y -> rep (be_and a b) (N.land x y).
  Proof. apply big_endian_and. Qed.
  Lemma rep_or a b x y : rep a x -> rep b y -> rep (be_or a b) (N.lor x y).
  Proof. apply big_endian_or. Qed.
  Lemma rep_xor a b x y : rep a x -> rep b y -> rep (be_xor a b) (N.lxor x y).
  Proof. apply big_endian_xor. Qed.
  Lemma rep_not a x : rep a x -> rep (be_not 4 a) (not32 x).
  Proof. apply big_endian_not. Qed.
  Lemma rep_shr a x k : k < 64 -> rep a x -> rep (be_shr h 4 a k) (N.shiftr x k).
  Proof.
    intros Hk H. apply big_endian_shift_right; auto; [reflexivity|].
    change (2 ^ 64) with 18446744073709551616. lia.
  Qed.
  Lemma rep_shl a x k : k < 64 -> rep a x -> rep (be_shl h 4 a k) (N.shiftl x k mod word).
  Proof.
    intros Hk H. apply big_endian_shift_left; auto; [reflexivity|].
    change (2 ^ 64) with 18446744073709551616. lia.
  Qed.
  Lemma rep_rotl a x c : c < 32 -> rep a x -> rep (rotate_left h a c) (rotl c x).
  Proof. intros Hc H. apply rep_or; [apply rep_shl|apply rep_shr]; auto; lia. Qed.
  Lemma rep_rotr a x c : c < 32 -> rep a x -> rep (rotate_right h a c) (rotr c x).
  Proof. intros Hc H. apply rep_or; [apply rep_shr|apply rep_shl]; auto; lia. Qed.

  Ltac rep_ops :=
    repeat lazymatch goal with
    | |- rep (be_add _ _ _ _) _ => apply rep_add
    | |- rep (be_xor _ _) _ => apply rep_xor
    | |- rep (be_and _ _) _ => apply rep_and
    | |- rep (be_or _ _) _ => apply rep_or
    | |- rep (be_not _ _) _ => apply rep_not
    | |- rep (be_make _ _ _) _ => apply rep_big; reflexivity
    | |- rep (be_shr _ _ _ _) _ => apply rep_shr; [lia|]
    | |- rep (rotate_right _ _ _) _ => apply rep_rotr; [lia|]
    | |- rep (rotate_left _ _ _) _ => apply rep_rotl; [lia|]
    end.

  (** The two ways of writing Ch and Maj. *)
  Lemma not32_ldiff x : x < word -> not32 x = N.ldiff (N.ones 32) x.
  Proof.
    intro Hx. unfold not32. change (word - 1) with (N.ones 32). apply N.sub_nocarry_ldiff.
    apply N.bits_inj. intro n. rewrite N.ldiff_spec, N.bits_0.
    destruct (N.lt_ge_cases n 32).
    - rewrite N.ones_spec_low by assumption. apply andb_false_r.
    - rewrite (lt_bits x 32 n Hx) by assumption. reflexivity.
  Qed.

  Lemma ch_or x y z : x < word -> N.lor (N.land x y) (N.land (not32 x) z) = Ch x y z.
  Proof.
    intro Hx. unfold Ch. rewrite not32_ldiff by assumption. apply N.bits_inj. intro n.
    rewrite N.lor_spec, N.lxor_spec, !N.land_spec, N.ldiff_spec.
    destruct (N.testbit x n), (N.testbit y n), (N.testbit z n), (N.testbit (N.ones 32) n); reflexivity.
  Qed.

  Lemma maj_or x y z : N.lor (N.lor (N.land x y) (N.land x z)) (N.land y z) = Maj x y z.
  Proof.
    unfold Maj. apply N.bits_inj. intro n. rewrite !N.lor_spec, !N.lxor_spec, !N.land_spec.
    destruct (N.testbit x n), (N.testbit y n), (N.testbit z n); reflexivity.
  Qed.

  Lemma plus32_comm x y : plus32 x y = plus32 y x.
  Proof. unfold plus32. now rewrite N.add_comm. Qed.
  Lemma plus32_assoc x y z : plus32 (plus32 x y) z = plus32 x (plus32 y z).
  Proof.
    unfold plus32. rewrite N.add_mod_idemp_l, N.add_mod_idemp_r by discriminate. now rewrite N.add_assoc.
  Qed.

  (** ** Schedules *)

  Lemma same_length w x : Forall2 rep w x -> length w = length x.
  Proof. induction 1; cbn; congruence. Qed.

  Lemma rep_get w x i : Forall2 rep w x -> rep (get w i) (W x i).
  Proof.
    intro H. unfold get, W. revert i. induction H as [|a b w x H1 H2 IH]; intros [|i]; cbn [nth]; auto;
    split; reflexivity || (destruct h; reflexivity).
  Qed.

  Lemma set_at (a : list N) x b y : set (a ++ x :: b) (length a) y = a ++ y :: b.
  Proof.
    unfold set. rewrite firstn_app, Nat.sub_diag, firstn_all. cbn [firstn]. rewrite app_nil_r. f_equal.
    f_equal. replace (S (length a)) with (length (a ++ [x])) by (rewrite app_length; cbn; lia).
    change (a ++ x :: b) with (a ++ [x] ++ b). rewrite app_assoc.
    rewrite skipn_app, Nat.sub_diag, skipn_all. reflexivity.
  Qed.

  Lemma grow_rep f next :
    (forall pre rest g, Forall2 rep pre g -> (16 <= length g)%nat ->
       rep (f (pre ++ rest) (length g)) (next g (length g))) ->
    forall n pre g, Forall2 rep pre g -> (16 <= length g)%nat -> forall rest, length rest = n ->
    Forall2 rep (fold_left (fun w i => set w i (f w i)) (List.seq (length g) n) (pre ++ rest)) (grow next n g).
  Proof.
    intro Hf. induction n as [|n IH]; intros pre g H Hg rest Hr.
    - destruct rest; [|discriminate]. cbn [List.seq fold_left grow]. now rewrite app_nil_r.
    - destruct rest as [|x rest]; [discriminate|]. cbn [List.seq fold_left grow].
      pose proof (Hf pre (x :: rest) g H Hg) as Q. set (y := f (pre ++ x :: rest) (length g)) in *.
      assert (E : set (pre ++ x :: rest) (length g) y = (pre ++ [y]) ++ rest).
      { rewrite <- app_assoc. rewrite <- (same_length _ _ H). apply set_at. }
      rewrite E.
      replace (S (length g)) with (length (g ++ [next g (length g)])) by (rewrite app_length; cbn; lia).
      apply IH.
      + apply Forall2_app; auto.
      + rewrite app_length. lia.
      + now injection Hr.
  Qed.

  Lemma get_pre pre rest g i : Forall2 rep pre g -> (i < length g)%nat -> rep (get (pre ++ rest) i) (W g i).
  Proof.
    intros H Hi. unfold get. rewrite app_nth1 by (rewrite (same_length _ _ H); exact Hi).
    now apply rep_get.
  Qed.

  Lemma schedule_sha1 M x : Forall2 rep M x -> length x = 16%nat ->
    Forall2 rep (fold_left (sha1_word h) (List.seq 16 64) (M ++ repeat 0 64)) (grow sha1_next 64 x).
  Proof.
    intros H Hx. unfold sha1_word.
    pose proof (grow_rep (fun w i => rotate_left h
      (be_xor (be_xor (be_xor (get w (i - 3)) (get w (i - 8))) (get w (i - 14))) (get w (i - 16))) 1)
      sha1_next) as Q.
    assert (Q1 := fun A => Q A _ M x H ltac:(lia) (repeat 0 64) (repeat_length _ _)).
    rewrite Hx in Q1. apply Q1. clear Q Q1.
    intros pre rest g Hg L. unfold sha1_next. apply rep_rotl; [lia|].
    rep_ops; apply get_pre; auto; lia.
  Qed.

  Lemma schedule_sha256 M x : Forall2 rep M x -> length x = 16%nat ->
    Forall2 rep (fold_left (sha256_word h) (List.seq 16 48) (M ++ repeat 0 48)) (grow sha256_next 48 x).
  Proof.
    intros H Hx. unfold sha256_word.
    pose proof (grow_rep (fun w i => be_add h 4 (be_add h 4 (be_add h 4 (get w (i - 16))
      (be_xor (be_xor (rotate_right h (get w (i - 15)) 7) (rotate_right h (get w (i - 15)) 18))
                (be_shr h 4 (get w (i - 15)) 3))) (get w (i - 7)))
      (be_xor (be_xor (rotate_right h (get w (i - 2)) 17) (rotate_right h (get w (i - 2)) 19))
                (be_shr h 4 (get w (i - 2)) 10)))
      sha256_next) as Q.
    assert (Q1 := fun A => Q A _ M x H ltac:(lia) (repeat 0 48) (repeat_length _ _)).
    rewrite Hx in Q1. apply Q1. clear Q Q1.
    intros pre rest g Hg L. unfold sha256_next.
    set (k := length g).
    assert (E : plus32 (plus32 (plus32 (sigma1 (W g (k - 2))) (W g (k - 7))) (sigma0 (W g (k - 15)))) (W g (k - 16))
      = plus32 (plus32 (plus32 (W g (k - 16)) (sigma0 (W g (k - 15)))) (W g (k - 7))) (sigma1 (W g (k - 2)))).
    { rewrite (plus32_comm _ (W g (k - 16))), (plus32_comm _ (sigma0 _)), (plus32_comm (sigma1 _)).
      now rewrite !plus32_assoc. }
    rewrite E. unfold sigma0, sigma1.
    rep_ops; apply get_pre; auto; unfold k; lia.
  Qed.

  (** ** Rounds and chunks *)

  Definition list5 (s : N * N * N * N * N) : list N :=
    let '(a, b, c, d, e) := s in [a; b; c; d; e].
  Definition list8 (s : N * N * N * N * (N * N * N * N)) : list N :=
    let '(a, b, c, d, (e, f, g, i)) := s in [a; b; c; d; e; f; g; i].

  Lemma sha1_K_values t :
    sha1_K t = if (t <? 20)%nat then 0x5a827999 else if (t <? 40)%nat then 0x6ed9eba1
               else if (t <? 60)%nat then 0x8f1bbcdc else 0xca62c1d6.
  Proof.
    unfold sha1_K. destruct (t <? 20)%nat; [vm_compute; reflexivity|].
    destruct (t <? 40)%nat; [vm_compute; reflexivity|].
    destruct (t <? 60)%nat; vm_compute; reflexivity.
  Qed.

  Ltac rep_all := rep_ops; first [eassumption|apply rep_get; assumption].

  Lemma round_sha1 w x s y t : Forall2 rep w x -> Forall2 rep (list5 s) y ->
    Forall2 rep (list5 (sha1_step h w s t)) (sha1_round x y t).
  Proof.
    intros Hw Hs. destruct s as [[[[a b] c] d] e]. cbn [list5] in Hs.
    inversion_clear Hs as [|? xa ? ? Ha Hs1]. inversion_clear Hs1 as [|? xb ? ? Hb Hs2].
    inversion_clear Hs2 as [|? xc ? ? Hc Hs3]. inversion_clear Hs3 as [|? xd ? ? Hd Hs4].
    inversion_clear Hs4 as [|? xe ? ? He Hs5]. inversion_clear Hs5.
    unfold sha1_step, sha1_round. rewrite sha1_K_values. unfold sha1_f.
    assert (Q : forall f k f' k', rep f (f' xb xc xd) -> rep k k' ->
      Forall2 rep (list5 (be_add h 4 (be_add h 4 (be_add h 4 (be_add h 4 (rotate_left h a 5) f) e) k) (get w t),
         a, rotate_left h b 30, c, d))
        [plus32 (plus32 (plus32 (plus32 (rotl 5 xa) (f' xb xc xd)) xe) k') (W x t); xa; rotl 30 xb; xc; xd]).
    { intros. cbn [list5]. repeat (apply Forall2_cons; [rep_all|]); apply Forall2_nil. }
    destruct (Nat.leb_spec t 19), (Nat.ltb_spec t 20); try lia.
    { apply Q; [|rep_all]. rewrite <- ch_or by (eapply rep_lt; eassumption). rep_all. }
    destruct (Nat.leb_spec t 39), (Nat.ltb_spec t 40); try lia.
    { apply Q; unfold Parity; rep_all. }
    destruct (Nat.leb_spec t 59), (Nat.ltb_spec t 60); try lia.
    { apply Q; [|rep_all]. rewrite <- maj_or. rep_all. }
    apply Q; unfold Parity; rep_all.
  Qed.

  Lemma round_sha256 k w K x s y t :
    Forall2 rep k K -> Forall2 rep w x -> Forall2 rep (list8 s) y ->
    Forall2 rep (list8 (sha256_step h k w s t)) (sha256_round K x y t).
  Proof.
    intros Hk Hw Hs. destruct s as [[[[a b] c] d] [[[e f] g] i]]. cbn [list8] in Hs.
    inversion_clear Hs as [|? xa ? ? Ha Hs1]. inversion_clear Hs1 as [|? xb ? ? Hb Hs2].
    inversion_clear Hs2 as [|? xc ? ? Hc Hs3]. inversion_clear Hs3 as [|? xd ? ? Hd Hs4].
    inversion_clear Hs4 as [|? xe ? ? He Hs5]. inversion_clear Hs5 as [|? xf ? ? Hf Hs6].
    inversion_clear Hs6 as [|? xg ? ? Hg Hs7]. inversion_clear Hs7 as [|? xi ? ? Hi Hs8].
    inversion_clear Hs8. unfold sha256_step, sha256_round. cbn [list8].
    unfold Sigma0, Sigma1, Ch, Maj. repeat (apply Forall2_cons; [rep_all|]); apply Forall2_nil.
  Qed.

  Lemma add_all_rep a x b y : Forall2 rep a x -> Forall2 rep b y ->
    Forall2 rep (map (fun p => be_add h 4 (fst p) (snd p)) (combine a b)) (add_all x y).
  Proof.
    intros H. revert b y. induction H as [|u v a x H1 H2 IH]; intros b y Hb; [constructor|].
    destruct Hb; cbn [combine map add_all]; constructor; auto. now apply rep_add.
  Qed.

  Lemma chunk_sha1 s y M x : Forall2 rep (list5 s) y -> Forall2 rep M x -> length x = 16%nat ->
    Forall2 rep (list5 (sha1_chunk h s M)) (sha1_block y x).
  Proof.
    intros Hs HM Hx. unfold sha1_chunk, sha1_block. pose proof (schedule_sha1 M x HM Hx) as Hw.
    set (w := fold_left (sha1_word h) _ _) in *. set (gx := grow sha1_next 64 x) in *.
    assert (Q : forall l s y, Forall2 rep (list5 s) y ->
      Forall2 rep (list5 (fold_left (sha1_step h w) l s)) (fold_left (sha1_round gx) l y)).
    { induction l as [|t l IH]; intros s' y' H; [exact H|]. cbn [fold_left]. apply IH.
      now apply round_sha1. }
    specialize (Q (List.seq 0 80) s y Hs). pose proof (add_all_rep _ _ _ _ Hs Q) as R.
    destruct (fold_left (sha1_step h w) (List.seq 0 80) s) as [[[[a b] c] d] e].
    destruct s as [[[[h0 h1] h2] h3] h4]. exact R.
  Qed.

  Lemma chunk_sha256 k K s y M x : Forall2 rep k K ->
    Forall2 rep (list8 s) y -> Forall2 rep M x -> length x = 16%nat ->
    Forall2 rep (list8 (sha256_chunk h k s M)) (sha256_block K y x).
  Proof.
    intros Hk Hs HM Hx. unfold sha256_chunk, sha256_block. pose proof (schedule_sha256 M x HM Hx) as Hw.
    set (w := fold_left (sha256_word h) _ _) in *. set (gx := grow sha256_next 48 x) in *.
    assert (Q : forall l s y, Forall2 rep (list8 s) y ->
      Forall2 rep (list8 (fold_left (sha256_step h k w) l s)) (fold_left (sha256_round K gx) l y)).
    { induction l as [|t l IH]; intros s' y' H; [exact H|]. cbn [fold_left]. apply IH.
      now apply round_sha256. }
    specialize (Q (List.seq 0 64) s y Hs). pose proof (add_all_rep _ _ _ _ Hs Q) as R.
    destruct (fold_left (sha256_step h k w) (List.seq 0 64) s) as [[[[a b] c] d] [[[e f] g] i]].
    destruct s as [[[[h0 h1] h2] h3] [[[h4 h5] h6] h7]]. exact R.
  Qed.

  Lemma sha256_k_rep : Forall2 rep (sha256_k h) sha256_K.
  Proof.
    assert (E : sha256_K = [ 0x428a2f98; 0x71374491; 0xb5c0fbcf; 0xe9b5dba5; 0x3956c25b; 0x59f111f1; 0x923f82a4; 0xab1c5ed5;
      0xd807aa98; 0x12835b01; 0x243185be; 0x550c7dc3; 0x72be5d74; 0x80deb1fe; 0x9bdc06a7; 0xc19bf174;
      0xe49b69c1; 0xefbe4786; 0x0fc19dc6; 0x240ca1cc; 0x2de92c6f; 0x4a7484aa; 0x5cb0a9dc; 0x76f988da;
      0x983e5152; 0xa831c66d; 0xb00327c8; 0xbf597fc7; 0xc6e00bf3; 0xd5a79147; 0x06ca6351; 0x14292967;
      0x27b70a85; 0x2e1b2138; 0x4d2c6dfc; 0x53380d13; 0x650a7354; 0x766a0abb; 0x81c2c92e; 0x92722c85;
      0xa2bfe8a1; 0xa81a664b; 0xc24b8b70; 0xc76c51a3; 0xd192e819; 0xd6990624; 0xf40e3585; 0x106aa070;
      0x19a4c116; 0x1e376c08; 0x2748774c; 0x34b0bcb5; 0x391c0cb3; 0x4ed8aa4a; 0x5b9cca4f; 0x682e6ff3;
      0x748f82ee; 0x78a5636f; 0x84c87814; 0x8cc70208; 0x90befffa; 0xa4506ceb; 0xbef9a3f7; 0xc67178f2 ])
      by (vm_compute; reflexivity).
    rewrite E. unfold sha256_k. cbn [map].
    repeat (apply Forall2_cons; [apply rep_big; reflexivity|]). apply Forall2_nil.
  Qed.
End Words.

(** ** Bytes *)

Lemma le_bytes_last n : forall x, le_bytes (S n) x = le_bytes n x ++ [n2b (x / 256 ^ N.of_nat n)].
Proof.
  induction n as [|n IH]; intro x.
  - cbn [le_bytes app]. change (256 ^ N.of_nat 0) with 1. now rewrite N.div_1_r.
  - change (le_bytes (S (S n)) x) with (n2b x :: le_bytes (S n) (x / 256)).
    rewrite IH. change (le_bytes (S n) x) with (n2b x :: le_bytes n (x / 256)).
    cbn [app]. rewrite N.div_div by (try apply N.pow_nonzero; discriminate).
    rewrite Nat2N.inj_succ, N.pow_succ_r'. reflexivity.
Qed.

Lemma msb_bytes_rev n x : msb_bytes n x = rev (le_bytes n x).
Proof.
  induction n as [|n IH]; [reflexivity|]. rewrite le_bytes_last, rev_app_distr. cbn [msb_bytes rev app].
  now rewrite IH, n2b_mod.
Qed.

Lemma msb_number_be l : msb_number l = big_endian_number l.
Proof. induction l as [|b l IH]; [reflexivity|]. cbn [msb_number big_endian_number]. now rewrite IH. Qed.

Lemma mem_of_make h n x : mem_of h n (be_make h n x) = msb_bytes n x.
Proof.
  unfold be_make. rewrite be_fill_spec by (rewrite zeros_length; lia).
  rewrite skipn_all2 by (rewrite zeros_length; lia). rewrite app_nil_r, <- msb_bytes_rev.
  assert (L : length (msb_bytes n x) = n) by (now rewrite msb_bytes_rev, rev_length, le_bytes_length).
  rewrite <- L at 1. apply mem_of_mem.
Qed.

Lemma mem_rep h v x : rep h v x -> mem_of h 4 v = msb_bytes 4 x.
Proof.
  intro H. rewrite <- (mem_of_make h 4 x). f_equal. apply (big_endian_unique h 4 _ _ x H).
  apply rep_big. now apply (rep_lt h v).
Qed.

Lemma wscalar_mem h s w n : wscalar (mkWfmt h s) w n = mem_of h w n.
Proof. reflexivity. Qed.

(** ** Padding *)

Lemma padding_size_spec len : (len <= max_size)%nat ->
  if (len mod 64 <=? 55)%nat then padding_size (N.of_nat len) = N.of_nat (padding_zeros len)
  else N.of_nat max_size < padding_size (N.of_nat len).
Proof.
  intro H. assert (H' : (len <= 4096)%nat) by exact H. clear H.
  change (N.of_nat max_size) with 4096.
  pose proof (Nat.div_mod len 64 ltac:(discriminate)) as E.
  pose proof (Nat.mod_upper_bound len 64 ltac:(discriminate)) as B.
  set (q := (len / 64)%nat) in *. set (r := (len mod 64)%nat) in *.
  assert (W1 : forall a b, a < 2 ^ 64 -> b <= a -> wsub a b = a - b).
  { intros a b Ha Hb. unfold wsub, two64. rewrite (N.mod_small b) by lia.
    replace (a + (2 ^ 64 - b)) with (a - b + 1 * 2 ^ 64) by lia.
    rewrite N.mod_add by discriminate. apply N.mod_small. lia. }
  change (2 ^ 64) with 18446744073709551616 in W1.
  assert (A : align (wadd (N.of_nat len) 1) 64 = 64 * N.of_nat q + 64).
  { unfold align, wadd, two64. change (2 ^ 64) with 18446744073709551616.
    rewrite (N.mod_small (N.of_nat len + 1)) by lia.
    rewrite (N.mod_small (N.of_nat len + 1 + (64 - 1))) by lia.
    replace ((N.of_nat len + 1 + (64 - 1)) / 64) with (N.of_nat q + 1)
      by (apply (N.div_unique _ 64 _ (N.of_nat r)); lia).
    rewrite N.mod_small by lia. lia. }
  unfold padding_size. rewrite A, (W1 _ (N.of_nat len)), (W1 _ 1) by lia.
  replace (64 * N.of_nat q + 64 - N.of_nat len - 1) with (63 - N.of_nat r) by lia.
  unfold padding_zeros. fold r.
  destruct (Nat.leb_spec r 55).
  - rewrite W1 by lia. replace (119 - r)%nat with (55 - r + 1 * 64)%nat by lia.
    rewrite Nat.mod_add by discriminate. rewrite Nat.mod_small by lia. lia.
  - unfold wsub, two64. change (2 ^ 64) with 18446744073709551616.
    rewrite (N.mod_small 8), N.mod_small by lia. lia.
Qed.

Section Objects.
  Variables (G : tenv) (h : bool) (abi : ty -> N) (fuel : nat).
  Hypothesis HG : wf_env G.
  Hypothesis HpG : tall_env elem_ok G.
  Hypothesis HrG : tall_env (rt_ok (array_cfg h abi)) G.
  Hypothesis Hfuel : (3 <= fuel)%nat.

  Lemma view_object d : N.of_nat (length d) < 2 ^ 63 ->
    object G h (fst (view d)) (snd (view d))
    /\ host_encoding G h (fst (view d)) (snd (view d)) = d
    /\ writable G (mkWfmt h (SzFix 4)) (fst (view d)) (snd (view d)) = true.
  Proof.
    intro Hd. split; [|split; reflexivity]. constructor; auto; cbn [view fst snd].
    - cbn [wt]. apply Nat.eqb_refl.
  Qed.

  Lemma scalar_object w b n : (0 < w)%nat -> (negb b || (w =? 1)%nat) = true -> n < pow256 w ->
    N.of_nat w < 2 ^ 63 ->
    object G h (VN n) (TScalar w b)
    /\ host_encoding G h (VN n) (TScalar w b) = mem_of h w n
    /\ writable G (mkWfmt h (SzFix 4)) (VN n) (TScalar w b) = true.
  Proof.
    intros H1 H2 H3 H4. split; [|split; reflexivity]. constructor; auto.
    - cbn [wt]. now apply N.ltb_lt.
    - cbn [wf]. rewrite H2. now apply Nat.ltb_lt in H1 as ->.
    - unfold encode. cbn [enc pdone fst]. now rewrite wscalar_mem, mem_length.
  Qed.

  Lemma sha_message_spec m : (length m <= max_size)%nat ->
    sha_message G h abi m = if (length m mod 64 <=? 55)%nat then Some (padded m) else None.
  Proof.
    intro Hm. pose proof (padding_size_spec (length m) Hm) as P. unfold sha_message.
    destruct (Nat.leb_spec (length m mod 64) 55) as [L|L].
    - rewrite P. assert (Z : (padding_zeros (length m) < 64)%nat)
        by (apply Nat.mod_upper_bound; discriminate).
      assert (M : (length m <= 4096)%nat) by exact Hm.
      change (N.of_nat max_size) with 4096. destruct (N.leb_spec (N.of_nat (padding_zeros (length m))) 4096); [|lia].
      rewrite Nat2N.id.
      destruct (view_object m) as (V1 & V2 & V3); [change (2 ^ 63) with 9223372036854775808; lia|].
      destruct (view_object (zeros (padding_zeros (length m)))) as (Z1 & Z2 & Z3);
        [rewrite zeros_length; change (2 ^ 63) with 9223372036854775808; lia|].
      destruct (scalar_object 1 true 0x80) as (S1 & S2 & S3); [lia|reflexivity|reflexivity|reflexivity|].
      set (bits := (N.of_nat (length m) * 8) mod 2 ^ 64).
      destruct (scalar_object 8 false (be_make h 8 bits)) as (B1 & B2 & B3);
        [lia|reflexivity| |reflexivity|].
      { destruct (big_endian_of_value h 8 bits) as [Q _]. exact Q. }
      rewrite to_bytes_concat; [|exact HG|exact HpG|repeat (apply Forall_cons; [assumption|]); apply Forall_nil|reflexivity].
      cbn [forallb map concat]. rewrite V2, V3, Z2, Z3. cbn [fst snd]. rewrite S2, S3, B2, B3, zeros_length, !mem_length.
      rewrite (proj2 (Nat.leb_le _ _) Hm). cbn [andb].
      replace (padding_zeros (length m) <=? max_size)%nat with true
        by (symmetry; apply Nat.leb_le; unfold max_size; lia).
      replace (1 <=? max_size)%nat with true by reflexivity.
      replace (8 <=? max_size)%nat with true by reflexivity. cbn [andb].
      unfold padded. rewrite app_nil_r, mem_of_make.
      replace (mem_of h 1 128) with [x80] by (destruct h; reflexivity).
      replace bits with (8 * N.of_nat (length m)); [reflexivity|]. unfold bits.
      rewrite N.mod_small; [apply N.mul_comm|]. change (2 ^ 64) with 18446744073709551616. lia.
    - destruct (N.leb_spec (padding_size (N.of_nat (length m))) (N.of_nat max_size)); [lia|reflexivity].
  Qed.

  Lemma padded_length m : (length (padded m) mod 64 = 0 /\ 0 < length (padded m) / 64
    /\ length (padded m) = 64 * (length (padded m) / 64))%nat.
  Proof.
    unfold padded. rewrite !app_length, repeat_length, msb_bytes_rev, rev_length, le_bytes_length.
    cbn [length]. unfold padding_zeros.
    pose proof (Nat.div_mod (length m) 64 ltac:(discriminate)) as E.
    pose proof (Nat.mod_upper_bound (length m) 64 ltac:(discriminate)) as B.
    set (q := (length m / 64)%nat) in *. set (r := (length m mod 64)%nat) in *.
    assert (Q : exists k, (length m + (1 + ((119 - r) mod 64 + 8)) = k * 64 /\ 0 < k)%nat).
    { destruct (Nat.leb_spec r 55).
      - exists (q + 1)%nat. replace (119 - r)%nat with (55 - r + 1 * 64)%nat by lia.
        rewrite Nat.mod_add, Nat.mod_small by lia. lia.
      - exists (q + 2)%nat. rewrite Nat.mod_small by lia. lia. }
    destruct Q as (k & -> & Hk). rewrite Nat.mod_mul, Nat.div_mul by discriminate. lia.
  Qed.

  (** *** Reading the chunks *)

  Fixpoint host_words (n : nat) (l : list byte) : list N :=
    match n with
    | O => []
    | S n => of_mem h (firstn 4 l) :: host_words n (skipn 4 l)
    end.
  Fixpoint host_blocks (n : nat) (l : list byte) : list (list N) :=
    match n with
    | O => []
    | S n => host_words 16 (firstn 64 l) :: host_blocks n (skipn 64 l)
    end.

  Lemma host_words_rep n : forall l, length l = (4 * n)%nat ->
    Forall2 (rep h) (host_words n l) (words n l) /\ length (host_words n l) = n
    /\ concat (map (mem_of h 4) (host_words n l)) = l
    /\ Forall (fun x => x < pow256 4) (host_words n l).
  Proof.
    clear HG HpG HrG Hfuel. induction n as [|n IH]; intros l Hl.
    - destruct l; [|discriminate]. repeat split; constructor.
    - cbn [host_words words]. assert (L4 : length (firstn 4 l) = 4%nat) by (rewrite firstn_length; lia).
      destruct (IH (skipn 4 l)) as (I1 & I2 & I3 & I4); [rewrite skipn_length; lia|].
      assert (R : rep h (of_mem h (firstn 4 l)) (msb_number (firstn 4 l))).
      { apply represents_of_mem; [exact L4|symmetry; apply msb_number_be]. }
      split; [|split; [|split]].
      + now constructor.
      + cbn [length]. now rewrite I2.
      + cbn [map concat]. rewrite I3. rewrite <- L4 at 1. rewrite mem_of_mem. apply firstn_skipn.
      + constructor; auto. apply R.
  Qed.

  Definition vblocks (bs : list (list N)) : val := VSeq (map (fun b => VSeq (map VN b)) bs).

  Lemma vwords_map b : vwords (VSeq (map VN b)) = b.
  Proof. cbn [vwords]. rewrite map_map. apply map_id. Qed.

  Lemma enc_words o ws : little o = h ->
    enc_all (enc G o) (map VN ws) (TScalar 4 false) = (concat (map (mem_of h 4) ws), true).
  Proof.
    clear HG HpG HrG Hfuel. intros <-. induction ws as [|w ws IH]; [reflexivity|]. cbn [map enc_all concat enc]. rewrite IH. reflexivity.
  Qed.

  Lemma chunks_spec p n : length p = (64 * n)%nat -> (0 < n)%nat -> N.of_nat (length p) < 2 ^ 63 ->
    chunks G h abi fuel p = Some (host_blocks n p).
  Proof.
    intros Hl Hn Hs. unfold chunks. rewrite Hl, Nat.mul_comm, Nat.div_mul by discriminate.
    assert (Q : forall n l, length l = (64 * n)%nat ->
      enc_all (enc G (mkWfmt h (SzFix 4))) (map (fun b => VSeq (map VN b)) (host_blocks n l))
        (TArray 16 (TScalar 4 false)) = (l, true)
      /\ Forall (fun b => length b = 16%nat /\ Forall (fun x => x < pow256 4) b) (host_blocks n l)
      /\ length (host_blocks n l) = n).
    { clear. induction n as [|n IH]; intros l Hl.
      - destruct l; [|discriminate]. repeat split; constructor.
      - cbn [host_blocks map enc_all]. destruct (IH (skipn 64 l)) as (I1 & I2 & I3); [rewrite skipn_length; lia|].
        destruct (host_words_rep 16 (firstn 64 l)) as (W1 & W2 & W3 & W4); [rewrite firstn_length; lia|].
        split; [|split].
        + change (enc G (mkWfmt h (SzFix 4)) (VSeq (map VN (host_words 16 (firstn 64 l)))) (TArray 16 (TScalar 4 false)))
            with (enc_all (enc G (mkWfmt h (SzFix 4))) (map VN (host_words 16 (firstn 64 l))) (TScalar 4 false)).
          rewrite enc_words by reflexivity. rewrite W3, I1. unfold pseq. cbn [fst snd]. now rewrite firstn_skipn.
        + constructor; auto.
        + cbn [length]. now rewrite I3. }
    destruct (Q n p Hl) as (Q1 & Q2 & Q3).
    rewrite from_bytes_reads with (v := vblocks (host_blocks n p)).
    - unfold vblocks. f_equal. rewrite map_map. rewrite <- (map_id (host_blocks n p)) at 2. apply map_ext.
      intro. apply vwords_map.
    - assert (Hw : wt G (vblocks (host_blocks n p)) (TArray n (TArray 16 (TScalar 4 false))) = true).
      { cbn [wt vblocks]. rewrite map_length, Q3, Nat.eqb_refl. cbn [andb]. clear -Q2.
        induction Q2 as [|b bs [B1 B2] Hbs IH]; [reflexivity|]. cbn [map forallb]. rewrite IH, andb_true_r.
        cbn [wt]. rewrite map_length, B1. cbn [Nat.eqb andb]. clear -B2. induction B2 as [|x b H Hb IH]; [reflexivity|].
        cbn [map forallb wt]. rewrite IH, andb_true_r. now apply N.ltb_lt. }
      constructor; auto.
      + constructor; auto.
        * cbn [wf]. apply Nat.ltb_lt in Hn as ->. reflexivity.
        * unfold encode. cbn [enc vblocks]. rewrite Q1. exact Hs.
      + clear -Q2. cbn [readable vblocks]. induction Q2 as [|b bs [B1 B2] Hbs IH]; [reflexivity|].
        cbn [map forallb]. rewrite IH, andb_true_r. clear. induction b as [|x b IH]; [reflexivity|exact IH].
      + clear -Hfuel. unfold vblocks. cbn [height]. etransitivity; [|exact Hfuel]. apply le_n_S.
        induction (host_blocks n p) as [|b bs IH]; [cbn; lia|]. cbn [map fold_right]. apply Nat.max_lub; auto.
        cbn [height]. apply le_n_S. clear. induction b as [|x b IH]; [cbn; lia|]. cbn [map fold_right].
        apply Nat.max_lub; auto.
    - unfold writable. cbn [enc vblocks]. now rewrite Q1.
    - exact Hs.
    - unfold host_encoding, encode. cbn [enc vblocks]. rewrite Q1. cbn [fst]. split; [cbn; lia|]. apply window_all.
  Qed.

  Lemma host_blocks_rep n : forall l, length l = (64 * n)%nat ->
    Forall2 (fun b x => Forall2 (rep h) b x /\ length x = 16%nat) (host_blocks n l) (blocks n l).
  Proof.
    induction n as [|n IH]; intros l Hl; [constructor|]. cbn [host_blocks blocks].
    destruct (host_words_rep 16 (firstn 64 l)) as (W1 & W2 & _ & _); [rewrite firstn_length; lia|].
    constructor.
    - split; [exact W1|]. rewrite <- (same_length h _ _ W1). exact W2.
    - apply IH. rewrite skipn_length. lia.
  Qed.

  (** *** Writing the digest *)

  Definition byte_array (d : list byte) : val := VSeq (map (fun b => VN (b2n b)) d).

  Lemma byte_array_read d : (0 < length d)%nat -> N.of_nat (length d) < 2 ^ 63 ->
    from_bytes G h abi fuel d (TArray (length d) (TScalar 1 true)) = Some (byte_array d).
  Proof.
    intros Hd Hs.
    assert (E : forall d, enc_all (enc G (mkWfmt h (SzFix 4))) (map (fun b => VN (b2n b)) d) (TScalar 1 true) = (d, true)).
    { clear. induction d as [|x d IH]; [reflexivity|]. cbn [map enc_all enc]. rewrite IH. unfold pseq, pdone. cbn [fst snd].
      now rewrite wscalar_1, n2b_b2n. }
    apply from_bytes_reads.
    - constructor; auto.
      + constructor; auto.
        * cbn [wt byte_array]. rewrite map_length, Nat.eqb_refl. cbn [andb]. clear. induction d as [|x d IH]; [reflexivity|].
          cbn [map forallb wt]. rewrite IH, andb_true_r. apply N.ltb_lt. apply b2n_lt.
        * cbn [wf]. now apply Nat.ltb_lt in Hd as ->.
        * unfold encode. cbn [enc byte_array]. now rewrite E.
      + cbn [readable byte_array]. clear. induction d as [|x d IH]; [reflexivity|exact IH].
      + clear -Hfuel. cbn [height byte_array]. etransitivity; [|exact Hfuel]. apply le_n_S.
        induction d as [|x d IH]; [cbn; lia|]. cbn [map fold_right]. apply Nat.max_lub; auto.
    - unfold writable. cbn [enc byte_array]. now rewrite E.
    - exact Hs.
    - unfold host_encoding, encode. cbn [enc byte_array]. rewrite E. split; [cbn; lia|]. apply window_all.
  Qed.

  Lemma digest_spec hs xs : Forall2 (rep h) hs xs -> (0 < length xs < 1000)%nat ->
    digest G h abi fuel (4 * length xs) hs = Some (byte_array (concat (map (msb_bytes 4) xs))).
  Proof.
    intros H Hn. set (d := concat (map (msb_bytes 4) xs)).
    assert (Hd : length d = (4 * length xs)%nat).
    { unfold d. clear. induction xs as [|x xs IH]; [reflexivity|]. cbn [map concat]. rewrite app_length, IH.
      rewrite msb_bytes_rev, rev_length, le_bytes_length. cbn [length]. lia. }
    assert (Ed : concat (map (mem_of h 4) hs) = d).
    { unfold d. clear -H. induction H as [|a x hs xs H1 H2 IH]; [reflexivity|]. cbn [map concat].
      now rewrite IH, (mem_rep h a x). }
    assert (E : enc_many (enc G (mkWfmt h (SzFix 4))) (map VN hs) (map (fun _ => TScalar 4 false) hs)
      = (concat (map (mem_of h 4) hs), true)).
    { clear. induction hs as [|a hs IH]; [reflexivity|]. cbn [map enc_many enc concat]. now rewrite IH. }
    assert (Hs : N.of_nat (length d) < 2 ^ 63) by (change (2 ^ 63) with 9223372036854775808; lia).
    assert (Ho : object G h (VSeq (map VN hs)) (TTuple (map (fun _ => TScalar 4 false) hs))).
    { constructor; auto.
      - cbn [wt]. clear -H. induction H as [|a x hs xs H1 H2 IH]; [reflexivity|]. cbn [map forall2b wt].
        rewrite IH, andb_true_r. apply N.ltb_lt. apply H1.
      - cbn [wf]. clear. induction hs as [|a hs IH]; [reflexivity|exact IH].
      - unfold plain. cbn [tall elem_ok andb]. clear. induction hs as [|a hs IH]; [reflexivity|exact IH].
      - unfold encode. cbn [enc]. rewrite E, Ed. exact Hs. }
    unfold digest. rewrite <- Hd.
    pose proof (out_array_spec G h abi (length d) _ _ Ho Hs) as F. cbv zeta in F.
    unfold host_encoding, encode, writable in F. cbn [enc] in F. rewrite E, Ed in F. cbn [fst snd andb] in F.
    rewrite Nat.leb_refl in F. destruct F as (st & -> & _ & L & Q). rewrite <- L, firstn_all in Q. rewrite Q in *.
    apply byte_array_read; auto. lia.
  Qed.

  Lemma padded_small m : (length m <= max_size)%nat -> N.of_nat (length (padded m)) < 2 ^ 63.
  Proof.
    intro H. unfold padded. rewrite !app_length, repeat_length, msb_bytes_rev, rev_length, le_bytes_length.
    assert ((padding_zeros (length m) < 64)%nat) by (apply Nat.mod_upper_bound; discriminate).
    assert (M : (length m <= 4096)%nat) by exact H. cbn [length].
    change (2 ^ 63) with 9223372036854775808. lia.
  Qed.

  Lemma chunks_padded m : (length m <= max_size)%nat ->
    exists bs, chunks G h abi fuel (padded m) = Some bs
    /\ Forall2 (fun b x => Forall2 (rep h) b x /\ length x = 16%nat) bs (parsed m).
  Proof.
    intro H. destruct (padded_length m) as (_ & P2 & P3). pose proof (padded_small m H) as P4.
    eexists. split; [apply chunks_spec; [exact P3|exact P2|exact P4]|].
    unfold parsed. apply host_blocks_rep. exact P3.
  Qed.

  (** ** The digests *)

  (** The bytes hashed are the encoding of the object in host byte order.  There is a digest
      exactly when they are at most 4096 and leave at most 55 after whole blocks of 64. *)
  Definition hashable (e : list byte) : bool :=
    (length e <=? max_size)%nat && (length e mod 64 <=? 55)%nat.

  Theorem sha1_is_fips v t : object G h v t -> writable G (mkWfmt h (SzFix 4)) v t = true ->
    let e := host_encoding G h v t in
    sha1 G h abi fuel (v, t) = if hashable e then Some (byte_array (sha1_digest e)) else None.
  Proof.
    intros Ho Hw e. unfold sha1, hashable.
    rewrite to_bytes_concat; [|exact HG|exact HpG|repeat (apply Forall_cons; [assumption|]); apply Forall_nil|reflexivity].
    cbn [forallb map concat fst snd]. rewrite Hw, app_nil_r, andb_true_r. fold e. cbn [andb].
    destruct (Nat.leb_spec (length e) max_size) as [L|L]; [|reflexivity]. cbn [andb].
    rewrite sha_message_spec by exact L. destruct (length e mod 64 <=? 55)%nat; [|reflexivity].
    destruct (chunks_padded e L) as (bs & -> & Hb).
    assert (Q : forall s y, Forall2 (rep h) (list5 s) y ->
      Forall2 (rep h) (list5 (fold_left (sha1_chunk h) bs s)) (fold_left sha1_block (parsed e) y)).
    { clear -Hb. induction Hb as [|b x bs xs [B1 B2] Hb IH]; intros s y H; [exact H|]. cbn [fold_left]. apply IH.
      now apply chunk_sha1. }
    assert (R : Forall2 (rep h) (list5 (be_make h 4 0x67452301, be_make h 4 0xefcdab89,
        be_make h 4 0x98badcfe, be_make h 4 0x10325476, be_make h 4 0xc3d2e1f0)) sha1_H0).
    { cbn [list5]. unfold sha1_H0. repeat (apply Forall2_cons; [apply rep_big; reflexivity|]). apply Forall2_nil. }
    specialize (Q _ _ R). clear R. unfold sha1_digest.
    destruct (fold_left (sha1_chunk h) bs _) as [[[[h0 h1] h2] h3] h4]. cbn [list5] in Q.
    pose proof (same_length h _ _ Q) as L5. cbn [length] in L5.
    pose proof (digest_spec _ _ Q) as D. rewrite <- L5 in D. apply D. lia.
  Qed.

  Theorem sha256_is_fips v t : object G h v t -> writable G (mkWfmt h (SzFix 4)) v t = true ->
    let e := host_encoding G h v t in
    sha256 G h abi fuel (v, t) = if hashable e then Some (byte_array (sha256_digest e)) else None.
  Proof.
    intros Ho Hw e. unfold sha256, hashable.
    rewrite to_bytes_concat; [|exact HG|exact HpG|repeat (apply Forall_cons; [assumption|]); apply Forall_nil|reflexivity].
    cbn [forallb map concat fst snd]. rewrite Hw, app_nil_r, andb_true_r. fold e. cbn [andb].
    destruct (Nat.leb_spec (length e) max_size) as [L|L]; [|reflexivity]. cbn [andb].
    rewrite sha_message_spec by exact L. destruct (length e mod 64 <=? 55)%nat; [|reflexivity].
    destruct (chunks_padded e L) as (bs & -> & Hb).
    assert (Q : forall s y, Forall2 (rep h) (list8 s) y ->
      Forall2 (rep h) (list8 (fold_left (sha256_chunk h (sha256_k h)) bs s))
        (fold_left (sha256_block sha256_K) (parsed e) y)).
    { clear -Hb. induction Hb as [|b x bs xs [B1 B2] Hb IH]; intros s y H; [exact H|]. cbn [fold_left]. apply IH.
      apply chunk_sha256; auto. apply sha256_k_rep. }
    assert (R : Forall2 (rep h) (list8 (be_make h 4 0x6a09e667, be_make h 4 0xbb67ae85, be_make h 4 0x3c6ef372,
        be_make h 4 0xa54ff53a, (be_make h 4 0x510e527f, be_make h 4 0x9b05688c, be_make h 4 0x1f83d9ab,
        be_make h 4 0x5be0cd19))) sha256_H0).
    { cbn [list8]. replace sha256_H0 with [0x6a09e667; 0xbb67ae85; 0x3c6ef372; 0xa54ff53a; 0x510e527f;
        0x9b05688c; 0x1f83d9ab; 0x5be0cd19] by (vm_compute; reflexivity).
      repeat (apply Forall2_cons; [apply rep_big; reflexivity|]). apply Forall2_nil. }
    specialize (Q _ _ R). clear R. unfold sha256_digest.
    destruct (fold_left (sha256_chunk h (sha256_k h)) bs _) as [[[[h0 h1] h2] h3] [[[h4 h5] h6] h7]].
    cbn [list8] in Q. pose proof (same_length h _ _ Q) as L8. cbn [length] in L8.
    pose proof (digest_spec _ _ Q) as D. rewrite <- L8 in D. apply D. lia.
  Qed.

  (** ** Ids: _sha1_int and _sha256_int are the first four bytes of the digest *)

  Lemma byte_array_object d : (0 < length d)%nat -> N.of_nat (length d) < 2 ^ 63 ->
    object G h (byte_array d) (TArray (length d) (TScalar 1 true))
    /\ host_encoding G h (byte_array d) (TArray (length d) (TScalar 1 true)) = d
    /\ writable G (mkWfmt h (SzFix 4)) (byte_array d) (TArray (length d) (TScalar 1 true)) = true.
  Proof.
    intros Hd Hs.
    assert (E : forall d, enc_all (enc G (mkWfmt h (SzFix 4))) (map (fun b => VN (b2n b)) d) (TScalar 1 true) = (d, true)).
    { clear. induction d as [|x d IH]; [reflexivity|]. cbn [map enc_all enc]. rewrite IH. unfold pseq, pdone. cbn [fst snd].
      now rewrite wscalar_1, n2b_b2n. }
    unfold host_encoding, writable, encode. cbn [enc byte_array]. rewrite E. split; [|split; reflexivity].
    constructor; auto.
    - cbn [wt byte_array]. rewrite map_length, Nat.eqb_refl. cbn [andb]. clear. induction d as [|x d IH]; [reflexivity|].
      cbn [map forallb wt]. rewrite IH, andb_true_r. apply N.ltb_lt. apply b2n_lt.
    - cbn [wf]. now apply Nat.ltb_lt in Hd as ->.
    - unfold encode. cbn [enc byte_array]. now rewrite E.
  Qed.

  Lemma sha_int_spec d n : length d = n -> (4 <= n <= 100)%nat ->
    sha_int G h abi fuel n (Some (byte_array d)) = Some (VN (host_number h (firstn 4 d)), TScalar 4 false).
  Proof.
    intros <- Hn. cbn [sha_int]. destruct (byte_array_object d) as (O1 & O2 & O3); [lia| |].
    { change (2 ^ 63) with 9223372036854775808. lia. }
    rewrite serialize_id_value; auto; rewrite O2.
    - cbn [id_bytes]. rewrite firstn_length, Nat.min_l by lia. reflexivity.
    - unfold max_size. lia.
    - lia.
  Qed.

  Lemma digest_length n (xs : list N) : length xs = n -> length (concat (map (msb_bytes 4) xs)) = (4 * n)%nat.
  Proof.
    clear. intros <-. induction xs as [|x xs IH]; [reflexivity|]. cbn [map concat length]. rewrite app_length, IH.
    rewrite msb_bytes_rev, rev_length, le_bytes_length. lia.
  Qed.

  Lemma add_all_length a : forall b, length b = length a -> length (add_all a b) = length a.
  Proof. clear. induction a; intros [|y b] H; try discriminate; cbn in *; auto. Qed.

  Lemma sha1_digest_length m : length (sha1_digest m) = 20%nat.
  Proof.
    clear. unfold sha1_digest. apply (digest_length 5).
    assert (Q : forall w l s, length s = 5%nat -> length (fold_left (sha1_round w) l s) = 5%nat).
    { induction l as [|t l IH]; intros s H; [exact H|]. cbn [fold_left]. apply IH.
      do 6 (destruct s as [|? s]; try discriminate). reflexivity. }
    generalize (eq_refl (length sha1_H0)). generalize sha1_H0 at 1 3. change (length sha1_H0) with 5%nat.
    induction (parsed m) as [|b bs IH]; intros s H; [exact H|]. cbn [fold_left]. apply IH.
    unfold sha1_block. rewrite add_all_length; [exact H|]. rewrite Q; auto.
  Qed.

  Lemma sha256_digest_length m : length (sha256_digest m) = 32%nat.
  Proof.
    clear. unfold sha256_digest. apply (digest_length 8).
    assert (Q : forall K w l s, length s = 8%nat -> length (fold_left (sha256_round K w) l s) = 8%nat).
    { induction l as [|t l IH]; intros s H; [exact H|]. cbn [fold_left]. apply IH.
      do 9 (destruct s as [|? s]; try discriminate). reflexivity. }
    assert (H8 : length sha256_H0 = 8%nat) by (vm_compute; reflexivity). revert H8. generalize sha256_H0.
    induction (parsed m) as [|b bs IH]; intros s H; [exact H|]. cbn [fold_left]. apply IH.
    unfold sha256_block. rewrite add_all_length; [exact H|]. rewrite Q; auto.
  Qed.

  Theorem sha1_int_value s : hashable s = true ->
    sha1_int G h abi fuel s = Some (VN (host_number h (firstn 4 (sha1_digest s))), TScalar 4 false).
  Proof.
    intro Hs. unfold sha1_int. destruct (view_object s) as (O1 & O2 & O3).
    { apply andb_true_iff in Hs as [L _]. apply Nat.leb_le in L. unfold max_size in L.
      change (2 ^ 63) with 9223372036854775808. lia. }
    rewrite (surjective_pairing (view s)), sha1_is_fips, O2, Hs by assumption.
    apply sha_int_spec; [apply sha1_digest_length|lia].
  Qed.

  Theorem sha256_int_value s : hashable s = true ->
    sha256_int G h abi fuel s = Some (VN (host_number h (firstn 4 (sha256_digest s))), TScalar 4 false).
  Proof.
    intro Hs. unfold sha256_int. destruct (view_object s) as (O1 & O2 & O3).
    { apply andb_true_iff in Hs as [L _]. apply Nat.leb_le in L. unfold max_size in L.
      change (2 ^ 63) with 9223372036854775808. lia. }
    rewrite (surjective_pairing (view s)), sha256_is_fips, O2, Hs by assumption.
    apply sha_int_spec; [apply sha256_digest_length|lia].
  Qed.
End Objects.

(** A message of FIPS 180-4 itself, of 56 bytes, has a digest in the standard and none here. *)
Theorem sha_two_blocks_refuted :
  exists m, length m = 56%nat
    /\ msb_number (sha1_digest m) = 0x84983e441c3bd26ebaae4aa1f95129e5e54670f1
    /\ sha1 node_env true (fun _ => 8) 3 (view m) = None
    /\ sha256 node_env true (fun _ => 8) 3 (view m) = None.
Proof. exists abcdbcde. repeat split; vm_compute; reflexivity. Qed.

(** "The quick brown fox jumps over the lazy dog" (test/src/test_hash.cpp:15-20), on both
    hosts; a struct of two members. *)
Definition quick_fox : list byte :=
  map n2b [84;104;101;32;113;117;105;99;107;32;98;114;111;119;110;32;102;111;120;32;106;117;109;112;115;32;
    111;118;101;114;32;116;104;101;32;108;97;122;121;32;100;111;103].

Example sha_nontrivial :
  sha1 node_env true (fun _ => 8) 3 (view quick_fox)
  = Some (byte_array (msb_bytes 20 0x2fd4e1c67a2d28fced849ee1bb76e7391b93eb12))
  /\ sha1 node_env false (fun _ => 8) 3 (view quick_fox)
  = Some (byte_array (msb_bytes 20 0x2fd4e1c67a2d28fced849ee1bb76e7391b93eb12))
  /\ sha256 node_env true (fun _ => 8) 3 (view quick_fox)
  = Some (byte_array (msb_bytes 32 0xd7a8fbb307d7809469ca9abcb0082e4f8d5651e46d3cdb762d02d0bf37c9e592))
  /\ sha1_int node_env true (fun _ => 8) 3 quick_fox = Some (VN 0xc6e1d42f, TScalar 4 false)
  /\ sha1_int node_env false (fun _ => 8) 3 quick_fox = Some (VN 0x2fd4e1c6, TScalar 4 false)
  /\ tall_env (rt_ok (array_cfg true (fun _ => 8))) node_env
  /\ object node_env true (VSeq [VN 1; VN 2]) (TTuple [TVarint 4 false false; TScalar 4 false])
  /\ hashable (host_encoding node_env true (VSeq [VN 1; VN 2]) (TTuple [TVarint 4 false false; TScalar 4 false])) = true.
Proof.
  repeat (split; [vm_compute; reflexivity|]). split; [intros [|k]; reflexivity|].
  split; [|vm_compute; reflexivity].
  constructor; try (vm_compute; reflexivity); [apply demo_wf_env|intros [|k]; reflexivity].
Qed.
