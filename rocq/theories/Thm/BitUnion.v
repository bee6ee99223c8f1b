(** C26, continued: a bitset written over old bytes is the union of both. *)

From Coq Require Import List NArith ZArith Lia Bool Arith.
From Coq Require Import ZifyBool ZifyNat ZifyN.
From Verif Require Import Base.Bytes Model.Types Model.Machine Model.Varint Model.Out Model.In
  Spec.Leb128 Spec.Wire Proofs.VarintP Proofs.OutP Proofs.InBase Thm.Demo Thm.Output Thm.Items Thm.RetryBits.
Import ListNotations.
Local Open Scope N_scope.

Lemma write_bits_at c n l st st' : length l = n -> ser_bitset c n l st = (ROk, st') ->
  forall j, (j < bitset_bytes n)%nat ->
  byte_at (obuf st') (opos st + j) = mix (byte_at (obuf st) (opos st + j)) (n2b (mask 0 l j)).
Proof.
  intros Hl E j Hj. apply seq_cases in E as [(s1 & E1 & E2)|[N _]]; [|congruence].
  destruct (room_reserve c (N.of_nat (bitset_bytes n))) as (_ & R & _). destruct (R _ _ E1) as [P Q].
  destruct (Nat.leb_spec (opos s1 + bitset_bytes n) (length (obuf s1))) as [L|L]; [|discriminate].
  injection E2 as <-. cbn [obuf]. rewrite P in *.
  rewrite (w_in _ _ _ (writes_bits n l Hl)) by lia. replace (opos st + j - opos st)%nat with j by lia.
  rewrite Q. replace (opos st + j <? length (obuf s1))%nat with true by lia.
  unfold mix. now rewrite b2n_n2b_small by apply mask_small.
Qed.

(** Every bit of the bytes written, those behind the last bit of the bitset included: set if it
    was set or is set in the value.  (Behind the old end of the buffer, only the latter.) *)
Theorem bitset_union G c n l st st' :
  writing G c (VBits l) (TBitset n) -> ost_ok st ->
  ser G c (VBits l) (TBitset n) st = (ROk, st') ->
  opos st' = (opos st + (n + 7) / 8)%nat /\
  forall i, (i < 8 * ((n + 7) / 8))%nat ->
    exists b, nth_error (obuf st') (opos st + i / 8) = Some b
      /\ byte_bit b (i mod 8)
         = orb (match nth_error (obuf st) (opos st + i / 8) with Some old => byte_bit old (i mod 8) | None => false end)
               (nth i l false).
Proof.
  intros W Ho E. pose proof Ho as [O1 O2].
  assert (Hl : length l = n) by (pose proof (w_wt _ _ _ _ W) as Hw; cbn [wt] in Hw; now apply Nat.eqb_eq).
  set (p := opos st) in *.
  set (q := mkO (firstn p (obuf st) ++ zeros (length (obuf st) - p)) p).
  assert (Lq : length (obuf q) = length (obuf st)).
  { cbn [q obuf]. rewrite app_length, firstn_length, zeros_length. lia. }
  assert (Cq : clean q).
  { unfold clean. rewrite Lq. cbn [q obuf opos]. rewrite skipn_app, firstn_length.
    rewrite skipn_all2 by (rewrite firstn_length; lia). replace (p - Nat.min p (length (obuf st)))%nat with O by lia.
    reflexivity. }
  assert (Oq : ost_ok q) by (split; rewrite Lq; [exact O1|exact O2]).
  destruct (m_even _ (ser_sim G c _ _ (w_wt _ _ _ _ W)) st q (conj eq_refl (eq_sym Lq))) as [R1 [R2 R3]].
  rewrite E in R1, R2, R3. destruct (ser G c (VBits l) (TBitset n) q) as [rq q'] eqn:E3.
  cbn [fst snd] in R1, R2, R3. subst rq.
  destruct (bitset_written _ _ _ _ _ _ W Cq Oq E3) as [B1 B2]. change (opos q) with p in B1, B2.
  split; [lia|]. intros i Hi. destruct (B2 i Hi) as (b & N1 & N2).
  assert (Hj : (i / 8 < bitset_bytes n)%nat) by (unfold bitset_bytes; apply Nat.div_lt_upper_bound; lia).
  cbn [ser] in E, E3.
  pose proof (write_bits_at _ _ _ _ _ Hl E _ Hj) as X. pose proof (write_bits_at _ _ _ _ _ Hl E3 _ Hj) as Y.
  change (opos q) with p in Y. fold p in X. rewrite (clean_byte q) in Y by (auto; cbn [q opos]; lia).
  unfold mix in Y. change (b2n x00) with 0 in Y. rewrite N.lor_0_l, n2b_b2n in Y.
  assert (Lb : (p + i / 8 < length (obuf q'))%nat) by (apply nth_error_Some; congruence).
  assert (Eb : b = n2b (mask 0 l (i / 8))) by (rewrite <- Y; symmetry; exact (nth_error_nth _ _ x00 N1)).
  rewrite <- Eb in X. rewrite (nth_error_nth' (obuf st') x00) by lia. eexists. split; [reflexivity|].
  change (nth (p + i / 8) (obuf st') x00) with (byte_at (obuf st') (p + i / 8)). rewrite X, <- N2.
  assert (M : byte_bit (mix (byte_at (obuf st) (p + i / 8)) b) (i mod 8)
    = byte_bit (byte_at (obuf st) (p + i / 8)) (i mod 8) || byte_bit b (i mod 8)).
  { unfold byte_bit, mix. rewrite b2n_n2b_small by (apply lor_small; apply b2n_lt). apply N.lor_spec. }
  rewrite M. f_equal. destruct (nth_error (obuf st) (p + i / 8)) as [o|] eqn:Eo.
  - now rewrite <- (nth_error_nth _ _ x00 Eo).
  - apply nth_error_None in Eo. rewrite (byte_out (obuf st)) by exact Eo. unfold byte_bit. apply N.bits_0.
Qed.

(** So reading it back gives the union of what was there and what was written. *)
Theorem bitset_union_read G cw cr n l st st' fuel prior :
  writing G cw (VBits l) (TBitset n) -> ost_ok st ->
  ser G cw (VBits l) (TBitset n) st = (ROk, st') -> small (obuf st') ->
  exists l', des G cr (obuf st') fuel (TBitset n) prior (opos st) = (ROk, VBits l', opos st')
    /\ length l' = n
    /\ forall i, (i < n)%nat ->
         nth_error l' i
         = Some (orb (match nth_error (obuf st) (opos st + i / 8) with Some old => byte_bit old (i mod 8) | None => false end)
                     (nth i l false)).
Proof.
  intros W Ho E Hs. destruct (bitset_union _ _ _ _ _ _ W Ho E) as [P B].
  assert (Hn : (n <= 8 * ((n + 7) / 8))%nat).
  { pose proof (Nat.div_mod (n + 7) 8 ltac:(lia)). pose proof (Nat.mod_upper_bound (n + 7) 8 ltac:(lia)). lia. }
  assert (L : (opos st + (n + 7) / 8 <= length (obuf st'))%nat).
  { destruct (Nat.eq_dec ((n + 7) / 8) 0) as [Z|Z].
    - rewrite Z, Nat.add_0_r in *. cbn [ser] in E. apply seq_cases in E as [(s1 & E1 & E2)|[N _]]; [|congruence].
      destruct (room_reserve cw (N.of_nat (bitset_bytes n))) as (_ & R & _). destruct (R _ _ E1) as [P1 _].
      destruct (Nat.leb_spec (opos s1 + bitset_bytes n) (length (obuf s1))) as [K|K]; [|discriminate].
      injection E2 as <-. cbn [obuf]. rewrite or_bits_length. lia.
    - destruct (B (8 * ((n + 7) / 8) - 1)%nat ltac:(lia)) as (b & Nb & _).
      assert (opos st + (8 * ((n + 7) / 8) - 1) / 8 < length (obuf st'))%nat by (apply nth_error_Some; congruence).
      assert ((8 * ((n + 7) / 8) - 1) / 8 = (n + 7) / 8 - 1)%nat; [|lia].
      symmetry. apply (Nat.div_unique _ 8 _ 7); lia. }
  destruct (bitset_read G cr (obuf st') fuel n prior (opos st) Hs ltac:(lia) L) as (l' & D1 & D2 & D3).
  exists l'. rewrite P. split; [exact D1|]. split; [exact D2|]. intros i Hi.
  destruct (B i ltac:(lia)) as (b & N1 & <-). now apply D3.
Qed.

Example bitset_union_nontrivial :
  writing node_env span_cfg (VBits bits_demo) (TBitset 12)
  /\ ser node_env span_cfg (VBits bits_demo) (TBitset 12) (mkO [x30; xf0] 0) = (ROk, mkO [xfd; xfe] 2)
  /\ des node_env span_cfg [xfd; xfe] 0 (TBitset 12) (VBits (repeat false 12)) 0
     = (ROk, VBits [true; false; true; true; true; true; true; true; false; true; true; true], 2%nat).
Proof.
  split; [|split; vm_compute; reflexivity].
  split; try reflexivity; try discriminate.
  - intro k. destruct k as [|[|k]]; split; reflexivity.
  - intro k. destruct k as [|[|k]]; reflexivity.
Qed.

Print Assumptions bitset_union.
Print Assumptions bitset_union_read.
