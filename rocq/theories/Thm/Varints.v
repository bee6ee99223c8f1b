(** C15-C17: varints. *)

From Coq Require Import List NArith ZArith Lia Bool Arith.
From Coq Require Import ZifyBool ZifyNat ZifyN.
From Verif Require Import Base.Bytes Model.Types Model.Machine Model.Varint Model.Out Model.In
  Spec.Leb128 Spec.Wire Proofs.VarintP Proofs.OutP Thm.Demo.
Import ListNotations.
Local Open Scope N_scope.

(** C15: writing a varint produces the shortest base-128 string of its wire value. *)
Theorem varint_output_canonical c w sg zz n st st' :
  wfw w = true -> n < pow256 w -> wf_out c -> ost_ok st ->
  ser_varint c w sg zz n st = (ROk, st') ->
  exists e, leb (varint_number w sg zz n) e
    /\ opos st' = (opos st + length e)%nat
    /\ window (obuf st') (opos st) (length e) = e
    /\ N.of_nat (length e) = varint_size (varint_number w sg zz n)
    /\ (length e <= varint_max_size w)%nat.
Proof.
  intros Hw Hn Hwf Hok H.
  pose proof (varint_number_lt w sg zz n Hw Hn) as Hlt.
  pose proof (leb128_max w _ Hw Hlt) as Hmax.
  pose proof (max_size_le10 w Hw).
  exists (leb128 (varint_number w sg zz n)).
  assert (Hs : N.of_nat (length (fst (pdone (leb128 (varint_number w sg zz n))))) < 2 ^ 63).
  { cbn [fst pdone]. rewrite two63_val. lia. }
  pose proof (emits_varint c false w sg zz n Hw Hn Hwf Hs st Hok ltac:(discriminate)) as He.
  rewrite H in He. destruct He as [(e1 & e2 & k & F1 & F2 & F3 & F4 & F5 & _) _].
  subst e2. rewrite app_nil_r in F1. cbn [fst pdone] in F1. rewrite F1 in *. subst st'.
  cbn [obuf opos]. split; [|split; [|split; [|split]]].
  - rewrite <- F1. apply leb128_spec.
  - reflexivity.
  - apply window_overwrite. destruct Hok. rewrite app_length. lia.
  - rewrite <- F1. symmetry. apply varint_size_length.
  - lia.
Qed.

(** No shorter or different string denotes the same number with this property. *)
Theorem varint_canonical_unique n e1 e2 : leb n e1 -> leb n e2 -> e1 = e2.
Proof. exact (leb_unique n e1 e2). Qed.

(** ... in particular, every terminated base-128 string of the number is at least as long. *)
Theorem varint_canonical_shortest n e l :
  leb n e -> leb_value l = Some (n, length l) -> (length e <= length l)%nat.
Proof.
  intros H Hl. apply (leb_length_le n e); [exact H| |].
  - apply leb_value_bounds in Hl. lia.
  - clear H. revert n Hl; induction l as [|b l IH]; intros n Hl; cbn [leb_value] in Hl; [discriminate|].
    cbn [length] in *. rewrite pow128_S. pose proof (b2n_lt b).
    destruct (N.ltb_spec (b2n b) 128).
    + injection Hl as <- _. assert (0 < 128 ^ N.of_nat (length l)) by (apply N.neq_0_lt_0, N.pow_nonzero; lia). lia.
    + destruct (leb_value l) as [[v k]|]; [|discriminate]. injection Hl as <- Hk.
      specialize (IH v). rewrite Hk in IH. specialize (IH eq_refl). lia.
Qed.

(** C15, reading: the value comes back, whatever surrounds it in the input. *)
Theorem varint_roundtrip w sg zz n prior pre post :
  wfw w = true -> n < pow256 w -> (zz = true -> sg = true) ->
  let e := leb128 (varint_number w sg zz n) in
  des_varint w zz prior (pre ++ e ++ post) (length pre) = (ROk, n, (length pre + length e)%nat).
Proof.
  intros Hw Hn Hz e. unfold des_varint, rest_of.
  rewrite !app_length. destruct (Nat.leb_spec (length pre) (length pre + (length e + length post))); [|lia].
  rewrite skipn_app, skipn_all2, Nat.sub_diag by lia. cbn [app skipn].
  unfold e. rewrite varint_in_leb128; [|exact Hw|now apply varint_number_lt].
  now rewrite unwire_wire.
Qed.

Example varint_roundtrip_nontrivial :
  exists e, e = leb128 (varint_number 4 true true 0xfffffed4) /\ e = [xd7; x04]
  /\ ser_varint vec_cfg 4 true true 0xfffffed4 (mkO [x55; x66] 2)
     = (ROk, mkO [x55; x66; xd7; x04; x00; x00; x00; x00; x00; x00] 4).
Proof. eexists. repeat split; vm_compute; reflexivity. Qed.

(** C16: the three ways to decode give the same result on every input. *)
Theorem varint_paths_agree w data :
  wfw w = true ->
  varint_in w data = decode_varint w data /\
  varint_in_inline w data = decode_varint w data.
Proof.
  intro Hw. rewrite decode_varint_spec, varint_in_spec, varint_in_inline_spec by exact Hw. auto.
Qed.

(** ... and so do the short-buffer loop and the unrolled decoder where both apply: cutting
    the input to fewer than the maximal number of bytes does not change the result as long as
    the terminating byte is kept. *)
Theorem varint_short_long_agree w data k v n :
  wfw w = true -> decode_varint w data = VOk v n -> (n <= k)%nat ->
  decode_varint w (firstn k data) = VOk v n.
Proof.
  intros Hw H Hk. rewrite decode_varint_spec in * by exact Hw. unfold dec_spec in *.
  destruct (leb_value (firstn (varint_max_size w) data)) as [[v' k']|] eqn:E; [|destruct (_ <? _)%nat in H; discriminate].
  injection H as <- <-.
  rewrite firstn_firstn, Nat.min_comm, <- firstn_firstn.
  now rewrite (leb_value_firstn _ v' k').
Qed.

(** The exact result: value of the first terminated group of bytes among the first
    varint_max_size, reduced modulo 2^(8w); the error otherwise depends on how much is left;
    target and position are untouched on error. *)
Theorem varint_decode_exact w zz prior data pos :
  wfw w = true -> (pos <= length data)%nat ->
  des_varint w zz prior data pos =
  match leb_value (firstn (varint_max_size w) (skipn pos data)) with
  | Some (v, k) => (ROk, unwire_value w zz (v mod pow256 w), (pos + k)%nat)
  | None =>
      (RErr (if (length data - pos <? varint_max_size w)%nat
             then result_out_of_range else value_too_large), prior, pos)
  end.
Proof.
  intros Hw Hp. unfold des_varint, rest_of.
  destruct (Nat.leb_spec pos (length data)); [|lia].
  rewrite varint_in_spec by exact Hw. unfold dec_spec.
  destruct (leb_value (firstn (varint_max_size w) (skipn pos data))) as [[v k]|]; [reflexivity|].
  rewrite skipn_length. destruct (_ <? _)%nat; reflexivity.
Qed.

Theorem varint_decode_bounded w zz prior data pos v pos' :
  wfw w = true -> (pos <= length data)%nat ->
  des_varint w zz prior data pos = (ROk, v, pos') ->
  (pos < pos' <= length data)%nat /\ (pos' <= pos + varint_max_size w)%nat /\ v < pow256 w.
Proof.
  intros Hw Hp H. rewrite varint_decode_exact in H by assumption.
  destruct (leb_value _) as [[u k]|] eqn:E; [|destruct (_ <? _)%nat in H; discriminate].
  injection H as <- <-. apply leb_value_bounds in E.
  rewrite firstn_length, skipn_length in E. repeat split; try lia.
  apply unwire_lt; [exact Hw|]. apply N.mod_lt. pose proof (pow256_pos w). lia.
Qed.

Example varint_decode_nontrivial :
  (* five-byte maximum of uint32: long input without terminator, short input, redundant zero *)
  des_varint 4 false 7 (repeat xff 9) 1 = (RErr value_too_large, 7, 1%nat)
  /\ des_varint 4 false 7 (repeat xff 4) 1 = (RErr result_out_of_range, 7, 1%nat)
  /\ des_varint 4 false 7 [x85; x80; x00; x01] 0 = (ROk, 5, 3%nat)
  /\ des_varint 4 false 7 [xff; xff; xff; xff; x7f] 0 = (ROk, 0xffffffff, 5%nat).
Proof. repeat split; vm_compute; reflexivity. Qed.

(** C17: zig-zag on signed types: the number on the wire is 2n or -2n-1, and reading inverts it. *)
Theorem zigzag_signed_mapping w n :
  wfw w = true -> n < pow256 w ->
  Z.of_N (wire_value w true true n)
  = (if (0 <=? to_signed w n)%Z then 2 * to_signed w n else - 2 * to_signed w n - 1)%Z
  /\ unwire_value w true (wire_value w true true n) = n.
Proof.
  intros Hw Hn. split.
  - rewrite wire_value_number by assumption. cbn [varint_number]. unfold zigzag.
    destruct (Z.leb_spec 0 (to_signed w n)); lia.
  - rewrite wire_value_number by assumption. now apply unwire_wire.
Qed.

(** Every number is reached: decoding followed by encoding is the identity as well. *)
Theorem zigzag_signed_onto w u :
  wfw w = true -> u < pow256 w -> wire_value w true true (unwire_value w true u) = u.
Proof.
  intros Hw Hu. assert (Hlt : unwire_value w true u < pow256 w) by now apply unwire_lt.
  rewrite wire_value_number by assumption. cbn [varint_number].
  unfold unwire_value. rewrite zz_dec_spec by assumption.
  assert (HP : exists q, pow256 w = 2 * q) by (rewrite (half_pow w Hw); eauto).
  destruct HP as [q Hq]. pose proof (pow256_pos w).
  assert (Hr : (- Z.of_N q <= unzigzag u < Z.of_N q)%Z).
  { unfold unzigzag. pose proof (N.div_mod u 2 ltac:(lia)). pose proof (N.mod_lt u 2 ltac:(lia)).
    destruct (N.even u); lia. }
  assert (Hs : to_signed w (of_signed w (unzigzag u)) = unzigzag u).
  { unfold to_signed, of_signed. rewrite Hq.
    destruct (Z.le_gt_cases 0 (unzigzag u)).
    - rewrite Z.mod_small by lia.
      destruct (N.ltb_spec (2 * Z.to_N (unzigzag u)) (2 * q)); lia.
    - replace (unzigzag u mod Z.of_N (2 * q))%Z with (unzigzag u + Z.of_N (2 * q))%Z.
      + destruct (N.ltb_spec (2 * Z.to_N (unzigzag u + Z.of_N (2 * q))) (2 * q)); lia.
      + rewrite <- (Z.mod_add (unzigzag u) 1) by lia. rewrite Z.mod_small; lia. }
  rewrite Hs. unfold zigzag, unzigzag.
  destruct (N.even u) eqn:Ev.
  - apply N.even_spec in Ev as [m ->]. rewrite N.mul_comm, N.div_mul by lia.
    destruct (Z.leb_spec 0 (Z.of_N m)); lia.
  - assert (N.odd u = true) by (rewrite <- N.negb_even, Ev; reflexivity).
    apply N.odd_spec in H0 as [m ->].
    replace ((2 * m + 1) / 2) with m by (apply N.div_unique with 1; lia).
    destruct (Z.leb_spec 0 (- Z.of_N m - 1)); lia.
Qed.

(** Small magnitudes get short encodings. *)
Theorem zigzag_short w n k :
  wfw w = true -> n < pow256 w -> (0 < k)%nat ->
  (- Z.of_N (128 ^ N.of_nat k) <= 2 * to_signed w n < Z.of_N (128 ^ N.of_nat k))%Z ->
  (length (leb128 (wire_value w true true n)) <= k)%nat.
Proof.
  intros Hw Hn Hk H. apply (leb_length_le (wire_value w true true n)); [apply leb128_spec|exact Hk|].
  pose proof (proj1 (zigzag_signed_mapping w n Hw Hn)) as E.
  destruct (0 <=? to_signed w n)%Z eqn:Es; lia.
Qed.

Example zigzag_nontrivial :
  wire_value 4 true true (of_signed 4 (-3)) = 5 /\ wire_value 8 true true (of_signed 8 3) = 6.
Proof. split; vm_compute; reflexivity. Qed.

(** On unsigned value types zig_zag does not round-trip (finding). *)
Theorem zigzag_unsigned_refuted :
  exists w n, wfw w = true /\ n < pow256 w
    /\ unwire_value w true (wire_value w false true n) <> n.
Proof. exists 4%nat, 0x80000000. repeat split; vm_compute; discriminate. Qed.

Print Assumptions varint_output_canonical.
Print Assumptions varint_canonical_unique.
Print Assumptions varint_canonical_shortest.
Print Assumptions varint_roundtrip.
Print Assumptions varint_paths_agree.
Print Assumptions varint_short_long_agree.
Print Assumptions varint_decode_exact.
Print Assumptions varint_decode_bounded.
Print Assumptions zigzag_signed_mapping.
Print Assumptions zigzag_signed_onto.
Print Assumptions zigzag_short.
Print Assumptions zigzag_unsigned_refuted.
