(** C98: data with protobuf messages written with several attempts is read back. *)

From Coq Require Import List NArith ZArith Lia Bool Arith.
From Coq Require Import ZifyBool ZifyNat ZifyN.
From Verif Require Import Base.Bytes Model.Types Model.Machine Model.Varint Model.Out Model.In Model.Protocol
  Model.Pb Model.PbNative Model.Mixed Model.OutAgain Model.MixedAgain Spec.Leb128 Spec.Wire Spec.PbWire Spec.PbMerge
  Spec.MixedWire Proofs.VarintP Proofs.OutP Proofs.InBase Proofs.InSafe Proofs.InLocal Proofs.InRound Proofs.ProtoP Proofs.PbOut Proofs.PbParse
  Proofs.PbIn Proofs.CustomP Proofs.MixedP Proofs.MixedRound Proofs.MixedNull Thm.Demo Thm.Pb Thm.Mixed Thm.MixedNull
  Thm.MixedAgain.
Import ListNotations.
Local Open Scope N_scope.

(** However many attempts of the writer ran out of memory or room: after success a reader with the
    same options, on a host of the same byte order, has the items as they were, whatever the buffer
    held before and whatever the reader's objects hold. *)
Theorem mixed_again_round_trip G M P vs ts q c cs st st' cr data pos pf fuel prior :
  mattempts G M P vs ts q (c :: cs) -> ost_ok st ->
  mout_again G M P vs ts true c cs st = (ROk, st') ->
  dsize cr = dsize c -> swap cr = swap c -> host_le cr = host_le c ->
  mixed_readable G M P cr (VSeq vs) (TTuple ts) -> wt G prior (TTuple ts) = true ->
  N.of_nat (length data) < 2 ^ 63 -> (length data < pf)%nat -> (height (VSeq vs) <= fuel)%nat ->
  has_at data pos (window (obuf st') (opos st) (opos st' - opos st)) ->
  mdes G M P cr data pf fuel (TTuple ts) prior pos = (ROk, VSeq vs, (pos + (opos st' - opos st))%nat).
Proof.
  intros HA Ho E Ed Es Eh [B1 B2 B3] Hp Hd Hpf Hh Hat.
  assert (Hq : mixed_trying G M P c (VSeq vs) (TTuple ts) /\ menc G M P c (VSeq vs) (TTuple ts) = q)
    by (inversion HA as [|? ? F]; exact F). destruct Hq as [W <-].
  destruct (mixed_again_written _ _ _ _ _ _ _ _ _ _ _ HA Ho E eq_refl) as (Hr & P1 & _ & P2).
  assert (Hs : snd (menc G M P c (VSeq vs) (TTuple ts)) = true) by (destruct (snd _); [reflexivity|discriminate]).
  replace (opos st' - opos st)%nat with (length (fst (menc G M P c (VSeq vs) (TTuple ts)))) in * by lia.
  rewrite P2 in Hat.
  assert (Ef : fmt_of cr = fmt_of c) by (unfold fmt_of; now rewrite Ed, Es, Eh).
  rewrite <- (menc_same G M P c cr (VSeq vs) Ef Ed Eh) in *.
  destruct W. apply mdes_round; auto.
  - now rewrite Ed.
  - unfold small. change (2 ^ 64) with (2 * 2 ^ 63). lia.
Qed.

(** ** Example *)

Example mixed_again_round_trip_nontrivial :
  exists st', mout_again mx_env_demo mx_msg pb_demo again_vs again_ts true (mixed_mem 12) [mixed_mem 19; mixed_mem 200]
                (mkO [x55; xee; xee; xee] 1) = (ROk, st')
  /\ mdes mx_env_demo mx_msg pb_demo (mixed_mem 200) (obuf st') 100 10 (TTuple again_ts)
       (VSeq [VN 200; VSeq [VSome (mx_phone 77)]]) 1 = (ROk, VSeq again_vs, opos st').
Proof.
  eexists. split; [vm_compute; reflexivity|]. vm_compute. reflexivity.
Qed.

Print Assumptions mixed_again_round_trip.
