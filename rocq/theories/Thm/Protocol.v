(** C29: size prefixes of protocol messages. *)

From Coq Require Import List NArith ZArith Lia Bool Arith.
From Coq Require Import ZifyBool ZifyNat ZifyN.
From Verif Require Import Base.Bytes Model.Types Model.Machine Model.Varint Model.Out Model.In
  Model.Loops Model.Protocol Spec.Leb128 Spec.Wire
  Proofs.VarintP Proofs.OutP Proofs.InBase Proofs.InRound Proofs.ProtoP Thm.Demo.
Import ListNotations.
Local Open Scope N_scope.

Ltac Zify.zify_post_hook ::= Z.div_mod_to_equations.

(** A protocol that writes exactly [m] wherever it is started, or fails for lack of room and
    then has only touched bytes from its starting position on: [pemits c body m].

    Whatever the protocol, its message is preceded by its length in the size type: nothing
    before the position and nothing after the message is touched, and a message that was
    written before its length was known is shifted intact. *)
Theorem protocol_size_prefix c s body m :
  wf_out c -> wfsz (Some s) = true -> size_fits s (N.of_nat (length m)) ->
  pemits c body m ->
  forall st, ost_ok st ->
  let e := proto_prefix c s (N.of_nat (length m)) ++ m in
  N.of_nat (length e) < 2 ^ 63 ->
  let '(r, st') := ser_protocol c s body st in
  match r with
  | ROk => wrote_exactly c st e st'
  | RErr result_out_of_range =>
      growable c = false /\ framed c st st' /\ (length (obuf st) - opos st < length e)%nat
  | RErr no_buffer_space | RThrow => growable c = true /\ framed c st st'
  | _ => False
  end.
Proof.
  intros Hwf Hs Hf Hb st Hok e Hl.
  pose proof (pemits_protocol c s body m Hs Hf Hb Hwf Hl st Hok) as H.
  fold e in H. destruct (ser_protocol c s body st) as [r st']. exact (proj1 H).
Qed.

(** On a fixed buffer the message is written if and only if prefix and message fit. *)
Theorem protocol_fixed_iff_fits c s body m :
  growable c = false -> wfsz (Some s) = true -> size_fits s (N.of_nat (length m)) ->
  pemits c body m ->
  forall st, ost_ok st ->
  let e := proto_prefix c s (N.of_nat (length m)) ++ m in
  N.of_nat (length e) < 2 ^ 63 ->
  (is_ok (fst (ser_protocol c s body st)) = true
   <-> (opos st + length e <= length (obuf st))%nat).
Proof.
  intros Hg Hs Hf Hb st Hok e Hl.
  assert (Hwf : wf_out c) by (intro; congruence).
  pose proof (protocol_size_prefix c s body m Hwf Hs Hf Hb st Hok Hl) as H. fold e in H.
  destruct (ser_protocol c s body st) as [r st']. cbn [fst].
  destruct Hok as [Hp _].
  destruct r as [|[]| | |]; try tauto; cbn [is_ok]; try (destruct H; congruence).
  - destruct H as (k & _ & Hk & [->|(Hbad & _)]); [|congruence]. split; [lia|reflexivity].
  - split; [discriminate|]. lia.
Qed.

(** The prefix is read back as the length, unless a byte swapping archive uses a fixed
    size of more than one byte, or the length does not fit the size type. *)
Theorem protocol_prefix_read c s n data pos :
  wfsz (Some s) = true -> s <> SzNone -> size_fits s n -> n < pow256 (size_width s) ->
  (forall w, s = SzFix w -> swap c = false \/ w = 1%nat) ->
  N.of_nat (length data) < 2 ^ 63 ->
  has_at data pos (proto_prefix c s n) ->
  des_size c data s pos = (ROk, n, (pos + length (proto_prefix c s n))%nat).
Proof.
  intros Hs Hne Hf Hn Hsw Hd Hat. destruct s as [|w|w]; [congruence| |];
    cbn [des_size proto_prefix size_width] in *.
  - rewrite N.mod_small in * by exact Hn.
    assert (E : hostrep c w n = scalar_bytes c w n).
    { unfold scalar_bytes. destruct (Hsw w eq_refl) as [-> | ->]; [reflexivity|].
      rewrite hostrep_1. now destruct (swap c). }
    rewrite E in *.
    assert (HL : length (scalar_bytes c w n) = w) by (rewrite <- E; apply InBase.hostrep_length).
    assert (Hsm : small data) by (unfold small; rewrite two63_val in Hd; lia).
    rewrite HL. rewrite scalar_bytes_wscalar in Hat. now apply des_scalar_has.
  - assert (Hsm : small data) by (unfold small; rewrite two63_val in Hd; lia).
    pose proof (des_varint_has c data w false false 0 n pos Hs Hn ltac:(discriminate) Hat) as HV.
    exact HV.
Qed.

(** So what one archive writes before a message, an archive of the same configuration reads
    as the length of the message, after which the position is at its first byte. *)
Theorem protocol_length_round_trip c s body m st :
  wf_out c -> wfsz (Some s) = true -> s <> SzNone ->
  N.of_nat (length m) < pow256 (size_width s) -> size_fits s (N.of_nat (length m)) ->
  (forall w, s = SzFix w -> swap c = false \/ w = 1%nat) ->
  pemits c body m -> ost_ok st ->
  N.of_nat (length (proto_prefix c s (N.of_nat (length m)) ++ m)) < 2 ^ 63 ->
  forall st', ser_protocol c s body st = (ROk, st') ->
  exists p, des_size c (obuf st') s (opos st) = (ROk, N.of_nat (length m), p) /\
            window (obuf st') p (length m) = m /\ opos st' = (p + length m)%nat.
Proof.
  intros Hwf Hs Hne Hn Hf Hsw Hb Hok Hl st' E.
  pose proof (protocol_size_prefix c s body m Hwf Hs Hf Hb st Hok Hl) as H. rewrite E in H.
  pose proof (wrote_ok _ _ _ _ Hok H) as [_ Hok'].
  destruct H as (k & -> & Hk & Hg). rewrite app_length in Hk. cbn [obuf opos] in *.
  set (pre := proto_prefix c s (N.of_nat (length m))) in *.
  assert (Hat : has_at (overwrite (obuf st ++ zeros k) (opos st) (pre ++ m)) (opos st) (pre ++ m)).
  { split.
    - rewrite overwrite_length; rewrite ?app_length, ?zeros_length; lia.
    - apply window_overwrite. destruct Hok. rewrite app_length. lia. }
  apply has_at_app in Hat as [H1 H2].
  exists (opos st + length pre)%nat. repeat split.
  - apply protocol_prefix_read; auto.
  - apply has_at_window. exact H2.
  - rewrite app_length. lia.
Qed.

(** With a byte-swapping archive the prefix is still written in native order, and a four byte
    size is read back wrong. *)
Theorem protocol_swapped_prefix_refuted :
  exists c body m st st', wf_out c /\ pemits c body m /\ swap c = true /\
    ser_protocol c (SzFix 4) body st = (ROk, st') /\
    des_size c (obuf st') (SzFix 4) (opos st) <> (ROk, N.of_nat (length m), 4%nat).
Proof.
  exists (big_cfg true), (put (big_cfg true) [x01; x02]), [x01; x02], (mkO [] 0).
  eexists. split; [vm_compute; repeat split; discriminate|].
  split; [apply emits_pemits, emits_put|]. split; [reflexivity|].
  split; [vm_compute; reflexivity|]. vm_compute. discriminate.
Qed.

(** A one byte size silently drops the high bits of the length. *)
Theorem protocol_truncated_prefix_refuted :
  exists body m st st', pemits vec_cfg body m /\ length m = 256%nat /\
    ser_protocol vec_cfg (SzFix 1) body st = (ROk, st') /\
    des_size vec_cfg (obuf st') (SzFix 1) (opos st) = (ROk, 0, 1%nat).
Proof.
  exists (put vec_cfg (repeat x07 256)), (repeat x07 256), (mkO [] 0). eexists.
  split; [apply emits_pemits, emits_put|]. split; [reflexivity|].
  split; vm_compute; reflexivity.
Qed.

(** A varint size over a one byte integer: at 128 bytes the two byte prefix is refused after
    the message has been shifted, and at 256 bytes the shifted message is preceded by a
    one byte size and a stale byte. *)
Theorem protocol_narrow_varint_refuted :
  (exists st', ser_protocol vec_cfg (SzVar 1) (put vec_cfg (repeat x07 128)) (mkO [] 0)
               = (RErr result_out_of_range, st')) /\
  (exists st', ser_protocol vec_cfg (SzVar 1) (put vec_cfg (repeat x07 256)) (mkO [] 0) = (ROk, st')
     /\ firstn 3 (obuf st') = [x00; x07; x07] /\ opos st' = 258%nat).
Proof.
  split; eexists; [vm_compute; reflexivity|].
  split; [vm_compute; reflexivity|]. vm_compute. auto.
Qed.

(** A 200 byte message with a varint size in a growable buffer that already holds data, and a
    fixed buffer that is one byte too short. *)
Example protocol_nontrivial :
  size_fits (SzVar 8) 200 /\ pemits vec_cfg (put vec_cfg (repeat x07 200)) (repeat x07 200) /\
  (exists st', ser_protocol vec_cfg (SzVar 8) (put vec_cfg (repeat x07 200)) (mkO [xaa; xbb] 1)
     = (ROk, st') /\
     firstn (opos st') (obuf st') = xaa :: xc8 :: x01 :: repeat x07 200) /\
  fst (ser_protocol span_cfg (SzVar 8) (put span_cfg (repeat x07 200)) (mkO (zeros 201) 0))
  = RErr result_out_of_range.
Proof.
  split; [vm_compute; reflexivity|]. split; [apply emits_pemits, emits_put|].
  split; [eexists; split; vm_compute; reflexivity|]. vm_compute. reflexivity.
Qed.
