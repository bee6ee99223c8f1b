(** C95: reading a protobuf message again after memory ran out. *)

From Coq Require Import List NArith ZArith Lia Bool Arith Permutation.
From Coq Require Import ZifyBool ZifyNat ZifyN.
From Verif Require Import Base.Bytes Model.Types Model.Machine Model.Varint Model.Out Model.In
  Model.Loops Model.Protocol Model.Pb Model.PbPieces Model.Heap Model.PbHeap Model.PbAgain
  Spec.Leb128 Spec.Wire Spec.PbWire Spec.PbMerge
  Proofs.VarintP Proofs.OutP Proofs.InBase Proofs.InSafe Proofs.InRound Proofs.ProtoP Proofs.PbOut Proofs.PbRound
  Proofs.PbIn Proofs.HeapP Proofs.HeapLoud Proofs.PbHeapP
  Thm.Demo Thm.Output Thm.Resource Thm.Heap Thm.Pb Thm.PbInput Thm.PbHold Thm.PbHeap Thm.PbPieces.
Import ListNotations.
Local Open Scope N_scope.

(** ** Where an exception leaves the archive *)

(** The position at which the content of a message that begins at [pos] begins. *)
Definition content_at (c : cfg) (data : list byte) (s : sizety) (pos p : nat) : Prop :=
  match s with
  | SzNone => p = pos
  | _ => exists n, des_size c data s pos = (ROk, n, p)
  end.

(** Whatever was read of the message before: after an exception the position is where its content
    begins.  Without a size that is where the message begins. *)
Theorem pb_exception_position P c data fuel s k prior pos v p :
  pb_source data pos s ->
  des_pb_item P c data fuel s k prior pos = (RThrow, v, p) -> content_at c data s pos p.
Proof.
  intros [A1 A2 A3].
  assert (N : forall size q, des_nested data (des_fields P (pb_icfg c) fuel k) size prior q = (RThrow, v, p) -> p = q).
  { intros size q. unfold des_nested. destruct (rest_of data q) as [rest|]; [|discriminate].
    cbv zeta. destruct (des_fields _ _ _ _ _ _) as [[r vs] p']. destruct r; intro E; try discriminate.
    now injection E as _ <-. }
  unfold des_pb_item, des_protocol, content_at.
  destruct s as [|w|w]; [apply N| |];
    (pose proof (des_size_le c data _ pos A3 A1 A2) as Z;
     destruct (des_size c data _ pos) as [[r n] q]; destruct r; try contradiction; try discriminate;
     intro E; exists n; apply N in E; now subst).
Qed.

(** The same when any allocation may be refused. *)
Theorem pb_refused_position ok room P c data fuel s k h pos H h' p H' :
  pb_source data pos s ->
  hdes_pb_item ok room P c data fuel s k h pos H = (RThrow, h', p, H') -> content_at c data s pos p.
Proof.
  intros [A1 A2 A3].
  assert (N : forall size q, hdes_nested data (hdes_fields ok room P (pb_icfg c) fuel k) size h q H
                             = (RThrow, h', p, H') -> p = q).
  { intros size q. unfold hdes_nested. destruct (rest_of data q) as [rest|]; [|discriminate].
    cbv zeta. destruct (hdes_fields _ _ _ _ _ _ _ _ _) as [[[r vs] p'] K]. destruct r; intro E; try discriminate.
    now injection E as _ <- _. }
  unfold hdes_pb_item, hdes_protocol, content_at.
  destruct s as [|w|w]; [apply N| |];
    (pose proof (des_size_le c data _ pos A3 A1 A2) as Z;
     destruct (des_size c data _ pos) as [[r n] q]; destruct r; try contradiction; try discriminate;
     intro E; exists n; apply N in E; now subst).
Qed.

(** So a program need not set the position back if there is no size. *)
Theorem pb_again_unsized ok room P c data fuel k tries h pos H :
  (pos <= length data)%nat -> small data ->
  pb_again ok room P c data fuel SzNone k false tries h pos H
  = pb_again ok room P c data fuel SzNone k true tries h pos H.
Proof.
  intros Hp Hs. revert h H. induction tries as [|n IH]; intros h H; cbn [pb_again].
  - reflexivity.
  - destruct (hdes_pb_item _ _ _ _ _ _ _ _ _ _ _) as [[[r h'] p] H'] eqn:E. destruct r; try reflexivity.
    apply pb_refused_position in E; [|now constructor]. cbn [content_at] in E. subst p. apply IH.
Qed.

(** ** Until there is memory *)

(** The bytes [e] of a message at [pos]: with its size, or without one and up to the end. *)
Record pb_waits (P : penv) (cw cr : cfg) (s : sizety) (fuel : nat) (k : nat) (l : list val)
  (data : list byte) (pos : nat) (e : list byte) : Prop := {
  wt_written : pb_appended P cw s k l e;
  wt_host : host_le cr = host_le cw;
  wt_size : pb_prefix_ok cr s (N.of_nat (length (message_bytes P k l)));
  wt_room : preadable P (pb_room cr) (VSeq l) (PMsg k) = true;
  wt_data : N.of_nat (length data) < 2 ^ 63;
  wt_fuel : (length data - pos < fuel)%nat;
  wt_at : has_at data pos e;
  wt_end : s = SzNone -> length data = (pos + length e)%nat
}.

Lemma waits_read P cw cr s fuel k l data pos e :
  pb_waits P cw cr s fuel k l data pos e -> pb_source data pos s /\
  (length (message_bytes P k l) <= length e)%nat /\
  forall v, pwt P v (PMsg k) = true -> des_pb_item P cr data fuel s k v pos = (ROk, VSeq l, (pos + length e)%nat).
Proof.
  intros [(W & st & st' & Ho & E & He) W2 W3 W4 W5 W6 W7 W8].
  destruct (pb_written _ _ _ _ _ _ _ W Ho E) as (Q & [Hw1 Hw] & _).
  assert (Ed : (opos st' - opos st)%nat = length (proto_prefix cw s (N.of_nat (length (message_bytes P k l)))
                                                  ++ message_bytes P k l)) by lia.
  assert (Le : length e = (opos st' - opos st)%nat) by (rewrite He, Ed, Hw; reflexivity).
  assert (Lm : (length (message_bytes P k l) <= length e)%nat).
  { rewrite Le, Ed, app_length. lia. }
  assert (Hsm : small data).
  { unfold small. change (2 ^ 63) with 9223372036854775808 in W5. change (2 ^ 64) with 18446744073709551616. lia. }
  assert (Hpd : (pos + length e <= length data)%nat) by apply W7.
  split; [constructor; [exact Hsm|lia|apply W]|]. split; [exact Lm|].
  intros v Hv. destruct v as [|prior| | | | | |]; try discriminate. rewrite Le in *. rewrite He in W7.
  destruct (ltac:(destruct s; auto; right; discriminate) : s = SzNone \/ s <> SzNone) as [->|Ne].
  - rewrite <- (W8 eq_refl). eapply pb_round_trip_unsized; eauto; lia.
  - eapply pb_round_trip; eauto; lia.
Qed.

(** Whichever allocations are refused: the attempts end with the message that was written or with
    another exception, and the live blocks are exactly those that the message object owns. *)
Theorem pb_again_result ok room P cw cr s fuel k l data pos e tries h H rest r h' p H' :
  schema P -> pb_waits P cw cr s fuel k l data pos e ->
  message P k h -> exact_heap H [h] rest ->
  pb_again ok room P cr data fuel s k true tries h pos H = (r, h', p, H') ->
  exact_heap H' [h'] rest /\ message P k h'
  /\ (r = ROk /\ erase h' = VSeq l /\ p = (pos + length e)%nat
      \/ r = RThrow /\ content_at cr data s pos p /\ (hnext H + tries < hnext H')%nat).
Proof.
  intros HS HW. destruct (waits_read _ _ _ _ _ _ _ _ _ _ HW) as (HA & Lm & HR). pose proof (wt_fuel _ _ _ _ _ _ _ _ _ _ HW) as Hf.
  revert h H. induction tries as [|n IH]; intros h H HM HE; cbn [pb_again];
    destruct (hdes_pb_item _ _ _ _ _ _ _ _ _ _ _) as [[[r1 h1] p1] H1] eqn:E1;
    destruct (pb_ownership _ _ _ _ _ _ _ _ _ _ _ _ _ _ _ _ HS HA Hf HM HE E1) as (K1 & K2 & _);
    destruct (item_ok _ _ _ _ _ _ _ _ _ _ _ _ _ _ _ _ HS HA Hf HM HE E1) as (_ & _ & _ & K4);
    rewrite (HR _ (proj1 HM)) in K4.
  - intro E. assert (E' : (r1, h1, p1, H1) = (r, h', p, H')) by (destruct r1; exact E). injection E' as -> -> -> ->.
    split; [exact K1|]. split; [exact K2|]. destruct K4 as [[K4 _]|(-> & (m & M1 & M2 & _) & _)].
    + injection K4 as K6 K7 K8. left. auto.
    + right. split; [reflexivity|]. split; [eapply pb_refused_position; eauto|lia].
  - destruct K4 as [[K4 _]|(-> & (m & M1 & M2 & _) & _)].
    + injection K4 as -> K5 ->. intro E. injection E as <- <- <- <-. split; [exact K1|]. split; [exact K2|]. left. auto.
    + intro E. destruct (IH _ _ K2 K1 E) as (J1 & J2 & J3). split; [exact J1|]. split; [exact J2|].
      destruct J3 as [J3|(J3 & J4 & J5)]; [left; exact J3|right]. split; [exact J3|]. split; [exact J4|lia].
Qed.

(** If from allocation number [M] on none is refused, enough attempts read the message. *)
Theorem pb_again_succeeds ok room P cw cr s fuel k l data pos e tries h H rest M r h' p H' :
  schema P -> pb_waits P cw cr s fuel k l data pos e ->
  message P k h -> exact_heap H [h] rest ->
  (forall n, (M <= n)%nat -> ok n = true) -> (M - hnext H <= tries)%nat ->
  pb_again ok room P cr data fuel s k true tries h pos H = (r, h', p, H') ->
  r = ROk /\ erase h' = VSeq l /\ p = (pos + length e)%nat.
Proof.
  intros HS HW. destruct (waits_read _ _ _ _ _ _ _ _ _ _ HW) as (HA & Lm & HR). pose proof (wt_fuel _ _ _ _ _ _ _ _ _ _ HW) as Hf.
  intros HM HE Hok. revert h H HM HE. induction tries as [|n IH]; intros h H HM HE Ht; cbn [pb_again];
    destruct (hdes_pb_item _ _ _ _ _ _ _ _ _ _ _) as [[[r1 h1] p1] H1] eqn:E1;
    destruct (pb_ownership _ _ _ _ _ _ _ _ _ _ _ _ _ _ _ _ HS HA Hf HM HE E1) as (K1 & K2 & _);
    destruct (item_ok _ _ _ _ _ _ _ _ _ _ _ _ _ _ _ _ HS HA Hf HM HE E1) as (_ & _ & _ & K4);
    rewrite (HR _ (proj1 HM)) in K4;
    (destruct K4 as [[K4 _]|(-> & (m & M1 & M2 & _ & M3) & _)];
     [injection K4 as -> K5 ->; intro E; injection E as <- <- <- <-; auto|]).
  - rewrite Hok in M3 by lia. discriminate.
  - intro E. apply (IH h1 H1); auto. lia.
Qed.

(** ** Examples *)

(** The demo message of 94 bytes with its size (C91); allocations 0, 3 and 7 are refused. *)
Definition scarce (n : nat) : bool := negb ((n =? 0) || (n =? 3) || (n =? 7))%nat.
Definition again (reset : bool) (tries : nat) :=
  pb_again scarce (fun _ => 1) pb_demo vec_cfg pb_demo_bytes 200 (SzFix 4) 0 reset tries
    (Heap.bare (VSeq (m_dflt (pb_demo O)))) 0 no_blocks.

Lemma demo_waits : pb_waits pb_demo vec_cfg vec_cfg (SzFix 4) 200 0 pb_demo_val pb_demo_bytes 0 pb_demo_bytes.
Proof.
  destruct pb_pieces_nontrivial as [(D1 & D2 & D3 & D4 & D5) _].
  constructor; [exact D1|reflexivity|exact D2|exact D3| | | |discriminate].
  - vm_compute. reflexivity.
  - apply Nat.ltb_lt. vm_compute. reflexivity.
  - split; [apply Nat.leb_le; vm_compute; reflexivity|vm_compute; reflexivity].
Qed.

Example pb_again_nontrivial :
  map (fun n => match again true n with (r, h, p, H) => (r, p, hnext H) end) [0; 1; 2; 3]%nat
  = [(RThrow, 4, 1); (RThrow, 4, 4); (RThrow, 4, 8); (ROk, 94, 21)]%nat
  /\ (forall n, (8 <= n)%nat -> scarce n = true).
Proof.
  split; [vm_compute; reflexivity|]. intros n Hn. unfold scarce.
  replace (n =? 0)%nat with false by lia. replace (n =? 3)%nat with false by lia. now replace (n =? 7)%nat with false by lia.
Qed.

(** A message with a size has to be read from its start: a program that just calls again takes the
    first bytes of the content for the size, and reports success with another message. *)
Theorem pb_again_position_refuted :
  exists h H, again false 3 = (ROk, h, 94%nat, H) /\ erase h <> VSeq pb_demo_val.
Proof.
  do 2 eexists. split; [vm_compute; reflexivity|]. vm_compute. discriminate.
Qed.

Print Assumptions pb_exception_position.
Print Assumptions pb_refused_position.
Print Assumptions pb_again_unsized.
Print Assumptions pb_again_result.
Print Assumptions pb_again_succeeds.
Print Assumptions pb_again_position_refuted.
