(** C89: protobuf messages on platforms with another width of std::size_t. *)

From Coq Require Import List NArith ZArith Lia Bool Arith.
From Coq Require Import ZifyBool ZifyNat ZifyN.
From Verif Require Import Base.Bytes Model.Types Model.Machine Model.Varint Model.Out Model.In
  Model.Loops Model.Protocol Model.Pb Model.PbNarrow
  Spec.Leb128 Spec.Wire Spec.PbWire Spec.PbMerge
  Proofs.VarintP Proofs.OutP Proofs.InBase Proofs.InSafe Proofs.InRound Proofs.InFuel Proofs.ProtoP
  Proofs.PbOut Proofs.PbParse Proofs.PbIn Proofs.PbRead Proofs.PbRound Proofs.PbAlloc Proofs.PbNarrowP
  Thm.Demo Thm.Protocol Thm.Pb Thm.PbInput.
Import ListNotations.
Local Open Scope N_scope.

(** ** Eight bytes: the model all other properties speak of *)

Section Same.
  Variables (P : penv) (c : cfg).
  Variables rec rec' : nat -> list byte -> list val -> res * list val * nat.
  Hypothesis Hrec : forall k sub vals, rec' k sub vals = rec k sub vals.

  Lemma qdes_scalars_same data ck w rs f wt prior pos :
    qdes_scalars 8 c data ck w rs f wt prior pos = des_scalars c data ck w rs f wt prior pos.
  Proof. reflexivity. Qed.

  Lemma qdes_field_same t : forall data wt prior pos,
    qdes_field 8 P c rec' t data wt prior pos = des_field P c rec t data wt prior pos.
  Proof.
    induction t; intros data wt prior pos; try reflexivity.
    - cbn [qdes_field des_field]. apply des_protocol_ext. intros. apply des_nested_ext. intros. apply Hrec.
    - cbn [qdes_field des_field]. f_equal. apply des_protocol_ext. intros. apply des_nested_ext. intros. apply Hrec.
    - cbn [qdes_field des_field]. f_equal. apply des_protocol_ext. intros. apply des_nested_ext. intros.
      apply field_loop_ext. intros [|i] wt' x' p'; auto.
  Qed.
End Same.

Theorem pb_width_same P c data fuel s k prior pos :
  qdes_pb_item 8 P c data fuel s k prior pos = des_pb_item P c data fuel s k prior pos.
Proof.
  unfold qdes_pb_item, des_pb_item. apply des_protocol_ext. intros sz x p. apply des_nested_ext.
  change (qb_icfg 8 c) with (pb_icfg c). clear. generalize (pb_icfg c). clear c.
  intros c. revert k. induction fuel as [|f IH]; intros k sub vals; cbn [qdes_fields des_fields]; [reflexivity|].
  apply field_loop_ext. intros i wt x p. destruct (nth_error _ i); [|reflexivity].
  apply qdes_field_same. exact IH.
Qed.

(** ** Any input *)

(** Bytes from anywhere: no access outside the data, the position stays inside, the reader
    terminates and the target remains a valid object. *)
Theorem pb_width_safe z P c data fuel s k prior pos :
  wfw z = true -> wf_penv P -> pcmp_env P ->
  (forall k, forallb (fun fd => no_bool (snd fd)) (m_fields (P k)) = true) ->
  wfsz (Some s) = true -> small data -> (pos <= length data)%nat ->
  (length data - pos < fuel)%nat -> pwt P prior (PMsg k) = true ->
  let '(r, v, p) := qdes_pb_item z P c data fuel s k prior pos in
  r <> RUB /\ r <> RStack /\ (pos <= p <= length data)%nat /\ pwt P v (PMsg k) = true.
Proof.
  intros Hz HP Hc Hb Hs Hsm Hp Hf Hw.
  pose proof (qdes_pb_item_safe z P c false data fuel s k prior pos Hz HP Hc Hb Hs Hsm Hp Hf Hw) as H.
  destruct (qdes_pb_item z P c data fuel s k prior pos) as [[r v] p].
  destruct H as (H1 & H2 & H3 & H4). repeat split; try tauto; try lia.
  intro E. now apply H3 in E.
Qed.

(** ** Messages *)

Lemma qb_room_ok z c n :
  pb_room c n = true ->
  can_alloc (qb_icfg z c) n = true /\ match alim (qb_icfg z c) with Some lim => n <= lim | None => True end.
Proof. exact (pb_room_ok c n). Qed.

(** Any sequence of records a conforming writer may produce (Spec/PbMerge.v) has the effect it has
    with 64 bits. *)
Theorem pb_width_records z P c f k prior rs res :
  wfw z = true -> wf_penv P -> merges_message P (pb_room c) k prior rs res ->
  zsmall z (records_bytes rs) -> (length (records_bytes rs) < f)%nat ->
  qdes_fields z P (qb_icfg z c) f k (records_bytes rs) prior = (ROk, res, length (records_bytes rs)).
Proof.
  intros Hz HP H. apply (q_reads_message z P (qb_icfg z c) (pb_room c) HP); auto.
  - apply pb_icfg_little.
  - intro n. apply qb_room_ok.
Qed.

(** What is written with std::size_t of one width is read with any other, if there is room for it:
    the message is shorter than 2^(8z) bytes. *)
Theorem pb_width_round_trip z P cw cr s k l st st' data pos fuel prior :
  wfw z = true ->
  pb_writing P cw s k l -> ost_ok st -> ser_pb_item P cw s k l st = (ROk, st') ->
  host_le cr = host_le cw -> s <> SzNone ->
  pb_prefix_ok cr s (N.of_nat (length (message_bytes P k l))) ->
  preadable P (pb_room cr) (VSeq l) (PMsg k) = true ->
  pwt P (VSeq prior) (PMsg k) = true ->
  zsmall z (message_bytes P k l) ->
  N.of_nat (length data) < 2 ^ 63 -> (length (message_bytes P k l) < fuel)%nat ->
  has_at data pos (window (obuf st') (opos st) (opos st' - opos st)) ->
  qdes_pb_item z P cr data fuel s k (VSeq prior) pos
  = (ROk, VSeq l, (pos + (opos st' - opos st))%nat).
Proof.
  intros Hz W Hok E Hh Hne Hpp Hr Hpr Hzs Hd Hf Hat.
  destruct (pb_written _ _ _ _ _ _ _ W Hok E) as (Hp & Hw & _).
  assert (Ed := Nat.add_sub (length (proto_prefix cw s (N.of_nat (length (message_bytes P k l)))
                                     ++ message_bytes P k l)) (opos st)).
  rewrite Nat.add_comm in Ed. rewrite Hp, Ed in *. rewrite (proj2 Hw) in Hat.
  assert (Ep : forall n, proto_prefix cw s n = proto_prefix cr s n).
  { intro n. destruct s; cbn [proto_prefix]; try reflexivity. unfold hostrep. now rewrite Hh. }
  rewrite Ep in *. destruct W.
  unfold qdes_pb_item. apply has_at_app in Hat as [H1 H2].
  rewrite (des_protocol_prefix cr s _ data pos _ _ Hne Hpp Hd H1).
  rewrite app_length, Nat.add_assoc.
  apply nested_reads_all; [exact H2|now left|].
  apply pb_width_records; auto. now apply message_restored.
Qed.

Theorem pb_width_round_trip_unsized z P cw cr k l st st' data pos fuel prior :
  wfw z = true ->
  pb_writing P cw SzNone k l -> ost_ok st -> ser_pb_item P cw SzNone k l st = (ROk, st') ->
  preadable P (pb_room cr) (VSeq l) (PMsg k) = true ->
  pwt P (VSeq prior) (PMsg k) = true -> zsmall z (message_bytes P k l) ->
  small data -> (length (message_bytes P k l) < fuel)%nat ->
  has_at data pos (window (obuf st') (opos st) (opos st' - opos st)) ->
  length data = (pos + (opos st' - opos st))%nat ->
  qdes_pb_item z P cr data fuel SzNone k (VSeq prior) pos = (ROk, VSeq l, length data).
Proof.
  intros Hz W Hok E Hr Hpr Hzs Hd Hf Hat Hl.
  destruct (pb_written _ _ _ _ _ _ _ W Hok E) as (Hp & Hw & _).
  cbn [proto_prefix app] in *.
  assert (Ed := Nat.add_sub (length (message_bytes P k l)) (opos st)).
  rewrite Nat.add_comm in Ed. rewrite Hp, Ed in Hat, Hl. rewrite (proj2 Hw) in Hat. destruct W.
  unfold qdes_pb_item, des_protocol. rewrite Hl.
  apply nested_reads_all; [exact Hat|now right|].
  apply pb_width_records; auto. now apply message_restored.
Qed.

(** Not so for other input: a nested message that states more bytes than there are is cut to what
    there is (C34).  If it states 2^32 bytes that holds with 64 bits only; with 32 bits the length
    does not fit and is refused. *)
Definition pb_lists : penv := fun k =>
  match k with
  | O => mkPmsg [(None, PVars (CSeq false None) 4 false false); (None, PMsg 1)] [] [VSeq []; VSeq [VN 0]]
  | _ => mkPmsg [(None, PFix 4)] [] [VN 0]
  end.

Theorem pb_width_clamped_refuted :
  let data := [x12; x80; x80; x80; x80; x10; x0d; x01; x02; x03; x04] in
  let prior := VSeq [VSeq []; VSeq [VN 0]] in
  des_pb_item pb_lists vec_cfg data 20 SzNone 0 prior 0
  = (ROk, VSeq [VSeq []; VSeq [VN 0x04030201]], 11%nat)
  /\ fst (fst (qdes_pb_item 4 pb_lists vec_cfg data 20 SzNone 0 prior 0)) <> ROk.
Proof. split; vm_compute; [reflexivity|discriminate]. Qed.

(** length + archive.position() wraps with a length of five bytes: a packed field in a list that
    states 2^32 - 6 bytes is taken for an empty one with 32 bits, and what follows for further
    fields.  With 64 bits the elements are read and the input is refused for being too short. *)
Theorem pb_width_wraps_refuted :
  let data := [x0a; xfa; xff; xff; xff; x0f; x08; x07] in
  let prior := VSeq [VSeq []; VSeq [VN 0]] in
  qdes_pb_item 4 pb_lists vec_cfg data 20 SzNone 0 prior 0
  = (ROk, VSeq [VSeq [VN 7]; VSeq [VN 0]], 8%nat)
  /\ fst (fst (des_pb_item pb_lists vec_cfg data 20 SzNone 0 prior 0)) <> ROk.
Proof. split; vm_compute; [reflexivity|discriminate]. Qed.

(** ** Examples *)

(** Written with 64 bits, read with 64, 32 and 16, into a target that held something else. *)
Example pb_width_nontrivial :
  pb_writing pb_demo vec_cfg (SzFix 4) 0 pb_demo_val /\
  zsmall 2 (message_bytes pb_demo 0 pb_demo_val) /\
  preadable pb_demo (pb_room vec_cfg) (VSeq pb_demo_val) (PMsg 0) = true /\
  let w := snd (ser_pb_item pb_demo vec_cfg (SzFix 4) 0 pb_demo_val (mkO [x55] 1)) in
  let prior := [pb_text [1; 2; 3]; VN 9; VSeq [VSeq [pb_text []; VN 0]]; VSeq []; VSeq [VN 7]; VSeq [];
                VN 0; VSeq [pb_text [9; 9]; VN 77]; VSeq [VN 3]; VSeq []; VN 5] in
  forall z, In z [2; 4; 8]%nat ->
  qdes_pb_item z pb_demo vec_cfg (firstn (opos w) (obuf w) ++ [xff; xff]) 200 (SzFix 4) 0 (VSeq prior) 1
  = (ROk, VSeq pb_demo_val, opos w).
Proof.
  split; [apply pb_demo_writing; now right|]. split; [vm_compute; reflexivity|].
  split; [vm_compute; reflexivity|].
  intros w prior z [<-|[<-|[<-|[]]]]; vm_compute; reflexivity.
Qed.

Example pb_width_safe_nontrivial :
  wf_penv pb_hostile /\ pcmp_env pb_hostile /\
  (forall k, forallb (fun fd => no_bool (snd fd)) (m_fields (pb_hostile k)) = true) /\
  qdes_pb_item 4 pb_hostile vec_cfg
    [x0a; xff; xff; xff; xff; x0f; x09; x01; x02] 14 SzNone 0
    (VSeq [VSeq [VN 0]; VSeq []; VSeq []]) 0
  = (RErr result_out_of_range, VSeq [VSeq [VN 0]; VSeq []; VSeq []], 7%nat).
Proof.
  split; [intros [|k]; vm_compute; reflexivity|]. split; [exact pb_hostile_cmp|].
  split; [intros [|k]; vm_compute; reflexivity|]. vm_compute. reflexivity.
Qed.

Print Assumptions pb_width_same.
Print Assumptions pb_width_safe.
Print Assumptions pb_width_records.
Print Assumptions pb_width_round_trip.
Print Assumptions pb_width_round_trip_unsized.
Print Assumptions pb_width_clamped_refuted.
Print Assumptions pb_width_wraps_refuted.
