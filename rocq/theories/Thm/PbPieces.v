(** C91: protobuf messages that arrive in pieces. *)

From Coq Require Import List NArith ZArith Lia Bool Arith.
From Coq Require Import ZifyBool ZifyNat ZifyN.
From Verif Require Import Base.Bytes Model.Types Model.Machine Model.Varint Model.Out Model.In
  Model.Loops Model.Protocol Model.Pb Model.Pieces Model.PbPieces
  Spec.Leb128 Spec.Wire Spec.PbWire Spec.PbMerge
  Proofs.VarintP Proofs.OutP Proofs.InBase Proofs.InSafe Proofs.InStable Proofs.InRound Proofs.ProtoP
  Proofs.PbOut Proofs.PbParse Proofs.PbIn Proofs.PbRead Proofs.PbRound
  Thm.Demo Thm.Output Thm.Protocol Thm.Pb Thm.PbInput.
Import ListNotations.
Local Open Scope N_scope.

(** ** A message that is there does not depend on what follows *)

(** Reading a message, whatever is in it and however reading ends, does not look at data behind
    the bytes announced for it. *)
Theorem pb_announced_only P c fuel s k data more item pos n p :
  wfsz (Some s) = true -> s <> SzNone -> small (data ++ more) -> (pos <= length data)%nat ->
  des_size c data s pos = (ROk, n, p) -> N.of_nat p + n <= N.of_nat (length data) ->
  des_pb_item P c (data ++ more) fuel s k item pos = des_pb_item P c data fuel s k item pos.
Proof.
  intros Hs Hne Hsm Hp E L.
  assert (Hsm' : small data) by (unfold small in *; rewrite app_length in Hsm; lia).
  destruct (size_stable c data more Hsm' Hsm s Hs pos Hp) as [S|S].
  { rewrite E in S. discriminate S. }
  unfold des_pb_item, des_protocol. rewrite E in S.
  assert (K : des_nested (data ++ more) (des_fields P (pb_icfg c) fuel k) (Some n) item p
    = des_nested data (des_fields P (pb_icfg c) fuel k) (Some n) item p).
  { unfold des_nested, rest_of. rewrite app_length.
    destruct (Nat.leb_spec p (length data)); [|lia].
    destruct (Nat.leb_spec p (length data + length more)); [|lia].
    rewrite !skipn_length, app_length.
    replace (N.to_nat (N.min n (N.of_nat (length data + length more - p)))) with (N.to_nat n) by lia.
    replace (N.to_nat (N.min n (N.of_nat (length data - p)))) with (N.to_nat n) by lia.
    rewrite skipn_app. rewrite firstn_app, skipn_length.
    replace (N.to_nat n - (length data - p))%nat with 0%nat by lia. now rewrite firstn_O, app_nil_r. }
  destruct s; [congruence|..]; now rewrite S, E, K.
Qed.

(** ** The loop *)

(** If all of a message arrives, the loop ends with what reading from all of the data gives, as
    soon as the last of the bytes announced is there. *)
Theorem pb_pieces_same P c fuel s k pos have todo item n p :
  wfsz (Some s) = true -> s <> SzNone -> small (have ++ concat todo) -> (pos <= length have)%nat ->
  des_size c (have ++ concat todo) s pos = (ROk, n, p) ->
  N.of_nat p + n <= N.of_nat (length (have ++ concat todo)) ->
  exists got rest,
    todo = got ++ rest
    /\ pb_receive P c fuel s k pos have todo item
       = (des_pb_item P c (have ++ concat todo) fuel s k item pos, have ++ concat got, rest)
    /\ N.of_nat p + n <= N.of_nat (length (have ++ concat got))
    /\ (forall got' x more, got = got' ++ x :: more -> N.of_nat (length (have ++ concat got')) < N.of_nat p + n).
Proof.
  intros Hs Hne. revert have. induction todo as [|x todo IH]; intros have Hsm Hp E L.
  { cbn [concat] in *. rewrite app_nil_r in *. exists [], []. cbn [concat]. rewrite !app_nil_r.
    split; [reflexivity|]. split; [|split; [exact L|intros [|? ?]; discriminate]].
    cbn [pb_receive]. rewrite E. apply N.leb_le in L. now rewrite L. }
  assert (Hsm' : small have) by (unfold small in *; rewrite app_length in Hsm; lia).
  assert (W : N.of_nat (length have) < N.of_nat p + n ->
    exists got rest, x :: todo = got ++ rest
    /\ pb_receive P c fuel s k pos (have ++ x) todo item
       = (des_pb_item P c (have ++ concat (x :: todo)) fuel s k item pos, have ++ concat got, rest)
    /\ N.of_nat p + n <= N.of_nat (length (have ++ concat got))
    /\ (forall got' y more, got = got' ++ y :: more -> N.of_nat (length (have ++ concat got')) < N.of_nat p + n)).
  { intro S. cbn [concat] in *. rewrite app_assoc in *.
    destruct (IH (have ++ x) Hsm ltac:(rewrite app_length; lia) E L) as (got & rest & I1 & I2 & I3 & I4).
    exists (x :: got), rest. cbn [concat]. rewrite app_assoc. split; [now rewrite I1|].
    split; [exact I2|]. split; [exact I3|].
    intros [|y got'] z more Eq; cbn [app] in Eq; injection Eq as -> ->; cbn [concat].
    - now rewrite app_nil_r.
    - rewrite app_assoc. eapply I4. reflexivity. }
  cbn [pb_receive].
  destruct (size_stable c have (concat (x :: todo)) Hsm' Hsm s Hs pos Hp) as [S|S].
  - destruct (des_size c have s pos) as [[r m] q] eqn:E1. cbn [fst] in S. subst r. apply W.
    destruct (Nat.le_gt_cases p (length have)) as [G|G]; [exfalso|lia].
    pose proof (des_size_local c s Hs (have ++ concat (x :: todo)) have pos n p Hsm Hsm'
      ltac:(rewrite app_length; lia) Hp E) as A. cbn beta in A.
    apply Nat.leb_le in G as G'. rewrite G' in A. rewrite A in E1; [discriminate E1|].
    intros i Hi. apply nth_error_app1. lia.
  - rewrite S in E. rewrite E. destruct (N.leb_spec (N.of_nat p + n) (N.of_nat (length have))) as [G|G].
    + exists [], (x :: todo). cbn [concat app]. rewrite app_nil_r. split; [reflexivity|].
      rewrite (pb_announced_only P c fuel s k have (x ++ concat todo) item pos n p); auto.
      split; [reflexivity|]. split; [exact G|]. intros [|? ?]; discriminate.
    + now apply W.
Qed.

(** If it does not, the item is as it was before. *)
Theorem pb_pieces_incomplete P c fuel s k pos have todo item :
  wfsz (Some s) = true -> small (have ++ concat todo) -> (pos <= length have)%nat ->
  match des_size c (have ++ concat todo) s pos with
  | (ROk, n, p) => N.of_nat (length (have ++ concat todo)) < N.of_nat p + n
  | (r, _, _) => r = RErr result_out_of_range
  end ->
  pb_receive P c fuel s k pos have todo item
  = ((RErr result_out_of_range, item, pos), have ++ concat todo, []).
Proof.
  intro Hs. revert have. induction todo as [|x todo IH]; intros have Hsm Hp E.
  { cbn [concat] in *. rewrite app_nil_r in *. cbn [pb_receive].
    destruct (des_size c have s pos) as [[r n] p]. destruct r as [|[]| | |]; try discriminate E; try reflexivity.
    destruct (N.leb_spec (N.of_nat p + n) (N.of_nat (length have))); [lia|reflexivity]. }
  assert (Hsm' : small have) by (unfold small in *; rewrite app_length in Hsm; lia).
  assert (W : pb_receive P c fuel s k pos (have ++ x) todo item
    = ((RErr result_out_of_range, item, pos), have ++ concat (x :: todo), [])).
  { cbn [concat] in *. rewrite app_assoc in *. apply IH; auto. rewrite app_length. lia. }
  cbn [pb_receive].
  destruct (size_stable c have (concat (x :: todo)) Hsm' Hsm s Hs pos Hp) as [S|S].
  - destruct (des_size c have s pos) as [[r m] q]. cbn [fst] in S. subst r. exact W.
  - rewrite S in E. destruct (des_size c have s pos) as [[r n] p]. destruct r as [|[]| | |]; try discriminate E; try exact W.
    destruct (N.leb_spec (N.of_nat p + n) (N.of_nat (length have))) as [G|G]; [|exact W].
    rewrite app_length in E. lia.
Qed.

(** ** Messages of the library *)

(** [e] is what the sender appended for the message [l]: its size and its fields. *)
Definition pb_appended (P : penv) (c : cfg) (s : sizety) (k : nat) (l : list val) (e : list byte) : Prop :=
  pb_writing P c s k l /\ exists st st', ost_ok st /\ ser_pb_item P c s k l st = (ROk, st')
    /\ e = window (obuf st') (opos st) (opos st' - opos st).

(** A message, what its item holds, and its bytes. *)
Definition pb_sent (P : penv) (cw cr : cfg) (s : sizety) (fuel : nat)
  (m : list val * (nat * list val)) (e : list byte) : Prop :=
  let '(l, (k, prior)) := m in
  pb_appended P cw s k l e
  /\ pb_prefix_ok cr s (N.of_nat (length (message_bytes P k l)))
  /\ preadable P (pb_room cr) (VSeq l) (PMsg k) = true
  /\ pwt P (VSeq prior) (PMsg k) = true
  /\ (length (message_bytes P k l) < fuel)%nat.

Theorem pb_pieces_round_trip P cw cr s fuel l k prior e have todo pos :
  pb_sent P cw cr s fuel (l, (k, prior)) e -> host_le cr = host_le cw -> s <> SzNone ->
  has_at (have ++ concat todo) pos e -> (pos <= length have)%nat ->
  N.of_nat (length (have ++ concat todo)) < 2 ^ 63 ->
  let p := (pos + length e)%nat in
  exists got rest,
    todo = got ++ rest
    /\ pb_receive P cr fuel s k pos have todo (VSeq prior) = ((ROk, VSeq l, p), have ++ concat got, rest)
    /\ (p <= length (have ++ concat got))%nat
    /\ (forall got' x more, got = got' ++ x :: more -> (length (have ++ concat got') < p)%nat).
Proof.
  intros ((W & st & st' & Ho & E & He) & Hpp & Hr & Hpr & Hf) Hh Hne Hat Hp Hsm p.
  assert (Hsm' : small (have ++ concat todo)).
  { unfold small. change (2 ^ 63) with 9223372036854775808 in Hsm. change (2 ^ 64) with 18446744073709551616. lia. }
  destruct (pb_written _ _ _ _ _ _ _ W Ho E) as (Q & Hw & _).
  set (n := N.of_nat (length (message_bytes P k l))) in *.
  assert (Ep : forall n, proto_prefix cw s n = proto_prefix cr s n).
  { intro m. destruct s; cbn [proto_prefix]; try reflexivity. unfold hostrep. now rewrite Hh. }
  assert (Ee : e = proto_prefix cr s n ++ message_bytes P k l).
  { rewrite He. rewrite <- Ep. destruct Hw as [_ Hw]. rewrite Q. rewrite <- Hw at 2. f_equal. lia. }
  assert (Le : length e = (opos st' - opos st)%nat).
  { rewrite Ee, <- Ep, Q. lia. }
  pose proof (pb_round_trip P cw cr s k l st st' (have ++ concat todo) pos fuel prior W Ho E Hh Hne Hpp Hr Hpr Hsm Hf) as R.
  rewrite <- He, <- Le in R. specialize (R Hat).
  rewrite Ee in Hat. apply has_at_app in Hat as [A1 A2].
  pose proof Hpp as [H1 H2 H3 H4].
  pose proof (protocol_prefix_read cr s n _ pos H1 Hne H2 (H3 Hne) H4 Hsm A1) as Z.
  destruct A2 as [A2 _].
  destruct (pb_pieces_same P cr fuel s k pos have todo (VSeq prior) n _ H1 Hne Hsm' Hp Z ltac:(lia))
    as (got & rest & P1 & P2 & P3 & P4).
  assert (Lp : N.of_nat p = N.of_nat (pos + length (proto_prefix cr s n)) + n).
  { unfold p. rewrite Ee, app_length. lia. }
  exists got, rest. split; [exact P1|]. split; [rewrite P2, R; reflexivity|]. split; [lia|].
  intros got' x more Eq. specialize (P4 got' x more Eq). lia.
Qed.

(** A stream of messages. *)
Theorem pb_pieces_stream P cw cr s fuel ms es have todo pos :
  Forall2 (pb_sent P cw cr s fuel) ms es -> host_le cr = host_le cw -> s <> SzNone ->
  has_at (have ++ concat todo) pos (concat es) -> (pos <= length have)%nat ->
  N.of_nat (length (have ++ concat todo)) < 2 ^ 63 ->
  pb_receive_all P cr fuel s pos have todo (map (fun m => (fst (snd m), VSeq (snd (snd m)))) ms)
  = (ROk, map (fun m => VSeq (fst m)) ms, (pos + length (concat es))%nat).
Proof.
  intros H Hh Hne. revert have todo pos.
  induction H as [|[l [k prior]] e ms es H1 _ IH]; intros have todo pos Hat Hp Hsm;
    cbn [map fst snd pb_receive_all concat length].
  { now rewrite Nat.add_0_r. }
  cbn [concat] in Hat. apply has_at_app in Hat as [A1 A2].
  destruct (pb_pieces_round_trip _ _ _ _ _ _ _ _ _ _ _ _ H1 Hh Hne A1 Hp Hsm) as (got & rest & P1 & P2 & P3 & _).
  rewrite P2. assert (Q : have ++ concat todo = (have ++ concat got) ++ concat rest).
  { rewrite P1, concat_app, app_assoc. reflexivity. }
  rewrite Q in A2, Hsm. rewrite (IH _ _ _ A2 P3 Hsm). rewrite app_length. now rewrite Nat.add_assoc.
Qed.

(** ** The simpler loop *)

(** Reading at once and waiting on result_out_of_range does not do: the demo message without its
    last record is accepted, and the record is taken for the start of the next message. *)
Definition pb_demo_bytes : list byte :=
  let st := snd (ser_pb_item pb_demo vec_cfg (SzFix 4) 0 pb_demo_val (mkO [] 0)) in firstn (opos st) (obuf st).
Definition pb_demo_item : list val :=
  [pb_text [1; 2; 3]; VN 9; VSeq [VSeq [pb_text []; VN 0]]; VSeq []; VSeq [VN 7]; VSeq [];
   VN 0; VSeq [pb_text [9; 9]; VN 77]; VSeq [VN 3]; VSeq []; VN 5].

Theorem pb_pieces_retry_refuted :
  exists have x v p,
    have ++ x = pb_demo_bytes /\ x <> []
    /\ pb_receive pb_demo vec_cfg 200 (SzFix 4) 0 0 have [x] (VSeq pb_demo_item)
       = ((ROk, VSeq pb_demo_val, length pb_demo_bytes), pb_demo_bytes, [])
    /\ pb_retry pb_demo vec_cfg 200 (SzFix 4) 0 0 have [x] (VSeq pb_demo_item) = ((ROk, v, p), have, [x])
    /\ v <> VSeq pb_demo_val /\ p = length have.
Proof.
  exists (firstn (length pb_demo_bytes - 5) pb_demo_bytes), (skipn (length pb_demo_bytes - 5) pb_demo_bytes).
  do 2 eexists. split; [vm_compute; reflexivity|]. split; [vm_compute; discriminate|].
  split; [vm_compute; reflexivity|]. split; [vm_compute; reflexivity|]. split; [vm_compute; discriminate|].
  vm_compute; reflexivity.
Qed.

(** ** Examples *)

Example pb_pieces_nontrivial :
  let m := (pb_demo_val, (0%nat, pb_demo_item)) in
  pb_sent pb_demo vec_cfg vec_cfg (SzFix 4) 200 m pb_demo_bytes
  /\ length pb_demo_bytes = 94%nat
  /\ pb_receive_all pb_demo vec_cfg 200 (SzFix 4) 0 []
       [firstn 3 pb_demo_bytes; skipn 3 pb_demo_bytes ++ firstn 40 pb_demo_bytes; skipn 40 pb_demo_bytes]
       [(0%nat, VSeq pb_demo_item); (0%nat, VSeq pb_demo_item)]
     = (ROk, [VSeq pb_demo_val; VSeq pb_demo_val], 188%nat).
Proof.
  split; [|split; vm_compute; reflexivity].
  split; [split; [apply pb_demo_writing; now right|]|].
  { exists (mkO [] 0), (snd (ser_pb_item pb_demo vec_cfg (SzFix 4) 0 pb_demo_val (mkO [] 0))).
    split; [unfold ost_ok; cbn; lia|]. split; vm_compute; reflexivity. }
  split; [constructor; try (intros; left); vm_compute; reflexivity|].
  split; [vm_compute; reflexivity|]. split; [vm_compute; reflexivity|].
  apply Nat.ltb_lt. vm_compute. reflexivity.
Qed.

(** Nothing is touched while the message is not complete. *)
Example pb_pieces_waiting :
  pb_receive pb_demo vec_cfg 200 (SzFix 4) 0 0 [] [firstn 3 pb_demo_bytes; firstn 50 (skipn 3 pb_demo_bytes)] (VSeq pb_demo_item)
  = ((RErr result_out_of_range, VSeq pb_demo_item, 0%nat), firstn 53 pb_demo_bytes, []).
Proof. vm_compute. reflexivity. Qed.

Print Assumptions pb_announced_only.
Print Assumptions pb_pieces_same.
Print Assumptions pb_pieces_incomplete.
Print Assumptions pb_pieces_round_trip.
Print Assumptions pb_pieces_stream.
Print Assumptions pb_pieces_retry_refuted.
