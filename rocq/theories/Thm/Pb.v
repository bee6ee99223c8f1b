(** C30-C35, C45: protocol buffers. *)

From Coq Require Import List NArith ZArith Lia Bool Arith.
From Coq Require Import ZifyBool ZifyNat ZifyN.
From Verif Require Import Base.Bytes Model.Types Model.Machine Model.Varint Model.Out Model.In
  Model.Loops Model.Protocol Model.Pb
  Spec.Leb128 Spec.Wire Spec.PbWire Spec.PbMerge
  Proofs.VarintP Proofs.OutP Proofs.InBase Proofs.InSafe Proofs.InRound Proofs.ProtoP
  Proofs.PbOut Proofs.PbParse Proofs.PbIn Proofs.PbRead Proofs.PbRound
  Thm.Demo Thm.Output Thm.Protocol.
Import ListNotations.
Local Open Scope N_scope.

Ltac Zify.zify_post_hook ::= Z.div_mod_to_equations.

(** The archive does not combine a varint default size with endian::big on a little endian
    host, the one combination in which the library leaves the byte order as it is. *)
Definition pb_order_ok (c : cfg) : bool :=
  match dsize c with SzVar _ => negb (host_le c && swap c) | _ => true end.

Lemma pb_order_little c : pb_order_ok c = true -> little_out (pb_ocfg c).
Proof.
  unfold pb_order_ok, pb_ocfg, pb_direct, little_out. intro H.
  destruct (dsize c); cbn [host_le swap]; try (now destruct (host_le c)).
  destruct (host_le c) eqn:E1, (swap c) eqn:E2; cbn in *; try discriminate;
    rewrite ?E1, ?E2; reflexivity.
Qed.

(** What writing message [l] of class [k] with size type [s] requires. *)
Record pb_writing (P : penv) (c : cfg) (s : sizety) (k : nat) (l : list val) : Prop := {
  pw_cfg : wf_out c;
  pw_size : wfsz (Some (dsize c)) = true;
  pw_order : pb_order_ok c = true;
  pw_s : wfsz (Some s) = true;
  pw_env : wf_penv P;
  pw_numbers : rep_numbers P;
  pw_wt : pwt P (VSeq l) (PMsg k) = true;
  (* the nested length prefixes are varints of the archive's size type *)
  pw_nested : N.of_nat (length (message_bytes P k l)) < 128 ^ N.of_nat (pb_width c);
  pw_fits : size_fits s (N.of_nat (length (message_bytes P k l)));
  pw_small : N.of_nat (length (proto_prefix c s (N.of_nat (length (message_bytes P k l)))
                               ++ message_bytes P k l)) < 2 ^ 63
}.

(** ** C30: output *)

(** The outcome of writing a message, on any buffer. *)
Theorem pb_output P c s k l :
  pb_writing P c s k l ->
  forall st, ost_ok st ->
  let e := proto_prefix c s (N.of_nat (length (message_bytes P k l))) ++ message_bytes P k l in
  let '(r, st') := ser_pb_item P c s k l st in
  match r with
  | ROk => wrote_exactly c st e st'
  | RErr result_out_of_range =>
      growable c = false /\ framed c st st' /\ (length (obuf st) - opos st < length e)%nat
  | RErr no_buffer_space | RThrow => growable c = true /\ framed c st st'
  | _ => False
  end /\
  (forall E, rich c E -> (opos st + length e <= E)%nat -> r = ROk).
Proof.
  intros [W1 W2 W3 W4 W5 W6 W7 W8 W9 W10] st Hok.
  exact (pemits_pb_item P c s k l W5 W6 (pb_order_little c W3) W2 W4 W7 W8 W9 W1 W10 st Hok).
Qed.

Lemma pb_written P c s k l st st' :
  pb_writing P c s k l -> ost_ok st -> ser_pb_item P c s k l st = (ROk, st') ->
  let e := proto_prefix c s (N.of_nat (length (message_bytes P k l))) ++ message_bytes P k l in
  opos st' = (opos st + length e)%nat /\ has_at (obuf st') (opos st) e /\ ost_ok st'.
Proof.
  intros W Hok E e. pose proof (pb_output P c s k l W st Hok) as H. rewrite E in H.
  destruct H as [H _]. pose proof (wrote_ok _ _ _ _ Hok H) as Hok'.
  destruct H as (z & -> & Hz & Hg). fold e in Hz |- *. cbn [obuf opos] in *.
  split; [reflexivity|]. split; [|exact Hok'].
  destruct Hok. split.
  - rewrite overwrite_length; rewrite ?app_length, ?zeros_length; lia.
  - apply window_overwrite. rewrite app_length, zeros_length. lia.
Qed.

(** The bytes written are, for an independent protobuf parser, exactly the records of the
    members.  [standard]: no std::byte members, no C arrays and no containers of
    containers of wide elements. *)
Theorem pb_output_conforms P c k l st st' :
  pb_writing P c SzNone k l -> standard P -> ost_ok st ->
  ser_pb_item P c SzNone k l st = (ROk, st') ->
  parse (window (obuf st') (opos st) (opos st' - opos st)) = Some (message_records P k l).
Proof.
  intros W HS Hok E. destruct (pb_written _ _ _ _ _ _ _ W Hok E) as (Hp & Hat & _).
  cbn [proto_prefix app] in *. rewrite Hp, Nat.add_comm, Nat.add_sub.
  destruct Hat as [_ ->]. destruct W. apply parse_records_exact. now apply message_records_valid.
Qed.

(** Embedded messages are again sequences of records for the parser: any sequence of valid
    records is parsed back. *)
Theorem pb_records_unambiguous rs :
  forallb valid_record rs = true -> parse (records_bytes rs) = Some rs.
Proof. exact (parse_records_exact rs). Qed.

Theorem pb_embedded_records P k l :
  wf_penv P -> standard P -> pwt P (VSeq l) (PMsg k) = true ->
  parse (message_bytes P k l) = Some (message_records P k l).
Proof. intros. apply parse_records_exact. now apply message_records_valid. Qed.

(** With a size type, the same after the length. *)
Theorem pb_output_sized P c s k l st st' :
  pb_writing P c s k l -> standard P -> ost_ok st ->
  ser_pb_item P c s k l st = (ROk, st') ->
  let n := length (message_bytes P k l) in
  window (obuf st') (opos st) (opos st' - opos st)
  = proto_prefix c s (N.of_nat n) ++ message_bytes P k l /\
  parse (window (obuf st') (opos st' - n) n) = Some (message_records P k l).
Proof.
  intros W HS Hok E n. destruct (pb_written _ _ _ _ _ _ _ W Hok E) as (Hp & Hat & _).
  assert (Hw := proj2 Hat).
  split.
  - rewrite Hp, Nat.add_comm, Nat.add_sub. exact Hw.
  - apply has_at_app in Hat as [_ [_ H2]]. rewrite app_length in Hp. fold n in Hp, H2.
    replace (opos st' - n)%nat with (opos st + length (proto_prefix c s (N.of_nat n)))%nat by lia.
    rewrite H2. destruct W. now apply pb_embedded_records.
Qed.

(** *** The demonstration schema *)

(** message 0 { string name = 1; sint32 id = 2; repeated phone phones = 4 (pb_map);
      map<fixed32, string> notes = 7 (pb_field); repeated int64 counts = 5;
      repeated fixed64 stamps = 6; bool active = 8; phone main = 9;
      std::set of uint32 = 11; an empty class; fixed32 = 12 }
    message 1 (phone) { string number = 1; enum type = 2; } *)
Definition str : pty := PFixes (CSeq true (Some 1)) 1.
Definition set_kind : akind := mkAkind false false (AOrd lt_n).
Definition pb_demo : penv := fun k =>
  match k with
  | O => mkPmsg
      [(None, str); (None, PVar 4 true true); (None, PMsgs (CSeq true (Some 64)) 1);
       (Some 7, PMap map_kind (PFix 4) str);
       (None, PVars (CSeq true (Some 8)) 8 true false); (None, PFixes (CSeq true (Some 8)) 8);
       (Some 8, PBool); (Some 9, PMsg 1); (Some 11, PVars (CSet set_kind None) 4 false false);
       (None, PEmpty); (Some 12, PFix 4)]
      [(3, 4)]
      [VSeq []; VN 0; VSeq []; VSeq []; VSeq []; VSeq []; VN 0; VSeq [VSeq []; VN 0]; VSeq []; VSeq [];
       VN 0]
  | S O => mkPmsg [(None, str); (None, PVar 4 false false)] [] [VSeq []; VN 0]
  | _ => mkPmsg [] [] []
  end.
Definition pb_text (l : list N) : val := VSeq (map VN l).
Definition pb_demo_val : list val :=
  [pb_text [65; 66]; VN (2 ^ 32 - 3);
   VSeq [VSeq [pb_text [49; 50]; VN 1]; VSeq [pb_text []; VN 300]];
   VSeq [VSeq [VN 1; pb_text [97]]; VSeq [VN 256; pb_text [98; 99]]];
   VSeq [VN 5; VN (2 ^ 64 - 1)]; VSeq [VN 1; VN 2]; VN 1; VSeq [pb_text [51]; VN 2];
   VSeq [VN 3; VN 200]; VSeq []; VN 0x01020304].

Lemma pb_demo_wf : wf_penv pb_demo.
Proof. intros [|[|k]]; vm_compute; reflexivity. Qed.
Lemma pb_demo_numbers : rep_numbers pb_demo.
Proof. intros [|[|k]]; vm_compute; reflexivity. Qed.
Lemma pb_demo_standard : standard pb_demo.
Proof. intros [|[|k]]; vm_compute; reflexivity. Qed.

Lemma pb_demo_writing s : s = SzNone \/ s = SzFix 4 -> pb_writing pb_demo vec_cfg s 0 pb_demo_val.
Proof.
  intros [-> | ->]; constructor;
    try apply pb_demo_wf; try apply pb_demo_numbers; try (vm_compute; reflexivity);
    vm_compute; repeat split; discriminate.
Qed.

Example pb_output_nontrivial :
  pb_writing pb_demo vec_cfg SzNone 0 pb_demo_val /\ standard pb_demo /\
  exists st', ser_pb_item pb_demo vec_cfg SzNone 0 pb_demo_val (mkO [x55] 1) = (ROk, st') /\
    firstn 12 (skipn 1 (obuf st'))
    = [x0a; x02; x41; x42; x10; x05; x22; x06; x0a; x02; x31; x32] /\
    parse (skipn 1 (firstn (opos st') (obuf st'))) = Some (message_records pb_demo 0 pb_demo_val).
Proof.
  split; [apply pb_demo_writing; now left|]. split; [exact pb_demo_standard|].
  eexists. split; [vm_compute; reflexivity|]. split; vm_compute; reflexivity.
Qed.

(** *** Where the output does not conform *)

(** An archive with size_varint and endian::big on a little endian host writes fixed-width
    fields big endian. *)
Definition pb_fixed : penv := fun _ => mkPmsg [(None, PFix 4)] [] [VN 0].
Definition varint_big_cfg : cfg :=
  mkCfg true true (SzVar 8) None 3 2 false false true (fun _ => true) (fun _ => 8).
Theorem pb_output_big_endian_refuted :
  exists P c k l st', wf_penv P /\ standard P /\ pwt P (VSeq l) (PMsg k) = true /\
    ser_pb_item P c SzNone k l (mkO [] 0) = (ROk, st') /\
    parse (firstn (opos st') (obuf st')) <> Some (message_records P k l) /\
    des_pb_item P c (firstn (opos st') (obuf st')) 20 SzNone k (VSeq l) 0 <> (ROk, VSeq l, opos st').
Proof.
  exists pb_fixed, varint_big_cfg, 0%nat, [VN 1]. eexists.
  split; [intro k; vm_compute; reflexivity|]. split; [intro k; vm_compute; reflexivity|].
  split; [vm_compute; reflexivity|]. split; [vm_compute; reflexivity|].
  split; vm_compute; discriminate.
Qed.

(** A std::byte member is tagged length-delimited but has no length. *)
Definition pb_byte : penv := fun _ => mkPmsg [(None, PByte)] [] [VN 0].
Theorem pb_output_byte_refuted :
  exists P k l st', wf_penv P /\ rep_numbers P /\ pwt P (VSeq l) (PMsg k) = true /\
    ser_pb_item P vec_cfg SzNone k l (mkO [] 0) = (ROk, st') /\
    parse (firstn (opos st') (obuf st')) = None.
Proof.
  exists pb_byte, 0%nat, [VN 5]. eexists.
  split; [intro k; vm_compute; reflexivity|]. split; [intro k; vm_compute; reflexivity|].
  split; [vm_compute; reflexivity|]. split; vm_compute; reflexivity.
Qed.

(** The elements of a container of containers of 4-byte integers are preceded by the number
    of integers instead of the number of bytes. *)
Definition pb_nested_vec : penv := fun _ =>
  mkPmsg [(None, PStrs (CSeq true (Some 24)) true 4)] [] [VSeq []].
Theorem pb_output_nested_vector_refuted :
  exists P k l st', wf_penv P /\ rep_numbers P /\ pwt P (VSeq l) (PMsg k) = true /\
    ser_pb_item P vec_cfg SzNone k l (mkO [] 0) = (ROk, st') /\
    parse (firstn (opos st') (obuf st')) = None.
Proof.
  exists pb_nested_vec, 0%nat, [VSeq [VSeq [VN 1; VN 2]]]. eexists.
  split; [intro k; vm_compute; reflexivity|]. split; [intro k; vm_compute; reflexivity|].
  split; [vm_compute; reflexivity|]. split; vm_compute; reflexivity.
Qed.

(** A C array is tagged length-delimited but has no length either.  For the parser its first
    bytes are a length and the bytes after that many are further fields: here the array holds
    what another member of the same message is to be.  The library itself reads it back. *)
Definition pb_array : penv := fun _ =>
  mkPmsg [(None, PVar 4 false false); (None, PArr 3 1)] [] [VN 0; VSeq [VN 0; VN 0; VN 0]].
Theorem pb_output_array_refuted :
  exists P k l st', wf_penv P /\ rep_numbers P /\ pwt P (VSeq l) (PMsg k) = true /\
    ser_pb_item P vec_cfg SzNone k l (mkO [] 0) = (ROk, st') /\
    l = [VN 1; VSeq [VN 0; VN 8; VN 99]] /\
    parse (firstn (opos st') (obuf st')) = Some [(1, WVar 1); (2, WLen []); (1, WVar 99)] /\
    des_pb_item P vec_cfg (firstn (opos st') (obuf st')) 20 SzNone k
      (VSeq [VN 7; VSeq [VN 7; VN 7; VN 7]]) 0 = (ROk, VSeq l, opos st').
Proof.
  exists pb_array, 0%nat, [VN 1; VSeq [VN 0; VN 8; VN 99]]. eexists.
  split; [intro k; vm_compute; reflexivity|]. split; [intro k; vm_compute; reflexivity|].
  split; [vm_compute; reflexivity|]. split; [vm_compute; reflexivity|].
  split; [reflexivity|]. split; vm_compute; reflexivity.
Qed.

(** A pb_field number on a container of messages is not used by the writer, so the reader
    loses the elements. *)
Definition pb_numbered : penv := fun k =>
  match k with
  | O => mkPmsg [(Some 5, PMsgs (CSeq true (Some 8)) 1)] [] [VSeq []]
  | _ => mkPmsg [(Some 5, PFix 4)] [] [VN 0]
  end.
Theorem pb_round_trip_numbered_refuted :
  exists P k l st' r v p, wf_penv P /\ standard P /\ pwt P (VSeq l) (PMsg k) = true /\
    ser_pb_item P vec_cfg SzNone k l (mkO [] 0) = (ROk, st') /\
    parse (firstn (opos st') (obuf st')) <> Some (message_records P k l) /\
    des_pb_item P vec_cfg (firstn (opos st') (obuf st')) 20 SzNone k (VSeq l) 0 = (r, v, p) /\
    v <> VSeq l.
Proof.
  exists pb_numbered, 0%nat, [VSeq [VSeq [VN 7]]]. do 4 eexists.
  split; [intros [|k]; vm_compute; reflexivity|]. split; [intros [|k]; vm_compute; reflexivity|].
  split; [vm_compute; reflexivity|]. split; [vm_compute; reflexivity|].
  split; [vm_compute; discriminate|]. split; [vm_compute; reflexivity|]. discriminate.
Qed.

(** ** C31: round trip *)

(** Requests for [n] bytes are granted. *)
Definition pb_room (c : cfg) (n : N) : bool := can_alloc c n && within_limit c n.

Lemma pb_room_ok c n :
  pb_room c n = true ->
  can_alloc (pb_icfg c) n = true /\ match alim (pb_icfg c) with Some lim => n <= lim | None => True end.
Proof.
  unfold pb_room, within_limit. intro H. apply andb_true_iff in H as [H1 H2]. split; [exact H1|].
  cbn [alim pb_icfg]. revert H2. case (alim c); [|trivial]. intros lim H2. now apply N.leb_le.
Qed.

Lemma pb_icfg_little c : little_out (pb_icfg c).
Proof. unfold little_out, pb_icfg. cbn [host_le swap]. now destruct (host_le c). Qed.

(** Reading follows the record-by-record specification, for any target and any valid message. *)
Theorem pb_reads_records P c f k prior rs res :
  wf_penv P -> merges_message P (pb_room c) k prior rs res ->
  small (records_bytes rs) -> (length (records_bytes rs) < f)%nat ->
  des_fields P (pb_icfg c) f k (records_bytes rs) prior = (ROk, res, length (records_bytes rs)).
Proof.
  intros HP H. apply (reads_message P (pb_icfg c) (pb_room c) HP (pb_icfg_little c) eq_refl); auto.
  intro n. apply pb_room_ok.
Qed.

(** The length prefix as the reader needs it. *)
Record pb_prefix_ok (c : cfg) (s : sizety) (n : N) : Prop := {
  pp_s : wfsz (Some s) = true;
  pp_fits : size_fits s n;
  pp_width : s <> SzNone -> n < pow256 (size_width s);
  pp_order : forall w, s = SzFix w -> swap c = false \/ w = 1%nat
}.

Lemma des_protocol_prefix c s n data pos body prior :
  s <> SzNone -> pb_prefix_ok c s n -> N.of_nat (length data) < 2 ^ 63 ->
  has_at data pos (proto_prefix c s n) ->
  des_protocol c data s body prior pos = body (Some n) prior (pos + length (proto_prefix c s n))%nat.
Proof.
  intros Hne [H1 H2 H3 H4] Hd Hat. unfold des_protocol.
  pose proof (protocol_prefix_read c s n data pos H1 Hne H2 (H3 Hne) H4 Hd Hat) as E.
  destruct s; [congruence|..]; now rewrite E.
Qed.

Lemma nested_reads_all data fields prior b res pos size :
  has_at data pos b -> (size = Some (N.of_nat (length b)) \/ size = None /\ length data = (pos + length b)%nat) ->
  fields b (as_seq prior) = (ROk, res, length b) ->
  des_nested data fields size prior pos = (ROk, VSeq res, (pos + length b)%nat).
Proof.
  intros Hat Hsz Hf. pose proof (has_at_le _ _ _ Hat) as HL.
  unfold des_nested, rest_of. replace (_ <=? _)%nat with true by lia. rewrite skipn_length.
  assert (E : (match size with
               | Some s => N.to_nat (N.min s (N.of_nat (length data - pos)))
               | None => length data - pos end)%nat = length b).
  { destruct Hsz as [-> | [-> Hsz]]; lia. }
  rewrite E, (has_at_rest _ _ _ Hat), Hf. reflexivity.
Qed.

(** A message with its length, anywhere in the data, whatever follows. *)
Theorem pb_reads_sized P c s k prior rs res data pos fuel :
  wf_penv P -> merges_message P (pb_room c) k prior rs res ->
  let b := records_bytes rs in
  s <> SzNone -> pb_prefix_ok c s (N.of_nat (length b)) -> N.of_nat (length data) < 2 ^ 63 ->
  has_at data pos (proto_prefix c s (N.of_nat (length b)) ++ b) -> (length b < fuel)%nat ->
  des_pb_item P c data fuel s k (VSeq prior) pos
  = (ROk, VSeq res, (pos + length (proto_prefix c s (N.of_nat (length b)) ++ b))%nat).
Proof.
  intros HP Hm b Hne Hpp Hd Hat Hf. unfold des_pb_item. apply has_at_app in Hat as [H1 H2].
  rewrite (des_protocol_prefix c s _ data pos _ _ Hne Hpp Hd H1).
  rewrite app_length, Nat.add_assoc.
  apply nested_reads_all; [exact H2|now left|].
  apply pb_reads_records; auto. unfold small. apply has_at_le in H2. fold b.
  change (2 ^ 63) with 9223372036854775808 in Hd. change (2 ^ 64) with 18446744073709551616. lia.
Qed.

(** A message without a length extends to the end of the data. *)
Theorem pb_reads_unsized P c k prior rs res data pos fuel :
  wf_penv P -> merges_message P (pb_room c) k prior rs res ->
  let b := records_bytes rs in
  small data -> has_at data pos b -> length data = (pos + length b)%nat -> (length b < fuel)%nat ->
  des_pb_item P c data fuel SzNone k (VSeq prior) pos = (ROk, VSeq res, length data).
Proof.
  intros HP Hm b Hd Hat Hl Hf. unfold des_pb_item, des_protocol. rewrite Hl.
  apply nested_reads_all; [exact Hat|now right|].
  apply pb_reads_records; auto. unfold small in *. apply has_at_le in Hat. fold b. lia.
Qed.

(** What is written is read back, into any target object, by any archive on a host of the
    same byte order (only the fixed-width length prefix depends on the host). *)
Theorem pb_round_trip P cw cr s k l st st' data pos fuel prior :
  pb_writing P cw s k l -> ost_ok st -> ser_pb_item P cw s k l st = (ROk, st') ->
  host_le cr = host_le cw -> s <> SzNone ->
  pb_prefix_ok cr s (N.of_nat (length (message_bytes P k l))) ->
  preadable P (pb_room cr) (VSeq l) (PMsg k) = true ->
  pwt P (VSeq prior) (PMsg k) = true ->
  N.of_nat (length data) < 2 ^ 63 -> (length (message_bytes P k l) < fuel)%nat ->
  has_at data pos (window (obuf st') (opos st) (opos st' - opos st)) ->
  des_pb_item P cr data fuel s k (VSeq prior) pos
  = (ROk, VSeq l, (pos + (opos st' - opos st))%nat).
Proof.
  intros W Hok E Hh Hne Hpp Hr Hpr Hd Hf Hat.
  destruct (pb_written _ _ _ _ _ _ _ W Hok E) as (Hp & Hw & _).
  assert (Ed := Nat.add_sub (length (proto_prefix cw s (N.of_nat (length (message_bytes P k l)))
                                     ++ message_bytes P k l)) (opos st)).
  rewrite Nat.add_comm in Ed. rewrite Hp, Ed in *. rewrite (proj2 Hw) in Hat.
  assert (Ep : forall n, proto_prefix cw s n = proto_prefix cr s n).
  { intro n. destruct s; cbn [proto_prefix]; try reflexivity. unfold hostrep. now rewrite Hh. }
  rewrite Ep in *. destruct W.
  apply pb_reads_sized; auto. now apply message_restored.
Qed.

(** Without a length, when the message is all that remains. *)
Theorem pb_round_trip_unsized P cw cr k l st st' data pos fuel prior :
  pb_writing P cw SzNone k l -> ost_ok st -> ser_pb_item P cw SzNone k l st = (ROk, st') ->
  preadable P (pb_room cr) (VSeq l) (PMsg k) = true ->
  pwt P (VSeq prior) (PMsg k) = true ->
  small data -> (length (message_bytes P k l) < fuel)%nat ->
  has_at data pos (window (obuf st') (opos st) (opos st' - opos st)) ->
  length data = (pos + (opos st' - opos st))%nat ->
  des_pb_item P cr data fuel SzNone k (VSeq prior) pos = (ROk, VSeq l, length data).
Proof.
  intros W Hok E Hr Hpr Hd Hf Hat Hl.
  destruct (pb_written _ _ _ _ _ _ _ W Hok E) as (Hp & Hw & _).
  cbn [proto_prefix app] in *.
  assert (Ed := Nat.add_sub (length (message_bytes P k l)) (opos st)).
  rewrite Nat.add_comm in Ed. rewrite Hp, Ed in Hat, Hl. rewrite (proj2 Hw) in Hat. destruct W.
  apply (pb_reads_unsized P cr k prior (message_records P k l)); auto. now apply message_restored.
Qed.

(** Into a target that held something else, with data before and after. *)
Example pb_round_trip_nontrivial :
  pb_writing pb_demo vec_cfg (SzFix 4) 0 pb_demo_val /\
  pb_prefix_ok vec_cfg (SzFix 4) (N.of_nat (length (message_bytes pb_demo 0 pb_demo_val))) /\
  preadable pb_demo (pb_room vec_cfg) (VSeq pb_demo_val) (PMsg 0) = true /\
  let w := snd (ser_pb_item pb_demo vec_cfg (SzFix 4) 0 pb_demo_val (mkO [x55] 1)) in
  let prior := [pb_text [1; 2; 3]; VN 9; VSeq [VSeq [pb_text []; VN 0]]; VSeq []; VSeq [VN 7]; VSeq [];
                VN 0; VSeq [pb_text [9; 9]; VN 77]; VSeq [VN 3]; VSeq []; VN 5] in
  pwt pb_demo (VSeq prior) (PMsg 0) = true /\
  des_pb_item pb_demo vec_cfg (firstn (opos w) (obuf w) ++ [xff; xff]) 200 (SzFix 4) 0 (VSeq prior) 1
  = (ROk, VSeq pb_demo_val, opos w).
Proof.
  split; [apply pb_demo_writing; now right|].
  split; [constructor; try (intros; left); vm_compute; reflexivity|].
  split; [vm_compute; reflexivity|]. split; vm_compute; reflexivity.
Qed.

(** A std::byte of 0x80 or more is written as one byte but read as a varint. *)
Theorem pb_round_trip_byte_refuted :
  exists P k l st' e v p, wf_penv P /\ rep_numbers P /\ pwt P (VSeq l) (PMsg k) = true /\
    ser_pb_item P vec_cfg SzNone k l (mkO [] 0) = (ROk, st') /\
    des_pb_item P vec_cfg (firstn (opos st') (obuf st')) 20 SzNone k (VSeq [VN 0]) 0 = (RErr e, v, p).
Proof.
  exists pb_byte, 0%nat, [VN 200]. do 4 eexists.
  split; [intro k; vm_compute; reflexivity|]. split; [intro k; vm_compute; reflexivity|].
  split; [vm_compute; reflexivity|]. split; [vm_compute; reflexivity|]. vm_compute. reflexivity.
Qed.
